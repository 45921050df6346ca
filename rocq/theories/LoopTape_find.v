(** * findRelatedVariables and detectNonIndexedIndependents *)
From Coq Require Import List Arith Bool Lia Sorted.
From Verif Require Import LoopTape_model LoopTape_spec LoopTape_graph LoopTape_cmp.
Import ListNotations.
Local Open Scope nat_scope.

Lemma mem_In x l : mem x l = true <-> In x l.
Proof. unfold mem. rewrite existsb_exists. split; [intros [y [H E]]; apply Nat.eqb_eq in E; subst; exact H|intros H; exists x; split; [exact H|apply Nat.eqb_refl]]. Qed.
Lemma mem_false x l : mem x l = false <-> ~ In x l.
Proof. rewrite <- mem_In. destruct (mem x l); split; congruence. Qed.

Section Find.
Context {V : Type}.
Variable eqV : V -> V -> bool.
Hypothesis eqV_ok : forall a b, eqV a b = true <-> a = b.
Variable g : graph V.
Hypothesis W : recordedGraph g.
Variable deps : list (arg V).

Definition valid (d : nat) : Prop := exists a, nth_error deps d = Some a /\ dependent g a.
Definition shapeDep (d : nat) : option (tree V) := option_map (shapeOf g) (nth_error deps d).

Lemma uses_diag r o s : below g (r, r) (o, s) -> s = o.
Proof.
  intros H. remember (r, r) as p eqn:Ep. remember (o, s) as q eqn:Eq. revert o s Eq. induction H as [p|p r1 s1 a r' s' Hb IH A1 A2 I]; intros o s Eq.
  - rewrite Ep in Eq. injection Eq as <- <-. reflexivity.
  - injection Eq as <- <-. rewrite (IH Ep r1 s1 eq_refl) in A2. rewrite A1 in A2. injection A2 as <-. reflexivity.
Qed.
Lemma reach_below r o : reach g r o -> below g (r, r) (o, o).
Proof. induction 1 as [|k a k' R IH A I]; [constructor|]. apply (B_step g _ k k a); auto. Qed.

(** What holds of a pattern. *)
Definition patOk (p : pattern) : Prop :=
  p_const p = [] /\ (exists t, p_deps p = p_ref p :: t) /\ (forall d, In d (p_deps p) -> valid d /\ shapeDep d = shapeDep (p_ref p)) /\
  match nth_error deps (p_ref p) with
  | Some (AN r) =>
      (forall o a d j, In (o, a, d, j) (p_idx p) -> exists s, In d (p_deps p) /\ nth_error deps d = Some (AN s) /\ uses g r s o a j) /\
      posRef (p_ref p) (p_idx p) /\
      (forall d s, In d (p_deps p) -> d <> p_ref p -> nth_error deps d = Some (AN s) -> aligned g r s -> covered g d (p_idx p) r)
  | _ => p_idx p = []
  end.
Definition colOk (next : nat) (color : list nat) : Prop := List.length color = List.length g /\ Forall (fun c => c < next) color.

Lemma new_ok d : valid d -> patOk (newPattern d).
Proof.
  intros Hv. split; [reflexivity|]. split; [exists []; reflexivity|]. split.
  - cbn. intros d' [<-|[]]. auto.
  - cbn [newPattern p_ref p_idx p_deps]. destruct Hv as [a [E _]]. rewrite E. destruct a as [v|r]; [reflexivity|].
    split; [intros o a d' j []|]. split; [intros o a H; discriminate|]. intros d' s [<-|[]] H. congruence.
Qed.

Lemma testAdd_ok p d next color : patOk p -> valid d -> d <> p_ref p -> colOk next color ->
  exists b p' next' color', testAdd eqV g deps p d next color = POk (b, p', next', color') /\ colOk next' color' /\
    (b = true <-> shapeDep d = shapeDep (p_ref p)) /\
    (if b : bool then patOk p' /\ p_ref p' = p_ref p /\ p_deps p' = p_deps p ++ [d] else p' = p).
Proof.
  intros P [ad [Ed Vd]] Hne [C1 C2]. unfold testAdd. pose proof P as [Pc [[t Pt] [Pd Pi]]].
  assert (Vr : valid (p_ref p)) by (apply Pd; rewrite Pt; left; reflexivity). destruct Vr as [ar [Er Vr]].
  rewrite Er, Ed. rewrite Er in Pi. unfold shapeDep at 1 2. rewrite Er, Ed. cbn [option_map].
  assert (Pd' : shapeDep d = shapeDep (p_ref p) -> forall e, In e (p_deps p ++ [d]) -> valid e /\ shapeDep e = shapeDep (p_ref p)).
  { intros X e He. apply in_app_or in He. destruct He as [He|[<-|[]]]; [apply Pd, He|]. split; [exists ad; auto|exact X]. }
  destruct ar as [v|r], ad as [w|s].
  - exists (eqV v w). destruct (eqV v w) eqn:Ev.
    + apply eqV_ok in Ev. subst w. do 3 eexists. split; [reflexivity|]. split; [split; assumption|]. split; [split; reflexivity|].
      split; [|split; reflexivity]. split; [exact Pc|]. split; [exists (t ++ [d]); cbn [p_deps p_ref]; rewrite Pt; reflexivity|]. cbn [p_deps p_ref p_idx].
      split; [apply Pd'; unfold shapeDep; rewrite Er, Ed; reflexivity|]. rewrite Er. exact Pi.
    + do 3 eexists. split; [reflexivity|]. split; [split; assumption|]. split; [|reflexivity]. split; [discriminate|].
      intros X. exfalso. cbn in X. injection X as X. symmetry in X. apply eqV_ok in X. congruence.
  - exists false. do 3 eexists. split; [reflexivity|]. split; [split; assumption|]. split; [|reflexivity]. split; [discriminate|].
    intros X. exfalso. destruct Vd as [Ls Is]. destruct (nth_error g s) as [n|] eqn:En; [|apply nth_error_None in En; lia].
    rewrite (shape_op g s n W En Is) in X. cbn in X. discriminate.
  - exists false. do 3 eexists. split; [reflexivity|]. split; [split; assumption|]. split; [|reflexivity]. split; [discriminate|].
    intros X. exfalso. destruct Vr as [Ls Is]. destruct (nth_error g r) as [n|] eqn:En; [|apply nth_error_None in En; lia].
    rewrite (shape_op g r n W En Is) in X. cbn in X. discriminate.
  - destruct Vr as [Lr Ir], Vd as [Ls Is]. rewrite Pc. destruct Pi as [P1 [P2 P3]].
    set (st := mkS color next (p_idx p) (p_eo p)).
    assert (I : inv g (p_ref p) d next r s st [] []).
    { constructor; cbn [st s_color s_next s_idx].
      - split; [exact C1|]. split; [exact C2|exact P2].
      - lia.
      - intros n c Hn Hc. exfalso. rewrite Forall_forall in C2. assert (c < next) by (apply C2, nth_error_In with (1 := Hn)). lia.
      - intros c r1 s1 [].
      - intros c r1 s1 r2 s2 [].
      - intros c r1 s1 []. }
    destruct (cmp_ok eqV eqV_ok g W (p_ref p) d next r s Lr Ls Ir (List.length (p_deps p) =? 1) (S (List.length g)) r s st [] []) as [b [st' [-> [G1 [G2 [G3 G4]]]]]].
    + lia.
    + exact Ir.
    + constructor.
    + exact I.
    + intros r' s' [].
    + cbn [pbind fst snd]. exists b. destruct G1 as [B1 [B2 B3]].
      assert (Sh : b = true <-> Some (shapeOf g (AN s)) = Some (shapeOf g (AN r))).
      { rewrite G3. split; [intros ->; reflexivity|intros X; injection X as X; symmetry; exact X]. }
      destruct b.
      * destruct G4 as [_ Cv]; [reflexivity|]. do 3 eexists. split; [reflexivity|]. split; [split; assumption|]. split; [exact Sh|].
        split; [|split; reflexivity]. split; [reflexivity|]. split; [exists (t ++ [d]); cbn [p_deps p_ref]; rewrite Pt; reflexivity|]. cbn [p_deps p_ref p_idx].
        split; [apply Pd'; unfold shapeDep; rewrite Er, Ed; cbn [option_map]; apply Sh; reflexivity|]. rewrite Er.
        destruct G2 as [_ [pre [Ex F]]]. cbn [st s_idx] in Ex. split; [|split; [exact B3|]].
        -- intros o a d' j Hin. rewrite Ex in Hin. apply in_app_or in Hin. destruct Hin as [Hin|Hin].
           ++ rewrite Forall_forall in F. destruct (F _ Hin) as [[-> U]|[-> [A [Ij R]]]].
              ** exists s. split; [apply in_or_app; right; left; reflexivity|]. split; [exact Ed|exact U].
              ** exists r. split; [apply in_or_app; left; rewrite Pt; left; reflexivity|]. split; [exact Er|]. exists o.
                 split; [apply reach_below, R|]. auto.
           ++ destruct (P1 o a d' j Hin) as [s' [X [Y Z]]]. exists s'. split; [apply in_or_app; left; exact X|]. auto.
        -- intros d' s' Hin Hn Es Al. apply in_app_or in Hin. destruct Hin as [Hin|[<-|[]]].
           ++ intros r' R a j A Ij. destruct (P3 d' s' Hin Hn Es Al r' R a j A Ij) as [j' H]. exists j'. rewrite Ex. apply in_or_app. right. exact H.
           ++ assert (s' = s) by (rewrite Ed in Es; injection Es as <-; reflexivity). subst s'. apply Cv, Al.
      * do 3 eexists. split; [reflexivity|]. split; [split; assumption|]. split; [exact Sh|reflexivity].
Qed.

Lemma testAll_ok : forall cs p used next color, patOk p -> (forall d, In d cs -> valid d) -> StronglySorted lt cs -> StronglySorted lt (p_deps p) ->
  (forall x y, In x (p_deps p) -> In y cs -> x < y) -> colOk next color ->
  exists p' used' next' color' new, testAll eqV g deps p cs used next color = POk (p', used', next', color') /\ colOk next' color' /\ patOk p' /\
    p_ref p' = p_ref p /\ p_deps p' = p_deps p ++ new /\ StronglySorted lt (p_deps p') /\
    (forall d, In d new <-> In d cs /\ ~ In d used /\ shapeDep d = shapeDep (p_ref p)) /\ (forall d, In d used' <-> In d used \/ In d new).
Proof.
  induction cs as [|d cs IH]; intros p used next color P Hv Sc Sp Hlt C.
  - exists p, used, next, color, []. split; [reflexivity|]. split; [exact C|]. split; [exact P|]. split; [reflexivity|]. rewrite app_nil_r.
    split; [reflexivity|]. split; [exact Sp|]. split; [intros d; cbn; tauto|intros d; cbn; tauto].
  - cbn [testAll]. apply StronglySorted_inv in Sc. destruct Sc as [Sc Hd]. rewrite Forall_forall in Hd.
    destruct (mem d used) eqn:Hm.
    + apply mem_In in Hm. destruct (IH p used next color P) as [p' [used' [next' [color' [new [E [C' [P' [R' [D' [S' [N' U']]]]]]]]]]]]; auto.
      { intros e He. apply Hv. right. exact He. } { intros x y Hx Hy. apply Hlt; [exact Hx|right; exact Hy]. }
      exists p', used', next', color', new. repeat (split; [assumption|]). split; [|exact U'].
      intros e. rewrite N'. cbn. split; [tauto|]. intros [[<-|X] [Y Z]]; [tauto|auto].
    + apply mem_false in Hm. assert (Hne : d <> p_ref p).
      { destruct P as [_ [[t Pt] _]]. assert (p_ref p < d); [|lia]. apply Hlt; [rewrite Pt; left; reflexivity|left; reflexivity]. }
      destruct (testAdd_ok p d next color P (Hv d (or_introl eq_refl)) Hne C) as [b [p1 [next1 [color1 [E1 [C1 [B1 X1]]]]]]].
      rewrite E1. cbn [pbind]. destruct b.
      * destruct X1 as [P1 [R1 D1]]. destruct (IH p1 (d :: used) next1 color1 P1) as [p' [used' [next' [color' [new [E [C' [P' [R' [D' [S' [N' U']]]]]]]]]]]]; auto.
        { intros e He. apply Hv. right. exact He. }
        { rewrite D1. assert (Hx : forall x, In x (p_deps p) -> x < d) by (intros x Hx; apply Hlt; [exact Hx|left; reflexivity]).
          clear - Sp Hx. induction (p_deps p) as [|y l IHl]; cbn; [repeat constructor|]. apply StronglySorted_inv in Sp. destruct Sp as [S1 S2]. constructor.
          - apply IHl; auto. intros x Hi. apply Hx. right. exact Hi.
          - apply Forall_app. split; [exact S2|]. constructor; [apply Hx; left; reflexivity|constructor]. }
        { intros x y Hx Hy. rewrite D1 in Hx. apply in_app_or in Hx. destruct Hx as [Hx|[<-|[]]]; [apply Hlt; [exact Hx|right; exact Hy]|apply Hd, Hy]. }
        exists p', used', next', color', (d :: new). split; [exact E|]. split; [exact C'|]. split; [exact P'|]. split; [congruence|].
        split; [rewrite D', D1, <- app_assoc; reflexivity|]. split; [exact S'|]. rewrite R1 in N'. split.
        -- intros e. cbn. rewrite N'. cbn. split.
           ++ intros [<-|[X [Y Z]]]; [|tauto]. split; [auto|]. split; [exact Hm|]. apply B1. reflexivity.
           ++ intros [[<-|X] [Y Z]]; [left; reflexivity|]. right. split; [exact X|]. split; [|exact Z]. intros [<-|K]; [|tauto]. specialize (Hd _ X). lia.
        -- intros e. rewrite U'. cbn. tauto.
      * subst p1. destruct (IH p used next1 color1 P) as [p' [used' [next' [color' [new [E [C' [P' [R' [D' [S' [N' U']]]]]]]]]]]]; auto.
        { intros e He. apply Hv. right. exact He. } { intros x y Hx Hy. apply Hlt; [exact Hx|right; exact Hy]. }
        exists p', used', next', color', new. repeat (split; [assumption|]). split; [|exact U'].
        intros e. rewrite N'. cbn. split; [tauto|]. intros [[<-|X] [Y Z]]; [|auto]. apply B1 in Z. discriminate.
Qed.

(** What the patterns of a set of candidates are. *)
Definition exactPatterns (cs used : list nat) (ps : list pattern) : Prop :=
  (forall p, In p ps -> patOk p /\ 2 <= List.length (p_deps p) /\ StronglySorted lt (p_deps p) /\ forall d, In d (p_deps p) -> In d cs /\ ~ In d used) /\
  (forall d d', In d cs -> In d' cs -> ~ In d used -> ~ In d' used -> d <> d' ->
     ((exists p, In p ps /\ In d (p_deps p) /\ In d' (p_deps p)) <-> shapeDep d = shapeDep d')) /\
  NoDup (concat (map p_deps ps)).

Lemma sorted_NoDup l : StronglySorted lt l -> NoDup l.
Proof.
  induction 1 as [|x l S IH F]; constructor; auto. intros H. rewrite Forall_forall in F. specialize (F _ H). lia.
Qed.
Lemma NoDup_app_intro {A} (l1 l2 : list A) : NoDup l1 -> NoDup l2 -> (forall x, In x l1 -> ~ In x l2) -> NoDup (l1 ++ l2).
Proof.
  induction 1 as [|x l H N IH]; intros N2 D; [exact N2|]. cbn. constructor.
  - intros I. apply in_app_or in I. destruct I as [I|I]; [auto|]. apply (D x (or_introl eq_refl) I).
  - apply IH; auto. intros y Hy. apply D. right. exact Hy.
Qed.

Lemma related_ok : forall cs used next color, (forall d, In d cs -> valid d) -> StronglySorted lt cs -> colOk next color ->
  exists ps next' color', related eqV g deps cs used next color = POk (ps, next', color') /\ colOk next' color' /\ exactPatterns cs used ps.
Proof.
  induction cs as [|d cs IH]; intros used next color Hv Sc C.
  - exists [], next, color. split; [reflexivity|]. split; [exact C|]. split; [intros p []|]. split; [intros d d' []|constructor].
  - cbn [related]. apply StronglySorted_inv in Sc. destruct Sc as [Sc Hd]. rewrite Forall_forall in Hd.
    assert (Hv' : forall e, In e cs -> valid e) by (intros e He; apply Hv; right; exact He).
    destruct (mem d used) eqn:Hm.
    + apply mem_In in Hm. destruct (IH used next color Hv' Sc C) as [ps [next' [color' [E [C' [X1 [X2 X3]]]]]]].
      exists ps, next', color'. split; [exact E|]. split; [exact C'|]. split; [|split; [|exact X3]].
      * intros p Hp. destruct (X1 p Hp) as [Y1 [Y2 [Y3 Y4]]]. split; [exact Y1|]. split; [exact Y2|]. split; [exact Y3|].
        intros e He. destruct (Y4 e He). split; [right; assumption|assumption].
      * intros a b [<-|Ha] [<-|Hb] Ua Ub Hne; try tauto. apply X2; assumption.
    + apply mem_false in Hm.
      destruct (testAll_ok cs (newPattern d) used next color) as [p' [used' [next1 [color1 [new [E [C1 [P' [R' [D' [S' [N' U']]]]]]]]]]]]; auto.
      { apply new_ok, Hv. left. reflexivity. } { cbn. repeat constructor. } { cbn. intros x y [<-|[]] Hy. apply Hd, Hy. }
      rewrite E. cbn [pbind]. destruct (IH used' next1 color1 Hv' Sc C1) as [ps [next' [color' [E2 [C' [X1 [X2 X3]]]]]]].
      rewrite E2. cbn [pbind]. cbn [newPattern p_ref p_deps] in *. cbn [app] in D'. rewrite D' in *.
      assert (Hnd : ~ In d cs) by (intros K; specialize (Hd _ K); lia).
      assert (Hq : forall p, In p ps -> forall e, In e (p_deps p) -> In e cs /\ ~ In e used /\ ~ In e (d :: new)).
      { intros p Hp e He. destruct (X1 p Hp) as [_ [_ [_ Y4]]]. destruct (Y4 e He) as [K1 K2]. rewrite U' in K2. split; [exact K1|]. split; [tauto|].
        intros [<-|K]; tauto. }
      set (ps' := if List.length (d :: new) =? 1 then ps else p' :: ps).
      assert (Hin : forall q, In q ps' <-> (In q ps \/ (q = p' /\ new <> []))).
      { intros q. unfold ps'. destruct new as [|e new]; cbn [List.length Nat.eqb]; cbn [In]; split; intros K.
        - left. exact K.
        - destruct K as [K|[_ K]]; [exact K|congruence].
        - destruct K as [<-|K]; [right; split; [reflexivity|discriminate]|left; exact K].
        - destruct K as [K|[-> _]]; auto. }
      exists ps', next', color'. split; [reflexivity|]. split; [exact C'|]. split; [|split].
      * intros p Hp. apply Hin in Hp. destruct Hp as [Hp|[-> Hn]].
        -- destruct (X1 p Hp) as [Y1 [Y2 [Y3 Y4]]]. split; [exact Y1|]. split; [exact Y2|]. split; [exact Y3|].
           intros e He. destruct (Hq p Hp e He) as [K1 [K2 _]]. split; [right; exact K1|exact K2].
        -- split; [exact P'|]. rewrite D'. split; [destruct new; [congruence|cbn; lia]|]. split; [exact S'|].
           intros e [<-|He]; [split; [left; reflexivity|exact Hm]|]. apply N' in He. destruct He as [K1 [K2 _]]. split; [right; exact K1|exact K2].
      * assert (Hcl : forall e, In e (d :: cs) -> ~ In e used -> (In e (d :: new) <-> shapeDep e = shapeDep d)).
        { intros e He Ue. cbn [In]. rewrite N'. split; [intros [<-|[_ [_ K]]]; [reflexivity|exact K]|]. intros K. destruct He as [<-|He]; [left; reflexivity|right; auto]. }
        intros a b Ha Hb Ua Ub Hne. destruct (in_dec Nat.eq_dec a (d :: new)) as [Ia|Ia], (in_dec Nat.eq_dec b (d :: new)) as [Ib|Ib].
        -- split.
           ++ intros _. apply Hcl in Ia; auto. apply Hcl in Ib; auto. congruence.
           ++ intros _. exists p'. rewrite D'. split; [|auto]. apply Hin. right. split; [reflexivity|]. intros ->. destruct Ia as [<-|[]], Ib as [<-|[]]. congruence.
        -- split.
           ++ intros [p [Hp [Ka Kb]]]. exfalso. apply Hin in Hp. destruct Hp as [Hp|[-> _]]; [|rewrite D' in Kb; tauto].
              destruct (Hq p Hp a Ka) as [_ [_ K]]. tauto.
           ++ intros K. exfalso. apply Ib, Hcl; auto. rewrite <- K. apply Hcl; auto.
        -- split.
           ++ intros [p [Hp [Ka Kb]]]. exfalso. apply Hin in Hp. destruct Hp as [Hp|[-> _]]; [|rewrite D' in Ka; tauto].
              destruct (Hq p Hp b Kb) as [_ [_ K]]. tauto.
           ++ intros K. exfalso. apply Ia, Hcl; auto. rewrite K. apply Hcl; auto.
        -- assert (Ha' : In a cs) by (destruct Ha as [<-|Ha]; [exfalso; apply Ia; left; reflexivity|exact Ha]).
           assert (Hb' : In b cs) by (destruct Hb as [<-|Hb]; [exfalso; apply Ib; left; reflexivity|exact Hb]).
           assert (Ua' : ~ In a used') by (rewrite U'; intros [K|K]; [tauto|apply Ia; right; exact K]).
           assert (Ub' : ~ In b used') by (rewrite U'; intros [K|K]; [tauto|apply Ib; right; exact K]).
           rewrite <- (X2 a b Ha' Hb' Ua' Ub' Hne). split; intros [p [Hp [Ka Kb]]].
           ++ apply Hin in Hp. destruct Hp as [Hp|[-> _]]; [|rewrite D' in Ka; tauto]. exists p. auto.
           ++ exists p. split; [apply Hin; left; exact Hp|]. auto.
      * unfold ps'. destruct (List.length (d :: new) =? 1); [exact X3|]. cbn [map concat]. rewrite D'. apply NoDup_app_intro; [apply sorted_NoDup, S'|exact X3|].
        intros x Hx Hc. apply in_concat in Hc. destruct Hc as [l [Hl Hx']]. apply in_map_iff in Hl. destruct Hl as [p [<- Hp]].
        destruct (Hq p Hp x Hx') as [_ [_ K]]. tauto.
Qed.

Lemma relatedAll_ok : forall css next color, (forall cs, In cs css -> StronglySorted lt cs /\ forall d, In d cs -> valid d) -> colOk next color ->
  exists pss, relatedAll eqV g deps css next color = POk (concat pss) /\ Forall2 (fun cs ps => exactPatterns cs [] ps) css pss.
Proof.
  induction css as [|cs css IH]; intros next color H C; [exists []; split; [reflexivity|constructor]|].
  cbn [relatedAll]. destruct (H cs (or_introl eq_refl)) as [Sc Hv]. destruct (related_ok cs [] next color Hv Sc C) as [ps [next' [color' [-> [C' X]]]]].
  cbn [pbind]. destruct (IH next' color') as [pss [-> F]]; auto. { intros c Hc. apply H. right. exact Hc. }
  exists (ps :: pss). split; [reflexivity|]. constructor; assumption.
Qed.

(** ** The tables *)
Lemma idxAt_In l o a d j : idxAt l o a d = Some j -> In (o, a, d, j) l.
Proof.
  unfold idxAt. destruct (find _ l) as [[[[o' a'] d'] j']|] eqn:E; [|discriminate]. intros H. injection H as <-.
  apply find_some in E. destruct E as [I E]. apply andb_true_iff in E. destruct E as [E E3]. apply andb_true_iff in E. destruct E as [E1 E2].
  apply Nat.eqb_eq in E1, E2, E3. subst. exact I.
Qed.
Lemma idxAt_some l o a d j : In (o, a, d, j) l -> exists j', idxAt l o a d = Some j'.
Proof.
  intros I. unfold idxAt. destruct (find _ l) as [[[[o' a'] d'] j']|] eqn:E; [eauto|]. exfalso.
  apply (find_none _ _ E) in I. cbn in I. rewrite !Nat.eqb_refl in I. discriminate.
Qed.
Lemma hasPos_In l o a : hasPos l o a = true <-> exists d j, In (o, a, d, j) l.
Proof.
  unfold hasPos. rewrite existsb_exists. split.
  - intros [[[[o' a'] d] j] [I E]]. apply andb_true_iff in E. destruct E as [E1 E2]. apply Nat.eqb_eq in E1, E2. subst. eauto.
  - intros [d [j I]]. exists (o, a, d, j). split; [exact I|]. rewrite !Nat.eqb_refl. reflexivity.
Qed.
Lemma uses_ref r s o a j : dependent g (AN r) -> dependent g (AN s) -> shapeOf g (AN r) = shapeOf g (AN s) -> uses g r s o a j ->
  exists j0, argAt g o a = Some (AN j0) /\ isInv g j0 = true /\ reach g r o.
Proof.
  intros [Lr Ir] [Ls Is] Sh [s' [Hb [A I]]]. destruct (below_lt g r s o s' W Lr Ls Ir Hb) as [Lo [Ls' Io]].
  pose proof (below_shape g r s o s' W Lr Ls Ir Sh Hb) as Sh'.
  assert (Is' : isInv g s' = false).
  { destruct (isInv g s') eqn:E; [|reflexivity]. rewrite (shape_inv g s' W E) in Sh'. apply shape_TX in Sh'; [congruence|exact W|exact Lo]. }
  destruct (shape_arg g s' o a (AN j) W Ls' Lo Is' (eq_sym Sh') A) as [y [Ay Sy]]. rewrite (shape_inv g j W I) in Sy.
  destruct y as [v|k]; [discriminate|]. destruct (argAt_lt g o a k W Ay) as [Lk _]. exists k. split; [exact Ay|]. split.
  - apply shape_TX; [exact W|lia|auto].
  - exact (below_reach g r s Lr Ls Ir o s' Hb).
Qed.

(** Before the constant positions are removed. *)
Lemma table_ok p r : patOk p -> 2 <= List.length (p_deps p) -> NoDup (p_deps p) -> usable g deps p -> nth_error deps (p_ref p) = Some (AN r) ->
  forall d s o a j, In d (p_deps p) -> nth_error deps d = Some (AN s) -> uses g r s o a j -> idxAt (p_idx p) o a d = Some j.
Proof.
  intros P L2 Nd U Er d s o a j Hd Es Hu. pose proof P as [_ [[t Pt] [Pd Pi]]]. rewrite Er in Pi. destruct Pi as [P1 [P2 P3]].
  assert (Hr : In (p_ref p) (p_deps p)) by (rewrite Pt; left; reflexivity).
  assert (Vd : forall e se, In e (p_deps p) -> nth_error deps e = Some (AN se) -> dependent g (AN se) /\ shapeOf g (AN r) = shapeOf g (AN se)).
  { intros e se He Ee. destruct (Pd e He) as [[x [Ex Dx]] Sx]. rewrite Ee in Ex. injection Ex as <-. split; [exact Dx|].
    unfold shapeDep in Sx. rewrite Ee, Er in Sx. cbn [option_map] in Sx. injection Sx as Sx. symmetry. exact Sx. }
  destruct (Vd _ _ Hr Er) as [Vr _]. destruct (Vd _ _ Hd Es) as [Vs Sh].
  destruct (uses_ref r s o a j Vr Vs Sh Hu) as [j0 [A0 [I0 R0]]].
  assert (Hcov : forall e, In e (p_deps p) -> e <> p_ref p -> exists j', In (o, a, e, j') (p_idx p)).
  { intros e He Hne. destruct (Pd e He) as [[x [Ex Dx]] Sx]. assert (exists se, x = AN se) as [se ->].
    { destruct x as [v|se]; [|eauto]. exfalso. unfold shapeDep in Sx. rewrite Ex, Er in Sx. cbn [option_map] in Sx.
      assert (Sy : shapeOf g (AC v) = shapeOf g (AN r)) by congruence. clear Sx. rename Sy into Sx.
      destruct Vr as [Lr Ir]. destruct (nth_error g r) as [n|] eqn:En; [|apply nth_error_None in En; lia]. rewrite (shape_op g r n W En Ir) in Sx. discriminate. }
    destruct (U e r se He Hne Er Ex) as [_ Al]. apply (P3 e se He Hne Ex Al o R0 a j0 A0 I0). }
  assert (Hsome : exists j', idxAt (p_idx p) o a d = Some j').
  { destruct (Nat.eq_dec d (p_ref p)) as [->|Hne].
    - destruct t as [|e t]; [rewrite Pt in L2; cbn in L2; lia|].
      assert (He : In e (p_deps p)) by (rewrite Pt; right; left; reflexivity).
      assert (Hne : e <> p_ref p) by (rewrite Pt in Nd; inversion Nd; subst; intros ->; apply H1; left; reflexivity).
      destruct (Hcov e He Hne) as [j' Hj']. destruct (P2 o a) as [j1 Hj1]; [apply hasPos_In; eauto|]. apply idxAt_some with (1 := Hj1).
    - destruct (Hcov d Hd Hne) as [j' Hj']. apply idxAt_some with (1 := Hj'). }
  destruct Hsome as [j' Hj']. rewrite Hj'. f_equal. apply idxAt_In in Hj'. destruct (P1 o a d j' Hj') as [s' [_ [Es' Hu']]].
  rewrite Es in Es'. injection Es' as <-. destruct (Nat.eq_dec d (p_ref p)) as [->|Hne].
  - rewrite Er in Es. injection Es as <-. destruct Hu as [s1 [B1 [A1 _]]], Hu' as [s2 [B2 [A2 _]]].
    apply uses_diag in B1, B2. subst. rewrite A1 in A2. injection A2 as <-. reflexivity.
  - destruct (U d r s Hd Hne Er Es) as [Co _]. apply (Co o a j' j Hu' Hu).
Qed.

(** After. *)
Definition tableOk (p : pattern) : Prop :=
  (forall o a, hasPos (p_idx p) o a = true <-> varies g deps p o a) /\
  (forall o a d j, In (o, a, d, j) (p_idx p) -> exists r s, nth_error deps (p_ref p) = Some (AN r) /\ In d (p_deps p) /\
     nth_error deps d = Some (AN s) /\ uses g r s o a j) /\
  (forall r d s o a j, nth_error deps (p_ref p) = Some (AN r) -> In d (p_deps p) -> nth_error deps d = Some (AN s) -> uses g r s o a j ->
     hasPos (p_idx p) o a = true -> idxAt (p_idx p) o a d = Some j) /\
  (forall d, In d (p_deps p) -> valid d /\ shapeDep d = shapeDep (p_ref p)) /\ In (p_ref p) (p_deps p).

Lemma forallb_false_ex {A} (f : A -> bool) l : forallb f l = false -> exists x, In x l /\ f x = false.
Proof.
  induction l as [|x l IH]; cbn; [discriminate|]. intros H. apply andb_false_iff in H. destruct H as [H|H]; [exists x; auto|].
  destruct (IH H) as [y [I E]]. exists y. auto.
Qed.
Lemma constPos_false l o a : constPos l o a = false <-> exists d d' j j', In (o, a, d, j) l /\ In (o, a, d', j') l /\ idxAt l o a d <> idxAt l o a d'.
Proof.
  unfold constPos. split.
  - intros H. apply forallb_false_ex in H. destruct H as [[[[o1 a1] d] j] [I K]]. apply orb_false_iff in K. destruct K as [K1 K2].
    apply negb_false_iff, andb_true_iff in K1. destruct K1 as [X Y]. apply Nat.eqb_eq in X, Y. subst. apply forallb_false_ex in K2. destruct K2 as [e K].
    revert K. destruct e as [[[o1 a1] d'] j']. intros [I' K].
    apply orb_false_iff in K. destruct K as [K1 K]. apply negb_false_iff, andb_true_iff in K1.
    destruct K1 as [X Y]. apply Nat.eqb_eq in X, Y. subst. exists d, d', j, j'. split; [exact I|]. split; [exact I'|].
    destruct (idxAt_some l o a d j I) as [k Ek], (idxAt_some l o a d' j' I') as [k' Ek']. rewrite Ek, Ek' in *. apply Nat.eqb_neq in K. congruence.
  - intros [d [d' [j [j' [I [I' Hne]]]]]]. apply not_true_iff_false. intros H. rewrite forallb_forall in H. specialize (H _ I). cbn in H.
    rewrite !Nat.eqb_refl in H. cbn in H. rewrite forallb_forall in H. specialize (H _ I'). cbn in H. rewrite !Nat.eqb_refl in H. cbn in H.
    destruct (idxAt l o a d), (idxAt l o a d'); try discriminate. apply Nat.eqb_eq in H. congruence.
Qed.

Lemma detect_hasPos p o a : hasPos (p_idx (detect p)) o a = true <-> hasPos (p_idx p) o a = true /\ constPos (p_idx p) o a = false.
Proof.
  rewrite !hasPos_In. cbn [detect p_idx]. split.
  - intros [d [j H]]. apply filter_In in H. destruct H as [H K]. apply negb_true_iff in K. split; [eauto|exact K].
  - intros [[d [j H]] K]. exists d, j. apply filter_In. rewrite K. auto.
Qed.
Lemma detect_idxAt p o a d : constPos (p_idx p) o a = false -> idxAt (p_idx (detect p)) o a d = idxAt (p_idx p) o a d.
Proof.
  intros K. unfold idxAt. cbn [detect p_idx]. assert (X : forall m, find (fun e : nat * nat * nat * nat => let '(o0, b, c, _) := e in (o0 =? o) && (b =? a) && (c =? d))
      (filter (fun e => let '(o0, b, _, _) := e in negb (constPos (p_idx p) o0 b)) m)
    = find (fun e => let '(o0, b, c, _) := e in (o0 =? o) && (b =? a) && (c =? d)) m).
  { induction m as [|[[[o1 a1] d1] j1] m IH]; [reflexivity|]. cbn [filter find]. destruct (negb (constPos (p_idx p) o1 a1)) eqn:E.
    - cbn [find]. rewrite IH. reflexivity.
    - destruct ((o1 =? o) && (a1 =? a) && (d1 =? d)) eqn:E'; [|exact IH]. exfalso. apply andb_true_iff in E'. destruct E' as [E' _].
      apply andb_true_iff in E'. destruct E' as [X Y]. apply Nat.eqb_eq in X, Y. subst. rewrite K in E. discriminate. }
  rewrite X. reflexivity.
Qed.

Lemma detect_ok p : patOk p -> 2 <= List.length (p_deps p) -> NoDup (p_deps p) -> usable g deps p -> tableOk (detect p).
Proof.
  intros P L2 Nd U. pose proof P as [_ [[t Pt] [Pd Pi]]].
  assert (Hv : forall o a, constPos (p_idx p) o a = false <-> varies g deps p o a).
  { intros o a. rewrite constPos_false. split.
    - intros [d [d' [j [j' [I [I' Hne]]]]]]. destruct (nth_error deps (p_ref p)) as [[v|r]|] eqn:Er; [rewrite Pi in I; destruct I| |rewrite Pi in I; destruct I].
      destruct Pi as [P1 _]. destruct (P1 _ _ _ _ I) as [s [Hd [Es Hu]]], (P1 _ _ _ _ I') as [s' [Hd' [Es' Hu']]].
      exists d, d', r, s, s', j, j'. repeat (split; [assumption|]). intros <-. apply Hne.
      rewrite (table_ok p r P L2 Nd U Er d s o a j Hd Es Hu), (table_ok p r P L2 Nd U Er d' s' o a j Hd' Es' Hu'). reflexivity.
    - intros [d [d' [r [s [s' [j [j' [Hd [Hd' [Er [Es [Es' [Hu [Hu' Hne]]]]]]]]]]]]]].
      pose proof (table_ok p r P L2 Nd U Er d s o a j Hd Es Hu) as E1. pose proof (table_ok p r P L2 Nd U Er d' s' o a j' Hd' Es' Hu') as E2.
      exists d, d', j, j'. split; [apply idxAt_In, E1|]. split; [apply idxAt_In, E2|]. congruence. }
  split; [|split; [|split; [|split; [|]]]].
  - intros o a. rewrite detect_hasPos, Hv. split; [tauto|]. intros K. split; [|exact K].
    destruct K as [d [d' [r [s [s' [j [j' [Hd [Hd' [Er [Es [Es' [Hu [Hu' Hne]]]]]]]]]]]]]]. apply hasPos_In. exists d, j.
    apply idxAt_In, (table_ok p r P L2 Nd U Er d s o a j Hd Es Hu).
  - intros o a d j H. cbn [detect p_idx p_deps p_ref] in *. apply filter_In in H. destruct H as [H _].
    destruct (nth_error deps (p_ref p)) as [[v|r]|] eqn:Er; [rewrite Pi in H; destruct H| |rewrite Pi in H; destruct H]. destruct Pi as [P1 _].
    destruct (P1 _ _ _ _ H) as [s [K1 [K2 K3]]]. exists r, s. auto.
  - intros r d s o a j Er Hd Es Hu Hp. apply detect_hasPos in Hp. destruct Hp as [_ K]. rewrite detect_idxAt by exact K.
    apply (table_ok p r P L2 Nd U Er d s o a j Hd Es Hu).
  - exact Pd.
  - cbn. rewrite Pt. left. reflexivity.
Qed.
End Find.

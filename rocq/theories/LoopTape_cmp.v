(** * comparePath *)
From Coq Require Import List Arith Bool Lia.
From Verif Require Import LoopTape_model LoopTape_spec LoopTape_graph.
Import ListNotations.
Local Open Scope nat_scope.

Section Cmp.
Context {V : Type}.
Variable eqV : V -> V -> bool.
Hypothesis eqV_ok : forall a b, eqV a b = true <-> a = b.
Variable g : graph V.
Hypothesis W : recordedGraph g.

Inductive reach (r : nat) : nat -> Prop :=
  | R_refl : reach r r
  | R_step k a k' : reach r k -> argAt g k a = Some (AN k') -> isInv g k' = false -> reach r k'.
Lemma reach_trans a b c : reach a b -> reach b c -> reach a c.
Proof. intros H1 H2. induction H2 as [|k x k' Hr IH A I]; [exact H1|]. apply (R_step a k x); auto. Qed.
Lemma reach_first r k : reach r k -> k = r \/ exists a r', argAt g r a = Some (AN r') /\ isInv g r' = false /\ reach r' k.
Proof.
  induction 1 as [|k a k' Hr IH A I]; [left; reflexivity|]. right. destruct IH as [->|[b [r' [A' [I' R']]]]].
  - exists a, k'. split; [exact A|]. split; [exact I|constructor].
  - exists b, r'. split; [exact A'|]. split; [exact I'|]. apply (R_step r' k a); auto.
Qed.

Variable dref d minc : nat.
Variable r0 s0 : nat.
Hypothesis Lr0 : r0 < List.length g.
Hypothesis Ls0 : s0 < List.length g.
Hypothesis Ir0 : isInv g r0 = false.
Let root := (r0, s0).

Lemma below_reach r s : below g root (r, s) -> reach r0 r.
Proof.
  intros H. remember root as p eqn:Ep. remember (r, s) as q eqn:Eq. revert r s Eq. induction H as [p|p r1 s1 a r' s' Hb IH A1 A2 I']; intros r s Eq.
  - rewrite Ep in Eq. unfold root in Eq. inversion Eq; subst. constructor.
  - inversion Eq; subst. apply (R_step r0 r1 a); [apply (IH eq_refl _ _ eq_refl)|exact A1|exact I'].
Qed.

Definition covered (idx : indexes) (r : nat) : Prop :=
  forall r', reach r r' -> forall a j, argAt g r' a = Some (AN j) -> isInv g j = true -> exists j', In (r', a, d, j') idx.
Definition ent (e : nat * nat * nat * nat) : Prop :=
  let '(o, a, d', j) := e in
  (d' = d /\ uses g r0 s0 o a j) \/ (d' = dref /\ argAt g o a = Some (AN j) /\ isInv g j = true /\ reach r0 o).
Definition posRef (idx : indexes) : Prop := forall o a, hasPos idx o a = true -> exists j, In (o, a, dref, j) idx.
Definition base (st : cst) : Prop :=
  List.length (s_color st) = List.length g /\ Forall (fun c => c < s_next st) (s_color st) /\ posRef (s_idx st).
Definition ext (st st' : cst) : Prop :=
  s_next st <= s_next st' /\ exists pre, s_idx st' = pre ++ s_idx st /\ Forall ent pre.
Lemma ext_refl st : ext st st.
Proof. split; [lia|]. exists []. split; [reflexivity|constructor]. Qed.
Lemma ext_trans a b c : ext a b -> ext b c -> ext a c.
Proof.
  intros [N1 [p1 [E1 F1]]] [N2 [p2 [E2 F2]]]. split; [lia|]. exists (p2 ++ p1). split; [rewrite E2, E1, app_assoc; reflexivity|].
  apply Forall_app. auto.
Qed.
Lemma covered_ext st st' r : ext st st' -> covered (s_idx st) r -> covered (s_idx st') r.
Proof. intros [_ [pre [-> _]]] C r' R a j A I. destruct (C r' R a j A I) as [j' H]. exists j'. apply in_or_app. right. exact H. Qed.

(** The comparisons which were started with the colours. *)
Definition hist := list (nat * nat * nat).
Record inv (st : cst) (H : hist) (S : list (nat * nat)) : Prop := mkInv {
  i_base : base st;
  i_min : minc <= s_next st;
  i_col : forall n c, nth_error (s_color st) n = Some c -> minc <= c -> exists r s, In (c, r, s) H /\ (n = r \/ n = s);
  i_lt : forall c r s, In (c, r, s) H -> c < s_next st;
  i_un : forall c r s r' s', In (c, r, s) H -> In (c, r', s') H -> r = r' /\ s = s';
  i_set : forall c r s, In (c, r, s) H -> below g root (r, s) /\
            (In (r, s) S \/ (shapeOf g (AN r) = shapeOf g (AN s) /\ (aligned g r0 s0 -> covered (s_idx st) r)))
}.

Definition good (r s : nat) (st : cst) (S : list (nat * nat)) (b : bool) (st' : cst) : Prop :=
  base st' /\ ext st st' /\ (b = true <-> shapeOf g (AN r) = shapeOf g (AN s)) /\
  (b = true -> (exists H', inv st' H' S) /\ (aligned g r0 s0 -> covered (s_idx st') r)).

(** setAt *)
Lemma setAt_len l i x : List.length (setAt l i x) = List.length l.
Proof. revert i. induction l as [|y l IH]; intros [|i]; cbn; auto. Qed.
Lemma setAt_nth l i x k : nth_error (setAt l i x) k = if k =? i then match nth_error l k with Some _ => Some x | None => None end else nth_error l k.
Proof.
  revert i k. induction l as [|y l IH]; intros i k.
  - destruct i, k; cbn; try reflexivity; destruct (_ =? _); reflexivity.
  - destruct i as [|i], k as [|k]; cbn; try reflexivity. apply IH.
Qed.
Lemma Forall_setAt (P : nat -> Prop) l i x : P x -> Forall P l -> Forall P (setAt l i x).
Proof. intros Px. revert i. induction l as [|y l IH]; intros [|i] F; cbn; auto; inversion F; subst; constructor; auto. Qed.

Lemma opc_eqb_ok a b : opc_eqb a b = true <-> a = b.
Proof.
  destruct a, b; cbn; split; intros H; try discriminate; try reflexivity.
  - apply Nat.eqb_eq in H. subst. reflexivity.
  - inversion H. apply Nat.eqb_refl.
Qed.
Lemma info_eqb_ok a b : info_eqb a b = true <-> a = b.
Proof.
  revert b. induction a as [|x a IH]; intros [|y b]; cbn; split; intros H; try discriminate; try reflexivity.
  - apply andb_true_iff in H. destruct H as [H1 H2]. apply Nat.eqb_eq in H1. apply IH in H2. subst. reflexivity.
  - inversion H; subst. rewrite Nat.eqb_refl. apply IH. reflexivity.
Qed.

(** saving an independent *)
Lemma save_ok r s a j1 j2 st H S : inv st H S -> below g root (r, s) -> argAt g r a = Some (AN j1) -> argAt g s a = Some (AN j2) -> isInv g j1 = true ->
  match saveIndependent g [] dref d r a j1 j2 (s_idx st) with
  | None => isInv g j2 = false
  | Some idx => isInv g j2 = true /\ inv (mkS (s_color st) (s_next st) idx (s_eo st)) H S /\
                ext st (mkS (s_color st) (s_next st) idx (s_eo st)) /\ exists j', In (r, a, d, j') idx
  end.
Proof.
  intros I Hb A1 A2 I1. unfold saveIndependent. rewrite I1. destruct (isInv g j2) eqn:I2; cbn [negb orb existsb]; [|reflexivity].
  set (mid := if hasPos (s_idx st) r a then s_idx st else (r, a, dref, j1) :: s_idx st).
  assert (Pm : posRef mid).
  { destruct (i_base _ _ _ I) as [_ [_ Pr]]. unfold mid. destruct (hasPos (s_idx st) r a) eqn:Hp; [exact Pr|].
    intros o b Ho. cbn in Ho. apply orb_true_iff in Ho. destruct Ho as [Ho|Ho].
    - apply andb_true_iff in Ho. destruct Ho as [X Y]. apply Nat.eqb_eq in X, Y. subst. exists j1. left. reflexivity.
    - destruct (Pr o b Ho) as [j Hj]. exists j. right. exact Hj. }
  assert (Hm : hasPos mid r a = true).
  { unfold mid. destruct (hasPos (s_idx st) r a) eqn:Hp; [exact Hp|]. cbn. rewrite !Nat.eqb_refl. reflexivity. }
  assert (Em : exists pre, mid = pre ++ s_idx st /\ Forall ent pre).
  { unfold mid. destruct (hasPos (s_idx st) r a); [exists []; split; [reflexivity|constructor]|].
    exists [(r, a, dref, j1)]. split; [reflexivity|]. constructor; [|constructor]. right. split; [reflexivity|]. split; [exact A1|]. split; [exact I1|].
    apply below_reach with (1 := Hb). }
  assert (X : ext st (mkS (s_color st) (s_next st) ((r, a, d, j2) :: mid) (s_eo st))).
  { split; [cbn; lia|]. destruct Em as [pre [-> F]]. exists ((r, a, d, j2) :: pre). split; [reflexivity|]. constructor; [|exact F].
    left. split; [reflexivity|]. exists s. auto. }
  split; [reflexivity|]. split; [|split; [exact X|exists j2; left; reflexivity]].
  destruct I as [[B1 [B2 B3]] Im Ic Il Iu Is]. constructor; cbn [s_color s_next s_idx].
  - split; [exact B1|]. split; [exact B2|]. cbn [s_idx]. intros o b Ho. cbn in Ho. apply orb_true_iff in Ho. destruct Ho as [Ho|Ho].
    + apply andb_true_iff in Ho. destruct Ho as [Y Z]. apply Nat.eqb_eq in Y, Z. subst. destruct (Pm o b Hm) as [j Hj]. exists j. right. exact Hj.
    + destruct (Pm o b Ho) as [j Hj]. exists j. right. exact Hj.
  - exact Im.
  - exact Ic.
  - exact Il.
  - exact Iu.
  - intros c r1 s1 Hin. destruct (Is c r1 s1 Hin) as [P [Q|[Q1 Q2]]]; split; auto. right. split; [exact Q1|]. intros Al.
    apply (covered_ext st _ r1 X). auto.
Qed.

Definition recOk (rec : nat -> nat -> cst -> pout (bool * cst)) (r s : nat) (S : list (nat * nat)) : Prop :=
  forall r' s' st H, r' < r -> s' < s -> isInv g r' = false -> below g root (r', s') -> inv st H S ->
    exists b st', rec r' s' st = POk (b, st') /\ good r' s' st S b st'.

Lemma args_ok rec r s nr ns S : nth_error g r = Some nr -> nth_error g s = Some ns -> below g root (r, s) -> recOk rec r s S ->
  forall l1 l2 p1 p2 st H, n_args nr = p1 ++ l1 -> n_args ns = p2 ++ l2 -> List.length p1 = List.length p2 -> List.length l1 = List.length l2 -> inv st H S ->
  exists b st', cmpArgs eqV rec g [] dref d r (List.length p1) l1 l2 st = POk (b, st') /\ base st' /\ ext st st' /\
    (b = true <-> map (shapeOf g) l1 = map (shapeOf g) l2) /\
    (b = true -> (exists H', inv st' H' S) /\ (aligned g r0 s0 -> forall a j, nth_error l1 a = Some (AN j) ->
        if isInv g j then exists j', In (r, List.length p1 + a, d, j') (s_idx st') else covered (s_idx st') j)).
Proof.
  intros Er Es Hb Hrec. induction l1 as [|x1 l1 IH]; intros l2 p1 p2 st H E1 E2 Lp Ll I.
  - destruct l2; [|discriminate]. exists true, st. split; [reflexivity|]. split; [apply (i_base _ _ _ I)|]. split; [apply ext_refl|].
    split; [split; reflexivity|]. intros _. split; [exists H; exact I|]. intros _ [|a] j Hn; discriminate.
  - destruct l2 as [|x2 l2]; [discriminate|]. cbn in Ll. apply eq_add_S in Ll.
    assert (A1 : argAt g r (List.length p1) = Some x1).
    { unfold argAt. rewrite Er, E1, nth_error_app2, Nat.sub_diag by lia. reflexivity. }
    assert (A2 : argAt g s (List.length p1) = Some x2).
    { unfold argAt. rewrite Es, E2, nth_error_app2, Lp, Nat.sub_diag by lia. reflexivity. }
    assert (N1 : n_args nr = (p1 ++ [x1]) ++ l1) by (rewrite <- app_assoc; exact E1).
    assert (N2 : n_args ns = (p2 ++ [x2]) ++ l2) by (rewrite <- app_assoc; exact E2).
    assert (NL : List.length (p1 ++ [x1]) = List.length (p2 ++ [x2])) by (rewrite !app_length, Lp; reflexivity).
    assert (NS : List.length (p1 ++ [x1]) = Datatypes.S (List.length p1)) by (rewrite app_length; cbn; lia).
    specialize (IH l2 (p1 ++ [x1]) (p2 ++ [x2])). rewrite NS in IH. rewrite NS in NL.
    destruct x1 as [v|r1], x2 as [w|s1]; cbn [cmpArgs].
    + destruct (eqV v w) eqn:Ev.
      * apply eqV_ok in Ev. subst w. destruct (IH st H N1 N2 NL Ll I) as [b [st' [Q1 [Q2 [Q3 [Q4 Q5]]]]]]. exists b, st'.
        split; [exact Q1|]. split; [exact Q2|]. split; [exact Q3|]. split.
        -- rewrite Q4. cbn. split; intros Hm; [rewrite Hm; reflexivity|exact (f_equal (@tl _) Hm)].
        -- intros Hb'. destruct (Q5 Hb') as [X Y]. split; [exact X|]. intros Al [|a] j Hn; cbn in Hn; [discriminate|].
           specialize (Y Al a j Hn). rewrite Nat.add_succ_r. exact Y.
      * exists false, st. split; [reflexivity|]. split; [apply (i_base _ _ _ I)|]. split; [apply ext_refl|]. split; [|discriminate].
        split; [discriminate|]. cbn. intros Hm. assert (Hv : v = w) by (injection Hm; auto). apply eqV_ok in Hv. rewrite Hv in Ev. discriminate.
    + exists false, st. split; [reflexivity|]. split; [apply (i_base _ _ _ I)|]. split; [apply ext_refl|]. split; [|discriminate].
      split; [discriminate|]. cbn. intros Hm. exfalso. destruct (argAt_lt g s _ s1 W A2) as [L1 L2].
      assert (Hs : shapeOf g (AN s1) = TC v) by (symmetry; exact (f_equal (hd TX) Hm)).
      destruct (nth_error g s1) as [n1|] eqn:En; [|apply nth_error_None in En; lia].
      rewrite (shape_eq g s1 n1 W En) in Hs. destruct (n_op n1); discriminate.
    + exists false, st. split; [reflexivity|]. split; [apply (i_base _ _ _ I)|]. split; [apply ext_refl|]. split; [|discriminate].
      split; [discriminate|]. cbn. intros Hm. exfalso. destruct (argAt_lt g r _ r1 W A1) as [L1 L2].
      assert (Hs : shapeOf g (AN r1) = TC w) by (exact (f_equal (hd TX) Hm)).
      destruct (nth_error g r1) as [n1|] eqn:En; [|apply nth_error_None in En; lia].
      rewrite (shape_eq g r1 n1 W En) in Hs. destruct (n_op n1); discriminate.
    + destruct (argAt_lt g r _ r1 W A1) as [Lr1 Lr]. destruct (argAt_lt g s _ s1 W A2) as [Ls1 Ls].
      destruct (isInv g r1) eqn:I1.
      * pose proof (save_ok r s (List.length p1) r1 s1 st H S I Hb A1 A2 I1) as Sv.
        destruct (saveIndependent g [] dref d r (List.length p1) r1 s1 (s_idx st)) as [idx|].
        -- destruct Sv as [I2 [Iv [Ex [j' Hj']]]]. destruct (IH _ H N1 N2 NL Ll Iv) as [b [st' [Q1 [Q2 [Q3 [Q4 Q5]]]]]]. exists b, st'.
           split; [exact Q1|]. split; [exact Q2|]. split; [apply (ext_trans _ _ _ Ex Q3)|]. split.
           ++ rewrite Q4. cbn [map]. rewrite (shape_inv g r1 W I1), (shape_inv g s1 W I2).
              split; intros Hm; [rewrite Hm; reflexivity|exact (f_equal (@tl _) Hm)].
           ++ intros Hb'. destruct (Q5 Hb') as [X Y]. split; [exact X|]. intros Al [|a] j Hn; cbn in Hn.
              ** inversion Hn; subst j. rewrite I1. exists j'. rewrite Nat.add_0_r. destruct Q3 as [_ [pre [-> _]]]. apply in_or_app. right. exact Hj'.
              ** specialize (Y Al a j Hn). rewrite Nat.add_succ_r. exact Y.
        -- exists false, st. split; [reflexivity|]. split; [apply (i_base _ _ _ I)|]. split; [apply ext_refl|]. split; [|discriminate].
           split; [discriminate|]. cbn [map]. intros Hm. exfalso. assert (X : shapeOf g (AN s1) = TX).
           { rewrite <- (shape_inv g r1 W I1). symmetry. exact (f_equal (hd TX) Hm). }
           apply shape_TX in X; [rewrite X in Sv; discriminate|exact W|lia].
      * destruct (Hrec r1 s1 st H Lr1 Ls1 I1 (B_step g root r s _ r1 s1 Hb A1 A2 I1) I) as [b [st1 [-> [G1 [G2 [G3 G4]]]]]].
        cbn [pbind fst snd]. destruct b.
        -- destruct (G4 eq_refl) as [[H1 Iv] Cv]. destruct (IH st1 H1 N1 N2 NL Ll Iv) as [b [st' [Q1 [Q2 [Q3 [Q4 Q5]]]]]]. exists b, st'.
           split; [exact Q1|]. split; [exact Q2|]. split; [apply (ext_trans _ _ _ G2 Q3)|]. split.
           ++ rewrite Q4. cbn [map]. rewrite (proj1 G3 eq_refl). split; intros Hm; [rewrite Hm; reflexivity|exact (f_equal (@tl _) Hm)].
           ++ intros Hb'. destruct (Q5 Hb') as [X Y]. split; [exact X|]. intros Al [|a] j Hn; cbn in Hn.
              ** inversion Hn; subst j. rewrite I1. apply (covered_ext st1 st' r1 Q3). auto.
              ** specialize (Y Al a j Hn). rewrite Nat.add_succ_r. exact Y.
        -- exists false, st1. split; [reflexivity|]. split; [exact G1|]. split; [exact G2|]. split; [|discriminate].
           split; [discriminate|]. cbn [map]. intros Hm. apply G3. exact (f_equal (hd TX) Hm).
Qed.

Lemma cmp_ok single : forall fuel r s st H S, r < fuel -> isInv g r = false -> below g root (r, s) -> inv st H S ->
  (forall r' s', In (r', s') S -> r < r' /\ s < s') ->
  exists b st', cmp eqV fuel g [] dref single d minc r s st = POk (b, st') /\ good r s st S b st'.
Proof.
  induction fuel as [|fuel IH]; intros r s st H S Hf Ir Hb I Hs; [lia|].
  destruct (below_lt g r0 s0 r s W Lr0 Ls0 Ir0 Hb) as [Lr [Ls _]].
  cbn [cmp]. rewrite !skipAlias_id by assumption. cbn [pbind].
  set (eo := if single then (dref, r, r) :: (d, s, r) :: s_eo st else (d, s, r) :: s_eo st).
  destruct (i_base _ _ _ I) as [B1 [B2 B3]].
  destruct (nth_error (s_color st) r) as [cr|] eqn:Er; [|apply nth_error_None in Er; lia].
  destruct (nth_error (s_color st) s) as [cs|] eqn:Es; [|apply nth_error_None in Es; lia].
  destruct ((minc <=? cs) && (minc <=? cr) && (cs =? cr)) eqn:Hit.
  - apply andb_true_iff in Hit. destruct Hit as [Hit Ec]. apply andb_true_iff in Hit. destruct Hit as [M1 M2].
    apply Nat.leb_le in M1, M2. apply Nat.eqb_eq in Ec. subst cs.
    destruct (i_col _ _ _ I r cr Er M2) as [r1 [s1 [Hin Hr]]]. destruct (i_col _ _ _ I s cr Es M2) as [r2 [s2 [Hin2 Hs']]].
    destruct (i_un _ _ _ I _ _ _ _ _ Hin Hin2) as [<- <-]. destruct (i_set _ _ _ I _ _ _ Hin) as [Hb1 Hset].
    assert (Hset' : shapeOf g (AN r1) = shapeOf g (AN s1) /\ (aligned g r0 s0 -> covered (s_idx st) r1)).
    { destruct Hset as [Hst|Hset]; [|exact Hset]. exfalso. destruct (Hs _ _ Hst) as [X Y]. destruct Hr as [Hr|Hr], Hs' as [Hs'|Hs']; lia. }
    destruct Hset' as [Sh Cv]. eexists true, _. split; [reflexivity|]. split; [split; [exact B1|split; [exact B2|exact B3]]|].
    split; [split; [cbn; lia|exists []; split; [reflexivity|constructor]]|]. split.
    + split; [intros _|reflexivity]. destruct Hr as [Hr|Hr], Hs' as [Hs'|Hs']; subst; congruence.
    + intros _. split.
      * exists H. destruct I as [J1 J2 J3 J4 J5 J6]. constructor; cbn [s_color s_next s_idx]; assumption.
      * cbn [s_idx]. intros Al. destruct (Nat.eq_dec r r1) as [->|Hne]; [auto|]. exfalso.
        destruct Hr as [Hr|Hr]; [congruence|]. subst r. apply (Al r1 s1 s Hb1); [congruence|exact Hb].
  - set (st1 := mkS (setAt (setAt (s_color st) r (s_next st)) s (s_next st)) (Datatypes.S (s_next st)) (s_idx st) eo).
    assert (Bs1 : base st1).
    { split; [cbn [s_color st1]; rewrite !setAt_len; exact B1|]. split; [|exact B3]. cbn [s_color s_next st1].
      apply Forall_setAt; [lia|]. apply Forall_setAt; [lia|]. apply Forall_impl with (2 := B2). intros c Hc. lia. }
    assert (Ex1 : ext st st1) by (split; [cbn; lia|exists []; split; [reflexivity|constructor]]).
    assert (I1 : inv st1 ((s_next st, r, s) :: H) ((r, s) :: S)).
    { destruct I as [_ J2 J3 J4 J5 J6]. constructor.
      - exact Bs1.
      - cbn [s_next st1]. lia.
      - intros n c Hn Hc. cbn [s_color st1] in Hn. rewrite !setAt_nth in Hn.
        destruct (n =? s) eqn:Ens.
        + apply Nat.eqb_eq in Ens. subst n. exists r, s. split; [left|auto]. destruct (s =? r); [destruct (nth_error (s_color st) s)|destruct (nth_error (s_color st) s)]; inversion Hn; subst; reflexivity.
        + destruct (n =? r) eqn:Enr.
          * apply Nat.eqb_eq in Enr. subst n. exists r, s. split; [left|auto]. destruct (nth_error (s_color st) r); inversion Hn; subst; reflexivity.
          * destruct (J3 n c Hn Hc) as [r1 [s1 [X Y]]]. exists r1, s1. split; [right; exact X|exact Y].
      - intros c r1 s1 [E|Hin]; cbn [s_next st1]; [inversion E; subst; lia|]. specialize (J4 _ _ _ Hin). lia.
      - intros c r1 s1 r2 s2 [E|Hin] [E'|Hin'].
        + inversion E; inversion E'; subst. auto.
        + inversion E; subst. specialize (J4 _ _ _ Hin'). lia.
        + inversion E'; subst. specialize (J4 _ _ _ Hin). lia.
        + apply (J5 _ _ _ _ _ Hin Hin').
      - intros c r1 s1 [E|Hin].
        + inversion E; subst. split; [exact Hb|]. left. left. reflexivity.
        + destruct (J6 _ _ _ Hin) as [X [Y|Y]]; split; auto. left. right. exact Y. }
    destruct (nth_error g r) as [nr|] eqn:Gr; [|apply nth_error_None in Gr; lia].
    destruct (nth_error g s) as [ns|] eqn:Gs; [|apply nth_error_None in Gs; lia].
    assert (Bad : (shapeOf g (AN r) = shapeOf g (AN s) -> False) ->
                  exists b st', POk (false, st1) = POk (b, st') /\ good r s st S b st').
    { intros Hne. exists false, st1. split; [reflexivity|]. split; [exact Bs1|]. split; [exact Ex1|]. split; [|discriminate].
      split; [discriminate|intros X; destruct (Hne X)]. }
    assert (Hsh : shapeOf g (AN r) = shapeOf g (AN s) -> n_op nr = n_op ns /\ n_info nr = n_info ns /\ map (shapeOf g) (n_args nr) = map (shapeOf g) (n_args ns)).
    { intros X. destruct (shape_node g r s nr ns W Gr Gs Ir X) as [_ Y]. exact Y. }
    destruct (opc_eqb (n_op nr) (n_op ns)) eqn:Eo; cbn [negb].
    2: { apply Bad. intros X. destruct (Hsh X) as [Y _]. apply opc_eqb_ok in Y. rewrite Y in Eo. discriminate. }
    destruct (info_eqb (n_info nr) (n_info ns)) eqn:Ei; cbn [negb].
    2: { apply Bad. intros X. destruct (Hsh X) as [_ [Y _]]. apply info_eqb_ok in Y. rewrite Y in Ei. discriminate. }
    destruct (List.length (n_args nr) =? List.length (n_args ns)) eqn:El; cbn [negb].
    2: { apply Bad. intros X. destruct (Hsh X) as [_ [_ Y]]. apply Nat.eqb_neq in El. apply El.
         rewrite <- (map_length (shapeOf g) (n_args nr)), Y. apply map_length. }
    apply opc_eqb_ok in Eo. apply info_eqb_ok in Ei. apply Nat.eqb_eq in El.
    assert (Hrec : recOk (cmp eqV fuel g [] dref single d minc) r s ((r, s) :: S)).
    { intros r' s' st2 H2 L1 L2 I' Hb' Iv. apply (IH r' s' st2 H2); auto; [lia|].
      intros r2 s2 [E|Hin]; [inversion E; subst; auto|]. destruct (Hs _ _ Hin). lia. }
    destruct (args_ok _ r s nr ns _ Gr Gs Hb Hrec (n_args nr) (n_args ns) [] [] st1 _ eq_refl eq_refl eq_refl El I1)
      as [b [st' [Q1 [Q2 [Q3 [Q4 Q5]]]]]].
    exists b, st'. split; [exact Q1|]. split; [exact Q2|]. split; [apply (ext_trans _ _ _ Ex1 Q3)|].
    assert (Hbs : b = true <-> shapeOf g (AN r) = shapeOf g (AN s)).
    { split; intros X.
      - rewrite (shape_op g r nr W Gr Ir). assert (Is : isInv g s = false).
        { unfold isInv in *. rewrite Gr in Ir. rewrite Gs. rewrite <- Eo. exact Ir. }
        rewrite (shape_op g s ns W Gs Is), Eo, Ei. apply Q4 in X. rewrite X. reflexivity.
      - apply Q4. destruct (Hsh X) as [_ [_ Y]]. exact Y. }
    split; [exact Hbs|]. intros Ht. destruct (Q5 Ht) as [[H' Iv] Cv].
    assert (Cr : aligned g r0 s0 -> covered (s_idx st') r).
    { intros Al r' R a j A Ij. specialize (Cv Al). destruct (reach_first r r' R) as [->|[a' [r1 [A1 [I1' R1]]]]].
      - unfold argAt in A. rewrite Gr in A. specialize (Cv a j A). rewrite Ij in Cv. exact Cv.
      - unfold argAt in A1. rewrite Gr in A1. specialize (Cv a' r1 A1). rewrite I1' in Cv. apply (Cv r' R1 a j A Ij). }
    split; [|exact Cr]. exists H'. destruct Iv as [J1 J2 J3 J4 J5 J6]. constructor; auto.
    intros c r1 s1 Hin. destruct (J6 _ _ _ Hin) as [X [[Y|Y]|Y]]; split; auto. right. injection Y as <- <-. split; [apply Hbs, Ht|exact Cr].
Qed.
End Cmp.

(** * C58: equation patterns and the loops made from them *)
From Coq Require Import List Arith Bool Lia Sorted ZArith.
From Verif Require Import LoopTape_model LoopTape_spec LoopTape_graph LoopTape_cmp LoopTape_find LoopTape_path LoopTape_loop LoopTape_clone LoopTape_main LoopTape_check.
Import ListNotations.
Local Open Scope nat_scope.

Section Alias.
Context {V : Type}.
Implicit Types g : graph V.
Definition inRange g (deps : list (arg V)) : Prop := forall k, In (AN k) deps -> k < List.length g.

Lemma isInv_app g h k : k < List.length g -> isInv (g ++ h) k = isInv g k.
Proof. intros L. unfold isInv. rewrite nth_error_app1 by exact L. reflexivity. Qed.
Lemma recorded_alias g k : recordedGraph g -> isInv g k = true -> recordedGraph (g ++ [mkN OAlias [] [AN k]]).
Proof.
  intros W I j n E. pose proof (isInv_lt g k I) as Lk. destruct (Nat.lt_ge_cases j (List.length g)) as [L|L].
  - rewrite nth_error_app1 in E by exact L. destruct (W j n E) as [H1 [H2 H3]]. split; [exact H1|]. split; [exact H2|]. intros O. destruct (H3 O) as [i [Ei Ii]].
    exists i. split; [exact Ei|]. rewrite isInv_app; [exact Ii|apply isInv_lt, Ii].
  - assert (j = List.length g). { assert (j < List.length (g ++ [mkN OAlias [] [AN k]])) by (apply nth_error_Some; rewrite E; discriminate). rewrite app_length in *. cbn in *. lia. }
    subst j. rewrite nth_error_app2, Nat.sub_diag in E by lia. injection E as <-. cbn [n_args n_op]. split; [|split].
    + intros i [H|[]]. injection H as <-. exact Lk.
    + discriminate.
    + intros _. exists k. split; [reflexivity|]. rewrite isInv_app by exact Lk. exact I.
Qed.
Lemma set_nth {A} (l : list A) d x e : d < List.length l -> nth_error (firstn d l ++ x :: skipn (S d) l) e = if e =? d then Some x else nth_error l e.
Proof.
  revert d e. induction l as [|y l IH]; intros [|d] e L; cbn [List.length] in L; try lia.
  - destruct e; reflexivity.
  - destruct e as [|e]; [reflexivity|]. cbn [firstn skipn app nth_error Nat.eqb]. apply (IH d e). lia.
Qed.

Lemma aliases_ok (sem : opc -> list nat -> list V -> V) dflt : forall cs g deps, recordedGraph g -> inRange g deps ->
  exists h deps1, aliases g deps cs = (g ++ h, deps1) /\ recordedGraph (g ++ h) /\ inRange (g ++ h) deps1 /\ List.length deps1 = List.length deps /\
    (forall d a, nth_error deps d = Some a -> dependent g a -> nth_error deps1 d = Some a) /\
    (forall d a, In d cs -> nth_error deps1 d = Some a -> dependent (g ++ h) a) /\
    (forall d a, nth_error deps d = Some a -> exists a1, nth_error deps1 d = Some a1 /\
       ((forall v, sem OAlias [] [v] = v) -> forall x, valueOf sem dflt (g ++ h) x a1 = valueOf sem dflt g x a)).
Proof.
  induction cs as [|d cs IH]; intros g deps W R.
  - exists [], deps. rewrite app_nil_r. split; [reflexivity|]. split; [exact W|]. split; [exact R|]. split; [reflexivity|]. split; [auto|]. split; [intros d a []|].
    intros d a E. exists a. auto.
  - cbn [aliases]. assert (Skip : (forall a, nth_error deps d = Some a -> dependent g a) ->
      exists h deps1, aliases g deps cs = (g ++ h, deps1) /\ recordedGraph (g ++ h) /\ inRange (g ++ h) deps1 /\ List.length deps1 = List.length deps /\
        (forall d a, nth_error deps d = Some a -> dependent g a -> nth_error deps1 d = Some a) /\
        (forall d' a, In d' (d :: cs) -> nth_error deps1 d' = Some a -> dependent (g ++ h) a) /\
        (forall d a, nth_error deps d = Some a -> exists a1, nth_error deps1 d = Some a1 /\
          ((forall v, sem OAlias [] [v] = v) -> forall x, valueOf sem dflt (g ++ h) x a1 = valueOf sem dflt g x a))).
    { intros Hd. destruct (IH g deps W R) as [h [deps1 [E [W1 [R1 [L1 [K1 [K2 K3]]]]]]]]. exists h, deps1. repeat (split; [assumption|]). split; [|exact K3].
      intros d' a [<-|I] E'; [|apply (K2 d' a I E')]. destruct (nth_error deps d) as [a0|] eqn:E0.
      - specialize (Hd a0 eq_refl). rewrite (K1 d a0 E0 Hd) in E'. injection E' as <-. destruct a0 as [v|k]; [exact I|]. destruct Hd as [Lk Ik].
        split; [rewrite app_length; lia|rewrite isInv_app; assumption].
      - apply nth_error_None in E0. assert (d < List.length deps1) by (apply nth_error_Some; rewrite E'; discriminate). lia. }
    destruct (nth_error deps d) as [[v|k]|] eqn:Ed.
    + apply Skip. intros a E. injection E as <-. exact I.
    + destruct (isInv g k) eqn:Ik.
      * clear Skip. set (g' := g ++ [mkN OAlias [] [AN k]]). set (deps' := firstn d deps ++ AN (List.length g) :: skipn (S d) deps).
        assert (Ld : d < List.length deps) by (apply nth_error_Some; rewrite Ed; discriminate).
        assert (W' : recordedGraph g') by (apply recorded_alias; assumption).
        assert (Lg : List.length g' = S (List.length g)) by (unfold g'; rewrite app_length; cbn; lia).
        assert (Nd : forall e, nth_error deps' e = if e =? d then Some (AN (List.length g)) else nth_error deps e) by (intros e; apply set_nth, Ld).
        assert (R' : inRange g' deps').
        { intros j Hj. apply In_nth_error in Hj. destruct Hj as [e He]. rewrite Nd in He. rewrite Lg. destruct (e =? d); [injection He as <-; lia|].
          apply nth_error_In in He. specialize (R j He). lia. }
        destruct (IH g' deps' W' R') as [h [deps1 [E [W1 [R1 [L1 [K1 [K2 K3]]]]]]]].
        exists (mkN OAlias [] [AN k] :: h), deps1. unfold g' in E, W1, R1, K2, K3. rewrite <- app_assoc in E, W1, R1, K2, K3. cbn [app] in E, W1, R1, K2, K3.
        split; [exact E|]. split; [exact W1|]. split; [exact R1|]. split.
        { rewrite L1. unfold deps'. rewrite app_length. cbn [List.length]. rewrite firstn_length, skipn_length. lia. }
        assert (Da : dependent g' (AN (List.length g))).
        { split; [lia|]. unfold isInv, g'. rewrite nth_error_app2, Nat.sub_diag by lia. reflexivity. }
        assert (Hd1 : nth_error deps1 d = Some (AN (List.length g))) by (apply K1; [rewrite Nd, Nat.eqb_refl; reflexivity|exact Da]).
        split; [|split].
        -- intros e a Ee Da'. apply K1.
           ++ rewrite Nd. destruct (e =? d) eqn:Eq; [|exact Ee]. apply Nat.eqb_eq in Eq. subst e. rewrite Ed in Ee. injection Ee as <-. destruct Da' as [_ X]. congruence.
           ++ destruct a as [v|j]; [exact I|]. destruct Da' as [X Y]. split; [lia|]. unfold g'. rewrite isInv_app; assumption.
        -- intros e a [<-|Ie] Ee; [|apply (K2 e a Ie Ee)]. rewrite Hd1 in Ee. injection Ee as <-. destruct Da as [X Y]. split.
           ++ rewrite app_length. cbn [List.length]. lia.
           ++ unfold isInv in *. unfold g' in Y. rewrite nth_error_app2, Nat.sub_diag in * by lia. exact Y.
        -- intros e a Ee. destruct (e =? d) eqn:Eq.
           ++ apply Nat.eqb_eq in Eq. subst e. rewrite Ed in Ee. injection Ee as <-. destruct (K3 d (AN (List.length g))) as [a1 [E1 V1]]; [rewrite Nd, Nat.eqb_refl; reflexivity|].
              exists a1. split; [exact E1|]. intros Hs x. rewrite (V1 Hs x). change (g ++ [mkN OAlias [] [AN k]]) with g'. unfold g'. rewrite value_last. unfold nodeVal. cbn [n_op n_info n_args map]. rewrite Hs.
              reflexivity.
           ++ destruct (K3 e a) as [a1 [E1 V1]]; [rewrite Nd, Eq; exact Ee|]. exists a1. split; [exact E1|]. intros Hs x. rewrite (V1 Hs x). apply value_app.
              intros j ->. apply R, (nth_error_In _ _ Ee).
      * apply Skip. intros a E. injection E as <-. split; [apply R, (nth_error_In _ _ Ed)|exact Ik].
    + apply Skip. intros a E. discriminate.
Qed.
End Alias.

(** The candidate sets a user gives: increasing (std::set), of dependents of the model. *)
Definition candidates {V} (deps : list (arg V)) (css : list (list nat)) : Prop :=
  forall cs, In cs css -> StronglySorted lt cs /\ forall d, In d cs -> d < List.length deps.

Lemma find_ok {V} (eqV : V -> V -> bool) (sem : opc -> list nat -> list V -> V) dflt g deps css :
  (forall a b, eqV a b = true <-> a = b) -> recordedGraph g -> inRange g deps -> candidates deps css ->
  exists g1 deps1 pss, findPatterns eqV g deps css = POk (g1, deps1, map detect (concat pss)) /\ recordedGraph g1 /\ List.length deps1 = List.length deps /\
    (forall d a, nth_error deps d = Some a -> exists a1, nth_error deps1 d = Some a1 /\
       ((forall v, sem OAlias [] [v] = v) -> forall x, valueOf sem dflt g1 x a1 = valueOf sem dflt g x a)) /\
    Forall2 (fun cs ps => exactPatterns g1 deps1 cs [] ps) css pss.
Proof.
  intros Ev W R C. destruct (aliases_ok sem dflt (concat css) g deps W R) as [h [deps1 [E [W1 [R1 [L1 [_ [K2 K3]]]]]]]].
  unfold findPatterns. rewrite E. destruct (relatedAll_ok eqV Ev (g ++ h) W1 deps1 css 1 (repeat 0 (List.length (g ++ h)))) as [pss [-> F]].
  - intros cs Hc. destruct (C cs Hc) as [Sc Hd]. split; [exact Sc|]. intros d Id. specialize (Hd d Id). rewrite <- L1 in Hd.
    destruct (nth_error deps1 d) as [a|] eqn:Ea; [|apply nth_error_None in Ea; lia]. exists a. split; [exact Ea|]. apply (K2 d a); [|exact Ea].
    apply in_concat. exists cs. auto.
  - split; [apply repeat_length|]. apply Forall_forall. intros c Hc. apply repeat_spec in Hc. lia.
  - cbn [pbind]. exists (g ++ h), deps1, pss. split; [reflexivity|]. split; [exact W1|]. split; [exact L1|]. split; [exact K3|exact F].
Qed.

(** ** The patterns *)
Theorem C58_patterns_exact : forall (V : Type) (eqV : V -> V -> bool) (sem : opc -> list nat -> list V -> V) (dflt : V) (g : graph V) (deps : list (arg V)) (css : list (list nat)),
  (forall a b, eqV a b = true <-> a = b) -> (forall v, sem OAlias [] [v] = v) -> recordedGraph g -> inRange g deps -> candidates deps css ->
  exists g1 deps1 pss, findPatterns eqV g deps css = POk (g1, deps1, concat pss) /\
    Forall2 (exactFor g1 deps1) css pss /\
    (* the aliases do not change the dependents *)
    (forall d a, nth_error deps d = Some a -> exists a1, nth_error deps1 d = Some a1 /\ forall x, valueOf sem dflt g1 x a1 = valueOf sem dflt g x a).
Proof.
  intros V eqV sem dflt g deps css Ev Hs W R C. destruct (find_ok eqV sem dflt g deps css Ev W R C) as [g1 [deps1 [pss [E [W1 [L1 [K F]]]]]]].
  exists g1, deps1, (map (map detect) pss). split; [|split].
  - rewrite E. rewrite concat_map. reflexivity.
  - assert (X : forall cs ps, exactPatterns g1 deps1 cs [] ps -> exactFor g1 deps1 cs (map detect ps)).
    { intros cs ps [E1 [E2 E3]]. split; [|split].
      - intros p Hp. apply in_map_iff in Hp. destruct Hp as [q [<- Hq]]. destruct (E1 q Hq) as [[_ [[t Pt] _]] [L [S I]]]. cbn [detect p_deps p_ref].
        split; [exact L|]. split; [exact S|]. split; [rewrite Pt; reflexivity|]. intros d Hd. apply (I d Hd).
      - intros d d' a a' Hd Hd' Hne Ed Ed'. specialize (E2 d d' Hd Hd' (fun x => x) (fun x => x) Hne). unfold shapeDep in E2. rewrite Ed, Ed' in E2. cbn [option_map] in E2.
        split.
        + intros [p [Hp [H1 H2]]]. apply in_map_iff in Hp. destruct Hp as [q [<- Hq]].
          assert (K' : Some (shapeOf g1 a) = Some (shapeOf g1 a')) by (apply E2; exists q; auto). congruence.
        + intros H. rewrite H in E2. destruct (proj2 E2 eq_refl) as [q [Hq [H1 H2]]]. exists (detect q). split; [apply in_map, Hq|]. auto.
      - rewrite map_map. exact E3. }
    clear - F X. induction F as [|cs ps css pss H F IH]; cbn; constructor; auto.
  - intros d a Ed. destruct (K d a Ed) as [a1 [E1 V1]]. exists a1. split; [exact E1|]. apply V1, Hs.
Qed.
Print Assumptions C58_patterns_exact.

(** ** The values of loops *)
Lemma pattern_dec (p q : pattern) : {p = q} + {p <> q}.
Proof. repeat decide equality. Qed.
Lemma below_self {V} (g : graph V) r p : below g (r, r) p -> fst p = snd p.
Proof.
  intros H. remember (r, r) as q eqn:E. induction H as [|p k s a k' s' H IH A1 A2 _]; [rewrite E; reflexivity|]. specialize (IH E). cbn [fst snd] in *. congruence.
Qed.
Lemma agree_all {V} (g : graph V) deps ps iters : Forall (usable g deps) ps -> iterations ps iters -> agree g deps ps iters -> agreeAll g deps ps iters.
Proof.
  intros Us [_ [_ [_ I4]]] A p q d e it r s r' s' op a j j' Hp Hq Hi Hd He D E Er Es Er' Es' U U'. destruct (pattern_dec p q) as [<-|N]; [|apply (A p q d e it r s r' s' op a j j'); assumption].
  assert (d = e) by (apply (I4 it p); assumption). subst e. assert (r' = r) by congruence. assert (s' = s) by congruence. subst r' s'. split; [|tauto].
  destruct (Nat.eq_dec d (p_ref p)) as [->|Nd].
  - assert (s = r) by congruence. subst s. destruct U as [t [B [A1 _]]], U' as [t' [B' [A1' _]]]. apply below_self in B, B'. cbn in B, B'. congruence.
  - rewrite Forall_forall in Us. destruct (Us p Hp d r s D Nd Er Es) as [C _]. apply (C op a); assumption.
Qed.
Theorem C58_loop_values_partial : forall (V : Type) (eqV : V -> V -> bool) (sem : opc -> list nat -> list V -> V) (dflt : V) (g : graph V) (deps : list (arg V)) (css : list (list nat)),
  (forall a b, eqV a b = true <-> a = b) -> (forall v, sem OAlias [] [v] = v) -> recordedGraph g -> inRange g deps -> candidates deps css -> NoDup (concat css) ->
  exists g1 deps1 found, findPatterns eqV g deps css = POk (g1, deps1, found) /\
  (* a loop with some of the patterns *)
  forall ps iters refs temps, incl ps found -> NoDup ps -> Forall (usable g1 deps1) ps -> iterations ps iters -> agree g1 deps1 ps iters ->
    refIteration ps iters = Some refs -> (forall p, In p ps -> In (p_ref p) refs) ->
  exists lm temps' more, createLoop g1 deps1 ps iters temps = POk (lm, temps') /\ temps' = temps ++ more /\
  forall x z, (forall k, k < List.length temps' -> z k = valueOf sem dflt g1 x (AN (nth k temps' 0))) ->
  forall it u e p d a, nth_error ps e = Some p -> In d (p_deps p) -> nth_error iters it = Some u -> In d u -> nth_error deps d = Some a ->
    nth it (nth e (lm_dep lm) []) None = Some d /\ loopValue sem dflt lm x z it e = valueOf sem dflt g x a.
Proof.
  intros V eqV sem dflt g deps css Ev Hs W R C N. destruct (find_ok eqV sem dflt g deps css Ev W R C) as [g1 [deps1 [pss [E [W1 [L1 [K F]]]]]]].
  exists g1, deps1, (map detect (concat pss)). split; [exact E|]. intros ps iters refs temps Hin Np Us It Ag Rf Hr. apply (agree_all _ _ _ _ Us It) in Ag.
  assert (Hc : forall q, In q (concat pss) -> patOk g1 deps1 q /\ 2 <= List.length (p_deps q) /\ StronglySorted lt (p_deps q)).
  { intros q Hq. apply in_concat in Hq. destruct Hq as [ps' [H1 H2]]. clear - F H1 H2. induction F as [|cs ps0 css pss H F IH]; [destruct H1|].
    destruct H1 as [<-|H1]; [|auto]. destruct H as [E1 _]. destruct (E1 q H2) as [A [B [D _]]]. auto. }
  assert (Ndc : NoDup (concat (map p_deps (concat pss)))).
  { clear - F N. induction F as [|cs ps0 css pss H F IH]; [constructor|]. cbn in N. cbn [concat]. rewrite map_app, concat_app. destruct H as [E1 [_ E3]].
    apply NoDup_app_intro; [exact E3| |].
    - apply IH. clear - N. induction cs as [|c cs IH]; [exact N|]. cbn in N. inversion N; auto.
    - intros d H1 H2. apply in_concat in H1. destruct H1 as [l1 [I1 D1]]. apply in_map_iff in I1. destruct I1 as [p [<- Hp]].
      destruct (E1 p Hp) as [_ [_ [_ X]]]. destruct (X d D1) as [Hd _].
      apply in_concat in H2. destruct H2 as [l2 [I2 D2]]. apply in_map_iff in I2. destruct I2 as [q [<- Hq]].
      assert (Hd2 : In d (concat css)).
      { apply in_concat in Hq. destruct Hq as [ps' [H1 H2]]. clear - F H1 H2 D2. induction F as [|cs ps1 css pss H F IH]; [destruct H1|].
        destruct H1 as [<-|H1]; [|apply in_or_app; right; auto]. destruct H as [E1 _]. destruct (E1 q H2) as [_ [_ [_ X]]]. apply in_or_app. left. apply (X d D2). }
      clear - N Hd Hd2. induction cs as [|c cs IH]; [destruct Hd|]. cbn in N. inversion N as [|? ? A B]; subst. destruct Hd as [->|Hd]; [apply A, in_or_app; right; exact Hd2|auto]. }
  assert (Hu : forall p, In p ps -> exists q, In q (concat pss) /\ p = detect q).
  { intros p Hp. apply Hin in Hp. apply in_map_iff in Hp. destruct Hp as [q [<- Hq]]. eauto. }
  assert (HT : forall p, In p ps -> tableOk g1 deps1 p).
  { intros p Hp. rewrite Forall_forall in Us. specialize (Us p Hp). destruct (Hu p Hp) as [q [Hq ->]]. destruct (Hc q Hq) as [A [B D]].
    apply detect_ok; [exact W1|exact A|exact B|apply sorted_NoDup, D|exact Us]. }
  assert (Same : forall q q' d, In q (concat pss) -> In q' (concat pss) -> In d (p_deps q) -> In d (p_deps q') -> q = q').
  { clear - Ndc. induction (concat pss) as [|q0 l IH]; intros q q' d [] ; [intros I2 D1 D2|intros I2 D1 D2].
    - subst q0. destruct I2 as [<-|I2]; [reflexivity|]. exfalso. cbn in Ndc. revert Ndc. clear - I2 D1 D2. induction (p_deps q) as [|x t IH]; [destruct D1|].
      intros N. cbn in N. inversion N as [|? ? A B]; subst. destruct D1 as [->|D1]; [|auto]. apply A. apply in_or_app. right. apply in_concat. exists (p_deps q'). split; [apply in_map, I2|exact D2].
    - assert (Nl : NoDup (concat (map p_deps l))) by (cbn in Ndc; clear - Ndc; induction (p_deps q0) as [|x t IHt]; [exact Ndc|]; cbn in Ndc; inversion Ndc; auto).
      destruct I2 as [<-|I2]; [|apply (IH Nl q q' d); assumption]. exfalso. cbn in Ndc. revert Ndc. clear - H D1 D2. induction (p_deps q0) as [|x t IH]; [destruct D2|].
      intros N. cbn in N. inversion N as [|? ? A B]; subst. destruct D2 as [->|D2]; [|auto]. apply A. apply in_or_app. right. apply in_concat. exists (p_deps q). split; [apply in_map, H|exact D1]. }
  assert (Hdis : forall e e' p q d, nth_error ps e = Some p -> nth_error ps e' = Some q -> In d (p_deps p) -> In d (p_deps q) -> e = e').
  { intros e e' p q d He He' Hd Hd'. destruct (Hu p (nth_error_In _ _ He)) as [p0 [Hp0 ->]], (Hu q (nth_error_In _ _ He')) as [q0 [Hq0 ->]].
    cbn [detect p_deps] in Hd, Hd'. rewrite (Same p0 q0 d Hp0 Hq0 Hd Hd') in He. rewrite NoDup_nth_error in Np. apply Np; [apply nth_error_Some; rewrite He; discriminate|congruence]. }
  assert (Hrefs : In refs iters) by (unfold refIteration in Rf; apply find_some in Rf; tauto).
  destruct (collect_ok g1 W1 deps1 ps iters refs HT Hdis It Hrefs Hr refs [] [] (incl_refl _)) as [new [l [Ec _]]]. rewrite app_nil_r in Ec.
  destruct (tail_ok sem dflt g1 W1 deps1 ps iters refs HT Hdis It Ag Hrefs Hr new l Ec temps) as [lm [temps' [more [Et [Em Kt]]]]].
  exists lm, temps', more. split; [|split; [exact Em|]].
  - unfold createLoop. rewrite Rf, Ec. cbn [pbind]. exact Et.
  - intros x z Hz it u e p d a He Hd Hu' Iu Ed. destruct (K d a Ed) as [a1 [E1 V1]].
    destruct (Kt x z Hz it u e p d a1 He Hd Hu' Iu E1) as [X Y]. split; [exact X|]. rewrite Y. apply V1, Hs.
Qed.
Print Assumptions C58_loop_values_partial.

(** Without the condition on the patterns ([usable]) the loops are wrong: [exists] a model of recorded operations, candidates and
    a loop made of all the patterns found, for which a dependent has another value in the loop.  [wrongLoop] says so, with all
    the other hypotheses of [C58_loop_values_partial]. *)
Definition wrongLoop (C : graph Z -> list (arg Z) -> pattern -> Prop) : Prop :=
  exists (sem : opc -> list nat -> list Z -> Z) (g : graph Z) (deps : list (arg Z)) (css iters : list (list nat)) (ps : list pattern) (refs : list nat) (lm : loopModel Z) (temps : list nat),
    (forall v, sem OAlias [] [v] = v) /\ recordedGraph g /\ inRange g deps /\ candidates deps css /\ NoDup (concat css) /\
    findPatterns Z.eqb g deps css = POk (g, deps, ps) /\ NoDup ps /\ Forall (C g deps) ps /\ iterations ps iters /\ agree g deps ps iters /\
    refIteration ps iters = Some refs /\ (forall p, In p ps -> In (p_ref p) refs) /\
    createLoop g deps ps iters [] = POk (lm, temps) /\
    exists x z it u e p d a, (forall k, k < List.length temps -> z k = valueOf sem 0%Z g x (AN (nth k temps 0))) /\
      nth_error ps e = Some p /\ In d (p_deps p) /\ nth_error iters it = Some u /\ In d u /\ nth_error deps d = Some a /\
      loopValue sem 0%Z lm x z it e <> valueOf sem 0%Z g x a.

Definition zSem (o : opc) (i : list nat) (vs : list Z) : Z :=
  match o, vs with OOp 0, [a; b] => (a + b)%Z | OOp 1, [a] => (a * a)%Z | OAlias, [a] => a | _, _ => 0%Z end.
Definition inv (j : nat) : node Z := mkN OInv [j] [].
Definition sq (k : nat) : node Z := mkN (OOp 1) [] [AN k].
Definition add (k l : nat) : node Z := mkN (OOp 0) [] [AN k; AN l].
Definition xs (j : nat) : Z := Z.of_nat (j + 2).

Ltac cands := intros cs Hc; repeat (destruct Hc as [<-|Hc]; [split; [repeat constructor|intros d Hd; cbn in Hd |- *; lia]|]); destruct Hc.
Ltac rng := let k := fresh in let H := fresh in intros k H; repeat (destruct H as [H|H]; [try discriminate; injection H as <-; cbn; lia|]); destruct H.
Ltac ndp := repeat (constructor; [cbn; intuition congruence|]); constructor.

(** y_0 = a + a with a = x_0^2 made once, y_1 = x_1^2 + x_2^2: the same expression but for the independents; the loop gives
    x_2^2 + x_2^2 for y_1.  All operations used by both are at the same positions. *)
Definition ga : graph Z := [inv 0; inv 1; inv 2; sq 0; add 3 3; sq 1; sq 2; add 5 6].
Definition da : list (arg Z) := [AN 4; AN 7].
Theorem C58_repeated_operation_refuted : wrongLoop (fun g deps p =>
  forall d r s, In d (p_deps p) -> d <> p_ref p -> nth_error deps (p_ref p) = Some (AN r) -> nth_error deps d = Some (AN s) -> aligned g r s).
Proof.
  assert (W : recordedGraph ga) by (apply recordedB_ok; reflexivity).
  eexists zSem, ga, da, [[0; 1]], [[0]; [1]], _, _, _, _.
  split; [reflexivity|]. split; [exact W|]. split; [rng|]. split; [cands|]. split; [ndp|]. split; [vm_compute; reflexivity|]. split; [ndp|].
  split; [constructor; [|constructor]; intros d r s Hd Hn Er Es; apply alignedB_ok; [exact W|]; cbn in Hd, Er; destruct Hd as [<-|[<-|[]]]; [destruct Hn; reflexivity|]; injection Er as <-; injection Es as <-; reflexivity|].
  split; [apply iterationsB_ok; reflexivity|].
  split; [intros p q d e it r s r' s' op a j j' [<-|[]] [<-|[]] N; destruct N; reflexivity|].
  split; [vm_compute; reflexivity|]. split; [intros p [<-|[]]; left; reflexivity|]. split; [vm_compute; reflexivity|].
  eexists xs, (fun _ => 0%Z), 1, _, 0, _, 1, _. split; [intros k Hk; cbn in Hk; lia|]. split; [reflexivity|]. split; [right; left; reflexivity|]. split; [reflexivity|]. split; [left; reflexivity|].
  split; [reflexivity|]. vm_compute. discriminate.
Qed.
Print Assumptions C58_repeated_operation_refuted.

(** y_0 = x_0^2 + a, y_1 = a + a, y_2 = x_2^2 + x_3^2 with a = x_1^2 made once: the operation a is at the second position of
    y_0 and at the first of y_1; the loop gives another value for y_1.  Each expression uses the same independents wherever an
    operation of the reference is used again. *)
Definition gb : graph Z := [inv 0; inv 1; inv 2; inv 3; sq 0; sq 1; sq 2; sq 3; add 4 5; add 5 5; add 6 7].
Definition db : list (arg Z) := [AN 8; AN 9; AN 10].
Theorem C58_crossing_operation_refuted : wrongLoop (fun g deps p =>
  forall d r s, In d (p_deps p) -> d <> p_ref p -> nth_error deps (p_ref p) = Some (AN r) -> nth_error deps d = Some (AN s) -> consistent g r s).
Proof.
  assert (W : recordedGraph gb) by (apply recordedB_ok; reflexivity).
  eexists zSem, gb, db, [[0; 1; 2]], [[0]; [1]; [2]], _, _, _, _.
  split; [reflexivity|]. split; [exact W|]. split; [rng|]. split; [cands|]. split; [ndp|]. split; [vm_compute; reflexivity|]. split; [ndp|].
  split; [constructor; [|constructor]; intros d r s Hd Hn Er Es; apply consistentB_ok; [exact W|]; cbn in Hd, Er; destruct Hd as [<-|[<-|[<-|[]]]]; [destruct Hn; reflexivity| |]; injection Er as <-; injection Es as <-; reflexivity|].
  split; [apply iterationsB_ok; reflexivity|].
  split; [intros p q d e it r s r' s' op a j j' [<-|[]] [<-|[]] N; destruct N; reflexivity|].
  split; [vm_compute; reflexivity|]. split; [intros p [<-|[]]; left; reflexivity|]. split; [vm_compute; reflexivity|].
  eexists xs, (fun _ => 0%Z), 1, _, 0, _, 1, _. split; [intros k Hk; cbn in Hk; lia|]. split; [reflexivity|]. split; [right; left; reflexivity|]. split; [reflexivity|]. split; [left; reflexivity|].
  split; [reflexivity|]. vm_compute. discriminate.
Qed.
Print Assumptions C58_crossing_operation_refuted.

(** The hypotheses are met: y_i = x_i^2 + x_3 and w_i = x_i^2 + x_3^2 share x_i^2 (and x_3^2 is the same for all iterations),
    and the dependents x_0 and x_1 are a pattern of aliases.  The loop has three equations and three iterations. *)
Definition gc : graph Z := [inv 0; inv 1; inv 2; inv 3; sq 0; sq 1; sq 2; sq 3; add 4 3; add 5 3; add 6 3; add 4 7; add 5 7; add 6 7].
Definition dc : list (arg Z) := [AN 8; AN 9; AN 10; AN 11; AN 12; AN 13; AN 0; AN 1].
Definition cc : list (list nat) := [[0; 1; 2; 3; 4; 5]; [6; 7]].
Definition ic : list (list nat) := [[0; 3; 6]; [1; 4; 7]; [2; 5]].
Example C58_case_hypotheses :
  (forall a b, Z.eqb a b = true <-> a = b) /\ (forall v, zSem OAlias [] [v] = v) /\ recordedGraph gc /\ inRange gc dc /\ candidates dc cc /\ NoDup (concat cc).
Proof. split; [exact Z.eqb_eq|]. split; [reflexivity|]. split; [apply recordedB_ok; reflexivity|]. split; [rng|]. split; [cands|ndp]. Qed.
Example C58_case_loop : exists g1 deps1 ps refs,
  findPatterns Z.eqb gc dc cc = POk (g1, deps1, ps) /\ map p_deps ps = [[0; 1; 2]; [3; 4; 5]; [6; 7]] /\ NoDup ps /\ Forall (usable g1 deps1) ps /\
  iterations ps ic /\ agree g1 deps1 ps ic /\ refIteration ps ic = Some refs /\ (forall p, In p ps -> In (p_ref p) refs).
Proof.
  destruct (findPatterns Z.eqb gc dc cc) as [[[g1 deps1] ps]| | |] eqn:E; [|exfalso; vm_compute in E; discriminate E ..].
  vm_compute in E. injection E as <- <- <-. eexists _, _, _, _. split; [reflexivity|]. split; [reflexivity|]. split; [repeat (constructor; [cbn; intuition discriminate|]); constructor|].
  match goal with |- Forall (usable ?g ?dd) ?pp /\ _ => assert (W : recordedGraph g) by (apply recordedB_ok; reflexivity);
    assert (A : agreeAll g dd pp ic) by (apply agreeB_ok; [exact W|vm_compute; reflexivity]) end.
  split; [repeat (constructor; [apply usableB_ok; [exact W|vm_compute; reflexivity]|]); constructor|].
  split; [apply iterationsB_ok; vm_compute; reflexivity|].
  split; [intros p q d e it r s r' s' op a j j' Hp Hq _; exact (A p q d e it r s r' s' op a j j' Hp Hq)|].
  split; [vm_compute; reflexivity|]. intros p Hp. repeat (destruct Hp as [<-|Hp]; [cbn; tauto|]). destruct Hp.
Qed.
(** The values, iteration by iteration and equation by equation, and the operations computed outside the loop. *)
Example C58_case_values :
  match findPatterns Z.eqb gc dc cc with
  | POk (g1, deps1, ps) => match createLoop g1 deps1 ps ic [] with
      | POk (lm, temps) => Some (lm_dep lm, temps, map (fun it => map (loopValue zSem 0%Z lm xs (fun k => valueOf zSem 0%Z g1 xs (AN (nth k temps 0))) it) [0; 1; 2]) [0; 1; 2])
      | _ => None end
  | _ => None end =
  Some ([[Some 0; Some 1; Some 2]; [Some 3; Some 4; Some 5]; [Some 6; Some 7; None]], [7], [[9; 29; 2]; [14; 34; 3]; [21; 41; 0]]%Z).
Proof. vm_compute. reflexivity. Qed.


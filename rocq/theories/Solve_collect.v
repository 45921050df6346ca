(** * Collecting the occurrences of a variable: the value of the result *)
From Coq Require Import List Bool Arith Lia Field_theory Ring_theory Field.
From Verif Require Import Graph_model Graph_spec CGArith_model CGArith_spec CGArith_proofs Codegen_spec
  Eval_model Eval_spec Eval_proofs Eval_inst
  Path_model Path_spec Path_proofs Path_graph Solve_model Solve_spec Solve_proofs Solve_total Solve_once Solve_clone.
Import ListNotations.

(** ** Values when one node is given another value *)
Section Override.
Context {B : Type} {O : BaseOps B}.
Variable g : heap B.
Variable env : nat -> nat -> B.
Variable var : nat.
Variable v : option B.

Fixpoint ev (fuel : nat) (n : nat) : option B :=
  match fuel with
  | 0 => None
  | S fuel' =>
      if Nat.eqb n var then v
      else match nth_error g n with
           | None => None
           | Some d => opval env (n_handler d) (n_op d) (map (sval (ev fuel')) (n_args d))
           end
  end.
Variable r : nat -> nat.
Hypothesis RK : forall n i j, link g n i j -> r j < r n.
Lemma ev_stable : forall k n f1 f2, r n < k -> r n < f1 -> r n < f2 -> ev f1 n = ev f2 n.
Proof.
  induction k as [|k IH]; intros n f1 f2 Hk H1 H2; [lia|]. destruct f1 as [|f1], f2 as [|f2]; try lia. cbn [ev].
  destruct (Nat.eqb n var); auto. destruct (nth_error g n) as [d|] eqn:E; auto. f_equal. apply map_ext_in.
  intros [j|b] Ha; [|reflexivity]. cbn. apply In_nth_error in Ha. destruct Ha as [i Ha].
  assert (L : link g n i j) by (exists d; auto). apply RK in L. apply IH; lia.
Qed.
Definition vals0 (n : nat) : option B := ev (S (r n)) n.
Lemma vals0_var : vals0 var = v.
Proof. unfold vals0. cbn. now rewrite Nat.eqb_refl. Qed.
Lemma vals0_eq n d : n <> var -> nth_error g n = Some d ->
  vals0 n = opval env (n_handler d) (n_op d) (map (sval vals0) (n_args d)).
Proof.
  intros N E. unfold vals0 at 1. cbn [ev]. destruct (Nat.eqb_spec n var); [contradiction|]. rewrite E. f_equal.
  apply map_ext_in. intros [j|b] Ha; [|reflexivity]. cbn. apply In_nth_error in Ha. destruct Ha as [i Ha].
  assert (L : link g n i j) by (exists d; auto). apply RK in L. exact (ev_stable (S (r j)) j (r n) (S (r j)) ltac:(lia) ltac:(lia) ltac:(lia)).
Qed.
End Override.

Lemma override_exists {B} {O : BaseOps B} (g : heap B) env var v : no_cycle g -> exists sol0 : nat -> option B,
  sol0 var = v /\ forall n d, n <> var -> nth_error g n = Some d ->
    sol0 n = opval env (n_handler d) (n_op d) (map (sval sol0) (n_args d)).
Proof.
  intros [r RK]. exists (vals0 g env var v r). split; [apply vals0_var|]. intros. now apply vals0_eq.
Qed.

Section Collect.
Context {B : Type} {O : BaseOps B}.
Variable L : BaseLaws B.
Hypothesis FL : is_field B.
Let FT : field_theory b0 b1 badd bmul bsub bneg bdiv (bdiv b1) (@eq B) := FL.
Add Field Bfield2 : FT.

Lemma neq_eqb0 a : a <> b0 -> bcmp CEq a b0 = false.
Proof. intros H. destruct (bcmp CEq a b0) eqn:E; auto. apply (L_eq L) in E. contradiction. Qed.
Lemma odiv_some x y w : odiv x y = Some w -> exists a c, x = Some a /\ y = Some c /\ c <> b0 /\ w = bdiv a c.
Proof.
  destruct x as [a|], y as [c|]; cbn; try discriminate. destruct (bcmp CEq c b0) eqn:E; [discriminate|].
  intros [= <-]. exists a, c. repeat split; auto. intros ->.
  assert (bcmp CEq b0 b0 = true) by (now apply (L_eq L)). congruence.
Qed.
Lemma odiv_intro a c : c <> b0 -> odiv (Some a) (Some c) = Some (bdiv a c).
Proof. intros H. cbn. now rewrite neq_eqb0. Qed.
Lemma lift2_some (f : B -> B -> B) x y w : lift2 f x y = Some w -> exists a c, x = Some a /\ y = Some c /\ w = f a c.
Proof. destruct x as [a|], y as [c|]; cbn; try discriminate. intros [= <-]. eauto. Qed.
Lemma lift1_some (f : B -> B) x w : lift1 f x = Some w -> exists a, x = Some a /\ w = f a.
Proof. destruct x as [a|]; cbn; try discriminate. intros [= <-]. eauto. Qed.

Variable g : heap B.
Variable var : nat.
Hypothesis WA : wf_arity g.
Hypothesis CL : closed g.
Hypothesis NC : no_cycle g.

(** the coefficient of the variable along a path *)
Inductive lin (sol : nat -> option B) : spath -> B -> Prop :=
 | lin_end n : lin sol [(n, None)] b1
 | lin_add n i d p c : nth_error g n = Some d -> n_op d = GAdd -> lin sol p c -> lin sol ((n, Some i) :: p) c
 | lin_sub_l n d p c : nth_error g n = Some d -> n_op d = GSub -> lin sol p c -> lin sol ((n, Some 0) :: p) c
 | lin_sub_r n d p c : nth_error g n = Some d -> n_op d = GSub -> lin sol p c -> lin sol ((n, Some 1) :: p) (bneg c)
 | lin_neg n i d p c : nth_error g n = Some d -> n_op d = GUnMinus -> lin sol p c -> lin sol ((n, Some i) :: p) (bneg c)
 | lin_mul_l n d a o p c k : nth_error g n = Some d -> n_op d = GMul -> n_args d = [a; o] -> sval sol o = Some k ->
     lin sol p c -> lin sol ((n, Some 0) :: p) (bmul c k)
 | lin_mul_r n d a o p c k : nth_error g n = Some d -> n_op d = GMul -> n_args d = [o; a] -> sval sol o = Some k ->
     lin sol p c -> lin sol ((n, Some 1) :: p) (bmul c k)
 | lin_div n d a o p c k : nth_error g n = Some d -> n_op d = GDiv -> n_args d = [a; o] -> sval sol o = Some k -> k <> b0 ->
     lin sol p c -> lin sol ((n, Some 0) :: p) (bdiv c k)
 | lin_alias n i d p c : nth_error g n = Some d -> n_op d = GAlias -> lin sol p c -> lin sol ((n, Some i) :: p) c.

Section Sol.
Variable env : nat -> nat -> B.
Variables sol sol0 : nat -> option B.
Hypothesis S : solves env g sol.
Hypothesis S0v : sol0 var = Some b0.
Hypothesis S0 : forall n d, n <> var -> nth_error g n = Some d ->
  sol0 n = opval env (n_handler d) (n_op d) (map (sval sol0) (n_args d)).

Lemma sol0_free n : n < length g -> ~ occurs g n var -> sol0 n = sol n.
Proof.
  destruct NC as [r RK].
  assert (H : forall m n, r n < m -> n < length g -> ~ occurs g n var -> sol0 n = sol n).
  { induction m as [|m IH]; intros k Hm Hn NO; [lia|].
    destruct (nth_error g k) as [d|] eqn:E; [|apply nth_error_None in E; lia].
    rewrite (S k d E), (S0 k d) by (auto; intros ->; apply NO, occurs_refl). f_equal.
    apply map_ext_in. intros [j|b] Ha; [|reflexivity]. cbn.
    apply In_nth_error in Ha. destruct Ha as [i Ha]. assert (Lk : link g k i j) by (exists d; auto).
    apply IH; [apply RK in Lk; lia|now apply (link_closed g k i j)|].
    intros Oc. apply NO. eapply occurs_trans; [eapply occurs_link; eauto|auto]. }
  apply (H (1 + r n)). lia.
Qed.
Lemma sval0_free n d k i a : nth_error g n = Some d -> nth_error (n_args d) k = Some a -> k <> i ->
  (forall k j, link g n k j -> occurs g j var -> k = i) -> sval sol0 a = sval sol a.
Proof.
  intros Hn Ha N ST. destruct a as [j|b]; [|reflexivity]. cbn. assert (Lk : link g n k j) by (exists d; auto).
  apply sol0_free; [now apply (link_closed g n k j)|]. intros Oc. apply N. eauto.
Qed.

Lemma below_ne n i j : link g n i j -> occurs g j var -> n <> var.
Proof.
  destruct NC as [r RK]. intros Lk Oc ->. apply RK in Lk. apply (occurs_rank g r RK) in Oc. lia.
Qed.

(** along a collectable path the value is linear in the variable *)
Lemma linear p : forall n, down_path g n p var -> straight g var p -> collectable g p = SOk tt ->
  forall w, sol n = Some w -> exists v c u, sol var = Some v /\ lin sol p c /\ sol0 n = Some u /\ w = badd (bmul c v) u.
Proof.
  induction p as [|[n' i'] p IH]; intros n D ST HC w Hw; [inversion D|].
  inversion D as [m E1 E2|n2 i j p' m Lk D' E1 E2 E3]; subst.
  - exists w, b1, b0. split; [auto|]. split; [constructor|]. split; auto. ring.
  - pose proof Lk as [d [Hn Ha]].
    pose proof (down_path_occurs g _ _ _ D') as Oc.
    pose proof (below_ne _ _ _ Lk Oc) as NE.
    assert (NEp : p <> []) by (destruct p; [inversion D'|discriminate]).
    assert (ST' : straight g var p) by (intros n0 i0 Hi; apply ST; now right).
    assert (STn : forall k j', link g n' k j' -> occurs g j' var -> k = i) by (apply (ST n' i); now left).
    assert (HC2 : collectable g p = SOk tt /\ (n_op d = GAdd \/ n_op d = GSub \/ n_op d = GMul \/ n_op d = GUnMinus \/
               n_op d = GAlias \/ (n_op d = GDiv /\ i = 0))).
    { cbn [collectable] in HC. destruct p as [|q p]; [congruence|]. rewrite Hn in HC.
      destruct (n_op d) eqn:EO; try discriminate HC; auto 10.
      destruct i as [|i]; cbn [isFirst] in HC; [auto 10|discriminate]. }
    destruct HC2 as [HCp HOP].
    assert (AR : length (n_args d) = arity (n_op d)).
    { unfold wf_arity in WA. rewrite Forall_forall in WA. apply WA. eapply nth_error_In; eauto. }
    pose proof (S n' d Hn) as Eq. pose proof (S0 n' d NE Hn) as Eq0. rewrite Hw in Eq.
    assert (Q : forall k a, nth_error (n_args d) k = Some a -> k <> i -> sval sol0 a = sval sol a).
    { intros k a Hka N. eapply sval0_free; eauto. }
    assert (IHj : forall wj, sol j = Some wj -> exists v c u, sol var = Some v /\ lin sol p c /\ sol0 j = Some u /\ wj = badd (bmul c v) u).
    { intros wj Hj. apply (IH j); auto. }
    destruct HOP as [EO|[EO|[EO|[EO|[EO|[EO ->]]]]]]; rewrite EO in *; cbn [arity] in AR.
    + destruct (n_args d) as [|a1 [|a2 [|]]] eqn:EA; try discriminate AR. cbn [map opval] in Eq, Eq0. symmetry in Eq.
      apply lift2_some in Eq. destruct Eq as [x1 [x2 [V1 [V2 ->]]]].
      destruct i as [|[|i]]; cbn in Ha; [| |destruct i; discriminate]; injection Ha as ->; cbn in V1, V2.
      * destruct (IHj _ V1) as [v [c [u [Hv [Hl [Hu ->]]]]]]. exists v, c, (badd u x2).
        split; auto. split; [eapply lin_add; eauto|]. split; [|ring].
        rewrite Eq0, (Q 1 a2) by (auto; lia). cbn [sval]. rewrite Hu, V2. reflexivity.
      * destruct (IHj _ V2) as [v [c [u [Hv [Hl [Hu ->]]]]]]. exists v, c, (badd x1 u).
        split; auto. split; [eapply lin_add; eauto|]. split; [|ring].
        rewrite Eq0, (Q 0 a1) by (auto; lia). cbn [sval]. rewrite Hu, V1. reflexivity.
    + destruct (n_args d) as [|a1 [|a2 [|]]] eqn:EA; try discriminate AR. cbn [map opval] in Eq, Eq0. symmetry in Eq.
      apply lift2_some in Eq. destruct Eq as [x1 [x2 [V1 [V2 ->]]]].
      destruct i as [|[|i]]; cbn in Ha; [| |destruct i; discriminate]; injection Ha as ->; cbn in V1, V2.
      * destruct (IHj _ V1) as [v [c [u [Hv [Hl [Hu ->]]]]]]. exists v, c, (bsub u x2).
        split; auto. split; [eapply lin_sub_l; eauto|]. split; [|ring].
        rewrite Eq0, (Q 1 a2) by (auto; lia). cbn [sval]. rewrite Hu, V2. reflexivity.
      * destruct (IHj _ V2) as [v [c [u [Hv [Hl [Hu ->]]]]]]. exists v, (bneg c), (bsub x1 u).
        split; auto. split; [eapply lin_sub_r; eauto|]. split; [|ring].
        rewrite Eq0, (Q 0 a1) by (auto; lia). cbn [sval]. rewrite Hu, V1. reflexivity.
    + destruct (n_args d) as [|a1 [|a2 [|]]] eqn:EA; try discriminate AR. cbn [map opval] in Eq, Eq0. symmetry in Eq.
      apply lift2_some in Eq. destruct Eq as [x1 [x2 [V1 [V2 ->]]]].
      destruct i as [|[|i]]; cbn in Ha; [| |destruct i; discriminate]; injection Ha as ->; cbn in V1, V2.
      * destruct (IHj _ V1) as [v [c [u [Hv [Hl [Hu ->]]]]]]. exists v, (bmul c x2), (bmul u x2).
        split; auto. split; [eapply lin_mul_l; eauto|]. split; [|ring].
        rewrite Eq0, (Q 1 a2) by (auto; lia). cbn [sval]. rewrite Hu, V2. reflexivity.
      * destruct (IHj _ V2) as [v [c [u [Hv [Hl [Hu ->]]]]]]. exists v, (bmul c x1), (bmul x1 u).
        split; auto. split; [eapply lin_mul_r; eauto|]. split; [|ring].
        rewrite Eq0, (Q 0 a1) by (auto; lia). cbn [sval]. rewrite Hu, V1. reflexivity.
    + destruct (n_args d) as [|a1 [|]] eqn:EA; try discriminate AR. cbn [map opval] in Eq, Eq0. symmetry in Eq.
      apply lift1_some in Eq. destruct Eq as [x1 [V1 ->]].
      destruct i as [|i]; cbn in Ha; [|destruct i; discriminate]; injection Ha as ->; cbn in V1.
      destruct (IHj _ V1) as [v [c [u [Hv [Hl [Hu ->]]]]]]. exists v, (bneg c), (bneg u).
      split; auto. split; [eapply lin_neg; eauto|]. split; [|ring].
      rewrite Eq0. cbn [sval]. rewrite Hu. reflexivity.
    + destruct (n_args d) as [|a1 [|]] eqn:EA; try discriminate AR. cbn [map opval] in Eq, Eq0. symmetry in Eq.
      destruct i as [|i]; cbn in Ha; [|destruct i; discriminate]; injection Ha as ->; cbn in Eq.
      destruct (IHj _ Eq) as [v [c [u [Hv [Hl [Hu ->]]]]]]. exists v, c, u.
      split; auto. split; [eapply lin_alias; eauto|]. split; [|ring].
      rewrite Eq0. cbn [sval]. auto.
    + destruct (n_args d) as [|a1 [|a2 [|]]] eqn:EA; try discriminate AR. cbn [map opval] in Eq, Eq0. symmetry in Eq.
      apply odiv_some in Eq. destruct Eq as [x1 [x2 [V1 [V2 [NZ ->]]]]].
      cbn in Ha. injection Ha as ->. cbn in V1.
      destruct (IHj _ V1) as [v [c [u [Hv [Hl [Hu ->]]]]]]. exists v, (bdiv c x2), (bdiv u x2).
      split; auto. split; [eapply lin_div; eauto|]. split; [|field; auto].
      rewrite Eq0, (Q 1 a2) by (auto; lia). cbn [sval]. rewrite Hu, V2. now apply odiv_intro.
Qed.

(** below a node which is replaced by zero everything is proportional to the variable *)
Lemma replaced_zero p : forall n, down_path g n p var -> straight g var p -> collectable g p = SOk tt ->
  (exists x, hd None (replaced g p) = Some x) -> forall u, sol0 n = Some u -> u = b0.
Proof.
  induction p as [|[n' i'] p IH]; intros n D ST HC [x Hx] u Hu; [inversion D|].
  inversion D as [m E1 E2|n2 i j p' m Lk D' E1 E2 E3]; subst.
  - congruence.
  - pose proof Lk as [d [Hn Ha]].
    pose proof (down_path_occurs g _ _ _ D') as Oc.
    pose proof (below_ne _ _ _ Lk Oc) as NE.
    assert (NEp : p <> []) by (destruct p; [inversion D'|discriminate]).
    assert (ST' : straight g var p) by (intros n0 i0 Hi; apply ST; now right).
    assert (HX : (exists y, hd None (replaced g p) = Some y) /\ scaling g n' = true).
    { cbn [replaced] in Hx. destruct p as [|q p]; [congruence|]. cbn [hd] in Hx.
      destruct (replaced g (q :: p)) as [|[y|] l]; try discriminate. destruct (scaling g n'); [|discriminate].
      split; auto. exists y. reflexivity. }
    destruct HX as [HX SC]. unfold scaling in SC. rewrite Hn in SC.
    assert (HC2 : collectable g p = SOk tt /\ (n_op d = GDiv -> i = 0)).
    { cbn [collectable] in HC. destruct p as [|q p]; [congruence|]. rewrite Hn in HC.
      destruct (n_op d) eqn:EO; try discriminate HC; split; auto; try discriminate.
      - destruct i; [auto|discriminate].
      - destruct i; [auto|discriminate]. }
    destruct HC2 as [HCp HD].
    assert (AR : length (n_args d) = arity (n_op d)).
    { unfold wf_arity in WA. rewrite Forall_forall in WA. apply WA. eapply nth_error_In; eauto. }
    pose proof (S0 n' d NE Hn) as Eq0. rewrite Hu in Eq0. symmetry in Eq0.
    assert (IHj : forall z, sol0 j = Some z -> z = b0) by (intros z; apply (IH j); auto).
    destruct (n_op d) eqn:EO; try discriminate SC; cbn [arity] in AR.
    + destruct (n_args d) as [|a1 [|a2 [|]]] eqn:EA; try discriminate AR. cbn [map opval] in Eq0.
      apply lift2_some in Eq0. destruct Eq0 as [x1 [x2 [V1 [V2 ->]]]].
      destruct i as [|[|i]]; cbn in Ha; [| |destruct i; discriminate]; injection Ha as ->; cbn in V1, V2.
      * rewrite (IHj _ V1). ring.
      * rewrite (IHj _ V2). ring.
    + destruct (n_args d) as [|a1 [|a2 [|]]] eqn:EA; try discriminate AR. cbn [map opval] in Eq0.
      apply odiv_some in Eq0. destruct Eq0 as [x1 [x2 [V1 [V2 [NZ ->]]]]].
      rewrite HD in Ha by auto. cbn in Ha. injection Ha as ->. cbn in V1.
      rewrite (IHj _ V1). field. auto.
    + destruct (n_args d) as [|a1 [|]] eqn:EA; try discriminate AR. cbn [map opval] in Eq0.
      apply lift1_some in Eq0. destruct Eq0 as [x1 [V1 ->]].
      destruct i as [|i]; cbn in Ha; [|destruct i; discriminate]; injection Ha as ->; cbn in V1.
      rewrite (IHj _ V1). ring.
    + destruct (n_args d) as [|a1 [|]] eqn:EA; try discriminate AR. cbn [map opval] in Eq0.
      destruct i as [|i]; cbn in Ha; [|destruct i; discriminate]; injection Ha as ->; cbn in Eq0. auto.
Qed.
End Sol.

(** the code's coefficient is the coefficient, where the signs agree *)
Lemma coefSteps_ext p : forall g1 prev c g' x, coefSteps g1 prev p c = SOk (g', x) -> ext g1 g'.
Proof.
  induction p as [|[n i] p IH]; intros g1 prev c g' x H; cbn [coefSteps] in H.
  - injection H as <- <-. apply ext_refl.
  - destruct p as [|q p]; [injection H as <- <-; apply ext_refl|].
    destruct (nth_error g1 n) as [d|]; [|discriminate]. apply sbind_ok in H. destruct H as [[g2 c2] [E H]].
    apply IH in H. eapply ext_trans; [|exact H]. clear H IH.
    destruct (n_op d); try (injection E as <- <-; apply ext_refl).
    + destruct (oeqb prev (Some 1)); [|injection E as <- <-; apply ext_refl].
      apply ofres_ok in E. exact (proj1 (cneg_computes g1 c _ _ E)).
    + apply sbind_ok in E. destruct E as [o [_ E]]. apply ofres_ok in E. exact (proj1 (casg_computes L g1 BMul c o _ _ E)).
    + apply sbind_ok in E. destruct E as [o [_ E]]. apply ofres_ok in E. exact (proj1 (casg_computes L g1 BDiv c o _ _ E)).
    + apply ofres_ok in E. exact (proj1 (cneg_computes g1 c _ _ E)).
Qed.

Lemma oeqb_eq a b : oeqb a b = true <-> a = b.
Proof.
  destruct a, b; cbn; split; intros H; try discriminate; auto.
  - apply Nat.eqb_eq in H. congruence.
  - injection H as ->. apply Nat.eqb_refl.
Qed.

Lemma coefSteps_value sol p : forall c, lin sol p c -> forall g1 prev c0 g' x env u, ext g g1 -> signs_agree g prev p ->
  coefSteps g1 prev p c0 = SOk (g', x) -> solves env g' sol -> sv sol c0 = Some u -> sv sol x = Some (bmul u c).
Proof.
  intros c HL. induction HL; intros g1 prev c0 g' x env u X SG K S W.
  - cbn in K. injection K as <- <-. rewrite W. f_equal. ring.
  - assert (NE : p <> []) by (inversion HL; discriminate).
    cbn [coefSteps] in K. destruct p as [|q p]; [congruence|]. rewrite (ext_nth _ _ _ _ X H), H0 in K. cbn [sbind] in K.
    eapply IHHL; eauto. apply SG.
  - assert (NE : p <> []) by (inversion HL; discriminate). destruct SG as [SG1 SG2]. rewrite H in SG1. specialize (SG1 H0 NE).
    cbn [coefSteps] in K. destruct p as [|q p]; [congruence|]. rewrite (ext_nth _ _ _ _ X H), H0 in K.
    destruct (oeqb prev (Some 1)) eqn:EP.
    { apply oeqb_eq in EP. apply SG1 in EP. discriminate. }
    cbn [sbind] in K. eapply IHHL; eauto.
  - assert (NE : p <> []) by (inversion HL; discriminate). destruct SG as [SG1 SG2]. rewrite H in SG1. specialize (SG1 H0 NE).
    cbn [coefSteps] in K. destruct p as [|q p]; [congruence|]. rewrite (ext_nth _ _ _ _ X H), H0 in K.
    destruct (oeqb prev (Some 1)) eqn:EP.
    2:{ assert (prev = Some 1) as EQ by (now apply SG1). apply oeqb_eq in EQ. congruence. }
    apply sbind_ok in K. destruct K as [[g2 c2] [E K]]. apply ofres_ok in E.
    destruct (cneg_computes g1 c0 g2 c2 E) as [X1 V1].
    pose proof (coefSteps_ext _ _ _ _ _ _ K) as X2.
    erewrite (IHHL g2 (Some 1) c2 g' x env (bneg u)); eauto; [f_equal; ring|eapply ext_trans; eauto|].
    apply (V1 env sol); [eapply solves_ext; eauto|]. now rewrite W.
  - assert (NE : p <> []) by (inversion HL; discriminate).
    cbn [coefSteps] in K. destruct p as [|q p]; [congruence|]. rewrite (ext_nth _ _ _ _ X H), H0 in K.
    apply sbind_ok in K. destruct K as [[g2 c2] [E K]]. apply ofres_ok in E.
    destruct (cneg_computes g1 c0 g2 c2 E) as [X1 V1].
    pose proof (coefSteps_ext _ _ _ _ _ _ K) as X2.
    erewrite (IHHL g2 (Some i) c2 g' x env (bneg u)); eauto; [f_equal; ring|eapply ext_trans; eauto|apply SG|].
    apply (V1 env sol); [eapply solves_ext; eauto|]. now rewrite W.
  - assert (NE : p <> []) by (inversion HL; discriminate).
    cbn [coefSteps] in K. destruct p as [|q p]; [congruence|]. rewrite (ext_nth _ _ _ _ X H), H0, H1 in K.
    apply sbind_ok in K. destruct K as [[g2 c2] [E K]]. cbn in E. apply ofres_ok in E.
    destruct (casg_computes L g1 BMul c0 _ g2 c2 E) as [X1 V1].
    pose proof (coefSteps_ext _ _ _ _ _ _ K) as X2.
    erewrite (IHHL g2 (Some 0) c2 g' x env (bmul u k)); eauto; [f_equal; ring|eapply ext_trans; eauto|apply SG|].
    apply (V1 env sol); [eapply solves_ext; eauto|]. rewrite W, sv_toCG, H2. reflexivity.
  - assert (NE : p <> []) by (inversion HL; discriminate).
    cbn [coefSteps] in K. destruct p as [|q p]; [congruence|]. rewrite (ext_nth _ _ _ _ X H), H0, H1 in K.
    apply sbind_ok in K. destruct K as [[g2 c2] [E K]]. cbn in E. apply ofres_ok in E.
    destruct (casg_computes L g1 BMul c0 _ g2 c2 E) as [X1 V1].
    pose proof (coefSteps_ext _ _ _ _ _ _ K) as X2.
    erewrite (IHHL g2 (Some 1) c2 g' x env (bmul u k)); eauto; [f_equal; ring|eapply ext_trans; eauto|apply SG|].
    apply (V1 env sol); [eapply solves_ext; eauto|]. rewrite W, sv_toCG, H2. reflexivity.
  - assert (NE : p <> []) by (inversion HL; discriminate).
    cbn [coefSteps] in K. destruct p as [|q p]; [congruence|]. rewrite (ext_nth _ _ _ _ X H), H0, H1 in K.
    apply sbind_ok in K. destruct K as [[g2 c2] [E K]]. cbn in E. apply ofres_ok in E.
    destruct (casg_computes L g1 BDiv c0 _ g2 c2 E) as [X1 V1].
    pose proof (coefSteps_ext _ _ _ _ _ _ K) as X2.
    erewrite (IHHL g2 (Some 0) c2 g' x env (bdiv u k)); eauto; [f_equal; field; auto|eapply ext_trans; eauto|apply SG|].
    apply (V1 env sol); [eapply solves_ext; eauto|]. rewrite W, sv_toCG, H2. now apply odiv_intro.
  - assert (NE : p <> []) by (inversion HL; discriminate).
    cbn [coefSteps] in K. destruct p as [|q p]; [congruence|]. rewrite (ext_nth _ _ _ _ X H), H0 in K. cbn [sbind] in K.
    eapply IHHL; eauto. apply SG.
Qed.
(** ** What the clone of the common expression looks at *)
Lemma samePath_eq p : forall q, samePath p q = true <-> p = q.
Proof.
  induction p as [|[n i] p IH]; intros [|[m k] q]; cbn; split; intros H; try discriminate; auto.
  - apply andb_true_iff in H. destruct H as [H1 H2]. apply andb_true_iff in H1. destruct H1 as [H0 H1].
    apply Nat.eqb_eq in H0. apply oeqb_eq in H1. apply IH in H2. congruence.
  - injection H as -> -> ->. rewrite Nat.eqb_refl. cbn. rewrite (proj2 (oeqb_eq k k) eq_refl). cbn. now apply IH.
Qed.
Lemma isOnPath_spec pre n p : isOnPath pre n p = true <-> exists i q, p = pre ++ (n, i) :: q.
Proof.
  unfold isOnPath. split.
  - destruct (nth_error p (length pre)) as [[m i]|] eqn:E; [|discriminate]. intros H. apply andb_true_iff in H.
    destruct H as [H1 H2]. apply Nat.eqb_eq in H1. subst m. apply samePath_eq in H2.
    exists i. apply nth_error_split in E. destruct E as [l1 [l2 [-> El]]]. exists l2. f_equal.
    rewrite H2, <- El, firstn_app, Nat.sub_diag, firstn_O, app_nil_r. now rewrite firstn_all.
  - intros [i [q ->]]. rewrite nth_error_app2 by lia. rewrite Nat.sub_diag. cbn. rewrite Nat.eqb_refl. cbn.
    apply samePath_eq. now rewrite firstn_app, Nat.sub_diag, firstn_O, app_nil_r, firstn_all.
Qed.
Lemma replaced_skip pre q : q <> [] -> nth (length pre) (replaced g (pre ++ q)) None = hd None (replaced g q).
Proof.
  intros NE. induction pre as [|[n i] pre IH].
  - cbn [app length]. destruct (replaced g q); reflexivity.
  - cbn [app length replaced]. destruct (pre ++ q) as [|x l] eqn:E; [apply app_eq_nil in E; destruct E; congruence|].
    cbn [nth]. exact IH.
Qed.
Lemma replaced_par p x : hd None (replaced g p) = Some x -> x = Par b0.
Proof.
  destruct p as [|[n i] p]; cbn [replaced]; [discriminate|]. destruct p as [|q p]; [cbn; congruence|]. cbn [hd].
  destruct (replaced g (q :: p)) as [|[y|] l]; try discriminate. destruct (scaling g n); congruence.
Qed.
Lemma replaced_end n i : hd None (replaced g [(n, i)]) = Some (Par b0).
Proof. reflexivity. Qed.

(** the two ways to the variable below the common node *)
Variables (m j1 j2 : nat) (p1 p2 : spath).
Variable dm : node B.
Hypothesis Em : nth_error g m = Some dm.
Hypothesis Lm1 : link g m 0 j1.
Hypothesis Lm2 : link g m 1 j2.
Hypothesis D1 : down_path g j1 p1 var.
Hypothesis D2 : down_path g j2 p2 var.
Hypothesis T1 : straight g var p1.
Hypothesis T2 : straight g var p2.
Hypothesis C1 : collectable g p1 = SOk tt.
Hypothesis C2 : collectable g p2 = SOk tt.
Hypothesis Op : n_op dm = GAdd \/ n_op dm = GSub.
Let left := (m, Some 0) :: p1.
Let right := (m, Some 1) :: p2.
Let dec := decidePaths [(left, replaced g left); (right, replaced g right)].

Lemma dm_args : exists j1' j2', n_args dm = [j1'; j2'].
Proof.
  assert (AR : length (n_args dm) = arity (n_op dm)).
  { unfold wf_arity in WA. rewrite Forall_forall in WA. apply WA. eapply nth_error_In; eauto. }
  assert (length (n_args dm) = 2) as E by (destruct Op as [E|E]; rewrite E in AR; exact AR).
  destruct (n_args dm) as [|a [|b [|]]]; try discriminate. eauto.
Qed.
Lemma dm_args_eq : n_args dm = [ANode j1; ANode j2].
Proof.
  destruct dm_args as [a [b E]]. destruct Lm1 as [d [Hd Ha]], Lm2 as [d' [Hd' Hb]].
  rewrite Em in Hd, Hd'. injection Hd as <-. injection Hd' as <-. rewrite E in Ha, Hb. cbn in Ha, Hb. congruence.
Qed.

Lemma on_down n p v pre i k q : down_path g n p v -> p = pre ++ (i, k) :: q -> down_path g i ((i, k) :: q) v.
Proof.
  revert n p. induction pre as [|x pre IH]; intros n p D E; cbn in E.
  - subst p. inversion D; subst; constructor 1 || econstructor 2; eauto.
  - subst p. inversion D; subst; [destruct pre; discriminate|]. eapply IH; eauto.
Qed.
Lemma left_down : down_path g m left var. Proof. econstructor 2; eauto. Qed.
Lemma right_down : down_path g m right var. Proof. econstructor 2; eauto. Qed.

Definition at_side (pre : spath) (i : nat) : Prop :=
  exists q, down_path g i q var /\ ((pre = [] /\ i = m) \/
    (straight g var q /\ collectable g q = SOk tt /\
     exists t, (pre = (m, Some 0) :: t /\ t ++ q = p1) \/ (pre = (m, Some 1) :: t /\ t ++ q = p2))).
Definition visit1 (pre : spath) (i : nat) : Prop := i < length g /\ (~ occurs g i var \/ at_side pre i).

Lemma not_scaling_m : scaling g m = false.
Proof. unfold scaling. rewrite Em. destruct Op as [-> | ->]; reflexivity. Qed.
Lemma left_zero : nth 0 (replaced g left) None = None.
Proof.
  unfold left. cbn [replaced]. destruct p1 as [|q p]; [inversion D1|]. cbn [nth]. rewrite not_scaling_m.
  now destruct (replaced g (q :: p)) as [|[]].
Qed.
Lemma right_zero : nth 0 (replaced g right) None = None.
Proof.
  unfold right. cbn [replaced]. destruct p2 as [|q p]; [inversion D2|]. cbn [nth]. rewrite not_scaling_m.
  now destruct (replaced g (q :: p)) as [|[]].
Qed.
Lemma dec_root : dec [] m = DClone.
Proof.
  unfold dec. cbn [decidePaths]. replace (isOnPath [] m left) with true.
  2:{ symmetry. apply isOnPath_spec. exists (Some 0), p1. reflexivity. }
  cbn [length]. now rewrite left_zero.
Qed.
Lemma dec_free pre i : ~ occurs g i var -> dec pre i = DKeep.
Proof.
  intros NO. unfold dec. cbn [decidePaths].
  destruct (isOnPath pre i left) eqn:E1.
  { apply isOnPath_spec in E1. destruct E1 as [k [q E]]. exfalso. apply NO. eapply down_path_occurs.
    eapply on_down; [apply left_down|exact E]. }
  destruct (isOnPath pre i right) eqn:E2; auto.
  apply isOnPath_spec in E2. destruct E2 as [k [q E]]. exfalso. apply NO. eapply down_path_occurs.
  eapply on_down; [apply right_down|exact E].
Qed.
Lemma dec_side pre i q t : down_path g i q var ->
  (pre = (m, Some 0) :: t /\ t ++ q = p1) \/ (pre = (m, Some 1) :: t /\ t ++ q = p2) ->
  dec pre i = match hd None (replaced g q) with Some x => DReplace x | None => DClone end.
Proof.
  intros D H. assert (NE : q <> []) by (destruct q; [inversion D|discriminate]).
  destruct (down_path_head g i q var D) as [k [q' Eq]].
  unfold dec. cbn [decidePaths]. destruct H as [[-> E]|[-> E]].
  - replace (isOnPath ((m, Some 0) :: t) i left) with true.
    2:{ symmetry. apply isOnPath_spec. exists k, q'. unfold left. cbn. now rewrite <- E, Eq. }
    replace left with (((m, Some 0) :: t) ++ q) by (unfold left; cbn; congruence). now rewrite replaced_skip.
  - replace (isOnPath ((m, Some 1) :: t) i left) with false.
    2:{ symmetry. destruct (isOnPath ((m, Some 1) :: t) i left) eqn:E1; auto. apply isOnPath_spec in E1.
        destruct E1 as [? [? E1]]. discriminate. }
    replace (isOnPath ((m, Some 1) :: t) i right) with true.
    2:{ symmetry. apply isOnPath_spec. exists k, q'. unfold right. cbn. now rewrite <- E, Eq. }
    replace right with (((m, Some 1) :: t) ++ q) by (unfold right; cbn; congruence). now rewrite replaced_skip.
Qed.

Lemma collectable_tail x q : collectable g (x :: q) = SOk tt -> collectable g q = SOk tt.
Proof.
  destruct x as [n i]. cbn [collectable]. destruct q as [|y q]; [auto|]. destruct (nth_error g n) as [d|]; [|discriminate].
  destruct (n_op d); try discriminate; auto. destruct (isFirst i); [auto|discriminate].
Qed.

Lemma visit1_next g4 pre i d p j : ext g g4 -> visit1 pre i -> dec pre i = DClone -> nth_error g4 i = Some d ->
  nth_error (n_args d) p = Some (ANode j) -> visit1 (pre ++ [(i, Some p)]) j.
Proof.
  intros X [Hi H] ED En Ha.
  assert (En' : nth_error g i = Some d).
  { destruct (nth_error g i) as [d'|] eqn:E; [|apply nth_error_None in E; lia].
    rewrite (ext_nth _ _ _ _ X E) in En. congruence. }
  assert (Lk : link g i p j) by (exists d; auto).
  split; [now apply (link_closed g i p j)|].
  destruct H as [NO|[q [D H]]]; [rewrite (dec_free pre i NO) in ED; discriminate|].
  destruct H as [[-> ->]|[ST [HC [t Ht]]]].
  - rewrite Em in En'. injection En' as <-. rewrite dm_args_eq in Ha.
    destruct p as [|[|p]]; cbn in Ha; [| |destruct p; discriminate]; injection Ha as <-; right.
    + exists p1. split; auto. right. split; auto. split; auto. exists []. left. auto.
    + exists p2. split; auto. right. split; auto. split; auto. exists []. right. auto.
  - rewrite (dec_side pre i q t D Ht) in ED.
    inversion D as [n E1 E2|n2 k j' q' v Lk' D' E1 E2 E3]; subst.
    + discriminate.
    + assert (STn : forall k' j'', link g i k' j'' -> occurs g j'' var -> k' = k) by (apply (ST i k); now left).
      destruct (Nat.eq_dec p k) as [-> |NP].
      * right. assert (j' = j) as -> by (eapply link_fun; eauto).
        exists q'. split; auto. right. split; [intros n0 i0 Hi0; apply ST; now right|].
        split; [eapply collectable_tail; eauto|]. exists (t ++ [(i, Some k)]).
        destruct Ht as [[-> E]|[-> E]]; [left|right]; (split; [reflexivity|]); rewrite <- app_assoc; exact E.
      * left. intros Oc. apply NP. eauto.
Qed.

Lemma visit1_respects g4 env sol sol0 : ext g g4 -> solves env g sol -> sol0 var = Some b0 ->
  (forall n d, n <> var -> nth_error g n = Some d ->
    sol0 n = opval env (n_handler d) (n_op d) (map (sval sol0) (n_args d))) ->
  respects dec g4 visit1 env sol sol0.
Proof.
  intros X S S0v S0 pre i [Hi H]. destruct H as [NO|[q [D H]]].
  - rewrite (dec_free pre i NO). rewrite (sol0_free env sol sol0 S S0 i Hi NO). apply le_refl.
  - destruct (nth_error g i) as [d|] eqn:En; [|apply nth_error_None in En; lia].
    assert (ARi : forall k, (exists p j, link g i p j) -> n_op d <> GInv k).
    { intros k [p [j [d' [Ed Ha]]]] EO. rewrite En in Ed. injection Ed as <-.
      assert (AR : length (n_args d) = arity (n_op d)).
      { unfold wf_arity in WA. rewrite Forall_forall in WA. apply WA. eapply nth_error_In; eauto. }
      rewrite EO in AR. cbn in AR. destruct (n_args d); [|discriminate]. destruct p; discriminate. }
    assert (CLONE : (exists p j, link g i p j /\ occurs g j var) -> exists d, nth_error g4 i = Some d /\
      match n_op d with
      | GInv _ => le (sol0 i) (sol i)
      | _ => le (sol0 i) (opval env (n_handler d) (n_op d) (map (sval sol0) (n_args d)))
      end).
    { intros [p [j [Lk Oc]]]. exists d. split; [eapply ext_nth; eauto|].
      pose proof (below_ne i p j Lk Oc) as NE. rewrite <- (S0 i d NE En).
      destruct (n_op d) eqn:EO; try apply le_refl. exfalso. apply (ARi k); eauto. }
    destruct H as [[-> ->]|[ST [HC [t Ht]]]].
    + rewrite dec_root. apply CLONE. exists 0, j1. split; auto. eapply down_path_occurs; eauto.
    + rewrite (dec_side pre i q t D Ht). destruct (hd None (replaced g q)) as [x|] eqn:ER.
      * apply replaced_par in ER as EX. subst x. intros b Hb. cbn [sv]. f_equal. symmetry.
        eapply (replaced_zero env sol0 S0v S0 q i); eauto.
      * inversion D as [n E1 E2|n2 k j' q' v Lk' D' E1 E2 E3]; subst; [discriminate|].
        apply CLONE. exists k, j'. split; auto. eapply down_path_occurs; eauto.
Qed.

Lemma last_node_snoc p v : forall n, down_path g n p v -> last_node p = Some v.
Proof.
  intros n D. assert (exists l, p = l ++ [(v, None)]) as [l ->].
  { induction D; [exists []; auto|]. destruct IHD as [l ->]. exists ((n, Some i) :: l). reflexivity. }
  unfold last_node. now rewrite rev_app_distr.
Qed.

Theorem addsub_value fuel ord inds g' x : signs_agree g (Some 0) p1 -> signs_agree g (Some 1) p2 ->
  collectVariableAddSub fuel ord inds g left right = SOk (g', x) ->
  ext g g' /\ forall env sol, solves env g' sol -> le (sol m) (sv sol x).
Proof.
  intros SG1 SG2 H. unfold collectVariableAddSub in H. unfold left, right in H. rewrite Nat.eqb_refl in H. cbn [negb] in H.
  rewrite Em in H. change ((m, Some 0) :: p1) with left in H. change ((m, Some 1) :: p2) with right in H.
  replace (negb match n_op dm with GAdd | GSub => true | _ => false end) with false in H
    by (destruct Op as [-> | ->]; reflexivity).
  rewrite (last_node_snoc left var m left_down), (last_node_snoc right var m right_down), Nat.eqb_refl in H. cbn [negb] in H.
  rewrite C1, C2 in H. cbn [sbind] in H.
  apply sbind_ok in H. destruct H as [[g1 cl] [E1 H]].
  apply sbind_ok in H. destruct H as [[g2 s1] [E2 H]]. apply ofres_ok in E2.
  apply sbind_ok in H. destruct H as [[g3 cr] [E3 H]].
  apply sbind_ok in H. destruct H as [[g4 cSum] [E4 H]]. apply ofres_ok in E4.
  apply sbind_ok in H. destruct H as [[g5 rest] [E5 H]].
  apply sbind_ok in H. destruct H as [[g6 term] [E6 H]]. apply ofres_ok in E6. apply ofres_ok in H.
  pose proof (coefSteps_ext _ _ _ _ _ _ E1) as X1.
  destruct (casg_computes L g1 BAdd (Par b0) cl g2 s1 E2) as [X2 V2].
  pose proof (coefSteps_ext _ _ _ _ _ _ E3) as X3.
  destruct (casg_computes L g3 BAdd s1 cr g4 cSum E4) as [X4 V4].
  destruct (cbin_computes L g5 BMul cSum (Var var None) g6 term E6) as [X6 V6].
  destruct (cbin_computes L g6 BAdd term rest g' x H) as [X7 V7].
  assert (Xg2 : ext g g2) by (eapply ext_trans; eauto).
  assert (Xg4 : ext g g4) by (eapply ext_trans; [exact Xg2|eapply ext_trans; eauto]).
  assert (CE : (nth 1 (replaced g left) None <> None /\ nth 1 (replaced g right) None <> None /\ rest = Par b0 /\ ext g4 g5) \/
               (cloneEval dec ord inds fuel g4 m = SOk (g5, rest))).
  { destruct (nth 1 (replaced g left) None); [|right; exact E5].
    destruct (nth 1 (replaced g right) None); [|right; exact E5].
    injection E5 as <- <-. left. repeat split; try discriminate. apply ext_refl. }
  assert (GOOD : ext g4 g5 /\ (rest = Par b0 /\ nth 1 (replaced g left) None <> None /\ nth 1 (replaced g right) None <> None \/
     forall env sol e, solves env g5 sol -> respects dec g4 visit1 env sol e -> le (e m) (sv sol rest))).
  { destruct CE as [[N1 [N2 [-> XX]]]|CE]; [auto|].
    destruct (cloneEval_good dec ord inds L g4 visit1) with (fuel := fuel) (root := m) (g' := g5) (v := rest) as [XX G]; auto.
    - intros pre i [Hi _]. apply ext_length in Xg4. lia.
    - intros pre i d p j. apply visit1_next. exact Xg4.
    - split; [apply nth_error_Some; rewrite Em; discriminate|]. right. exists left. split; [apply left_down|]. left. auto. }
  destruct GOOD as [X5 GOOD].
  assert (Xg6 : ext g4 g6) by (eapply ext_trans; eauto).
  split; [eapply ext_trans; [exact Xg4|eapply ext_trans; eauto]|].
  intros env sol S w Hw.
  pose proof (solves_ext _ _ _ _ X7 S) as S6. pose proof (solves_ext _ _ _ _ X6 S6) as S5.
  pose proof (solves_ext _ _ _ _ X5 S5) as S4. pose proof (solves_ext _ _ _ _ X4 S4) as S3.
  pose proof (solves_ext _ _ _ _ X3 S3) as S2. pose proof (solves_ext _ _ _ _ X2 S2) as S1.
  pose proof (solves_ext _ _ _ _ X1 S1) as Sg.
  destruct (override_exists g env var (Some b0) NC) as [sol0 [S0v S0]].
  pose proof (Sg m dm Em) as Eq. rewrite Hw in Eq. rewrite dm_args_eq in Eq.
  assert (NEm : m <> var) by (eapply below_ne; [exact Lm1|eapply down_path_occurs; exact D1]).
  pose proof (S0 m dm NEm Em) as Eq0. rewrite dm_args_eq in Eq0.
  assert (W : exists w1 w2, sol j1 = Some w1 /\ sol j2 = Some w2 /\
     w = (match n_op dm with GSub => bsub | _ => badd end) w1 w2).
  { destruct Op as [EO|EO]; rewrite EO in Eq |- *; cbn [map opval sval] in Eq; symmetry in Eq;
      apply lift2_some in Eq; destruct Eq as [a [b [Ha [Hb Hab]]]]; eauto. }
  destruct W as [w1 [w2 [W1 [W2 EW]]]].
  destruct (linear env sol sol0 Sg S0v S0 p1 j1 D1 T1 C1 w1 W1) as [v [c1 [u1 [Hv [L1 [U1 EW1]]]]]].
  destruct (linear env sol sol0 Sg S0v S0 p2 j2 D2 T2 C2 w2 W2) as [v' [c2 [u2 [Hv' [L2 [U2 EW2]]]]]].
  rewrite Hv in Hv'. injection Hv' as <-.
  pose proof (coefSteps_value sol p1 c1 L1 g (Some 0) (Par b1) g1 cl env b1 (ext_refl g) SG1 E1 S1 eq_refl) as Vcl.
  assert (Vs1 : sv sol s1 = Some (badd b0 (bmul b1 c1))).
  { apply (V2 env sol); auto. cbn [rbin]. rewrite Vcl. reflexivity. }
  set (sg := match n_op dm with GSub => bneg b1 | _ => b1 end).
  assert (Vcr : sv sol cr = Some (bmul sg c2)).
  { eapply (coefSteps_value sol p2 c2 L2 g2 (Some 1) _ g3 cr env sg Xg2 SG2 E3 S3).
    unfold sg. destruct Op as [-> | ->]; reflexivity. }
  assert (Vsum : sv sol cSum = Some (badd (badd b0 (bmul b1 c1)) (bmul sg c2))).
  { apply (V4 env sol); auto. cbn [rbin]. rewrite Vs1, Vcr. reflexivity. }
  assert (Vterm : sv sol term = Some (bmul (badd (badd b0 (bmul b1 c1)) (bmul sg c2)) v)).
  { apply (V6 env sol); auto. cbn [rbin]. rewrite Vsum. cbn [sv]. rewrite Hv. reflexivity. }
  assert (Vrest : sv sol rest = Some ((match n_op dm with GSub => bsub | _ => badd end) u1 u2)).
  { destruct GOOD as [[-> [N1 N2]]|GOOD].
    - assert (u1 = b0) as ->.
      { eapply (replaced_zero env sol0 S0v S0 p1 j1); eauto.
        assert (NE : p1 <> []) by (intros E; rewrite E in D1; inversion D1).
        pose proof (replaced_skip [(m, Some 0)] p1 NE) as RS. destruct (hd None (replaced g p1)) eqn:EH; [eauto|].
        exfalso. apply N1. exact RS. }
      assert (u2 = b0) as ->.
      { eapply (replaced_zero env sol0 S0v S0 p2 j2); eauto.
        assert (NE : p2 <> []) by (intros E; rewrite E in D2; inversion D2).
        pose proof (replaced_skip [(m, Some 1)] p2 NE) as RS. destruct (hd None (replaced g p2)) eqn:EH; [eauto|].
        exfalso. apply N2. exact RS. }
      cbn [sv]. f_equal. destruct Op as [-> | ->]; ring.
    - apply (GOOD env sol sol0 S5); [apply visit1_respects; auto|].
      rewrite Eq0. destruct Op as [-> | ->]; cbn [map opval sval]; rewrite U1, U2; reflexivity. }
  apply (V7 env sol); auto. cbn [rbin]. rewrite Vterm, Vrest. cbn [lift2]. f_equal.
  subst w w1 w2. unfold sg. destruct Op as [-> | ->]; ring.
Qed.
End Collect.

(** * A variable which occurs once *)
From Coq Require Import List Bool Arith Lia Sorted.
From Verif Require Import Graph_model Graph_spec CGArith_model CGArith_spec CGArith_proofs Codegen_spec
  Path_model Path_spec Path_proofs Path_graph Solve_model Solve_spec Solve_proofs Solve_total.
Import ListNotations.

Section Once.
Context {B : Type} {O : BaseOps B}.
Variable g : heap B.

Lemma occurs_down n m : occurs g n m -> exists p, down_path g n p m.
Proof.
  intros [l H]. induction H as [n|n i j l m Lk _ [p IH]].
  - exists [(n, None)]. constructor.
  - exists ((n, Some i) :: p). econstructor; eauto.
Qed.
Lemma prefix_of n q m : occurs g n q -> occurs g q m -> exists c, prefix_path g n c q.
Proof.
  intros [l H] _. induction H as [n|n i j l q Lk _ [p IH]].
  - exists []. constructor.
  - exists ((n, Some i) :: p). econstructor; eauto.
Qed.
Lemma down_split root p var n i : down_path g root p var -> In (n, Some i) p ->
  exists c q j, p = c ++ (n, Some i) :: q /\ prefix_path g root c n /\ link g n i j /\ down_path g j q var.
Proof.
  induction 1 as [m|m k j p t Lk D IH]; intros Hi.
  - destruct Hi as [E|[]]. discriminate.
  - destruct Hi as [E|Hi].
    + injection E as -> ->. exists [], p, j. split; auto. split; [constructor|auto].
    + destruct (IH Hi) as [c [q [j' [-> [P [L1 D1]]]]]]. exists ((m, Some k) :: c), q, j'. split; auto.
      split; [econstructor; eauto|auto].
Qed.

Lemma once_link root var n i j k j' : once g root var -> occurs g root n -> link g n i j -> occurs g j var ->
  link g n k j' -> occurs g j' var -> k = i.
Proof.
  intros [p [D U]] On Li Oi Lk Ok.
  destruct (prefix_of root n var On) as [c Pc]; [eapply occurs_trans; [eapply occurs_link; eauto|auto]|].
  destruct (occurs_down _ _ Oi) as [q1 D1]. destruct (occurs_down _ _ Ok) as [q2 D2].
  assert (E1 : c ++ (n, Some i) :: q1 = p) by (apply U; eapply prefix_down; eauto; econstructor; eauto).
  assert (E2 : c ++ (n, Some k) :: q2 = p) by (apply U; eapply prefix_down; eauto; econstructor; eauto).
  rewrite <- E2 in E1. apply app_inv_head in E1. congruence.
Qed.
Lemma once_straight root var p : once g root var -> down_path g root p var -> straight g var p.
Proof.
  intros HO D n i Hi k j' Lk Ok. destruct (down_split _ _ _ _ _ D Hi) as [c [q [j [-> [Pc [Li Dj]]]]]].
  eapply once_link; eauto.
  - clear -Pc. induction Pc; [apply occurs_refl|]. eapply occurs_trans; [eapply occurs_link; eauto|auto].
  - eapply down_path_occurs; eauto.
Qed.

Lemma once_no_bifurcation root var G : once g root var -> path_graph g root var G ->
  forall n e, pg_find G n = Some e -> length (ed_args e) <= 1.
Proof.
  intros HO P n e E. destruct (ed_args e) as [|a [|b l]] eqn:EA; cbn; try lia. exfalso.
  pose proof (PG_sorted _ _ _ _ P n e E) as SS. rewrite EA in SS. inversion SS as [|? ? _ F]; subst. inversion F; subst.
  destruct (PG_args _ _ _ _ P n e a E) as [j1 [e1 [L1 [E1 _]]]]; [rewrite EA; cbn; auto|].
  destruct (PG_args _ _ _ _ P n e b E) as [j2 [e2 [L2 [E2 _]]]]; [rewrite EA; cbn; auto|].
  destruct (PG_between _ _ _ _ P j1) as [_ O1]; [apply contains_find; eauto|].
  destruct (PG_between _ _ _ _ P j2) as [_ O2]; [apply contains_find; eauto|].
  destruct (PG_between _ _ _ _ P n) as [On _]; [apply contains_find; eauto|].
  pose proof (once_link root var n a j1 b j2 HO On L1 O1 L2 O2). lia.
Qed.
Lemma single_no_bifurcation root var G G' : path_graph g root var G -> complete_graph g root var G ->
  (forall n e, pg_find G n = Some e -> length (ed_args e) <= 1) -> path_graph g root var G' ->
  forall n e, pg_find G' n = Some e -> length (ed_args e) <= 1.
Proof.
  intros P C H P' n e E. destruct (ed_args e) as [|a [|b l]] eqn:EA; cbn; try lia. exfalso.
  pose proof (PG_sorted _ _ _ _ P' n e E) as SS. rewrite EA in SS. inversion SS as [|? ? _ F]; subst. inversion F; subst.
  destruct (PG_args _ _ _ _ P' n e a E) as [j1 [e1 [L1 [E1 _]]]]; [rewrite EA; cbn; auto|].
  destruct (PG_args _ _ _ _ P' n e b E) as [j2 [e2 [L2 [E2 _]]]]; [rewrite EA; cbn; auto|].
  destruct (PG_between _ _ _ _ P' j1) as [_ O1]; [apply contains_find; eauto|].
  destruct (PG_between _ _ _ _ P' j2) as [_ O2]; [apply contains_find; eauto|].
  assert (BN : between g root var n) by (apply (PG_between _ _ _ _ P'); apply contains_find; eauto).
  apply (CG_between _ _ _ _ C) in BN. apply contains_find in BN. destruct BN as [e0 E0].
  pose proof (H n e0 E0) as LE.
  pose proof (CG_args _ _ _ _ C n e0 a j1 E0 L1 O1) as I1.
  pose proof (CG_args _ _ _ _ C n e0 b j2 E0 L2 O2) as I2.
  destruct (ed_args e0) as [|u [|v w]]; cbn in *; try lia.
Qed.

(** ** Values of expressions without the variable *)
Variable var : nat.
Lemma opval_env env env' h o a : (forall k, o <> GInv k) -> opval env h o a = opval env' h o a.
Proof. intros H. destruct o; auto. destruct (H k eq_refl). Qed.

Lemma same_free env env' sol sol' : no_cycle g -> closed g -> solves env g sol -> solves env' g sol' ->
  same_others g var sol sol' -> forall n, n < length g -> ~ occurs g n var -> sol n = sol' n.
Proof.
  intros [r RK] C S S' SO.
  assert (H : forall m n, r n < m -> n < length g -> ~ occurs g n var -> sol n = sol' n).
  { induction m as [|m IH]; intros n Hm Hn NO; [lia|].
    destruct (nth_error g n) as [d|] eqn:E; [|apply nth_error_None in E; lia].
    destruct (n_op d) eqn:EO.
    1:{ eapply SO; eauto. intros ->. apply NO, occurs_refl. }
    all: rewrite (S n d E), (S' n d E), (opval_env env env') by (rewrite EO; discriminate); f_equal;
      apply map_ext_in; intros [j|b] Ha; [|reflexivity]; cbn;
      apply In_nth_error in Ha; destruct Ha as [i Ha]; assert (Lk : link g n i j) by (exists d; auto);
      apply IH; [apply RK in Lk; lia|now apply (link_closed g n i j)|];
      intros Oc; apply NO; eapply occurs_trans; [eapply occurs_link; eauto|auto]. }
  intros n Hn NO. apply (H (1 + r n)); auto.
Qed.

Lemma inverse_same half sol sol' o args i w x : inverse half sol o args i w x ->
  (forall k a, k <> i -> nth_error args k = Some a -> sval sol a = sval sol' a) -> inverse half sol' o args i w x.
Proof.
  intros I H.
  assert (E0 : forall c, i <> 0 -> nth_error args 0 = Some c -> sval sol' c = sval sol c) by (intros; symmetry; eauto).
  assert (E1 : forall c, i <> 1 -> nth_error args 1 = Some c -> sval sol' c = sval sol c) by (intros; symmetry; eauto).
  destruct I; constructor; auto; first [rewrite E0 by (cbn; auto) | rewrite E1 by (cbn; auto)]; auto.
Qed.

Lemma back_same half env env' sol sol' p w x : no_cycle g -> closed g -> solves env g sol -> solves env' g sol' ->
  same_others g var sol sol' -> straight g var p -> back half sol g p w x -> back half sol' g p w x.
Proof.
  intros NC C S S' SO ST Bk. induction Bk as [n w|n i d p w w1 x Hn I Bk IH]; [constructor|].
  econstructor; eauto.
  - eapply inverse_same; eauto. intros k [j|b] Hk Hka; [|reflexivity]. cbn.
    assert (Lk : link g n k j) by (exists d; auto).
    eapply same_free; eauto; [now apply (link_closed g n k j)|]. intros Oc. apply Hk. eapply ST; eauto. now left.
  - apply IH; auto. intros n' i' Hi. apply ST. now right.
Qed.

Section Laws.
Variable L : BaseLaws B.
Variable half : B.
Hypothesis FL : is_field B.
Hypothesis IL : inverse_laws B half.

Lemma back_value env sol root p w x : solves env g sol -> down_path g root p var -> back half sol g p w x ->
  sol var = Some x -> sol root = Some w.
Proof.
  intros S D. revert w x. induction D as [n|n i j p m Lk D IH]; intros w x Bk Hv.
  - inversion Bk; subst. auto.
  - inversion Bk as [|n2 i2 d2 p2 w2 w1 x2 Hn2 I Bk']; subst. destruct Lk as [d [Hn Ha]]. assert (d2 = d) as -> by congruence.
    rewrite (S n d Hn). eapply (inverse_sound L half FL IL); eauto.
Qed.

Lemma solvePath_value p root g' rhs : no_cycle g -> closed g -> down_path g root p var -> straight g var p ->
  solvePath half g p = SOk (g', rhs) ->
  forall env sol env' sol' x, solves env g' sol -> solves env' g sol' -> same_others g var sol sol' ->
    back half sol g p b0 x -> sv sol rhs = Some x /\ (sol' var = Some x -> sol' root = Some b0).
Proof.
  intros NC C D ST H env sol env' sol' x S S' SO Bk.
  pose proof (solveSteps_ext L half FL IL _ _ _ _ _ H) as X.
  destruct (solveSteps_value L half FL IL p g g (Par b0) g' rhs root var (ext_refl _) D H env sol b0 x S eq_refl Bk) as [V _].
  split; auto. intros Hv. apply (back_value env' sol' root p b0 x); auto. apply (back_same half env env' sol sol'); auto. apply (solves_ext env g g' sol); auto.
Qed.
End Laws.
End Once.

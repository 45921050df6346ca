(** * Results for the nodes of a graph *)
From Coq Require Import List Arith Bool Lia.
From Verif Require Import LoopTape_model LoopTape_spec.
Import ListNotations.
Local Open Scope nat_scope.

Section Graph.
Context {V : Type}.
Implicit Types g : graph V.

Lemma foldG_app {A} (f : nat -> node V -> list A -> A) g n : foldG f (g ++ [n]) = foldG f g ++ [f (List.length (foldG f g)) n (foldG f g)].
Proof. unfold foldG. rewrite fold_left_app. reflexivity. Qed.
Lemma foldG_len {A} (f : nat -> node V -> list A -> A) g : List.length (foldG f g) = List.length g.
Proof. induction g as [|n g IH] using rev_ind; [reflexivity|]. rewrite foldG_app, !app_length, IH. reflexivity. Qed.
Lemma foldG_prefix {A} (f : nat -> node V -> list A -> A) g h : exists r, foldG f (g ++ h) = foldG f g ++ r.
Proof.
  induction h as [|n h [r IH]] using rev_ind; [exists []; rewrite !app_nil_r; reflexivity|].
  rewrite app_assoc, foldG_app, IH. eexists. rewrite <- app_assoc. reflexivity.
Qed.
Lemma foldG_nth_app {A} (f : nat -> node V -> list A -> A) g h k d : k < List.length g -> nth k (foldG f (g ++ h)) d = nth k (foldG f g) d.
Proof. intros H. destruct (foldG_prefix f g h) as [r ->]. apply app_nth1. rewrite foldG_len. exact H. Qed.

(** A rule which only looks at the results of the arguments. *)
Lemma foldG_eq {A} (f : nat -> node V -> list A -> A) d g : recordedGraph g ->
  (forall k n vs ws, (forall j, In (AN j) (n_args n) -> nth j vs d = nth j ws d) -> f k n vs = f k n ws) ->
  forall k n, nth_error g k = Some n -> nth k (foldG f g) d = f k n (foldG f g).
Proof.
  intros W L k n E. destruct (nth_error_split g k E) as [g1 [g2 [Eg Lk]]].
  assert (X : forall h, nth k (foldG f (g1 ++ [n] ++ h)) d = f k n (foldG f g1)).
  { intros h. rewrite app_assoc, foldG_nth_app by (rewrite app_length; cbn; lia).
    rewrite foldG_app, app_nth2 by (rewrite foldG_len; lia). rewrite foldG_len, Lk, Nat.sub_diag. reflexivity. }
  rewrite Eg. change (n :: g2) with ([n] ++ g2). rewrite X. apply L. intros j I. symmetry. apply foldG_nth_app. rewrite Lk.
  destruct (W k n E) as [Hj _]. apply Hj, I.
Qed.

Lemma map_ext_args {A} (F G : arg V -> A) (l : list (arg V)) : (forall a, In a l -> F a = G a) -> map F l = map G l.
Proof. apply map_ext_in. Qed.

Section Values.
Variable sem : opc -> list nat -> list V -> V.
Variable dflt : V.
Lemma value_eq g x k n : recordedGraph g -> nth_error g k = Some n ->
  valueOf sem dflt g x (AN k) = nodeVal sem dflt x k n (values sem dflt g x).
Proof.
  intros W E. unfold valueOf, argVal, values. apply foldG_eq; [exact W| |exact E].
  intros k' n' vs ws H. unfold nodeVal. destruct (n_op n'); try reflexivity; f_equal; apply map_ext_args; intros [v|j] I; cbn; auto.
Qed.
Lemma value_inv g x k : recordedGraph g -> isInv g k = true -> valueOf sem dflt g x (AN k) = x (indexOf g k).
Proof.
  intros W H. unfold isInv in H. unfold indexOf. destruct (nth_error g k) as [n|] eqn:E; [|discriminate].
  rewrite (value_eq g x k n W E). unfold nodeVal. destruct (n_op n); [reflexivity|discriminate..].
Qed.
Lemma value_op g x k n : recordedGraph g -> nth_error g k = Some n -> isInv g k = false ->
  valueOf sem dflt g x (AN k) = sem (n_op n) (n_info n) (map (valueOf sem dflt g x) (n_args n)).
Proof.
  intros W E H. rewrite (value_eq g x k n W E). unfold isInv in H. rewrite E in H. unfold nodeVal.
  destruct (n_op n); [discriminate|reflexivity..].
Qed.
End Values.

Lemma shape_eq g k n : recordedGraph g -> nth_error g k = Some n ->
  shapeOf g (AN k) = match n_op n with OInv => TX | o => TN o (n_info n) (map (shapeOf g) (n_args n)) end.
Proof.
  intros W E. unfold shapeOf at 1, argShape, shapes. rewrite (foldG_eq _ TX g W) with (n := n); [reflexivity| |exact E].
  intros k' n' vs ws H. destruct (n_op n'); try reflexivity; f_equal; apply map_ext_args; intros [v|j] I; cbn; auto.
Qed.
Lemma shape_inv g k : recordedGraph g -> isInv g k = true -> shapeOf g (AN k) = TX.
Proof.
  intros W H. unfold isInv in H. destruct (nth_error g k) as [n|] eqn:E; [|discriminate]. rewrite (shape_eq g k n W E).
  destruct (n_op n); [reflexivity|discriminate..].
Qed.
Lemma shape_op g k n : recordedGraph g -> nth_error g k = Some n -> isInv g k = false ->
  shapeOf g (AN k) = TN (n_op n) (n_info n) (map (shapeOf g) (n_args n)).
Proof.
  intros W E H. rewrite (shape_eq g k n W E). unfold isInv in H. rewrite E in H. destruct (n_op n); [discriminate|reflexivity..].
Qed.
Lemma shape_TX g k : recordedGraph g -> k < List.length g -> shapeOf g (AN k) = TX -> isInv g k = true.
Proof.
  intros W L H. destruct (nth_error g k) as [n|] eqn:E; [|apply nth_error_None in E; lia].
  destruct (isInv g k) eqn:I; [reflexivity|]. rewrite (shape_op g k n W E I) in H. discriminate.
Qed.

Lemma isInv_lt g k : isInv g k = true -> k < List.length g.
Proof. unfold isInv. destruct (nth_error g k) eqn:E; [|discriminate]. intros _. apply nth_error_Some. rewrite E. discriminate. Qed.

(** Arguments *)
Lemma argAt_lt g k a j : recordedGraph g -> argAt g k a = Some (AN j) -> j < k /\ k < List.length g.
Proof.
  intros W H. unfold argAt in H. destruct (nth_error g k) as [n|] eqn:E; [|discriminate]. destruct (W k n E) as [Hj _]. split.
  - apply Hj. apply nth_error_In with (1 := H).
  - apply nth_error_Some. rewrite E. discriminate.
Qed.

(** Aliases are never skipped. *)
Lemma skipAlias_id g k fuel : recordedGraph g -> k < List.length g -> skipAlias (S fuel) g k = POk k.
Proof.
  intros W L. cbn [skipAlias]. destruct (nth_error g k) as [n|] eqn:E; [|apply nth_error_None in E; lia].
  destruct (n_op n) eqn:O; try reflexivity. destruct (W k n E) as [_ [_ H]]. destruct (H O) as [j [-> Hj]]. rewrite Hj. reflexivity.
Qed.

(** Positions *)
Lemma below_trans g p q t : below g p q -> below g q t -> below g p t.
Proof. intros H1 H2. induction H2 as [|p' r s a r' s' Hb IH A1 A2 I]; [exact H1|]. apply (B_step g p r s a); auto. Qed.
Lemma below_lt g r0 s0 r s : recordedGraph g -> r0 < List.length g -> s0 < List.length g -> isInv g r0 = false -> below g (r0, s0) (r, s) ->
  r < List.length g /\ s < List.length g /\ isInv g r = false.
Proof.
  intros W L1 L2 I H. remember (r0, s0) as p eqn:Ep. remember (r, s) as q eqn:Eq. revert r s Eq. induction H as [p|p r1 s1 a r' s' Hb IH A1 A2 I']; intros r s Eq.
  - rewrite Ep in Eq. inversion Eq; subst. auto.
  - inversion Eq; subst. destruct (IH eq_refl _ _ eq_refl) as [X [Y _]]. apply argAt_lt in A1; [|exact W]. apply argAt_lt in A2; [|exact W].
    split; [lia|]. split; [lia|exact I'].
Qed.

(** Expressions of the same shape have operations of the same shape at the same positions. *)
Lemma shape_node g r s nr ns : recordedGraph g -> nth_error g r = Some nr -> nth_error g s = Some ns -> isInv g r = false ->
  shapeOf g (AN r) = shapeOf g (AN s) ->
  isInv g s = false /\ n_op nr = n_op ns /\ n_info nr = n_info ns /\ map (shapeOf g) (n_args nr) = map (shapeOf g) (n_args ns).
Proof.
  intros W Er Es I H. rewrite (shape_op g r nr W Er I) in H. destruct (isInv g s) eqn:Is; [rewrite (shape_inv g s W Is) in H; discriminate|].
  rewrite (shape_op g s ns W Es Is) in H. inversion H. auto.
Qed.
Lemma shape_arg g r s a x : recordedGraph g -> r < List.length g -> s < List.length g -> isInv g r = false ->
  shapeOf g (AN r) = shapeOf g (AN s) -> argAt g r a = Some x -> exists y, argAt g s a = Some y /\ shapeOf g x = shapeOf g y.
Proof.
  intros W L1 L2 I H A. destruct (nth_error g r) as [nr|] eqn:Er; [|apply nth_error_None in Er; lia].
  destruct (nth_error g s) as [ns|] eqn:Es; [|apply nth_error_None in Es; lia].
  destruct (shape_node g r s nr ns W Er Es I H) as [_ [_ [_ M]]]. unfold argAt in *. rewrite Er in A. rewrite Es.
  assert (X : nth_error (map (shapeOf g) (n_args ns)) a = Some (shapeOf g x)) by (rewrite <- M; apply map_nth_error, A).
  destruct (nth_error (n_args ns) a) as [y|] eqn:Ey.
  - exists y. split; [reflexivity|]. rewrite (map_nth_error (shapeOf g) _ _ Ey) in X. inversion X. reflexivity.
  - apply nth_error_None in Ey. assert (Z : nth_error (map (shapeOf g) (n_args ns)) a = None) by (apply nth_error_None; rewrite map_length; exact Ey).
    rewrite Z in X. discriminate.
Qed.
Lemma below_shape g r0 s0 r s : recordedGraph g -> r0 < List.length g -> s0 < List.length g -> isInv g r0 = false ->
  shapeOf g (AN r0) = shapeOf g (AN s0) -> below g (r0, s0) (r, s) -> shapeOf g (AN r) = shapeOf g (AN s).
Proof.
  intros W L1 L2 I Sh H. remember (r0, s0) as p eqn:Ep. remember (r, s) as q eqn:Eq. revert r s Eq. induction H as [p|p r1 s1 a r' s' Hb IH A1 A2 I']; intros r s Eq.
  - rewrite Ep in Eq. inversion Eq; subst. exact Sh.
  - inversion Eq; subst. specialize (IH eq_refl _ _ eq_refl). destruct (below_lt g r0 s0 r1 s1 W L1 L2 I Hb) as [X [Y Z]].
    destruct (shape_arg g r1 s1 a _ W X Y Z IH A1) as [y [Ay Sy]]. rewrite A2 in Ay. inversion Ay; subst. exact Sy.
Qed.
End Graph.

(** As [agree], also for an equation with itself. *)
Definition agreeAll {V} (g : graph V) (deps : list (arg V)) (ps : list pattern) (iters : list (list nat)) : Prop :=
  forall p q d e it r s r' s' op a j j', In p ps -> In q ps -> In it iters -> In d it -> In e it -> In d (p_deps p) -> In e (p_deps q) ->
    nth_error deps (p_ref p) = Some (AN r) -> nth_error deps d = Some (AN s) ->
    nth_error deps (p_ref q) = Some (AN r') -> nth_error deps e = Some (AN s') ->
    uses g r s op a j -> uses g r' s' op a j' ->
    j = j' /\ (varies g deps p op a <-> varies g deps q op a).

(** * Lemmas about graph values *)
From Coq Require Import List Bool Arith Lia.
From Verif Require Import Graph_model Graph_spec.
Import ListNotations.

Section P.
Context {B : Type} {O : BaseOps B}.
Implicit Types g : heap B.
Implicit Type env : nat -> nat -> B.

Lemma vals_from_app env g1 : forall vs g2, vals_from env vs (g1 ++ g2) = vals_from env (vals_from env vs g1) g2.
Proof. induction g1 as [|n g1 IH]; intros; cbn; auto. Qed.

Lemma vals_snoc env g n : vals env (g ++ [n]) = vals env g ++ [nodeval env (vals env g) n].
Proof. unfold vals. rewrite vals_from_app. reflexivity. Qed.

Lemma vals_from_length env g : forall vs, length (vals_from env vs g) = length vs + length g.
Proof.
  induction g as [|n g IH]; intros; cbn; auto. rewrite IH, app_length. cbn. lia.
Qed.
Lemma vals_length env g : length (vals env g) = length g.
Proof. unfold vals. rewrite vals_from_length. reflexivity. Qed.

Lemma vals_from_prefix env g : forall vs, exists t, vals_from env vs g = vs ++ t.
Proof.
  induction g as [|n g IH]; intros; cbn.
  - exists []. now rewrite app_nil_r.
  - destruct (IH (vs ++ [nodeval env vs n])) as [t H]. exists (nodeval env vs n :: t).
    rewrite H, <- app_assoc. reflexivity.
Qed.

Lemma vals_app env g g' : exists t, vals env (g ++ g') = vals env g ++ t.
Proof. unfold vals. rewrite vals_from_app. apply vals_from_prefix. Qed.

Lemma denote_app env g g' i : i < length g -> denote env (g ++ g') i = denote env g i.
Proof.
  intros H. unfold denote. destruct (vals_app env g g') as [t ->].
  rewrite app_nth1; auto. now rewrite vals_length.
Qed.

Lemma denote_new env g n : denote env (g ++ [n]) (length g) = nodeval env (vals env g) n.
Proof.
  unfold denote. rewrite vals_snoc, app_nth2; rewrite vals_length; auto.
  now rewrite Nat.sub_diag.
Qed.

Lemma nodeval_ext env vs vs' (n : node B) :
  (forall a, In a (n_args n) -> aval vs a = aval vs' a) -> nodeval env vs n = nodeval env vs' n.
Proof. intros H. unfold nodeval. f_equal. apply map_ext_in. auto. Qed.

Lemma denote_unfold env g i n : wf_heap g -> nth_error g i = Some n ->
  denote env g i = opval env (n_handler n) (n_op n) (map (aval (vals env g)) (n_args n)).
Proof.
  intros W H. destruct (nth_error_split _ _ H) as [l1 [l2 [E L]]]. subst i.
  replace g with ((l1 ++ [n]) ++ l2) at 1 by (rewrite E, <- app_assoc; reflexivity).
  rewrite denote_app by (rewrite app_length; cbn; lia).
  rewrite denote_new. change (opval env (n_handler n) (n_op n) (map (aval (vals env g)) (n_args n)))
    with (nodeval env (vals env g) n).
  apply nodeval_ext. intros a Ha. specialize (W _ _ H). rewrite Forall_forall in W. specialize (W a Ha).
  destruct a as [j|b]; cbn in *; auto.
  rewrite E. destruct (vals_app env l1 (n :: l2)) as [t ->]. rewrite app_nth1; auto. now rewrite vals_length.
Qed.

Lemma aval_denote env g i : aval (vals env g) (ANode i) = denote env g i.
Proof. reflexivity. Qed.

Lemma arg_below_le n m (a : arg B) : n <= m -> arg_below n a -> arg_below m a.
Proof. destruct a; cbn; lia. Qed.

Lemma wf_heap_nil : wf_heap (@nil (node B)).
Proof. intros i n H. destruct i; discriminate. Qed.

Lemma wf_heap_snoc g n : wf_heap g -> Forall (arg_below (length g)) (n_args n) -> wf_heap (g ++ [n]).
Proof.
  intros W F i m H. destruct (lt_dec i (length g)).
  - rewrite nth_error_app1 in H by auto. eauto.
  - rewrite nth_error_app2 in H by lia. destruct (i - length g) as [|k] eqn:E; cbn in H.
    + injection H as <-. replace i with (length g) by lia. auto.
    + destruct k; discriminate.
Qed.
End P.

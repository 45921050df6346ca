(** * Recorded graphs meet the hypotheses of the evaluation theorems *)
From Coq Require Import List Bool Arith Lia Permutation.
From Verif Require Import Graph_model Graph_spec Graph_proofs CGArith_model CGArith_spec CGArith_proofs Codegen_spec
  Eval_model Eval_spec Eval_proofs.
Import ListNotations.

Section Rec.
Context {B : Type} {O : BaseOps B}.
Implicit Type g : heap B.

Lemma numbered_grow g g' : grow g g' -> numbered g -> numbered g'.
Proof.
  intros [t [-> F]] N i n k Hn Ho. destruct (lt_dec i (length g)) as [Hi|Hi].
  - rewrite nth_error_app1 in Hn by auto. rewrite firstn_app. replace (i - length g) with 0 by lia.
    cbn. rewrite app_nil_r. now apply N.
  - rewrite nth_error_app2 in Hn by lia. apply nth_error_In in Hn. rewrite Forall_forall in F.
    specialize (F n Hn). now rewrite Ho in F.
Qed.
Lemma numbered_indep g h : numbered g -> numbered (g ++ [mkNode h (GInv (indepCount g h)) []]).
Proof.
  intros N i n k Hn Ho. destruct (lt_dec i (length g)) as [Hi|Hi].
  - rewrite nth_error_app1 in Hn by auto. rewrite firstn_app. replace (i - length g) with 0 by lia.
    cbn. rewrite app_nil_r. now apply N.
  - rewrite nth_error_app2 in Hn by lia. destruct (i - length g) as [|q] eqn:E; cbn in Hn; [|destruct q; discriminate].
    injection Hn as <-. cbn in *. injection Ho as <-. replace i with (length g) by lia.
    rewrite firstn_app, Nat.sub_diag, firstn_all, app_nil_r. reflexivity.
Qed.

Lemma shape_grow chk g ops res g' x : shape chk g ops res -> res = Ok (g', x) -> grow g g'.
Proof.
  intros SH E. destruct (SH g' x E) as [[-> _]|[h [o [-> [_ [_ [NI _]]]]]]]; [apply grow_refl|].
  exists [mkNode h o (map argument ops)]. split; auto.
Qed.

Lemma step_heap s i s' : step s i = Ok s' ->
  (exists h, s_heap s' = s_heap s ++ [mkNode h (GInv (indepCount (s_heap s) h)) []]) \/ grow (s_heap s) (s_heap s').
Proof.
  assert (BIND : forall d res, (forall g' x, res = Ok (g', x) -> grow (s_heap s) g') -> bindr s d res = Ok s' ->
     grow (s_heap s) (s_heap s')).
  { intros d [[g' x]|] H; [|discriminate]. intros [= <-]. cbn. eauto. }
  destruct i; cbn [step]; intros H.
  - right. injection H as <-. apply grow_refl.
  - left. injection H as <-. cbn. eauto.
  - right. injection H as <-. apply grow_refl.
  - right. eapply BIND; [|exact H]. intros g' x. eapply shape_grow, cbin_shape.
  - right. eapply BIND; [|exact H]. intros g' x. eapply shape_grow, casg_shape.
  - right. eapply BIND; [|exact H]. intros g' x. eapply shape_grow, cneg_shape.
  - right. eapply BIND; [|exact H]. intros g' x. eapply shape_grow, cfun_shape.
  - right. eapply BIND; [|exact H]. intros g' x E. unfold clog10 in E.
    destruct (cfun (s_heap s) Log (s_reg s a)) as [[g1 y]|] eqn:E1; [|discriminate].
    eapply grow_trans; [exact (shape_grow _ _ _ _ _ _ (cfun_shape _ _ _) E1)|].
    exact (shape_grow _ _ _ _ _ _ (cbin_shape g1 BDiv y (Par (bfun Log b10))) E).
  - right. eapply BIND; [|exact H]. intros g' x. eapply shape_grow, cpow_shape.
  - right. eapply BIND; [|exact H]. intros g' x. eapply shape_grow, csign_shape.
  - right. eapply BIND; [|exact H]. intros g' x. eapply shape_grow, ccond_shape.
Qed.

Lemma run_numbered p : forall s s', numbered (s_heap s) -> run s p = Ok s' -> numbered (s_heap s').
Proof.
  induction p as [|i p IH]; cbn; intros s s' N H.
  - now injection H as <-.
  - destruct (step s i) as [s1|] eqn:E; [|discriminate]. eapply IH; [|exact H].
    destruct (step_heap s i s1 E) as [[h ->]|G]; [now apply numbered_indep|eapply numbered_grow; eauto].
Qed.

Lemma wf_acyclic g : wf_heap g -> acyclic g.
Proof.
  intros W. exists (fun i => i). intros i j [n [Hn Hj]]. specialize (W i n Hn). rewrite Forall_forall in W.
  exact (W _ Hj).
Qed.

Lemma run_qualifies p s : run init p = Ok s ->
  acyclic (s_heap s) /\ numbered (s_heap s) /\ wf_arity (s_heap s) /\ wf_heap (s_heap s) /\
  (forall k, valid (s_heap s) (s_reg s k)) /\
  (one_handler (s_heap s) -> forall ds h, (forall i, In (ANode i) ds -> exists n, nth_error (s_heap s) i = Some n /\ n_handler n = h) ->
     owned (s_heap s) ds h).
Proof.
  intros H. destruct (run_SI false p init s) as [[W [V [A _]]] _]; [discriminate|apply init_SI|exact H|].
  split; [now apply wf_acyclic|]. split; [eapply run_numbered; [|exact H]; intros i n k Hn; destruct i; discriminate|].
  split; [auto|]. split; [auto|]. split; [auto|].
  intros OH ds h HD i Hi. induction Hi as [i Hi|i j Hi IH [n [Hn Hj]]]; [auto|].
  destruct IH as [n' [Hn' Hh]]. rewrite Hn in Hn'. injection Hn' as <-.
  pose proof (W i n Hn) as F. rewrite Forall_forall in F. specialize (F _ Hj). cbn in F.
  assert (LT : j < length (s_heap s)).
  { assert (i < length (s_heap s)) by (apply nth_error_Some; congruence). lia. }
  destruct (nth_error (s_heap s) j) as [m|] eqn:Em; [|apply nth_error_None in Em; lia].
  exists m. split; [auto|]. rewrite <- Hh. eapply OH; eauto.
Qed.
End Rec.

(** * Solving only adds operations: no node changes and no independent variable appears *)
From Coq Require Import List Bool Arith Lia.
From Verif Require Import Graph_model Graph_spec Graph_proofs CGArith_model CGArith_spec CGArith_proofs Codegen_spec
  Eval_model Eval_spec Eval_proofs Eval_inst Path_model Solve_model Solve_proofs Solve_total.
Import ListNotations.

Section Grow.
Context {B : Type} {O : BaseOps B}.
Implicit Type g : heap B.

Definition grows g g' : Prop := exists t, g' = g ++ t /\ Forall (fun d => isInv (n_op d) = false) t.
Lemma grows_refl g : grows g g.
Proof. exists []. rewrite app_nil_r. auto. Qed.
Lemma grows_trans g g1 g2 : grows g g1 -> grows g1 g2 -> grows g g2.
Proof. intros [t [-> F]] [t' [-> F']]. exists (t ++ t'). rewrite app_assoc. split; auto. apply Forall_app. auto. Qed.
Definition growing g (res : result (heap B * cg B)) : Prop := forall g' x, res = Ok (g', x) -> grows g g'.
Lemma shape_grows chk g ops res : shape chk g ops res -> growing g res.
Proof.
  intros SH g' x E. destruct (SH g' x E) as [[-> _]|[h [o [-> [_ [_ [NI _]]]]]]]; [apply grows_refl|].
  eexists. split; [reflexivity|]. constructor; auto. cbn. destruct o; auto. contradiction.
Qed.
Definition sgrowing g (res : sres (heap B * cg B)) : Prop := forall g' x, res = SOk (g', x) -> grows g g'.
Lemma ofres_grows g res : growing g res -> sgrowing g (ofres res).
Proof. intros H g' x E. destruct res; [|discriminate]. injection E as ->. eapply H; eauto. Qed.
Lemma sbind_grows g (r : sres (heap B * cg B)) f : sgrowing g r -> (forall g1 x, sgrowing g1 (f (g1, x))) -> sgrowing g (sbind r f).
Proof. intros H1 H2 g' x E. apply sbind_ok in E. destruct E as [[g1 y] [E1 E2]]. eapply grows_trans; [eapply H1; eauto|eapply H2; eauto]. Qed.
Lemma argCG_grows g args k f : (forall o, sgrowing g (f o)) -> sgrowing g (sbind (argCG (B := B) args k) f).
Proof. intros H g' x E. apply sbind_ok in E. destruct E as [o [_ E]]. eapply H; eauto. Qed.
Lemma casg_grows g o l r : sgrowing g (ofres (casg g o l r)). Proof. eapply ofres_grows, shape_grows, casg_shape. Qed.
Lemma cbin_grows g o l r : sgrowing g (ofres (cbin g o l r)). Proof. eapply ofres_grows, shape_grows, cbin_shape. Qed.
Lemma cfun_grows g f x : sgrowing g (ofres (cfun g f x)). Proof. eapply ofres_grows, shape_grows, cfun_shape. Qed.
Lemma cneg_grows g x : sgrowing g (ofres (cneg g x)). Proof. eapply ofres_grows, shape_grows, cneg_shape. Qed.
Lemma ret_grows g x : sgrowing g (SOk (g, x)). Proof. intros g' y [= <- <-]. apply grows_refl. Qed.
Lemma throw_grows g : sgrowing g SThrow. Proof. discriminate. Qed.
Lemma undef_grows g : sgrowing g SUndef. Proof. discriminate. Qed.
Ltac grow := repeat first
  [ apply ret_grows | apply throw_grows | apply undef_grows | apply casg_grows | apply cbin_grows | apply cfun_grows | apply cneg_grows
  | apply argCG_grows; intros ? | apply sbind_grows; [|intros ? ?] ].

Lemma invert_grows half g d i rhs : sgrowing g (invert half g d i rhs).
Proof.
  unfold invert. destruct (n_op d); try apply throw_grows; try (grow; fail).
  - destruct (isFirst i); grow.
  - destruct (isFirst i); grow.
  - destruct (isFirst i); [|grow]. destruct (nth_error (n_args d) 1) as [[j|e]|]; grow.
    destruct (bcmp CEq e b0); grow. destruct (bcmp CEq e b1); grow.
  - destruct f; grow.
Qed.
Lemma solveSteps_grows half p : forall g rhs, sgrowing g (solveSteps half g p rhs).
Proof.
  induction p as [|[n i] p IH]; intros g rhs; cbn [solveSteps]; [grow|]. destruct p as [|e p]; [grow|].
  destruct (nth_error g n); [|grow]. apply sbind_grows; [apply invert_grows|]. intros g1 x. apply IH.
Qed.
Lemma coefSteps_grows p : forall g prev c, sgrowing g (coefSteps g prev p c).
Proof.
  induction p as [|[n i] p IH]; intros g prev c; cbn [coefSteps]; [grow|]. destruct p as [|e p]; [grow|].
  destruct (nth_error g n) as [d|]; [|grow]. apply sbind_grows; [|intros g1 x; apply IH].
  destruct (n_op d); grow. destruct (oeqb prev (Some 1)); grow.
Qed.

Section Clone.
Variable decide : spath -> nat -> decision (B := B).
Variable ord : nat -> nat -> list nat.
Variable inds : list nat.
Lemma cloneArgs_grows f args : (forall p j s s' v, f p j s = SOk (s', v) -> grows (c_heap s) (c_heap s')) -> forall ps acc s s' acc',
  cloneArgs (B := B) f args ps acc s = SOk (s', acc') -> grows (c_heap s) (c_heap s').
Proof.
  intros F. induction ps as [|p ps IH]; intros acc s s' acc' H; cbn [cloneArgs] in H; [injection H as <- <-; apply grows_refl|].
  destruct (nth_error args p) as [[j|b]|]; [| |discriminate].
  - apply sbind_ok in H. destruct H as [[s1 v] [E1 H]]. eapply grows_trans; [eapply F; eauto|eapply IH; eauto].
  - cbn [sbind] in H. eapply IH; eauto.
Qed.
Lemma cg_op_grows o vs g : growing g (cg_op o vs g).
Proof.
  destruct o; cbn [cg_op]; destruct vs as [|a [|b [|c0 [|e [|]]]]]; try (intros g' x H; discriminate).
  1-4: eapply shape_grows, cbin_shape.
  - eapply shape_grows, cpow_shape.
  - eapply shape_grows, cneg_shape.
  - eapply shape_grows, csign_shape.
  - intros g' x [= <- <-]. apply grows_refl.
  - intros g' x [= <- <-]. apply grows_refl.
  - eapply shape_grows, cfun_shape.
  - eapply shape_grows, ccond_shape.
Qed.
Lemma cloneOps_grows : forall fuel pre i s s' v, cloneOps decide ord inds fuel pre i s = SOk (s', v) -> grows (c_heap s) (c_heap s').
Proof.
  induction fuel as [|fuel IH]; intros pre i s s' v H; [discriminate|]. cbn [cloneOps] in H.
  destruct (c_memo s i) as [w|]; [injection H as <- <-; apply grows_refl|].
  destruct (decide pre i) as [x| |]; [injection H as <- <-; apply grows_refl| |injection H as <- <-; apply grows_refl].
  destruct (nth_error (c_heap s) i) as [d|]; [|discriminate].
  destruct (negb (handled (n_op d))); [discriminate|].
  destruct (isInv (n_op d)) eqn:EI.
  - destruct (n_op d); try discriminate. destruct (indepIndex inds i); [|discriminate]. injection H as <- <-. apply grows_refl.
  - assert (H' : sbind (cloneArgs (fun p j s' => cloneOps decide ord inds fuel (pre ++ [(i, Some p)]) j s') (n_args d) (ord i (length (n_args d)))
                     (fun _ => None) s) (fun '(s1, acc) =>
                match all_some (map acc (seq 0 (length (n_args d)))) with
                | None => SUndef
                | Some vs =>
                    match cg_op (n_op d) vs (c_heap s1) with
                    | Throw => SThrow
                    | Ok (g', v) => SOk (mkC (fun j => if Nat.eqb j i then Some v else c_memo s1 j) g', v)
                    end
                end) = SOk (s', v)).
    { revert H. destruct (n_op d); try discriminate; auto. }
    clear H. apply sbind_ok in H'. destruct H' as [[s1 acc] [E1 H]].
    destruct (all_some (map acc (seq 0 (length (n_args d))))) as [vs|]; [|discriminate].
    destruct (cg_op (n_op d) vs (c_heap s1)) as [[g' w]|] eqn:EC; [|discriminate]. injection H as <- <-. cbn [c_heap].
    eapply grows_trans; [|eapply cg_op_grows; eauto]. eapply cloneArgs_grows; [|exact E1]. intros p j s2 s2' v2. apply IH.
Qed.
Lemma cloneEval_grows fuel g i : sgrowing g (cloneEval decide ord inds fuel g i).
Proof.
  intros g' x H. unfold cloneEval in H. apply sbind_ok in H. destruct H as [[s v] [E H]]. injection H as <- <-.
  apply (cloneOps_grows _ _ _ _ _ _ E).
Qed.
End Clone.

Lemma sbind_ret {A} (r : sres A) f g : (forall a, sgrowing g (f a)) -> sgrowing g (sbind r f).
Proof. intros H g' x E. apply sbind_ok in E. destruct E as [a [_ E]]. eapply H; eauto. Qed.

Lemma addsub_grows fuel ord inds g l r : sgrowing g (collectVariableAddSub fuel ord inds g l r).
Proof.
  unfold collectVariableAddSub. destruct l as [|[nl il] l]; [grow|]. destruct r as [|[nr ir] r]; [grow|].
  destruct (negb (Nat.eqb nl nr)); [grow|]. destruct (nth_error g nl) as [d|]; [|grow].
  destruct (negb _); [grow|]. destruct (last_node _); [|grow]. destruct (last_node _); [|grow]. destruct (negb _); [grow|].
  apply sbind_ret; intros _. apply sbind_ret; intros _.
  apply sbind_grows; [apply coefSteps_grows|intros g1 cl]. apply sbind_grows; [grow|intros g2 s1].
  apply sbind_grows; [apply coefSteps_grows|intros g3 cr]. apply sbind_grows; [grow|intros g4 cs].
  apply sbind_grows; [|intros g5 rest; grow].
  match goal with |- sgrowing _ (if ?b then _ else _) => destruct b end; [apply cloneEval_grows|grow].
Qed.
Lemma collectVariable_grows fuel ord inds g e p1 p2 k : sgrowing g (collectVariable fuel ord inds g e p1 p2 k).
Proof.
  unfold collectVariable. destruct (nth_error p1 k) as [[m i]|]; [|grow]. apply sbind_grows; [apply addsub_grows|intros g1 sub].
  apply sbind_ret. intros [G b]. apply cloneEval_grows.
Qed.
Lemma solveLoop_grows half max ord inds var fuel : forall loops g root, sgrowing g (solveLoop half max loops fuel ord inds g root var).
Proof.
  induction loops as [|loops IH]; intros g root; cbn [solveLoop]; [discriminate|].
  apply sbind_ret. intros [G b]. destruct (negb (pg_contains G var)); [grow|]. apply sbind_ret. intros [ps k].
  destruct ps as [|p1 [|p2 ps]]; [grow|apply solveSteps_grows|]. destruct k as [k|]; [|grow].
  apply sbind_grows; [apply collectVariable_grows|]. intros g1 e. destruct e as [b'|root' v]; [grow|].
  destruct (Nat.eqb b 0); [apply solveSteps_grows|apply IH].
Qed.
Lemma solveFor_grows half max loops fuel ord inds g root var : sgrowing g (solveFor half max loops fuel ord inds g root var).
Proof. unfold solveFor. destruct (Nat.eqb root var); [grow|apply solveLoop_grows]. Qed.
End Grow.

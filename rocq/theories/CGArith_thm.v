(** * C01-C04: recording arithmetic with CG<Base> *)
From Coq Require Import List Bool Arith Lia QArith Qcanon SpecFloat.
From Verif Require Import Graph_model Graph_spec Graph_proofs Graph_Qc Graph_Double CGArith_model CGArith_spec CGArith_proofs.
Import ListNotations.

(** C01: after any sequence of operations on CG objects, the recorded graph of every object has, at all values [env]
    of the independent variables, the value obtained by plain arithmetic on the numbers -- whenever the latter is
    defined (no division by zero entered its computation). *)
Theorem C01_recorded_graph_has_the_value_of_the_operations :
  forall (B : Type) (O : BaseOps B), BaseLaws B ->
  forall (p : list (instr B)) (s : state B) (env : nat -> nat -> B),
  run init p = Ok s ->
  forall (r : nat) (v : B), r_reg (rrun env p) r = Some v -> cgval env (s_heap s) (s_reg s r) = Some v.
Proof.
  intros B O L p s env H r v Hv.
  exact (I_ok _ _ _ (run_inv L env p _ _ _ (init_inv env) H) r v Hv).
Qed.
Print Assumptions C01_recorded_graph_has_the_value_of_the_operations.

(** A program exercising sharing, simplifications, a conditional and a compound assignment. *)
Definition ex_prog : list (instr Qc) :=
  [ IIndep 0 7 (Some (Q2Qc (3#1))); IIndep 1 7 (Some (Q2Qc (4#1)));
    IBin BMul 2 0 1; IConst 3 0%Qc; IBin BAdd 4 2 3; IBin BDiv 5 4 2; IAsg BSub 4 0; IConst 6 (Q2Qc (2#1));
    IBin BDiv 7 4 6; ICond CLt 8 0 1 7 2; IPow 9 8 5; INeg 10 9; ISign 11 10; IBin BMul 12 11 3; IFun Abs 13 10;
    ILog10 14 13 ].
Definition ex_env : nat -> nat -> Qc := fun _ k => match k with 0%nat => Q2Qc (3#1) | _ => Q2Qc (4#1) end.
Example C01_ex : BaseLaws Qc /\
  (exists s, run init ex_prog = Ok s /\ length (s_heap s) = 11%nat) /\
  r_reg (rrun ex_env ex_prog) 9 = Some (Q2Qc (9#2)) /\
  r_reg (rrun ex_env ex_prog) 14 = Some (Q2Qc (9#20)).
Proof.
  split; [exact QcLaws|]. split; [|split].
  - destruct (run init ex_prog) as [s|] eqn:E; [|vm_compute in E; discriminate].
    exists s. split; [reflexivity|].
    assert (H : match run init ex_prog with Ok s => length (s_heap s) | Throw => 0%nat end = 11%nat) by (vm_compute; reflexivity).
    rewrite E in H. exact H.
  - vm_compute. reflexivity.
  - vm_compute. reflexivity.
Qed.

(** C01 does not extend to IEEE doubles: the simplifications change results (as comments in arithmetic.hpp admit).
    With x = +infinity, x * 0 is recorded as the constant 0 instead of NaN. *)
Theorem C01_ieee_double_refuted : exists (p : list (instr spec_float)) s env r v w,
  run init p = Ok s /\ r_reg (rrun env p) r = Some v /\
  cgval env (s_heap s) (s_reg s r) = Some w /\ v = S754_nan /\ w = S754_zero false.
Proof.
  exists [IIndep 0 0%nat None; IConst 1 (S754_zero false); IBin BMul 2 0 1].
  eexists. exists (fun _ _ => S754_infinity false), 2%nat. do 2 eexists.
  split; [reflexivity|]. split; [vm_compute; reflexivity|]. split; [vm_compute; reflexivity|]. split; reflexivity.
Qed.
Print Assumptions C01_ieee_double_refuted.

(** A conditional with branches +0 and -0 is recorded as its first branch (isSameExpression, cond_exp_op.hpp 25-32,
    compares with ==): at x >= y the result is +0 where -0 was asked for. *)
Theorem C01_signed_zero_branches_refuted : exists (p : list (instr spec_float)) s env r v w,
  run init p = Ok s /\ r_reg (rrun env p) r = Some v /\
  cgval env (s_heap s) (s_reg s r) = Some w /\ v = S754_zero true /\ w = S754_zero false.
Proof.
  exists [IIndep 0 0%nat None; IIndep 1 0%nat None; IConst 2 (S754_zero false); IConst 3 (S754_zero true); ICond CLt 4 0 1 2 3].
  eexists. exists (fun _ _ => S754_infinity false), 4%nat. do 2 eexists.
  split; [reflexivity|]. split; [vm_compute; reflexivity|]. split; [vm_compute; reflexivity|]. split; reflexivity.
Qed.
Print Assumptions C01_signed_zero_branches_refuted.

(** C02: a value reported by getValue() is the value of the recorded graph at the values given to the independent
    variables (whenever that graph's value is defined). *)
Theorem C02_stored_values_are_graph_values :
  forall (B : Type) (O : BaseOps B), BaseLaws B ->
  forall (p : list (instr B)) (s : state B) (env : nat -> nat -> B),
  run init p = Ok s -> env_agrees env p ->
  forall (r : nat) (v w : B), cgval env (s_heap s) (s_reg s r) = Some v -> cvalue (s_reg s r) = Some w -> w = v.
Proof.
  intros B O L p s env H A r v w Hv Hw.
  exact (run_sinv L env p init rinit s (init_inv env) (init_sinv env) A H r v w Hv Hw).
Qed.
Print Assumptions C02_stored_values_are_graph_values.
Example C02_ex : env_agrees ex_env ex_prog /\
  match run init ex_prog with
  | Ok s => exists b, cvalue (s_reg s 9) = Some b /\ cgval ex_env (s_heap s) (s_reg s 9) = Some b
  | Throw => False end.
Proof.
  split.
  - intros h k b H. cbn in H. destruct H as [H|[H|[]]]; injection H as <- <- <-; reflexivity.
  - destruct (run init ex_prog) as [s|] eqn:E; [|vm_compute in E; discriminate].
    assert (R : r_reg (rrun ex_env ex_prog) 9 = Some (Q2Qc (9#2)))
      by (vm_compute; reflexivity).
    pose proof (C01_recorded_graph_has_the_value_of_the_operations Qc QcOps QcLaws ex_prog s ex_env E 9 _ R) as G.
    assert (V : match run init ex_prog with Ok s => cvalue (s_reg s 9) <> None | Throw => False end)
      by (vm_compute; discriminate).
    rewrite E in V. destruct (cvalue (s_reg s 9)) as [w|] eqn:Ew; [|congruence].
    exists w. split; [reflexivity|]. rewrite G. f_equal. symmetry.
    refine (C02_stored_values_are_graph_values Qc QcOps QcLaws ex_prog s ex_env E _ 9 _ _ G Ew).
    intros h k b H. cbn in H. destruct H as [H|[H|[]]]; injection H as <- <- <-; reflexivity.
Qed.

(** C03: running any further operations only appends nodes; every object obtained before keeps its meaning; and every
    recorded node refers only to nodes recorded before it.  No law on the base type is needed. *)
Theorem C03_recording_is_append_only_and_acyclic :
  forall (B : Type) (O : BaseOps B) (p q : list (instr B)) (s s' : state B),
  run init p = Ok s -> run s q = Ok s' ->
  (exists new, s_heap s' = s_heap s ++ new) /\
  (forall env r, cgval env (s_heap s') (s_reg s r) = cgval env (s_heap s) (s_reg s r)) /\
  (forall i n j, nth_error (s_heap s') i = Some n -> In (ANode j) (n_args n) -> (j < i)%nat) /\
  (forall n, In n (s_heap s') -> length (n_args n) = arity (n_op n)).
Proof.
  intros B O p q s s' H1 H2.
  destruct (run_SI false p init s) as [S1 _]; [discriminate|apply init_SI|exact H1|].
  destruct (run_SI false q s s') as [S2 [t T]]; [discriminate|exact S1|exact H2|].
  split; [eauto|split; [|split]].
  - intros env r. rewrite T. apply cgval_app. apply S1.
  - intros i n j Hn Hj. destruct S2 as [W _]. specialize (W i n Hn). rewrite Forall_forall in W. exact (W _ Hj).
  - intros n Hn. destruct S2 as [_ [_ [A _]]]. unfold wf_arity in A. rewrite Forall_forall in A. auto.
Qed.
Print Assumptions C03_recording_is_append_only_and_acyclic.
Example C03_ex : exists s s', run init (firstn 6 ex_prog) = Ok s /\ run s (skipn 6 ex_prog) = Ok s' /\
  length (s_heap s) = 3%nat /\ length (s_heap s') = 11%nat.
Proof.
  destruct (run init (firstn 6 ex_prog)) as [s|] eqn:E; [|vm_compute in E; discriminate].
  destruct (run s (skipn 6 ex_prog)) as [s'|] eqn:E'.
  - assert (H : match run init (firstn 6 ex_prog) with Throw => False | Ok s => length (s_heap s) = 3%nat /\
       match run s (skipn 6 ex_prog) with Throw => False | Ok s' => length (s_heap s') = 11%nat end end)
      by (vm_compute; auto).
    rewrite E in H. destruct H as [H1 H]. rewrite E' in H. eauto 10.
  - assert (H : match run init (firstn 6 ex_prog) with Throw => False | Ok s =>
       match run s (skipn 6 ex_prog) with Throw => False | Ok s' => True end end)
      by (vm_compute; auto).
    rewrite E, E' in H. destruct H.
Qed.

(** C04: + - * / throw exactly when the operands are variables of two different handlers (and so does CondExp, with its
    four operands, see the next theorem) ... *)
Theorem C04_binary_operators_reject_foreign_operands :
  forall (B : Type) (O : BaseOps B) (p : list (instr B)) (s : state B) (o : bop) (d a b : nat),
  run init p = Ok s ->
  (step s (IBin o d a b) = Throw <-> foreign (s_heap s) (s_reg s a) (s_reg s b)).
Proof.
  intros B O p s o d a b H. destruct (run_SI false p init s) as [[_ [V _]] _]; [discriminate|apply init_SI|exact H|].
  rewrite <- (cbin_throws (s_heap s) o (s_reg s a) (s_reg s b) (V a) (V b)).
  cbn [step]. destruct (cbin (s_heap s) o (s_reg s a) (s_reg s b)); cbn; split; congruence.
Qed.
Print Assumptions C04_binary_operators_reject_foreign_operands.

(** ... a conditional expression throws exactly when two of its four operands are variables of different handlers, unless
    it is decided while recording (both compared operands are parameters, or the two branches are the same) ... *)
Theorem C04_conditional_rejects_foreign_operands :
  forall (B : Type) (O : BaseOps B) (p : list (instr B)) (s : state B) (c : cmp) (d l r t f : nat),
  run init p = Ok s ->
  (step s (ICond c d l r t f) = Throw <->
    (owner (s_heap s) (s_reg s l) <> None \/ owner (s_heap s) (s_reg s r) <> None) /\
    isSameExpression (s_reg s t) (s_reg s f) = false /\
    exists x y, In x [s_reg s l; s_reg s r; s_reg s t; s_reg s f] /\
      In y [s_reg s l; s_reg s r; s_reg s t; s_reg s f] /\ foreign (s_heap s) x y).
Proof.
  intros B O p s c d l r t f H. destruct (run_SI false p init s) as [[_ [V _]] _]; [discriminate|apply init_SI|exact H|].
  rewrite <- (ccond_throws (s_heap s) c _ _ _ _ (V l) (V r) (V t) (V f)).
  cbn [step]. destruct (ccond (s_heap s) c (s_reg s l) (s_reg s r) (s_reg s t) (s_reg s f)); cbn; split; congruence.
Qed.
Print Assumptions C04_conditional_rejects_foreign_operands.

(** ... and a program which uses neither pow nor the compound assignments never records a node whose arguments belong
    to another handler. *)
Theorem C04_graphs_never_mix_handlers :
  forall (B : Type) (O : BaseOps B) (p : list (instr B)) (s : state B),
  forallb checked p = true -> run init p = Ok s -> one_handler (s_heap s).
Proof.
  intros B O p s C H. destruct (run_SI true p init s) as [[_ [_ [_ S]]] _]; [auto|apply init_SI|exact H|]. auto.
Qed.
Print Assumptions C04_graphs_never_mix_handlers.
Definition ex_two : list (instr Qc) := [IIndep 0 0%nat None; IIndep 1 1%nat None; IIndep 2 1%nat None].
Example C04_ex : exists s s', run init ex_two = Ok s /\ foreign (s_heap s) (s_reg s 0) (s_reg s 1) /\
  step s (IBin BAdd 3 0 1) = Throw /\ step s (ICond CLt 3 1 2 0 1) = Throw /\ step s (IBin BAdd 3 1 2) = Ok s' /\
  forallb checked (ex_two ++ [IBin BAdd 3 1 2]) = true.
Proof.
  do 2 eexists. split; [reflexivity|]. split; [exists 0%nat, 1%nat; cbn; repeat split; auto|].
  split; [reflexivity|]. split; [reflexivity|]. split; reflexivity.
Qed.

(** C04 is false for pow and for the compound assignments (release build): the operation is silently recorded. *)
Theorem C04_pow_refuted : exists (s : state Qc) s' n m,
  run init ex_two = Ok s /\ foreign (s_heap s) (s_reg s 0) (s_reg s 1) /\ step s (IPow 3 0 1) = Ok s' /\
  nth_error (s_heap s') 3 = Some n /\ In (ANode 0) (n_args n) /\ nth_error (s_heap s') 0 = Some m /\
  n_handler n <> n_handler m.
Proof.
  do 4 eexists. split; [reflexivity|]. split; [exists 0%nat, 1%nat; cbn; repeat split; auto|].
  split; [reflexivity|]. split; [reflexivity|]. cbn. split; [auto|]. split; [reflexivity|]. cbn. discriminate.
Qed.
Print Assumptions C04_pow_refuted.
Theorem C04_compound_assignment_refuted : forall o : bop, exists (s : state Qc) s' n m,
  run init ex_two = Ok s /\ foreign (s_heap s) (s_reg s 0) (s_reg s 1) /\ step s (IAsg o 0 1) = Ok s' /\
  nth_error (s_heap s') 3 = Some n /\ In (ANode 1) (n_args n) /\ nth_error (s_heap s') 1 = Some m /\
  n_handler n <> n_handler m.
Proof.
  intros o. destruct o; do 4 eexists; (split; [reflexivity|]); (split; [exists 0%nat, 1%nat; cbn; repeat split; auto|]);
  (split; [reflexivity|]); (split; [reflexivity|]); cbn; (split; [auto|]); (split; [reflexivity|]); cbn; discriminate.
Qed.
Print Assumptions C04_compound_assignment_refuted.

(** * C05: inputs for which the generated code does not compute the dependents

    Each theorem gives a concrete model; together they show that the hypotheses of
    C05_generated_code_computes_every_dependent cannot be dropped. *)
From Coq Require Import List Bool Arith Lia QArith Qcanon.
From Verif Require Import Graph_model Graph_spec Graph_Qc CGArith_model CGArith_spec CGArith_thm Codegen_model Codegen_spec Codegen_link Codegen_thm.
Import ListNotations.
Local Open Scope nat_scope.

(** OperationNode::makeAlias (include/cppad/cg/operation_node.hpp 70-77), the effect of
    CodeHandler::substituteIndependent (graph_mod.hpp 28-62) on the graph *)
Definition makeAlias {B} (g : heap B) (i : nat) (a : arg B) : heap B :=
  match nth_error g i with
  | Some n => firstn i g ++ mkNode (n_handler n) GAlias [a] :: skipn (S i) g
  | None => g
  end.

Definition q (n : Z) : Qc := Q2Qc (n # 1).
(** x0, x1, z = x2, s = x0 + x1, w = z * x0, sign(z) *)
Definition alias_prog : list (instr Qc) :=
  [IIndep 0 0 None; IIndep 1 0 None; IIndep 2 0 None; IBin BAdd 3 0 1; IBin BMul 4 2 0; ISign 5 2].
Definition alias_heap : heap Qc := match run init alias_prog with Ok s => s_heap s | Throw => [] end.

Ltac solve_eqs := let i := fresh "i" in let n := fresh "n" in let E := fresh "E" in
  intros i n E; repeat (destruct i as [|i]; [injection E as <-; vm_compute; reflexivity|]); destruct i; discriminate.

(** With the assignment operator [+=] (LanguageC::setDependentAssignOperation) and values already in y, a dependent
    requested twice is added the accumulated value of the first one: y = [10, 20], x0 * x1 = 6 should become
    [16, 26], the generated code leaves [16, 36]. *)
Theorem C05_add_assign_to_nonzero_y_refuted :
  exists (p : list (instr Qc)) s outs ge (env : nat -> nat -> Qc) (m : mem) v,
  run init p = Ok s /\ Forall (handler_of 0) p /\
  generateCode (s_heap s) 100 (mkOpts 100 true false false AAdd) (indepNodes (s_heap s))
     (map (fun r => argument (s_reg s r)) outs) noNames = Done ge /\
  (forall k, k < length (indepNodes (s_heap s)) -> m (LX k) = Some (env 0 k)) /\
  nth_error outs 1 = Some 2 /\ cgval env (s_heap s) (s_reg s 2) = Some v /\
  m (LY 1) = Some (q 20) /\ exec m (ge_prog ge) (LY 1) <> Some (badd (q 20) v).
Proof.
  exists [IIndep 0 0 None; IIndep 1 0 None; IBin BMul 2 0 1]. eexists. exists [2; 2]. eexists.
  exists (fun _ k => match k with 0 => q 2 | _ => q 3 end).
  exists (fun l => match l with LX 0 => Some (q 2) | LX _ => Some (q 3) | LY 0 => Some (q 10) | LY _ => Some (q 20) | _ => None end), (q 6).
  split; [reflexivity|]. split; [repeat constructor|]. split; [vm_compute; reflexivity|].
  split; [intros [|k] _; reflexivity|]. split; [reflexivity|]. split; [vm_compute; reflexivity|]. split; [reflexivity|].
  vm_compute. discriminate.
Qed.
Print Assumptions C05_add_assign_to_nonzero_y_refuted.

(** After z is substituted by s, the dependents [z * x0; z]: y[0] is computed from y[1] before y[1] is assigned. *)
Theorem C05_substituted_independent_as_dependent_refuted :
  exists (g : heap Qc) indeps deps env sol m ge v,
  g = makeAlias alias_heap 2 (ANode 3) /\ indeps = [0; 1] /\ acyclic g /\ solves env g sol /\
  (forall p i, nth_error indeps p = Some i -> m (LX p) = sol i) /\
  generateCode g 100 (mkOpts 100 true false false ASet) indeps deps noNames = Done ge /\
  nth_error deps 0 = Some (ANode 4) /\ sol 4 = Some v /\
  In (LY 1) (flat_map sreads (firstn 2 (ge_prog ge))) /\ ~ In (LY 1) (targets (firstn 2 (ge_prog ge))) /\
  exec m (ge_prog ge) (LY 0) <> Some v.
Proof.
  eexists. exists [0; 1], [ANode 4; ANode 2], (fun _ _ => q 2).
  exists (fun i => match i with 0 | 1 => Some (q 2) | 2 | 3 => Some (q 4) | 4 => Some (q 8) | _ => Some b1 end).
  exists (fun l => match l with LX _ => Some (q 2) | _ => Some (q 100) end). eexists. exists (q 8).
  split; [reflexivity|]. split; [reflexivity|]. split; [|split; [|split; [|split; [vm_compute; reflexivity|]]]].
  - exists (fun i => match i with 0 | 1 => 0 | 3 => 1 | 2 => 2 | _ => 3 end). intros i j (n & En & Hj).
    do 6 (destruct i as [|i]; [injection En as <-; cbn [n_args In] in Hj;
      repeat (destruct Hj as [[= <-]|Hj]; [cbn; lia|]); destruct Hj|]). destruct i; discriminate.
  - solve_eqs.
  - intros [|[|p]] i H; try (injection H as <-; reflexivity). destruct p; discriminate.
  - split; [reflexivity|]. split; [reflexivity|]. split; [vm_compute; auto|]. split; [vm_compute; intros [H|[H|[]]]; discriminate|].
    vm_compute. discriminate.
Qed.
Print Assumptions C05_substituted_independent_as_dependent_refuted.

(** After z is substituted by s, sign(z) makes the generator print a variable without identifier: it fails. *)
Theorem C05_sign_of_substituted_independent_refuted :
  forall fuel o, 100 <= fuel -> generateCode (makeAlias alias_heap 2 (ANode 3)) fuel o [0; 1] [ANode 5] noNames = Bad.
Proof.
  intros fuel o Hf. do 100 (destruct fuel as [|fuel]; [lia|]). clear Hf. destruct o as [mo [|] z iz a]; destruct mo as [|[|[|[|mo]]]]; reflexivity.
Qed.
Print Assumptions C05_sign_of_substituted_independent_refuted.

(** After z is substituted by a constant (solveFor returns a parameter), counting the uses of the operations
    dereferences a null pointer. *)
Theorem C05_independent_substituted_by_constant_refuted :
  forall fuel o, 100 <= fuel -> generateCode (makeAlias alias_heap 2 (APar (q 1))) fuel o [0; 1] [ANode 4] noNames = Bad.
Proof.
  intros fuel o Hf. do 100 (destruct fuel as [|fuel]; [lia|]). clear Hf. destruct o as [mo [|] z iz a]; destruct mo as [|[|[|[|mo]]]]; reflexivity.
Qed.
Print Assumptions C05_independent_substituted_by_constant_refuted.

(** When the substituted independent is kept in the list of independents (removeFromIndependents = false), the code
    still reads x[2] instead of the expression. *)
Theorem C05_substitution_without_removal_refuted :
  exists ge, generateCode (makeAlias alias_heap 2 (ANode 3)) 100 (mkOpts 100 true false false ASet) [0; 1; 2] [ANode 4] noNames = Done ge /\
  ge_prog ge = [SAssign (LY 0) ASet (XOp GMul [XLoc (LX 2); XLoc (LX 0)])].
Proof. eexists. split; vm_compute; reflexivity. Qed.
Print Assumptions C05_substitution_without_removal_refuted.

(** setZeroDependents(true) with setIgnoreZeroDepAssign(true): when no dependent is computed by an operation the
    loop which clears y is not written, so the dependents which are zero keep the previous contents of y. *)
Theorem C05_zero_dependents_of_constant_model_refuted :
  exists ge (m : mem), generateCode ([] : heap Qc) 100 (mkOpts 100 true true true ASet) [] [APar b0] noNames = Done ge /\
  exec m (ge_prog ge) (LY 0) <> Some b0.
Proof. eexists. exists (fun _ => Some b1). split; vm_compute; [reflexivity|discriminate]. Qed.
Print Assumptions C05_zero_dependents_of_constant_model_refuted.

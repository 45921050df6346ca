(** * C05-C07: the code written by generateCode *)
From Coq Require Import List Bool Arith Lia QArith Qcanon SpecFloat.
From Verif Require Import Graph_model Graph_spec Graph_proofs Graph_Qc Graph_Double CGArith_model CGArith_spec CGArith_proofs
  CGArith_thm Codegen_model Codegen_spec Codegen_dfs Codegen_use Codegen_create Codegen_order Codegen_reuse Codegen_plan
  Codegen_emit Codegen_exec Codegen_sol Codegen_link Codegen_flow Codegen_ops Codegen_fexec.
Import ListNotations.
Local Open Scope nat_scope.

Definition noNames : nat -> option loc := fun _ => None.

(** what a successful generation from a new handler went through *)
Lemma generated_inv {B} {O : BaseOps B} (g : heap B) indeps deps fuel o ge : gen_input g indeps deps ->
  generateCode g fuel o indeps deps noNames = Done ge ->
  exists pl cv uc vid0 n0 nm,
    plan_ok g indeps deps pl cv uc vid0 n0 /\ names_ok g indeps deps pl cv n0 nm /\
    source g o indeps deps pl nm fuel = Done (ge_prog ge) /\ ge_size ge = p_next pl - p_minTmp pl /\
    depIds (anodes deps) (indepIds indeps (fun _ => 0, 1)) = (vid0, n0) /\
    ofold (markCodeBlockUsed g fuel) (anodes deps) (fun _ => 0) = Done uc /\
    ofold (createForDep g fuel (o_maxOps o) uc) (anodes deps) (mkCv vid0 n0 (fun _ => 0) (fun _ => false) []) = Done cv /\
    (o_reuse o = false -> p_vid pl = c_vid cv /\ p_next pl = c_next cv).
Proof.
  intros HG E. unfold generateCode in E. apply obind_done in E. destruct E as (pl & Ep & E). cbv zeta in E.
  apply obind_done in E. destruct E as (prog & Es & [= <-]).
  destruct (plan_correct_full g indeps deps HG fuel o pl Ep) as (cv & uc & vid0 & n0 & PO & Huc & Hcv & Hr).
  exists pl, cv, uc, vid0, n0, (allNames g indeps deps pl noNames). split; [exact PO|]. split.
  { apply (allNames_ok g indeps deps HG pl cv uc vid0 n0 PO). intros i l l' _ [=]. }
  split; [exact Es|]. split; [reflexivity|]. split; [apply (po_ids _ _ _ _ _ _ _ _ PO)|]. auto.
Qed.

(** ** C05 *)

(** The generation always ends and writes a program: for every graph there is a number of steps of the navigation
    loops which is enough, whatever the options. *)
Theorem C05_generation_always_ends_with_a_program :
  forall (B : Type) (O : BaseOps B) (g : heap B) (indeps : list nat) (deps : list (arg B)),
  gen_input g indeps deps ->
  exists F, forall fuel o, F <= fuel -> exists ge, generateCode g fuel o indeps deps noNames = Done ge.
Proof.
  intros B O g indeps deps HG. destruct (plan_total g indeps deps HG) as [F HF].
  destruct (cost_exists g (gi_acyclic _ _ _ HG)) as [c Hc].
  exists (F + S (isum c (seq 0 (length g)))). intros fuel o Hf.
  destruct (HF fuel o) as [pl Epl]; [lia|]. unfold generateCode. rewrite Epl. cbn [obind]. cbv zeta.
  destruct (plan_correct g indeps deps HG fuel o pl Epl) as (cv & uc & vid0 & n0 & PO).
  assert (NM : names_ok g indeps deps pl cv n0 (allNames g indeps deps pl noNames))
    by (apply (allNames_ok g indeps deps HG pl cv uc vid0 n0 PO); intros i l l' _ [=]).
  destruct (source_total g indeps deps HG pl cv uc vid0 n0 PO _ NM o c Hc fuel) as [prog Ep].
  { intros i Hi. apply (gi_dom _ _ _ HG) in Hi.
    assert (In i (seq 0 (length g))) by (apply in_seq; lia). pose proof (isum_in c _ _ H). lia. }
  rewrite Ep. cbn [obind]. eexists; reflexivity.
Qed.
Print Assumptions C05_generation_always_ends_with_a_program.

(** Running the generated assignments on a memory which holds the values of the independent variables leaves every
    dependent with the value of its node.  With the operator [+=] the memory must be cleared, and 0 be neutral; when
    assignments of constant zeros are not written ([o_ignoreZero]) the cell must be cleared.  No law on the
    numbers is needed otherwise: the statement holds for IEEE doubles bit by bit. *)
Theorem C05_generated_code_computes_every_dependent :
  forall (B : Type) (O : BaseOps B) (g : heap B) (indeps : list nat) (deps : list (arg B)),
  gen_input g indeps deps -> branches_ok g deps ->
  forall fuel o ge, generateCode g fuel o indeps deps noNames = Done ge ->
  forall (env : nat -> nat -> B) (sol : nat -> option B) (m : mem),
  solves env g sol ->
  (forall p i, nth_error indeps p = Some i -> m (LX p) = sol i) ->
  (o_aop o = AAdd -> (forall x : B, badd b0 x = x) /\ forall i, i < length deps -> starts_at_zero g deps o m i) ->
  forall i a v, nth_error deps i = Some a -> sval sol a = Some v ->
  (forall b, a = APar b -> o_ignoreZero o = true -> bisz b = true -> b = b0 /\ starts_at_zero g deps o m i) ->
  exec m (ge_prog ge) (LY i) = Some v.
Proof.
  intros B O g indeps deps HG HB fuel o ge E env sol m HS Hx Hadd i a v Ha Hv Hz.
  destruct (generated_inv g indeps deps fuel o ge HG E) as (pl & cv & uc & vid0 & n0 & nm & PO & NM & Es & _ & _ & _).
  destruct (csolves_ex g indeps deps HG (fun p => m (LX p))) as [cs Hcs].
  assert (Hcl : forall k, starts_at_zero g deps o m k -> cleared cv o m k).
  { intros k [H|(H1 & j & Hj & Hk)]; [left; exact H|]. right. split; [exact H1|].
    eapply (queue_nonempty g indeps deps HG); [apply (po_created _ _ _ _ _ _ _ _ PO)|exact Hj|exact Hk]. }
  transitivity (sval cs a).
  - apply (source_exec g indeps deps HG pl cv uc vid0 n0 PO nm NM o fuel _ m cs Es Hcs); [|exact Ha|].
    + intros Haa. destruct (Hadd Haa) as [H1 H2]. split; [exact H1|]. intros k Hk. apply Hcl, H2, Hk.
    + intros b -> H1 H2. destruct (Hz b eq_refl H1 H2) as [H3 H4]. split; [exact H3|]. apply Hcl, H4.
  - destruct a as [j|b]; cbn [sval] in *; [|exact Hv].
    eapply (csolves_ge g indeps deps HG); [exact HB|exact HS|exact Hcs|exact Hx|apply reach_dep; eapply nth_error_In, Ha|exact Hv].
Qed.
Print Assumptions C05_generated_code_computes_every_dependent.

(** The graph of any sequence of operations on CG objects can be given to generateCode, and the generated code has,
    bit by bit, the values of the recorded graph. *)
Theorem C05_recorded_graphs_generate_their_values :
  forall (B : Type) (O : BaseOps B) (h : nat) (p : list (instr B)) (s : state B) (outs : list nat),
  Forall (handler_of h) p -> run init p = Ok s ->
  let g := s_heap s in
  let deps := map (fun r => argument (s_reg s r)) outs in
  exists F, forall fuel o, F <= fuel -> o_aop o = ASet -> o_ignoreZero o = false ->
  exists ge, generateCode g fuel o (indepNodes g) deps noNames = Done ge /\
  forall (env : nat -> nat -> B) (m : mem), (forall k, k < length (indepNodes g) -> m (LX k) = Some (env h k)) ->
  forall i r v, nth_error outs i = Some r -> cgval env g (s_reg s r) = Some v -> exec m (ge_prog ge) (LY i) = Some v.
Proof.
  intros B O h p s outs Hh E g deps.
  pose proof (record_gen_input h p s outs Hh E) as HG. fold g deps in HG.
  destruct (C05_generation_always_ends_with_a_program B O g (indepNodes g) deps HG) as [F HF].
  exists F. intros fuel o Hf Hset Hign. destruct (HF fuel o Hf) as [ge Ege]. exists ge. split; [exact Ege|].
  intros env m Hx i r v Hr Hv.
  assert (W : wf_heap g).
  { destruct (run_SI false p init s) as [[W _] _]; [discriminate|apply init_SI|exact E|]. exact W. }
  apply (C05_generated_code_computes_every_dependent B O g (indepNodes g) deps HG (record_branches h p s outs Hh E)
    fuel o ge Ege env (denote env g) m (denote_solves env g W)) with (a := argument (s_reg s r)).
  - intros k j Hj. transitivity (Some (env h k)); [|symmetry; exact (record_indep h p s env Hh E k j Hj)]. apply Hx. apply nth_error_Some. congruence.
  - congruence.
  - unfold deps. rewrite nth_error_map, Hr. reflexivity.
  - unfold cgval in Hv. destruct (s_reg s r); exact Hv.
  - intros b _ Hb. congruence.
Qed.
Print Assumptions C05_recorded_graphs_generate_their_values.

(** From the operations on CG objects to the results of the generated code, for an exact number type. *)
Theorem C05_operations_to_generated_code :
  forall (B : Type) (O : BaseOps B), BaseLaws B ->
  forall (h : nat) (p : list (instr B)) (s : state B) (outs : list nat),
  Forall (handler_of h) p -> run init p = Ok s ->
  exists F, forall fuel o, F <= fuel -> o_aop o = ASet -> o_ignoreZero o = false ->
  exists ge, generateCode (s_heap s) fuel o (indepNodes (s_heap s)) (map (fun r => argument (s_reg s r)) outs) noNames = Done ge /\
  forall (env : nat -> nat -> B) (m : mem), (forall k, k < length (indepNodes (s_heap s)) -> m (LX k) = Some (env h k)) ->
  forall i r v, nth_error outs i = Some r -> r_reg (rrun env p) r = Some v -> exec m (ge_prog ge) (LY i) = Some v.
Proof.
  intros B O L h p s outs Hh E.
  destruct (C05_recorded_graphs_generate_their_values B O h p s outs Hh E) as [F HF].
  exists F. intros fuel o H1 H2 H3. destruct (HF fuel o H1 H2 H3) as (ge & Ege & Hv). exists ge. split; [exact Ege|].
  intros env m Hx i r v Hr Hrv. eapply Hv; [exact Hx|exact Hr|].
  exact (C01_recorded_graph_has_the_value_of_the_operations B O L p s env E r v Hrv).
Qed.
Print Assumptions C05_operations_to_generated_code.

(** ** C06 *)

(** Re-use of temporaries changes nothing: when each temporary name is replaced by the statement which gave its
    value, the programs with and without re-use are the same program, in which no temporary is read before it has a
    value; and both leave the same results on every memory (whatever its initial contents). *)
Theorem C06_reuse_of_temporaries_changes_nothing :
  forall (B : Type) (O : BaseOps B) (g : heap B) (indeps : list nat) (deps : list (arg B)),
  gen_input g indeps deps ->
  forall fuel maxOps zeroDeps ignoreZero aop ge ge',
  generateCode g fuel (mkOpts maxOps true zeroDeps ignoreZero aop) indeps deps noNames = Done ge ->
  generateCode g fuel (mkOpts maxOps false zeroDeps ignoreZero aop) indeps deps noNames = Done ge' ->
  flow (ge_prog ge) = flow (ge_prog ge') /\
  (forall s, In s (flow (ge_prog ge)) -> ~ In (LV 0) (sreads s)) /\
  (forall (m : mem) i, exec m (ge_prog ge) (LY i) = exec m (ge_prog ge') (LY i)) /\
  ge_size ge <= ge_size ge'.
Proof.
  intros B O g indeps deps HG fuel maxOps zeroDeps ignoreZero aop ge ge' E E'.
  destruct (generated_inv _ _ _ _ _ _ HG E) as (pl & cv & uc & vid0 & n0 & nm & PO & NM & Es & Hsz & Hid & Huc & Hcv & Hr).
  destruct (generated_inv _ _ _ _ _ _ HG E') as (pl' & cv' & uc' & vid0' & n0' & nm' & PO' & NM' & Es' & Hsz' & Hid' & Huc' & Hcv' & Hr').
  rewrite Hid in Hid'. injection Hid' as <- <-. rewrite Huc in Huc'. injection Huc' as <-.
  cbn [o_maxOps] in Hcv, Hcv'. rewrite Hcv in Hcv'. injection Hcv' as <-.
  set (o := mkOpts maxOps true zeroDeps ignoreZero aop) in *. set (o' := mkOpts maxOps false zeroDeps ignoreZero aop) in *.
  assert (Hf : flow (ge_prog ge) = flow (ge_prog ge')).
  { destruct (flow_source g indeps deps HG cv uc n0 _ pl vid0 PO nm NM o fuel _ eq_refl Es) as (b1 & H1 & ->).
    destruct (flow_source g indeps deps HG cv uc n0 _ pl' vid0 PO' nm' NM' o' fuel _ eq_refl Es') as (b2 & H2 & ->).
    change (prefix deps cv o') with (prefix deps cv o) in *.
    change (Codegen_model.stmtOf g o') with (Codegen_model.stmtOf g o) in H2. rewrite H1 in H2. injection H2 as <-.
    rewrite (tail_same g indeps deps HG cv uc n0 pl vid0 nm o pl' nm' o' PO NM PO' NM' eq_refl). reflexivity. }
  pose proof (source_defined g indeps deps HG pl cv uc vid0 n0 PO nm NM o fuel _ Es) as Hd.
  split; [exact Hf|]. split; [exact Hd|]. split.
  - intros m i. rewrite (flow_exec (ge_prog ge)); [|apply (source_plain g indeps deps HG pl cv uc vid0 n0 PO nm NM o fuel _ Es)|exact Hd].
    rewrite (flow_exec (ge_prog ge')); [|apply (source_plain g indeps deps HG pl' cv uc vid0 n0 PO' nm' NM' o' fuel _ Es')|rewrite <- Hf; exact Hd].
    rewrite Hf. reflexivity.
  - rewrite Hsz, Hsz', (proj2 (Hr' eq_refl)), (po_min _ _ _ _ _ _ _ _ PO), (po_min _ _ _ _ _ _ _ _ PO').
    pose proof (po_size _ _ _ _ _ _ _ _ PO). lia.
Qed.
Print Assumptions C06_reuse_of_temporaries_changes_nothing.

(** ** C07 *)

(** Every value is computed before it is used: a cell read by the expressions of a statement is an independent
    variable or was assigned by an earlier statement. *)
Theorem C07_every_read_follows_an_assignment :
  forall (B : Type) (O : BaseOps B) (g : heap B) (indeps : list nat) (deps : list (arg B)),
  gen_input g indeps deps ->
  forall fuel o ge, generateCode g fuel o indeps deps noNames = Done ge ->
  forall k s l, nth_error (ge_prog ge) k = Some s -> In l (sreads s) ->
  (exists p, p < length indeps /\ l = LX p) \/
  (exists k' s', k' < k /\ nth_error (ge_prog ge) k' = Some s' /\ target s' = Some l).
Proof.
  intros B O g indeps deps HG fuel o ge E k s l Hs Hl.
  destruct (generated_inv _ _ _ _ _ _ HG E) as (pl & cv & uc & vid0 & n0 & nm & PO & NM & Es & _).
  exact (source_reads g indeps deps HG pl cv uc vid0 n0 PO nm NM o fuel _ k s l Es Hs Hl).
Qed.
Print Assumptions C07_every_read_follows_an_assignment.

Definition isY (l : loc) : bool := match l with LY _ => true | _ => false end.

(** Every dependent is assigned exactly once (except the constant zeros left out by request); independents never;
    every temporary is inside the declared array; without re-use every temporary is assigned once. *)
Theorem C07_every_dependent_is_assigned_exactly_once :
  forall (B : Type) (O : BaseOps B) (g : heap B) (indeps : list nat) (deps : list (arg B)),
  gen_input g indeps deps ->
  forall fuel o ge, generateCode g fuel o indeps deps noNames = Done ge ->
  NoDup (filter isY (targets (ge_prog ge))) /\
  (forall i a, nth_error deps i = Some a ->
     In (LY i) (targets (ge_prog ge)) <-> ~ (exists b, a = APar b /\ o_ignoreZero o = true /\ bisz b = true)) /\
  (forall l, In l (targets (ge_prog ge)) -> match l with LX _ => False | LY i => i < length deps | LV v => v < ge_size ge end) /\
  (o_reuse o = false -> NoDup (targets (ge_prog ge))).
Proof.
  intros B O g indeps deps HG fuel o ge E.
  destruct (generated_inv _ _ _ _ _ _ HG E) as (pl & cv & uc & vid0 & n0 & nm & PO & NM & Es & Hsz & _ & _ & _ & Hr).
  split; [|split; [|split]].
  - apply (source_targets g indeps deps HG pl cv uc vid0 n0 PO nm NM o fuel _ isY Es). discriminate.
  - intros i a Ha. exact (source_target_y g indeps deps HG pl cv uc vid0 n0 PO nm NM o fuel _ i a Es Ha).
  - intros [p|i|v] Hl.
    + exact (source_target_x g indeps deps HG pl cv uc vid0 n0 PO nm NM o fuel _ p Es Hl).
    + exact (source_target_lt g indeps deps HG pl cv uc vid0 n0 PO nm NM o fuel _ i Es Hl).
    + rewrite Hsz. exact (source_bound g indeps deps HG pl cv uc vid0 n0 PO nm NM o fuel _ v Es Hl).
  - intros H. replace (targets (ge_prog ge)) with (filter (fun _ => true) (targets (ge_prog ge))).
    + apply (source_targets g indeps deps HG pl cv uc vid0 n0 PO nm NM o fuel _ (fun _ => true) Es). intros _ _. apply Hr, H.
    + generalize (targets (ge_prog ge)). induction l as [|x l IH]; [reflexivity|]. cbn [filter]. rewrite IH. reflexivity.
Qed.
Print Assumptions C07_every_dependent_is_assigned_exactly_once.

(** A shared operation is written once: the operations in the text are the operations of pairwise different nodes
    needed by the dependents. *)
Theorem C07_every_operation_is_written_at_most_once :
  forall (B : Type) (O : BaseOps B) (g : heap B) (indeps : list nat) (deps : list (arg B)),
  gen_input g indeps deps ->
  forall fuel o ge, generateCode g fuel o indeps deps noNames = Done ge ->
  exists nodes, NoDup nodes /\ (forall n, In n nodes -> reach g deps n) /\
    Forall2 (fun n op => has_op g n op) nodes (flat_map sopl (ge_prog ge)).
Proof.
  intros B O g indeps deps HG fuel o ge E.
  destruct (generated_inv _ _ _ _ _ _ HG E) as (pl & cv & uc & vid0 & n0 & nm & PO & NM & Es & _).
  destruct (gi_acyclic _ _ _ HG) as [r Hr].
  destruct (source_written g indeps deps HG pl cv uc vid0 n0 PO nm NM o r Hr fuel _ Es) as (L & E1 & N1 & I1).
  exists L. split; [exact N1|]. split; [exact I1|]. rewrite E1. clear - I1 HG. induction L as [|n L IH]; [constructor|].
  cbn [map]. constructor; [apply (opc_has_op g indeps deps HG), I1; left; reflexivity|]. apply IH. intros; apply I1; right; assumption.
Qed.
Print Assumptions C07_every_operation_is_written_at_most_once.

(** ** A concrete model which meets the hypotheses: the recorded graph of [ex_prog] (CGArith_thm), which shares
    operations and has a conditional, with a dependent requested twice, an independent and a constant as dependents *)
Definition ex_state : state Qc := match run init ex_prog with Ok s => s | Throw => init end.
Definition ex_outs : list nat := [9; 4; 14; 9; 0; 6].
Definition ex_deps : list (arg Qc) := map (fun r => argument (s_reg ex_state r)) ex_outs.
Definition ex_opts (reuse : bool) : options := mkOpts 2 reuse false false ASet.
Definition ex_gen (reuse : bool) : generated Qc :=
  match generateCode (s_heap ex_state) 200 (ex_opts reuse) (indepNodes (s_heap ex_state)) ex_deps noNames with
  | Done ge => ge | _ => mkGenerated [] 0 noNames end.
Definition ex_mem : @mem Qc := fun l => match l with LX 0 => Some (Q2Qc (3#1)) | LX 1 => Some (Q2Qc (4#1)) | _ => None end.

Example ex_prog_recorded : run init ex_prog = Ok ex_state /\ Forall (handler_of 7) ex_prog.
Proof.
  split; [|repeat constructor]. unfold ex_state. destruct (run init ex_prog) eqn:E; [reflexivity|]. vm_compute in E. discriminate.
Qed.
Example C05_ex : gen_input (s_heap ex_state) (indepNodes (s_heap ex_state)) ex_deps /\ branches_ok (s_heap ex_state) ex_deps /\
  (forall r, generateCode (s_heap ex_state) 200 (ex_opts r) (indepNodes (s_heap ex_state)) ex_deps noNames = Done (ex_gen r)) /\
  length (ge_prog (ex_gen true)) = 8 /\ ge_size (ex_gen true) = 1 /\ ge_size (ex_gen false) = 2 /\
  exec ex_mem (ge_prog (ex_gen true)) (LY 3) = Some (Q2Qc (9#2)).
Proof.
  destruct ex_prog_recorded as [E H].
  split; [exact (record_gen_input 7 ex_prog ex_state ex_outs H E)|].
  split; [exact (record_branches 7 ex_prog ex_state ex_outs H E)|].
  split; [|split; [|split; [|split]]].
  - intros [|]; unfold ex_gen; destruct (generateCode _ _ _ _ _ _) eqn:Eg; try reflexivity; vm_compute in Eg; discriminate.
  - vm_compute. reflexivity.
  - vm_compute. reflexivity.
  - vm_compute. reflexivity.
  - vm_compute. reflexivity.
Qed.

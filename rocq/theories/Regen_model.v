(** * Several generations from one handler

    Models what CodeHandler keeps between calls of generateCode: the operation nodes and their names, the list of
    independent variables, the side tables (_varId, _totalUseCount, _operationCount, _evaluationOrder,
    _lastUsageOrder) and the flag _used (include/cppad/cg/code_handler.hpp 56-145).
    The generation itself is the one of Codegen_model.v, started from the tables the handler holds.

    Simplifications: those of Codegen_model.v; nodes are only added (deleteManagedNodes and the alignment of the
    tables are in Tables_model.v), so a table is a function from positions whose value outside of the array is the
    zero that adjustSize (code_handler_vector.hpp 99-105) would put there; a generation which fails ends the history. *)
From Coq Require Import List Bool Arith.
From Verif Require Import Graph_model Codegen_model.
Import ListNotations.

(** the side tables of CodeHandler (code_handler.hpp 74-100) *)
Record tabs : Type := mkTabs {
  t_vid : nat -> nat;      (* _varId *)
  t_uc : nat -> nat;       (* _totalUseCount *)
  t_opc : nat -> nat;      (* _operationCount *)
  t_ord : nat -> nat;      (* _evaluationOrder *)
  t_last : nat -> nat      (* _lastUsageOrder *)
}.
Definition tabs0 : tabs := mkTabs (fun _ => 0) (fun _ => 0) (fun _ => 0) (fun _ => 0) (fun _ => 0).

Section Regen.
Context {B : Type} {O : BaseOps B}.

(** reduceTemporaryVariables (code_handler_impl.hpp 1636-1713) with the last uses the table starts with *)
Definition reduceFrom (g : heap B) (fuel minTmp : nat) (depNodes : list nat) (vid : nat -> nat) (r : ros) (last : nat -> nat)
  : outcome ((nat -> nat) * nat * ros * (nat -> nat)) :=
  obind (reorderOperations g fuel minTmp vid depNodes r) (fun r =>
  obind (ofold (lastUsageForDep g fuel (snd r)) depNodes (mkLu (fun _ => false) last true)) (fun lu =>
    if negb (l_ok lu) then Fuel
    else if existsb (fun v => isTemporary minTmp vid v && Nat.eqb (l_last lu v) 0) (fst r) then Bad
    else let '(vid, _, next) := redefine minTmp (l_last lu) (fst r) (fst r) 0 (vid, [], minTmp) in
         Done (vid, next, r, l_last lu))).

(** the planning part of generateCode (code_handler_impl.hpp 317-410) from given tables, and the tables it leaves *)
Definition planFrom (g : heap B) (fuel : nat) (o : options) (indeps : list nat) (deps : list (arg B)) (t : tabs)
  : outcome (plan * tabs) :=
  let dn := anodes deps in
  let (vid0, n0) := depIds dn (indepIds indeps (t_vid t, 1)) in
  obind (ofold (markCodeBlockUsed g fuel) dn (t_uc t)) (fun uc =>
  obind (ofold (createForDep g fuel (o_maxOps o) uc) dn (mkCv vid0 n0 (t_opc t) (fun _ => false) [])) (fun cv =>
  obind (setOrders g fuel (c_q cv) 0 (t_ord t)) (fun ord =>
  if o_reuse o
  then obind (reduceFrom g fuel n0 dn (c_vid cv) (c_q cv, ord) (t_last t)) (fun r =>
         let '(vid, next, (vo, ord), last) := r in
         Done (mkPlan vid n0 next vo uc, mkTabs vid uc (c_opc cv) ord last))
  else Done (mkPlan (c_vid cv) n0 (c_next cv) (c_q cv) uc, mkTabs (c_vid cv) uc (c_opc cv) ord (t_last t))))).

Record handler : Type := mkHandler {
  h_heap : heap B;                   (* _codeBlocks *)
  h_indeps : list nat;               (* _independentVariables *)
  h_used : bool;                     (* _used *)
  h_tabs : tabs;
  h_names : nat -> option loc        (* OperationNode::name_ *)
}.

(** CodeHandler::CodeHandler (code_handler_impl.hpp 22-60) *)
Definition newHandler : handler := mkHandler [] [] false tabs0 (fun _ => None).

(** the calls: a new node (makeNode 524-600; an independent variable is also put in the list, makeVariable 83-95),
    generateCode, reset *)
Inductive call : Type :=
 | KNode (n : node B)
 | KGenerate (fuel : nat) (o : options) (deps : list (arg B))
 | KReset.

Definition isIndepNode (n : node B) : bool := match n_op n with GInv _ => true | _ => false end.

(** adding a node: it has no name yet *)
Definition addNode (n : node B) (h : handler) : handler :=
  let p := length (h_heap h) in
  mkHandler (h_heap h ++ [n]) (if isIndepNode n then h_indeps h ++ [p] else h_indeps h) (h_used h) (h_tabs h)
            (upd (h_names h) p None).

(** generateCode (264-475): the tables are filled with zeros only when the handler was used before (312-315,
    resetManagedNodes 2158-2168) *)
Definition generate (fuel : nat) (o : options) (deps : list (arg B)) (h : handler) : outcome (handler * generated B) :=
  let t := if h_used h then tabs0 else h_tabs h in
  obind (planFrom (h_heap h) fuel o (h_indeps h) deps t) (fun r =>
  let (pl, t') := r : plan * tabs in
  let nm := allNames (h_heap h) (h_indeps h) deps pl (h_names h) in
  obind (source (h_heap h) o (h_indeps h) deps pl nm fuel) (fun s =>
  let ge := mkGenerated s (p_next pl - p_minTmp pl)
             (fun i => if existsb (Nat.eqb i) (p_vo pl) then varName (h_heap h) (h_indeps h) deps pl nm i else nm i) in
  Done (mkHandler (h_heap h) (h_indeps h) true t' (ge_names ge), ge))).

(** CodeHandler::reset (493-507): the nodes are deleted, _used becomes false, the tables are not touched *)
Definition reset (h : handler) : handler := mkHandler [] [] false (h_tabs h) (fun _ => None).

(** a history of calls, with the code of each generation *)
Fixpoint runCalls (l : list call) (h : handler) : outcome (handler * list (generated B)) :=
  match l with
  | [] => Done (h, [])
  | KNode n :: l => runCalls l (addNode n h)
  | KReset :: l => runCalls l (reset h)
  | KGenerate fuel o deps :: l =>
      obind (generate fuel o deps h) (fun r =>
      obind (runCalls l (fst r)) (fun r' => Done (fst r', snd r :: snd r')))
  end.
End Regen.
Arguments handler B : clear implicits.
Arguments call B : clear implicits.

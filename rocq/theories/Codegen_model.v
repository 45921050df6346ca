(** * generateCode for scalar operation graphs

    Models CodeHandler::generateCode (include/cppad/cg/code_handler_impl.hpp 264-475) and
    LanguageC::generateSourceCode (include/cppad/cg/lang/c/language_c.hpp 663-960) for graphs made of the scalar
    operations of Graph_model.v.

    Simplifications (they hold for the whole file):
    - no loops, index operations, arrays, atomic functions, print operations: there is one scope, so all the scope
      bookkeeping of markCodeBlockUsed/addToEvaluationQueue is dropped;
    - the CodeHandlerVectors (_varId, _totalUseCount, _evaluationOrder, _lastUsageOrder, _operationCount and the
      visit colours) are functions from node positions;
    - the "while(!stack.empty())" navigation loops take fuel; running out of fuel is the distinct outcome [Fuel];
    - a null pointer dereference, or a failed assertion, is the distinct outcome [Bad];
    - the C text of an assignment is kept as an expression tree ([cx]); its printing is modelled in CPrint_model.v;
    - variable names are the array cells that LangCDefaultVariableNameGenerator produces. *)
From Coq Require Import List Bool Arith.
From Verif Require Import Graph_model.
Import ListNotations.

Inductive outcome (A : Type) : Type := Done (a : A) | Fuel | Bad.
Arguments Done {A} a.
Arguments Fuel {A}.
Arguments Bad {A}.

Definition obind {A C} (x : outcome A) (f : A -> outcome C) : outcome C :=
  match x with Done a => f a | Fuel => Fuel | Bad => Bad end.

(** CodeHandlerVector::operator[] assignment (code_handler_vector.hpp 60-120) *)
Definition upd {A} (f : nat -> A) (i : nat) (v : A) : nat -> A := fun j => if Nat.eqb j i then v else f j.

(** ** Graph navigation: operation_stack.hpp *)

(** StackNavigationStep (operation_stack.hpp 24-28) *)
Inductive nstep : Set := Analyze | ChildrenVisited | Exit.

(** OperationStackData (operation_stack.hpp 35-80): the parent and the argument position are replaced by the
    parent's position ([None]: the fake super root of lines 185-189) and the node itself. *)
Record el : Set := mkEl { el_par : option nat; el_node : nat; el_step : nstep }.

(** depthFirstGraphNavigation, version with post processing (operation_stack.hpp 177-215).  [pre] returns the new
    state, the elements to push (top of the stack first) and whether post processing is required. *)
Section Dfs.
Context {St : Type}.
Variable pre : option nat -> nat -> St -> outcome (St * list el * bool).
Variable post : option nat -> nat -> St -> St.
Fixpoint dfs (fuel : nat) (stack : list el) (st : St) : outcome St :=
  match fuel with
  | 0 => Fuel
  | S fuel =>
    match stack with
    | [] => Done st
    | e :: rest =>
      match el_step e with
      | Analyze =>
        match pre (el_par e) (el_node e) st with
        | Done (st', pushed, complete) =>
            dfs fuel (pushed ++ mkEl (el_par e) (el_node e) (if complete then ChildrenVisited else Exit) :: rest) st'
        | Fuel => Fuel
        | Bad => Bad
        end
      | ChildrenVisited => dfs fuel rest (post (el_par e) (el_node e) st)
      | Exit => dfs fuel rest st
      end
    end
  end.
End Dfs.

(** depthFirstGraphNavigation, simple version (operation_stack.hpp 230-250): elements are popped before they are
    analysed. *)
Section Sdfs.
Context {St : Type}.
Variable an : option nat -> nat -> St -> St * list (option nat * nat).
Fixpoint sdfs (fuel : nat) (stack : list (option nat * nat)) (st : St) : outcome St :=
  match fuel with
  | 0 => Fuel
  | S fuel =>
    match stack with
    | [] => Done st
    | (p, i) :: rest => let (st', pushed) := an p i st in sdfs fuel (pushed ++ rest) st'
    end
  end.
End Sdfs.

Section Gen.
Context {B : Type} {O : BaseOps B}.

(** memory cells of the generated code: x[p], y[i], v[k] *)
Inductive loc : Set := LX (p : nat) | LY (i : nat) | LV (k : nat).

(** right hand sides: variable names, parameters, operations *)
Inductive cx : Type := XLoc (l : loc) | XPar (b : B) | XOp (o : gop) (a : list cx).

(** assignment operator of dependents (LanguageC::setDependentAssignOperation, language_c.hpp 230-240) *)
Inductive aop : Set := ASet | AAdd.

Inductive stmt : Type :=
 | SZero (m : nat)                            (* for(i = 0; i < m; i++) y[i] = 0; *)
 | SAssign (l : loc) (a : aop) (e : cx)
 | SCond (c : cmp) (l r : cx) (t : loc) (a : aop) (e1 e2 : cx).   (* if( l c r ) { t a e1; } else { t a e2; } *)

Variable g : heap B.

(** OperationNode::getOperationType; positions outside of the managed nodes do not exist in C++. *)
Definition opc (i : nat) : gop := match nth_error g i with Some n => n_op n | None => GAdd end.
Definition gargs (i : nat) : list (arg B) := match nth_error g i with Some n => n_args n | None => [] end.

Fixpoint anodes (l : list (arg B)) : list nat :=
  match l with [] => [] | ANode j :: l' => j :: anodes l' | APar _ :: l' => anodes l' end.
(** the arguments which are operation nodes, in order *)
Definition nargs (i : nat) : list nat := anodes (gargs i).

Definition isInv (i : nat) : bool := match opc i with GInv _ => true | _ => false end.
Definition isAlias (i : nat) : bool := match opc i with GAlias => true | _ => false end.
Definition isSign (i : nat) : bool := match opc i with GSign => true | _ => false end.
Definition isCom (i : nat) : bool := match opc i with GCom _ => true | _ => false end.
Definition isAssign (i : nat) : bool := match opc i with GAssign => true | _ => false end.

(** OperationStack::pushNodeArguments (operation_stack.hpp 128-139): pushed in reverse, so the first argument ends
    on the top of the stack. *)
Definition pushArgs (i : nat) : list el := map (fun j => mkEl (Some i) j Analyze) (nargs i).
Definition spushArgs (i : nat) : list (option nat * nat) := map (fun j => (Some i, j)) (nargs i).

(** ** Use counts: markCodeBlockUsed (code_handler_impl.hpp 738-924) *)
Definition markPre (p : option nat) (i : nat) (uc : nat -> nat) : outcome ((nat -> nat) * list el * bool) :=
  let uc := upd uc i (S (uc i)) in                                  (* increaseTotalUsageCount, 745 *)
  if isInv i then Done (uc, [], false)                              (* 748-749 *)
  else if isAlias i then                                            (* 751-759: always followed *)
    match gargs i with
    | [ANode j] => Done (uc, [mkEl (Some i) j Analyze], false)
    | _ => Bad                                                      (* node() dereferences a null pointer *)
    end
  else if Nat.eqb (uc i) 1 then Done (uc, pushArgs i, true)         (* 761-812 *)
  else Done (uc, [], false).                                        (* 814-867 *)

Definition markPost (p : option nat) (i : nat) (uc : nat -> nat) : nat -> nat := uc.

Definition markCodeBlockUsed (fuel : nat) (i : nat) (uc : nat -> nat) : outcome (nat -> nat) :=
  dfs markPre markPost fuel [mkEl None i Analyze] uc.

(** ** Variable creation: checkVariableCreation (code_handler_impl.hpp 1444-1609) *)

(** LanguageC::createsNewVariable (language_c.hpp 1091-1115), scalar operations only *)
Definition createsNewVariable (maxOps : nat) (i : nat) (useCount opCount : nat) : bool :=
  if Nat.ltb 1 useCount then true
  else isCom i || isAssign i || Nat.leb maxOps opCount.

(** LanguageC::requiresVariableArgument (language_c.hpp 1166-1168), scalar operations only *)
Definition requiresVariableArgument (p : option nat) : bool :=
  match p with Some i => isSign i | None => false end.

Record cvst : Type := mkCv {
  c_vid : nat -> nat;       (* _varId *)
  c_next : nat;             (* _idCount *)
  c_opc : nat -> nat;       (* _operationCount *)
  c_vis : nat -> bool;      (* isVisited *)
  c_q : list nat            (* _scopedVariableOrder[0] *)
}.

Definition cvPre (p : option nat) (i : nat) (st : cvst) : outcome (cvst * list el * bool) :=
  if c_vis st i then Done (st, [], false) else Done (st, pushArgs i, true).

(** operations required to compute the node (1553-1563) *)
Definition countOps (st : cvst) (i : nat) : nat :=
  fold_left (fun s n => if Nat.eqb (c_vid st n) 0 then s + c_opc st n else s) (nargs i) 1.

Definition cvMark (i : nat) (st : cvst) : cvst :=
  mkCv (c_vid st) (c_next st) (c_opc st) (upd (c_vis st) i true) (c_q st).

(** addToEvaluationQueue (1612-1633), single scope *)
Definition addToQueue (i : nat) (st : cvst) : cvst :=
  mkCv (c_vid st) (c_next st) (c_opc st) (c_vis st) (c_q st ++ [i]).

Definition cvPost (maxOps : nat) (uc : nat -> nat) (p : option nat) (i : nat) (st : cvst) : cvst :=
  if c_vis st i then st                                                        (* 1461-1463 *)
  else if Nat.eqb (c_vid st i) 0 || negb (isInv i) then                        (* 1512 *)
    if isAlias i then st                                                       (* 1519-1520: not marked *)
    else
      let n := countOps st i in
      let st := mkCv (c_vid st) (c_next st) (upd (c_opc st) i n) (c_vis st) (c_q st) in
      if createsNewVariable maxOps i (uc i) n || requiresVariableArgument p then  (* 1566-1567 *)
        let st := addToQueue i st in
        let st := if Nat.eqb (c_vid st i) 0                                    (* 1571-1593 *)
                  then mkCv (upd (c_vid st) i (c_next st)) (S (c_next st)) (c_opc st) (c_vis st) (c_q st)
                  else st in
        cvMark i st
      else cvMark i st
  else cvMark i st.

Definition checkVariableCreation (fuel maxOps : nat) (uc : nat -> nat) (root : nat) (st : cvst) : outcome cvst :=
  dfs cvPre (cvPost maxOps uc) fuel (pushArgs root) st.

(** one dependent of the loop at code_handler_impl.hpp 352-369 *)
Definition createForDep (fuel maxOps : nat) (uc : nat -> nat) (i : nat) (st : cvst) : outcome cvst :=
  obind (if c_vis st i then Done st
         else obind (checkVariableCreation fuel maxOps uc i st) (fun st =>
                Done (if (Nat.eqb (c_vid st i) 0 || negb (isInv i)) && negb (c_vis st i)
                      then addToQueue i st else st)))
        (fun st => Done (cvMark i st)).

(** iteration over the dependents which have a node *)
Fixpoint ofold {A} (f : nat -> A -> outcome A) (l : list nat) (a : A) : outcome A :=
  match l with [] => Done a | i :: l' => obind (f i a) (ofold f l') end.

(** ** Evaluation order (code_handler_impl.hpp 393-397, 1970-1986) *)
Definition depAddedAn (p : option nat) (i : nat) (ord : nat -> nat) : (nat -> nat) * list (option nat * nat) :=
  if Nat.eqb (ord i) 0
  then (upd ord i (match p with Some q => ord q | None => 0 end), spushArgs i)
  else (ord, []).

Definition dependentAdded (fuel root : nat) (ord : nat -> nat) : outcome (nat -> nat) :=
  sdfs depAddedAn fuel (spushArgs root) ord.

Fixpoint setOrders (fuel : nat) (vo : list nat) (p : nat) (ord : nat -> nat) : outcome (nat -> nat) :=
  match vo with
  | [] => Done ord
  | i :: vo' => obind (dependentAdded fuel i (upd ord i (S p))) (setOrders fuel vo' (S p))
  end.

(** ** Re-use of temporary variables *)

(** isTemporary (2057-2076) for scalar operations *)
Definition isTemporary (minTmp : nat) (vid : nat -> nat) (i : nat) : bool := Nat.leb minTmp (vid i).

(** findLastTemporaryLocation (1809-1853) *)
Definition findLastAn (ord : nat -> nat) (depOrder : nat) (p : option nat) (i : nat) (m : nat)
  : nat * list (option nat * nat) :=
  fold_left (fun acc j => let (m, st) := acc : nat * list (option nat * nat) in
               if Nat.eqb (ord j) depOrder then (m, (Some i, j) :: st)
               else ((if Nat.ltb m (ord j) then ord j else m), st))
            (nargs i) (m, []).
Definition findLastTemporaryLocation (fuel : nat) (ord : nat -> nat) (root : nat) : outcome nat :=
  sdfs (findLastAn ord (ord root)) fuel [(None, root)] (ord root).

(** updateEvaluationQueueOrder (1989-2009): [spushArgs arg], as in line 2003 *)
Definition updOrderAn (newOrd : nat) (p : option nat) (i : nat) (ord : nat -> nat)
  : (nat -> nat) * list (option nat * nat) :=
  let old := ord i in
  let ord := upd ord i newOrd in
  (ord, fold_left (fun st j => if Nat.eqb (ord j) old then spushArgs j ++ st else st) (nargs i) []).
Definition updateOrder (fuel root newOrd : nat) (ord : nat -> nat) : outcome (nat -> nat) :=
  sdfs (updOrderAn newOrd) fuel [(None, root)] ord.

Definition ros : Type := (list nat * (nat -> nat))%type.   (* _variableOrder, _evaluationOrder *)

Definition setAt (l : list nat) (k v : nat) : list nat := firstn k l ++ v :: skipn (S k) l.

(** repositionEvaluationQueue (1856-1870); [n] counts the positions still to be moved, starting at [from-1] *)
Fixpoint reposLoop (fuel n l : nat) (st : ros) : outcome ros :=
  match n with
  | 0 => Done st
  | S n => let (vo, ord) := st in
           let x := nth (l - 1) vo 0 in
           obind (updateOrder fuel x (S l) ord) (fun ord => reposLoop fuel n (l - 1) (setAt vo l x, ord))
  end.
Definition reposition (fuel from to : nat) (st : ros) : outcome ros :=
  let x := nth (from - 1) (fst st) 0 in
  obind (reposLoop fuel (from - to) (from - 1) st) (fun st =>
    obind (updateOrder fuel x to (snd st)) (fun ord => Done (setAt (fst st) (to - 1) x, ord))).

(** search of the first temporary between two positions (1764-1800), no scopes *)
Fixpoint firstTemp (minTmp : nat) (vid : nat -> nat) (vo : list nat) (l n : nat) : option nat :=
  match n with
  | 0 => None
  | S n => if isTemporary minTmp vid (nth (l - 1) vo 0) then Some l else firstTemp minTmp vid vo (S l) n
  end.

(** reorderOperation (1742-1806) *)
Definition reorderOperation (fuel minTmp : nat) (vid : nat -> nat) (i : nat)
   (st : (nat -> bool) * ros) : outcome ((nat -> bool) * ros) :=
  let (vis, r) := st in
  let ord := snd r in
  let depPos := ord i in
  obind (if vis i then Done depPos else findLastTemporaryLocation fuel ord i) (fun lastTmp =>
    let vis := upd vis i true in
    if Nat.eqb lastTmp depPos || Nat.eqb (S lastTmp) depPos then Done (vis, r)
    else match firstTemp minTmp vid (fst r) (S lastTmp) (depPos - S lastTmp) with
         | None => Done (vis, r)
         | Some newPos => obind (reposition fuel depPos newPos r) (fun r => Done (vis, r))
         end).

Definition reorderOperations (fuel minTmp : nat) (vid : nat -> nat) (depNodes : list nat) (r : ros) : outcome ros :=
  obind (ofold (reorderOperation fuel minTmp vid) depNodes (fun _ => false, r)) (fun st => Done (snd st)).

(** getOperationFromAlias (2089-2100): [None] is the null pointer; fuel bounds the length of the alias chain *)
Fixpoint fromAlias (fuel i : nat) : outcome (option nat) :=
  match fuel with
  | 0 => Fuel
  | S fuel =>
    if isAlias i then match gargs i with
                      | ANode j :: _ => fromAlias fuel j
                      | _ => Done None
                      end
    else Done (Some i)
  end.

(** determineLastTempVarUsage (1873-1967), without loops.  State: visited and _lastUsageOrder. *)
Record lust : Type := mkLu { l_vis : nat -> bool; l_last : nat -> nat; l_ok : bool }.

Definition luPre (p : option nat) (i : nat) (st : lust) : outcome (lust * list el * bool) :=
  let vis := upd (l_vis st) i true in
  (* 1895-1905: emplaced in order, so the last one ends on the top *)
  Done (mkLu vis (l_last st) (l_ok st),
        rev (map (fun j => mkEl (Some i) j Analyze) (filter (fun j => negb (vis j)) (nargs i))), true).

Definition luArg (fuel order : nat) (st : lust) (j : nat) : lust :=
  match fromAlias fuel j with
  | Done (Some aa) =>
      if Nat.ltb (l_last st aa) order then mkLu (l_vis st) (upd (l_last st) aa order) (l_ok st) else st
  | Done None => st
  | _ => mkLu (l_vis st) (l_last st) false      (* alias cycle: does not terminate in C++ *)
  end.
Definition luPost (fuel : nat) (ord : nat -> nat) (p : option nat) (i : nat) (st : lust) : lust :=
  fold_left (luArg fuel (ord i)) (nargs i) st.

Definition lastUsageForDep (fuel : nat) (ord : nat -> nat) (i : nat) (st : lust) : outcome lust :=
  obind (if l_vis st i then Done st else dfs luPre (luPost fuel ord) fuel [mkEl None i Analyze] st)
        (fun st => Done (mkLu (upd (l_vis st) i true) (l_last st) (l_ok st))).

(** where temporary variables can be released (1657-1664): the variables released at position i, in order *)
Definition releasedAt (minTmp : nat) (vid last : nat -> nat) (vo : list nat) (i : nat) : list nat :=
  filter (fun v => isTemporary minTmp vid v && Nat.eqb (last v) (S i)) vo.

(** redefinition of the temporary variable IDs (1675-1709); freed identifiers are a stack *)
Fixpoint redefine (minTmp : nat) (last : nat -> nat) (vo todo : list nat) (i : nat)
   (st : (nat -> nat) * list nat * nat) : (nat -> nat) * list nat * nat :=
  match todo with
  | [] => st
  | v :: todo' =>
    let '(vid, freed, next) := st in
    let freed := rev (map vid (releasedAt minTmp vid last vo i)) ++ freed in
    let st := if isTemporary minTmp vid v
              then match freed with
                   | [] => (upd vid v next, [], S next)
                   | id :: freed' => (upd vid v id, freed', next)
                   end
              else (vid, freed, next) in
    redefine minTmp last vo todo' (S i) st
  end.

(** reduceTemporaryVariables (1636-1713).  A temporary without a last use would index tempVarRelease out of
    bounds (1661-1662): [Bad]. *)
Definition reduceTemporaryVariables (fuel minTmp : nat) (depNodes : list nat) (vid : nat -> nat) (next : nat) (r : ros)
  : outcome ((nat -> nat) * nat * ros) :=
  obind (reorderOperations fuel minTmp vid depNodes r) (fun r =>
  obind (ofold (lastUsageForDep fuel (snd r)) depNodes (mkLu (fun _ => false) (fun _ => 0) true)) (fun lu =>
    if negb (l_ok lu) then Fuel
    else if existsb (fun v => isTemporary minTmp vid v && Nat.eqb (l_last lu v) 0) (fst r) then Bad
    else let '(vid, _, next) := redefine minTmp (l_last lu) (fst r) (fst r) 0 (vid, [], minTmp) in
         Done (vid, next, r))).

(** ** The whole generation *)

Record options : Type := mkOpts {
  o_maxOps : nat;          (* _maxOperationsPerAssignment, language_c.hpp 110 *)
  o_reuse : bool;          (* _reuseIDs *)
  o_zeroDeps : bool;       (* _zeroDependents *)
  o_ignoreZero : bool;     (* _ignoreZeroDepAssign *)
  o_aop : aop              (* _depAssignOperation *)
}.

(** variable identifiers of independents and dependents (320-333) *)
Fixpoint indepIds (l : list nat) (st : (nat -> nat) * nat) : (nat -> nat) * nat :=
  match l with [] => st | i :: l' => let (vid, n) := st in indepIds l' (upd vid i n, S n) end.
Fixpoint depIds (l : list nat) (st : (nat -> nat) * nat) : (nat -> nat) * nat :=
  match l with
  | [] => st
  | i :: l' => let (vid, n) := st in depIds l' (if Nat.eqb (vid i) 0 then (upd vid i n, S n) else (vid, n))
  end.

(** what the language generator gets: LanguageGenerationData (language_generation_data.hpp 30-120) *)
Record plan : Type := mkPlan {
  p_vid : nat -> nat;
  p_minTmp : nat;
  p_next : nat;
  p_vo : list nat;
  p_uc : nat -> nat
}.

Definition makePlan (fuel : nat) (o : options) (indeps : list nat) (deps : list (arg B)) : outcome plan :=
  let dn := anodes deps in
  let (vid0, n0) := depIds dn (indepIds indeps (fun _ => 0, 1)) in
  obind (ofold (markCodeBlockUsed fuel) dn (fun _ => 0)) (fun uc =>
  obind (ofold (createForDep fuel (o_maxOps o) uc) dn (mkCv vid0 n0 (fun _ => 0) (fun _ => false) [])) (fun cv =>
  obind (setOrders fuel (c_q cv) 0 (fun _ => 0)) (fun ord =>
  if o_reuse o
  then obind (reduceTemporaryVariables fuel n0 dn (c_vid cv) (c_next cv) (c_q cv, ord)) (fun r =>
         let '(vid, next, (vo, _)) := r in Done (mkPlan vid n0 next vo uc))
  else Done (mkPlan (c_vid cv) n0 (c_next cv) (c_q cv) uc)))).

(** *** LanguageC *)
Section Lang.
Variable o : options.
Variable indeps : list nat.
Variable deps : list (arg B).
Variable pl : plan.

(** isDependent (language_c.hpp 2075-2081) *)
Definition isDependent (i : nat) : bool :=
  Nat.ltb (length indeps) (p_vid pl i) && Nat.ltb (p_vid pl i) (p_minTmp pl).

(** requiresVariableName (language_c.hpp 1117-1137) for scalar operations *)
Definition requiresVariableName (i : nat) : bool := if Nat.ltb 1 (p_uc pl i) then true else isCom i.

(** _dependentIDs (language_c.hpp 764-781): the first dependent with the given identifier *)
Fixpoint firstDep (l : list (arg B)) (i id : nat) : option nat :=
  match l with
  | [] => None
  | ANode j :: l' => if negb (isInv j) && Nat.eqb (p_vid pl j) id then Some i else firstDep l' (S i) id
  | APar _ :: l' => firstDep l' (S i) id
  end.

(** the default names (lang_c_default_var_name_gen.hpp 93-140, createVariableName language_c.hpp 1198-1224);
    [None]: the identifier is 0 or _dependentIDs has no entry (assertion failure) *)
Definition genName (id : nat) : option loc :=
  if Nat.eqb id 0 then None
  else if Nat.leb id (length indeps) then Some (LX (id - 1))
  else if Nat.ltb id (p_minTmp pl) then match firstDep deps 0 id with Some i => Some (LY i) | None => None end
  else Some (LV (id - p_minTmp pl)).

(** names of independents (706-711), dependents (714-726) and temporaries (794-806) *)
Fixpoint nameIndeps (l : list nat) (nm : nat -> option loc) : nat -> option loc :=
  match l with
  | [] => nm
  | i :: l' => nameIndeps l' (match nm i with None => upd nm i (Some (LX (p_vid pl i - 1))) | Some _ => nm end)
  end.
Fixpoint nameDeps (l : list (arg B)) (i : nat) (nm : nat -> option loc) : nat -> option loc :=
  match l with
  | [] => nm
  | ANode j :: l' => nameDeps l' (S i) (match nm j with None => upd nm j (Some (LY i)) | Some _ => nm end)
  | APar _ :: l' => nameDeps l' (S i) nm
  end.
Fixpoint nameTemps (l : list nat) (nm : nat -> option loc) : nat -> option loc :=
  match l with
  | [] => nm
  | i :: l' => nameTemps l' (if negb (isDependent i) && requiresVariableName i
                             then upd nm i (Some (LV (p_vid pl i - p_minTmp pl))) else nm)
  end.
Definition allNames (nm : nat -> option loc) : nat -> option loc :=
  nameTemps (p_vo pl) (nameDeps deps 0 (nameIndeps indeps nm)).

Variable nm : nat -> option loc.    (* the names after [allNames] *)

(** createVariableName (1170-1229): the name is only created when there is none yet *)
Definition varName (i : nat) : option loc := match nm i with Some l => Some l | None => genName (p_vid pl i) end.

(** push / pushExpression / pushExpressionNoVarCheck (1241-1437, 1439-1694) *)
Fixpoint exprOf (fuel i : nat) : outcome cx :=
  match fuel with
  | 0 => Fuel
  | S fuel =>
    let argOf a := match a with
                   | APar b => Done (XPar b)
                   | ANode j => if Nat.eqb (p_vid pl j) 0 then exprOf fuel j
                                else match varName j with Some l => Done (XLoc l) | None => Bad end
                   end in
    match opc i, gargs i with
    | GInv _, _ => Bad           (* an independent without identifier: not printed by this route *)
    | GCom _, _ => Bad           (* handled by [stmtOf]; line 1718 asserts an identifier *)
    | GAlias, [a] => argOf a     (* 1546-1549 *)
    | GAssign, [a] => argOf a    (* 1433-1437 *)
    | GSign, [ANode j] =>        (* 1524-1544: the argument is always printed as a variable name *)
        if Nat.eqb (p_vid pl j) 0 then Bad
        else match varName j with Some l => Done (XOp GSign [XLoc l]) | None => Bad end
    | GSign, _ => Bad
    | (GFun _ | GUnMinus) as op, [a] => obind (argOf a) (fun x => Done (XOp op [x]))
    | (GAdd | GSub | GMul | GDiv | GPow) as op, [a; b] =>
        obind (argOf a) (fun x => obind (argOf b) (fun y => Done (XOp op [x; y])))
    | _, _ => Bad                (* wrong number of arguments: the assertions throw *)
    end
  end.

Definition argExpr (fuel : nat) (a : arg B) : outcome cx :=
  match a with
  | APar b => Done (XPar b)
  | ANode j => if Nat.eqb (p_vid pl j) 0 then exprOf fuel j
               else match varName j with Some l => Done (XLoc l) | None => Bad end
  end.

Definition sameArg (a b : arg B) : bool :=
  match a, b with
  | APar x, APar y => bcmp CEq x y
  | ANode i, ANode j => Nat.eqb i j
  | _, _ => false
  end.

(** printAssignment (966-1038) and pushConditionalAssignment (1717-1752) *)
Definition stmtOf (fuel i : nat) : outcome stmt :=
  match varName i with
  | None => Bad
  | Some l =>
    let a := if isDependent i then o_aop o else ASet in
    match opc i, gargs i with
    | GCom c, [x; y; t; f] =>
        if sameArg t f then obind (argExpr fuel t) (fun e => Done (SAssign l a e))
        else obind (argExpr fuel x) (fun x => obind (argExpr fuel y) (fun y =>
             obind (argExpr fuel t) (fun t => obind (argExpr fuel f) (fun f => Done (SCond c x y l a t f)))))
    | _, _ => obind (exprOf fuel i) (fun e => Done (SAssign l a e))
    end
  end.

Fixpoint omap {A C} (f : A -> outcome C) (l : list A) : outcome (list C) :=
  match l with [] => Done [] | x :: l' => obind (f x) (fun y => obind (omap f l') (fun r => Done (y :: r))) end.

(** dependents which result from the same operations as an earlier one (764-781, 888-898) *)
Fixpoint duplicates (l : list (arg B)) (i : nat) : outcome (list stmt) :=
  match l with
  | [] => Done []
  | ANode j :: l' =>
      obind (duplicates l' (S i)) (fun r =>
      if negb (isInv j) && negb (Nat.eqb (p_vid pl j) 0) &&
         negb (match firstDep deps 0 (p_vid pl j) with Some k => Nat.eqb k i | None => true end)
      then match nm j with Some n => Done (SAssign (LY i) (o_aop o) (XLoc n) :: r) | None => Bad end
      else Done r)
  | APar _ :: l' => duplicates l' (S i)
  end.

(** dependents without operations (901-923) *)
Fixpoint constants (l : list (arg B)) (i : nat) : outcome (list stmt) :=
  match l with
  | [] => Done []
  | APar b :: l' =>
      obind (constants l' (S i)) (fun r =>
      if negb (o_ignoreZero o) || negb (bisz b) then Done (SAssign (LY i) (o_aop o) (XPar b) :: r) else Done r)
  | ANode j :: l' =>
      obind (constants l' (S i)) (fun r =>
      if isInv j then match nm j with Some n => Done (SAssign (LY i) (o_aop o) (XLoc n) :: r) | None => Bad end
      else Done r)
  end.

(** generateSourceCode (663-960), without the C function around the assignments *)
Definition source (fuel : nat) : outcome (list stmt) :=
  obind (omap (stmtOf fuel) (p_vo pl)) (fun body =>
  obind (duplicates deps 0) (fun dup =>
  obind (constants deps 0) (fun cst =>
  Done ((match p_vo pl with [] => [] | _ => if o_zeroDeps o then [SZero (length deps)] else [] end)
        ++ body ++ dup ++ cst)))).
End Lang.

(** what a generation leaves behind: the assignments, the declared size of the array of temporaries
    (generateTemporaryVariableDeclaration, language_c.hpp 324-328, with the identifiers given at
    code_handler_impl.hpp 414) and the names of the nodes *)
Record generated : Type := mkGenerated { ge_prog : list stmt; ge_size : nat; ge_names : nat -> option loc }.

(** generateCode: [nm] are the names nodes already have (all [None] in a new handler).  Names after the generation:
    nodes in the evaluation queue get a name when they are assigned. *)
Definition generateCode (fuel : nat) (o : options) (indeps : list nat) (deps : list (arg B)) (nm : nat -> option loc)
  : outcome generated :=
  obind (makePlan fuel o indeps deps) (fun pl =>
  let nm := allNames indeps deps pl nm in
  obind (source o indeps deps pl nm fuel) (fun s =>
  Done (mkGenerated s (p_next pl - p_minTmp pl)
         (fun i => if existsb (Nat.eqb i) (p_vo pl) then varName indeps deps pl nm i else nm i)))).
End Gen.
Arguments cx B : clear implicits.
Arguments stmt B : clear implicits.
Arguments generated B : clear implicits.

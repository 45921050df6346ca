(** * Splitting generated code over several C functions

    Models the part of LanguageC::generateSourceCode (include/cppad/cg/lang/c/language_c.hpp 663-960) which spreads the
    assignments over functions (lines 666-667, 784-788, 810-857, 860-884, 925-959), saveLocalFunction (1048-1089) and the map
    of sources.

    Simplifications: the text of a statement is a parameter ([T]); the declarations at the start of a function are left out,
    except for the loop counter "i" (lines 374-377, 1072-1074); the comments and the #include lines are left out; a parameter of
    a function is its name; [_currentLoops] is the number of open loops. *)
From Coq Require Import List Bool Arith String.
From Verif Require Import Graph_model Codegen_model Names_model.
Import ListNotations.
Local Open Scope string_scope.
Local Open Scope list_scope.

(** what printing a node does to _currentLoops: LoopStart pushes (language_c.hpp 1904-1925), LoopEnd pops
    (1927-1935) *)
Inductive ldir : Set := LNone | LOpen | LClose.

(** A node of variableOrder (lines 814-837). *)
Inductive item (T : Type) : Type :=
| ILine (t : T) (lines : nat) (d : ldir)   (* printAssignment prints [t] and returns [lines] (835) *)
| IDeps (t : T)                            (* LoopIndexedDep: printed by printLoopIndexDeps, not counted (829-833) *)
| ISilent.                                 (* DependentRefRhs, TmpDcl: nothing is printed (825-828) *)
Arguments ILine {T} t lines d.
Arguments IDeps {T} t.
Arguments ISilent {T}.

(** A C file: text in front of the function, the parameters of the function, whether "i" is declared, and the body: statements,
    calls of local functions with their arguments, statements after the calls. *)
Record cfile (T : Type) : Type := mkFile {
  f_before : list (item T);
  f_params : list string;
  f_counter : bool;
  f_body : list (item T);
  f_calls : list (string * list string);
  f_after : list T
}.
Arguments mkFile {T} f_before f_params f_counter f_body f_calls f_after.
Arguments f_params {T} c.
Arguments f_before {T} c.
Arguments f_counter {T} c.
Arguments f_body {T} c.
Arguments f_calls {T} c.
Arguments f_after {T} c.

(** std::map<std::string, std::string>: operator[] followed by an assignment, and find *)
Definition files (T : Type) := list (string * cfile T).
Fixpoint fset {T} (k : string) (v : cfile T) (m : files T) : files T :=
  match m with
  | [] => [(k, v)]
  | (k', v') :: m' => if String.eqb k k' then (k, v) :: m' else (k', v') :: fset k v m'
  end.
Fixpoint fget {T} (k : string) (m : files T) : option (cfile T) :=
  match m with
  | [] => None
  | (k', v) :: m' => if String.eqb k k' then Some v else fget k m'
  end.

(** _functionName << "__" << (localFuncNames.size() + 1) (lines 1050-1051) *)
Definition localName (fn : string) (k : nat) : string := (fn ++ "__" ++ dec k)%string.
Definition fileName (fn : string) : string := (fn ++ ".c")%string.

(** _code, assignCount, _currentLoops.size(), localFuncNames and *_sources *)
Record sst (T : Type) : Type := mkSst {
  s_code : list (item T);
  s_count : nat;
  s_loops : nat;
  s_names : list string;
  s_src : files T
}.
Arguments mkSst {T} s_code s_count s_loops s_names s_src.
Arguments s_code {T} s.
Arguments s_count {T} s.
Arguments s_loops {T} s.
Arguments s_names {T} s.
Arguments s_src {T} s.

Section Split.
Context {T : Type}.
(** _functionName, the names of _funcArgIndexes, _maxAssignmentsPerFunction, whether arrays are used (lines 1064-1065),
    _info->zeroDependents *)
Variable fn : string.
Variable indexes : list string.
Variable limit : nat.
Variable arrays zeroDeps : bool.

(** generateDefaultFunctionArguments (489-491), with the default names (constructor, lines 126-145) *)
Definition defaultArgs : list string := ["in"; "out"; "atomicFun"].
(** funcArgDcl_ (740, generateFunctionArgumentsDcl2 460-465) *)
Definition params : list string := indexes ++ defaultArgs.
(** the temporary variables, arrays, sparse arrays and the indexes of sparse arrays *)
Definition tmpArgs : list string := ["v"; "array"; "sarray"; "idx"].
(** localFuncArgDcl_ (742-747) and localFuncArgs_ (749-753) *)
Definition localParams : list string := params ++ tmpArgs.
Definition localArgs : list string := defaultArgs ++ tmpArgs.

(** saveLocalFunction (1048-1089), and assignCount = 0 before it (lines 819, 842) *)
Definition saveLocal (s : sst T) (zeroDependentArray : bool) : sst T :=
  let name := localName fn (List.length (s_names s) + 1) in
  mkSst [] 0 (s_loops s) (s_names s ++ [name])
    (fset (fileName name) (mkFile [] localParams (arrays || zeroDependentArray) (s_code s) [] []) (s_src s)).

Definition noNamesYet (s : sst T) : bool := match s_names s with [] => true | _ => false end.

(** pop_back of _currentLoops: at 0 the behaviour is undefined, here it stays at 0 *)
Definition loopsAfter (d : ldir) (k : nat) : nat := match d with LNone => k | LOpen => S k | LClose => pred k end.

(** one iteration (lines 814-838) *)
Definition splitStep (multi : bool) (s : sst T) (x : item T) : sst T :=
  let s := if (Nat.leb limit (s_count s)) && multi && (Nat.eqb (s_loops s) 0) then saveLocal s (noNamesYet s && zeroDeps) else s in
  match x with
  | ISilent => s
  | IDeps t => mkSst (s_code s ++ [x]) (s_count s) (s_loops s) (s_names s) (s_src s)
  | ILine t lines d => mkSst (s_code s ++ [x]) (s_count s + lines) (loopsAfter d (s_loops s)) (s_names s) (s_src s)
  end.

(** lines 792-846: [zero] is the loop which clears the dependents; it is written when variableOrder is not empty *)
Definition splitBody (multi : bool) (zero : T) (order : list (item T)) (src : files T) : sst T :=
  match order with
  | [] => mkSst [] 0 0 [] src
  | _ =>
      let s0 := mkSst (if zeroDeps then [ILine zero 0 LNone] else []) 0 0 [] src in
      let s := fold_left (splitStep multi) order s0 in
      if negb (noNamesYet s) && (Nat.ltb 0 (s_count s)) then saveLocal s false else s
  end.

(** lines 848-959: the function [fn], either the wrapper or the only function; [tail] are the duplicates and the constant
    dependents *)
Definition splitSource (zero : T) (order : list (item T)) (tail : list T) (src : files T) : files T :=
  let multi := Nat.ltb 0 limit in
  let s := splitBody multi zero order src in
  fset (fileName fn)
    (if noNamesYet s then mkFile [] params (arrays || zeroDeps) (s_code s) [] tail
     else mkFile (s_code s) params false [] (map (fun f => (f, localArgs)) (s_names s)) tail)
    (s_src s).
End Split.

(** ** generateCode with a function name and a limit, for the scalar graphs of Codegen_model.v: every printed node is one
    assignment, of one line ([assign]: pushExpressionNoVarCheck2 returns 1, lines 1327-1437). *)
Section Scalar.
Context {B : Type} {O : BaseOps B}.
Variable g : heap B.

Definition assign1 (s : stmt B) : item (stmt B) := ILine s 1 LNone.

Definition generateFiles (fuel : nat) (o : options) (indeps : list nat) (deps : list (arg B)) (nm : nat -> option loc)
  (fn : string) (limit : nat) (src : files (stmt B)) : outcome (files (stmt B)) :=
  obind (makePlan g fuel o indeps deps) (fun pl =>
  let nm := allNames g indeps deps pl nm in
  obind (omap (stmtOf g o indeps deps pl nm fuel) (p_vo pl)) (fun body =>
  obind (duplicates g o deps pl nm deps 0) (fun dup =>
  obind (constants g o nm deps 0) (fun cst =>
  Done (splitSource fn [] limit false (o_zeroDeps o) (SZero (List.length deps)) (map assign1 body) (dup ++ cst) src))))).
End Scalar.

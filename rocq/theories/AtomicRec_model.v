(** * Calls of atomic functions in recordings and in the generated code

    Models CGAbstractAtomicFun::forward and reverse (include/cppad/cg/abstract_atomic_fun.hpp 94-417, 546-584), the helpers of
    BaseAbstractAtomicFun (base_abstract_atomic_fun.hpp 79-147), CGAtomicFun::zeroOrderDependency and sparsityIndeps
    (atomic_fun.hpp 175-233), what the C code calls (LanguageC::pushAtomicForwardOp and pushAtomicReverseOp, language_c.hpp
    1791-1879) and what is called at run time: AtomicExternalFunctionWrapper (model/atomic_external_function_wrapper.hpp 23-148)
    and the second order reverse mode of GenericModelExternalFunctionWrapper (model/generic_model_external_function_wrapper.hpp
    63-97).

    Simplifications: one CodeHandler (findHandler finds it whenever something is not a parameter, which holds where it is used); a CG object is a parameter or a node with an optional value (cg.hpp); the function of the
    user gives the Taylor coefficients as a list and does not look at the former content of the orders it computes; an index out
    of range in a sparsity pattern given by the user is ignored (undefined behaviour in C++). *)
From Coq Require Import List Bool Arith.
From Verif Require Import Pool_model.
Import ListNotations.

Section Model.
Variable V : Type.
Variable zero : V.
Variable isz : V -> bool.          (* CppAD::IdenticalZero *)
Variable add : V -> V -> V.

(** CG<Base>: a parameter, or a node with maybe a value (cg.hpp; variable.hpp isParameter, isValueDefined, getValue) *)
Inductive cg : Type := Par (v : V) | Node (id : nat) (value : option V).
Definition isPar (c : cg) : bool := match c with Par _ => true | Node _ _ => false end.
Definition valueOf (c : cg) : option V := match c with Par v => Some v | Node _ o => o end.
Definition getValue (c : cg) : V := match valueOf c with Some v => v | None => zero end.   (* only used when defined *)
Definition isValueDefined (c : cg) : bool := match valueOf c with Some _ => true | None => false end.
Definition isIdenticalZero (c : cg) : bool := match c with Par v => isz v | Node _ _ => false end.
(** Argument<Base>, asArgument (argument.hpp) *)
Inductive arg : Type := AVal (v : V) | ANode (id : nat).
Definition asArgument (c : cg) : arg := match c with Par v => AVal v | Node id _ => ANode id end.

(** isParameters (131-138), isValuesDefined (140-147) *)
Definition isParameters (l : list cg) : bool := forallb isPar l.
Definition isValuesDefined (l : list cg) : bool := forallb isValueDefined l.

(** The nodes ArrayCreation and SparseArrayCreation *)
Inductive arr : Type := Dense (args : list arg) | Sparse (size : nat) (els : list (nat * arg)).
(** the element of the order k of variable i *)
Definition el (tx : list cg) (p i k : nat) : cg := nth (i * S p + k) tx (Par zero).
(** makeArray (79-91), makeZeroArray (93-99), makeEmptySparseArray (101-104), makeSparseArray (106-129) *)
Definition makeArray (n : nat) (tx : list cg) (p k : nat) : arr := Dense (map (fun i => asArgument (el tx p i k)) (seq 0 n)).
Definition makeZeroArray (n : nat) : arr := Dense (repeat (AVal zero) n).
Definition makeEmptySparseArray (n : nat) : arr := Sparse n [].
Definition makeSparseArray (n : nat) (tx : list cg) (p k : nat) : arr :=
  Sparse n (map (fun i => (i, asArgument (el tx p i k))) (filter (fun i => negb (isIdenticalZero (el tx p i k))) (seq 0 n))).

(** The atomic function of the user (CppAD::atomic_base<Base>): the bool which is returned and the results.  forward gets the
    Taylor coefficients of y of lower orders, reverse those of all orders. *)
Record atomic : Type := mkAtomic {
  a_forward : nat -> nat -> list V -> list V -> bool * list V;             (* q p tx ty *)
  a_reverse : nat -> list V -> list V -> list V -> bool * list V;          (* p tx ty py, the result is px *)
  a_forJac : nat -> list (list nat) -> list V -> bool * list (list nat);   (* q r x, the result is s *)
  a_revJac : nat -> list (list nat) -> list V -> bool * list (list nat);   (* q rt x, the result is st *)
  a_revHes : list bool -> list bool -> nat -> list (list nat) -> list (list nat) -> list V -> bool * list (list nat)
                                                                           (* vx s q r u x, the result is v *)
}.
Variable fn : atomic.
Variable xSparsity : list V.
Variable standAlone : bool.

(** sparsityIndeps (atomic_fun.hpp 219-233) *)
Definition sparsityIndeps (x : list cg) : list V := if isValuesDefined x then map getValue x else xSparsity.

(** zeroOrderDependency (175-200); None: an exception *)
Definition zeroOrderDependency (n m : nat) (vx vy : list bool) (x : list cg) : option (list bool) :=
  let '(ok, st) := a_revJac fn m (map (fun j => [j]) (seq 0 m)) (sparsityIndeps x) in
  if ok then
    Some (fold_left (fun vy j => if nth j vx false then fold_left (fun vy i => setNth vy i true) (nth j st []) vy else vy) (seq 0 n) vy)
  else None.

(** A result: a parameter, or an ArrayElement node (the array of order k, position i) of the call with maybe a value *)
Inductive res : Type := RPar (v : V) | RElem (k i : nat) (value : option V).
(** AtomicForward (212), AtomicReverse (397) *)
Record fcall : Type := mkF { f_q : nat; f_p : nat; f_tx : list arr; f_ty : list arr }.
Record rcall : Type := mkR { r_p : nat; r_tx : list arr; r_ty : list arr; r_px : list arr; r_py : list arr }.
Inductive outcome (C : Type) : Type :=
| Recorded (rs : list res) (call : option C)    (* true *)
| Failed                                        (* false *)
| Thrown.                                       (* CGException *)
Arguments Recorded {C} _ _.  Arguments Failed {C}.  Arguments Thrown {C}.

Definition notEmpty (l : list nat) : bool := match l with [] => false | _ => true end.

(** forward (94-231): [junk] is the content of the vector made at 552.  [vy] changes only for the caller. *)
Definition forward (junk : list V) (q p n m : nat) (vx vy : list bool) (tx : list cg) : outcome fcall :=
  let valuesDefined := isValuesDefined tx in
  let x := map (fun j => el tx p j 0) (seq 0 n) in
  match (match vx with [] => Some vy | _ => zeroOrderDependency n m vx vy x end) with
  | None => Thrown
  | Some vy =>
      if isParameters tx then
        let '(ok, tyb) := a_forward fn q p (map getValue tx) junk in
        if ok then Recorded (map (fun pos => RPar (nth pos tyb zero)) (seq 0 (m * S p))) None else Failed
      else
        match (match p with
               | 0 => Some vy
               | S _ =>
                   let r := map (fun j => if isIdenticalZero (el tx p j 1) then [] else [0]) (seq 0 n) in
                   let '(good, s) := a_forJac fn 1 r (sparsityIndeps x) in
                   if good then
                     Some (map (fun pos => if pos mod S p =? 1 then notEmpty (nth (pos / S p) s []) else true) (seq 0 (m * S p)))
                   else None
               end) with
        | None => Failed
        | Some vyLocal =>
            if (p =? 1) && forallb negb vyLocal then Recorded (map (fun _ => RPar zero) (seq 0 (m * S p))) None
            else
              match (if valuesDefined then
                       let '(ok, tyb) := a_forward fn q p (map getValue tx) junk in if ok then Some (Some tyb) else None
                     else Some None) with
              | None => Failed
              | Some tyb =>
                  let call := mkF q p (map (fun k => if k =? 0 then makeArray n tx p k else makeSparseArray n tx p k) (seq 0 (S p)))
                                      (map (fun _ => makeZeroArray m) (seq 0 (S p))) in
                  let isVar := fun pos => match vyLocal with [] => true | _ => nth pos vyLocal false end in
                  if forallb (fun pos => isVar pos || match tyb with None => true | Some l => isz (nth pos l zero) end) (seq 0 (m * S p)) then
                    Recorded (map (fun pos =>
                                if isVar pos then
                                  RElem (pos mod S p) (pos / S p) (match tyb with None => None | Some l => Some (nth pos l zero) end)
                                else RPar zero) (seq 0 (m * S p)))
                             (Some call)
                  else Thrown   (* 224 *)
              end
        end
  end.

(** reverse (233-417) *)
Definition reverse (p n m : nat) (tx ty py : list cg) : outcome rcall :=
  if isParameters tx && isParameters ty && isParameters py then
    let '(ok, pxb) := a_reverse fn p (map getValue tx) (map getValue ty) (map getValue py) in
    if ok then Recorded (map (fun pos => RPar (nth pos pxb zero)) (seq 0 (n * S p))) None else Failed
  else
    let rt := map (fun i => if isIdenticalZero (el py p i 0) then [] else [0]) (seq 0 m) in
    let x := map (fun j => el tx p j 0) (seq 0 n) in
    let '(good, st) := a_revJac fn 1 rt (sparsityIndeps x) in
    if negb good then Failed
    else
      let v := match p with
               | 0 => []
               | S _ =>
                   let vx := map (fun j => negb (isPar (el tx p j 0))) (seq 0 n) in
                   let r := map (fun j => if isIdenticalZero (el tx p j 1) then [] else [0]) (seq 0 n) in
                   let s := map (fun i => negb (isIdenticalZero (el py p i 1))) (seq 0 m) in
                   snd (a_revHes fn vx s 1 r (repeat [] m) (sparsityIndeps x))     (* the result is not tested (320) *)
               end in
      let vxLocal := fun pos =>
        let j := pos / S p in let k := pos mod S p in
        match p with
        | 0 => notEmpty (nth j st [])
        | S p' => if k =? p' then notEmpty (nth j v []) else if k =? p then notEmpty (nth j st []) else true
        end in
      if forallb (fun pos => negb (vxLocal pos)) (seq 0 (n * S p)) then Recorded (map (fun _ => RPar zero) (seq 0 (n * S p))) None
      else
        match (if isValuesDefined tx && isValuesDefined ty && isValuesDefined py then
                 let '(ok, pxb) := a_reverse fn p (map getValue tx) (map getValue ty) (map getValue py) in
                 if ok then Some (Some pxb) else None
               else Some None) with
        | None => Failed
        | Some pxb =>
            let call := mkR p (map (fun k => if k =? 0 then makeArray n tx p k else makeSparseArray n tx p k) (seq 0 (S p)))
                              (map (fun k => if standAlone then makeEmptySparseArray m else makeSparseArray m ty p k) (seq 0 (S p)))
                              (map (fun k => if k =? 0 then makeZeroArray n else makeEmptySparseArray n) (seq 0 (S p)))
                              (map (fun k => if k =? 0 then makeSparseArray m py p k else makeArray m py p k) (seq 0 (S p))) in
            Recorded (map (fun pos =>
                        if vxLocal pos then
                          RElem (pos mod S p) (pos / S p) (match pxb with None => None | Some l => Some (nth pos l zero) end)
                        else RPar zero) (seq 0 (n * S p)))
                     (Some call)
        end.

(** *** At run time *)

(** struct Array (language_c.hpp 403-415): dense, or sparse with size, indexes and values *)
Inductive rt : Type := RDense (vals : list V) | RSparse (size : nat) (els : list (nat * V)).
Definition rsize (a : rt) : nat := match a with RDense l => length l | RSparse n _ => n end.
(** the element j of an array as AtomicExternalFunctionWrapper::convert (96-125) sees it: later elements replace *)
Definition rget (a : rt) (j : nat) : V :=
  match a with
  | RDense l => nth j l zero
  | RSparse _ els => fold_left (fun acc e => if fst e =? j then snd e else acc) els zero
  end.
Definition convert (from : list rt) (n p : nat) : list V :=
  map (fun pos => rget (nth (pos mod S p) from (RDense [])) (pos / S p)) (seq 0 (n * S p)).
(** convertAdd (127-147) *)
Definition convertAdd (from to : list V) (n p k : nat) : list V :=
  match p with
  | 0 => map (fun j => nth j from zero) (seq 0 n) ++ skipn n to
  | S _ => map (fun j => add (nth j to zero) (nth (j * S p + k) from zero)) (seq 0 n) ++ skipn n to
  end.
(** forward (34-56): what is returned is not looked at by the generated code *)
Definition wrapForward (q p : nat) (tx : list rt) (ty : list V) : bool * list V :=
  let m := length ty in
  let '(ret, tyb) := a_forward fn q p (convert tx (rsize (nth 0 tx (RDense []))) p) (repeat zero (m * S p)) in
  (ret, convertAdd tyb ty m p p).
(** reverse (58-92): [debug] is that NDEBUG is not defined and _evalAtomicForwardOne4CppAD *)
Definition wrapReverse (debug : bool) (p : nat) (tx : list rt) (px : list V) (py : list rt) : bool * list V :=
  let n := rsize (nth 0 tx (RDense [])) in
  let m := rsize (nth 0 py (RDense [])) in
  let txb := convert tx n p in
  let ty0 := repeat zero (m * S p) in
  let '(ok, tyb) := if debug then a_forward fn p p txb ty0 else (true, ty0) in
  if ok then
    let '(ret, pxb) := a_reverse fn p txb tyb (convert py m p) in
    (ret, convertAdd pxb px n p 0)
  else (false, px).
(** The same with the model of another library (generic_model_external_function_wrapper.hpp 63-97), as far as the test of
    line 87: second order reverse mode throws. *)
Definition modelReverseThrows (p : nat) (py : list rt) : bool :=
  match p with
  | 1 => match nth 0 py (RDense []) with RSparse _ [] => false | _ => true end
  | _ => false
  end.

(** The arrays when the nodes have the values [rho] *)
Definition evalArg (rho : nat -> V) (a : arg) : V := match a with AVal v => v | ANode id => rho id end.
Definition evalArr (rho : nat -> V) (a : arr) : rt :=
  match a with
  | Dense l => RDense (map (evalArg rho) l)
  | Sparse n els => RSparse n (map (fun e => (fst e, evalArg rho (snd e))) els)
  end.
Definition dense (a : rt) : list V := match a with RDense l => l | RSparse _ _ => [] end.

(** The arrays of the results after the generated code has called the function: pushAtomicForwardOp (1791-1831) gives only the
    array of order p, the others keep what they were created with. *)
Definition runForward (rho : nat -> V) (c : fcall) : list rt :=
  map (fun k => let a := evalArr rho (nth k (f_ty c) (Dense [])) in
                if k =? f_p c then RDense (snd (wrapForward (f_q c) (f_p c) (map (evalArr rho) (f_tx c)) (dense a))) else a)
      (seq 0 (S (f_p c))).
(** pushAtomicReverseOp (1833-1879): only the array of order 0; r_ty is not used. *)
Definition runReverse (debug : bool) (rho : nat -> V) (c : rcall) : list rt :=
  map (fun k => let a := evalArr rho (nth k (r_px c) (Dense [])) in
                if k =? 0 then RDense (snd (wrapReverse debug (r_p c) (map (evalArr rho) (r_tx c)) (dense a) (map (evalArr rho) (r_py c)))) else a)
      (seq 0 (S (r_p c))).
(** The value of a result in the generated code: an element of a dense array; anything else is not defined (None), such as an
    element of a sparse array without elements (pushArrayElementOp, language_c_arrays.hpp 309-324). *)
Definition resValue (arrays : list rt) (r : res) : option V :=
  match r with
  | RPar v => Some v
  | RElem k i _ => match nth_error arrays k with Some (RDense l) => nth_error l i | _ => None end
  end.
End Model.
Arguments Par {V} _.  Arguments Node {V} _ _.
Arguments RPar {V} _.  Arguments RElem {V} _ _ _.
Arguments Dense {V} _.  Arguments Sparse {V} _ _.
Arguments AVal {V} _.  Arguments ANode {V} _.
Arguments RDense {V} _.  Arguments RSparse {V} _ _.
Arguments Recorded {V C} _ _.  Arguments Failed {V C}.  Arguments Thrown {V C}.
Arguments mkAtomic {V} _ _ _ _ _.

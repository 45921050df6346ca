(** The code printed for temporary arrays, and what it does.

    Models include/cppad/cg/lang/c/language_c_arrays.hpp: pushArrayCreationOp (lines 22-57), pushArrayElementOp (308-321),
    markArrayChanged (438-453), and of language_c.hpp the calls of atomic functions (pushAtomicForwardOp 1789-1831,
    pushAtomicReverseOp 1833-1879), reduced to: the arrays given to the function are read and the resulting array is changed. *)
Require Import List Arith Bool.
From Verif Require Import Arrays_model.
Import ListNotations.

(** What is evaluated, in order.  [PFree] marks where reduceTemporaryVariables releases an array
    (code_handler_impl.hpp 1657-1663, 1678-1687): before the statement which is the last one to use it. *)
Inductive pstmt : Type :=
| PFree (a size : nat)
| PCreate (a : nat) (args : list aarg)
| PCall (out size : nat) (fn : nat) (ins : list (nat * nat))   (* arrays with their sizes *)
| PRead (a i : nat).                                            (* an assignment which uses an element of an array *)

(** the releases and reservations *)
Definition event (p : pstmt) : list aev :=
  match p with
  | PFree a n => [EFree a n]
  | PCreate a args => [EReserve a args]
  | _ => []
  end.
Definition events (p : list pstmt) : list aev := flat_map event p.

(** Printed statements: positions are those of the work array. *)
Inductive cstmt : Type :=
| CSet (pos : nat) (a : aarg)
| CCall (outpos size : nat) (fn : nat) (ins : list (nat * nat))  (* positions with sizes *)
| CRead (pos : nat).

(** _tmpArrayValues: the argument known to be at a position *)
Definition tracker := nat -> option aarg.
Definition upd {A} (f : nat -> A) (k : nat) (v : A) : nat -> A := fun j => if j =? k then v else f j.

(** pushArrayCreationOp (language_c_arrays.hpp 22-57): elements which are already there are not assigned again.  Three or more
    assignments from consecutive positions are printed as a loop (printArrayCreationUsingLoop): here they are listed one by one. *)
Fixpoint printCreate (start : nat) (args : list aarg) (t : tracker) : list cstmt * tracker :=
  match args with
  | [] => ([], t)
  | a :: l =>
      if sameArg a (t start) then printCreate (S start) l t
      else let r := printCreate (S start) l (upd t start (Some a)) in (CSet start a :: fst r, snd r)
  end.

(** markArrayChanged (language_c_arrays.hpp 438-453) *)
Definition markChanged (start size : nat) (t : tracker) : tracker :=
  fun j => if (start <=? j) && (j <? start + size) then None else t j.

(** One statement, with the places of the arrays. *)
Definition printStmt (place : nat -> nat) (t : tracker) (p : pstmt) : list cstmt * tracker :=
  match p with
  | PFree _ _ => ([], t)
  | PCreate a args => printCreate (place a) args t
  | PCall out n fn ins => ([CCall (place out) n fn (map (fun x => (place (fst x), snd x)) ins)], markChanged (place out) n t)
  | PRead a i => ([CRead (place a + i)], t)
  end.

Fixpoint printAll (place : nat -> nat) (t : tracker) (p : list pstmt) : list cstmt * tracker :=
  match p with
  | [] => ([], t)
  | s :: l =>
      let r := printStmt place t s in
      let q := printAll place (snd r) l in
      (fst r ++ fst q, snd q)
  end.

(** ** Execution of the printed statements *)
Section Exec.
Context {V : Type}.
Variable ndef : nat -> nexp.
(** values of parameters and of variables which are not in the work array, operations, atomic functions *)
Variable pv xv : nat -> V.
Variable ov : nat -> list V -> V.
Variable fn : nat -> list (list V) -> nat -> V.

(** The value of a printed expression: array elements are read at the place of the array (pushArrayElementOp). *)
Fixpoint nval (mem : nat -> V) (place : nat -> nat) (e : nexp) : V :=
  match e with
  | NElem a i => mem (place a + i)
  | NVar x => xv x
  | NPar v => pv v
  | NOp o l => ov o (map (nval mem place) l)
  end.
Definition aval (mem : nat -> V) (place : nat -> nat) (a : aarg) : V :=
  match a with Par v => pv v | Nod n => nval mem place (ndef n) end.

(** what can be observed: the arguments of a call, an element which is read *)
Inductive obs : Type :=
| OCall (f : nat) (ins : list (list V))
| ORead (v : V).

Definition window {A} (mem : nat -> A) (start size : nat) : list A := map mem (seq start size).

Fixpoint setWindow (mem : nat -> V) (start size : nat) (v : nat -> V) : nat -> V :=
  match size with
  | 0 => mem
  | S k => upd (setWindow mem start k v) (start + k) (v k)
  end.

Definition cexec (place : nat -> nat) (mem : nat -> V) (c : cstmt) : (nat -> V) * list obs :=
  match c with
  | CSet p a => (upd mem p (aval mem place a), [])
  | CCall out n f ins =>
      let vs := map (fun x => window mem (fst x) (snd x)) ins in
      (setWindow mem out n (fn f vs), [OCall f vs])
  | CRead p => (mem, [ORead (mem p)])
  end.

Fixpoint cexecAll (place : nat -> nat) (mem : nat -> V) (l : list cstmt) : (nat -> V) * list obs :=
  match l with
  | [] => (mem, [])
  | c :: l' =>
      let r := cexec place mem c in
      let q := cexecAll place (fst r) l' in
      (fst q, snd r ++ snd q)
  end.
End Exec.

(** Reserving all places, then printing: what the generated code is for the statements [p]; [max] is the size of
    _tmpArrayValues in the compresser. *)
Definition generated (ndef : nat -> nexp) (max : nat) (p : list pstmt) : aout ((nat -> nat) * list cstmt) :=
  abind (arun ndef (mkAst (newComp max) (fun _ => 0)) (events p)) (fun s =>
    AOk (a_place s, fst (printAll (a_place s) (fun _ => None) p))).

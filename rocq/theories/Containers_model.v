(** * The Array structures given to atomic functions by the generated C code

    Models LanguageC::printArrayStructInit (include/cppad/cg/lang/c/language_c_arrays.hpp 324-436), the calls in
    pushAtomicForwardOp and pushAtomicReverseOp (language_c.hpp 1793-1883) and struct AtomicFuncArray (2190-2198).  The
    structures (atx, aty, apx, apy) are local variables of a C function (generateArrayContainersDeclaration 403-415, called at
    366 and 1068); the printer remembers what it has put in them in _atomicFuncArrays, which is cleared once per generation
    (679), and only prints what changes.

    Simplifications: the text is kept as the list of assigned fields; the name of an array is its kind and its identifier
    (_varId); the end of the called function is not observed. *)
From Coq Require Import List Bool Arith.
Import ListNotations.

(** The structures: atx[k], aty, apx, apy[k]. *)
Inductive cont : Set := TX (k : nat) | TY | PX | PY (k : nat).
Definition cont_eqb (a b : cont) : bool :=
  match a, b with
  | TX i, TX j | PY i, PY j => Nat.eqb i j
  | TY, TY | PX, PX => true
  | _, _ => false
  end.

(** An ArrayCreation or SparseArrayCreation node: number of arguments, getInfo()[0] of a sparse one, getVariableID, scope. *)
Record arr : Set := mkArr { a_sparse : bool; a_args : nat; a_info : nat; a_id : nat; a_scope : nat }.

(** what a data pointer is: NULL, &array[id - 1] or &sarray[id - 1] *)
Inductive dsrc : Set := DNull | DDense (id : nat) | DSparse (id : nat) | DNone.   (* DNone: the empty string of a new AtomicFuncArray *)
Definition dsrc_eqb (a b : dsrc) : bool :=
  match a, b with
  | DNull, DNull | DNone, DNone => true
  | DDense i, DDense j | DSparse i, DSparse j => Nat.eqb i j
  | _, _ => false
  end.

(** class AtomicFuncArray (2190-2198); [t_idx = None] is numeric_limits<size_t>::max() *)
Record track : Set := mkTrack { t_data : dsrc; t_size : nat; t_sparse : bool; t_idx : option nat; t_nnz : nat; t_scope : nat }.
(** the value std::map::operator[] creates *)
Definition newTrack : track := mkTrack DNone 0 false (Some 0) 0 0.

Definition tracker := cont -> option track.
Definition tset (t : tracker) (c : cont) (v : track) : tracker := fun d => if cont_eqb d c then Some v else t d.

(** one assignment to a field of a structure *)
Inductive field : Set := FData (d : dsrc) | FSize (n : nat) | FSparse (b : bool) | FNnz (n : nat) | FIdx (id : nat).

(** printArrayStructInit (334-436) for the entry [old] of _atomicFuncArrays *)
Definition structInit (old : option track) (a : arr) : list field * track :=
  let firstTime := match old with None => true | Some l => negb (Nat.eqb (t_scope l) (a_scope a)) end in
  let l := match old with None => newTrack | Some l => l end in
  let n := a_args a in
  if negb (a_sparse a) then
    let d := if Nat.ltb 0 n then DDense (a_id a) else DNull in
    ((if firstTime || negb (dsrc_eqb d (t_data l)) then [FData d] else []) ++
     (if firstTime || negb (Nat.eqb n (t_size l)) then [FSize n] else []) ++
     (if firstTime || t_sparse l then [FSparse false] else []),
     mkTrack d n false (t_idx l) (t_nnz l) (a_scope a))
  else
    let d := if Nat.ltb 0 n then DSparse (a_id a) else DNull in
    ((if firstTime || negb (dsrc_eqb d (t_data l)) then [FData d] else []) ++
     (if firstTime || negb (Nat.eqb (a_info a) (t_size l)) then [FSize (a_info a)] else []) ++
     (if firstTime || negb (t_sparse l) then [FSparse true] else []) ++
     (if firstTime || negb (Nat.eqb n (t_nnz l)) then [FNnz n] else []) ++
     (if Nat.ltb 0 n
      then if firstTime || negb (match t_idx l with Some i => Nat.eqb (a_id a) i | None => false end) then [FIdx (a_id a)] else []
      else []),
     mkTrack d (a_info a) true (if Nat.ltb 0 n then Some (a_id a) else None) n (a_scope a)).

(** The nodes in evaluation order: the call of an atomic function, or a block (the body of a loop or of an if). *)
Inductive anode : Type :=
| ACall (ins : list (cont * arr))
| ABlock (scope : nat) (body : list anode).

(** pushAtomicForwardOp (1811-1816) and pushAtomicReverseOp (1856-1866): which structures get which arrays *)
Fixpoint numbered {A} (f : nat -> cont) (k : nat) (l : list A) : list (cont * A) :=
  match l with [] => [] | a :: l' => (f k, a) :: numbered f (S k) l' end.
Definition forwardCall (tx : list arr) (ty : arr) : anode := ACall (numbered TX 0 tx ++ [(TY, ty)]).
Definition reverseCall (tx py : list arr) (px : arr) : anode := ACall (numbered TX 0 tx ++ numbered PY 0 py ++ [(PX, px)]).

(** Printed text. *)
Inductive ptext : Type :=
| TSet (c : cont) (f : field)
| TCall (ins : list (cont * arr))
| TBlock (body : list ptext).

Fixpoint printIns (t : tracker) (ins : list (cont * arr)) : list ptext * tracker :=
  match ins with
  | [] => ([], t)
  | (c, a) :: l =>
      let r := structInit (t c) a in
      let q := printIns (tset t c (snd r)) l in
      (map (TSet c) (fst r) ++ fst q, snd q)
  end.

Fixpoint printNode (t : tracker) (n : anode) {struct n} : list ptext * tracker :=
  match n with
  | ACall ins => let r := printIns t ins in (fst r ++ [TCall ins], snd r)
  | ABlock _ body =>
      let r := (fix go t l := match l with
                              | [] => ([], t)
                              | x :: l' => let r := printNode t x in let q := go (snd r) l' in (fst r ++ fst q, snd q)
                              end) t body in
      ([TBlock (fst r)], snd r)
  end.

Fixpoint printNodes (t : tracker) (l : list anode) : list ptext * tracker :=
  match l with
  | [] => ([], t)
  | x :: l' => let r := printNode t x in let q := printNodes (snd r) l' in (fst r ++ fst q, snd q)
  end.

(** The code of one C function: _atomicFuncArrays is empty at the start of a generation. *)
Definition printFunction (l : list anode) : list ptext := fst (printNodes (fun _ => None) l).

(** With a limit on the number of assignments (saveLocalFunction, language_c.hpp 1048-1089): the nodes [parts] are printed into
    consecutive functions, and _atomicFuncArrays is kept from one to the next. *)
Fixpoint printSplit (t : tracker) (parts : list (list anode)) : list (list ptext) :=
  match parts with
  | [] => []
  | p :: ps => let r := printNodes t p in fst r :: printSplit (snd r) ps
  end.

(** * Directional derivatives of the generated models

    The functions ForwardOne, ReverseOne and ReverseTwo of a model library: the C code generated by
    generateForwardOneSources (include/cppad/cg/model/model_c_source_gen_for1.hpp 219-324), generateReverseOneSources
    (model_c_source_gen_rev1.hpp 225-326) and generateReverseTwoSources (model_c_source_gen_rev2.hpp 250-370), and the
    methods of FunctorGenericModel (include/cppad/cg/model/functor_generic_model.hpp) which call them or the functions
    of each direction.

    Values are of any type [V] with a zero, a sum and a comparison with zero, so that it can be the floating point
    numbers.  [D k v s] is the value, given by the AD library, of the element (k, v) multiplied by the seed s.  A
    failure to get memory is an input; an access out of bounds or through a null pointer is [Undef]. *)
From Coq Require Import List Arith Bool.
From Verif Require Import Pool_model Assemble_model.
Import ListNotations.

(** ** The sparsity functions: generateSparsity1DSource2, model_c_source_gen_impl.hpp 497-561 *)

(** maxNnzIndex after the first loop and the increment (507-523): one more than the last key with elements. *)
Definition maxIndex (m : list (nat * list nat)) : nat :=
  fold_left (fun a g => match snd g with [] => a | _ => S (fst g) end) m 0.

(** nnzs (505, 519) with [maxIndex] elements (524). *)
Definition nnzsArray (m : list (nat * list nat)) : list nat :=
  fold_left (fun a g => match snd g with [] => a | els => setNth a (fst g) (length els) end) m (repeat 0 (maxIndex m)).

(** The initialiser of the array els (527-538): 0 or the name els<i>, with the iterator [it]. *)
Fixpoint elsArray (cnt i : nat) (it : list (nat * list nat)) : list (option nat) :=
  match cnt with
  | 0 => []
  | S cnt' =>
      match it with
      | (k, _) :: it' => if i =? k then Some i :: elsArray cnt' (S i) it' else None :: elsArray cnt' (S i) it
      | [] => None :: elsArray cnt' (S i) []
      end
  end.

(** The array els<i>, declared when it is not empty (512-520); [None]: not declared. *)
Definition declared (m : list (nat * list nat)) (i : nat) : option (list nat) :=
  match find (fun g => fst g =? i) m with
  | Some (_, []) => None
  | Some (_, els) => Some els
  | None => None
  end.

(** A call of the generated function: the elements and nnz. *)
Definition sparsity1D (m : list (nat * list nat)) (pos : nat) : option (list nat * nat) :=
  if 0 <? maxIndex m then
    if pos <? maxIndex m then
      match nth_error (elsArray (maxIndex m) 0 m) pos, nth_error (nnzsArray m) pos with
      | Some None, Some n => Some ([], n)
      | Some (Some i), Some n => match declared m i with Some els => Some (els, n) | None => None end
      | _, _ => None
      end
    else Some ([], 0)
  else Some ([], 0).

(** ** The generated functions *)
Inductive rcode := Done | Failed | NoMemory.      (* the return codes 0, 1 and -1 *)
Inductive outcome (V : Type) := Ret (c : rcode) (out : list V) | Undef.
Arguments Ret {V}. Arguments Undef {V}.

Section Drivers.
Variable V : Type.
Variable zero : V.
Variable add : V -> V -> V.
Variable isz : V -> bool.                 (* the comparison with 0.0 *)
Variable D : nat -> nat -> V -> V.
Variable atomics : bool.
Variables ks vs : list nat.               (* the requested elements, by direction *)

(** The function of all the directions (generateGlobalDirectionalFunctionSource, model_c_source_gen_impl.hpp 313-357):
    a switch; [None]: the default, which returns 1. *)
Definition direction (k : nat) (seed : V) : option (list V) :=
  functions V zero (fun k v => D k v seed) atomics ks vs k.

(** The function with its sparsity. *)
Definition sparsityOf (k : nat) : option (list nat * nat) := sparsity1D (group ks vs) k.

Inductive scanned := Scanned (pos : list nat) (nnzMax : nat) | ScanNoMemory | ScanUndef.

(** The first loop: the directions with a seed and elements (model_c_source_gen_for1.hpp 258-275,
    model_c_source_gen_rev1.hpp 264-281, model_c_source_gen_rev2.hpp 306-323).  [ok i]: the (i+1)-th realloc works. *)
Fixpoint scan (ok : nat -> bool) (seedOf : nat -> option V) (js pos : list nat) (nnzMax : nat) : scanned :=
  match js with
  | [] => Scanned pos nnzMax
  | j :: r =>
      match seedOf j with
      | None => ScanUndef
      | Some s =>
          if isz s then scan ok seedOf r pos nnzMax
          else
            match sparsityOf j with
            | None => ScanUndef
            | Some (_, nnz) =>
                if nnzMax <? nnz then
                  if ok (length pos) then scan ok seedOf r (pos ++ [j]) nnz else ScanNoMemory
                else if nnz =? 0 then scan ok seedOf r pos nnzMax
                else if ok (length pos) then scan ok seedOf r (pos ++ [j]) nnzMax else ScanNoMemory
            end
      end
  end.

(** for (i = 0; i < n; i++) out[f(i)] = 0; *)
Fixpoint clear (f : nat -> nat) (is : list nat) (out : list V) : option (list V) :=
  match is with
  | [] => Some out
  | i :: r => if f i <? length out then clear f r (setNth out (f i) zero) else None
  end.

(** for (ePos = 0; ePos < nnz; ePos++) out[f(pos[ePos])] += compressed[ePos]; *)
Fixpoint accumulate (f : nat -> nat) (els : list nat) (comp : list V) (out : list V) : option (list V) :=
  match els with
  | [] => Some out
  | v :: els' =>
      match comp with
      | c :: comp' =>
          match nth_error out (f v) with
          | Some o => accumulate f els' comp' (setNth out (f v) (add o c))
          | None => None
          end
      | [] => None
      end
  end.

(** The last loop (model_c_source_gen_for1.hpp 290-314, model_c_source_gen_rev1.hpp 293-317,
    model_c_source_gen_rev2.hpp 335-360; without loops).  [comp = None]: malloc failed and compressed is a null pointer. *)
Fixpoint eachDirection (f : nat -> nat) (seedOf : nat -> option V) (pos : list nat) (comp : option (list V))
  (out : list V) : outcome V :=
  match pos with
  | [] => Ret Done out
  | j :: r =>
      match seedOf j, sparsityOf j with
      | Some s, Some (els, nnz) =>
          match direction j s with
          | None => Ret Failed out
          | Some o =>
              match comp with
              | None => Undef
              | Some c =>
                  match writeAll V c 0 o with
                  | None => Undef
                  | Some c' =>
                      match accumulate f (firstn nnz els) c' out with
                      | None => Undef
                      | Some out' => eachDirection f seedOf r (Some c') out'
                      end
                  end
              end
          end
      | _, _ => Undef
      end
  end.

(** ForwardOne and ReverseOne: [nDir] directions, [nOut] outputs.  [mallocOk]: the malloc of compressed works;
    [garbage]: its content.  The release of the two arrays, made before each return, is not modelled. *)
Definition directional (ok : nat -> bool) (mallocOk : bool) (garbage : list V) (f : nat -> nat) (nDir nOut : nat)
  (seedOf : nat -> option V) (out : list V) : outcome V :=
  match scan ok seedOf (seq 0 nDir) [] 0 with
  | ScanUndef => Undef
  | ScanNoMemory => Ret NoMemory out
  | Scanned pos nnzMax =>
      match clear f (seq 0 nOut) out with
      | None => Undef
      | Some out' =>
          match pos with
          | [] => Ret Done out'
          | _ => eachDirection f seedOf pos (if mallocOk then Some (firstn nnzMax garbage) else None) out'
          end
      end
  end.

(** forward_one(tx, ty, atomicFun), model_c_source_gen_for1.hpp 243-318: the directions are the variables.  The
    copy of x (287-288) reads tx[j * 2], before the position tx[j * 2 + 1] which the first loop has already read. *)
Definition forwardOne (ok : nat -> bool) (mallocOk : bool) (garbage : list V) (n m : nat) (tx ty : list V) : outcome V :=
  directional ok mallocOk garbage (fun i => i * 2 + 1) n m (fun j => nth_error tx (j * 2 + 1)) ty.

(** reverse_one(x, ty, px, py, atomicFun), model_c_source_gen_rev1.hpp 250-321: the directions are the equations. *)
Definition reverseOne (ok : nat -> bool) (mallocOk : bool) (garbage : list V) (n m : nat) (px py : list V) : outcome V :=
  directional ok mallocOk garbage (fun j => j) m n (fun i => nth_error py i) px.

End Drivers.

(** ** ReverseTwo *)
Section ReverseTwo.
Variable V : Type.
Variable zero : V.
Variable add : V -> V -> V.
Variable isz : V -> bool.
Variable D : list V -> nat -> nat -> V -> V.   (* the first argument is w *)
Variable atomics : bool.
Variables ks vs : list nat.

(** The weights (model_c_source_gen_rev2.hpp 287-294): [None]: out of bounds; [Some None]: return 1. *)
Fixpoint weights (py : list V) (is : list nat) : option (option (list V)) :=
  match is with
  | [] => Some (Some [])
  | i :: r =>
      match nth_error py (i * 2) with
      | None => None
      | Some p0 =>
          if isz p0 then
            match nth_error py (i * 2 + 1), weights py r with
            | Some p1, Some (Some w) => Some (Some (p1 :: w))
            | Some p1, Some None => Some None
            | _, _ => None
            end
          else Some None
      end
  end.

(** reverse_two(tx, ty, px, py, atomicFun), model_c_source_gen_rev2.hpp 273-364. *)
Definition reverseTwo (ok : nat -> bool) (mallocOk : bool) (garbage : list V) (n m : nat) (tx px py : list V) : outcome V :=
  match weights py (seq 0 m) with
  | None => Undef
  | Some None => Ret Failed px
  | Some (Some w) =>
      match clear V zero (fun j => j * 2) (seq 0 n) px with
      | None => Undef
      | Some px' =>
          if forallb isz w then Ret Done px'
          else
            match scan V isz ks vs ok (fun j => nth_error tx (j * 2 + 1)) (seq 0 n) [] 0 with
            | ScanUndef => Undef
            | ScanNoMemory => Ret NoMemory px'
            | Scanned [] _ => Ret Done px'
            | Scanned pos nnzMax =>
                eachDirection V zero add (D w) atomics ks vs (fun j => j * 2) (fun j => nth_error tx (j * 2 + 1)) pos
                  (if mallocOk then Some (firstn nnzMax garbage) else None) px'
            end
      end
  end.

End ReverseTwo.

(** ** The methods of the models with sparse arguments *)

(** The outcomes of a method: the arrays of the caller or an exception (CPPADCG_ASSERT_KNOWN). *)
Inductive mout (V : Type) := MDone (out : list V) | MThrow | MUndef.
Arguments MDone {V}. Arguments MThrow {V}. Arguments MUndef {V}.

Section Methods.
Variable V : Type.
Variable zero : V.
Variable add : V -> V -> V.
Variable isz : V -> bool.
Variable D : nat -> nat -> V -> V.
Variable atomics : bool.
Variables ks vs : list nat.

(** ForwardOne(tx, ty), functor_generic_model.hpp 447-460. *)
Definition methodForwardOne (ok : nat -> bool) (mallocOk : bool) (garbage : list V) (n m : nat) (tx ty : list V) : mout V :=
  if negb (2 * n <=? length tx) then MThrow
  else if negb (2 * m <=? length ty) then MThrow
  else
    match forwardOne V zero add isz D atomics ks vs ok mallocOk garbage n m tx ty with
    | Ret Done out => MDone out
    | Ret _ _ => MThrow
    | Undef => MUndef
    end.

(** The loop of ForwardOne(x, tx1Nnz, idx, tx1, ty1), ReverseOne(x, px, pyNnz, idx, py) and
    ReverseTwo(x, tx1Nnz, idx, tx1, px2, py2), functor_generic_model.hpp 489-500, 555-566 and 627-638.  [comp] is the
    array _ty or _px. *)
Fixpoint sparseLoop (idx : list nat) (seeds : list V) (comp : list V) (out : list V) : mout V :=
  match idx, seeds with
  | j :: idx', s :: seeds' =>
      match sparsityOf ks vs j with
      | None => MUndef
      | Some (els, nnz) =>
          match direction V zero D atomics ks vs j s with
          | None => MThrow
          | Some o =>
              match writeAll V comp 0 o with
              | None => MUndef
              | Some comp' =>
                  match accumulate V add (fun i => i) (firstn nnz els) comp' out with
                  | None => MUndef
                  | Some out' => sparseLoop idx' seeds' comp' out'
                  end
              end
          end
      end
  | _, _ => MDone out
  end.

(** ForwardOne with sparse arguments (functor_generic_model.hpp 466-501; nOut is _m, the size of the array _ty given by
    resize), ReverseOne (532-567; nOut is _n and _px) and ReverseTwo (600-639; nOut is _n and _px).  [comp] is the
    content of the array _ty or _px, with nOut elements.  The tests of the sizes of x and of the output come first. *)
Definition sparseMethod (nOut : nat) (comp : list V) (idx : list nat) (seeds : list V) (out : list V) : mout V :=
  if negb (nOut <=? length out) then MThrow
  else
    match clear V zero (fun i => i) (seq 0 nOut) out with
    | None => MUndef
    | Some out' => sparseLoop idx seeds (firstn nOut comp) out'
    end.

End Methods.

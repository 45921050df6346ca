(** * Model of the comparison functions given to the standard library *)
From Coq Require Import List Arith ZArith Bool.
Import ListNotations.
Local Open Scope nat_scope.

Section Compare.
  Context {T : Type}.
  (** operator< of the elements. *)
  Variable lt : T -> T -> bool.

  (** util.hpp 617-627: the loop of compare over two sets of the same size, which
      visits the elements in the order of the sets. *)
  Fixpoint compareElems (l1 l2 : list T) : Z :=
    match l1, l2 with
    | x :: r1, y :: r2 =>
        if lt x y then (-1)%Z else if lt y x then 1%Z else compareElems r1 r2
    | _, _ => 0%Z
    end.

  (** util.hpp 609-630: compare. *)
  Definition compare (s1 s2 : list T) : Z :=
    if List.length s1 <? List.length s2 then (-1)%Z
    else if List.length s2 <? List.length s1 then 1%Z
    else compareElems s1 s2.

  (** util.hpp 633-639: SetComparator. *)
  Definition setComparator (s1 s2 : list T) : bool := (compare s1 s2 =? -1)%Z.
End Compare.

(** operator< of std::pair<size_t, size_t>. *)
Definition pairLt (a b : nat * nat) : bool :=
  (fst a <? fst b) || (negb (fst b <? fst a) && (snd a <? snd b)).

(** model_c_source_gen_loops_rev2.hpp 899-906 (Reverse2Jrow2Iter) and
    model_c_source_gen_loops_for1.hpp 467-474 (Forward1Jcol2Iter): a row or column
    with its set of iterations. *)
Definition rowItersLt (l r : nat * list nat) : bool :=
  if fst l <? fst r then true
  else if fst r <? fst l then false
  else (compare Nat.ltb (snd l) (snd r) =? -1)%Z.

(** model_c_source_gen_loops_for1.hpp 495-502: JacobianTermContrib (indexed,
    nonIndexed). *)
Definition jacobianContribLt (l r : list nat * list nat) : bool :=
  let c := compare Nat.ltb (fst l) (fst r) in
  if negb (c =? 0)%Z then (c =? -1)%Z else
  let c := compare Nat.ltb (snd l) (snd r) in
  if negb (c =? 0)%Z then (c =? -1)%Z else false.

(** model_c_source_gen_loops_rev2.hpp 1266-1281: HessianTermContrib; the six sets
    in the order in which they are compared. *)
Record hessContrib := mkHC {
  indexedIndexed : list (nat * nat); indexedNonIndexed : list (nat * nat);
  indexedTemp : list (nat * nat); nonIndexedIndexed : list (nat * nat);
  nonIndexedNonIndexed : list (nat * nat); tempIndexed : list (nat * nat) }.

Definition hessianContribLt (l r : hessContrib) : bool :=
  let c := compare pairLt (indexedIndexed l) (indexedIndexed r) in
  if negb (c =? 0)%Z then (c =? -1)%Z else
  let c := compare pairLt (indexedNonIndexed l) (indexedNonIndexed r) in
  if negb (c =? 0)%Z then (c =? -1)%Z else
  let c := compare pairLt (indexedTemp l) (indexedTemp r) in
  if negb (c =? 0)%Z then (c =? -1)%Z else
  let c := compare pairLt (nonIndexedIndexed l) (nonIndexedIndexed r) in
  if negb (c =? 0)%Z then (c =? -1)%Z else
  let c := compare pairLt (nonIndexedNonIndexed l) (nonIndexedNonIndexed r) in
  if negb (c =? 0)%Z then (c =? -1)%Z else
  let c := compare pairLt (tempIndexed l) (tempIndexed r) in
  if negb (c =? 0)%Z then (c =? -1)%Z else false.

(** patterns/dependent_pattern_matcher.hpp 31-45: UniqueEquationPair; an equation
    pattern is given by its depRefIndex. *)
Definition equationPair (e1 e2 : nat) : nat * nat := if e1 <? e2 then (e1, e2) else (e2, e1).
Definition equationPairLt (p1 p2 : nat * nat) : bool :=
  (fst p1 <? fst p2) || (negb (fst p2 <? fst p1) && (snd p1 <? snd p2)).

(** patterns/independent_node_sorter.hpp 32-56: a null node or the index of an
    independent variable. *)
Definition independentNodeLt (a b : option nat) : bool :=
  match a, b with
  | None, None => false
  | None, Some _ => true
  | Some _, None => false
  | Some i, Some j => i <? j
  end.

(** patterns/loop.hpp 1179-1217: IndexedIndepSorter; the independent variables of
    the iterations, which have the same number (asserted).  Reading the second
    list after its end is undefined behaviour and not modelled further: the
    theorems only use lists of the same length. *)
Fixpoint indexedIndepLt (a b : list (option nat)) : bool :=
  match a, b with
  | x :: r, y :: s =>
      match x, y with
      | None, None => indexedIndepLt r s
      | None, Some _ => false
      | Some _, None => true
      | Some i, Some j => if i <? j then true else if j <? i then false else indexedIndepLt r s
      end
  | _, _ => false
  end.

(** dae_index_reduction/dummy_deriv_util.hpp 30-34: sortVnodesByOrder, on the
    orders. *)
Definition vnodesByOrder (i j : nat) : bool := j <? i.

(** dae_index_reduction/dummy_deriv_util.hpp 39-61: DaeVarOrderInfo. *)
Record varOrder := mkVO { vo_index : nat; vo_index0 : nat; vo_hasDerivatives : bool; vo_order : Z }.

(** dae_index_reduction/dummy_deriv_util.hpp 100-111: sortVariablesByOrder. *)
Definition variablesByOrder (i j : varOrder) : bool :=
  if (vo_order j <? vo_order i)%Z then true
  else if (vo_order i <? vo_order j)%Z then false
  else if Bool.eqb (vo_hasDerivatives i) (vo_hasDerivatives j) then vo_index i <? vo_index j
  else vo_hasDerivatives i.

(** dae_index_reduction/dummy_deriv_util.hpp 66-89: DaeEqOrderInfo. *)
Record eqOrder := mkEO { eo_index : nat; eo_index0 : nat; eo_differential : bool; eo_assigned : Z }.

(** dae_index_reduction/dummy_deriv_util.hpp 121-139:
    sortEquationByAssignedOrder2. *)
Definition equationsByOrder (i j : eqOrder) : bool :=
  if eo_differential i then
    if eo_differential j then (eo_assigned i <? eo_assigned j)%Z else true
  else if eo_differential j then false
  else if eo_index0 i =? eo_index0 j then eo_index i =? eo_index0 j
  else eo_index0 i <? eo_index0 j.

(** operation_path_node.hpp 43-45: OperationPathNode::operator<; the address of the
    node and the index of the argument. *)
Definition pathNodeLt (a b : nat * nat) : bool := (fst a <? fst b) || (snd a <? snd b).

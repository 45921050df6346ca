(** * Model of the groups of equations linked by temporary variables *)
From Coq Require Import List Arith Bool.
From Verif Require Import Pool_model Sparsity_model.
Import ListNotations.
Local Open Scope nat_scope.

(** An equation pattern is given by a number (its address in the code). *)

(** patterns/equation_group.hpp 24-53: the parts of EquationGroup which record the
    links by non-indexed temporary variables. *)
Record eqGroup := mkG {
  g_equations : set;
  g_rel : list set;        (* linkedEquationsByNonIndexedRel *)
  g_linked : set }.        (* linkedEquationsByNonIndexed *)
Definition emptyGroup (eqs : set) : eqGroup := mkG eqs [] [].

(** patterns/equation_group.hpp 102-113: the position of the first set with the
    equation, or the number of sets. *)
Fixpoint findRel (rel : list set) (eq : nat) : nat :=
  match rel with
  | [] => 0
  | s :: r => if sfind eq s then 0 else S (findRel r eq)
  end.

(** patterns/equation_group.hpp 82-91: findNonIndexedLinkedRel; [None] is -1. *)
Definition findNonIndexedLinkedRel (g : eqGroup) (eq : nat) : option nat :=
  let p := findRel (g_rel g) eq in if p <? length (g_rel g) then Some p else None.

(** std::vector::erase at a position. *)
Fixpoint eraseAt {A} (l : list A) (k : nat) : list A :=
  match l, k with
  | [], _ => []
  | _ :: r, 0 => r
  | x :: r, S k' => x :: eraseAt r k'
  end.

(** patterns/equation_group.hpp 115-135: the update of
    linkedEquationsByNonIndexedRel. *)
Definition linkRel (rel : list set) (eq1 eq2 : nat) : list set :=
  let size := length rel in
  let pos1 := findRel rel eq1 in
  let pos2 := findRel rel eq2 in
  if pos1 =? pos2 then
    if pos1 =? size then rel ++ [sins eq2 (sins eq1 [])] else rel
  else if pos1 <? size then
    if pos2 <? size then
      eraseAt (setNth rel pos1 (sinsAll (nth pos2 rel []) (nth pos1 rel []))) pos2
    else setNth rel pos1 (sins eq2 (nth pos1 rel []))
  else setNth rel pos2 (sins eq1 (nth pos2 rel [])).

(** patterns/equation_group.hpp 93-136: addLinkedEquationsByNonIndexed. *)
Definition addLinked (g : eqGroup) (p : nat * nat) : eqGroup :=
  mkG (g_equations g) (linkRel (g_rel g) (fst p) (snd p)) (sins (snd p) (sins (fst p) (g_linked g))).

(** patterns/loop.hpp 232-260: merge, for the only group of each loop. *)
Definition mergeGroups (g og : eqGroup) (indexedRelations : list nat) (nonIndexedRelations : list (nat * nat)) : eqGroup :=
  let g1 := mkG (sinsAll (g_equations og) (g_equations g)) (g_rel g)
                (fold_left (fun s e => sdel e s) indexedRelations (sinsAll (g_linked og) (g_linked g))) in
  fold_left addLinked nonIndexedRelations g1.

(** * The text of an expression: in-order expansion (specification of C11) *)
From Coq Require Import List Arith.
From Verif Require Import Codegen_model Stream_model.
Import ListNotations.

Section Spec.
Context {T N : Type}.
Variable pieces : N -> outcome (list (item T N)).

(** [expands n t]: writing the pieces of node [n] from left to right, each sub-expression expanded where it stands,
    gives the texts [t] *)
Inductive expands : N -> list T -> Prop :=
 | expands_node n l t : pieces n = Done l -> expands_all l t -> expands n t
with expands_all : list (item T N) -> list T -> Prop :=
 | expands_nil : expands_all [] []
 | expands_text x l t : expands_all l t -> expands_all (IText x :: l) (x :: t)
 | expands_sub n l t1 t2 : expands n t1 -> expands_all l t2 -> expands_all (INode n :: l) (t1 ++ t2).

(** every sub-expression is simpler than the expression, and can be printed *)
Definition finite (rank : N -> nat) : Prop :=
  forall n l m, pieces n = Done l -> In (INode m) l -> rank m < rank n.
End Spec.
Scheme expands_mind := Minimality for expands Sort Prop with expands_all_mind := Minimality for expands_all Sort Prop.
Combined Scheme expands_mutind from expands_mind, expands_all_mind.

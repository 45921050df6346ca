(** * Substituting independent variables (C35)

    Models include/cppad/cg/graph_mod.hpp (substituteIndependent 21-67, undoSubstituteIndependent 69-78,
    removeIndependent 80-93), CodeHandler::getIndependentVariableIndex (code_handler_impl.hpp 140-150) and
    OperationNode::makeAlias and setOperation (operation_node.hpp 70-77, 104-110).

    Simplifications:
    - the checks in asserts have no effect (release build);
    - an independent variable is identified in the model by the number [k] of its operation [GInv k], in C++ by its
      address; undoing a substitution makes node [n] the independent variable [key n];
    - the nodes of all handlers are in one heap: "the node is in _codeBlocks of this handler" is [n_handler];
    - names of nodes are numbers. *)
From Coq Require Import List Bool Arith.
From Verif Require Import Graph_model CGArith_model Path_model Eval_model Solve_model Pool_model.
Import ListNotations.

Section Subst.
Context {B : Type} {O : BaseOps B}.

(** what these functions change: the nodes, _independentVariables (code_handler.hpp 61) and the names of nodes *)
Record gstate : Type := mkG { gs_heap : heap B; gs_inds : list nat; gs_names : nat -> option nat }.

Fixpoint eraseNth {A} (l : list A) (i : nat) : list A :=
  match l, i with
  | [], _ => []
  | _ :: l', 0 => l'
  | x :: l', S i' => x :: eraseNth l' i'
  end.

(** operation_node.hpp 70-77 *)
Definition makeAlias (s : gstate) (n : nat) (a : arg B) : gstate :=
  match nth_error (gs_heap s) n with
  | None => s
  | Some d => mkG (setNth (gs_heap s) n (mkNode (n_handler d) GAlias [a])) (gs_inds s)
                (fun j => if Nat.eqb j n then None else gs_names s j)
  end.
(** operation_node.hpp 104-110 *)
Definition setOperation (s : gstate) (n : nat) (o : gop) (args : list (arg B)) : gstate :=
  match nth_error (gs_heap s) n with
  | None => s
  | Some d => mkG (setNth (gs_heap s) n (mkNode (n_handler d) o args)) (gs_inds s) (gs_names s)
  end.

Variable half : B.
Variable h : nat. (* this handler *)
Variable key : nat -> nat.

(** graph_mod.hpp 28-67 *)
Definition substituteIndependent (max : option nat) (loops fuel : nat) (ord : nat -> nat -> list nat) (s : gstate)
    (indep dep : nat) (removeFromIndependents : bool) : sres gstate :=
  match indepIndex (gs_inds s) indep with
  | None => SThrow
  | Some indepIndex =>
      match nth_error (gs_heap s) dep with
      | None => SThrow
      | Some d =>
          if negb (Nat.eqb (n_handler d) h) then SThrow
          else
            sbind (solveFor half max loops fuel ord (gs_inds s) (gs_heap s) dep indep) (fun '(g1, dummyExp) =>
            let s1 := makeAlias (mkG g1 (gs_inds s) (gs_names s)) indep (argument dummyExp) in
            SOk (if removeFromIndependents
                 then mkG (gs_heap s1) (eraseNth (gs_inds s1) indepIndex) (gs_names s1)
                 else s1))
      end
  end.

(** graph_mod.hpp 69-78 *)
Definition undoSubstituteIndependent (s : gstate) (indep : nat) : sres gstate :=
  match indepIndex (gs_inds s) indep with
  | None => SThrow
  | Some _ => SOk (setOperation s indep (GInv (key indep)) [])
  end.

(** graph_mod.hpp 80-93 *)
Definition removeIndependent (s : gstate) (indep : nat) : sres gstate :=
  match nth_error (gs_heap s) indep with
  | None => SUndef
  | Some d =>
      match n_op d with
      | GAlias =>
          match indepIndex (gs_inds s) indep with
          | None => SThrow
          | Some k => SOk (mkG (gs_heap s) (eraseNth (gs_inds s) k) (gs_names s))
          end
      | _ => SThrow
      end
  end.
End Subst.
Arguments gstate B : clear implicits.

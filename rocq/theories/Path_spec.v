(** * Paths inside an operation graph (specification of C24) *)
From Coq Require Import List Bool Arith.
From Verif Require Import Graph_model.
Import ListNotations.

Section Spec.
Context {B : Type}.

(** argument [i] of node [n] is node [j] *)
Definition link (g : heap B) (n i j : nat) : Prop :=
  exists d, nth_error g n = Some d /\ nth_error (n_args d) i = Some (ANode j).

(** [leads g n l m]: from node [n], following the argument positions [l], one arrives at node [m] *)
Inductive leads (g : heap B) : nat -> list nat -> nat -> Prop :=
 | leads_here n : leads g n [] n
 | leads_step n i j l m : link g n i j -> leads g j l m -> leads g n (i :: l) m.

(** [m] occurs in the expression [n] *)
Definition occurs (g : heap B) (n m : nat) : Prop := exists l, leads g n l m.

(** the nodes on some path from [root] to [target] *)
Definition between (g : heap B) (root target n : nat) : Prop := occurs g root n /\ occurs g n target.

(** the graph has no cycle *)
Definition no_cycle (g : heap B) : Prop := exists r : nat -> nat, forall n i j, link g n i j -> r j < r n.
End Spec.

Section Results.
Context {B : Type}.
Variable g : heap B.

(** a SourceCodePath of BidirGraph: every element but the last holds the position of the next one among its arguments *)
Inductive down_path : nat -> list (nat * option nat) -> nat -> Prop :=
 | down_end n : down_path n [(n, None)] n
 | down_cons n i j p m : link g n i j -> down_path j p m -> down_path n ((n, Some i) :: p) m.

(** a path of CodeHandler::findPaths: every element but the first holds its own position among the arguments of the
    element before *)
Inductive chain : nat -> list (nat * nat) -> nat -> Prop :=
 | chain_end n : chain n [] n
 | chain_cons n i j p m : link g n i j -> chain j p m -> chain n ((j, i) :: p) m.
Definition found_path (root target : nat) (p : list (nat * nat)) : Prop :=
  exists q, p = (root, 0) :: q /\ chain root q target.

(** along [p] there is only one way to the target *)
Definition straight (target : nat) (p : list (nat * option nat)) : Prop :=
  forall n i, In (n, Some i) p -> forall k j, link g n k j -> occurs g j target -> k = i.
End Results.

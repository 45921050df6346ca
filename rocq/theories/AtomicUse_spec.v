(** * Specification: what it means that a model uses an atomic function *)
From Coq Require Import List Bool Arith.
From Verif Require Import AtomicUse_model.
Import ListNotations.

(** node [b] is needed to compute node [a] *)
Inductive needs (g : list Node) : nat -> nat -> Prop :=
| needs_self a : needs g a a
| needs_arg a nd c b : nth_error g a = Some nd -> In (Some c) (nargs nd) -> needs g c b -> needs g a b.

(** the node is a call of the atomic function which some dependent variable needs *)
Definition is_call (g : list Node) (deps : list (option nat)) (id a : nat) : Prop :=
  exists d nd p, In (Some d) deps /\ needs g d a /\ nth_error g a = Some nd /\ nop nd = AtomicForward id p.

(** independent variable [j] affects the node *)
Definition depends_on (g : list Node) (a j : nat) : Prop :=
  needs g a j /\ exists nd, nth_error g j = Some nd /\ nop nd = Inv.

(** the sizes of the two arrays of a call: independent and dependent variables of the atomic function *)
Definition call_sizes (g : list Node) (a : nat) (s : nat * nat) : Prop :=
  exists nd tx ty r ntx nty, nth_error g a = Some nd /\ nargs nd = Some tx :: Some ty :: r /\
    nth_error g tx = Some ntx /\ nth_error g ty = Some nty /\ s = (length (nargs ntx), length (nargs nty)).

(** graphs as the handler makes them: nodes come after their arguments; calls of atomic functions are of order zero and have two arrays *)
Definition made_in_order (g : list Node) : Prop :=
  forall a nd c, nth_error g a = Some nd -> In (Some c) (nargs nd) -> c < a.
Definition calls_well_formed (g : list Node) : Prop :=
  forall a nd id p, nth_error g a = Some nd -> nop nd = AtomicForward id p ->
    p = 0 /\ exists tx ty r ntx nty, nargs nd = Some tx :: Some ty :: r /\ nth_error g tx = Some ntx /\ nth_error g ty = Some nty /\
      nop ntx = ArrayCreation /\ nop nty = ArrayCreation.

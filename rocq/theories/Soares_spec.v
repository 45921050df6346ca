(** * What is claimed of the method of Soares and Secchi *)
From Coq Require Import List Arith Bool Permutation.
From Verif Require Import Match_model Match_spec.
Import ListNotations.

(** The order in which a set is gone through: any order of its members. *)
Definition orders (ord : nat -> list nat -> list nat) : Prop :=
  forall p l, Permutation (ord p l) l.

(** The structure of a system of ordinary differential equations: each
    equation has a variable of its own, present in it, and the variable of an
    equation that was not differentiated is a derivative and has no further
    derivative. *)
Definition ode_structure (g : graph) : Prop :=
  matching g /\
  (forall e, e < ne g -> exists v, e_asg (ge g e) = Some v /\ In v (e_orig (ge g e))) /\
  (forall e v, e < ne g -> e_der (ge g e) = None -> e_asg (ge g e) = Some v -> highest_derivative g v).

(** as many variables without derivative as equations without derivative *)
Definition square (g : graph) : Prop :=
  length (filter (fun v => is_none (v_der (gv g v))) (seq 0 (nv g))) =
  length (filter (fun e => is_none (e_der (ge g e))) (seq 0 (ne g))).

(** Every variable without derivative is a derivative and is the variable of
    an equation which was not differentiated: no algebraic variable is left. *)
Definition determined (g : graph) : Prop :=
  forall v, v < nv g -> v_der (gv g v) = None ->
    v_anti (gv g v) <> None /\
    exists e, e < ne g /\ e_der (ge g e) = None /\ v_asg (gv g v) = Some e /\ In v (e_orig (ge g e)).

(** The variables of the derivative of an equation are the derivatives of its
    variables. *)
Definition total_derivatives (g : graph) : Prop :=
  forall e d, e_der (ge g e) = Some d ->
    e < d /\ d < ne g /\ e_of (ge g d) = Some e /\
    (forall v, In v (e_orig (ge g e)) -> exists w, v_der (gv g v) = Some w /\ In w (e_orig (ge g d))) /\
    (forall w, In w (e_orig (ge g d)) -> exists v, In v (e_orig (ge g e)) /\ v_der (gv g v) = Some w).

(** What is removed at the end are derivatives which have no derivative. *)
Definition removable (g : graph) (l : list (option nat)) : Prop :=
  NoDup l /\ forall o, In o l -> exists d, o = Some d /\ d < ne g /\ e_of (ge g d) <> None /\ e_der (ge g d) = None.

(** * What is claimed of the matching of equations and variables *)
From Coq Require Import List Arith Bool.
From Verif Require Import Match_model.
Import ListNotations.

(** [v] is one of the variables (not deleted) of equation [e] *)
Definition occurs (g : graph) (v e : nat) : Prop := In v (e_vars (ge g e)).

(** equation [e] has a variable assigned to it *)
Definition matched (g : graph) (e : nat) : Prop := e_asg (ge g e) <> None.

(** The assignments form a matching: equation and variable name each other.
    As both sides are functions no variable has two equations and no equation
    two variables. *)
Definition matching (g : graph) : Prop :=
  forall v e, v_asg (gv g v) = Some e <-> e_asg (ge g e) = Some v.

(** only equations of the graph are assigned *)
Definition in_range (g : graph) : Prop := forall v e, v_asg (gv g v) = Some e -> e < ne g.

(** Variables that may be matched: any variable for the first procedure;
    highest derivatives (which are not algebraic) for the second. *)
Definition any_variable (_ : graph) (_ : nat) : Prop := True.
Definition highest_derivative (g : graph) (v : nat) : Prop :=
  v_der (gv g v) = None /\ v_anti (gv g v) <> None.

Definition allowed (K : variant) : graph -> nat -> Prop :=
  if marks K then any_variable else highest_derivative.

(** no node has a colour (state left by [uncolorAll]) *)
Definition uncoloured (g : graph) : Prop :=
  (forall v, v_col (gv g v) = false) /\ (forall e, e_col (ge g e) = false).

(** [r] chooses for each equation of [P] one of its allowed variables, no
    variable twice. *)
Definition representatives (C : nat -> Prop) (g : graph) (P : nat -> Prop) (r : nat -> nat) : Prop :=
  (forall e, P e -> occurs g (r e) e /\ C (r e)) /\
  (forall e e', P e -> P e' -> r e = r e' -> e = e').

(** the graph without its assignments and colours is the same *)
Definition same_structure (g g' : graph) : Prop :=
  nv g' = nv g /\ ne g' = ne g /\
  (forall v, v_del (gv g' v) = v_del (gv g v) /\ v_eqs (gv g' v) = v_eqs (gv g v) /\
             v_der (gv g' v) = v_der (gv g v) /\ v_anti (gv g' v) = v_anti (gv g v)) /\
  (forall e, e_orig (ge g' e) = e_orig (ge g e) /\ e_vars (ge g' e) = e_vars (ge g e) /\
             e_der (ge g' e) = e_der (ge g e) /\ e_of (ge g' e) = e_of (ge g e)).

(** ** Pantelides' method *)

(** The graph of a model before the reduction.  Variables are present in the
    equations named by [e_vars], each derivative names its variable and
    conversely, nothing is deleted or assigned, no equation is a derivative. *)
Record model_graph (g : graph) : Prop := {
  mg_range : forall e v, In v (e_orig (ge g e)) -> v < nv g /\ e < ne g;
  mg_nodup : forall e, NoDup (e_orig (ge g e));
  mg_vars : forall e, e_vars (ge g e) = e_orig (ge g e);
  mg_eqs : forall e v, In e (v_eqs (gv g v)) <-> In v (e_orig (ge g e));
  mg_der : forall v w, v_der (gv g v) = Some w <-> v_anti (gv g w) = Some v;
  mg_lt : forall v w, v_der (gv g v) = Some w -> v < w /\ w < nv g;
  mg_new : forall e, e_der (ge g e) = None /\ e_asg (ge g e) = None;
  mg_free : forall v, v_del (gv g v) = false /\ v_asg (gv g v) = None }.

(** [w] is [v] or a derivative of [v] of some order *)
Inductive derived (g : graph) (v : nat) : nat -> Prop :=
| derived_refl : derived g v v
| derived_step u w : derived g v u -> v_der (gv g u) = Some w -> derived g v w.

Definition same_chain (g : graph) (v w : nat) : Prop := derived g v w \/ derived g w v.

(** The structure is regular: [t] names for each equation a variable occurring
    in it, and the variables of two equations are never derivatives of one
    another. *)
Definition transversal (g : graph) (t : nat -> nat) : Prop :=
  (forall f, f < ne g -> In (t f) (e_orig (ge g f))) /\
  (forall f f', f < ne g -> f' < ne g -> same_chain g (t f) (t f') -> f = f').

(** What the method establishes: every equation that was not differentiated is
    assigned a variable of that equation which has no derivative in the graph,
    and no two equations the same. *)
Definition index_one_matching (g : graph) : Prop :=
  matching g /\
  forall e, e < ne g -> e_der (ge g e) = None ->
    exists v, e_asg (ge g e) = Some v /\ In v (e_orig (ge g e)) /\ v_der (gv g v) = None.

(** A differentiated equation has exactly the variables of the equation and
    their derivatives. *)
Definition derivatives_of_equations (g : graph) : Prop :=
  forall e d, e_der (ge g e) = Some d ->
    e < d /\ d < ne g /\ e_of (ge g d) = Some e /\
    (forall v, In v (e_orig (ge g e)) -> exists w, v_der (gv g v) = Some w /\ In w (e_orig (ge g d))) /\
    (forall w, In w (e_orig (ge g d)) -> In w (e_orig (ge g e)) \/
       exists v, In v (e_orig (ge g e)) /\ v_der (gv g v) = Some w).

(** The original part of the graph is kept: equations keep their variables,
    variables and equations their derivatives, and the derivatives added are
    new variables and equations. *)
Definition keeps_original (g g' : graph) : Prop :=
  nv g <= nv g' /\ ne g <= ne g' /\
  (forall e, e < ne g -> e_orig (ge g' e) = e_orig (ge g e)) /\
  (forall v w, v_der (gv g v) = Some w -> v_der (gv g' v) = Some w) /\
  (forall v w, v_der (gv g' v) = Some w -> v_der (gv g v) = Some w \/ nv g <= w) /\
  (forall e d, e_der (ge g e) = Some d -> e_der (ge g' e) = Some d) /\
  (forall e d, e_der (ge g' e) = Some d -> e_der (ge g e) = Some d \/ ne g <= d).

(** The check made when the graph is built: as many equations as variables
    that are derivatives or have no derivative. *)
Definition well_determined (g : graph) : Prop :=
  length (filter (fun v => negb (is_none (v_anti (gv g v))) || is_none (v_der (gv g v))) (seq 0 (nv g))) = ne g.

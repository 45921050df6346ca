(** * What the index reduced model must be (no function of the generation is used here) *)
From Coq Require Import List Arith Bool ZArith Reals.
From Verif Require Import DaeGen_model.
Import ListNotations.
Local Open Scope nat_scope.

(** ** The information of the user: as the constructors of DaeVarInfo make it.  Antiderivatives exist and are functions of time, no
    variable has two derivatives and no variable is its own antiderivative.  The time variable is not a function of time. *)
Definition fresh (v : vinfo) : Prop := i_der v = None /\ i_order v = 0%Z /\ i_oanti v = None.
Definition validInfo (vs : list vinfo) : Prop :=
  (forall j v, nth_error vs j = Some v -> fresh v) /\
  (forall j v a, nth_error vs j = Some v -> i_anti v = Some a -> i_fun v = true /\ exists w, nth_error vs a = Some w /\ i_fun w = true) /\
  (forall j j' v v' a, nth_error vs j = Some v -> nth_error vs j' = Some v' -> i_anti v = Some a -> i_anti v' = Some a -> j = j') /\
  (exists rank : nat -> nat, forall j v a, nth_error vs j = Some v -> i_anti v = Some a -> rank a < rank j) /\
  (forall j v, nth_error vs j = Some v -> i_int v = true -> i_fun v = false).

(** The variables of an expression. *)
Fixpoint occurs {K} (j : nat) (e : ex K) : Prop :=
  match e with
  | ECst _ => False | EVar k => k = j
  | EAdd a b | ESub a b | EMul a b | EFun2 _ _ _ a b => occurs j a \/ occurs j b
  | EFun _ _ a => occurs j a
  | ETime a b c => occurs j a \/ occurs j b \/ occurs j c
  end.
(** The model of the user: [n] variables; time_var is not used; the pattern of the Jacobian has all the variables. *)
Fixpoint noTime {K} (e : ex K) : Prop :=
  match e with
  | ECst _ | EVar _ => True
  | EAdd a b | ESub a b | EMul a b | EFun2 _ _ _ a b => noTime a /\ noTime b
  | EFun _ _ a => noTime a
  | ETime _ _ _ => False
  end.
Definition validModel {K} (n : nat) (es : list (ex K)) (sparsity : nat -> nat -> bool) : Prop :=
  forall i e, nth_error es i = Some e -> noTime e /\ forall j, occurs j e -> j < n /\ sparsity i j = true.

(** Every function of time is in an equation. *)
Definition allUsed (vs : list vinfo) (m : nat) (sparsity : nat -> nat -> bool) : Prop :=
  forall j v, nth_error vs j = Some v -> i_fun v = true -> exists i, i < m /\ sparsity i j = true.

(** ** Calls: derivatives are made of what is in the graph; only equations which were made and have no derivative are removed
    (bipartite_graph.hpp 428-429). *)
Definition allowed (o : op) (g : gr) : Prop :=
  match o with
  | CreateVar j => In j (g_va g)
  | CreateEq _ i => In i (g_ea g)
  | Remove i => In i (g_ea g) /\ exists e, nth_error (g_e g) i = Some e /\ e_der e = None /\ e_of e <> None
  end.
Fixpoint allowedAll (n n0 : nat) (os : list op) (g : gr) : Prop :=
  match os with
  | [] => True
  | o :: r => allowed o g /\ match step n n0 o g with Some g => allowedAll n n0 r g | None => True end
  end.
Definition isCreateVar (o : op) : bool := match o with CreateVar _ => true | _ => false end.

(** ** Values *)
Section Values.
Context {K : Type}.
Variable cst : K -> R.
Variable F1 : nat -> nat -> R -> R.
Variable F2 : nat -> nat -> nat -> R -> R -> R.
Local Open Scope R_scope.
Fixpoint ev (x : nat -> R) (e : ex K) : R :=
  match e with
  | ECst k => cst k | EVar j => x j
  | EAdd a b => ev x a + ev x b | ESub a b => ev x a - ev x b | EMul a b => ev x a * ev x b
  | EFun f o a => F1 f o (ev x a) | EFun2 f o o' a b => F2 f o o' (ev x a) (ev x b)
  | ETime a _ _ => ev x a
  end.
(** The functions of the expression have their derivatives at the point [x]. *)
Fixpoint regular (x : nat -> R) (e : ex K) : Prop :=
  match e with
  | ECst _ | EVar _ => True
  | EAdd a b | ESub a b | EMul a b => regular x a /\ regular x b
  | EFun f o a => regular x a /\ derivable_pt_lim (F1 f o) (ev x a) (F1 f (S o) (ev x a))
  | EFun2 f o o' a b =>
      regular x a /\ regular x b /\
      forall (u v : R -> R) (s du dv : R), u s = ev x a -> v s = ev x b -> derivable_pt_lim u s du -> derivable_pt_lim v s dv ->
        derivable_pt_lim (fun s => F2 f o o' (u s) (v s)) s (F2 f (S o) o' (ev x a) (ev x b) * du + F2 f o (S o') (ev x a) (ev x b) * dv)
  | ETime a _ _ => regular x a
  end.
(** A trajectory [x]: the variables of the tape as functions of time.  At time [s] the derivatives of variables are the
    variables which are said to be their derivatives, parameters do not change, and the time variable is the time. *)
Definition follows (vs : list vinfo) (x : nat -> R -> R) (s : R) : Prop :=
  forall j v, nth_error vs j = Some v ->
    (forall d, i_der v = Some d -> derivable_pt_lim (x j) s (x d s)) /\
    (i_fun v = false -> derivable_pt_lim (x j) s (if i_int v then 1 else 0)).
Definition at_ (x : nat -> R -> R) (s : R) (j : nat) : R := x j s.
End Values.

(** ** The information of the variables: [history vs j r k]: variable [j] is the [k]-th derivative of [r]. *)
Inductive history (vs : list vinfo) : nat -> nat -> nat -> Prop :=
  | H_0 j v : nth_error vs j = Some v -> i_anti v = None -> history vs j j 0
  | H_S j v a r k : nth_error vs j = Some v -> i_anti v = Some a -> history vs a r k -> history vs j r (S k).
Definition goodInfo (vs : list vinfo) : Prop :=
  (forall j v, nth_error vs j = Some v -> i_id v = j) /\
  (forall j v d, nth_error vs j = Some v -> (i_der v = Some d <-> exists w, nth_error vs d = Some w /\ i_anti w = Some j)) /\
  (forall j v a, nth_error vs j = Some v -> i_anti v = Some a -> exists w, nth_error vs a = Some w) /\
  (forall j v, nth_error vs j = Some v -> exists r k, history vs j r k /\ i_order v = Z.of_nat k /\ (k <> 0 -> i_oanti v = Some r)).
(** The equations: [m] are of the user. *)
Definition goodEqs (m : nat) (qs : list einfo) : Prop :=
  (forall p q, nth_error qs p = Some q -> q_id q = p /\
     (p < m -> q_orig q = Some p /\ q_anti q = None) /\
     (m <= p -> q_orig q = None /\ exists a, q_anti q = Some a /\ a < p)) /\
  (forall p p' q q' a, nth_error qs p = Some q -> nth_error qs p' = Some q' -> q_anti q = Some a -> q_anti q' = Some a -> p = p') /\
  m <= List.length qs.

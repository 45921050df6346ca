(** * What dummy derivatives must be (no function of the selection or of the bookkeeping is used here) *)
From Coq Require Import List Arith Bool ZArith Permutation.
From Verif Require Import DaeGen_model DummyD_model.
Import ListNotations.
Local Open Scope nat_scope.

(** ** The graph: derivatives and antiderivatives point at each other and do not form cycles *)
Definition linkedBy (idx : list nat) (anti der : nat -> option nat) : Prop :=
  NoDup idx /\
  (forall k a, In k idx -> anti k = Some a -> In a idx /\ der a = Some k) /\
  (forall k d, In k idx -> der k = Some d -> In d idx /\ anti d = Some k) /\
  exists rank : nat -> nat, forall k a, In k idx -> anti k = Some a -> rank a < rank k.
Definition linked (g : gr) : Prop :=
  linkedBy (g_va g) (vAnti g) (vDer g) /\ linkedBy (g_ea g) (eOf g) (eDer g) /\
  (forall i, In i (g_ea g) -> i < List.length (g_e g)).

(** ** Eigen: the order of the columns is a permutation; the rank is at most the number of columns *)
Definition qrOk (qr : list nat -> list nat -> option (list nat)) : Prop :=
  forall rows cols piv, qr rows cols = Some piv -> Permutation piv (seq 0 (List.length cols)) /\ List.length rows <= List.length cols.
Definition sortOk (srt : list nat -> list nat) : Prop := forall l, Permutation (srt l) l.

(** ** Positions after a removal *)
Definition keptBefore (removed : nat -> bool) (p : nat) : nat := List.length (filter (fun k => negb (removed k)) (seq 0 p)).

(** ** Links by identifier *)
Definition idAt (vs : list vinfo) (a : option nat) : option nat :=
  match a with Some a => option_map i_id (nth_error vs a) | None => None end.
Definition eqIdAt (qs : list dinfo) (a : option nat) : option nat :=
  match a with Some a => option_map d_id (nth_error qs a) | None => None end.
Definition linksIn (vs : list vinfo) : Prop :=
  forall j v a, nth_error vs j = Some v -> i_anti v = Some a \/ i_der v = Some a -> a < List.length vs.
Definition eqLinksIn (nv : nat) (qs : list dinfo) : Prop :=
  forall i q, nth_error qs i = Some q -> (forall a, d_anti q = Some a -> a < List.length qs) /\ (forall a, d_var q = Some a -> a < nv).
(** A variable which is still there: same identifier; [f] says which links stay. *)
Definition only (p : nat -> bool) (a : option nat) : option nat :=
  match a with Some a => if p a then Some a else None | None => None end.

(** ** The order of the variables that setReorder documents: differential variables, algebraic variables, derivatives, integrated
    variable.  0 to 3 *)
Definition documentedClass (vs : list vinfo) (j : nat) : nat :=
  match nth_error vs j with
  | Some v => if i_int v then 3 else if some (i_anti v) then 2
              else if existsb (fun w => match i_anti w with Some a => a =? j | None => false end) vs then 0 else 1
  | None => 3 end.
(** [o] is sorted by what the code compares *)
Definition sortedBy (before : nat -> nat -> bool) (o : list nat) : Prop :=
  forall p q i j, p < q -> nth_error o p = Some i -> nth_error o q = Some j -> before j i = false.

(** ** The values of the old variables which are still in the model, in their old order; [val] by identifier *)
Definition oldOrder {V} (vs vs' : list vinfo) (val : nat -> V) : list (option V) :=
  map (fun v => Some (val (i_id v))) (filter (fun v => existsb (fun w => i_id w =? i_id v) vs') vs).

(** ** Solutions: substitution of a variable by what an equation is solved for.  [Solved res e d sol]: the equation [e] holds iff the
    variable [d] is [sol], which does not use [d] *)
Section Solutions.
Context {V : Type}.
Variable zero : V.
Definition env := nat -> V.
Definition setv (x : env) (d : nat) (v : V) : env := fun j => if j =? d then v else x j.
Definition Solved (f : env -> V) (d : nat) (sol : env -> V) : Prop :=
  (forall x v, sol (setv x d v) = sol x) /\ (forall x, f x = zero <-> x d = sol x).
(** Substitution in every residual (reduceEquations, generateSemiExplicitDAE) *)
Definition substituted (res : nat -> env -> V) (d : nat) (sol : env -> V) : nat -> env -> V := fun k x => res k (setv x d (sol x)).
Fixpoint Eliminated (res : nat -> env -> V) (steps : list (nat * nat * (env -> V))) : Prop :=
  match steps with
  | [] => True
  | (e, d, sol) :: r => Solved (res e) d sol /\ Eliminated (substituted res d sol) r
  end.
Fixpoint after (res : nat -> env -> V) (steps : list (nat * nat * (env -> V))) : nat -> env -> V :=
  match steps with [] => res | (e, d, sol) :: r => after (substituted res d sol) r end.
End Solutions.

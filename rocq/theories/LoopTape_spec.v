(** * What is claimed of equation patterns and loops *)
From Coq Require Import List Arith Bool Sorted.
From Verif Require Import LoopTape_model.
Import ListNotations.
Local Open Scope nat_scope.

Section Spec.
Context {V : Type}.
Implicit Types g : graph V.

(** A recorded graph: arguments are before operations, independents have no arguments, and the only aliases are those of
    independents (made for dependents which are independents). *)
Definition recordedGraph g : Prop :=
  forall k n, nth_error g k = Some n ->
    (forall j, In (AN j) (n_args n) -> j < k) /\
    (n_op n = OInv -> n_args n = []) /\
    (n_op n = OAlias -> exists j, n_args n = [AN j] /\ isInv g j = true).

(** A dependent: a parameter or an operation of the graph. *)
Definition dependent g (a : arg V) : Prop :=
  match a with AC _ => True | AN k => k < List.length g /\ isInv g k = false end.

(** The expression of a node, without saying which independents are used. *)
Inductive tree := TX | TC (v : V) | TN (o : opc) (info : list nat) (l : list tree).
Definition argShape (ts : list tree) (a : arg V) : tree := match a with AC v => TC v | AN k => nth k ts TX end.
Definition shapes g : list tree :=
  foldG (fun _ n ts => match n_op n with OInv => TX | o => TN o (n_info n) (map (argShape ts) (n_args n)) end) g.
Definition shapeOf g (a : arg V) : tree := argShape (shapes g) a.

(** The patterns [ps] of the candidates [cs]: two or more dependents in increasing order, no dependent in two of them, the
    reference is the first, and two candidates are in a pattern exactly if their expressions are the same but for the
    independents. *)
Definition exactFor g (deps : list (arg V)) (cs : list nat) (ps : list pattern) : Prop :=
  (forall p, In p ps -> 2 <= List.length (p_deps p) /\ StronglySorted lt (p_deps p) /\ hd_error (p_deps p) = Some (p_ref p) /\ incl (p_deps p) cs) /\
  (forall d d' a a', In d cs -> In d' cs -> d <> d' -> nth_error deps d = Some a -> nth_error deps d' = Some a' ->
     ((exists p, In p ps /\ In d (p_deps p) /\ In d' (p_deps p)) <-> shapeOf g a = shapeOf g a')) /\
  NoDup (concat (map p_deps ps)).

(** The arguments of operations. *)
Definition argAt g (k a : nat) : option (arg V) :=
  match nth_error g k with Some n => nth_error (n_args n) a | None => None end.

(** The operations at the same positions of two expressions. *)
Inductive below g : nat * nat -> nat * nat -> Prop :=
  | B_refl p : below g p p
  | B_step p r s a r' s' : below g p (r, s) -> argAt g r a = Some (AN r') -> argAt g s a = Some (AN s') ->
                           isInv g r' = false -> below g p (r', s').

(** Where argument [a] of the operation [op] of the expression [r0] is, the expression [s0] has the independent [j]. *)
Definition uses g (r0 s0 op a j : nat) : Prop :=
  exists s, below g (r0, s0) (op, s) /\ argAt g s a = Some (AN j) /\ isInv g j = true.

(** The second expression uses the same independents wherever the first uses an operation again. *)
Definition consistent g (r0 s0 : nat) : Prop :=
  forall op a j j', uses g r0 s0 op a j -> uses g r0 s0 op a j' -> j = j'.

(** Operations which are in both expressions are at the same positions. *)
Definition aligned g (r0 s0 : nat) : Prop :=
  forall r s t, below g (r0, s0) (r, s) -> r <> s -> ~ below g (r0, s0) (s, t).

(** A pattern which can be used: both for all of its dependents. *)
Definition usable g (deps : list (arg V)) (p : pattern) : Prop :=
  forall d r s, In d (p_deps p) -> d <> p_ref p -> nth_error deps (p_ref p) = Some (AN r) -> nth_error deps d = Some (AN s) ->
    consistent g r s /\ aligned g r s.

(** The independent at a position changes among the dependents of the pattern. *)
Definition varies g (deps : list (arg V)) (p : pattern) (op a : nat) : Prop :=
  exists d d' r s s' j j', In d (p_deps p) /\ In d' (p_deps p) /\ nth_error deps (p_ref p) = Some (AN r) /\
    nth_error deps d = Some (AN s) /\ nth_error deps d' = Some (AN s') /\ uses g r s op a j /\ uses g r s' op a j' /\ j <> j'.

(** Different equations of a loop which share operations in the reference iteration: the operations use the same independents in each
    iteration, and the same positions change. *)
Definition agree g (deps : list (arg V)) (ps : list pattern) (iters : list (list nat)) : Prop :=
  forall p q d e it r s r' s' op a j j', In p ps -> In q ps -> p <> q -> In it iters -> In d it -> In e it -> In d (p_deps p) -> In e (p_deps q) ->
    nth_error deps (p_ref p) = Some (AN r) -> nth_error deps d = Some (AN s) ->
    nth_error deps (p_ref q) = Some (AN r') -> nth_error deps e = Some (AN s') ->
    uses g r s op a j -> uses g r' s' op a j' ->
    j = j' /\ (varies g deps p op a <-> varies g deps q op a).

(** Iterations as C51 gives them: each dependent of the patterns in one iteration, one dependent of a pattern in an iteration. *)
Definition iterations (ps : list pattern) (iters : list (list nat)) : Prop :=
  (forall p d, In p ps -> In d (p_deps p) -> exists it s, nth_error iters it = Some s /\ In d s) /\
  (forall it it' s s' d, nth_error iters it = Some s -> nth_error iters it' = Some s' -> In d s -> In d s' -> it = it') /\
  (forall s d, In s iters -> In d s -> exists p, In p ps /\ In d (p_deps p)) /\
  (forall s p d d', In s iters -> In p ps -> In d s -> In d' s -> In d (p_deps p) -> In d' (p_deps p) -> d = d').
End Spec.
Arguments tree : clear implicits.

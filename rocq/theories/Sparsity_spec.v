(** * What sparsity patterns mean *)
From Coq Require Import List Arith Sorted.
From Verif Require Import Sparsity_model.
Import ListNotations.
Local Open Scope nat_scope.

(** The element of row [i] and column [j] is in the pattern. *)
Definition entry (p : pat) (i j : nat) : Prop :=
  exists s, nth_error p i = Some s /\ In j s.

(** Every set lists its elements once in increasing order (std::set). *)
Definition isset (s : set) : Prop := StronglySorted lt s.
Definition sets (p : pat) : Prop := Forall isset p.

(** [p] has (at least) [m] rows, and the columns of the first [m] rows are below
    [n]. *)
Definition rows_cols (p : pat) (m n : nat) : Prop :=
  m <= List.length p /\ forall i j, i < m -> entry p i j -> j < n.

(** [p'] is [p] with the elements of [R] added. *)
Definition plus (p : pat) (R : nat -> nat -> Prop) (p' : pat) : Prop :=
  List.length p' = List.length p /\ sets p' /\
  forall i j, entry p' i j <-> entry p i j \/ R i j.

(** Matrix expressions over patterns of the given numbers of rows. *)
Definition upto (m : nat) (a : pat) : nat -> nat -> Prop := fun i j => i < m /\ entry a i j.
Definition transposed (R : nat -> nat -> Prop) : nat -> nat -> Prop := fun i j => R j i.
Definition product (R1 R2 : nat -> nat -> Prop) : nat -> nat -> Prop :=
  fun i j => exists k, R1 i k /\ R2 k j.

(** [l] lists the elements of a pattern row by row, each row in increasing
    order, so no element twice. *)
Definition before (x y : nat * nat) : Prop :=
  fst x < fst y \/ (fst x = fst y /\ snd x < snd y).
Definition enumerates (R : nat -> nat -> Prop) (row col : list nat) : Prop :=
  List.length row = List.length col /\
  StronglySorted before (combine row col) /\
  forall i j, In (i, j) (combine row col) <-> R i j.

(** A pattern with exactly [m] rows and columns below [n]. *)
Definition shape (p : pat) (m n : nat) : Prop :=
  List.length p = m /\ sets p /\ forall i j, entry p i j -> j < n.

(** The element of row [i] and column [j] of a dense pattern with [n] columns. *)
Definition dense (sp : list bool) (m n : nat) (i j : nat) : Prop :=
  i < m /\ j < n /\ nth_error sp (i * n + j) = Some true.

(** Selected dependents. *)
Definition chosen (s : list bool) (i : nat) : Prop := nth_error s i = Some true.

(** * What reported patterns and layouts of sparse results mean *)
From Coq Require Import List Arith Sorted.
From Verif Require Import Sparsity_model Sparsity_spec Report_model.
Import ListNotations.
Local Open Scope nat_scope.

(** The patterns of a recorded function: sets of indices in range, and an equation has second derivatives only with respect to
    variables it depends on. *)
Definition sound (f : recorded) : Prop :=
  (forall i, i < rM f -> isset (rJac f i) /\ forall j, In j (rJac f i) -> j < rN f) /\
  (forall i j, i < rM f -> isset (rHes f i j) /\ forall k, In k (rHes f i j) -> k < rN f /\ In j (rJac f i)).

(** The second derivatives of equation [i], and those of any equation. *)
Definition second (f : recorded) (i j k : nat) : Prop := In k (rHes f i j).
Definition secondAny (f : recorded) (j k : nat) : Prop := exists i, i < rM f /\ second f i j k.
Definition first (f : recorded) (i j : nat) : Prop := i < rM f /\ In j (rJac f i).

(** Requested elements: as many rows as columns, all inside the matrix. *)
Definition inside (m n : nat) (rows cols : list nat) : Prop :=
  List.length rows = List.length cols /\ forall i j, In (i, j) (combine rows cols) -> i < m /\ j < n.

(** [rows'] and [cols'] are the requested elements which [R] has, in the order of the request: [sel] are their positions. *)
Definition selects (R : nat -> nat -> Prop) (rows cols rows' cols' : list nat) : Prop :=
  exists sel : list nat,
    StronglySorted lt sel /\
    (forall e, In e sel <-> e < List.length rows /\ R (nth e rows 0) (nth e cols 0)) /\
    rows' = map (fun e => nth e rows 0) sel /\ cols' = map (fun e => nth e cols 0) sel.

(** A report describes the positions [P]: the three forms agree with it. *)
Definition describes (P : nat -> nat -> Prop) (m n : nat) (lists : xout (list nat * list nat)) (asSet : xout pat)
    (asBool : xout (list bool)) : Prop :=
  (exists rows cols, lists = XOk (rows, cols) /\ List.length rows = List.length cols /\
     forall i j, In (i, j) (combine rows cols) <-> P i j) /\
  (exists p, asSet = XOk p /\ List.length p = m /\ sets p /\ forall i j, entry p i j <-> P i j) /\
  (exists s, asBool = XOk s /\ List.length s = m * n /\ forall i j, i < m -> j < n -> (nth_error s (i * n + j) = Some true <-> P i j)).

(** The positions of two lists. *)
Definition listed (rows cols : list nat) (i j : nat) : Prop := In (i, j) (combine rows cols).

(** [mat] is the matrix of [D], by rows. *)
Definition matrix {V} (m n : nat) (D : nat -> nat -> V) (mat : list V) : Prop :=
  List.length mat = m * n /\ forall i j, i < m -> j < n -> nth_error mat (i * n + j) = Some (D i j).

(** The results [vals] are those of [D] at the positions of [rows] and [cols]. *)
Definition valuesAt {V} (D : nat -> nat -> V) (rows cols : list nat) (vals : list V) : Prop :=
  List.length vals = List.length rows /\
  forall e i j, nth_error rows e = Some i -> nth_error cols e = Some j -> nth_error vals e = Some (D i j).

(** What the generated functions of a library are expected to do: they write as many elements as reported, the positions are
    inside the matrix, a sparse function comes with its pattern (loadFunctions checks it). *)
Definition wellFormed {V} (g : @loaded V) : Prop :=
  (forall F ins, gZero g = Some F -> List.length (F ins) = gM g) /\
  (forall F ins, gHes g = Some F -> List.length (F ins) = gN g * gN g) /\
  (forall F, gSJac g = Some F -> exists rows cols, gJacSp g = Some (rows, cols, List.length rows) /\
  forall ins, List.length (F ins) = List.length rows) /\
  (forall F, gSHes g = Some F -> exists rows cols, gHesSp g = Some (rows, cols, List.length rows) /\
  forall ins, List.length (F ins) = List.length rows) /\
  (forall rows cols nnz, gJacSp g = Some (rows, cols, nnz) -> nnz = List.length rows /\ inside (gM g) (gN g) rows cols) /\
  (forall rows cols nnz, gHesSp g = Some (rows, cols, nnz) -> nnz = List.length rows /\ inside (gN g) (gN g) rows cols) /\
  (List.length (gIn g) = 1 -> gIn g = [gN g]).

(** Equality of positions is decidable. *)
Definition prod_dec (a b : nat * nat) : {a = b} + {a <> b}.
Proof. decide equality; apply Nat.eq_dec. Defined.

(** The matrix of [D] at the listed positions and [z] elsewhere. *)
Definition only {V} (z : V) (rows cols : list nat) (D : nat -> nat -> V) (i j : nat) : V :=
  if in_dec prod_dec (i, j) (combine rows cols) then D i j else z.

(** * Model of ArrayView *)
From Coq Require Import List NArith Bool.
Import ListNotations.
Local Open Scope N_scope.

(** Values of size_t. *)
Definition size_max : N := 2 ^ 64.
Definition wrap (x : N) : N := x mod size_max.

(** array_view.hpp 29-53: a view; [v_data] is the address of the first element in
    the memory [list A] which is looked at. *)
Record view := mkView { v_data : N; v_length : N }.

(** [VError]: CPPADCG_ASSERT_KNOWN or CPPAD_ASSERT_KNOWN calls the error handler,
    [VThrow]: a CGException, [VUndefined]: memory is used which is not there. *)
Inductive vres (A : Type) : Type := VOk (a : A) | VError | VThrow | VUndefined.
Arguments VOk {A} a. Arguments VError {A}. Arguments VThrow {A}. Arguments VUndefined {A}.

Definition vcheck (b : bool) {A} (k : vres A) : vres A := if b then k else VError.

(** Reading and writing memory. *)
Section Mem.
  Context {A : Type}.
  Definition load (m : list A) (a : N) : vres A :=
    match nth_error m (N.to_nat a) with Some x => VOk x | None => VUndefined end.
  Fixpoint put (m : list A) (i : nat) (x : A) : list A :=
    match m, i with
    | [], _ => []
    | _ :: r, O => x :: r
    | y :: r, S j => y :: put r j x
    end.
  Definition store (m : list A) (a : N) (x : A) : vres (list A) :=
    if a <? N.of_nat (length m) then VOk (put m (N.to_nat a) x) else VUndefined.

  (** array_view.hpp 237-248: head. *)
  Definition head (v : view) (n : N) : vres view :=
    vcheck (n <=? v_length v) (VOk (mkView (v_data v) n)).
  (** array_view.hpp 253-265: tail. *)
  Definition tail (v : view) (n : N) : vres view :=
    vcheck (n <=? v_length v) (VOk (mkView (v_data v + (v_length v - n)) n)).
  (** array_view.hpp 270-285: segment; start + n is computed in size_t. *)
  Definition segment (v : view) (start n : N) : vres view :=
    vcheck (start <? v_length v)
      (vcheck (wrap (start + n) <=? v_length v) (VOk (mkView (v_data v + start) n))).

  (** array_view.hpp 339-347: operator[]. *)
  Definition index (m : list A) (v : view) (i : N) : vres A :=
    vcheck (i <? v_length v) (load m (v_data v + i)).
  (** array_view.hpp 339-342: an assignment to operator[]. *)
  Definition assign (m : list A) (v : view) (i : N) (x : A) : vres (list A) :=
    vcheck (i <? v_length v) (store m (v_data v + i) x).
  (** array_view.hpp 349-359: at. *)
  Definition at_ (m : list A) (v : view) (i : N) : vres A :=
    if v_length v <=? i then VThrow else load m (v_data v + i).
  (** array_view.hpp 361-369: front. *)
  Definition front (m : list A) (v : view) : vres A :=
    vcheck (negb (v_length v =? 0)) (load m (v_data v)).
  (** array_view.hpp 371-379: back. *)
  Definition back (m : list A) (v : view) : vres A :=
    vcheck (negb (v_length v =? 0)) (load m (v_data v + v_length v - 1)).

  (** array_view.hpp 230-232: fill. *)
  Fixpoint fillFrom (m : list A) (a : N) (n : nat) (x : A) : vres (list A) :=
    match n with
    | O => VOk m
    | S n' => match store m a x with VOk m' => fillFrom m' (a + 1) n' x | e => e end
    end.
  Definition fill (m : list A) (v : view) (x : A) : vres (list A) :=
    fillFrom m (v_data v) (N.to_nat (v_length v)) x.

  (** array_view.hpp 390-392: the loop of operator=, in which the elements are read
      and written one after the other. *)
  Fixpoint copyFrom (m : list A) (d s : N) (n : nat) : vres (list A) :=
    match n with
    | O => VOk m
    | S n' =>
        match load m s with
        | VOk x => match store m d x with VOk m' => copyFrom m' (d + 1) (s + 1) n' | e => e end
        | VError => VError | VThrow => VThrow | VUndefined => VUndefined
        end
    end.
  (** array_view.hpp 382-395: operator=; [same] is whether both sides are the same
      object.  Also 397-411, in which there is no such test. *)
  Definition assignView (m : list A) (v x : view) (same : bool) : vres (list A) :=
    if same then VOk m
    else if negb (v_length x =? v_length v) then VThrow
    else copyFrom m (v_data v) (v_data x) (N.to_nat (v_length v)).

  (** array_view.hpp 413-437: operator= with a vector, which has its own memory. *)
  Fixpoint copyList (m : list A) (d : N) (l : list A) : vres (list A) :=
    match l with
    | [] => VOk m
    | x :: r => match store m d x with VOk m' => copyList m' (d + 1) r | e => e end
    end.
  Definition assignVector (m : list A) (v : view) (l : list A) : vres (list A) :=
    if negb (N.of_nat (length l) =? v_length v) then VThrow else copyList m (v_data v) l.
End Mem.

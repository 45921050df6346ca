(** What is claimed about the places of temporary arrays. *)
Require Import List Arith.
From Verif Require Import Arrays_model.
Import ListNotations.

(** the arrays which are in use after a history, with their sizes *)
Fixpoint drop_array (a : nat) (l : list (nat * nat)) : list (nat * nat) :=
  match l with
  | [] => []
  | (b, n) :: l' => if b =? a then drop_array a l' else (b, n) :: drop_array a l'
  end.
Definition live_step (l : list (nat * nat)) (e : aev) : list (nat * nat) :=
  match e with
  | EReserve a args => (a, length args) :: l
  | EFree a _ => drop_array a l
  end.
Definition live (h : list aev) : list (nat * nat) := fold_left live_step h [].

(** every array is reserved once, and released at most once, after it was reserved *)
Definition reserved (h : list aev) (a n : nat) : Prop := exists args, In (EReserve a args) h /\ length args = n.
Inductive legal : list aev -> Prop :=
| legal_nil : legal []
| legal_reserve h a args : legal h -> (forall n, ~ reserved h a n) -> legal (h ++ [EReserve a args])
| legal_free h a n : legal h -> In (a, n) (live h) -> legal (h ++ [EFree a n]).

(** the number of elements of all arrays *)
Definition total (h : list aev) : nat :=
  list_sum (map (fun e => match e with EReserve _ args => length args | EFree _ _ => 0 end) h).

Definition in_window (start size p : nat) : Prop := start <= p < start + size.

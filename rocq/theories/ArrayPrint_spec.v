(** What arrays of the generated code must hold. *)
Require Import List Arith.
From Verif Require Import Arrays_model Arrays_spec ArrayPrint_model.
Import ListNotations.

Section Spec.
Context {V : Type}.
Variable ndef : nat -> nexp.
Variable pv xv : nat -> V.
Variable ov : nat -> list V -> V.
Variable fn : nat -> list (list V) -> nat -> V.

(** The meaning does not mention any memory: [content a i] is element i of the array a. *)
Fixpoint meaning (content : nat -> nat -> V) (e : nexp) : V :=
  match e with
  | NElem a i => content a i
  | NVar x => xv x
  | NPar v => pv v
  | NOp o l => ov o (map (meaning content) l)
  end.
Definition arg_meaning (content : nat -> nat -> V) (a : aarg) : V :=
  match a with Par v => pv v | Nod n => meaning content (ndef n) end.

(** the arrays which an atomic function fills *)
Definition is_out (p : list pstmt) (a : nat) : Prop := exists n f ins, In (PCall a n f ins) p.

(** [content] gives every array its values: its arguments, or what the atomic function computed. *)
Definition contents (p : list pstmt) (content : nat -> nat -> V) : Prop :=
  (forall a args i x, In (PCreate a args) p -> ~ is_out p a -> nth_error args i = Some x -> content a i = arg_meaning content x) /\
  (forall out n f ins i, In (PCall out n f ins) p -> i < n ->
     content out i = fn f (map (fun x => map (content (fst x)) (seq 0 (snd x))) ins) i).

(** what must be observed *)
Definition expected1 (content : nat -> nat -> V) (s : pstmt) : list obs :=
  match s with
  | PCall _ _ f ins => [OCall f (map (fun x => map (content (fst x)) (seq 0 (snd x))) ins)]
  | PRead a i => [ORead (content a i)]
  | _ => []
  end.
Definition expected (content : nat -> nat -> V) (p : list pstmt) : list obs := flat_map (expected1 content) p.

(** the elements of arrays in an expression *)
Fixpoint elems (e : nexp) : list (nat * nat) :=
  match e with
  | NElem a i => [(a, i)]
  | NOp _ l => flat_map elems l
  | _ => []
  end.
Definition direct (e : nexp) : Prop := match e with NOp _ _ => False | _ => True end.

(** An array can be used by the statement after [h] when it was not released before [h] did something else. *)
Definition usable (h : list pstmt) (a n : nat) : Prop :=
  exists h0 fr, h = h0 ++ fr /\ (forall s, In s fr -> exists b m, s = PFree b m) /\ In (a, n) (live (events h0)).
(** its values are there: an array filled by an atomic function has them after the call *)
Definition filled (p h : list pstmt) (a : nat) : Prop := is_out p a -> is_out h a.

Definition can_read (p h : list pstmt) (a i : nat) : Prop := exists n, usable h a n /\ i < n /\ filled p h a.

(** The statements follow the order of evaluation: arrays are used between their creation and their release, an array is filled at
    most once and read after it was filled. *)
Definition in_order (p : list pstmt) : Prop :=
  legal (events p) /\
  forall h s t, p = h ++ s :: t ->
    match s with
    | PFree _ _ => True
    | PCreate a args => forall n, In (Nod n) args -> forall b i, In (b, i) (elems (ndef n)) -> can_read p h b i
    | PCall out n f ins =>
        usable h out n /\ (forall a m, In (a, m) ins -> usable h a m /\ filled p h a) /\ ~ is_out h out
    | PRead a i => can_read p h a i
    end.

(** An element which is inside an operation belongs to an array which is still in use after the statement. *)
Definition operands_kept (p : list pstmt) : Prop :=
  forall h a args t, p = h ++ PCreate a args :: t -> forall n, In (Nod n) args -> 
    direct (ndef n) \/ forall b i, In (b, i) (elems (ndef n)) -> exists m, In (b, m) (live (events h)).
End Spec.

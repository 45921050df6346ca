(** * What is claimed of the choice of equations for elimination *)
From Coq Require Import List Bool Arith.
Import ListNotations.

(** equations solved for variables, one after the other, each in what the substitutions before left; [None] if one cannot be done *)
Fixpoint eliminations {X} (subst : X -> nat -> nat -> option X) (x : X) (l : list (nat * nat)) : option X :=
  match l with [] => Some x | (i, j) :: r => match subst x i j with Some x1 => eliminations subst x1 r | None => None end end.

(** no equation and no variable twice *)
Definition one_to_one (l : list (nat * nat)) : Prop := NoDup (map fst l) /\ NoDup (map snd l).

(** no variable is assigned to two equations *)
Definition injective_assignment (l : list (option nat)) : Prop :=
  forall i i' v, nth i l None = Some v -> nth i' l None = Some v -> i = i'.

(** ** Sums of variables and of the sine of a sum of variables

    An equation [(l, n)] stands for a residual whose variables [l] are terms (with a coefficient) and whose variables [n] are in the argument of a
    sine. It can be solved for a variable which is a term and is not in the argument; the variable is replaced in the others by what remains. *)
Definition sine_eq : Type := (list nat * list nat)%type.
Definition has (v : nat) (l : list nat) : bool := existsb (Nat.eqb v) l.
Definition without (v : nat) (l : list nat) : list nat := filter (fun w => negb (w =? v)) l.
Definition s_solvable (x : list sine_eq) (i v : nat) : bool := let e := nth i x ([], []) in has v (fst e) && negb (has v (snd e)).
Definition s_replace (q : sine_eq) (j : nat) (e : sine_eq) : sine_eq :=
  let e1 := if has j (fst e) then (nodup Nat.eq_dec (without j (fst e) ++ without j (fst q)), nodup Nat.eq_dec (snd e ++ snd q)) else e in
  if has j (snd e) then (fst e1, nodup Nat.eq_dec (without j (snd e1) ++ without j (fst q) ++ snd q)) else e1.
Definition s_subst (x : list sine_eq) (i j : nat) : option (list sine_eq) :=
  if s_solvable x i j then
    Some (map (fun k => let e := nth k x ([], []) in if k =? i then e else s_replace (nth i x ([], [])) j e) (seq 0 (length x)))
  else None.
Definition s_jac (x : list sine_eq) (i v : nat) : bool := let e := nth i x ([], []) in has v (fst e) || has v (snd e).

(** * What the assembly of the results of models with loops must do *)
From Coq Require Import List Arith Bool NArith ZArith Sorting.Sorted.
From Verif Require Import Range_model LoopAsm_model.
Import ListNotations.
Local Open Scope nat_scope.

(** The user asks for the elements (ks[p], vs[p]), p = 0, 1, ...: ks[p] is the direction (a column or a row) and the value goes to result[p].  The
    functions of a direction number its elements in the order of the request: [rank ks p] is the number of the element at p, [count ks k] the number
    of elements of a direction. *)
Definition count (ks : list nat) (k : nat) : nat := length (filter (Nat.eqb k) ks).
Definition rank (ks : list nat) (p : nat) : nat := count (firstn p ks) (nth p ks 0).

(** the elements of a direction are next to each other in the request *)
Definition together (ks : list nat) (k : nat) : Prop :=
  forall p q r, p < q < r -> nth_error ks p = Some k -> nth_error ks r = Some k -> nth_error ks q = Some k.

(** a map from directions to the elements which a function contributes to *)
Definition keymap_ok (ks : list nat) (km : keymap) : Prop :=
  StronglySorted lt (map fst km) /\
  forall k s, In (k, s) km -> In k ks /\ s <> [] /\ StronglySorted lt s /\ (forall e, In e s -> e < count ks k).
Definition group_ok (ks : list nat) (g : lgroup) : Prop :=
  keymap_ok ks (lg_keys g) /\ lg_keys g <> [] /\ forall k, In k (map fst (lg_keys g)) -> (N.of_nat k < SIZE_MAX)%N.

(** The directions of a group are all requested in consecutive places, or none of them has more elements than some direction which is not. *)
Definition fits (ks : list nat) (g : lgroup) : Prop :=
  (forall k, In k (map fst (lg_keys g)) -> together ks k) \/
  (forall k, In k (map fst (lg_keys g)) -> exists k', In k' ks /\ ~ together ks k' /\ count ks k <= count ks k').

Section Values.
Variable V : Type.
Variable zero : V.
Variable add : V -> V -> V.
Variable NL : nat -> nat -> V.             (* direction, element: the part of the equations outside of loops *)
Variable LV : nat -> nat -> nat -> V.      (* function of a loop, direction, element *)

Record monoid : Prop := { mo_assoc : forall a b c, add a (add b c) = add (add a b) c; mo_comm : forall a b, add a b = add b a; mo_zero : forall a, add zero a = a }.
Definition total (l : list V) : V := fold_right add zero l.

(** the functions outside of loops give all the elements of their direction: zero for those with no contribution *)
Definition noLoop_ok (ks : list nat) (nl : keymap) (noLoop : nat -> option (list V)) : Prop :=
  forall k s, In (k, s) nl -> exists out, noLoop k = Some out /\ length out = count ks k /\
    (forall e, In e s -> nth_error out e = Some (NL k e)) /\ (forall e, e < count ks k -> ~ In e s -> nth_error out e = Some zero).
(** the functions of loops add to the elements with a contribution, in any order, once or several times *)
Definition addedAt (l : list (nat * V)) (e : nat) : V := total (map snd (filter (fun q => fst q =? e) l)).
Definition loopFn_ok (gs : list lgroup) (loopFn : nat -> nat -> option (list (nat * V))) : Prop :=
  forall g k s, In g gs -> In (k, s) (lg_keys g) -> exists l, loopFn (lg_fn g) k = Some l /\
    (forall e v, In (e, v) l -> In e s) /\ forall e, In e s -> addedAt l e = LV (lg_fn g) k e.

(** all that must be added for the element e of the direction k *)
Definition parts (f : nat -> nat -> V) (k e : nat) (km : keymap) : list V :=
  flat_map (fun q => if (fst q =? k) && existsb (Nat.eqb e) (snd q) then [f k e] else []) km.
Definition expected (nl : keymap) (gs : list lgroup) (k e : nat) : V :=
  total (parts NL k e nl ++ flat_map (fun g => parts (LV (lg_fn g)) k e (lg_keys g)) gs).
End Values.

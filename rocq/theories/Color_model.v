(** * Joint sparse Jacobian and Hessian with a colouring

    Models include/cppad/cg/extra/sparse_forjac_hessian.hpp: SparseForjacHessianWorkJac::prepare (44-92),
    SparseForjacHessianWorkHes::prepare (120-163), computeNotUsed (215-234), colorForwardJacobianHessian (237-442) and
    sparseForJacHessian (522-681).

    Simplifications: a SparsityPattern of CppAD is a function from rows to lists of columns (the code only iterates over its
    rows, adds elements and tests membership); the result of CppAD's index_sort is an input ([scol], [ksort]); the values of
    fun.Forward(1, u) and fun.Reverse(2, w) are given by the Jacobian and the Hessians; work starts empty; the CPPAD_ASSERT
    checks are left out.  Reading outside of a vector is [None]. *)
From Coq Require Import List Bool Arith.
Import ListNotations.

Definition pattern := nat -> list nat.
Definition mem (x : nat) (l : list nat) : bool := existsb (Nat.eqb x) l.
(** add_element *)
Definition addE (p : pattern) (i j : nat) : pattern := fun x => if Nat.eqb x i then (if mem j (p i) then p i else p i ++ [j]) else p x.
Definition emptyP : pattern := fun _ => [].

(** sparsity_user2internal with transpose (CppAD): the rows of each column *)
Definition transpose (p : pattern) (rows : nat) : pattern := fun j => filter (fun i => mem j (p i)) (seq 0 rows).

(** computeNotUsed (215-234) *)
Definition computeNotUsed (sparsity r_used : pattern) (n : nat) : pattern :=
  fold_left (fun nu i => fold_left (fun nu j => if mem i (r_used j) then nu else addE nu j i) (sparsity i) nu) (seq 0 n) emptyP.

(** the used rows and columns (286-295, 318-327): pairs (row, column) *)
Definition colsOf (req : list (nat * nat)) : pattern := fold_left (fun p rc => addE p (fst rc) (snd rc)) req emptyP.
Definition rowsOf (req : list (nat * nat)) : pattern := fold_left (fun p rc => addE p (snd rc) (fst rc)) req emptyP.

Definition fupd {A} (f : nat -> A) (k : nat) (v : A) : nat -> A := fun x => if Nat.eqb x k then v else f x.

(** forbid the colours of the columns before [j1] (350-365 and the three loops like it, 367-422) *)
Definition forbid (color : nat -> nat) (j1 : nat) (f : nat -> bool) (cols : list nat) : nat -> bool :=
  fold_left (fun f j11 => if Nat.ltb j11 j1 then fupd f (color j11) true else f) cols f.
Definition forbidVia (color : nat -> nat) (j1 : nat) (outer : list nat) (inner : pattern) (f : nat -> bool) : nat -> bool :=
  fold_left (fun f i => forbid color j1 f (inner i)) outer f.

(** the smallest colour (426-431); [None]: forbidden has no such element *)
Fixpoint pick (f : nat -> bool) (n c : nat) (fuel : nat) : option nat :=
  match fuel with
  | 0 => None
  | S fuel => if Nat.ltb c n then if f c then pick f n (S c) fuel else Some c else None
  end.

Section Colour.
(** Domain, Range, the sparsity patterns and the requested elements (row, column) *)
Variable n m : nat.
Variable jac_p hes_p : pattern.
Variable jreq hreq : list (nat * nat).

Definition p_transpose : pattern := transpose jac_p m.
Definition jac_r_used : pattern := rowsOf jreq.
Definition jac_c_used : pattern := colsOf jreq.
Definition jac_not_used : pattern := computeNotUsed p_transpose jac_c_used n.
(** hes_r_used.add_element(hes_col, hes_row), hes_c_used.add_element(hes_row, hes_col) *)
Definition hes_r_used : pattern := rowsOf hreq.
Definition hes_c_used : pattern := colsOf hreq.
Definition hes_not_used : pattern := computeNotUsed hes_p hes_r_used n.

(** one column (342-433); the values of forbidden above [j1] are left from the column before *)
Definition colourStep (s : (nat -> nat) * (nat -> bool)) (j1 : nat) : option ((nat -> nat) * (nat -> bool)) :=
  let color := fst s in
  let f := fun c => if Nat.leb c j1 then false else snd s c in
  let f := forbidVia color j1 (p_transpose j1) jac_c_used f in
  let f := forbidVia color j1 (jac_r_used j1) jac_not_used f in
  let f := forbidVia color j1 (hes_p j1) hes_r_used f in
  let f := forbidVia color j1 (hes_c_used j1) hes_not_used f in
  match pick f n 0 (S n) with
  | Some c => Some (fupd color j1 c, f)
  | None => None
  end.

Fixpoint colourAll (s : (nat -> nat) * (nat -> bool)) (l : list nat) : option (nat -> nat) :=
  match l with
  | [] => Some (fst s)
  | j1 :: l' => match colourStep s j1 with Some s' => colourAll s' l' | None => None end
  end.

(** colorForwardJacobianHessian (237-442): the colours, from the uninitialized vectorBool [garbage], and n_color *)
Definition colours (garbage : nat -> bool) : option (nat -> nat) := colourAll (fun j => j, garbage) (seq 1 (n - 1)).
Definition nColor (color : nat -> nat) : nat := fold_left (fun k j => Nat.max k (color j + 1)) (seq 0 n) 1.

(** ** The sweeps (597-679) *)

(** while (key[k] < j1) k++ *)
Fixpoint advance (keys : list nat) (j1 k fuel : nat) : option nat :=
  match fuel with
  | 0 => None
  | S fuel => match nth_error keys k with
              | None => None
              | Some x => if Nat.ltb x j1 then advance keys j1 (S k) fuel else Some k
              end
  end.

(** the search for a requested element with colour [c] (599-623): found or not, and where the search stopped *)
Fixpoint search (keys : list nat) (color : nat -> nat) (c k : nat) (l : list nat) : option (bool * nat) :=
  match l with
  | [] => Some (false, k)
  | j1 :: l' =>
      if Nat.eqb (color j1) c
      then match advance keys j1 k (S (length keys)) with
           | None => None
           | Some k' => match nth_error keys k' with
                        | None => None
                        | Some x => if Nat.eqb x j1 then Some (true, k') else search keys color c k' l'
                        end
           end
      else search keys color c k l'
  end.

Context {V : Type}.
Variable zero one : V.
Variable add mul : V -> V -> V.

(** while (key[k] == j1) { out[pos[k]] = val[k]; k++; } *)
Fixpoint extract (keys pos : list nat) (val : nat -> option V) (j1 k : nat) (out : nat -> V) (fuel : nat) : option (nat * (nat -> V)) :=
  match fuel with
  | 0 => None
  | S fuel => match nth_error keys k with
              | None => None
              | Some x => if Nat.eqb x j1
                          then match nth_error pos k, val k with
                               | Some p, Some v => extract keys pos val j1 (S k) (fupd out p v) fuel
                               | _, _ => None
                               end
                          else Some (k, out)
              end
  end.

(** the loop over the columns with colour [c] (638-649, 662-675) *)
Fixpoint gather (keys pos : list nat) (val : nat -> option V) (color : nat -> nat) (c k : nat) (out : nat -> V) (l : list nat) : option (nat -> V) :=
  match l with
  | [] => Some out
  | j1 :: l' =>
      if Nat.eqb (color j1) c
      then match advance keys j1 k (S (length keys)) with
           | None => None
           | Some k' => match extract keys pos val j1 k' out (S (length keys)) with
                        | None => None
                        | Some (k'', out') => gather keys pos val color c k'' out' l'
                        end
           end
      else gather keys pos val color c k out l'
  end.

(** the direction of a colour (628-632) *)
Definition direction (color : nat -> nat) (c : nat) : nat -> V := fun j => if Nat.eqb (color j) c then one else zero.
Definition dot (a u : nat -> V) : V := fold_right (fun j s => add (mul (a j) (u j)) s) zero (seq 0 n).
(** fun.Forward(1, u) for the Jacobian [J]; fun.Reverse(2, w) at 2 * j2 + 1 for the Hessian [H] of w^T F *)
Variable J : nat -> nat -> V.
Definition forward1 (u : nat -> V) (i : nat) : V := dot (J i) u.
Definition reverse2 (H : nat -> nat -> V) (u : nat -> V) (j2 : nat) : V := dot (fun j => H j j2) u.

(** sorted requests: scol (sort_col, with K at the end) and ksort (k_sort) are the results of index_sort *)
Variable scol ksort : list nat.
Definition userCol : list nat := map snd jreq ++ [n].
Definition userRow : list nat := map fst jreq ++ [m].
Definition jkeys : list nat := map (fun p => nth p userCol n) scol.
Definition hkeys : list nat := map (fun p => nth p (map fst hreq) n) ksort ++ [n].
Definition c_sort : list nat := map (fun p => nth p (map snd hreq) n) ksort.

Record res : Type := mkRes { r_jac : nat -> V; r_hes : list (nat -> V); r_sweep : nat }.

Fixpoint omapH (f : (nat -> nat -> V) -> (nat -> V) -> option (nat -> V)) (Hs : list (nat -> nat -> V)) (hs : list (nat -> V)) : option (list (nat -> V)) :=
  match Hs, hs with
  | H :: Hs', h :: hs' => match f H h, omapH f Hs' hs' with Some a, Some b => Some (a :: b) | _, _ => None end
  | _, _ => Some []
  end.

(** one colour (597-679) *)
Definition sweep (Hs : list (nat -> nat -> V)) (color : nat -> nat) (r : res) (c : nat) : option res :=
  match search jkeys color c 0 (seq 0 n), search hkeys color c 0 (seq 0 n) with
  | Some (anyJac, kJac), Some (anyHes, kHess) =>
      if anyJac || anyHes then
        let u := direction color c in
        let dy := forward1 u in
        match (if anyJac
               then gather jkeys scol (fun k => match nth_error scol k with
                                                | Some p => match nth_error userRow p with Some i => Some (dy i) | None => None end
                                                | None => None
                                                end) color c kJac (r_jac r) (seq 0 n)
               else Some (r_jac r)) with
        | None => None
        | Some jac =>
            if anyHes
            then match omapH (fun H h => gather hkeys ksort (fun k => match nth_error c_sort k with Some j2 => Some (reverse2 H u j2) | None => None end)
                                           color c kHess h (seq 0 n)) Hs (r_hes r) with
                 | Some hes => Some (mkRes jac hes (r_sweep r + 2))
                 | None => None
                 end
            else Some (mkRes jac (r_hes r) (r_sweep r + 1))
        end
      else Some r
  | _, _ => None
  end.

Fixpoint sweeps (Hs : list (nat -> nat -> V)) (color : nat -> nat) (r : res) (l : list nat) : option res :=
  match l with
  | [] => Some r
  | c :: l' => match sweep Hs color r c with Some r' => sweeps Hs color r' l' | None => None end
  end.

(** sparseForJacHessian (522-681) *)
Definition forJacHessian (garbage : nat -> bool) (Hs : list (nat -> nat -> V)) : option res :=
  match colours garbage with
  | None => None
  | Some color => sweeps Hs color (mkRes (fun _ => zero) (map (fun _ _ => zero) Hs) 0) (seq 0 (nColor color))
  end.
End Colour.

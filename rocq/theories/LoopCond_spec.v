(** * What the results of a generated loop must be, iteration by iteration *)
From Coq Require Import List Bool Arith NArith ZArith Sorted.
From Verif Require Import Graph_model Codegen_model CSyntax Index_model Index_spec Range_model Range_spec LoopCond_model.
Import ListNotations.
Local Open Scope N_scope.

Section Spec.
Variable V : Type.
Variable isZero : V -> bool.
Variable vadd vmul : V -> V -> V.

(** ** Execution of the text in iteration [k] *)
Definition holds (k : N) (h : header) : Prop := match h with HIf c | HElseIf c => In_ranges k c | HElse => True end.
(** C: the branch of the first header which holds is executed, and no other one.  [tk]: a branch was taken; [on]: in the branch taken *)
Inductive exec (k : N) : bool -> bool -> list (item V) -> list (asg V) -> Prop :=
 | X_end tk on : exec k tk on [] []
 | X_take h r o : holds k h -> exec k true true r o -> exec k false false (IHdr V h :: r) o
 | X_no h r o : ~ holds k h -> exec k false false r o -> exec k false false (IHdr V h :: r) o
 | X_skip on h r o : exec k true false r o -> exec k true on (IHdr V h :: r) o
 | X_asg tk a r o : exec k tk true r o -> exec k tk true (IAsg V a :: r) (a :: o)
 | X_off tk a r o : exec k tk false r o -> exec k tk false (IAsg V a :: r) o.
Definition runs_to (k : N) (e : ifelse V) (o : list (asg V)) : Prop := exec k false false (textOf V e) o.
(** an effect: (location, assigned or added, value) *)
Definition effect : Type := (N * N * V)%type.
Definition does (k : N) (a : asg V) (f : effect) : Prop :=
  exists p, a_pat V a = Done p /\ value_at p (Z.of_N k) (Z.of_N (fst (fst f))) /\ snd (fst f) = a_add V a /\ snd f = a_val V a.
(** the effects of iteration [k] of the loop *)
Definition iteration (k : N) (s : loop V) (fs : list effect) : Prop :=
  exists os, Forall2 (runs_to k) (ifElses V s) os /\ Forall2 (does k) (concat os ++ always V s) fs.

(** ** What was asked for *)
Fixpoint loc_at (k : N) (locs : list (N * N)) : option N :=
  match locs with [] => None | (i, p) :: r => if k =? i then Some p else loc_at k r end.
Fixpoint sum (n : nat) (v : V) : V := match n with O | 1%nat => v | S n' => vadd (sum n' v) v end.
Definition asked (r : request V) (k : N) : list effect :=
  match r with
  | RResult _ locs _ v add => match loc_at k locs with Some p => [(p, add, v)] | None => [] end
  | RBranches _ bs _ _ => flat_map (fun b => match loc_at k (snd (snd b)) with Some p => [(p, 1, fst (snd b))] | None => [] end) bs
  | RConstant _ loc its _ v => if existsb (N.eqb k) its then [(loc, 1, v)] else []
  | RHessian _ ps v =>
      if isZero v then [] else
      match nth_error ps (N.to_nat k) with Some (c, p) => if c =? 0 then [] else [(p, 1, sum (N.to_nat c) v)] | None => [] end
  | RReverse2 _ _ ps v t =>
      if isZero v then [] else
      match nth_error ps (N.to_nat k) with Some (c, p) => if c =? 0 then [] else [(p, 1, vmul (sum (N.to_nat c) v) t)] | None => [] end
  end.

(** ** Requests which the code makes, for a loop which runs the iterations [L] *)
Definition iterations (L its : list N) : Prop := StronglySorted N.lt its /\ its <> [] /\ incl its L.
Definition below (L : list N) (mx : N) : Prop := mx < SIZE_MAX /\ forall k, In k L -> k <= mx.
Definition disjoint (a b : list N) : Prop := forall k, In k a -> In k b -> False.
Definition valid (L : list N) (r : request V) : Prop :=
  match r with
  | RResult _ locs n _ _ => iterations L (map fst locs) /\ 0 < n /\ below L (n - 1)
  | RBranches _ bs mx nl =>
      bs <> [] /\ NoDup (map fst bs) /\ (forall c v locs, In (c, (v, locs)) bs -> iterations L (map fst locs)) /\
      ForallOrdPairs (fun b b' => disjoint (map fst (snd (snd b))) (map fst (snd (snd b')))) bs /\
      below L mx /\ nl = size L /\ (forall c v locs, bs = [(c, (v, locs))] -> size (map fst locs) <> size L)
  | RConstant _ _ its mx _ => iterations L its /\ below L mx
  | RHessian _ ps v =>
      L = map N.of_nat (seq 0 (length ps)) /\ N.of_nat (length ps) <= SIZE_MAX /\ (isZero v = false -> exists c p, In (c, p) ps /\ 0 < c)
  | RReverse2 _ g ps _ _ => g = L /\ N.of_nat (length ps) <= SIZE_MAX /\ (forall k, In k L -> k < N.of_nat (length ps))
  end.

End Spec.

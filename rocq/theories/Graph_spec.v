(** * What an operation graph computes (specification; written independently of the code generation model) *)
From Coq Require Import List Bool Arith.
From Verif Require Import Graph_model.
Import ListNotations.

Section Sem.
Context {B : Type} {O : BaseOps B}.

(** The identities the recorded simplifications rely on.  They hold in every field with a compatible order
    (see Graph_Qc.v for the rationals), not in IEEE arithmetic.  *)
Record BaseLaws : Prop := {
  L_add0l : forall x, badd b0 x = x;
  L_add0r : forall x, badd x b0 = x;
  L_sub0r : forall x, bsub x b0 = x;
  L_mul0l : forall x, bmul b0 x = b0;
  L_mul0r : forall x, bmul x b0 = b0;
  L_mul1l : forall x, bmul b1 x = x;
  L_mul1r : forall x, bmul x b1 = x;
  L_div1r : forall x, bdiv x b1 = x;
  L_div0l : forall x, x <> b0 -> bdiv b0 x = b0;
  L_divxx : forall x, x <> b0 -> bdiv x x = b1;
  L_pow0 : forall x, bpow x b0 = b1;
  L_pow1 : forall x, bpow x b1 = x;
  L_eq : forall x y, bcmp CEq x y = true <-> x = y;
  L_isz : forall x, bisz x = true -> x = b0;
  L_iso : forall x, biso x = true -> x = b1;
  L_lt_irrefl : forall x, bcmp CLt x x = false;
  L_tri : forall x, bcmp CGt x b0 = false -> x <> b0 -> bcmp CLt x b0 = true
}.

(** mathematical sign *)
Definition sgn (x : B) : B :=
  if bcmp CGt x b0 then b1 else if bcmp CLt x b0 then bneg b1 else b0.

Definition lift1 (f : B -> B) (x : option B) : option B :=
  match x with Some a => Some (f a) | None => None end.
Definition lift2 (f : B -> B -> B) (x y : option B) : option B :=
  match x, y with Some a, Some b => Some (f a b) | _, _ => None end.
(** division is only defined for a non-zero divisor *)
Definition odiv (x y : option B) : option B :=
  match x, y with
  | Some a, Some b => if bcmp CEq b b0 then None else Some (bdiv a b)
  | _, _ => None
  end.
(** a conditional only needs the value of the branch which is selected *)
Definition ocond (c : cmp) (l r t f : option B) : option B :=
  match l, r with
  | Some a, Some b => if bcmp c a b then t else f
  | _, _ => None
  end.

(** value of one operation, given the values of its arguments; [env h k] is the value of the k-th independent
    variable of handler h *)
Definition opval (env : nat -> nat -> B) (h : nat) (o : gop) (a : list (option B)) : option B :=
  match o, a with
  | GInv k, [] => Some (env h k)
  | GAdd, [x; y] => lift2 badd x y
  | GSub, [x; y] => lift2 bsub x y
  | GMul, [x; y] => lift2 bmul x y
  | GDiv, [x; y] => odiv x y
  | GPow, [x; y] => lift2 bpow x y
  | GUnMinus, [x] => lift1 bneg x
  | GSign, [x] => lift1 sgn x
  | GAlias, [x] => x
  | GAssign, [x] => x
  | GFun f, [x] => lift1 (bfun f) x
  | GCom c, [l; r; t; f] => ocond c l r t f
  | _, _ => None
  end.

Definition aval (vs : list (option B)) (a : arg B) : option B :=
  match a with APar b => Some b | ANode i => nth i vs None end.

Definition nodeval (env : nat -> nat -> B) (vs : list (option B)) (n : node B) : option B :=
  opval env (n_handler n) (n_op n) (map (aval vs) (n_args n)).

(** values of all nodes, in recording order *)
Fixpoint vals_from (env : nat -> nat -> B) (vs : list (option B)) (g : heap B) : list (option B) :=
  match g with
  | [] => vs
  | n :: g' => vals_from env (vs ++ [nodeval env vs n]) g'
  end.
Definition vals (env : nat -> nat -> B) (g : heap B) : list (option B) := vals_from env [] g.

(** the value of node [i] of graph [g] *)
Definition denote (env : nat -> nat -> B) (g : heap B) (i : nat) : option B := nth i (vals env g) None.

(** every argument of a node was recorded before the node itself *)
Definition arg_below (n : nat) (a : arg B) : Prop := match a with ANode i => i < n | APar _ => True end.
Definition wf_heap (g : heap B) : Prop :=
  forall i n, nth_error g i = Some n -> Forall (arg_below i) (n_args n).

(** number of arguments of each operation *)
Definition arity (o : gop) : nat :=
  match o with
  | GInv _ => 0
  | GUnMinus | GSign | GAlias | GAssign | GFun _ => 1
  | GAdd | GSub | GMul | GDiv | GPow => 2
  | GCom _ => 4
  end.
Definition wf_arity (g : heap B) : Prop := Forall (fun n => length (n_args n) = arity (n_op n)) g.
End Sem.
Arguments BaseLaws B {O}.

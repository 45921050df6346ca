(** * What an evaluation must return (specification of C25) *)
From Coq Require Import List Bool Arith Permutation.
From Verif Require Import Graph_model Graph_spec Codegen_spec.
Import ListNotations.

Section Spec.
Context {B V : Type} {O : BaseOps V}.

(** the operation a node stands for, on numbers of type V *)
Definition numval (x : nat -> V) (o : gop) (a : list V) : option V :=
  match o, a with
  | GInv k, [] => Some (x k)
  | GAdd, [u; v] => Some (badd u v)
  | GSub, [u; v] => Some (bsub u v)
  | GMul, [u; v] => Some (bmul u v)
  | GDiv, [u; v] => Some (bdiv u v)
  | GPow, [u; v] => Some (bpow u v)
  | GUnMinus, [u] => Some (bneg u)
  | GSign, [u] => Some (if bcmp CGt u b0 then b1 else if bcmp CEq u b0 then b0 else bneg b1)
  | GAlias, [u] => Some u
  | GAssign, [u] => Some u
  | GFun f, [u] => Some (bfun f u)
  | GCom c, [l; r; t; f] => Some (if bcmp c l r then t else f)
  | _, _ => None
  end.

(** [sol] gives every node the value of its operation; [conv] turns the parameters of the graph into numbers of type V *)
Definition argnum (conv : B -> V) (sol : nat -> V) (a : arg B) : V :=
  match a with APar b => conv b | ANode j => sol j end.
Definition numsolves (conv : B -> V) (x : nat -> V) (g : heap B) (sol : nat -> V) : Prop :=
  forall i n, nth_error g i = Some n -> numval x (n_op n) (map (argnum conv sol) (n_args n)) = Some (sol i).

(** the functions missing from the evaluator *)
Definition missing (f : ufun) : Prop := In f [Acosh; Asinh; Atanh; Erf; Erfc; Expm1; Log1p].
End Spec.

Section Graphs.
Context {B : Type}.

(** all nodes the dependents need exist and belong to handler [h] *)
Definition owned (g : heap B) (ds : list (arg B)) (h : nat) : Prop :=
  forall i, reach g ds i -> exists n, nth_error g i = Some n /\ n_handler n = h.

(** the independents of a handler are numbered from 0 in the order they were declared *)
Definition numbered (g : heap B) : Prop :=
  forall i n k, nth_error g i = Some n -> n_op n = GInv k -> k = indepCount (firstn i g) (n_handler n).

(** an order in which the operands of every operation can be evaluated *)
Definition is_order (g : heap B) (ord : nat -> list nat) : Prop :=
  forall i n, nth_error g i = Some n -> Permutation (ord i) (seq 0 (length (n_args n))).

(** no function which the evaluator does not know *)
Definition no_missing (g : heap B) (ds : list (arg B)) : Prop :=
  forall i n f, reach g ds i -> nth_error g i = Some n -> n_op n = GFun f -> ~ missing f.
End Graphs.

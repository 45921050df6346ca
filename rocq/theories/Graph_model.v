(** * Operation graphs: the data a CodeHandler records

    Models OperationNode (include/cppad/cg/operation_node.hpp 27-330), Argument (argument.hpp 25-110),
    CGOpCode (operation.hpp 24-91) restricted to scalar operations, and CodeHandler::makeNode
    (code_handler_impl.hpp 529-565, 1352-1369).

    Simplifications:
    - only the scalar op codes are listed (no arrays, atomic functions, loops, index operations);
    - node addresses are positions in one global list; every node carries the number of the handler which
      owns it.  The C++ keeps one vector per handler, a node being identified by its address;
    - an independent (Inv) node carries its position in CodeHandler::_independentVariables
      (code_handler_impl.hpp 90-93), which in C++ is looked up by address;
    - the Base type is abstract: any type with the operations of [BaseOps]. *)
From Coq Require Import List Bool Arith.
Import ListNotations.

(** The unary functions of math.hpp 35-58 / operation.hpp 24-91. *)
Inductive ufun : Set :=
 | Abs | Acos | Acosh | Asin | Asinh | Atan | Atanh | Cosh | Cos | Erf | Erfc | Exp | Expm1 | Log | Log1p
 | Sinh | Sin | Sqrt | Tanh | Tan.

(** The comparisons of the conditional operations ComLt .. ComNe. *)
Inductive cmp : Set := CLt | CLe | CEq | CGe | CGt | CNe.

(** The operations of the Base type used by CG<Base>: arithmetic, math functions, comparison operators and the
    CppAD identity tests IdenticalZero / IdenticalOne. *)
Class BaseOps (B : Type) : Type := {
  b0 : B;
  b1 : B;
  b10 : B;
  badd : B -> B -> B;
  bsub : B -> B -> B;
  bmul : B -> B -> B;
  bdiv : B -> B -> B;
  bneg : B -> B;
  bpow : B -> B -> B;
  bfun : ufun -> B -> B;
  bcmp : cmp -> B -> B -> bool;
  bisz : B -> bool;
  biso : B -> bool
}.

(** Scalar operation codes (operation.hpp 24-91). *)
Inductive gop : Set :=
 | GInv (k : nat)
 | GAdd | GSub | GMul | GDiv | GPow | GUnMinus | GSign | GAlias | GAssign
 | GFun (f : ufun)
 | GCom (c : cmp).

(** Argument: a node or a parameter value (argument.hpp 25-110). *)
Inductive arg (B : Type) : Type := ANode (i : nat) | APar (b : B).
Arguments ANode {B} i.
Arguments APar {B} b.

Record node (B : Type) : Type := mkNode { n_handler : nat; n_op : gop; n_args : list (arg B) }.
Arguments mkNode {B} _ _ _.
Arguments n_handler {B} _.
Arguments n_op {B} _.
Arguments n_args {B} _.

Definition heap (B : Type) : Type := list (node B).

(** CodeHandler::makeNode (code_handler_impl.hpp 529-565): the new node is appended to the managed nodes and
    its address returned. *)
Definition makeNode {B} (g : heap B) (h : nat) (o : gop) (args : list (arg B)) : heap B * nat :=
  (g ++ [mkNode h o args], length g).

(** number of independent variables already registered in handler [h]
    (_independentVariables.size(), code_handler_impl.hpp 90-93) *)
Definition is_inv_of {B} (h : nat) (n : node B) : bool :=
  Nat.eqb (n_handler n) h && match n_op n with GInv _ => true | _ => false end.
Definition indepCount {B} (g : heap B) (h : nat) : nat := length (filter (is_inv_of h) g).

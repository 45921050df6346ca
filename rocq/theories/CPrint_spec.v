(** * What is asked of numbers and of expressions for the printed text to have the right value (specification) *)
From Coq Require Import List Bool Arith String.
From Verif Require Import Graph_model Graph_spec Codegen_model Codegen_spec CPrint_model CText.
Import ListNotations.

Section Spec.
Context {B : Type} {O : BaseOps B} {PO : PrintOps B}.

(** a number is written exactly: the sign and the magnitude in the text denote the number itself *)
Definition exact (b : B) : Prop := (if pneg b then bneg (pmag b) else pmag b) = b.
(** every constant of the graph is *)
Record exact_constants (g : heap B) (deps : list (arg B)) : Prop := {
  xc_0 : exact b0;
  xc_1 : exact b1;
  xc_m1 : exact (bneg b1);
  xc_args : forall i n b, nth_error g i = Some n -> In (APar b) (n_args n) -> exact b /\ exact (bneg b);
  xc_deps : forall b, In (APar b) deps -> exact b
}.

(** sign laws: true for reals and also for IEEE numbers, bit by bit *)
Record SignLaws : Prop := {
  S_sub_neg : forall a p, bsub a (bneg p) = badd a p;
  S_add_neg : forall a p, badd a (bneg p) = bsub a p;
  S_neg_mul : forall a b, bneg (bmul a b) = bmul (bneg a) b;
  S_neg_div : forall a b, bcmp CEq b b0 = false -> bneg (bdiv a b) = bdiv (bneg a) b
}.
(** associativity: true in a field, not for IEEE numbers *)
Record AssocLaws : Prop := {
  A_add_add : forall a b c, badd a (badd b c) = badd (badd a b) c;
  A_add_sub : forall a b c, badd a (bsub b c) = bsub (badd a b) c;
  A_mul_mul : forall a b c, bmul a (bmul b c) = bmul (bmul a b) c;
  A_mul_div : forall a b c, bcmp CEq c b0 = false -> bmul a (bdiv b c) = bdiv (bmul a b) c
}.

(** expressions in which the right operand of no + is a sum or difference, and the right operand of no * a product or
    quotient, written in the same assignment *)
Definition sumlike (e : cx B) : bool := match e with XOp (GAdd | GSub) _ => true | _ => false end.
Definition prodlike (e : cx B) : bool := match e with XOp (GMul | GDiv) _ => true | _ => false end.
Fixpoint left_associated (e : cx B) : bool :=
  match e with
  | XLoc _ | XPar _ => true
  | XOp o a => forallb left_associated a &&
               match o, a with
               | GAdd, [_; y] => negb (sumlike y)
               | GMul, [_; y] => negb (prodlike y)
               | _, _ => true
               end
  end.
Definition left_associated_stmt (s : stmt B) : bool :=
  match s with
  | SZero _ => true
  | SAssign _ _ e => left_associated e
  | SCond _ x y _ _ t f => left_associated x && left_associated y && left_associated t && left_associated f
  end.

(** the names printed for functions are those of functions computing them *)
Definition names_functions (libm : string -> option cfun) (fname : ufun -> string) : Prop :=
  (forall f, libm (fname f) = Some (FUn f)) /\ libm "pow"%string = Some FPow.
End Spec.
Arguments SignLaws B {O}.
Arguments AssocLaws B {O}.

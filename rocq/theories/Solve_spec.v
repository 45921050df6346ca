(** * Solving an expression for a variable (specification of C21-C23) *)
From Coq Require Import List Bool Arith Field_theory.
From Verif Require Import Graph_model Graph_spec CGArith_model Codegen_spec.
Import ListNotations.

Section Spec.
Context {B : Type} {O : BaseOps B}.

(** [B] is a field *)
Definition is_field : Prop := field_theory b0 b1 badd bmul bsub bneg bdiv (bdiv b1) (@eq B).

Definition positive (x : B) : Prop := bcmp CLt b0 x = true.

(** The functions solveFor inverts have, on the stated domains, the inverses it uses. *)
Record inverse_laws (half : B) : Prop := {
  IL_exp_log : forall w, positive w -> bfun Exp (bfun Log w) = w;
  IL_log_exp : forall w, bfun Log (bfun Exp w) = w;
  IL_pow : forall a w, positive a -> a <> b1 -> positive w ->
     bfun Log a <> b0 /\ bpow a (bdiv (bfun Log w) (bfun Log a)) = w;
  IL_sqrt : forall w, bcmp CLt w b0 = false -> bfun Sqrt (bmul w w) = w;
  IL_cosh : forall w, bcmp CLt w b1 = false -> bfun Cosh (bfun Log (badd w (bfun Sqrt (bsub (bmul w w) b1)))) = w;
  IL_sinh : forall w, bfun Sinh (bfun Log (badd w (bfun Sqrt (badd (bmul w w) b1)))) = w;
  IL_tanh : forall w, bcmp CLt (bneg b1) w = true -> bcmp CLt w b1 = true ->
     bfun Tanh (bmul half (bsub (bfun Log (badd b1 w)) (bfun Log (bsub b1 w)))) = w
}.

Variable half : B.
Variable sol : nat -> option B.

(** [inverse o args i w x]: for the operation [o] to give [w], it is enough that its argument [i] is [x]; the other
    argument has the value [sol] gives it.  These are the domain conditions of the inverted functions. *)
Inductive inverse : gop -> list (arg B) -> nat -> B -> B -> Prop :=
 | inv_add_l a o w c : sval sol o = Some c -> inverse GAdd [a; o] 0 w (bsub w c)
 | inv_add_r a o w c : sval sol o = Some c -> inverse GAdd [o; a] 1 w (bsub w c)
 | inv_sub_l a o w c : sval sol o = Some c -> inverse GSub [a; o] 0 w (badd w c)
 | inv_sub_r a o w c : sval sol o = Some c -> inverse GSub [o; a] 1 w (bsub c w)
 | inv_mul_l a o w c : sval sol o = Some c -> c <> b0 -> inverse GMul [a; o] 0 w (bdiv w c)
 | inv_mul_r a o w c : sval sol o = Some c -> c <> b0 -> inverse GMul [o; a] 1 w (bdiv w c)
 | inv_div_l a o w c : sval sol o = Some c -> c <> b0 -> inverse GDiv [a; o] 0 w (bmul w c)
 | inv_div_r a o w c : sval sol o = Some c -> c <> b0 -> w <> b0 -> inverse GDiv [o; a] 1 w (bdiv c w)
 | inv_neg a w : inverse GUnMinus [a] 0 w (bneg w)
 | inv_alias a w : inverse GAlias [a] 0 w w
 | inv_exp a w : positive w -> inverse (GFun Exp) [a] 0 w (bfun Log w)
 | inv_log a w : inverse (GFun Log) [a] 0 w (bfun Exp w)
 | inv_pow_l a w : inverse GPow [a; APar b1] 0 w w
 | inv_pow_r a o w c : sval sol o = Some c -> positive c -> c <> b1 -> positive w ->
     inverse GPow [o; a] 1 w (bdiv (bfun Log w) (bfun Log c))
 | inv_sqrt a w : bcmp CLt w b0 = false -> inverse (GFun Sqrt) [a] 0 w (bmul w w)
 | inv_cosh a w : bcmp CLt w b1 = false ->
     inverse (GFun Cosh) [a] 0 w (bfun Log (badd w (bfun Sqrt (bsub (bmul w w) b1))))
 | inv_sinh a w : inverse (GFun Sinh) [a] 0 w (bfun Log (badd w (bfun Sqrt (badd (bmul w w) b1))))
 | inv_tanh a w : bcmp CLt (bneg b1) w = true -> bcmp CLt w b1 = true ->
     inverse (GFun Tanh) [a] 0 w (bmul half (bsub (bfun Log (badd b1 w)) (bfun Log (bsub b1 w)))).

(** [back g p w x]: along the path [p], for its first node to have the value [w] it is enough that its last node has the
    value [x] *)
Inductive back (g : heap B) : list (nat * option nat) -> B -> B -> Prop :=
 | back_end n w : back g [(n, None)] w w
 | back_step n i d p w w1 x : nth_error g n = Some d -> inverse (n_op d) (n_args d) i w w1 -> back g p w1 x ->
     back g ((n, Some i) :: p) w x.
End Spec.
Arguments is_field B {O}.
Arguments inverse_laws B {O} half.

(** the value of a CG object, for given values of the nodes *)
Definition sv {B} (sol : nat -> option B) (x : cg B) : option B :=
  match x with Par b => Some b | Var i _ => sol i end.

(** every argument which is a node exists, and every operation has the right number of arguments *)
Definition closed {B} (g : heap B) : Prop := forall n d j, nth_error g n = Some d -> In (ANode j) (n_args d) -> j < length g.
(** all nodes belong to handler [h] *)
Definition owned_by {B} (h : nat) (g : heap B) : Prop := Forall (fun d => n_handler d = h) g.

(** ** An expression in which the variable occurs once *)
From Verif Require Import Path_spec.

(** there is exactly one path from [root] to [var] *)
Definition once {B} (g : heap B) (root var : nat) : Prop :=
  exists p, down_path g root p var /\ forall q, down_path g root q var -> q = p.

(** two valuations which give the same value to every independent variable but [var] *)
Definition same_others {B} (g : heap B) (var : nat) (sol sol' : nat -> option B) : Prop :=
  forall n d k, nth_error g n = Some d -> n_op d = GInv k -> n <> var -> sol n = sol' n.

(** a handler's nodes: they belong to handler [h], exist, form no cycle and have the right number of arguments *)
Record handler_nodes {B} (h : nat) (g : heap B) : Prop := {
  Hn_owned : owned_by h g;
  Hn_closed : closed g;
  Hn_cycle : no_cycle g;
  Hn_arity : wf_arity g
}.

(** [var] does not occur in the expression [x] *)
Definition free_of {B} (g : heap B) (var : nat) (x : cg B) : Prop :=
  match x with Par _ => True | Var i _ => ~ occurs g i var end.

(** ** Collecting a variable *)

(** The sign of the variable below a subtraction depends on which operand of the subtraction holds it.  The code looks at
    the position recorded one element earlier, [prev], which is the position of the subtraction in its own parent.
    [signs_agree prev p]: along [p] both positions say the same for every subtraction. *)
Fixpoint signs_agree {B} (g : heap B) (prev : option nat) (p : list (nat * option nat)) : Prop :=
  match p with
  | [] => True
  | (n, i) :: p' =>
      (match nth_error g n with
       | Some d => n_op d = GSub -> p' <> [] -> (prev = Some 1 <-> i = Some 1)
       | None => True
       end) /\ signs_agree g i p'
  end.

(** at most [M] different paths lead from [root] to [var] *)
Definition at_most_paths {B} (g : heap B) (root var M : nat) : Prop :=
  forall l, NoDup l -> (forall p, In p l -> down_path g root p var) -> length l <= M.

(** there is no subtraction between [root] and [var] *)
Definition no_sub_above {B} (g : heap B) (root var : nat) : Prop :=
  forall n d, occurs g root n -> occurs g n var -> nth_error g n = Some d -> n_op d <> GSub.

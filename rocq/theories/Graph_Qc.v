(** * The rationals as Base type: the laws assumed by the theorems are satisfiable

    The transcendental functions have no rational values; any function may stand for them since no law is assumed
    about them.  Here every unary function is the identity, except Abs, and [pow x y] is x for y = 1 and 1 otherwise. *)
From Coq Require Import List Bool Arith QArith Qcanon Lia.
From Verif Require Import Graph_model Graph_spec.

Definition Qcle_bool (x y : Qc) : bool := Qle_bool (this x) (this y).
Definition Qc_cmp (c : cmp) (x y : Qc) : bool :=
  match c with
  | CLt => negb (Qcle_bool y x)
  | CLe => Qcle_bool x y
  | CEq => Qc_eq_bool x y
  | CGe => Qcle_bool y x
  | CGt => negb (Qcle_bool x y)
  | CNe => negb (Qc_eq_bool x y)
  end.

#[export] Instance QcOps : BaseOps Qc := {|
  b0 := 0%Qc; b1 := 1%Qc; b10 := Q2Qc (10 # 1);
  badd := Qcplus; bsub := Qcminus; bmul := Qcmult; bdiv := Qcdiv; bneg := Qcopp;
  bpow := fun x y => if Qc_eq_bool y 1%Qc then x else 1%Qc;
  bfun := fun f x => match f with Abs => if Qcle_bool 0%Qc x then x else Qcopp x | _ => x end;
  bcmp := Qc_cmp;
  bisz := fun x => Qc_eq_bool x 0%Qc;
  biso := fun x => Qc_eq_bool x 1%Qc |}.

Lemma Qc_eq_bool_refl x : Qc_eq_bool x x = true.
Proof. unfold Qc_eq_bool. destruct (Qc_eq_dec x x); congruence. Qed.

Lemma QcLaws : BaseLaws Qc.
Proof.
  constructor; cbn [b0 b1 badd bsub bmul bdiv bpow bcmp bisz biso QcOps]; intros.
  - ring.
  - ring.
  - ring.
  - ring.
  - ring.
  - ring.
  - ring.
  - field. discriminate.
  - field. auto.
  - field. auto.
  - reflexivity.
  - reflexivity.
  - cbn [Qc_cmp]. split.
    + apply Qc_eq_bool_correct.
    + intros ->. apply Qc_eq_bool_refl.
  - now apply Qc_eq_bool_correct.
  - now apply Qc_eq_bool_correct.
  - cbn. unfold Qcle_bool. apply negb_false_iff, Qle_bool_iff, Qle_refl.
  - cbn in *. unfold Qcle_bool in *. apply negb_false_iff, Qle_bool_iff in H.
    destruct (Qle_bool (this 0%Qc) (this x)) eqn:E; auto. apply Qle_bool_iff in E.
    exfalso. apply H0. apply Qc_is_canon. now apply Qle_antisym.
Qed.

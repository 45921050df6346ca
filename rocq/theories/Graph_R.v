(** * The real numbers as the Base type (used for the concrete cases beside the theorems about solving)

    Functions which solveFor does not use are given by the constant 0 where the standard library has none. *)
From Coq Require Import Reals Lra List Bool Arith Field_theory.
From Verif Require Import Graph_model Graph_spec Solve_spec.
Local Open Scope R_scope.

Definition Rcmp (c : cmp) (x y : R) : bool :=
  match c with
  | CLt => if Rlt_dec x y then true else false
  | CLe => if Rle_dec x y then true else false
  | CEq => if Req_EM_T x y then true else false
  | CGe => if Rle_dec y x then true else false
  | CGt => if Rlt_dec y x then true else false
  | CNe => if Req_EM_T x y then false else true
  end.
Definition Rfunction (f : ufun) (x : R) : R :=
  match f with
  | Abs => Rabs x | Cosh => cosh x | Cos => cos x | Exp => exp x | Log => ln x | Sinh => sinh x | Sin => sin x
  | Sqrt => sqrt x | Tanh => tanh x | Tan => tan x | Atan => atan x | Expm1 => exp x - 1 | Log1p => ln (1 + x)
  | _ => 0
  end.
Definition Rpow (x y : R) : R := if Req_EM_T y 0 then 1 else if Req_EM_T y 1 then x else Rpower x y.

#[global] Instance ROps : BaseOps R := {
  b0 := 0; b1 := 1; b10 := 10;
  badd := Rplus; bsub := Rminus; bmul := Rmult; bdiv := Rdiv; bneg := Ropp; bpow := Rpow;
  bfun := Rfunction; bcmp := Rcmp; bisz := fun x => Rcmp CEq x 0; biso := fun x => Rcmp CEq x 1
}.

Lemma Rpow0 x : Rpow x 0 = 1. Proof. unfold Rpow. destruct (Req_EM_T 0 0); lra. Qed.
Lemma Rpow1 x : Rpow x 1 = x.
Proof. unfold Rpow. destruct (Req_EM_T 1 0); [lra|]. destruct (Req_EM_T 1 1); lra. Qed.
Lemma Reqb x y : Rcmp CEq x y = true <-> x = y.
Proof. cbn. destruct (Req_EM_T x y); split; auto; discriminate. Qed.
Lemma Rltb x y : Rcmp CLt x y = true <-> x < y.
Proof. cbn. destruct (Rlt_dec x y); split; auto; try discriminate. Qed.
Lemma Rltb_false x y : Rcmp CLt x y = false <-> y <= x.
Proof. cbn. destruct (Rlt_dec x y); split; auto; try discriminate; lra. Qed.

Lemma R_laws : BaseLaws R.
Proof.
  constructor; cbn [badd bsub bmul bdiv bpow b0 b1 bcmp bisz biso ROps]; intros; try lra.
  - now apply Rinv_r.
  - apply Rpow0.
  - apply Rpow1.
  - apply Reqb.
  - now apply Reqb.
  - now apply Reqb.
  - apply Rltb_false. lra.
  - apply Rltb. change (Rcmp CGt x 0) with (Rcmp CLt 0 x) in H. apply Rltb_false in H. lra.
Qed.

Lemma R_field : is_field R.
Proof.
  constructor.
  - constructor; cbn; intros; lra.
  - cbn. lra.
  - intros. cbn. unfold Rdiv. lra.
  - intros. cbn in *. field. auto.
Qed.

Lemma ln_ne0 a : 0 < a -> a <> 1 -> ln a <> 0.
Proof. intros H N E. apply N. apply ln_inv; [auto|lra|]. now rewrite ln_1. Qed.

Lemma cosh_arcosh w : 1 <= w -> cosh (ln (w + sqrt (w * w - 1))) = w.
Proof.
  intros H. assert (P : 0 <= w * w - 1) by nra. pose proof (sqrt_pos (w * w - 1)) as Q.
  pose proof (sqrt_sqrt _ P) as SS. unfold cosh. rewrite exp_Ropp, exp_ln by lra.
  assert (E : / (w + sqrt (w * w - 1)) = w - sqrt (w * w - 1)).
  { apply Rmult_eq_reg_l with (w + sqrt (w * w - 1)); [|lra]. rewrite Rinv_r by lra. nra. }
  rewrite E. lra.
Qed.
Lemma sinh_arsinh w : sinh (ln (w + sqrt (w * w + 1))) = w.
Proof.
  assert (P : 0 <= w * w + 1) by nra. pose proof (sqrt_pos (w * w + 1)) as Q.
  pose proof (sqrt_sqrt _ P) as SS.
  assert (POS : 0 < w + sqrt (w * w + 1)).
  { destruct (Rle_or_lt 0 w) as [H|H].
    - assert (sqrt (w * w + 1) <> 0) by (intros E; rewrite E in SS; nra). lra.
    - assert (- w < sqrt (w * w + 1)); [|lra]. destruct (Rlt_le_dec (- w) (sqrt (w * w + 1))); auto. nra. }
  unfold sinh. rewrite exp_Ropp, exp_ln by lra.
  assert (E : / (w + sqrt (w * w + 1)) = sqrt (w * w + 1) - w).
  { apply Rmult_eq_reg_l with (w + sqrt (w * w + 1)); [|lra]. rewrite Rinv_r by lra. nra. }
  rewrite E. lra.
Qed.
Lemma tanh_artanh w : -1 < w -> w < 1 -> tanh (/ 2 * (ln (1 + w) - ln (1 - w))) = w.
Proof.
  intros H1 H2. set (t := / 2 * (ln (1 + w) - ln (1 - w))).
  assert (E : exp t * exp t = (1 + w) / (1 - w)).
  { rewrite <- exp_plus. replace (t + t) with (ln (1 + w) + - ln (1 - w)) by (unfold t; lra).
    rewrite exp_plus, exp_Ropp, !exp_ln by lra. reflexivity. }
  pose proof (exp_pos t) as P. unfold tanh, sinh, cosh. rewrite exp_Ropp.
  assert (M : (1 - w) * (exp t * exp t) = 1 + w) by (rewrite E; field; lra).
  apply Rmult_eq_reg_l with ((exp t + / exp t) / 2).
  2:{ assert (0 < / exp t) by (now apply Rinv_0_lt_compat). lra. }
  replace ((exp t + / exp t) / 2 * ((exp t - / exp t) / 2 / ((exp t + / exp t) / 2))) with ((exp t - / exp t) / 2).
  2:{ field. split; [lra|]. nra. }
  apply Rmult_eq_reg_l with (exp t); [|lra].
  replace (exp t * ((exp t - / exp t) / 2)) with ((exp t * exp t - 1) / 2) by (field; lra).
  replace (exp t * ((exp t + / exp t) / 2 * w)) with ((exp t * exp t + 1) / 2 * w) by (field; lra).
  nra.
Qed.

Lemma R_inverses : inverse_laws R (/ 2).
Proof.
  constructor; unfold positive; cbn [bfun bcmp badd bsub bmul bdiv bneg bpow b0 b1 ROps Rfunction].
  - intros w H. apply Rltb in H. now apply exp_ln.
  - intros w. apply ln_exp.
  - intros a w H1 H2 H3. apply Rltb in H1, H3. pose proof (ln_ne0 a H1 H2) as N. split; auto.
    unfold Rpow. destruct (Req_EM_T (ln w / ln a) 0) as [E|E].
    + assert (Z : ln w = 0). { replace (ln w) with (ln w / ln a * ln a) by (field; auto). rewrite E. lra. }
      symmetry. apply ln_inv; [auto|lra|]. now rewrite ln_1.
    + destruct (Req_EM_T (ln w / ln a) 1) as [E1|E1].
      * symmetry. apply ln_inv; auto. replace (ln w) with (ln w / ln a * ln a) by (field; auto). rewrite E1. lra.
      * unfold Rpower. replace (ln w / ln a * ln a) with (ln w) by (field; auto). now apply exp_ln.
  - intros w H. apply Rltb_false in H. now apply sqrt_square.
  - intros w H. apply Rltb_false in H. now apply cosh_arcosh.
  - apply sinh_arsinh.
  - intros w H1 H2. apply Rltb in H1, H2. apply tanh_artanh; lra.
Qed.

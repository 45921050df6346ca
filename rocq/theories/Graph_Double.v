(** * IEEE 754 binary64 as Base type

    The arithmetic of the standard library's SpecFloat (round to nearest even), which is a plain Gallina function: no axiom
    is involved.  [pow] and the unary functions are arbitrary placeholders (no statement about doubles uses them). *)
From Coq Require Import ZArith Bool SpecFloat.
From Verif Require Import Graph_model.

Definition prec := 53%Z.
Definition emax := 1024%Z.
Definition sf_cmp (c : cmp) (x y : spec_float) : bool :=
  match c with
  | CLt => SFltb x y | CLe => SFleb x y | CEq => SFeqb x y
  | CGe => SFleb y x | CGt => SFltb y x | CNe => negb (SFeqb x y)
  end.
Definition sf_one : spec_float := S754_finite false 4503599627370496 (-52).
Definition sf_ten : spec_float := S754_finite false 5629499534213120 (-49).
#[export] Instance DoubleOps : BaseOps spec_float := {|
  b0 := S754_zero false; b1 := sf_one; b10 := sf_ten;
  badd := SFadd prec emax; bsub := SFsub prec emax; bmul := SFmul prec emax; bdiv := SFdiv prec emax;
  bneg := SFopp; bpow := fun x _ => x; bfun := fun _ x => x; bcmp := sf_cmp;
  bisz := fun x => SFeqb x (S754_zero false); biso := fun x => SFeqb x sf_one |}.


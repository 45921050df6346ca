(** * The text of constants

    Models the functions that write a floating-point constant of a recorded expression into generated text:
    - LanguageC::writeParameter (include/cppad/cg/lang/c/language_c.hpp 2091-2107; precision 145, 227-239)
    - LanguageLatex::printParameter (include/cppad/cg/lang/latex/language_latex.hpp 2069-2089)
    - LanguageMathML::printParameter (include/cppad/cg/lang/mathml/language_mathml.hpp 2054-2080)
    - LanguageDot: the label and the name of a node made for a constant (include/cppad/cg/lang/dot/language_dot.hpp 605-646)

    All of them start from std::ostringstream << std::setprecision(p) << value, which is not code of the repository: it is
    modelled here after the C++ standard ([facet.num.put.virtuals], which refers to printf "%.*g") and the C standard (7.21.6.1):
    p significant digits, correctly rounded (half to even, as glibc does), the scientific style iff the decimal exponent is
    < -4 or >= p, trailing zeros removed.  The only property of the locale that is modelled is its decimal point; grouping
    of digits is not.  Base is double ([spec_float] of the standard library with 53 bits and exponents up to 1024). *)
From Coq Require Import ZArith SpecFloat Bool List Ascii String.
From Verif Require Import Graph_Double.
Import ListNotations.
Local Open Scope Z_scope.

Definition text := list ascii.
Definition T (s : string) : text := list_ascii_of_string s.

(** ** Digits *)

(** floor (log10 n) for n >= 1; n has at most log2 n + 1 decimal digits, which is the fuel given below *)
Fixpoint ilog10_aux (fuel : nat) (n : Z) : Z :=
  match fuel with
  | O => 0
  | S f => if n <? 10 then 0 else 1 + ilog10_aux f (n / 10)
  end.
Definition ilog10 (n : Z) : Z := ilog10_aux (S (Z.to_nat (Z.log2 n))) n.

(** the decimal exponent of the positive number a / b: the largest X with 10^X <= a / b *)
Definition exp10 (a b : Z) : Z :=
  if b <=? a then ilog10 (a / b)
  else (* the smallest k with 10^k * a >= b *)
    let c := (b + a - 1) / a in
    - (ilog10 (c - 1) + 1).

(** a / b rounded to an integer, half to even *)
Definition rhe (a b : Z) : Z :=
  let q := a / b in
  match 2 * (a mod b) ?= b with
  | Lt => q
  | Gt => q + 1
  | Eq => if Z.even q then q else q + 1
  end.

(** the p significant digits d and the decimal exponent X of the positive number a / b: d * 10^(X - p + 1) *)
Definition sig10 (p : Z) (a b : Z) : Z * Z :=
  let X := exp10 a b in
  let s := p - 1 - X in
  let d := rhe (a * 10 ^ Z.max s 0) (b * 10 ^ Z.max (- s) 0) in
  if d =? 10 ^ p then (10 ^ (p - 1), X + 1) else (d, X).

(** the last n decimal digits of d, most significant first *)
Fixpoint digs (n : nat) (d : Z) : list Z :=
  match n with
  | O => []
  | S n' => digs n' (d / 10) ++ [d mod 10]
  end.
Definition dchar (z : Z) : ascii := ascii_of_N (Z.to_N (48 + z)).

(** trailing zeros removed (the style of %g without the # flag) *)
Fixpoint dropz (l : list Z) : list Z :=
  match l with
  | 0 :: l' => dropz l'
  | _ => l
  end.
Definition strip0 (l : list Z) : list Z := rev (dropz (rev l)).

(** integer digits, then the decimal point and the digits after it if there are any *)
Definition pointed (dp : ascii) (ip fp : list Z) : text :=
  map dchar ip ++ match fp with [] => [] | _ => dp :: map dchar fp end.

(** the exponent of the scientific style: its sign and at least two digits *)
Definition expText (X : Z) : text :=
  (if X <? 0 then "-"%char else "+"%char)
    :: map dchar (digs (Z.to_nat (Z.max 2 (ilog10 (Z.max 1 (Z.abs X)) + 1))) (Z.abs X)).

(** "%.*g" of the positive number with p digits d and decimal exponent X *)
Definition genText (dp : ascii) (p d X : Z) : text :=
  let ds := digs (Z.to_nat p) d in
  if (-4 <=? X) && (X <? p) then
    if 0 <=? X then pointed dp (firstn (Z.to_nat (X + 1)) ds) (strip0 (skipn (Z.to_nat (X + 1)) ds))
    else pointed dp [0] (strip0 (repeat 0 (Z.to_nat (- X - 1)) ++ ds))
  else pointed dp (firstn 1 ds) (strip0 (skipn 1 ds)) ++ "e"%char :: expText X.

(** the numerator and the denominator of m * 2^e *)
Definition numer (m e : Z) : Z := m * 2 ^ Z.max e 0.
Definition denom (e : Z) : Z := 2 ^ Z.max (- e) 0.

(** a precision of 0 counts as 1 (C 7.21.6.1 §8) *)
Definition sig (prec : nat) : Z := Z.max 1 (Z.of_nat prec).

(** os << std::setprecision(prec) << value, in a locale whose decimal point is dp *)
Definition outStream (dp : ascii) (prec : nat) (v : spec_float) : text :=
  match v with
  | S754_zero s => (if s then T "-" else []) ++ T "0"
  | S754_infinity s => (if s then T "-" else []) ++ T "inf"
  | S754_nan => T "nan"
  | S754_finite s m e =>
      let '(d, X) := sig10 (sig prec) (numer (Zpos m) e) (denom e) in
      (if s then T "-" else []) ++ genText dp (sig prec) d X
  end.

(** number.find(c) != npos *)
Definition has (c : ascii) (t : text) : bool := existsb (Ascii.eqb c) t.

Definition dOne : spec_float := S754_finite false 4503599627370496 (-52).

(** LanguageC::writeParameter (language_c.hpp 2091-2107): the text of operator<< (2094-2098) and, unless the value is 0, 1,
    -1 or not a number (2100), a '.' when the text has neither '.' nor 'e' (2101-2105) *)
Definition writeC (dp : ascii) (prec : nat) (v : spec_float) : text :=
  let number := outStream dp prec v in
  if SFltb (S754_zero false) (SFabs v) && negb (SFeqb v dOne) && negb (SFeqb v (SFopp dOne)) then
    if negb (has "."%char number) && negb (has "e"%char number) then number ++ T "." else number
  else number.

(** position of the first 'e': the text before it and the text after it *)
Fixpoint splitE (t : text) : option (text * text) :=
  match t with
  | [] => None
  | c :: t' => if Ascii.eqb c "e"%char then Some ([], t')
               else match splitE t' with Some (a, b) => Some (c :: a, b) | None => None end
  end.
(** number[pos] == '0' removed while it holds (language_latex.hpp 2081-2082; reading number[size()] is the terminating 0) *)
Fixpoint dropZeroChars (t : text) : text :=
  match t with
  | c :: t' => if Ascii.eqb c "0"%char then dropZeroChars t' else t
  | [] => []
  end.

(** LanguageLatex::printParameter (language_latex.hpp 2069-2089): 'e' becomes " \times 10^{" (2075-2078), the sign of the
    exponent is kept (2079-2080), its leading zeros are removed (2081-2082), '}' closes (2084) *)
Definition writeLatex (dp : ascii) (prec : nat) (v : spec_float) : text :=
  let number := outStream dp prec v in
  match splitE number with
  | None => number
  | Some (a, b) =>
      let b' := match b with
                | c :: r => if Ascii.eqb c "-" || Ascii.eqb c "+" then c :: dropZeroChars r else dropZeroChars b
                | [] => []
                end in
      a ++ T " \times 10^{" ++ b' ++ T "}"
  end.

(** number.substr(pos) after skipping zeros, keeping at least one character (language_mathml.hpp 2072-2075) *)
Fixpoint dropZeroCharsButLast (t : text) : text :=
  match t with
  | c :: ((_ :: _) as t') => if Ascii.eqb c "0"%char then dropZeroCharsButLast t' else t
  | _ => t
  end.

(** LanguageMathML::printParameter (language_mathml.hpp 2054-2082): the two numbers of "a e b" as the contents of the <mn>
    elements of <mn>a</mn><mo>&times;</mo><msup><mn>10</mn><mn>b</mn></msup>; without exponent only <mn>a</mn> *)
Definition writeMathML (dp : ascii) (prec : nat) (v : spec_float) : text * option text :=
  let number := outStream dp prec v in
  match splitE number with
  | None => (number, None)
  | Some (a, b) =>
      let b' := match b with
                | c :: r => if Ascii.eqb c "-" then c :: dropZeroCharsButLast r
                            else if Ascii.eqb c "+" then dropZeroCharsButLast r
                            else dropZeroCharsButLast b
                | [] => []
                end in
      (a, Some b')
  end.

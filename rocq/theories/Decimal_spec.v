(** * What the text of a constant means

    Independent of how the text is written: the grammar of decimal constants of C and the double a compiler gives to one.
    Nothing of this file is code of the repository. *)
From Coq Require Import ZArith QArith Qabs SpecFloat Bool List Ascii String.
From Verif Require Import Graph_Double Decimal_model.
Import ListNotations.
Local Open Scope Z_scope.

(** ** Reading (C11 6.4.4.1, 6.4.4.2, without suffixes and hexadecimal constants) *)

Definition digitVal (c : ascii) : option Z :=
  let n := Z.of_N (N_of_ascii c) in
  if (48 <=? n) && (n <=? 57) then Some (n - 48) else None.
(** the longest prefix of digits and the rest *)
Fixpoint spanDigits (t : text) : list Z * text :=
  match t with
  | c :: t' => match digitVal c with
               | Some z => let '(l, r) := spanDigits t' in (z :: l, r)
               | None => ([], t)
               end
  | [] => ([], [])
  end.
Definition valueOf (l : list Z) : Z := fold_left (fun a z => 10 * a + z) l 0.

(** man * 10^ex, written as a constant of type int (no point, no exponent) or of type double *)
Record constant := mkConst { c_int : bool; c_man : Z; c_ex : Z }.

Definition signOf (t : text) : bool * text :=
  match t with
  | c :: r => if Ascii.eqb c "-" then (true, r) else if Ascii.eqb c "+" then (false, r) else (false, t)
  | [] => (false, [])
  end.

(** an unsigned constant *)
Definition readConst (t : text) : option constant :=
  let '(ip, r) := spanDigits t in
  let '(point, fp, r1) := match r with
                          | c :: r' => if Ascii.eqb c "." then let '(fp, r'') := spanDigits r' in (true, fp, r'') else (false, [], r)
                          | [] => (false, [], r)
                          end in
  match ip ++ fp with
  | [] => None (* at least one digit *)
  | _ =>
      match r1 with
      | [] => if point then Some (mkConst false (valueOf (ip ++ fp)) (- Z.of_nat (List.length fp)))
              else match ip with
                   | 0 :: _ :: _ => None (* octal *)
                   | _ => Some (mkConst true (valueOf ip) 0)
                   end
      | c :: r2 =>
          if Ascii.eqb c "e" then
            let '(s, r3) := signOf r2 in
            match spanDigits r3 with
            | ((_ :: _) as xs, []) =>
                let x := valueOf xs in
                Some (mkConst false (valueOf (ip ++ fp)) ((if s then - x else x) - Z.of_nat (List.length fp)))
            | _ => None
            end
          else None
      end
  end.
(** a constant, possibly after a minus operator *)
Definition readC (t : text) : option (bool * constant) :=
  match t with
  | c :: r => if Ascii.eqb c "-" then option_map (pair true) (readConst r) else option_map (pair false) (readConst t)
  | [] => None
  end.

(** ** Numbers *)
Local Open Scope Q_scope.

Definition dec (n k : Z) : Q := inject_Z n * Qpower (inject_Z 10) k.
Definition bin (m e : Z) : Q := inject_Z m * Qpower (inject_Z 2) e.

(** the non-negative finite doubles m * 2^e *)
Definition isDouble (m e : Z) : Prop :=
  m = 0%Z \/ exists p, m = Zpos p /\ bounded prec emax p e = true.

(** y is the positive number v rounded to a double, to nearest, half to even (IEEE 754-2008 4.3.1) *)
Definition roundsTo (v : Q) (y : spec_float) : Prop :=
  match y with
  | S754_zero s => s = false /\ v <= bin 1 (-1075)
  | S754_infinity s => s = false /\ bin (2 ^ 54 - 1) 970 <= v
  | S754_finite s m e =>
      s = false /\ isDouble (Zpos m) e /\ v < bin (2 ^ 54 - 1) 970 /\
      forall m' e', isDouble m' e' -> ~ bin m' e' == bin (Zpos m) e ->
        let here := Qabs (v - bin (Zpos m) e) in
        let there := Qabs (v - bin m' e') in
        here < there \/ here == there /\ Z.even (Zpos m) = true
  | S754_nan => False
  end.

(** the value a C compiler gives to a constant where a double is wanted: a constant of type int is an integer (which has no
    negative zero and does not exceed INT_MAX), a constant of type double is rounded, and minus negates *)
Definition gives (neg : bool) (c : constant) (x : spec_float) : Prop :=
  exists y,
    (if (c_man c =? 0)%Z then y = S754_zero false else roundsTo (dec (c_man c) (c_ex c)) y) /\
    (if c_int c then (c_man c <= 2147483647)%Z /\ x = (if neg && negb (c_man c =? 0)%Z then SFopp y else y)
     else x = if neg then SFopp y else y).
Definition means (t : text) (x : spec_float) : Prop :=
  match readC t with
  | Some (neg, c) => gives neg c x
  | None => False
  end.

(** the number a text of a constant denotes before it is rounded *)
Definition denotes (t : text) (v : Q) : Prop :=
  match readC t with
  | Some (neg, c) => v == (if neg then - dec (c_man c) (c_ex c) else dec (c_man c) (c_ex c))
  | None => False
  end.

(** the number of a finite double *)
Definition num (x : spec_float) : Q :=
  match x with
  | S754_finite s m e => if s then - bin (Zpos m) e else bin (Zpos m) e
  | _ => 0
  end.
Definition finite (x : spec_float) : bool :=
  match x with S754_finite _ _ _ | S754_zero _ => true | _ => false end.

(** *** The texts of LaTeX and of MathML *)

(** p is a prefix of t *)
Fixpoint after (p t : text) : option text :=
  match p, t with
  | [], _ => Some t
  | c :: p', d :: t' => if Ascii.eqb c d then after p' t' else None
  | _, [] => None
  end.
(** "a \times 10^{b}" read as "aeb": the numbers before and in the braces *)
Fixpoint readTimes (t : text) : option (text * text) :=
  match after (T " \times 10^{") t with
  | Some r => match rev r with
              | c :: r' => if Ascii.eqb c "}" then Some ([], rev r') else None
              | [] => None
              end
  | None => match t with
            | [] => None
            | c :: t' => option_map (fun ab => (c :: fst ab, snd ab)) (readTimes t')
            end
  end.
Definition timesTen (a b : text) (v : Q) : Prop :=
  exists w n neg digits, denotes a w /\ signOf b = (neg, digits) /\ spanDigits digits = (n, []) /\ n <> [] /\
    v == w * Qpower (inject_Z 10) (if neg then - valueOf n else valueOf n).
Definition denotesLatex (t : text) (v : Q) : Prop :=
  match readTimes t with
  | Some (a, b) => timesTen a b v
  | None => denotes t v
  end.
Definition denotesMathML (t : text * option text) (v : Q) : Prop :=
  match t with
  | (a, Some b) => timesTen a b v
  | (a, None) => denotes a v
  end.

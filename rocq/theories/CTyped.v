(** * The C types of generated expressions (specification)

    Not a model of /repo: how a C compiler types and evaluates the expressions of CSyntax.v (C11 6.3.1.8, 6.4.4, 6.5.5,
    6.5.6, 6.5.15).  Cells x, y, v and results of functions are of the base type; a number is an integer constant (type int)
    or a floating constant, depending on how it is spelled; / of two ints is the integer division; the value of ?: is
    converted to the common type of both branches; an int overflow or division by zero is undefined.

    [spelledInt] is the only part which comes from /repo: writeParameter (language_c.hpp 2091-2107) writes no '.' for
    0, 1 and -1, so that the magnitudes 0 and 1 are integer constants; every other finite number has a '.' or an exponent. *)
From Coq Require Import List Bool Arith ZArith String.
From Verif Require Import Graph_model Graph_spec Codegen_model Codegen_spec CSyntax CText.
Import ListNotations.

(** conversion of an int to the base type *)
Class IntOps (B : Type) : Type := ofZ : Z -> B.

Section Typed.
Context {B : Type} {O : BaseOps B} {I : IntOps B}.
Variable libm : string -> option cfun.

Definition spelledInt (b : B) : option Z :=
  if bcmp CEq b b0 then Some 0%Z else if bcmp CEq b b1 then Some 1%Z else None.

Inductive cval : Type := VI (z : Z) | VF (b : B).
Definition toF (v : cval) : B := match v with VI z => ofZ z | VF b => b end.

(** the (static) type of an expression: is it int? *)
Fixpoint intTyped (e : cexpr (catom B)) : bool :=
  match e with
  | EAtom (ALoc _) => false
  | EAtom (ALit b) => match spelledInt b with Some _ => true | None => false end
  | ENeg a => intTyped a
  | EBin (Plus | Minus | Star | Slash) a b => intTyped a && intTyped b
  | EBin _ _ _ => true
  | ECond _ a b => intTyped a && intTyped b
  | ECall _ _ => false
  end.

(** int is at least 16 bits; 32 here *)
Definition inInt (z : Z) : option cval := if ((-2147483648 <=? z) && (z <=? 2147483647))%Z then Some (VI z) else None.

Definition tarith (o : cop) (u v : option cval) : option cval :=
  match u, v with
  | Some (VI a), Some (VI b) =>
      match o with
      | Plus => inInt (a + b)%Z | Minus => inInt (a - b)%Z | Star => inInt (a * b)%Z
      | Slash => if (b =? 0)%Z then None else inInt (Z.quot a b)
      | _ => None
      end
  | Some u, Some v =>
      option_map VF
        match o with
        | Plus => Some (badd (toF u) (toF v)) | Minus => Some (bsub (toF u) (toF v)) | Star => Some (bmul (toF u) (toF v))
        | Slash => odiv (Some (toF u)) (Some (toF v))
        | _ => None
        end
  | _, _ => None
  end.
(** comparison after the usual conversions *)
Definition tcmp (c : cmp) (u v : cval) : bool :=
  match u, v with
  | VI a, VI b => match c with CLt => (a <? b)%Z | CLe => (a <=? b)%Z | CEq => (a =? b)%Z | CGe => (b <=? a)%Z | CGt => (b <? a)%Z
                  | CNe => negb (a =? b)%Z end
  | u, v => bcmp c (toF u) (toF v)
  end.

Fixpoint teval (m : @mem B) (e : cexpr (catom B)) {struct e} : option cval :=
  match e with
  | EAtom (ALoc l) => option_map VF (m l)
  | EAtom (ALit b) => Some (match spelledInt b with Some z => VI z | None => VF b end)
  | ENeg a => match teval m a with Some (VI z) => inInt (- z)%Z | Some (VF b) => Some (VF (bneg b)) | None => None end
  | EBin o a b => tarith o (teval m a) (teval m b)
  | ECond (EBin o a b) t f =>
      match cmpOf o, teval m a, teval m b with
      | Some c, Some u, Some v =>
          let r := if tcmp c u v then teval m t else teval m f in
          if intTyped t && intTyped f then r else option_map (fun w => VF (toF w)) r
      | _, _, _ => None
      end
  | ECond _ _ _ => None
  | ECall f [a] => match libm f, teval m a with Some (FUn u), Some v => Some (VF (bfun u (toF v))) | _, _ => None end
  | ECall f [a; b] => match libm f, teval m a, teval m b with Some FPow, Some u, Some v => Some (VF (bpow (toF u) (toF v))) | _, _, _ => None end
  | ECall _ _ => None
  end.

Definition ttest (m : @mem B) (e : cexpr (catom B)) : option bool :=
  match e with
  | EBin o a b =>
      match cmpOf o, teval m a, teval m b with
      | Some c, Some u, Some v => Some (tcmp c u v)
      | _, _, _ => None
      end
  | _ => None
  end.
(** execution: the assigned value is converted to the base type *)
Fixpoint texec1 (m : @mem B) (s : cstmt B) : @mem B :=
  match s with
  | CAssign l a e => assign m l a (option_map toF (teval m e))
  | CIf c s1 s2 =>
      match ttest m c with
      | Some true => texec1 m s1
      | Some false => texec1 m s2
      | None => fun l => if existsb (loc_eqb l) (cwrites s1 ++ cwrites s2) then None else m l
      end
  | CZero n => fun l => if existsb (loc_eqb l) (map LY (seq 0 n)) then Some b0 else m l
  end.
Definition texec (m : @mem B) (p : list (cstmt B)) : @mem B := fold_left texec1 p m.

(** ** Expressions evaluated in the base type: no operator + - * / has two int operands, a negated int is the
    constant 1 and comparisons are not between ints.  (An int alone is converted exactly.) *)
Definition litOne (e : cexpr (catom B)) : bool := match e with EAtom (ALit b) => negb (bcmp CEq b b0) && bcmp CEq b b1 | _ => false end.
Fixpoint base_typed (e : cexpr (catom B)) : bool :=
  match e with
  | EAtom _ => true
  | ENeg a => base_typed a && (negb (intTyped a) || litOne a)
  | EBin _ a b => base_typed a && base_typed b && negb (intTyped a && intTyped b)
  | ECond c t f => base_typed c && base_typed t && base_typed f
  | ECall _ l => forallb base_typed l
  end.
Fixpoint base_typed_stmt (s : cstmt B) : bool :=
  match s with
  | CAssign _ _ e => base_typed e
  | CIf c s1 s2 => base_typed c && base_typed_stmt s1 && base_typed_stmt s2
  | CZero _ => true
  end.

(** constants 0, 1 and -1 as ints are the base numbers; [ok_lit]: an unsigned number which compares equal to 0 (1) is 0 (1)
    (excludes the unsigned spelling of IEEE's negative zero, which writeParameter never produces) *)
Record IntLaws : Prop := {
  I_0 : ofZ 0 = b0;
  I_1 : ofZ 1 = b1;
  I_m1 : ofZ (-1) = bneg b1
}.
Definition ok_lit (b : B) : Prop := (bcmp CEq b b0 = true -> b = b0) /\ (bcmp CEq b b1 = true -> b = b1).
Fixpoint ok_lits (e : cexpr (catom B)) : Prop :=
  match e with
  | EAtom (ALit b) => ok_lit b
  | EAtom (ALoc _) => True
  | ENeg a => ok_lits a
  | EBin _ a b => ok_lits a /\ ok_lits b
  | ECond c t f => ok_lits c /\ ok_lits t /\ ok_lits f
  | ECall _ l => fold_right (fun a P => ok_lits a /\ P) True l
  end.
Fixpoint ok_lits_stmt (s : cstmt B) : Prop :=
  match s with CAssign _ _ e => ok_lits e | CIf c s1 s2 => ok_lits c /\ ok_lits_stmt s1 /\ ok_lits_stmt s2 | CZero _ => True end.
End Typed.
Arguments IntLaws B {O I}.

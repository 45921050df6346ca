(** * Reading the text of a generated C function body (specification)

    Not a model of /repo: how the assignments and conditionals of ISO C which CppADCodeGen prints are read and executed.
    Expressions are read with the grammar of CSyntax.v; all values are of the base type here (the C types are considered in
    CTyped.v). *)
From Coq Require Import List Bool Arith String.
From Verif Require Import Graph_model Graph_spec Codegen_model Codegen_spec CSyntax.
Import ListNotations.

Section Text.
Context {B : Type} {O : BaseOps B}.

(** atoms of the expressions: cells x[p], y[i], v[k], and unsigned numeric constants *)
Inductive catom : Type := ALoc (l : loc) | ALit (b : B).

(** the text: expression tokens, the punctuation of statements, and blanks.  [PZero n] is the whole text
    "for(i = 0; i < n; i++) y[i] = 0;". *)
Inductive ptok : Type :=
 | PT (t : tok catom) | PB | PSet | PAddSet | PSemi | PIf | PElse | PLBrace | PRBrace | PZero (n : nat).

Definition blank (t : ptok) : bool := match t with PB => true | _ => false end.
Definition strip (t : list ptok) : list ptok := filter (fun x => negb (blank x)) t.

(** ** Statements *)
Inductive cstmt : Type :=
 | CAssign (l : loc) (a : aop) (e : cexpr catom)
 | CIf (c : cexpr catom) (s1 s2 : cstmt)
 | CZero (n : nat).

Definition aopTok (a : aop) : ptok := match a with ASet => PSet | AAdd => PAddSet end.

Inductive reads1 : list ptok -> cstmt -> Prop :=
 | R_assign l a t e : c_reads t e -> reads1 (PT (TAtom (ALoc l)) :: aopTok a :: map PT t ++ [PSemi]) (CAssign l a e)
 | R_if t c b1 s1 b2 s2 : c_reads t c -> reads1 b1 s1 -> reads1 b2 s2 ->
     reads1 (PIf :: PT TLP :: map PT t ++ PT TRP :: PLBrace :: b1 ++ PRBrace :: PElse :: PLBrace :: b2 ++ [PRBrace]) (CIf c s1 s2)
 | R_zero n : reads1 [PZero n] (CZero n).
Inductive reads : list ptok -> list cstmt -> Prop :=
 | R_nil : reads [] []
 | R_cons t s ts p : reads1 t s -> reads ts p -> reads (t ++ ts) (s :: p).

(** two tokens which, written without a blank between them, the C compiler would (or could) take for another token:
    two words (names, numbers), two operators ("- -" written "--") *)
Definition word (t : ptok) : bool := match t with PT (TAtom _ | TFun _) | PIf | PElse => true | _ => false end.
Definition oper (t : ptok) : bool := match t with PT (TOp _) | PSet | PAddSet => true | _ => false end.
Definition fuses (a b : ptok) : bool := (word a && word b) || (oper a && oper b).
Fixpoint separated (t : list ptok) : bool :=
  match t with
  | a :: (b :: _) as t' => negb (fuses a b) && separated t'
  | _ => true
  end.

(** "[t] is the text of the C statements [p]" *)
Definition text_of (t : list ptok) (p : list cstmt) : Prop := separated t = true /\ reads (strip t) p.

(** ** Values of expressions.  [libm] says which function a name of <math.h> computes. *)
Inductive cfun : Type := FUn (f : ufun) | FPow.
Variable libm : string -> option cfun.

Definition cmpOf (o : cop) : option cmp :=
  match o with
  | Lt => Some CLt | Le => Some CLe | Gt => Some CGt | Ge => Some CGe | EqEq => Some CEq | NotEq => Some CNe
  | _ => None
  end.

Fixpoint ceval (m : @mem B) (e : cexpr catom) {struct e} : option B :=
  match e with
  | EAtom (ALoc l) => m l
  | EAtom (ALit b) => Some b
  | ENeg a => lift1 bneg (ceval m a)
  | EBin Plus a b => lift2 badd (ceval m a) (ceval m b)
  | EBin Minus a b => lift2 bsub (ceval m a) (ceval m b)
  | EBin Star a b => lift2 bmul (ceval m a) (ceval m b)
  | EBin Slash a b => odiv (ceval m a) (ceval m b)
  | EBin _ _ _ => None
  | ECond (EBin o a b) t f =>
      match cmpOf o with Some c => ocond c (ceval m a) (ceval m b) (ceval m t) (ceval m f) | None => None end
  | ECond _ _ _ => None
  | ECall f [a] => match libm f with Some (FUn u) => lift1 (bfun u) (ceval m a) | _ => None end
  | ECall f [a; b] => match libm f with Some FPow => lift2 bpow (ceval m a) (ceval m b) | _ => None end
  | ECall _ _ => None
  end.

(** a condition: a comparison *)
Definition ctest (m : @mem B) (e : cexpr catom) : option bool :=
  match e with
  | EBin o a b =>
      match cmpOf o, ceval m a, ceval m b with
      | Some c, Some u, Some v => Some (bcmp c u v)
      | _, _, _ => None
      end
  | _ => None
  end.

(** ** Execution *)
Fixpoint cwrites (s : cstmt) : list loc :=
  match s with CAssign l _ _ => [l] | CIf _ s1 s2 => cwrites s1 ++ cwrites s2 | CZero n => map LY (seq 0 n) end.
(** when a condition has no defined value nothing is known about the cells which the branches assign *)
Fixpoint cexec1 (m : @mem B) (s : cstmt) : @mem B :=
  match s with
  | CAssign l a e => assign m l a (ceval m e)
  | CIf c s1 s2 =>
      match ctest m c with
      | Some true => cexec1 m s1
      | Some false => cexec1 m s2
      | None => fun l => if existsb (loc_eqb l) (cwrites s1 ++ cwrites s2) then None else m l
      end
  | CZero n => fun l => if existsb (loc_eqb l) (map LY (seq 0 n)) then Some b0 else m l
  end.
Definition cexec (m : @mem B) (p : list cstmt) : @mem B := fold_left cexec1 p m.
End Text.
Arguments catom B : clear implicits.
Arguments ptok B : clear implicits.
Arguments cstmt B : clear implicits.

(** the functions of <math.h> for double (C99 7.12) which the library may call *)
Definition libm_double (s : string) : option cfun :=
  let fix look (l : list (string * cfun)) := match l with [] => None | (n, f) :: l' => if String.eqb s n then Some f else look l' end in
  look [("fabs", FUn Abs); ("acos", FUn Acos); ("asin", FUn Asin); ("atan", FUn Atan); ("cosh", FUn Cosh); ("cos", FUn Cos);
        ("exp", FUn Exp); ("log", FUn Log); ("sinh", FUn Sinh); ("sin", FUn Sin); ("sqrt", FUn Sqrt); ("tanh", FUn Tanh);
        ("tan", FUn Tan); ("erf", FUn Erf); ("erfc", FUn Erfc); ("asinh", FUn Asinh); ("acosh", FUn Acosh);
        ("atanh", FUn Atanh); ("expm1", FUn Expm1); ("log1p", FUn Log1p); ("pow", FPow)]%string.
(** the functions for float; pow and erfc of a float argument are the double functions, whose result is converted *)
Definition libm_float (s : string) : option cfun :=
  let fix look (l : list (string * cfun)) := match l with [] => None | (n, f) :: l' => if String.eqb s n then Some f else look l' end in
  look [("fabsf", FUn Abs); ("acosf", FUn Acos); ("asinf", FUn Asin); ("atanf", FUn Atan); ("coshf", FUn Cosh); ("cosf", FUn Cos);
        ("expf", FUn Exp); ("logf", FUn Log); ("sinhf", FUn Sinh); ("sinf", FUn Sin); ("sqrtf", FUn Sqrt); ("tanhf", FUn Tanh);
        ("tanf", FUn Tan); ("erff", FUn Erf); ("erfc", FUn Erfc); ("asinhf", FUn Asinh); ("acoshf", FUn Acosh);
        ("atanhf", FUn Atanh); ("expm1f", FUn Expm1); ("log1pf", FUn Log1p); ("pow", FPow)]%string.

(** * The C text of the generated assignments

    Models the printing of scalar operations by LanguageC (include/cppad/cg/lang/c/language_c.hpp 966-1038, 1241-1287,
    1433-1752, 2087-2143) and the names of mathematical functions (language_c.hpp 504-526, language_c_double.hpp 27-30,
    language_c_float.hpp 27-140).

    Simplifications:
    - the text is a list of tokens and blanks instead of characters; indentation and line ends are not represented (they
      only separate tokens which do not fuse); comments are left out;
    - a name is the cell it stands for; a number is its sign and its magnitude: [pneg]/[pmag] stand for the characters
      which operator<< with setprecision writes, and for the value a C compiler gives to them;
    - loops over dependents (printLoopIndexDeps) and all the operations which Graph_model.v leaves out. *)
From Coq Require Import List Bool Arith String.
From Verif Require Import Graph_model Codegen_model CSyntax CText Stream_model.
Import ListNotations.

(** how a parameter is written: whether the text starts with '-', and the magnitude which follows *)
Class PrintOps (B : Type) : Type := { pneg : B -> bool; pmag : B -> B }.

(** function names: CPPAD_CG_C_LANG_FUNCNAME (language_c.hpp 19-24, 504-526) and the specialization for double
    (language_c_double.hpp 27-30) *)
Definition fname_double (f : ufun) : string :=
  match f with
  | Abs => "fabs" | Acos => "acos" | Acosh => "acosh" | Asin => "asin" | Asinh => "asinh" | Atan => "atan" | Atanh => "atanh"
  | Cosh => "cosh" | Cos => "cos" | Erf => "erf" | Erfc => "erfc" | Exp => "exp" | Expm1 => "expm1" | Log => "log"
  | Log1p => "log1p" | Sinh => "sinh" | Sin => "sin" | Sqrt => "sqrt" | Tanh => "tanh" | Tan => "tan"
  end.
(** language_c_float.hpp 27-140 (there is no specialization for erfc) *)
Definition fname_float (f : ufun) : string :=
  match f with
  | Abs => "fabsf" | Acos => "acosf" | Acosh => "acoshf" | Asin => "asinf" | Asinh => "asinhf" | Atan => "atanf" | Atanh => "atanhf"
  | Cosh => "coshf" | Cos => "cosf" | Erf => "erff" | Erfc => "erfc" | Exp => "expf" | Expm1 => "expm1f" | Log => "logf"
  | Log1p => "log1pf" | Sinh => "sinhf" | Sin => "sinf" | Sqrt => "sqrtf" | Tanh => "tanhf" | Tan => "tanf"
  end.
(** language_c.hpp 517 (no specialization) *)
Definition powname : string := "pow".

Section Print.
Context {B : Type} {O : BaseOps B} {PO : PrintOps B}.
Variable fname : ufun -> string.

Notation text := (list (ptok B)).
Notation items := (list (item (ptok B) nat)).

Definition txt (t : text) : items := map IText t.
Definition tLoc (l : loc) : ptok B := PT (TAtom (ALoc l)).
Definition tOp (o : cop) : ptok B := PT (TOp o).

(** pushParameter / writeParameter (2087-2107) *)
Definition param (b : B) : text := if pneg b then [tOp Minus; PT (TAtom (ALit (pmag b)))] else [PT (TAtom (ALit (pmag b)))].

(** getComparison (2109-2135), _C_COMP_OP_* *)
Definition cmpTok (c : cmp) : cop :=
  match c with CLt => Lt | CLe => Le | CEq => EqEq | CGe => Ge | CGt => Gt | CNe => NotEq end.

Section Node.
Variable g : heap B.
Variable o : options.
Variable indeps : list nat.
Variable deps : list (arg B).
Variable pl : plan.
Variable nm : nat -> option loc.
Notation varName := (varName g indeps deps pl nm).
Variable fuel : nat.     (* for the loops over alias nodes *)

(** push / pushExpression (1241-1262) *)
Definition push (a : arg B) : outcome items :=
  match a with
  | APar b => Done (txt (param b))
  | ANode j => if Nat.eqb (p_vid pl j) 0 then Done [INode j]
               else match varName j with Some l => Done (txt [tLoc l]) | None => Bad end
  end.

(** isFunction (2141-2143) *)
Definition isFunction (i : nat) : bool := match opc g i with GFun _ | GPow => true | _ => false end.

(** the while loop of encloseInParenthesesDiv/Mul (1596-1603, 1636-1643): the node which is examined, or [None] when the
    loop returns false or ends at a null pointer *)
Fixpoint encloseNode (f : nat) (a : arg B) : outcome (option nat) :=
  match a with
  | APar _ => Done None
  | ANode j =>
    match f with
    | 0 => Fuel
    | S f => if negb (Nat.eqb (p_vid pl j) 0) then Done None
             else match opc g j with
                  | GAlias => match gargs g j with a' :: _ => encloseNode f a' | [] => Bad end
                  | _ => Done (Some j)
                  end
    end
  end.
(** encloseInParenthesesDiv (1595-1607) *)
Definition encloseDiv (a : arg B) : outcome bool :=
  obind (encloseNode fuel a) (fun n => Done (match n with Some j => negb (isFunction j) | None => false end)).
(** encloseInParenthesesMul (1635-1649) *)
Definition encloseMul (a : arg B) : outcome bool :=
  obind (encloseNode fuel a) (fun n => Done (match n with
    | Some j => negb (match opc g j with GDiv | GMul => true | _ => false end) && negb (isFunction j)
    | None => false end)).

Definition paren (enc : bool) (t : items) : items := if enc then txt [PT TLP] ++ t ++ txt [PT TRP] else t.
Definition infix (o : cop) : items := txt [PB; tOp o; PB].

(** pushAssignmentStart/End (1011-1038) *)
Definition startText (i : nat) (l : loc) : text :=
  [tLoc l; PB; aopTok (if isDependent indeps pl i then o_aop o else ASet); PB].
Definition endText : text := [PSemi].

Definition isNonNeg (a : arg B) : bool := match a with ANode _ => true | APar b => bcmp CGe b b0 end.
Definition negPar (a : arg B) : text := match a with APar b => param (bneg b) | ANode _ => [] end.

(** pushExpressionNoVarCheck (1289-1431) for scalar operations *)
Definition pieces (i : nat) : outcome items :=
  match opc g i, gargs g i with
  | GInv _, _ => Bad             (* an independent without identifier: not printed by this route *)
  | (GAlias | GAssign), [a] => push a                                               (* 1546-1549, 1433-1437 *)
  | GFun f, [a] =>                                                                  (* pushUnaryFunction 1439-1512 *)
      obind (push a) (fun t => Done (txt [PT (TFun (fname f)); PT TLP] ++ t ++ txt [PT TRP]))
  | GPow, [a; b] =>                                                                 (* pushPowFunction 1514-1522 *)
      obind (push a) (fun t => obind (push b) (fun u =>
      Done (txt [PT (TFun powname); PT TLP] ++ t ++ txt [PT TComma; PB] ++ u ++ txt [PT TRP])))
  | GSign, [ANode j] =>                                                             (* pushSignFunction 1524-1544 *)
      if Nat.eqb (p_vid pl j) 0 then Bad
      else match varName j with
           | None => Bad
           | Some l => Done (txt ([PT TLP; tLoc l; PB; tOp Gt; PB] ++ param b0 ++ [PT TQuest] ++ param b1 ++
                                  [PT TColon; PT TLP; tLoc l; PB; tOp Lt; PB] ++ param b0 ++ [PT TQuest] ++ param (bneg b1) ++
                                  [PT TColon] ++ param b0 ++ [PT TRP; PT TRP]))
           end
  | GAdd, [a; b] =>                                                                 (* pushOperationAdd 1551-1567 *)
      obind (push a) (fun t =>
      if isNonNeg b then obind (push b) (fun u => Done (t ++ infix Plus ++ u))
      else Done (t ++ infix Minus ++ txt (negPar b)))
  | GSub, [a; b] =>                                                                 (* pushOperationMinus 1569-1593 *)
      if isNonNeg b
      then obind (encloseMul b) (fun e => obind (push a) (fun t => obind (push b) (fun u => Done (t ++ infix Minus ++ paren e u))))
      else obind (push a) (fun t => Done (t ++ infix Plus ++ txt (negPar b)))
  | GDiv, [a; b] =>                                                                 (* pushOperationDiv 1609-1633 *)
      obind (encloseDiv a) (fun ea => obind (encloseDiv b) (fun eb =>
      obind (push a) (fun t => obind (push b) (fun u => Done (paren ea t ++ infix Slash ++ paren eb u)))))
  | GMul, [a; b] =>                                                                 (* pushOperationMul 1651-1675 *)
      obind (encloseMul a) (fun ea => obind (encloseMul b) (fun eb =>
      obind (push a) (fun t => obind (push b) (fun u => Done (paren ea t ++ infix Star ++ paren eb u)))))
  | GUnMinus, [a] =>                                                                (* pushOperationUnaryMinus 1677-1694 *)
      obind (encloseMul a) (fun e => obind (push a) (fun t => Done (txt [tOp Minus] ++ (if e then paren true t else txt [PB] ++ t))))
  | GCom c, [x; y; t; f] =>                                                         (* pushConditionalAssignment 1717-1752 *)
      match varName i with
      | None => Bad
      | Some l =>
        if sameArg t f then obind (push t) (fun t => Done (txt (startText i l) ++ t ++ txt endText))
        else obind (push x) (fun x => obind (push y) (fun y => obind (push t) (fun t => obind (push f) (fun f =>
             Done (txt [PIf; PT TLP; PB] ++ x ++ txt [PB; tOp (cmpTok c); PB] ++ y ++ txt [PB; PT TRP; PB; PLBrace; PB] ++
                   txt (startText i l) ++ t ++ txt endText ++ txt [PB; PRBrace; PB; PElse; PB; PLBrace; PB] ++
                   txt (startText i l) ++ f ++ txt endText ++ txt [PB; PRBrace])))))
      end
  | _, _ => Bad
  end.

(** printAssignment / pushAssignment (966-1009).  directlyAssignsVariable (1146-1164) holds for conditionals only. *)
Definition printAssignment (rounds i : nat) : outcome text :=
  match varName i with
  | None => Bad
  | Some l =>
    let direct := isCom g i in
    let out := if direct then [] else startText i l in
    obind (pushNoVarCheck2 pieces rounds i (mkLss out [] None)) (fun s =>
    Done (ls_out (flush (if direct then s else sendAll s (txt endText)))))
  end.

(** duplicates and constants (888-923), printed to _code *)
Fixpoint dupTexts (l : list (arg B)) (i : nat) : outcome (list text) :=
  match l with
  | [] => Done []
  | ANode j :: l' =>
      obind (dupTexts l' (S i)) (fun r =>
      if negb (isInv g j) && negb (Nat.eqb (p_vid pl j) 0) &&
         negb (match firstDep g pl deps 0 (p_vid pl j) with Some k => Nat.eqb k i | None => true end)
      then match nm j with Some n => Done ([tLoc (LY i); PB; aopTok (o_aop o); PB; tLoc n; PSemi] :: r) | None => Bad end
      else Done r)
  | APar _ :: l' => dupTexts l' (S i)
  end.
Fixpoint cstTexts (l : list (arg B)) (i : nat) : outcome (list text) :=
  match l with
  | [] => Done []
  | APar b :: l' =>
      obind (cstTexts l' (S i)) (fun r =>
      if negb (o_ignoreZero o) || negb (bisz b)
      then Done (([tLoc (LY i); PB; aopTok (o_aop o); PB] ++ param b ++ [PSemi]) :: r) else Done r)
  | ANode j :: l' =>
      obind (cstTexts l' (S i)) (fun r =>
      if isInv g j then match nm j with Some n => Done ([tLoc (LY i); PB; aopTok (o_aop o); PB; tLoc n; PSemi] :: r) | None => Bad end
      else Done r)
  end.

(** the function body written by generateSourceCode (788-923): the loop which clears y, the assignments in evaluation order,
    duplicates, constants *)
Definition bodyTexts (rounds : nat) : outcome (list text) :=
  obind (omap (printAssignment rounds) (p_vo pl)) (fun body =>
  obind (dupTexts deps 0) (fun dup =>
  obind (cstTexts deps 0) (fun cst =>
  Done ((match p_vo pl with [] => [] | _ => if o_zeroDeps o then [[PZero (List.length deps)]] else [] end)
        ++ body ++ dup ++ cst)))).
End Node.

(** the text which generateCode writes; [rounds] is the fuel of the while loop of pushExpressionNoVarCheck2 *)
Definition generateText (g : heap B) (fuel rounds : nat) (o : options) (indeps : list nat) (deps : list (arg B)) (nm : nat -> option loc)
  : outcome text :=
  obind (makePlan g fuel o indeps deps) (fun pl =>
  obind (bodyTexts g o indeps deps pl (allNames g indeps deps pl nm) fuel rounds) (fun l => Done (List.concat l))).
End Print.

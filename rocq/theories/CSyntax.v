(** * A small fragment of C expression syntax (specification file)

    Not a model of /repo: this is the independent yard-stick against which the texts printed by
    include/cppad/cg/lang/c/*.hpp are read.  It is the expression grammar of ISO C (C11 6.5.2 - 6.5.15)
    restricted to the operators that CppADCodeGen prints: primary expressions (an atom, a parenthesised
    expression, a function call), unary minus, the left-associative binary operators with their C
    precedences, and the conditional operator.  Blanks are not represented (tokens). *)
From Coq Require Import List Arith Lia Bool String.
Import ListNotations.

(** Binary operators printed by the C back-end. *)
Inductive cop := Plus | Minus | Star | Slash | Lt | Le | Gt | Ge | EqEq | NotEq | AndAnd | OrOr.

Definition cop_eqb (a b : cop) : bool :=
  match a, b with
  | Plus, Plus | Minus, Minus | Star, Star | Slash, Slash | Lt, Lt | Le, Le | Gt, Gt | Ge, Ge
  | EqEq, EqEq | NotEq, NotEq | AndAnd, AndAnd | OrOr, OrOr => true
  | _, _ => false
  end.

(** Tokens.  [A] is the type of atoms: identifiers such as [v[3]] and literals. *)
Inductive tok (A : Type) :=
| TAtom (a : A) | TFun (f : string) | TOp (o : cop) | TQuest | TColon | TLP | TRP | TComma.
Arguments TAtom {A}. Arguments TFun {A}. Arguments TOp {A}.
Arguments TQuest {A}. Arguments TColon {A}. Arguments TLP {A}. Arguments TRP {A}. Arguments TComma {A}.

(** Abstract syntax. *)
Inductive cexpr (A : Type) :=
| EAtom (a : A)
| ENeg (e : cexpr A)
| EBin (o : cop) (l r : cexpr A)
| ECond (c t e : cexpr A)
| ECall (f : string) (args : list (cexpr A)).
Arguments EAtom {A}. Arguments ENeg {A}. Arguments EBin {A}. Arguments ECond {A}. Arguments ECall {A}.

(** C precedence levels, from loosest to tightest:
    0 conditional, 1 [||], 2 [&&], 3 [== !=], 4 [< <= > >=], 5 [+ -], 6 [* /], 7 unary, 8 primary. *)
Definition lv (o : cop) : nat :=
  match o with
  | OrOr => 1 | AndAnd => 2 | EqEq | NotEq => 3 | Lt | Le | Gt | Ge => 4 | Plus | Minus => 5 | Star | Slash => 6
  end.

Section Grammar.
Context {A : Type}.

(** [G n t e]: the token list [t] is an expression of level [n] with syntax tree [e].
    [GL t es]: [t] is a (non-empty) comma separated argument list. *)
Inductive G : nat -> list (tok A) -> cexpr A -> Prop :=
| G_up n t e : n < 8 -> G (S n) t e -> G n t e
| G_bin o t1 t2 a b : G (lv o) t1 a -> G (S (lv o)) t2 b -> G (lv o) (t1 ++ TOp o :: t2) (EBin o a b)
| G_cond t t1 t2 a b c : G 1 t a -> G 0 t1 b -> G 0 t2 c -> G 0 (t ++ TQuest :: t1 ++ TColon :: t2) (ECond a b c)
| G_neg t a : G 7 t a -> G 7 (TOp Minus :: t) (ENeg a)
| G_atom a : G 8 [TAtom a] (EAtom a)
| G_paren t e : G 0 t e -> G 8 (TLP :: t ++ [TRP]) e
| G_call f t es : GL t es -> G 8 (TFun f :: TLP :: t ++ [TRP]) (ECall f es)
with GL : list (tok A) -> list (cexpr A) -> Prop :=
| GL_one t e : G 0 t e -> GL t [e]
| GL_more t e ts es : G 0 t e -> GL ts es -> GL (t ++ TComma :: ts) (e :: es).

(** "[t] is the C expression [e]" *)
Definition c_reads (t : list (tok A)) (e : cexpr A) : Prop := G 0 t e.

(** An executable reader for the same grammar (precedence climbing), with fuel; [None] is "syntax error or
    out of fuel".  Only used to prove that the grammar is unambiguous. *)
Definition bind {X Y} (o : option X) (f : X -> option Y) : option Y := match o with Some x => f x | None => None end.

Fixpoint plvl (F : nat) (n : nat) (t : list (tok A)) {struct F} : option (cexpr A * list (tok A)) :=
  match F with
  | 0 => None
  | S F =>
    match n with
    | 0 => bind (plvl F 1 t) (fun '(a, r) =>
             match r with
             | TQuest :: r1 => bind (plvl F 0 r1) (fun '(b, r2) =>
                 match r2 with
                 | TColon :: r3 => bind (plvl F 0 r3) (fun '(c, r4) => Some (ECond a b c, r4))
                 | _ => None
                 end)
             | _ => Some (a, r)
             end)
    | 7 => match t with
           | TOp Minus :: r => bind (plvl F 7 r) (fun '(a, r') => Some (ENeg a, r'))
           | _ => plvl F 8 t
           end
    | 8 => match t with
           | TAtom a :: r => Some (EAtom a, r)
           | TLP :: r => bind (plvl F 0 r) (fun '(e, r') => match r' with TRP :: r'' => Some (e, r'') | _ => None end)
           | TFun f :: TLP :: r =>
               bind (pargs F r) (fun '(es, r') => match r' with TRP :: r'' => Some (ECall f es, r'') | _ => None end)
           | _ => None
           end
    | _ => if 8 <? n then None else bind (plvl F (S n) t) (fun '(a, r) => ploop F n a r)
    end
  end
with ploop (F : nat) (n : nat) (a : cexpr A) (r : list (tok A)) {struct F} : option (cexpr A * list (tok A)) :=
  match F with
  | 0 => None
  | S F =>
    match r with
    | TOp o :: r' => if lv o =? n then bind (plvl F (S n) r') (fun '(b, r'') => ploop F n (EBin o a b) r'')
                     else Some (a, r)
    | _ => Some (a, r)
    end
  end
with pargs (F : nat) (t : list (tok A)) {struct F} : option (list (cexpr A) * list (tok A)) :=
  match F with
  | 0 => None
  | S F =>
    bind (plvl F 0 t) (fun '(e, r) =>
      match r with
      | TComma :: r' => bind (pargs F r') (fun '(es, r'') => Some (e :: es, r''))
      | _ => Some ([e], r)
      end)
  end.

End Grammar.

Scheme G_mind := Minimality for G Sort Prop with GL_mind := Minimality for GL Sort Prop.
Combined Scheme G_mutind from G_mind, GL_mind.

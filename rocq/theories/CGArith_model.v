(** * Recording operations with CG<Base> (C01-C04)

    Models include/cppad/cg: cg.hpp, variable.hpp, default.hpp, arithmetic.hpp, arithmetic_assign.hpp, unary.hpp,
    math.hpp, math_other.hpp, cond_exp_op.hpp and CodeHandler::makeVariable.  Function by function; each returns the
    new heap and the resulting CG object, or [Throw] for a CGException.

    Simplifications: release build (CPPADCG_ASSERT_* have no effect); the overloads taking Base or other types
    only wrap their argument in CG<Base>(b) (arithmetic.hpp 148-260), which [Par b] models directly. *)
From Coq Require Import List Bool Arith.
From Verif Require Import Graph_model.
Import ListNotations.

Section CG.
Context {B : Type} {O : BaseOps B}.

(** CG<Base> (cg.hpp 32-60): node_ == nullptr is a parameter, whose value_ is always set; otherwise a variable
    with an optional value_. *)
Inductive cg : Type := Par (b : B) | Var (i : nat) (v : option B).

Inductive result (A : Type) : Type := Ok (a : A) | Throw.
Arguments Ok {A} a.
Arguments Throw {A}.

(** CG::isValueDefined / getValue (variable.hpp 43-55) *)
Definition cvalue (x : cg) : option B := match x with Par b => Some b | Var _ v => v end.

(** CG::argument (variable.hpp 108-114) *)
Definition argument (x : cg) : arg B := match x with Par b => APar b | Var i _ => ANode i end.

(** CG::getCodeHandler (variable.hpp 22-28); None is the null pointer *)
Definition nodeHandler (g : heap B) (i : nat) : option nat := option_map n_handler (nth_error g i).
Definition getCodeHandler (g : heap B) (x : cg) : option nat :=
  match x with Par _ => None | Var i _ => nodeHandler g i end.

(** getHandler (arithmetic.hpp 21-40) *)
Definition getHandler (g : heap B) (l r : cg) : result nat :=
  match getCodeHandler g l, getCodeHandler g r with
  | None, Some rh => Ok rh
  | Some lh, None => Ok lh
  | Some lh, Some rh => if Nat.eqb lh rh then Ok lh else Throw
  | None, None => Throw (* null handler dereferenced: both parameters, never reached *)
  end.

(** isIdenticalZero / isIdenticalOne (variable.hpp 66-74), for a parameter *)

Inductive bop : Set := BAdd | BSub | BMul | BDiv.
Definition bopcode (o : bop) : gop := match o with BAdd => GAdd | BSub => GSub | BMul => GMul | BDiv => GDiv end.
Definition bapply (o : bop) : B -> B -> B :=
  match o with BAdd => badd | BSub => bsub | BMul => bmul | BDiv => bdiv end.

(** setValue when both operands have values (arithmetic.hpp 61-63, 83-85, 113-115, 141-143) *)
Definition value2 (f : B -> B -> B) (l r : cg) : option B :=
  match cvalue l, cvalue r with Some a, Some b => Some (f a b) | _, _ => None end.

Definition newnode (g : heap B) (h : nat) (o : gop) (args : list (arg B)) (v : option B) : heap B * cg :=
  let '(g', i) := makeNode g h o args in (g', Var i v).

(** result node of the four binary operators (the common tail of each) *)
Definition mkBin (g : heap B) (o : bop) (l r : cg) : result (heap B * cg) :=
  match getHandler g l r with
  | Throw => Throw
  | Ok h => Ok (newnode g h (bopcode o) [argument l; argument r] (value2 (bapply o) l r))
  end.

(** operator+ (arithmetic.hpp 42-66) *)
Definition cadd (g : heap B) (l r : cg) : result (heap B * cg) :=
  match l, r with
  | Par a, Par b => Ok (g, Par (badd a b))
  | Par a, Var _ _ => if bisz a then Ok (g, r) else mkBin g BAdd l r
  | Var _ _, Par b => if bisz b then Ok (g, l) else mkBin g BAdd l r
  | Var _ _, Var _ _ => mkBin g BAdd l r
  end.

(** operator- (arithmetic.hpp 68-88) *)
Definition csub (g : heap B) (l r : cg) : result (heap B * cg) :=
  match l, r with
  | Par a, Par b => Ok (g, Par (bsub a b))
  | _, Par b => if bisz b then Ok (g, l) else mkBin g BSub l r
  | _, Var _ _ => mkBin g BSub l r
  end.

(** operator* (arithmetic.hpp 90-118) *)
Definition cmul (g : heap B) (l r : cg) : result (heap B * cg) :=
  match l, r with
  | Par a, Par b => Ok (g, Par (bmul a b))
  | Par a, Var _ _ =>
      if bisz a then Ok (g, Par b0) else if biso a then Ok (g, r) else mkBin g BMul l r
  | Var _ _, Par b =>
      if bisz b then Ok (g, Par b0) else if biso b then Ok (g, l) else mkBin g BMul l r
  | Var _ _, Var _ _ => mkBin g BMul l r
  end.

(** operator/ (arithmetic.hpp 120-146) *)
Definition cdiv (g : heap B) (l r : cg) : result (heap B * cg) :=
  match l, r with
  | Par a, Par b => Ok (g, Par (bdiv a b))
  | Par a, Var _ _ => if bisz a then Ok (g, Par b0) else mkBin g BDiv l r
  | Var _ _, Par b => if biso b then Ok (g, l) else mkBin g BDiv l r
  | Var i _, Var j _ => if Nat.eqb i j then Ok (g, Par b1) else mkBin g BDiv l r
  end.

Definition cbin (g : heap B) (o : bop) : cg -> cg -> result (heap B * cg) :=
  match o with BAdd => cadd g | BSub => csub g | BMul => cmul g | BDiv => cdiv g end.

(** handler choice of the compound assignments: the left node's handler, or the right one's when the left operand
    is a parameter; there is only an assertion that both agree (arithmetic_assign.hpp 28-45, 66-79, 98-122, 141-159) *)
Definition asgHandler (g : heap B) (l r : cg) : option nat :=
  match l with Var i _ => nodeHandler g i | Par _ => getCodeHandler g r end.
Definition mkAsg (g : heap B) (o : bop) (l r : cg) : result (heap B * cg) :=
  match asgHandler g l r with
  | None => Throw (* null dereference, never reached *)
  | Some h => Ok (newnode g h (bopcode o) [argument l; argument r] (value2 (bapply o) l r))
  end.

(** operator+= -= *= /= (arithmetic_assign.hpp 21-170); the result is the new value of *this *)
Definition casg (g : heap B) (o : bop) (l r : cg) : result (heap B * cg) :=
  match o, l, r with
  | _, Par a, Par b => Ok (g, Par (bapply o a b))
  (* += *)
  | BAdd, Par a, Var _ _ => if bisz a then Ok (g, r) else mkAsg g o l r
  | BAdd, Var _ _, Par b => if bisz b then Ok (g, l) else mkAsg g o l r
  (* -= *)
  | BSub, Var _ _, Par b => if bisz b then Ok (g, l) else mkAsg g o l r
  (* *= *)
  | BMul, Par a, Var _ _ => if bisz a then Ok (g, l) else if biso a then Ok (g, r) else mkAsg g o l r
  | BMul, Var _ _, Par b => if bisz b then Ok (g, Par b0) else if biso b then Ok (g, l) else mkAsg g o l r
  (* /= *)
  | BDiv, Par a, Var _ _ => if bisz a then Ok (g, l) else mkAsg g o l r
  | BDiv, Var _ _, Par b => if biso b then Ok (g, l) else mkAsg g o l r
  | _, _, _ => mkAsg g o l r
  end.

(** unary operations on a variable: node in the variable's own handler *)
Definition mkUn (g : heap B) (o : gop) (f : B -> B) (x : cg) : result (heap B * cg) :=
  match getCodeHandler g x with
  | None => Throw (* null dereference, never reached *)
  | Some h => Ok (newnode g h o [argument x] (option_map f (cvalue x)))
  end.

(** operator-() (unary.hpp 27-39) *)
Definition cneg (g : heap B) (x : cg) : result (heap B * cg) :=
  match x with Par b => Ok (g, Par (bneg b)) | Var _ _ => mkUn g GUnMinus bneg x end.

(** CPPAD_CG_CREATE_OPERATION (math.hpp 20-33) *)
Definition cfun (g : heap B) (f : ufun) (x : cg) : result (heap B * cg) :=
  match x with Par b => Ok (g, Par (bfun f b)) | Var _ _ => mkUn g (GFun f) (bfun f) x end.

(** log10 (math.hpp 61-64) *)
Definition clog10 (g : heap B) (x : cg) : result (heap B * cg) :=
  match cfun g Log x with
  | Throw => Throw
  | Ok (g', y) => cdiv g' y (Par (bfun Log b10))
  end.

(** pow (math_other.hpp 20-46) *)
Definition cpow (g : heap B) (x y : cg) : result (heap B * cg) :=
  let mk (h : option nat) :=
    match h with
    | None => Throw (* null dereference, never reached *)
    | Some h => Ok (newnode g h GPow [argument x; argument y] (value2 bpow x y))
    end in
  match x, y with
  | Par a, Par b => Ok (g, Par (bpow a b))
  | _, Par b =>
      if bisz b then Ok (g, Par b1) else if biso b then Ok (g, x) else mk (getCodeHandler g x)
  | _, Var _ _ => mk (getCodeHandler g y)
  end.

(** the value computed by sign (math_other.hpp 77-84, 89-96) *)
Definition signValue (x : B) : B :=
  if bcmp CGt x b0 then b1 else if bcmp CEq x b0 then b0 else bneg b1.

(** sign (math_other.hpp 73-99) *)
Definition csign (g : heap B) (x : cg) : result (heap B * cg) :=
  match x with Par b => Ok (g, Par (signValue b)) | Var _ _ => mkUn g GSign signValue x end.

(** isSameExpression (cond_exp_op.hpp 25-32) *)
Definition isSameExpression (t f : cg) : bool :=
  match t, f with
  | Par a, Par b => bcmp CEq a b
  | Var i _, Var j _ => Nat.eqb i j
  | _, _ => false
  end.

(** findCodeHandler (cond_exp_op.hpp 39-71) *)
Definition differs (g : heap B) (h : nat) (x : cg) : bool :=
  match getCodeHandler g x with None => false | Some h' => negb (Nat.eqb h' h) end.
Definition findCodeHandler (g : heap B) (l r t f : cg) : result nat :=
  let first :=
    match getCodeHandler g l with
    | Some h => Some h
    | None => match getCodeHandler g r with
      | Some h => Some h
      | None => match getCodeHandler g t with
        | Some h => Some h
        | None => getCodeHandler g f
        end
      end
    end in
  match first with
  | None => Throw
  | Some h => if differs g h r || differs g h t || differs g h f then Throw else Ok h
  end.

(** CondExp (cond_exp_op.hpp 79-117) *)
Definition ccond (g : heap B) (c : cmp) (l r t f : cg) : result (heap B * cg) :=
  let general :=
    if isSameExpression t f then Ok (g, t)
    else match findCodeHandler g l r t f with
      | Throw => Throw
      | Ok h =>
        let v := match cvalue l, cvalue r with
                 | Some a, Some b => if bcmp c a b then cvalue t else cvalue f
                 | _, _ => None
                 end in
        Ok (newnode g h (GCom c) [argument l; argument r; argument t; argument f] v)
      end in
  match l, r with
  | Par a, Par b => if bcmp c a b then Ok (g, t) else Ok (g, f)
  | _, _ => general
  end.

(** CodeHandler::makeVariable (code_handler_impl.hpp 90-93) followed by an optional CG::setValue *)
Definition makeIndep (g : heap B) (h : nat) (v : option B) : heap B * cg :=
  newnode g h (GInv (indepCount g h)) [] v.

(** ** Programs: any sequence of operations on a set of CG objects *)
Inductive instr : Type :=
 | IConst (d : nat) (b : B)
 | IIndep (d : nat) (h : nat) (v : option B)
 | ICopy (d a : nat)
 | IBin (o : bop) (d a b : nat)
 | IAsg (o : bop) (d a : nat)
 | INeg (d a : nat)
 | IFun (f : ufun) (d a : nat)
 | ILog10 (d a : nat)
 | IPow (d a b : nat)
 | ISign (d a : nat)
 | ICond (c : cmp) (d l r t f : nat).

(** CG objects; initially CG() = parameter 0 (default.hpp 24-28) *)
Record state : Type := mkState { s_heap : heap B; s_reg : nat -> cg }.
Definition init : state := mkState [] (fun _ => Par b0).

Definition setreg (s : state) (d : nat) (gx : heap B * cg) : state :=
  mkState (fst gx) (fun k => if Nat.eqb k d then snd gx else s_reg s k).
Definition bindr (s : state) (d : nat) (r : result (heap B * cg)) : result state :=
  match r with Throw => Throw | Ok gx => Ok (setreg s d gx) end.

Definition step (s : state) (i : instr) : result state :=
  let g := s_heap s in
  let R := s_reg s in
  match i with
  | IConst d b => Ok (setreg s d (g, Par b))
  | IIndep d h v => Ok (setreg s d (makeIndep g h v))
  | ICopy d a => Ok (setreg s d (g, R a))
  | IBin o d a b => bindr s d (cbin g o (R a) (R b))
  | IAsg o d a => bindr s d (casg g o (R d) (R a))
  | INeg d a => bindr s d (cneg g (R a))
  | IFun f d a => bindr s d (cfun g f (R a))
  | ILog10 d a => bindr s d (clog10 g (R a))
  | IPow d a b => bindr s d (cpow g (R a) (R b))
  | ISign d a => bindr s d (csign g (R a))
  | ICond c d l r t f => bindr s d (ccond g c (R l) (R r) (R t) (R f))
  end.

Fixpoint run (s : state) (p : list instr) : result state :=
  match p with
  | [] => Ok s
  | i :: p' => match step s i with Throw => Throw | Ok s' => run s' p' end
  end.
End CG.
Arguments cg B : clear implicits.
Arguments instr B : clear implicits.
Arguments state B : clear implicits.
Arguments Ok {A} a.
Arguments Throw {A}.

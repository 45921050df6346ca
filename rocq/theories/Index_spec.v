(** * Specification for index patterns *)
From Coq Require Import List Bool Arith ZArith Sorted.
From Verif Require Import CSyntax Index_model.
Import ListNotations.
Local Open Scope Z_scope.

(** the points of a std::map: strictly ascending non-negative keys *)
Definition points (m : list (Z * Z)) : Prop := StronglySorted Z.lt (map fst m) /\ (forall x y, In (x, y) m -> 0 <= x).

(** value of a pattern at x: the linear formula; that of the last section starting at or before x; the tabulated value *)
Definition in_section (s : list (Z * lin)) (x : Z) (l : lin) : Prop :=
  exists k, In (k, l) s /\ k <= x /\ forall k' l', In (k', l') s -> k' <= x -> k' < k \/ (k', l') = (k, l).
Inductive value_at : ipat -> Z -> Z -> Prop :=
 | V_lin l x : value_at (PLin l) x (evalLin l x)
 | V_sec s x l : in_section s x l -> value_at (PSec s) x (evalLin l x)
 | V_rand m x y : In (x, y) m -> value_at (PRand1 m) x y.

(** planes: z = f1(x) + f2(y); a function which is not there counts as 0 *)
Definition opt_value (p : option ipat) (x v : Z) : Prop := match p with Some q => value_at q x v | None => v = 0 end.
Definition plane_value (p : plane) (x y z : Z) : Prop := exists a b, opt_value (fst p) x a /\ opt_value (snd p) y b /\ z = a + b.
(** a map of non-empty maps *)
Definition plane_points (l : list (Z * list (Z * Z))) : Prop :=
  StronglySorted Z.lt (map fst l) /\ (forall x m, In (x, m) l -> 0 <= x /\ points m /\ m <> []).

(** ** Values of the printed index expressions: C integer arithmetic.
    The index variables are unsigned long (64 bits); a constant is signed.  An operation with an unsigned operand is
    done modulo 2^64 on unsigned numbers; a signed operation must not overflow (None); x / 0 is undefined. *)
Definition W : Z := 2 ^ 64.
Inductive ival : Type := VU (z : Z) | VS (z : Z).
Definition toU (v : ival) : Z := match v with VU z => z | VS z => z mod W end.
Definition inS (z : Z) : option ival := if (- 2 ^ 63 <=? z) && (z <? 2 ^ 63) then Some (VS z) else None.
Definition iarith (o : cop) (u v : ival) : option ival :=
  match u, v with
  | VS a, VS b =>
      match o with
      | Plus => inS (a + b) | Minus => inS (a - b) | Star => inS (a * b)
      | Slash => if b =? 0 then None else inS (Z.quot a b)
      | Lt => Some (VS (if a <? b then 1 else 0))
      | _ => None
      end
  | _, _ =>
      let a := toU u in let b := toU v in
      match o with
      | Plus => Some (VU ((a + b) mod W)) | Minus => Some (VU ((a - b) mod W)) | Star => Some (VU ((a * b) mod W))
      | Slash => if b =? 0 then None else Some (VU (a / b))
      | Lt => Some (VS (if a <? b then 1 else 0))
      | _ => None
      end
  end.
Definition nonzero (v : ival) : bool := match v with VU z | VS z => negb (z =? 0) end.

(** static type: is the expression unsigned? *)
Fixpoint isU (e : cexpr iatom) : bool :=
  match e with
  | EAtom (ANum _) => false
  | EAtom _ => true
  | ENeg a => isU a
  | EBin Lt _ _ => false
  | EBin _ a b => isU a || isU b
  | ECond _ a b => isU a || isU b
  | ECall _ _ => false
  end.
(** [ix k]: value of the k-th index variable *)
Fixpoint ieval (ix : nat -> Z) (e : cexpr iatom) : option ival :=
  match e with
  | EAtom (AIdx k) => Some (VU (ix k))
  | EAtom (ANum z) => Some (VS z)
  | EAtom (ATab t k) => match nth_error t (Z.to_nat (ix k)) with Some y => Some (VU y) | None => None end
  | ENeg a => match ieval ix a with Some (VU z) => Some (VU ((- z) mod W)) | Some (VS z) => inS (- z) | None => None end
  | EBin o a b => match ieval ix a, ieval ix b with Some u, Some v => iarith o u v | _, _ => None end
  | ECond c a b =>
      match ieval ix c with
      | Some v => let r := if nonzero v then ieval ix a else ieval ix b in
                  if isU a || isU b then option_map (fun w => VU (toU w)) r else r
      | None => None
      end
  | ECall _ _ => None
  end.
(** the number used as an index *)
Definition asIndex (v : ival) : Z := match v with VU z | VS z => z end.

(** "the text [t] is one C expression whose value, when the index variables are [ix], is [z]" *)
Definition text_value (t : list (tok iatom)) (ix : nat -> Z) (z : Z) : Prop :=
  exists e, c_reads t e /\ (forall e', c_reads t e' -> e' = e) /\ exists v, ieval ix e = Some v /\ asIndex v = z.

(** * Specification for iteration ranges: membership, well-formedness, and the meaning of C conditions. *)
From Coq Require Import List NArith Lia Bool.
From Verif Require Import CSyntax Range_model.
Import ListNotations.
Local Open Scope N_scope.

(** iteration [k] belongs to the ranges [(l0,l1), (l2,l3), ...] *)
Fixpoint In_ranges (k : N) (l : list N) : Prop :=
  match l with lo :: hi :: r => (lo <= k /\ k <= hi) \/ In_ranges k r | _ => False end.

(** complete pairs, each with lo <= hi <= SIZE_MAX *)
Fixpoint valid_ranges (l : list N) : Prop :=
  match l with [] => True | [_] => False | lo :: hi :: r => lo <= hi /\ hi <= SIZE_MAX /\ valid_ranges r end.

(** "ordered regions": ascending (lexicographically) pairs, possibly overlapping *)
Fixpoint ordered_ranges (l : list N) : Prop :=
  match l with
  | lo :: hi :: r =>
      match r with
      | lo' :: hi' :: _ => lo < lo' \/ (lo = lo' /\ hi <= hi')
      | _ => True
      end /\ ordered_ranges r
  | _ => True
  end.

(** "ordered and non-overlapping regions" *)
Fixpoint disjoint_ranges (l : list N) : Prop :=
  match l with
  | lo :: hi :: r => match r with lo' :: _ => hi < lo' | _ => True end /\ disjoint_ranges r
  | _ => True
  end.

(** Value of a C condition over size_t values: 1/0 for comparisons and logical operators. *)
Definition b2n (b : bool) : N := if b then 1 else 0.
Fixpoint evalC (i : N) (e : cexpr iatom) : option N :=
  match e with
  | EAtom AIdx => Some i
  | EAtom (ANum n) => Some n
  | EBin o a b =>
      match evalC i a, evalC i b with
      | Some x, Some y =>
          match o with
          | Lt => Some (b2n (x <? y)) | Le => Some (b2n (x <=? y))
          | Gt => Some (b2n (y <? x)) | Ge => Some (b2n (y <=? x))
          | EqEq => Some (b2n (x =? y)) | NotEq => Some (b2n (negb (x =? y)))
          | AndAnd => Some (b2n (negb (x =? 0) && negb (y =? 0)))
          | OrOr => Some (b2n (negb (x =? 0) || negb (y =? 0)))
          | _ => None
          end
      | _, _ => None
      end
  | _ => None
  end.

(** iterations for which a branch of an if/else-if/else chain is executed *)
Fixpoint covered (b : branch) (k : N) : Prop :=       (* this branch or an earlier one is taken *)
  match b with
  | StartIf c => In_ranges k c
  | ElseIf p c => covered p k \/ In_ranges k c
  | Else p => True
  end.
Definition taken (b : branch) (k : N) : Prop :=
  match b with
  | StartIf c => In_ranges k c
  | ElseIf p c => ~ covered p k /\ In_ranges k c
  | Else p => ~ covered p k
  end.
Fixpoint wf_chain (b : branch) : Prop :=              (* conditions are ordered, non-overlapping, non-empty *)
  match b with
  | StartIf c => c <> [] /\ valid_ranges c /\ disjoint_ranges c
  | ElseIf p c => wf_chain p /\ (match p with Else _ => False | _ => True end) /\ c <> [] /\ valid_ranges c /\ disjoint_ranges c
  | Else p => wf_chain p /\ (match p with Else _ => False | _ => True end)
  end.

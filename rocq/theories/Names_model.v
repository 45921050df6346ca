(** * Names of variables in C source code

    Models LangCDefaultVariableNameGenerator (include/cppad/cg/lang/c/lang_c_default_var_name_gen.hpp),
    LangCCustomVariableNameGenerator (lang_c_custom_var_name_gen.hpp), LangCDefaultHessianVarNameGenerator
    (lang_c_default_hessian_var_name_gen.hpp) and LangCDefaultReverse2VarNameGenerator
    (lang_c_default_reverse2_var_name_gen.hpp).

    Simplifications: numbers are written by operator<< of a stream with the classic locale (decimal digits only);
    identifiers are natural numbers instead of size_t (they start at 1, so id - 1 does not wrap around); the names
    which depend on loop indexes (generateIndexed...) are left out; the independent variables are CGInvOp nodes. *)
From Coq Require Import List Bool Arith String Ascii Decimal DecimalString.
Import ListNotations.
Local Open Scope string_scope.

(** operator<<(std::ostream&, size_t) *)
Definition dec (n : nat) : string := NilZero.string_of_uint (Nat.to_uint n).
(** _ss << name << "[" << index << "]" *)
Definition elem (name : string) (k : nat) : string := name ++ "[" ++ dec k ++ "]".

(** the generators of names for independent variables; [IHess] and [IRev2] wrap another generator *)
Inductive igen : Type :=
 | IDefault (name : string)                                (* default 52-73: _indepName *)
 | ICustom (names : list string) (name : string)           (* custom 33-45: indepNames_ *)
 | IHess (g : igen) (n : nat) (mult : string)              (* hessian 42-66: _minMultiplierID = n + 1 *)
 | IRev2 (g : igen) (n n1 : nat) (l1 l2 : string).         (* reverse2 46-77: _minLevel1ID = n + 1, _minLevel2ID = n + 1 + n1 *)

(** index < names.size() && !names[index].empty() *)
Definition custom (names : list string) (k : nat) : option string :=
  match nth_error names k with Some (String a s) => Some (String a s) | _ => None end.

(** generateIndependent (default 101-109, custom 57-65, hessian 96-106, reverse2 108-122) *)
Fixpoint indepName (g : igen) (id : nat) : string :=
  match g with
  | IDefault name => elem name (id - 1)
  | ICustom names name => match custom names (id - 1) with Some s => s | None => elem name (id - 1) end
  | IHess g n mult => if Nat.ltb id (n + 1) then indepName g id else elem mult (id - (n + 1))
  | IRev2 g n n1 l1 l2 =>
      if Nat.ltb id (n + 1) then indepName g id
      else if Nat.ltb id (n + 1 + n1) then elem l1 (id - (n + 1))
      else elem l2 (id - (n + 1 + n1))
  end.

(** getIndependentArrayName (default 192-195, hessian 156-162, reverse2 177-185) *)
Fixpoint arrayName (g : igen) (id : nat) : string :=
  match g with
  | IDefault name => name
  | ICustom _ name => name
  | IHess g n mult => if Nat.ltb id (n + 1) then arrayName g id else mult
  | IRev2 g n n1 l1 l2 => if Nat.ltb id (n + 1) then arrayName g id else if Nat.ltb id (n + 1 + n1) then l1 else l2
  end.

(** getIndependentArrayIndex (default 197-200, hessian 164-170, reverse2 187-195) *)
Fixpoint arrayIndex (g : igen) (id : nat) : nat :=
  match g with
  | IDefault _ => id - 1
  | ICustom _ _ => id - 1
  | IHess g n _ => if Nat.ltb id (n + 1) then arrayIndex g id else id - (n + 1)
  | IRev2 g n n1 _ _ =>
      if Nat.ltb id (n + 1) then arrayIndex g id else if Nat.ltb id (n + 1 + n1) then id - (n + 1) else id - (n + 1 + n1)
  end.

(** index > indepNames_.size() || indepNames_[index].empty() (custom 75-76, 90-91); [None]: reads past the end *)
Definition notCustom (names : list string) (k : nat) : option bool :=
  if Nat.ltb (List.length names) k then Some true
  else match nth_error names k with
       | None => None
       | Some s => Some (String.eqb s "")
       end.

(** isConsecutiveInIndepArray (default 202-207, custom 67-80, hessian 172-183, reverse2 197-211) *)
Fixpoint consecutive (g : igen) (id1 id2 : nat) : option bool :=
  match g with
  | IDefault _ => Some (Nat.eqb (id1 + 1) id2)
  | ICustom names _ =>
      match notCustom names (id1 - 1) with
      | None => None
      | Some false => Some false
      | Some true => match notCustom names (id2 - 1) with
                     | None => None
                     | Some false => Some false
                     | Some true => Some (Nat.eqb (id1 - 1 + 1) (id2 - 1))
                     end
      end
  | IHess g n _ =>
      if xorb (Nat.ltb id1 (n + 1)) (Nat.ltb id2 (n + 1)) then Some false
      else if Nat.ltb id1 (n + 1) && Nat.ltb id2 (n + 1) then consecutive g id1 id2
      else Some (Nat.eqb (id1 + 1) id2)
  | IRev2 g n n1 _ _ =>
      if xorb (Nat.ltb id1 (n + 1)) (Nat.ltb id2 (n + 1)) then Some false
      else if Nat.ltb id1 (n + 1) && Nat.ltb id2 (n + 1) then consecutive g id1 id2
      else if xorb (Nat.ltb id1 (n + 1 + n1)) (Nat.ltb id2 (n + 1 + n1)) then Some false
      else Some (Nat.eqb (id1 + 1) id2)
  end.

(** isInSameIndependentArray (default 209-214, custom 82-91, hessian 185-204, reverse2 213-232) for CGInvOp nodes *)
Definition inSame (g : igen) (id1 id2 : nat) : option bool :=
  match g with
  | IDefault _ => Some true
  | ICustom names _ =>
      match notCustom names (id1 - 1) with
      | None => None
      | Some false => Some false
      | Some true => notCustom names (id2 - 1)
      end
  | IHess _ n _ =>
      let l id := if Nat.ltb id (n + 1) then 0 else 1 in Some (Nat.eqb (l id1) (l id2))
  | IRev2 _ n n1 _ _ =>
      let l id := if Nat.ltb id (n + 1) then 0 else if Nat.ltb id (n + 1 + n1) then 1 else 2 in Some (Nat.eqb (l id1) (l id2))
  end.

(** the other names; [ng_depNames] is empty for the default generator *)
Record ngen : Type := mkNgen {
  ng_indep : igen;
  ng_depNames : list string;   (* depNames_, custom 33 *)
  ng_dep : string;             (* _depName *)
  ng_tmp : string;             (* _tmpName *)
  ng_array : string;           (* _tmpArrayName *)
  ng_sarray : string;          (* _tmpSparseArrayName *)
  ng_tmpArray : bool;          (* _temporary[0].array *)
  ng_minTmp : nat              (* _minTemporaryID *)
}.

Inductive var : Set := VDep (index : nat) | VIndep (id : nat) | VTemp (id : nat) | VArray (id : nat) | VSArray (id : nat).

(** generateDependent (default 92-99, custom 49-55), generateIndependent, generateTemporary (default 111-123),
    generateTemporaryArray (125-135), generateTemporarySparseArray (137-147) *)
Definition varText (g : ngen) (v : var) : string :=
  match v with
  | VDep i => match custom (ng_depNames g) i with Some s => s | None => elem (ng_dep g) i end
  | VIndep id => indepName (ng_indep g) id
  | VTemp id => if ng_tmpArray g then elem (ng_tmp g) (id - ng_minTmp g) else ng_tmp g ++ dec id
  | VArray id => "&" ++ elem (ng_array g) (id - 1)
  | VSArray id => "&" ++ elem (ng_sarray g) (id - 1)
  end.

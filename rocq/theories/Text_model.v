(** * Model of the text functions of util.hpp *)
From Coq Require Import List Arith Bool Ascii.
Import ListNotations.
Local Open Scope nat_scope.

(** std::string as its characters. *)
Definition text := list ascii.

(** Whether [t] starts with [p]. *)
Fixpoint startsWith (p t : text) : bool :=
  match p, t with
  | [], _ => true
  | a :: p', b :: t' => Ascii.eqb a b && startsWith p' t'
  | _ :: _, [] => false
  end.

(** std::string::find(p), from the beginning. *)
Fixpoint findText (p t : text) : option nat :=
  if startsWith p t then Some 0
  else match t with
       | [] => None
       | _ :: r => match findText p r with Some k => Some (S k) | None => None end
       end.

(** std::string::find(p, pos): npos when pos is after the end. *)
Definition findFrom (t p : text) (pos : nat) : option nat :=
  if pos <=? length t then
    match findText p (skipn pos t) with Some k => Some (pos + k) | None => None end
  else None.

(** std::string::replace(pos, n, r), for pos within the text. *)
Definition replaceAt (t : text) (pos n : nat) (r : text) : text :=
  firstn pos t ++ r ++ skipn (pos + n) t.

(** std::string::substr(start, n), for start within the text. *)
Definition substr (t : text) (start n : nat) : text := firstn n (skipn start t).

(** util.hpp 751-759: replaceString, from the position [pos].  [None]: still
    running when the fuel is over. *)
Fixpoint replaceFrom (fuel : nat) (t toReplace replacement : text) (pos : nat) : option text :=
  match fuel with
  | 0 => None
  | S fuel' =>
      match findFrom t toReplace pos with
      | None => Some t
      | Some p => replaceFrom fuel' (replaceAt t p (length toReplace) replacement) toReplace replacement (p + length replacement)
      end
  end.
Definition replaceString (fuel : nat) (t toReplace replacement : text) : option text :=
  replaceFrom fuel t toReplace replacement 0.

(** util.hpp 770-783: the loop of explode, then the last piece. *)
Fixpoint explodeFrom (fuel : nat) (t delimiter : text) (start : nat) (matches : list text) : option (list text) :=
  match fuel with
  | 0 => None
  | S fuel' =>
      match findFrom t delimiter start with
      | None => Some (if start <? length t then matches ++ [substr t start (length t - start)] else matches)
      | Some pos => explodeFrom fuel' t delimiter (pos + length delimiter) (matches ++ [substr t start (pos - start)])
      end
  end.

(** util.hpp 761-786: explode. *)
Definition explode (fuel : nat) (t delimiter : text) : option (list text) :=
  match delimiter with [] => Some [] | _ :: _ => explodeFrom fuel t delimiter 0 [] end.

(** util.hpp 788-807: implode; the reservation of memory is not modelled. *)
Definition implode (pieces : list text) (delimiter : text) : text :=
  match pieces with
  | [] => []
  | [x] => x
  | x :: r => fold_left (fun out s => out ++ delimiter ++ s) r x
  end.

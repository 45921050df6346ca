(** * LangStreamStack (include/cppad/cg/lang/lang_stream_stack.hpp 58-141)

    [T]: texts (std::string), [N]: operation nodes.  The output stream is the list of the texts sent to it. *)
From Coq Require Import List Arith.
From Verif Require Import Codegen_model.
Import ListNotations.

Section Stream.
Context {T N : Type}.

(** LangStreamOperation (25-48) *)
Inductive item : Type := IText (t : T) | INode (n : N).

(** _out, _cache (forward_list) and _it: [None] is before_begin(), [Some k] the element at position k *)
Record lss : Type := mkLss { ls_out : list T; ls_cache : list item; ls_it : option nat }.

(** forward_list::emplace_after *)
Definition emplaceAfter (it : option nat) (x : item) (l : list item) : list item * option nat :=
  match it with
  | None => (x :: l, Some 0)
  | Some k => (firstn (S k) l ++ x :: skipn (S k) l, Some (S k))
  end.

(** operator<< for texts (99-106) and for nodes (136-140) *)
Definition send (s : lss) (x : item) : lss :=
  match x, ls_it s with
  | IText t, None => mkLss (ls_out s ++ [t]) (ls_cache s) None
  | _, it => let (c, it) := emplaceAfter it x (ls_cache s) in mkLss (ls_out s) c it
  end.
Definition sendAll (s : lss) (l : list item) : lss := fold_left send l s.

(** the loop of flush (82-85) *)
Fixpoint flushTexts (out : list T) (c : list item) : list T * list item :=
  match c with
  | IText t :: c' => flushTexts (out ++ [t]) c'
  | _ => (out, c)
  end.
(** flush (78-88) *)
Definition flush (s : lss) : lss :=
  match ls_cache s with
  | [] => s
  | _ => let (o, c) := flushTexts (ls_out s) (ls_cache s) in mkLss o c None
  end.

(** startNewOperationNode (90-98); [None]: an assertion fails *)
Definition startNode (s : lss) : option (N * lss) :=
  match ls_cache s with
  | INode n :: c => Some (n, mkLss (ls_out s) c None)
  | _ => None
  end.

(** LanguageC::pushExpressionNoVarCheck2 (language_c.hpp 1264-1287).  [pieces n] is what pushExpressionNoVarCheck
    sends for node [n]; the while loop takes fuel. *)
Variable pieces : N -> outcome (list item).
Fixpoint drain (fuel : nat) (s : lss) : outcome lss :=
  match fuel with
  | 0 => Fuel
  | S fuel =>
    let s := flush s in
    match ls_cache s with
    | [] => Done s
    | _ => match startNode s with
           | None => Bad
           | Some (n, s) => obind (pieces n) (fun l => drain fuel (sendAll s l))
           end
    end
  end.
Definition pushNoVarCheck2 (fuel : nat) (n : N) (s : lss) : outcome lss :=
  obind (pieces n) (fun l => drain fuel (sendAll s l)).
End Stream.
Arguments item T N : clear implicits.
Arguments lss T N : clear implicits.

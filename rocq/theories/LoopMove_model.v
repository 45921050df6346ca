(** * Expressions which do not depend on the index of a loop

    Models include/cppad/cg/model/patterns/model_c_source_gen_loops.hpp: moveNonIndexedOutsideLoop (240-266) and LoopNonIndexedLocator (268-347), which
    find the operations that a loop needs and which do not depend on its index, and make them arguments of the start of the loop, so that they are
    computed once in front of it; used by all functions with loops.  The table of marks is a CodeHandlerVector
    (code_handler_vector.hpp 99-126: one element for each node which existed when its size was last adjusted; no check of the position).

    Simplifications: a node is its position in the handler; the std::set of nodes (ordered by address) is a list without repetition in the order
    of insertion; the arguments of a node are read once when it is visited (they are a reference, but only arguments of other nodes are
    changed); operations other than those which the search distinguishes are [KOther]. *)
From Coq Require Import List Bool Arith.
Import ListNotations.

(** CGOpCode: the ones which the search looks at *)
Inductive kind : Type := KInv | KTmpDcl | KIndexDcl | KLoopTmp | KArrayElement | KAtomic | KAssign | KOther (code : nat).
(** Argument: a parameter or a node *)
Inductive arg : Type := Cst (c : nat) | Ref (n : nat).
Record node : Type := mkNode { nkind : kind; nargs : list arg }.
Definition graph : Type := list node.

(** outcomes: [Undef] is an access outside of a vector, [Deep] the end of the fuel *)
Inductive out (A : Type) : Type := Ok (a : A) | Undef | Deep.
Arguments Ok {A} a.  Arguments Undef {A}.  Arguments Deep {A}.
Definition obind {A B} (r : out A) (f : A -> out B) : out B := match r with Ok a => f a | Undef => Undef | Deep => Deep end.

Record st : Type := mkSt {
  gr : graph;
  mk : list nat;                                    (* indexed_: 0 unknown, 1 non-indexed, 2 indexed *)
  mv : list nat }.                                  (* nonIndexed_ *)
Fixpoint put {A} (n : nat) (v : A) (l : list A) : list A := match l, n with [], _ => [] | _ :: r, 0 => v :: r | a :: r, S n' => a :: put n' v r end.
Definition setMark (n v : nat) (s : st) : st := mkSt (gr s) (put n v (mk s)) (mv s).
Definition insert (n : nat) (l : list nat) : list nat := if existsb (Nat.eqb n) l then l else l ++ [n].

(** 311-315 *)
Definition exempt (k : kind) : bool := match k with KArrayElement | KAtomic => true | _ => false end.
Definition isDcl (k : kind) : bool := match k with KIndexDcl => true | _ => false end.

(** 327-336: a new assignment stands between the temporary and its value *)
Definition wrap (a : nat) (nd : node) (b : nat) (s : st) : st :=
  let new := length (gr s) in
  mkSt (put a (mkNode (nkind nd) (put 1 (Ref new) (nargs nd))) (gr s) ++ [mkNode KAssign [Ref b]]) (mk s) (insert new (mv s)).
(** 319-341, for one argument *)
Definition moveArg (s : st) (a : arg) : out st :=
  match a with
  | Cst _ => Ok s
  | Ref m =>
      match nth_error (mk s) m, nth_error (gr s) m with
      | Some 1, Some nd =>
          match nkind nd with
          | KInv | KTmpDcl => Ok s
          | KLoopTmp => match nth_error (nargs nd) 1 with Some (Ref b) => Ok (wrap m nd b s) | Some (Cst _) => Ok s | None => Undef end
          | _ => Ok (mkSt (gr s) (mk s) (insert m (mv s)))
          end
      | Some _, Some _ => Ok s
      | _, _ => Undef
      end
  end.
Fixpoint moveAll (s : st) (l : list arg) : out st := match l with [] => Ok s | a :: r => obind (moveArg s a) (fun s' => moveAll s' r) end.

(** 300-309: the arguments; whether one depends on the index, and whether one does not *)
Fixpoint visit (f : st -> nat -> out (bool * st)) (s : st) (l : list arg) (ip na : bool) : out (bool * bool * st) :=
  match l with
  | [] => Ok (ip, na, s)
  | Cst _ :: r => visit f s r ip na
  | Ref m :: r => obind (f s m) (fun q => visit f (snd q) r (ip || negb (fst q)) (na || fst q))
  end.

Section Find.
Variable loopIndex : nat.
(** findNonIndexedNodes (288-346): whether the node does not depend on the index *)
Fixpoint find (fuel : nat) (s : st) (n : nat) : out (bool * st) :=
  match fuel with
  | 0 => Deep
  | S f =>
      match nth_error (mk s) n, nth_error (gr s) n with
      | Some (S m), _ => Ok (m =? 0, s)
      | Some 0, Some nd =>
          if isDcl (nkind nd) && (n =? loopIndex) then Ok (false, setMark n 2 s)
          else obind (visit (find f) s (nargs nd) false false) (fun q =>
               let '(ip, na, s1) := q in
               let s2 := setMark n (if ip then 2 else 1) s1 in
               if exempt (nkind nd) then Ok (negb ip, s2)
               else if ip && na then obind (moveAll s2 (nargs nd)) (fun s3 => Ok (negb ip, s3)) else Ok (negb ip, s2))
      | _, _ => Undef
      end
  end.
(** adjustSize (code_handler_vector.hpp 99-105): at the start, and for each argument of the end of the loop (the constructor, 284) *)
Definition adjust (s : st) : st := mkSt (gr s) (mk s ++ repeat 0 (length (gr s) - length (mk s))) (mv s).
(** 252-256 *)
Fixpoint ends (fuel : nat) (s : st) (es : list nat) : out st :=
  match es with [] => Ok s | e :: r => obind (find fuel (adjust s) e) (fun q => ends fuel (snd q) r) end.
(** 258-265: the operations which become arguments of the start of the loop, and the graph *)
Definition addArgs (loopStart : nat) (new : list nat) (g : graph) : graph :=
  match nth_error g loopStart with Some nd => put loopStart (mkNode (nkind nd) (nargs nd ++ map Ref new)) g | None => g end.
(** the search: the graph with the assignments of 327-336, and what is moved *)
Definition search (fuel : nat) (g : graph) (endArgs : list nat) : out (graph * list nat) :=
  obind (ends fuel (mkSt g [] []) endArgs) (fun s => Ok (gr s, mv s)).
Definition moveOutside (fuel : nat) (g : graph) (loopStart : nat) (endArgs : list nat) : out graph :=
  obind (search fuel g endArgs) (fun q => Ok (addArgs loopStart (snd q) (fst q))).
End Find.

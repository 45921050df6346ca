(** * Model of include/cppad/cg/range.hpp and of LanguageC::printIndexCondExpr

    A [std::vector<size_t>] of iteration ranges (start1, end1, start2, end2, ...) is a [list N]; size_t is 64 bits
    ([SIZE_MAX]) and every size_t addition/subtraction of the code is written with its wrap-around. *)
From Coq Require Import List NArith Lia Bool.
From Verif Require Import CSyntax.
Import ListNotations.
Local Open Scope N_scope.

(** std::numeric_limits<size_t>::max() *)
Definition SIZE_MAX : N := 18446744073709551615.
Definition wadd (a b : N) : N := (a + b) mod (SIZE_MAX + 1).
Definition wsub (a b : N) : N := (a + (SIZE_MAX + 1) - b) mod (SIZE_MAX + 1).

(** ** combineNonOverlapingIterationRanges, range.hpp 27-55
    [iterRegions] is split at the iterator [itPos] into ([pre], [post]).
    std::lower_bound is modelled by its specification on a sorted range: the first element not less than [pos]. *)
Fixpoint lower_bound (pos : N) (post : list N) : list N * list N :=
  match post with
  | [] => ([], [])
  | x :: r => if x <? pos then let (a, b) := lower_bound pos r in (x :: a, b) else ([], post)
  end.

Fixpoint combineNonOverlap_loop (pre post : list N) (new : list N) : list N :=
  match new with
  | [] => pre ++ post
  | pos :: new' =>
      let (a, b) := lower_bound pos post in
      match b with
      | [] => pre ++ a ++ new                       (* itPos == end(): append the remaining new values, break *)
      | x :: b' => if x =? pos
                   then combineNonOverlap_loop (pre ++ a) b' new'          (* erase *)
                   else combineNonOverlap_loop (pre ++ a) (pos :: b) new'  (* insert; itPos = inserted element *)
      end
  end.

Definition combineNonOverlapingIterationRanges (iterRegions new : list N) : list N :=
  match iterRegions, new with
  | [], _ => new
  | _, [] => iterRegions
  | _, _ => combineNonOverlap_loop [] iterRegions new
  end.

(** ** combineOverlapingIterationRanges, range.hpp 63-111 *)

(** range.hpp 73-75 / 78-79: reading the pairs (v[i], v[i+1]); an odd length reads past the end: [None]. *)
Fixpoint to_pairs (l : list N) : option (list (N * N)) :=
  match l with
  | [] => Some []
  | [_] => None
  | a :: b :: r => match to_pairs r with Some p => Some ((a, b) :: p) | None => None end
  end.

(** range.hpp 106-110: writing the pairs back *)
Fixpoint from_pairs (l : list (N * N)) : list N :=
  match l with [] => [] | (a, b) :: r => a :: b :: from_pairs r end.

(** operator< of std::pair *)
Definition pair_ltb (p q : N * N) : bool := (fst p <? fst q) || ((fst p =? fst q) && (snd p <? snd q)).

(** std::lower_bound on pairs (specification on a sorted range) *)
Fixpoint lower_bound_p (p : N * N) (l : list (N * N)) : list (N * N) * list (N * N) :=
  match l with
  | [] => ([], [])
  | x :: r => if pair_ltb x p then let (a, b) := lower_bound_p p r in (x :: a, b) else ([], l)
  end.

(** range.hpp 77-83: insertion of the new pairs; (pre, post) is [sorted] split at [begin] *)
Fixpoint insert_all (pre post : list (N * N)) (new : list (N * N)) : list (N * N) :=
  match new with
  | [] => pre ++ post
  | p :: new' => let (a, b) := lower_bound_p p post in insert_all (pre ++ a ++ [p]) b new'
  end.

(** range.hpp 88-104; [top] is result.back(), the result is built in order *)
Fixpoint merge (top : N * N) (l : list (N * N)) : list (N * N) :=
  match l with
  | [] => [top]
  | curr :: r =>
      if snd top =? SIZE_MAX then [top]                                             (* break *)
      else if wadd (snd top) 1 <? fst curr then top :: merge curr r                 (* push_back *)
      else if snd top <? snd curr then merge (fst top, snd curr) r                  (* extend top *)
      else merge top r
  end.

Definition combineOverlapingIterationRanges (iterRegions new : list N) : option (list N) :=
  match iterRegions, new with
  | [], _ => Some new
  | _, [] => Some iterRegions
  | _, _ =>
    match to_pairs iterRegions, to_pairs new with
    | Some ps, Some qs =>
      match insert_all [] ps qs with
      | x :: r => Some (from_pairs (merge x r))
      | [] => None                                   (* sorted[0] of an empty vector *)
      end
    | _, _ => None
    end
  end.

(** ** invertIterationRanges, range.hpp 122-150 *)
(** range.hpp 138-142 then 144-147; [hi] is iterRegions[i-1], the list starts at iterRegions[i] *)
Fixpoint invert_tail (hi : N) (l : list N) : option (list N) :=
  match l with
  | [] => Some (if hi =? SIZE_MAX then [] else [wadd hi 1; SIZE_MAX])
  | [_] => None                                      (* assertion 130: odd number of elements *)
  | lo :: hi' :: r =>
      match invert_tail hi' r with Some t => Some (wadd hi 1 :: wsub lo 1 :: t) | None => None end
  end.

Definition invertIterationRanges (l : list N) : option (list N) :=
  match l with
  | [] => Some [0; SIZE_MAX]
  | [_] => None
  | lo :: hi :: r =>
      match invert_tail hi r with
      | Some t => Some ((if lo =? 0 then [] else [0; wsub lo 1]) ++ t)
      | None => None
      end
  end.

(** ** ifBranchIterationRanges, range.hpp 161-202
    An if / else-if / else chain as the nodes refer to each other: ElseIf and Else have the previous branch as first
    argument (model_c_source_gen_loops.hpp 505-516); [cond] is the info vector of the IndexCondExpr node. *)
Inductive branch := StartIf (cond : list N) | ElseIf (prev : branch) (cond : list N) | Else (prev : branch).

(** the do-while of range.hpp 180-194.  After the first turn, the loop continues only while the
    first argument of the branch is an ElseIf (the first argument of StartIf is its condition node). *)
Fixpoint else_loop (acc : list N) (b : branch) : option (list N) :=
  match b with
  | StartIf c => combineOverlapingIterationRanges acc c
  | ElseIf prev c =>
      match combineOverlapingIterationRanges acc c with
      | Some acc' => match prev with ElseIf _ _ => else_loop acc' prev | _ => Some acc' end
      | None => None
      end
  | Else _ => None                                   (* assertion 183: argument 1 is not a condition *)
  end.

Definition ifBranchIterationRanges (b : branch) : option (list N) :=
  match b with
  | StartIf c => Some c
  | ElseIf _ c => Some c
  | Else prev => match else_loop [] prev with Some non => invertIterationRanges non | None => None end
  end.

(** ** LanguageC::printIndexCondExpr, lang/c/language_c.hpp 563-594
    Output as C tokens; an atom is the index name or an integer literal. *)
Inductive iatom := AIdx | ANum (n : N).

Definition print_range (infoSize : nat) (mn mx : N) : list (tok iatom) :=
  let i := TAtom AIdx in
  if mn =? mx then [i; TOp EqEq; TAtom (ANum mn)]
  else if mn =? 0 then [i; TOp Le; TAtom (ANum mx)]
  else if mx =? SIZE_MAX then [TAtom (ANum mn); TOp Le; i]
  else
    let inner := if wsub mx mn =? 1
                 then [TAtom (ANum mn); TOp EqEq; i; TOp OrOr; i; TOp EqEq; TAtom (ANum mx)]
                 else [TAtom (ANum mn); TOp Le; i; TOp AndAnd; i; TOp Le; TAtom (ANum mx)] in
    if Nat.eqb infoSize 2 then inner else TLP :: inner ++ [TRP].

Fixpoint print_ranges (infoSize : nat) (first : bool) (l : list N) : option (list (tok iatom)) :=
  match l with
  | [] => Some []
  | [_] => None
  | mn :: mx :: r =>
      match print_ranges infoSize false r with
      | Some t => Some ((if first then [] else [TOp OrOr]) ++ print_range infoSize mn mx ++ t)
      | None => None
      end
  end.

(** the assertion (567) requires a non-empty even-sized vector; the generated text is [None] otherwise *)
Definition printIndexCondExpr (info : list N) : option (list (tok iatom)) :=
  match info with [] => None | _ => print_ranges (length info) true info end.

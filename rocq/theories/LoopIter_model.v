(** * Model of the assignment of the dependents of a loop to its iterations *)
From Coq Require Import List Arith Bool.
From Verif Require Import Pool_model Sparsity_model Linked_model Relations_model.
Import ListNotations.
Local Open Scope nat_scope.

(** The outcomes: [IThrow] the exception of std::map::at, [IUndef] undefined behaviour
    (an iterator which is end() or was invalidated is used), [IFuel] excluded by the
    theorems. *)
Inductive iout (A : Type) : Type := IOk (a : A) | IThrow | IUndef | IFuel.
Arguments IOk {A} _.
Arguments IThrow {A}.
Arguments IUndef {A}.
Arguments IFuel {A}.

(** The loop: the dependents of all equation patterns ([eqs]), the equations of the loop
    ([own]), the relations by indexed variables ([linked]) and by non-indexed variables
    ([rel]). generateDependentLoopIndexes is called before mergeEqGroups
    (dependent_pattern_matcher.hpp 441-468), when every loop has a single group. *)
Record loopIn := mkLoop { q_eqs : list set; q_own : list nat; q_linked : list set; q_rel : list set }.

(** patterns/equation_group.hpp 66-77: findIndexedLinkedDependent. *)
Definition linkedAt (q : loopIn) (dep : nat) : option set := nth_error (q_linked q) (findRel (q_linked q) dep).

(** patterns/equation_group.hpp 82-91: findNonIndexedLinkedRel. *)
Definition relAt (q : loopIn) (e : nat) : option nat :=
  let p := findRel (q_rel q) e in if p <? length (q_rel q) then Some p else None.

(** patterns/loop.hpp 1120-1130: findRelativeFreeDependentInEq; at the end the size (an
    assertion in debug builds). *)
Fixpoint relPos (free : list nat) (dep : nat) : nat :=
  match free with
  | [] => 0
  | x :: r => if x =? dep then 0 else S (relPos r dep)
  end.
(** std::map::at for the map freeDependents, which has the equations of the loop. *)
Definition freeAt (q : loopIn) (free : list (list nat)) (e : nat) : iout (list nat) :=
  if sfind e (q_own q) then IOk (nth e free []) else IThrow.

(** patterns/loop.hpp 1151-1162: the search of a dependent of the relation which has more
    dependents before it in its equation. *)
Fixpoint scanBest (q : loopIn) (free : list (list nat)) (visited : list nat) (ds : list nat) (best : nat * nat) (pos : nat) : iout (nat * nat) :=
  match ds with
  | [] => IOk best
  | dep2 :: r =>
      match dep2Equation (q_eqs q) dep2 with
      | None => IThrow
      | Some eq2 =>
          if sfind eq2 visited then scanBest q free visited r best pos
          else
            match freeAt q free eq2 with
            | IOk f => if pos <? relPos f dep2 then scanBest q free visited r (dep2, eq2) (relPos f dep2)
                       else scanBest q free visited r best pos
            | _ => IThrow
            end
      end
  end.

(** patterns/loop.hpp 1139-1172: findBestDependent. *)
Fixpoint findBest (fuel : nat) (q : loopIn) (free : list (list nat)) (visited : list nat) (dep e : nat) : iout (nat * nat) :=
  match fuel with
  | 0 => IFuel
  | S k =>
      let visited := e :: visited in
      match linkedAt q dep with
      | None => IOk (dep, e)
      | Some r =>
          match freeAt q free e with
          | IOk f =>
              match scanBest q free visited r (dep, e) (relPos f dep) with
              | IOk best =>
                  if fst best =? dep then IOk best
                  else
                    match freeAt q free (snd best) with
                    | IOk [] => IUndef
                    | IOk (bestDep :: _) => findBest k q free visited bestDep (snd best)
                    | _ => IThrow
                    end
              | o => o
              end
          | _ => IThrow
          end
      end
  end.

(** patterns/loop.hpp 401-432: the local variables: the set dependents, the iterator itDep
    (the element it points to or [None] for end()), freeDependents, iterationDependents_
    (equal to the iterationDependents of the only group), the counter and
    nIndexedGroupPos2Eq2deps, kept as the list of its dependents because the position
    and the equation are those of the dependent. *)
Record istate := mkI {
  i_deps : set;
  i_it : option nat;
  i_free : list (list nat);
  i_iters : list set;
  i_i : nat;
  i_delayed : set }.

(** The increment of an iterator of a std::set. *)
Definition nextIn (s : set) (d : nat) : option nat := find (fun x => d <? x) s.

(** std::vector::resize when it is too small. *)
Definition growTo (l : list set) (n : nat) : list set := l ++ repeat [] (n - length l).
Definition addTo (l : list set) (i d : nat) : list set := setNth l i (sins d (nth i l [])).

(** patterns/loop.hpp 461-467, 481-486: std::find and erase; [None] for end(). *)
Definition eraseFree (free : list (list nat)) (e d : nat) : option (list (list nat)) :=
  if sfind d (nth e free []) then Some (setNth free e (sdel d (nth e free []))) else None.

(** patterns/loop.hpp 454-468: the dependents of a relation are put in the iteration. *)
Fixpoint placeAll (q : loopIn) (ds : list nat) (s : istate) : iout istate :=
  match ds with
  | [] => IOk s
  | dep2 :: r =>
      match i_it s with
      | None => IUndef
      | Some x =>
          let it := if dep2 =? x then nextIn (i_deps s) x else i_it s in
          match dep2Equation (q_eqs q) dep2 with
          | None => IThrow
          | Some eq2 =>
              match eraseFree (i_free s) eq2 dep2 with
              | None => IUndef
              | Some free =>
                  placeAll q r (mkI (sdel dep2 (i_deps s)) it free (addTo (i_iters s) (i_i s) dep2) (i_i s) (i_delayed s))
              end
          end
      end
  end.

(** patterns/loop.hpp 433-492: one pass through the loop. *)
Definition placeStep (q : loopIn) (d : nat) (s : istate) : iout istate :=
  let it := nextIn (i_deps s) d in
  let iters := growTo (i_iters s) (S (i_i s)) in
  match dep2Equation (q_eqs q) d with
  | None => IThrow
  | Some e =>
      match findBest (S (length (q_eqs q))) q (i_free s) [] d e with
      | IOk (dep, eq) =>
          match linkedAt q dep with
          | Some r =>
              match placeAll q r (mkI (i_deps s) it (i_free s) iters (i_i s) (i_delayed s)) with
              | IOk s' => IOk (mkI (i_deps s') (i_it s') (i_free s') (i_iters s') (S (i_i s')) (i_delayed s'))
              | o => o
              end
          | None =>
              match relAt q eq with
              | Some _ =>
                  match it with
                  | Some x => if x =? dep then IUndef else IOk (mkI (sdel dep (i_deps s)) it (i_free s) iters (i_i s) (sins dep (i_delayed s)))
                  | None => IOk (mkI (sdel dep (i_deps s)) it (i_free s) iters (i_i s) (sins dep (i_delayed s)))
                  end
              | None =>
                  match eraseFree (i_free s) eq dep with
                  | None => IUndef
                  | Some free => IOk (mkI (i_deps s) it free (addTo iters (i_i s) dep) (S (i_i s)) (i_delayed s))
                  end
              end
          end
      | IThrow => IThrow
      | IUndef => IUndef
      | IFuel => IFuel
      end
  end.
Fixpoint placeLoop (fuel : nat) (q : loopIn) (s : istate) : iout istate :=
  match fuel with
  | 0 => IFuel
  | S k =>
      match i_it s with
      | None => IOk s
      | Some d => match placeStep q d s with IOk s' => placeLoop k q s' | o => o end
      end
  end.

(** patterns/loop.hpp 537-552: a free iteration index. *)
Fixpoint freeIndex (used : set) : nat :=
  match used with
  | [] => 0
  | i1 :: r =>
      match r with
      | [] => S i1
      | i2 :: _ => if i2 - i1 =? 1 then freeIndex r else S i1
      end
  end.

(** patterns/loop.hpp 499-505, 513-519: the iterations with dependents of the equations. *)
Definition usedBy (q : loopIn) (iters : list set) (es : list nat) : set :=
  filter (fun i => existsb (fun d => match dep2Equation (q_eqs q) d with Some e => sfind e es | None => false end) (nth i iters []))
         (seq 0 (length iters)).

(** patterns/loop.hpp 521-566: in each round one dependent is taken from each equation. *)
Definition headsOf (ls : list (list nat)) : list nat := flat_map (firstn 1) ls.
Fixpoint placeRounds (fuel : nat) (ls : list (list nat)) (used : set) (iters : list set) : iout (list set) :=
  match fuel with
  | 0 => IFuel
  | S k =>
      match headsOf ls with
      | [] => IOk iters
      | deps =>
          let i := freeIndex used in
          let iters := growTo iters (S i) in
          placeRounds k (map (@tl nat) ls) (sins i used) (setNth iters i (sinsAll deps (nth i iters [])))
      end
  end.

(** patterns/loop.hpp 507-567: the delayed dependents, for each position of
    linkedEquationsByNonIndexedRel; [iters0] has the iterations before. *)
Fixpoint placeDelayed (q : loopIn) (iters0 : list set) (delayed : set) (ps : list nat) (iters : list set) : iout (list set) :=
  match ps with
  | [] => IOk iters
  | p :: r =>
      let es := nth p (q_rel q) [] in
      let ls := map (fun e => filter (fun d => sfind d (dependentsOf (q_eqs q) e)) delayed)
                    (filter (fun e => match relAt q e with Some p' => p' =? p | None => false end) es) in
      match placeRounds (S (length delayed)) ls (usedBy q iters0 es) iters with
      | IOk iters' => placeDelayed q iters0 delayed r iters'
      | o => o
      end
  end.

(** patterns/loop.hpp 382-579: generateDependentLoopIndexes; the result is
    iterationDependents_ (its size is iterationCount_). *)
Definition generateIterations (q : loopIn) : iout (list set) :=
  let deps := sinsAll (flat_map (dependentsOf (q_eqs q)) (q_own q)) [] in
  let free := map (fun e => if sfind e (q_own q) then dependentsOf (q_eqs q) e else []) (seq 0 (length (q_eqs q))) in
  match placeLoop (S (length deps)) q (mkI deps (hd_error deps) free [] 0 []) with
  | IOk s => placeDelayed q (i_iters s) (i_delayed s) (seq 0 (length (q_rel q))) (i_iters s)
  | IThrow => IThrow
  | IUndef => IUndef
  | IFuel => IFuel
  end.

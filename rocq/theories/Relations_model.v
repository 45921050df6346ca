(** * Model of the relations between the dependent variables of a loop *)
From Coq Require Import List Arith Bool.
From Verif Require Import Pool_model Sparsity_model.
Import ListNotations.
Local Open Scope nat_scope.

(** patterns/equation_pattern.hpp: an equation pattern is given by a number and [eqs]
    holds the dependents of each pattern (member dependents).
    patterns/dependent_pattern_matcher.hpp 217-221: dep2Equation_. *)
Definition dependentsOf (eqs : list set) (e : nat) : set := nth e eqs [].
Fixpoint dep2EquationFrom (eqs : list set) (k d : nat) : option nat :=
  match eqs with
  | [] => None
  | s :: r => if sfind d s then Some k else dep2EquationFrom r (S k) d
  end.
Definition dep2Equation (eqs : list set) (d : nat) : option nat := dep2EquationFrom eqs 0 d.

(** patterns/dependent_pattern_matcher.hpp 226-227: the vector dep2Relations of
    pointers, the memory with the sets ([None] is a deleted set) and the set
    dependentRelations with the pointers to every relation. *)
Record rstate := mkR {
  r_of : list (option nat);
  r_mem : list (option set);
  r_live : list nat }.
Definition rinit (n : nat) : rstate := mkR (repeat None n) [] [].

(** An access outside the vector or to a deleted set is undefined behaviour; the
    method at() of the map throws. *)
Inductive rout := ROk (s : rstate) | RThrow | RUndef.

(** patterns/dependent_pattern_matcher.hpp 1239-1245, 1272-1277, 1303-1309: is another
    dependent of the equation in the relation? *)
Definition otherIn (deps : set) (d : nat) (r : set) : bool :=
  existsb (fun it => negb (it =? d) && sfind it r) deps.

(** patterns/dependent_pattern_matcher.hpp 1235-1249: can the second relation be merged?
    [None] when the dependent has no equation. *)
Fixpoint canMerge (eqs : list set) (r2 r1 : set) : option bool :=
  match r2 with
  | [] => Some true
  | dep3 :: r =>
      match dep2Equation eqs dep3 with
      | None => None
      | Some e3 => if otherIn (dependentsOf eqs e3) dep3 r1 then Some false else canMerge eqs r r1
      end
  end.

(** patterns/dependent_pattern_matcher.hpp 1252-1255. *)
Definition repoint (of : list (option nat)) (ds : list nat) (p : nat) : list (option nat) :=
  fold_left (fun o d => setNth o d (Some p)) ds of.

(** patterns/dependent_pattern_matcher.hpp 1210-1330: makeDependentRelation (it always
    returns true). *)
Definition makeRel (eqs : list set) (e1 d1 e2 d2 : nat) (s : rstate) : rout :=
  match nth_error (r_of s) d1, nth_error (r_of s) d2 with
  | Some rel1, Some rel2 =>
      match rel1, rel2 with
      | Some p1, Some p2 =>
          if p1 =? p2 then ROk s
          else
            match nth p1 (r_mem s) None, nth p2 (r_mem s) None with
            | Some r1, Some r2 =>
                match canMerge eqs r2 r1 with
                | None => RThrow
                | Some false => ROk s
                | Some true =>
                    ROk (mkR (repoint (r_of s) r2 p1)
                             (setNth (setNth (r_mem s) p1 (Some (sinsAll r2 r1))) p2 None)
                             (sdel p2 (r_live s)))
                end
            | _, _ => RUndef
            end
      | Some p1, None =>
          match nth p1 (r_mem s) None with
          | Some r1 =>
              if sfind d2 r1 then ROk s
              else if otherIn (dependentsOf eqs e2) d2 r1 then ROk s
              else ROk (mkR (setNth (r_of s) d2 (Some p1)) (setNth (r_mem s) p1 (Some (sins d2 r1))) (r_live s))
          | None => RUndef
          end
      | None, Some p2 =>
          match nth p2 (r_mem s) None with
          | Some r2 =>
              if otherIn (dependentsOf eqs e1) d1 r2 then ROk s
              else ROk (mkR (setNth (r_of s) d1 (Some p2)) (setNth (r_mem s) p2 (Some (sins d1 r2))) (r_live s))
          | None => RUndef
          end
      | None, None =>
          let p := length (r_mem s) in
          ROk (mkR (setNth (setNth (r_of s) d1 (Some p)) d2 (Some p))
                   (r_mem s ++ [Some (sins d2 (sins d1 []))])
                   (sins p (r_live s)))
      end
  | _, _ => RUndef
  end.

(** The sets which dependentRelations points to; [None] when one was deleted. *)
Fixpoint relationsAt (mem : list (option set)) (live : list nat) : option (list set) :=
  match live with
  | [] => Some []
  | p :: r =>
      match nth p mem None, relationsAt mem r with
      | Some x, Some xs => Some (x :: xs)
      | _, _ => None
      end
  end.
Definition relations (s : rstate) : option (list set) := relationsAt (r_mem s) (r_live s).

(** patterns/dependent_pattern_matcher.hpp 389-395: the copy of the relations.
    Lines 424-433: the relations are replaced by the copies, the old ones are deleted
    (by the destructor of SmartSetPointer) and dep2Relations is rebuilt. The copies are
    allocated here when they are put in use; the pointers are not observable. *)
Definition copiesFrom (k : nat) (rs : list set) : list (nat * set) := combine (seq k (length rs)) rs.
Definition restore (bak : list set) (s : rstate) : rstate :=
  let k := length (r_mem s) in
  let cs := copiesFrom k bak in
  mkR (fold_left (fun o c => repoint o (snd c) (fst c)) cs (map (fun _ => None) (r_of s)))
      (fold_left (fun m p => setNth m p None) (r_live s) (r_mem s) ++ map Some bak)
      (map fst cs).

(** A sequence of calls of makeDependentRelation. *)
Definition rcall := (nat * nat * nat * nat)%type.
Fixpoint runCalls (eqs : list set) (cs : list rcall) (s : rstate) : rout :=
  match cs with
  | [] => ROk s
  | (e1, d1, e2, d2) :: r =>
      match makeRel eqs e1 d1 e2 d2 s with ROk s' => runCalls eqs r s' | o => o end
  end.

(** patterns/dependent_pattern_matcher.hpp 266-270, 376-437: the state of the search of
    loops: the relations, equation2Loop_ (the loop of each equation) and the
    linkedDependents of each loop. *)
Record lstate := mkL {
  l_rel : rstate;
  l_loop : list nat;
  l_linked : list (list set) }.
Definition linit (eqs : list set) (n : nat) : lstate :=
  mkL (rinit n) (seq 0 (length eqs)) (repeat [] (length eqs)).
Definition loopOf (s : lstate) (e : nat) : nat := nth e (l_loop s) 0.

(** patterns/dependent_pattern_matcher.hpp 575-590: the relations with a dependent of
    the equations of the two loops. *)
Definition ofLoops (eqs : list set) (loop : list nat) (l1 l2 : nat) (r : set) : bool :=
  existsb (fun d => match dep2Equation eqs d with
                    | Some e => (nth e loop 0 =? l1) || (nth e loop 0 =? l2)
                    | None => false
                    end) r.

Inductive lout := LOk (s : lstate) | LThrow | LUndef.

(** patterns/dependent_pattern_matcher.hpp 376-437: one attempt to combine the loops of
    two equations: the calls of makeDependentRelation made by isCompatible (through
    findDepRelations and canCombineEquations, whose search of shared variables is not
    modelled) and its result; loop.hpp 185-194: setLinkedDependents. *)
Record attempt := mkA { a_eq1 : nat; a_eq2 : nat; a_calls : list rcall; a_compatible : bool }.
Definition runAttempt (eqs : list set) (a : attempt) (s : lstate) : lout :=
  let l1 := loopOf s (a_eq1 a) in
  let l2 := loopOf s (a_eq2 a) in
  if l1 =? l2 then LOk s
  else
    match relations (l_rel s) with
    | None => LUndef
    | Some bak =>
        match runCalls eqs (a_calls a) (l_rel s) with
        | RThrow => LThrow
        | RUndef => LUndef
        | ROk r =>
            if a_compatible a then
              match relations r with
              | None => LUndef
              | Some rs =>
                  LOk (mkL r (map (fun l => if l =? l2 then l1 else l) (l_loop s))
                           (setNth (setNth (l_linked s) l1 (filter (ofLoops eqs (l_loop s) l1 l2) rs)) l2 []))
              end
            else LOk (mkL (restore bak r) (l_loop s) (l_linked s))
        end
    end.
Fixpoint runAttempts (eqs : list set) (l : list attempt) (s : lstate) : lout :=
  match l with
  | [] => LOk s
  | a :: r => match runAttempt eqs a s with LOk s' => runAttempts eqs r s' | o => o end
  end.

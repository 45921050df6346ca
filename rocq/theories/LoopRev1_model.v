(** * First order reverse mode of a model with loops

    Models include/cppad/cg/model/patterns/model_c_source_gen_loops_rev1.hpp: prepareSparseReverseOneWithLoops (30-343),
    createReverseOneWithLoopsNL (345-367), generateLoopRev1Jac (369-424); with createLoopDependentFunctionResult
    (model_c_source_gen_loops.hpp 167-195) and the execution of the functions which are generated: one for each equation outside of loops, and one for
    each equation pattern of a loop, which finds the iteration from the number of the equation.
    The analysis of the elements and the results of a row are those of the Jacobian (LoopJac_model.v), with other locations.  What calls these functions is
    in LoopDir_model.v (directional derivatives) and LoopAsm_model.v (sparse Jacobian).

    Simplifications: those of LoopJac_model.v; the equations outside of loops are all different (jacNl has one row for each); the functions of loops are
    numbered in the order of the loops and equation patterns; the two ways of generateLoopRev1Jac give the same derivatives. *)
From Coq Require Import List Bool Arith NArith Reals.
From Verif Require Import Pool_model Graph_model Codegen_model CSyntax Index_model Range_model LoopCond_model Assemble_model LoopAsm_model LoopJac_model.
Import ListNotations.
Local Open Scope nat_scope.

(** rows, cols and locations (64-80): the elements by equation; the location of an element is its number among those of its equation.  The map
    elements is made by generateSparseReverseOneSources (model_c_source_gen_rev1.hpp 21-31). *)
Definition localElements (rows cols : list nat) : list (nat * (nat * nat)) :=
  flat_map (fun g => map (fun ej => (fst ej, (fst g, snd ej))) (numbered (snd g))) (Assemble_model.group rows cols).
Definition analyseLocal (md : model) (rows cols : list nat) : res state := rfold (element1 md) (localElements rows cols) state0.

(** ** Loops: which elements the function of an equation pattern computes *)

(** irow2It (226-231); [m]: _fun.Range() *)
Definition iterationMap (m : nat) (deps : list (option nat)) : list (nat * nat) :=
  fold_left (fun mp p => match snd p with Some i => if i <? m then mput i (fst p) mp else mp | None => mp end) (numbered deps) [].
(** positions (276-286).  positionsC has one element per iteration. *)
Definition rowPositions (r : rowInfo) (it : nat) : list nat :=
  fold_left (fun acc jp => match nth_error (snd jp) it with Some (Some e) => sins e acc | _ => acc end) (indexedPositions r ++ nonIndexedPositions r) [].
(** row2position (268-292) *)
Definition row2position (m : nat) (deps : list (option nat)) (r : rowInfo) : keymap :=
  fold_left (fun mp p => match snd p with
                         | Some i => if i <? m then match rowPositions r (fst p) with [] => mp | ps => mput i ps mp end else mp
                         | None => mp end) (numbered deps) [].
(** the loops and equation patterns, in order *)
Definition loopRows (md : model) : list (nat * nat) :=
  flat_map (fun nl => map (fun t => (fst nl, t)) (seq 0 (length (l_deps (snd nl))))) (numbered (m_loops md)).
Definition depsOf (md : model) (n tapeI : nat) : list (option nat) :=
  match nth_error (m_loops md) n with Some l => match nth_error (l_deps l) tapeI with Some d => d | None => [] end | None => [] end.
(** 217-219: nothing to do *)
Definition emptyRow (r : rowInfo) : bool := length (indexedPositions r) + length (nonIndexedPositions r) =? 0.
(** _loopRev1Groups *)
Definition rev1Groups (md : model) (m : nat) (s : state) : list lgroup :=
  flat_map (fun q => let '(f, (n, t)) := q in if emptyRow (infos s n t) then [] else [mkLG f (row2position m (depsOf md n t) (infos s n t))])
           (numbered (loopRows md)).

(** ** Execution of the function of an equation pattern in an iteration *)
Section Exec.
Variable W : Type.
(** as C does: the branch of the first condition which holds.  [tk]: a branch was taken; [on]: in that branch *)
Fixpoint takeB (k : N) (tk on : bool) (l : list (item W)) : list (asg W) :=
  match l with
  | [] => []
  | IHdr _ h :: r =>
      if tk then takeB k true false r
      else if (match h with HIf c | HElseIf c => holdsAt c k | HElse => true end) then takeB k true true r else takeB k false false r
  | IAsg _ a :: r => if on then a :: takeB k tk on r else takeB k tk on r
  end.
Definition executed (k : N) (s : loop W) : list (asg W) :=
  concat (map (fun e => takeB k false false (textOf W e)) (ifElses W s)) ++ always W s.
End Exec.

Section Numbers.
Variable dF : nat -> nat -> nat -> (nat -> R) -> R.
Variable G : nat -> (nat -> R) -> R.
Variable dG : nat -> nat -> (nat -> R) -> R.
Variable absent : nat -> nat -> nat -> R.
Variable md : model.
Variable x : nat -> R.
Variable m : nat.                                   (* equations of the model *)

(** ** Equations outside of loops (126-160): the row of equation [ie] with the seed [py]; a write outside of the vector is undefined *)
Definition noLoopStep (s : state) (ie : nat) (py : R) (row : res (list R)) (j : nat) : res (list R) :=
  rbind row (fun row =>
  match noLoopLocs s ie j with
  | e :: _ => if e <? length row then Ok (set_nth e (dG ie j x * py)%R row) else Undef
  | [] => Undef
  end).
Definition noLoopRow (s : state) (ie : nat) (py : R) : res (list R) :=
  fold_left (noLoopStep s ie py) (noLoopEval s ie) (Ok (repeat 0%R (length (noLoopEval s ie)))).
(** _nonLoopRev1Elements[i] (149) *)
Definition noLoopSet (s : state) (ie : nat) : list nat :=
  fold_left (fun acc j => match noLoopLocs s ie j with e :: _ => sins e acc | [] => acc end) (noLoopEval s ie) [].
Definition freeEqs : list nat := match m_free md with Some f => f_eqs f | None => [] end.
Definition noLoopMap (s : state) : keymap :=
  fold_left (fun mp q => match noLoopSet s (fst q) with [] => mp | es => mput (snd q) es mp end) (numbered freeEqs) [].
(** createReverseOneWithLoopsNL *)
Definition noLoopFn (s : state) (i : nat) (py : R) : option (list R) :=
  match indexOf (Nat.eqb i) freeEqs with
  | Some ie => match noLoopRow s ie py with Ok row => Some row | _ => None end
  | None => None
  end.

(** ** The function of an equation pattern (212-340): the iteration is the value of the pattern of irow2It; results are added *)
Definition rowLoop (s : state) (n tapeI : nat) (py : R) : res (loop V) :=
  match nth_error (m_loops md) n with
  | Some l => rbind (rowResults dF G dG absent md x py n l s tapeI) makeLoop
  | None => Undef
  end.
Definition effectOf (it : nat) (a : asg V) : option (nat * R) :=
  match patAt (a_pat V a) (Some it) with Some e => if (a_add V a =? 1)%N then Some (e, a_val V a (N.of_nat it)) else None | None => None end.
Definition loopRev1 (s : state) (f i : nat) (py : R) : option (list (nat * R)) :=
  match nth_error (loopRows md) f with
  | Some (n, tapeI) =>
      match rowLoop s n tapeI py, patAt (detectM (iterationMap m (depsOf md n tapeI))) (Some i) with
      | Ok p, Some it => mapO (effectOf it) (executed V (N.of_nat it) p)
      | _, _ => None
      end
  | None => None
  end.

(** ** prepareSparseReverseOneWithLoops: what is generated.  The seed is a variable: what is generated does not depend on its value *)
Record rev1 : Type := mkRev1 {
  v_nl : keymap;                                    (* _nonLoopRev1Elements *)
  v_gs : list lgroup;                               (* _loopRev1Groups *)
  v_noLoop : nat -> R -> option (list R);
  v_loopFn : nat -> nat -> R -> option (list (nat * R)) }.
Definition reverseOneFunctions (rows cols : list nat) : res rev1 :=
  rbind (analyseLocal md rows cols) (fun s =>
  rbind (rmap (fun ie => noLoopRow s ie 1%R) (seq 0 (length freeEqs))) (fun _ =>
  rbind (rmap (fun nt => rowLoop s (fst nt) (snd nt) 1%R) (filter (fun nt => negb (emptyRow (infos s (fst nt) (snd nt)))) (loopRows md))) (fun _ =>
  Ok (mkRev1 (noLoopMap s) (rev1Groups md m s) (noLoopFn s) (loopRev1 s))))).
End Numbers.

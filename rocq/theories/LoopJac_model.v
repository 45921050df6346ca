(** * Values and sparse Jacobian of a model with loops

    Models include/cppad/cg/model/patterns/model_c_source_gen_loops_jac.hpp: analyseSparseJacobianWithLoops (36-208),
    prepareSparseJacobianWithLoops (213-401), prepareSparseJacobianRowWithLoops (403-472), createJacobianElement (477-520);
    model_c_source_gen_loops_for0.hpp: prepareGraphForward0WithLoops (25-131); model_c_source_gen_loops.hpp: createIndexedIndependents (88-108),
    createLoopIndependentVector (110-142), createLoopEnd (200-232); the lookups of patterns/loop_model.hpp (125-217, 330-420) and
    patterns/loop_free_model.hpp (getLocalDependentIndex).

    The results of a loop are the requests of LoopCond_model (createLoopResult).  A value computed in a loop is the function which gives the
    number it has in each iteration.

    Simplifications:
    - numbers are reals: rounding is left out;
    - indexes are nat, std::numeric_limits<size_t>::max() in a table of indexes is None; the numbers of iterations and the locations become N
      where they are given to createLoopResult;
    - the tapes of the loops and of the rest are the functions [F], [G], and CppAD's Forward, SparseJacobianForward and SparseJacobianReverse
      return their values and the partial derivatives [dF], [dG] which were asked for (C52, C53 are about these);
    - loopsEvalSparsities, noLoopEvalSparsity and noLoopEvalLocations are functions of the equation, since only membership is used;
    - the pattern of the locations is detected from the map from iterations to locations in all cases (C15: both ways are exact);
    - the loops are visited in the order of the list (in the code the order of the addresses of the models). *)
From Coq Require Import List Bool Arith NArith Reals.
From Verif Require Import Graph_model Codegen_model CSyntax LoopCond_model.
Import ListNotations.
Local Open Scope nat_scope.

(** ** The models (loop_model.hpp 27-110, loop_free_model.hpp 27-52) *)
Record loopM : Type := mkLoopM {
  l_iters : nat;                                  (* iterationCount_ *)
  l_deps : list (list (option nat));              (* dependentIndexes_[tapeI][iteration].original *)
  l_indexed : list (list (option nat));           (* indexedIndepIndexes_[tapeJ][iteration].original *)
  l_non : list nat;                               (* nonIndexedIndepIndexes_[].original *)
  l_tmp : list nat;                               (* temporaryIndependents_[].original *)
  l_row : list (list nat) }.                      (* jacTapeSparsity_[tapeI], ascending *)
Record freeM : Type := mkFreeM {
  f_eqs : list nat;                               (* dependentIndexes_ *)
  f_row : list (list nat) }.                      (* jacTapeSparsity_: the equations, then the temporaries *)
Record model : Type := mkModel { m_loops : list loopM; m_free : option freeM }.

Inductive res (A : Type) : Type := Ok (a : A) | Throw | Undef.      (* CGException or std::out_of_range; undefined behaviour *)
Arguments Ok {A} a.  Arguments Throw {A}.  Arguments Undef {A}.
Definition rbind {A B} (r : res A) (f : A -> res B) : res B := match r with Ok a => f a | Throw => Throw | Undef => Undef end.
Fixpoint rfold {A S} (f : S -> A -> res S) (l : list A) (s : S) : res S :=
  match l with [] => Ok s | a :: l' => rbind (f s a) (rfold f l') end.

Definition mem (n : nat) (l : list nat) : bool := existsb (Nat.eqb n) l.
Definition entry (t : list (list (option nat))) (a b : nat) : option nat :=
  match nth_error t a with Some r => match nth_error r b with Some (Some v) => Some v | _ => None end | None => None end.

(** depOrigIndexes_.find(i) (125-144): the equation pattern and the iteration of [i] *)
Fixpoint indexOf {A} (p : A -> bool) (l : list A) : option nat :=
  match l with [] => None | a :: l' => if p a then Some 0 else option_map S (indexOf p l') end.
Definition isEq (i : nat) (o : option nat) : bool := match o with Some i' => i =? i' | None => false end.
Fixpoint findDep (i : nat) (deps : list (list (option nat))) : option (nat * nat) :=
  match deps with
  | [] => None
  | r :: deps' => match indexOf (isEq i) r with
                  | Some it => Some (0, it)
                  | None => option_map (fun p => (S (fst p), snd p)) (findDep i deps')
                  end
  end.
(** the loop of an equation (jac 90-101) *)
Fixpoint findLoop (i : nat) (ls : list loopM) : option (nat * (nat * nat)) :=
  match ls with
  | [] => None
  | l :: ls' => match findDep i (l_deps l) with
                | Some p => Some (0, p)
                | None => option_map (fun q => (S (fst q), snd q)) (findLoop i ls')
                end
  end.
(** getIndexedTapeIndexes: the indexed tape variables which are [j] in an iteration *)
Definition getIndexedTapeIndexes (l : loopM) (it j : nat) : list nat :=
  filter (fun t => isEq j (entry (l_indexed l) t it)) (seq 0 (length (l_indexed l))).
(** getNonIndexedIndepIndexes(j)->tape, getTempIndepIndexes(k)->tape *)
Definition getNonIndexed (l : loopM) (j : nat) : option nat :=
  option_map (Nat.add (length (l_indexed l))) (indexOf (Nat.eqb j) (l_non l)).
Definition getTemp (l : loopM) (k : nat) : option nat :=
  option_map (Nat.add (length (l_indexed l) + length (l_non l))) (indexOf (Nat.eqb k) (l_tmp l)).

(** ** std::map<size_t, A> and std::set<size_t> in ascending order *)
Fixpoint mget {A} (k : nat) (m : list (nat * A)) : option A :=
  match m with [] => None | (k', a) :: m' => if k =? k' then Some a else mget k m' end.
Fixpoint mput {A} (k : nat) (a : A) (m : list (nat * A)) : list (nat * A) :=
  match m with
  | [] => [(k, a)]
  | (k', a') :: m' => if k <? k' then (k, a) :: m else if k =? k' then (k, a) :: m' else (k', a') :: mput k a m'
  end.
Fixpoint sins (k : nat) (l : list nat) : list nat :=
  match l with [] => [k] | k' :: l' => if k <? k' then k :: l else if k =? k' then l else k' :: sins k l' end.

(** ** analyseSparseJacobianWithLoops *)
Definition positions : Type := list (option nat).
(** JacobianWithLoopsRowInfo (model_c_source_gen_loops.hpp 61-74; nonIndexedEvals is not used for the Jacobian), and loopsEvalSparsities *)
Record rowInfo : Type := mkRow {
  indexedPositions : list (nat * positions);
  nonIndexedPositions : list (nat * positions);
  tmpEvals : list (nat * list nat);
  loopEvalRow : list nat }.
Record state : Type := mkState {
  infos : nat -> nat -> rowInfo;                  (* loop, equation pattern *)
  noLoopEval : nat -> list nat;
  noLoopLocs : nat -> nat -> list nat }.
Definition row0 : rowInfo := mkRow [] [] [] [].
Definition state0 : state := mkState (fun _ _ => row0) (fun _ => []) (fun _ _ => []).
Definition upd {A} (k : nat) (a : A) (f : nat -> A) : nat -> A := fun k' => if k' =? k then a else f k'.

(** positions.resize(iterations, max); throw if set; positions[iteration] = e (147-152, 168-172, 191-195) *)
Fixpoint set_nth {A} (n : nat) (a : A) (l : list A) : list A :=
  match l, n with [], _ => [] | _ :: l', 0 => a :: l' | x :: l', S n' => x :: set_nth n' a l' end.
Definition place (iters it key e : nat) (m : list (nat * positions)) : res (list (nat * positions)) :=
  let p := match mget key m with Some p => p | None => repeat None iters end in
  match nth_error p it with
  | None => Undef
  | Some (Some _) => Throw
  | Some None => Ok (mput key (set_nth it (Some e) p) m)
  end.

(** indexed variables (141-154) *)
Definition indexed1 (l : loopM) (row : list nat) (it e : nat) (r : rowInfo) (tapeJ : nat) : res rowInfo :=
  if mem tapeJ row then
    rbind (place (l_iters l) it tapeJ e (indexedPositions r)) (fun m =>
    Ok (mkRow m (nonIndexedPositions r) (tmpEvals r) (sins tapeJ (loopEvalRow r))))
  else Ok r.
(** a non-indexed variable (159-177): the row and jInNonIndexed *)
Definition nonIndexed1 (l : loopM) (row : list nat) (it j e : nat) (r : rowInfo) : res (rowInfo * bool) :=
  match getNonIndexed l j with
  | Some t =>
      if mem t row then
        rbind (place (l_iters l) it j e (nonIndexedPositions r)) (fun m =>
        Ok (mkRow (indexedPositions r) m (tmpEvals r) (sins t (loopEvalRow r)), true))
      else Ok (r, false)
  | None => Ok (r, false)
  end.
(** one temporary (185-205) *)
Definition temporary1 (l : loopM) (f : freeM) (it j e : nat) (s : rowInfo * (nat -> list nat) * bool) (tapeJ : nat)
  : res (rowInfo * (nat -> list nat) * bool) :=
  let '(r, ev, jIn) := s in
  match nth_error (l_tmp l) (tapeJ - length (l_indexed l) - length (l_non l)) with
  | None => Undef
  | Some k =>
      let il := length (f_eqs f) + k in
      match nth_error (f_row f) il with
      | None => Undef
      | Some sp =>
          if mem j sp then
            rbind (if jIn then Ok (nonIndexedPositions r) else place (l_iters l) it j e (nonIndexedPositions r)) (fun m =>
            Ok (mkRow (indexedPositions r) m
                      (mput j (sins k (match mget j (tmpEvals r) with Some ks => ks | None => [] end)) (tmpEvals r))
                      (sins tapeJ (loopEvalRow r)),
                upd il (sins j (ev il)) ev, true))
          else Ok s
      end
  end.
(** an element of a loop (112-206) *)
Definition loopElement (md : model) (l : loopM) (tapeI it j e : nat) (r : rowInfo) (ev : nat -> list nat)
  : res (rowInfo * (nat -> list nat)) :=
  match nth_error (l_row l) tapeI with
  | None => Undef
  | Some row =>
      rbind (rfold (indexed1 l row it e) (getIndexedTapeIndexes l it j) r) (fun r1 =>
      rbind (nonIndexed1 l row it j e r1) (fun rb =>
      match m_free md with
      | None => Ok (fst rb, ev)
      | Some f =>
          rbind (rfold (temporary1 l f it j e)
                       (filter (fun t => length (l_indexed l) + length (l_non l) <=? t) row) (fst rb, ev, snd rb)) (fun s =>
          Ok (fst (fst s), snd (fst s)))
      end))
  end.
(** one element (79-206).  dependentOrig2Local.at throws *)
Definition element1 (md : model) (s : state) (el : nat * (nat * nat)) : res state :=
  let '(e, (i, j)) := el in
  match findLoop i (m_loops md) with
  | None =>
      match m_free md with
      | None => Undef
      | Some f =>
          match indexOf (Nat.eqb i) (f_eqs f) with
          | None => Throw
          | Some il =>
              Ok (mkState (infos s) (upd il (sins j (noLoopEval s il)) (noLoopEval s))
                          (upd il (upd j (sins e (noLoopLocs s il j)) (noLoopLocs s il)) (noLoopLocs s)))
          end
      end
  | Some (n, (tapeI, it)) =>
      match nth_error (m_loops md) n with
      | None => Undef
      | Some l =>
          rbind (loopElement md l tapeI it j e (infos s n tapeI) (noLoopEval s)) (fun p =>
          Ok (mkState (upd n (upd tapeI (fst p) (infos s n)) (infos s)) (snd p) (noLoopLocs s)))
      end
  end.
(** the elements with their locations, 0, 1, 2 ... (240-246) *)
Definition numbered {A} (l : list A) : list (nat * A) := combine (seq 0 (length l)) l.
Definition analyse (md : model) (els : list (nat * nat)) : res state := rfold (element1 md) (numbered els) state0.

(** ** Generation *)
Section Numbers.
Variable F : nat -> nat -> (nat -> R) -> R.                 (* loop, equation pattern: a function of the variables of its tape *)
Variable dF : nat -> nat -> nat -> (nat -> R) -> R.         (* its partial derivatives *)
Variable G : nat -> (nat -> R) -> R.                        (* equations outside loops, then temporaries *)
Variable dG : nat -> nat -> (nat -> R) -> R.
Variable absent : nat -> nat -> nat -> R.                   (* what is read for an indexed variable which an iteration does not have *)
Variable md : model.
Variable x : nat -> R.

Definition nEq : nat := match m_free md with Some f => length (f_eqs f) | None => 0 end.

(** createIndexedIndependents and createLoopIndependentVector: the variables of the tape of a loop in an iteration *)
Definition tapeVars (n : nat) (l : loopM) (it : nat) (t : nat) : R :=
  let nI := length (l_indexed l) in let nN := length (l_non l) in
  if t <? nI then match entry (l_indexed l) t it with Some j => x j | None => absent n it t end
  else if t <? nI + nN then match nth_error (l_non l) (t - nI) with Some j => x j | None => 0%R end
  else match nth_error (l_tmp l) (t - nI - nN) with Some k => G (nEq + k) x | None => 0%R end.

(** a value in a loop, by iteration *)
Definition V : Type := N -> R.
Definition dyi (n : nat) (l : loopM) (r : rowInfo) (tapeI tapeJ : nat) : option V :=
  if mem tapeJ (loopEvalRow r) then Some (fun k => dF n tapeI tapeJ (tapeVars n l (N.to_nat k))) else None.
(** dzDx[k].at(j) (292-296) *)
Definition dz (s : state) (k j : nat) : option R :=
  if mem j (noLoopEval s (nEq + k)) then Some (dG (nEq + k) j x) else None.

(** createJacobianElement (477-520) *)
Fixpoint locsOf (k : N) (p : positions) : list (N * N) :=
  match p with [] => [] | Some e :: p' => (k, N.of_nat e) :: locsOf (N.succ k) p' | None :: p' => locsOf (N.succ k) p' end.
Definition jacobianElement (p : positions) (v : V) : request V := RResult V (locsOf 0%N p) (N.of_nat (length p)) v 1%N.

(** prepareSparseJacobianRowWithLoops (403-472); [py] is 1 for the Jacobian and the seed for the first order reverse mode *)
Definition indexedResult (py : R) (n : nat) (l : loopM) (tapeI : nat) (r : rowInfo) (jp : nat * positions) : res (request V) :=
  match dyi n l r tapeI (fst jp) with
  | Some v => Ok (jacobianElement (snd jp) (fun k => (v k * py)%R))
  | None => Throw
  end.
Definition viaTemporary (n : nat) (l : loopM) (s : state) (tapeI j : nat) (r : rowInfo) (acc : V) (k : nat) : res V :=
  match getTemp l k with
  | None => Undef
  | Some t => match dyi n l r tapeI t, dz s k j with
              | Some v, Some d => Ok (fun it => (acc it + v it * d)%R)
              | _, _ => Throw
              end
  end.
Definition nonIndexedResult (py : R) (n : nat) (l : loopM) (s : state) (tapeI : nat) (r : rowInfo) (jp : nat * positions) : res (request V) :=
  let j := fst jp in
  let direct : V := match getNonIndexed l j with
                    | Some t => match dyi n l r tapeI t with Some v => fun k => (0 + v k)%R | None => fun _ => 0%R end
                    | None => fun _ => 0%R
                    end in
  rbind (rfold (viaTemporary n l s tapeI j r) (match mget j (tmpEvals r) with Some ks => ks | None => [] end) direct) (fun v =>
  Ok (jacobianElement (snd jp) (fun k => (v k * py)%R))).
Fixpoint rmap {A B} (f : A -> res B) (l : list A) : res (list B) :=
  match l with [] => Ok [] | a :: l' => rbind (f a) (fun b => rbind (rmap f l') (fun bs => Ok (b :: bs))) end.
Definition rowResults (py : R) (n : nat) (l : loopM) (s : state) (tapeI : nat) : res (list (request V)) :=
  let r := infos s n tapeI in
  rbind (rmap (indexedResult py n l tapeI r) (indexedPositions r)) (fun a =>
  rbind (rmap (nonIndexedResult py n l s tapeI r) (nonIndexedPositions r)) (fun b => Ok (a ++ b))).
Definition loopRequests (n : nat) (l : loopM) (s : state) : res (list (request V)) :=
  rbind (rmap (rowResults 1%R n l s) (seq 0 (length (l_deps l)))) (fun rs => Ok (concat rs)).

(** createLoopResult for each result, then createLoopEnd: the loop *)
Definition makeLoop (rs : list (request V)) : res (loop V) :=
  match requests V (fun _ => false) (fun v _ => v) (fun v _ => v) rs (mkLoop V [] []) with Done s => Ok s | _ => Undef end.

(** a generated function: its loops with their numbers of iterations, and the elements assigned outside loops *)
Record program : Type := mkProg { p_loops : list (nat * loop V); p_set : list (nat * R) }.

Fixpoint rloops (f : nat -> loopM -> res (nat * loop V)) (n : nat) (ls : list loopM) : res (list (nat * loop V)) :=
  match ls with [] => Ok [] | l :: ls' => rbind (f n l) (fun b => rbind (rloops f (S n) ls') (fun bs => Ok (b :: bs))) end.

(** jac[itE] = jacNoLoop[el] (283-291) *)
Definition outside (s : state) : list (nat * R) :=
  flat_map (fun il => flat_map (fun j => map (fun e => (e, dG il j x)) (noLoopLocs s il j)) (noLoopEval s il)) (seq 0 nEq).

(** prepareSparseJacobianWithLoops (213-401) *)
Definition jacobianProgram (els : list (nat * nat)) : res program :=
  rbind (analyse md els) (fun s =>
  rbind (rloops (fun n l => rbind (loopRequests n l s) (fun rs => rbind (makeLoop rs) (fun p => Ok (l_iters l, p)))) 0 (m_loops md)) (fun ls =>
  Ok (mkProg ls (outside s)))).

(** prepareGraphForward0WithLoops (for0 25-131): [m] equations *)
Fixpoint depLocs (m : nat) (k : N) (r : list (option nat)) : list (N * N) :=
  match r with
  | [] => []
  | Some i :: r' => if i <? m then (k, N.of_nat i) :: depLocs m (N.succ k) r' else depLocs m (N.succ k) r'
  | None :: r' => depLocs m (N.succ k) r'
  end.
Definition valueRequests (m n : nat) (l : loopM) : list (request V) :=
  map (fun td => RResult V (depLocs m 0%N (snd td)) (N.of_nat (l_iters l)) (fun k => F n (fst td) (tapeVars n l (N.to_nat k))) 0%N)
      (numbered (l_deps l)).
Definition valueProgram (m : nat) : res program :=
  rbind (rloops (fun n l => rbind (makeLoop (valueRequests m n l)) (fun p => Ok (l_iters l, p))) 0 (m_loops md)) (fun ls =>
  Ok (mkProg ls (match m_free md with Some f => map (fun ei => (snd ei, G (fst ei) x)) (numbered (f_eqs f)) | None => [] end))).

End Numbers.

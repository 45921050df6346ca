(** * First order forward mode of a model with loops

    Models include/cppad/cg/model/patterns/model_c_source_gen_loops_for1.hpp: prepareSparseForwardOneWithLoops (25-418),
    createForwardOneWithLoopsNL (420-446), the grouping of the columns, generateForOneColumnGroups (520-552), groupForOneByContrib (560-626),
    subgroupForOneByContrib (634-686), the results of a group, generateForwardOneGroupOps (688-809) and createForwardOneElement (811-845), and
    generateLoopFor1Jac (849-906); and the execution of the functions which are generated: one for each variable with equations outside of loops,
    and one for each group of columns of a loop, which finds its iterations from the number of the variable.
    The analysis of the elements is that of the Jacobian (LoopJac_model.v), with other locations.  What calls these functions is in LoopDir_model.v
    (directional derivatives) and LoopAsm_model.v (sparse Jacobian).

    Simplifications: those of LoopJac_model.v; the columns are grouped in the order of the variables (in the code first by the terms of the column: the
    groups are the same, with other numbers); the two ways of generateLoopFor1Jac give the same derivatives; a variable which is only used by
    temporaries makes no function outside of loops (116-148: elements.at(j) finds it, since it was requested, and nothing is put in the column). *)
From Coq Require Import List Bool Arith NArith ZArith Reals.
From Verif Require Import Pool_model Graph_model Codegen_model CSyntax Index_model Range_model LoopCond_model Assemble_model LoopAsm_model LoopJac_model LoopRev1_model.
Import ListNotations.
Local Open Scope nat_scope.

(** rows, cols and locations (63-80): the elements by variable; the location of an element is its number among those of its variable *)
Definition columnElements (rows cols : list nat) : list (nat * (nat * nat)) :=
  map (fun q => (fst q, (snd (snd q), fst (snd q)))) (localElements cols rows).
Definition analyseColumns (md : model) (rows cols : list nat) : res state := rfold (element1 md) (columnElements rows cols) state0.

(** ** The groups of columns of a loop *)

(** a contribution to a column: an indexed tape variable, or the variable of the column as a non-indexed one *)
Inductive term : Type := Idx (t : nat) | Non (j : nat).
Definition term_dec (a b : term) : {a = b} + {a <> b}.
Proof. decide equality; apply Nat.eq_dec. Defined.
Definition termPos (r : rowInfo) (a : term) : option positions :=
  match a with Idx t => mget t (indexedPositions r) | Non j => mget j (nonIndexedPositions r) end.
Definition posAt (o : option positions) (it : nat) : option nat :=
  match o with Some p => match nth_error p it with Some (Some e) => Some e | _ => None end | None => None end.
Definition isSome {A} (o : option A) : bool := match o with Some _ => true | None => false end.
(** indexedIndepIndexes[tapeJ][iter].original; the variable itself *)
Definition termCol (l : loopM) (a : term) (it : nat) : option nat := match a with Idx t => entry (l_indexed l) t it | Non j => Some j end.

(** a std::map in which the elements of each key are collected *)
Fixpoint collect {K A} (dec : forall a b : K, {a = b} + {a <> b}) (k : K) (v : A) (m : list (K * list A)) : list (K * list A) :=
  match m with
  | [] => [(k, [v])]
  | (k', vs) :: r => if dec k k' then (k', vs ++ [v]) :: r else (k', vs) :: collect dec k v r
  end.
Definition groupBy {K A} (dec : forall a b : K, {a = b} + {a <> b}) (l : list (K * A)) : list (K * list A) :=
  fold_left (fun m p => collect dec (fst p) (snd p) m) l [].

Section Groups.
Variable s : state.
Variable n : nat.
Variable l : loopM.
Definition tapeRows : list nat := seq 0 (length (l_deps l)).
(** indexed2jcol2Iter[tapeJ][j] and nonIndexed2Iter[j] (577-613) *)
Definition termIters (j : nat) (a : term) : list nat :=
  filter (fun it => existsb (fun tapeI => isSome (posAt (termPos (infos s n tapeI) a) it)) tapeRows && isEq j (termCol l a it)) (seq 0 (l_iters l)).
(** the contributions to column [j] (571-613), with their iterations *)
Definition columnTerms (j : nat) : list (list nat * term) :=
  flat_map (fun a => match termIters j a with [] => [] | its => [(its, a)] end) (map Idx (seq 0 (length (l_indexed l))) ++ [Non j]).
(** contribs (646-667): the contributions to [j] with the same iterations *)
Definition contribs (j : nat) : list (list nat * list term) := groupBy (list_eq_dec Nat.eq_dec) (columnTerms j).
(** JacobianColGroup: the contributions, and for each column its iterations; a group for each set of contributions (668-684) *)
Definition cgroup : Type := (list term * list (nat * list nat))%type.
Definition columnGroups (nx : nat) : list cgroup :=
  groupBy (list_eq_dec term_dec) (flat_map (fun j => map (fun c => (snd c, (j, fst c))) (contribs j)) (seq 0 nx)).
(** iterations (678) *)
Definition groupIters (g : cgroup) : list nat := filter (fun it => existsb (fun c => mem it (snd c)) (snd g)) (seq 0 (l_iters l)).

(** jcol2CompressedLoc (826-833) *)
Definition groupEvents (g : cgroup) : list (nat * nat) :=
  flat_map (fun q => flat_map (fun it => match posAt (termPos (infos s n (fst q)) (snd q)) it, termCol l (snd q) it with Some e, Some j => [(j, e)] | _, _ => [] end) (groupIters g))
           (list_prod tapeRows (fst g)).
Definition putEvent (m : keymap) (je : nat * nat) : keymap := mput (fst je) (sins (snd je) (match mget (fst je) m with Some es => es | None => [] end)) m.
Definition groupKeys (g : cgroup) : keymap := fold_left putEvent (groupEvents g) [].
End Groups.

(** ** The iterations of the function of a group, from the number of the column *)

(** createsLoop (226-236) *)
Definition createsLoop (g : cgroup) : bool := negb (forallb (fun c => length (snd c) =? 1) (snd g)).
(** the number of iterations (272-297) *)
Definition isConstant (p : pat) : bool := match p with Codegen_model.Done (PLin l) => (l_dy l =? 0)%Z | _ => false end.
Definition countAt (g : cgroup) (jcol : nat) : option nat :=
  if createsLoop g then
    let p := detectM (map (fun c => (fst c, length (snd c))) (snd g)) in
    if isConstant p then match snd g with c :: _ => Some (length (snd c)) | [] => None end else patAt p (Some jcol)
  else Some 1.
(** the value of a pattern (language_c_index_patterns.hpp 203-278) *)
Definition ipatAt (q : ipat) (z : Z) : option Z :=
  match q with
  | PLin l => Some (evalLin l z)
  | PSec s => option_map (fun e => evalLin (snd e) z) (secAt s z None)
  | PRand1 m => option_map snd (find (fun e => (fst e =? z)%Z) m)
  end.
Definition planeAt (p : plane) (x y : Z) : option Z :=
  match (match fst p with Some q => ipatAt q x | None => Some 0%Z end), (match snd p with Some q => ipatAt q y | None => Some 0%Z end) with
  | Some a, Some b => Some (a + b)%Z
  | _, _ => None
  end.
(** jcol2localIt2ModelIt (244-255) *)
Definition iterTable (g : cgroup) : list (Z * list (Z * Z)) :=
  map (fun c => (Z.of_nat (fst c), map (fun p => (Z.of_nat (fst p), Z.of_nat (snd p))) (numbered (snd c)))) (snd g).
(** itPattern (261-266, 300): without a loop there is only the index of the column, and a table with two indexes cannot be printed *)
Definition iterationAt (g : cgroup) (jcol lit : nat) : option nat :=
  let y := if createsLoop g then lit else jcol in
  match detectPlane2D (length (concat (map snd (iterTable g)))) (iterTable g) with
  | Codegen_model.Done (Some p) => match planeAt p (Z.of_nat jcol) (Z.of_nat y) with Some z => if (z <? 0)%Z then None else Some (Z.to_nat z) | None => None end
  | Codegen_model.Done None =>
      if createsLoop g then match mget jcol (snd g) with Some its => nth_error its lit | None => None end else None
  | _ => None
  end.

Section Numbers.
Variable dF : nat -> nat -> nat -> (nat -> R) -> R.
Variable G : nat -> (nat -> R) -> R.
Variable dG : nat -> nat -> (nat -> R) -> R.
Variable absent : nat -> nat -> nat -> R.
Variable md : model.
Variable x : nat -> R.
Variable nx : nat.                                  (* variables of the model *)
Variables rows cols : list nat.

(** ** Equations outside of loops (108-180): the column of [j] with the seed [dx] *)
Definition noLoopColStep (s : state) (j : nat) (dx : R) (col : res (list R)) (il : nat) : res (list R) :=
  rbind col (fun col =>
  if mem j (noLoopEval s il) then
    match noLoopLocs s il j with
    | e :: _ => if e <? length col then Ok (set_nth e (dG il j x * dx)%R col) else Undef
    | [] => Undef
    end
  else Ok col).
Definition noLoopCol (s : state) (j : nat) (dx : R) : res (list R) :=
  fold_left (noLoopColStep s j dx) (seq 0 (nEq md)) (Ok (repeat 0%R (length (filter (Nat.eqb j) cols)))).
(** _nonLoopFor1Elements[j] (138) *)
Definition noLoopColSet (s : state) (j : nat) : list nat :=
  fold_left (fun acc il => match (if mem j (noLoopEval s il) then noLoopLocs s il j else []) with e :: _ => sins e acc | [] => acc end) (seq 0 (nEq md)) [].
Definition noLoopColMap (s : state) : keymap :=
  fold_left (fun mp j => match noLoopColSet s j with [] => mp | es => mput j es mp end) (seq 0 nx) [].
Definition noLoopColFn (s : state) (j : nat) (dx : R) : option (list R) := match noLoopCol s j dx with Ok col => Some col | _ => None end.

(** ** The results of a group (688-845) *)
Definition restrictTo (its : list nat) (p : positions) : positions := map (fun q => if mem (fst q) its then snd q else None) (numbered p).
(** dyiDxtapeT.at(tapeJ) (779) finds a column when some equation has an element in it *)
Definition directValue (n : nat) (l : loopM) (s : state) (tapeI j : nat) : res V :=
  match getNonIndexed l j with
  | Some t =>
      if existsb (fun i => mem t (loopEvalRow (infos s n i))) (tapeRows l) then
        Ok (match dyi dF G absent md x n l (infos s n tapeI) tapeI t with Some v => fun k => (0 + v k)%R | None => fun _ => 0%R end)
      else Throw
  | None => Ok (fun _ => 0%R)
  end.
Definition termValue (n : nat) (l : loopM) (s : state) (tapeI : nat) (a : term) : res V :=
  match a with
  | Idx t => match dyi dF G absent md x n l (infos s n tapeI) tapeI t with Some v => Ok v | None => Throw end
  | Non j => rbind (directValue n l s tapeI j) (fun d =>
             rfold (viaTemporary dF G dG absent md x n l s tapeI j (infos s n tapeI)) (match mget j (tmpEvals (infos s n tapeI)) with Some ks => ks | None => [] end) d)
  end.
Definition groupResult (n : nat) (l : loopM) (s : state) (its : list nat) (dx : R) (q : nat * term) : res (list (request V)) :=
  match termPos (infos s n (fst q)) (snd q) with
  | None => Ok []
  | Some p =>
      if forallb (fun o => negb (isSome o)) (restrictTo its p) then Ok []
      else rbind (termValue n l s (fst q) (snd q)) (fun v => Ok [jacobianElement (restrictTo its p) (fun k => (v k * dx)%R)])
  end.
Definition groupLoop (n : nat) (l : loopM) (s : state) (g : cgroup) (dx : R) : res (loop V) :=
  rbind (rmap (groupResult n l s (groupIters l g) dx) (list_prod (tapeRows l) (fst g))) (fun rs => makeLoop (concat rs)).

(** ** The functions of the groups *)
Definition allGroups (s : state) : list (nat * cgroup) :=
  flat_map (fun nl => map (pair (fst nl)) (columnGroups s (fst nl) (snd nl) nx)) (numbered (m_loops md)).
Definition for1Groups (s : state) : list lgroup :=
  flat_map (fun q => let '(f, (n, g)) := q in match nth_error (m_loops md) n with Some l => [mkLG f (groupKeys s n l g)] | None => [] end) (numbered (allGroups s)).
Definition loopFor1 (s : state) (f jcol : nat) (dx : R) : option (list (nat * R)) :=
  match nth_error (allGroups s) f with
  | Some (n, g) =>
      match nth_error (m_loops md) n with
      | Some l =>
          match groupLoop n l s g dx, countAt g jcol with
          | Ok p, Some c =>
              option_map (@concat (nat * R))
                (mapO (fun lit => match iterationAt g jcol lit with Some it => mapO (effectOf it) (executed V (N.of_nat it) p) | None => None end) (seq 0 c))
          | _, _ => None
          end
      | None => None
      end
  | None => None
  end.

(** ** prepareSparseForwardOneWithLoops: what is generated.  The seed is a variable: what is generated does not depend on its value *)
Record for1 : Type := mkFor1 {
  w_nl : keymap;                                    (* _nonLoopFor1Elements *)
  w_gs : list lgroup;                               (* _loopFor1Groups *)
  w_noLoop : nat -> R -> option (list R);
  w_loopFn : nat -> nat -> R -> option (list (nat * R)) }.
Definition forwardOneFunctions : res for1 :=
  rbind (analyseColumns md rows cols) (fun s =>
  rbind (rmap (fun j => noLoopCol s j 1%R) (seq 0 nx)) (fun _ =>
  rbind (rmap (fun ng => match nth_error (m_loops md) (fst ng) with Some l => groupLoop (fst ng) l s (snd ng) 1%R | None => Undef end) (allGroups s)) (fun _ =>
  Ok (mkFor1 (noLoopColMap s) (for1Groups s) (noLoopColFn s) (loopFor1 s))))).
End Numbers.

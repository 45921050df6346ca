(** * The sparse Jacobian and Hessian of models with loops put together from their directional functions

    With loops there is, for each direction (a row or a column), at most one function for the equations outside of loops, and one function per group of
    results of a loop, which is given the direction as an argument.  This file models the generator which puts their results in the places the user
    asked for, include/cppad/cg/model/patterns/model_c_source_gen_loops.hpp determineForRevUsagePatterns (778-887) and printForRevUsageFunction
    (895-1168), used by model_c_source_gen_loops_jac_fr1.hpp and model_c_source_gen_loops_hess_r2.hpp;
    together with the execution of the code it prints.

    Simplifications: a loop and the number of one of its groups are one number, the name of the function; groups come in the order of the loops (the
    addresses of the loop models) and of their numbers.  A std::map or std::set is the list of its elements in ascending order of keys.
    [None] is an exception of std::map::at, an access out of the bounds of an array, or the use of a variable which was not assigned. *)
From Coq Require Import List Arith Bool NArith ZArith.
From Verif Require Import Pool_model Graph_model Codegen_model Index_model LoopCond_model Assemble_model.
Import ListNotations.
Local Open Scope nat_scope.

(** ** determineForRevUsagePatterns (778-887) *)

(** std::map<size_t, std::set<size_t> >: direction -> { compressed positions } *)
Definition keymap : Type := list (nat * list nat).
Record lgroup : Type := mkLG { lg_fn : nat; lg_keys : keymap }.
Definition pat : Type := Codegen_model.outcome ipat.

Fixpoint mapO {A B} (f : A -> option B) (l : list A) : option (list B) :=
  match l with
  | [] => Some []
  | a :: r => match f a, mapO f r with Some b, Some bs => Some (b :: bs) | _, _ => None end
  end.

(** matrixInfo.at(key) *)
Definition infoAt (is : list info) (k : nat) : option info := find (fun i => i_key i =? k) is.
(** jcols2e.at(key) *)
Definition posAt (km : keymap) (k : nat) : option (list nat) := option_map snd (find (fun p => fst p =? k) km).

(** 811-817 *)
Fixpoint allOrdered (is : list info) (ks : list nat) : option bool :=
  match ks with
  | [] => Some true
  | k :: r => match infoAt is k with None => None | Some i => if i_ord i then allOrdered is r else Some false end
  end.
(** *location[e].begin() *)
Definition locationOf (is : list info) (k e : nat) : option nat :=
  match infoAt is k with
  | None => None
  | Some i => match nth_error (i_loc i) e with Some (p :: _) => Some p | _ => None end
  end.

(** IndexPattern::detect of a vector (804, 827) and of a map (868-869) *)
Definition detectV (l : list nat) : pat := detectVec (length l) (map Z.of_nat l).
Definition detectM (l : list (nat * nat)) : pat := detectMap (length l) (map (fun p => (Z.of_nat (fst p), Z.of_nat (snd p))) l).

(** m[k] gets one more element, after the others: elCount2localIt2jcols[elCount][localIt] = key (834-840; localIt goes up, so that the new element is
    the last one of the inner map) and loopCalls[localit2jcols.size()][loop][group] = data (882-883; loops and groups go up) *)
Fixpoint mpush {A} (k : nat) (v : A) (m : list (nat * list A)) : list (nat * list A) :=
  match m with
  | [] => [(k, [v])]
  | (k', l) :: r => if k <? k' then (k, [v]) :: m else if k =? k' then (k', l ++ [v]) :: r else (k', l) :: mpush k v r
  end.
Definition byCount (km : keymap) : list (nat * list (nat * nat)) :=
  fold_left (fun m q => mpush (length (snd (snd q))) (fst q, fst (snd q)) m) (combine (seq 0 (length km)) km) [].

(** ArrayElementGroup: the directions and, for each element, resultPattern and compressedPattern *)
Record elgroup : Type := mkEG { eg_keys : list nat; eg_pats : list (pat * pat) }.
(** 852-862: the maps of the element number e: (localIt, *itE), and (localIt, *origPos[*itE].begin()) *)
Definition compressPos (km : keymap) (its : list (nat * nat)) (e : nat) : option (list (nat * nat)) :=
  mapO (fun p => match posAt km (snd p) with
                 | Some s => match nth_error s e with Some c => Some (fst p, c) | None => None end
                 | None => None end) its.
Definition resultPos (is : list info) (km : keymap) (its : list (nat * nat)) (e : nat) : option (list (nat * nat)) :=
  mapO (fun p => match posAt km (snd p) with
                 | Some s => match nth_error s e with
                             | Some c => match locationOf is (snd p) c with Some l => Some (fst p, l) | None => None end
                             | None => None end
                 | None => None end) its.
(** 842-871 *)
Definition elementGroup (is : list info) (km : keymap) (g : nat * list (nat * nat)) : option elgroup :=
  match mapO (fun e => match resultPos is km (snd g) e, compressPos km (snd g) e with
                       | Some r, Some c => Some (detectM r, detectM c)
                       | _, _ => None end) (seq 0 (fst g)) with
  | Some ps => Some (mkEG (map snd (snd g)) ps)
  | None => None
  end.

(** ArrayGroup; [ag_start = None]: startLocPattern is null *)
Record agroup : Type := mkAG { ag_fn : nat; ag_map : keymap; ag_pattern : pat; ag_start : option pat; ag_els : list elgroup }.
Definition arrayGroup (is : list info) (g : lgroup) : option agroup :=
  let ks := map fst (lg_keys g) in
  match allOrdered is ks with
  | None => None
  | Some true =>
      match mapO (fun k => locationOf is k 0) ks with
      | Some starts => Some (mkAG (lg_fn g) (lg_keys g) (detectV ks) (Some (detectV starts)) [])
      | None => None
      end
  | Some false =>
      match mapO (elementGroup is (lg_keys g)) (byCount (lg_keys g)) with
      | Some els => Some (mkAG (lg_fn g) (lg_keys g) (detectV ks) None els)
      | None => None
      end
  end.
Definition loopCalls (is : list info) (gs : list lgroup) : option (list (nat * list agroup)) :=
  match mapO (arrayGroup is) gs with
  | Some ags => Some (fold_left (fun m a => mpush (length (ag_map a)) a m) ags [])
  | None => None
  end.

(** ** printForRevUsageFunction (895-1168) *)
Inductive lstmt : Type :=
| SDirect (p : nat)                       (* outLocal[0] = &result[p]; *)
| SDirectAt (p : pat)                     (* outLocal[0] = &result[f(it)]; *)
| SCompressed                             (* outLocal[0] = compressed; *)
| SNoLoop (k : nat)                       (* <function>_noloop_k(inLocal, outLocal, atomicFun); *)
| SAdd (ls : list nat) (e : nat)          (* result[l1] += compressed[e]; result[l2] += compressed[e]; ... *)
| SClear (n : nat)                        (* for(e = 0; e < n; e++) compressed[e] = 0; *)
| SKey (p : pat)                          (* key = f(it); *)
| SLoop (f : nat) (k : option nat)        (* <function>(k, inLocal, outLocal, atomicFun), or with the variable key *)
| SCopies (ps : list (pat * pat))         (* result[f(it)] += compressed[g(it)]; ... *)
| SIf (bs : list (option (list N) * list (pat * pat))).   (* if(condition of key) { ... } else if ... ; None: else *)

(** 1013-1042 *)
Fixpoint emitNoLoop (is : list info) (last : bool) (nl : keymap) : option (list lstmt * bool) :=
  match nl with
  | [] => Some ([], last)
  | (k, elPos) :: r =>
      match infoAt is k with
      | None => None
      | Some i =>
          match (if i_ord i then match locationOf is k 0 with Some p => Some [SDirect p] | None => None end
                 else Some (if last then [] else [SCompressed])),
                (if i_ord i then Some [] else mapO (fun e => match nth_error (i_loc i) e with Some ls => Some (SAdd ls e) | None => None end) elPos),
                emitNoLoop is (negb (i_ord i)) r with
          | Some out, Some adds, Some (rest, last') => Some (out ++ [SNoLoop k] ++ adds ++ rest, last')
          | _, _, _ => None
          end
      end
  end.

(** 1090-1100: the numbers below the last direction which are not directions of the group *)
Fixpoint unused (from : nat) (ks : list nat) : list nat :=
  match ks with [] => [] | k :: r => seq from (k - from) ++ unused (S k) r end.
(** 1103-1139 *)
Fixpoint branchesOf (maxKey : nat) (used : list N) (els : list elgroup) : list (option (list N) * list (pat * pat)) :=
  match els with
  | [] => []
  | [eg] => [(None, eg_pats eg)]
  | eg :: r =>
      let ks := map N.of_nat (eg_keys eg) in
      (Some (createIndexConditionExpression ks used (N.of_nat maxKey)), eg_pats eg) :: branchesOf maxKey (sputs ks used) r
  end.
Definition copiesOf (km : keymap) (els : list elgroup) : list lstmt :=
  match els with
  | [] => []
  | [eg] => [SCopies (eg_pats eg)]
  | _ => [SIf (branchesOf (last (map fst km) 0) (map N.of_nat (unused 0 (map fst km))) els)]
  end.
(** 1058-1146: one group *)
Definition emitGroup (maxC n : nat) (lastC : bool) (a : agroup) : list lstmt :=
  (match ag_start a with
   | Some p => [SDirectAt p]
   | None => (if lastC then [] else [SCompressed]) ++ [SClear maxC]
   end)
  ++ (if 1 <? n then [SKey (ag_pattern a); SLoop (ag_fn a) None]
      else [SLoop (ag_fn a) (Some (hd 0 (map fst (ag_map a))))])
  ++ (match ag_start a with Some _ => [] | None => copiesOf (ag_map a) (ag_els a) end).
Definition isCompressed (a : agroup) : bool := match ag_start a with None => true | Some _ => false end.
Fixpoint emitGroups (maxC n : nat) (lastC : bool) (l : list agroup) : list lstmt * bool :=
  match l with
  | [] => ([], lastC)
  | a :: r => let (t, b) := emitGroups maxC n (isCompressed a) r in (emitGroup maxC n lastC a ++ t, b)
  end.
(** 1047-1155: with one iteration there is no for *)
Fixpoint emitLoops (maxC : nat) (lastC : bool) (m : list (nat * list agroup)) : list (nat * list lstmt) :=
  match m with
  | [] => []
  | (n, l) :: r => let (t, b) := emitGroups maxC n (if 1 <? n then false else lastC) l in (n, t) :: emitLoops maxC b r
  end.

Record lprogram : Type := mkLP { lp_size : nat; lp_nnz : nat; lp_noloop : list lstmt; lp_loops : list (nat * list lstmt) }.
(** The body of generateSparseJacobianWithLoopsSourceFromForRev (model_c_source_gen_loops_jac_fr1.hpp) and
    generateSparseHessianWithLoopsSourceFromRev2 (model_c_source_gen_loops_hess_r2.hpp): matrixInfo and maxCompressedSize are as without loops
    ([entries], [maxCompressed]). *)
Definition assemble (ks vs : list nat) (nl : keymap) (gs : list lgroup) : option lprogram :=
  match entries ks vs with
  | None => None
  | Some is =>
      match emitNoLoop is false nl, loopCalls is gs with
      | Some (t, b), Some m => Some (mkLP (maxCompressed is) (length ks) t (emitLoops (maxCompressed is) b m))
      | _, _ => None
      end
  end.

(** ** The execution of the generated code *)

(** the value of a pattern for the index [it], as printed by indexPattern2String: the last section which starts at or before the index; the
    element of the table.  [it = None]: the index was not assigned; only a constant does not use it. *)
Fixpoint secAt (s : list (Z * lin)) (x : Z) (best : option (Z * lin)) : option (Z * lin) :=
  match s with
  | [] => best
  | (k, l) :: r =>
      secAt r x (if (k <=? x)%Z then match best with Some (k0, _) => if (k0 <? k)%Z then Some (k, l) else best | None => Some (k, l) end else best)
  end.
Definition patAt (p : pat) (it : option nat) : option nat :=
  match p with
  | Codegen_model.Done q =>
      match (match q, it with
             | PLin l, None => if (l_dy l =? 0)%Z then Some (l_b l) else None
             | _, None => None
             | PLin l, Some i => Some (evalLin l (Z.of_nat i))
             | PSec s, Some i => option_map (fun e => evalLin (snd e) (Z.of_nat i)) (secAt s (Z.of_nat i) None)
             | PRand1 m, Some i => option_map snd (find (fun e => (fst e =? Z.of_nat i)%Z) m)
             end) with
      | Some z => if (z <? 0)%Z then None else Some (Z.to_nat z)
      | None => None
      end
  | _ => None
  end.
(** the condition of printIndexCondExpr (C14): some pair of the list has the key between its two numbers *)
Fixpoint holdsAt (l : list N) (k : N) : bool :=
  match l with lo :: hi :: r => ((lo <=? k)%N && (k <=? hi)%N) || holdsAt r k | _ => false end.

Section Exec.
Variable V : Type.
Variable zero : V.
Variable add : V -> V -> V.
Variable noLoop : nat -> option (list V).                 (* what the function of a direction writes in out[0][0], out[0][1], ... *)
Variable loopFn : nat -> nat -> option (list (nat * V)).    (* function, direction: the positions and what is added to them *)

Inductive place := PNowhere | PResult (p : nat) | PCompressed.
Record lmem : Type := mkLM { m_result : list V; m_compressed : list V; m_place : place; m_key : option nat }.

(** a[p] += v *)
Definition addAt (a : list V) (p : nat) (v : V) : option (list V) :=
  match nth_error a p with Some w => Some (setNth a p (add w v)) | None => None end.
Fixpoint addAll (a : list V) (base : nat) (l : list (nat * V)) : option (list V) :=
  match l with
  | [] => Some a
  | (e, v) :: r => match addAt a (base + e) v with Some a' => addAll a' base r | None => None end
  end.

Definition writeTo (f : list V -> nat -> option (list V)) (m : lmem) : option lmem :=
  match m_place m with
  | PNowhere => None
  | PResult p => match f (m_result m) p with Some a => Some (mkLM a (m_compressed m) (m_place m) (m_key m)) | None => None end
  | PCompressed => match f (m_compressed m) 0 with Some a => Some (mkLM (m_result m) a (m_place m) (m_key m)) | None => None end
  end.
Fixpoint addLocs (a : list V) (ls : list nat) (v : V) : option (list V) :=
  match ls with [] => Some a | l :: r => match addAt a l v with Some a' => addLocs a' r v | None => None end end.
(** the copies of one branch *)
Fixpoint copyAll (it : option nat) (ps : list (pat * pat)) (m : lmem) : option lmem :=
  match ps with
  | [] => Some m
  | (r, c) :: rest =>
      match patAt r it, patAt c it with
      | Some p, Some e =>
          match nth_error (m_compressed m) e with
          | Some v =>
              match addAt (m_result m) p v with
              | Some a => copyAll it rest (mkLM a (m_compressed m) (m_place m) (m_key m))
              | None => None
              end
          | None => None
          end
      | _, _ => None
      end
  end.
Fixpoint ifAll (it : option nat) (k : nat) (bs : list (option (list N) * list (pat * pat))) (m : lmem) : option lmem :=
  match bs with
  | [] => Some m
  | (None, ps) :: _ => copyAll it ps m
  | (Some c, ps) :: r => if holdsAt c (N.of_nat k) then copyAll it ps m else ifAll it k r m
  end.
Definition lstep (it : option nat) (s : lstmt) (m : lmem) : option lmem :=
  match s with
  | SDirect p => Some (mkLM (m_result m) (m_compressed m) (PResult p) (m_key m))
  | SDirectAt p => match patAt p it with Some q => Some (mkLM (m_result m) (m_compressed m) (PResult q) (m_key m)) | None => None end
  | SCompressed => Some (mkLM (m_result m) (m_compressed m) PCompressed (m_key m))
  | SNoLoop k => match noLoop k with Some vs => writeTo (fun a p => writeAll V a p vs) m | None => None end
  | SAdd ls e =>
      match nth_error (m_compressed m) e with
      | Some v => match addLocs (m_result m) ls v with Some a => Some (mkLM a (m_compressed m) (m_place m) (m_key m)) | None => None end
      | None => None
      end
  | SClear n => match writeAll V (m_compressed m) 0 (repeat zero n) with Some c => Some (mkLM (m_result m) c (m_place m) (m_key m)) | None => None end
  | SKey p => match patAt p it with Some k => Some (mkLM (m_result m) (m_compressed m) (m_place m) (Some k)) | None => None end
  | SLoop f k =>
      match (match k with Some _ => k | None => m_key m end) with
      | Some k' => match loopFn f k' with Some l => writeTo (fun a p => addAll a p l) m | None => None end
      | None => None
      end
  | SCopies ps => copyAll it ps m
  | SIf bs => match m_key m with Some k => ifAll it k bs m | None => None end
  end.
Fixpoint lrun (it : option nat) (l : list lstmt) (m : lmem) : option lmem :=
  match l with [] => Some m | s :: r => match lstep it s m with Some m' => lrun it r m' | None => None end end.
(** for(it = 0; it < n; it++) *)
Fixpoint lruns (its : list (option nat)) (l : list lstmt) (m : lmem) : option lmem :=
  match its with [] => Some m | it :: r => match lrun it l m with Some m' => lruns r l m' | None => None end end.
Definition iterations (n : nat) : list (option nat) := if 1 <? n then map Some (seq 0 n) else [None].
Fixpoint lloops (ls : list (nat * list lstmt)) (m : lmem) : option lmem :=
  match ls with [] => Some m | (n, l) :: r => match lruns (iterations n) l m with Some m' => lloops r m' | None => None end end.
(** The generated function: [compressed] has any content (it is not initialised), 983-1008 *)
Definition runAssemble (p : lprogram) (garbage result : list V) : option (list V) :=
  match writeAll V result 0 (repeat zero (lp_nnz p)) with
  | None => None
  | Some r =>
      match lrun None (lp_noloop p) (mkLM r (firstn (lp_size p) garbage) PNowhere None) with
      | None => None
      | Some m => option_map m_result (lloops (lp_loops p) m)
      end
  end.
End Exec.

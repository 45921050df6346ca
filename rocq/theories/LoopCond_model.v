(** * Results of a generated loop which exist in some of its iterations only

    Models include/cppad/cg/model/patterns/model_c_source_gen_loops.hpp: findExistingIfElse (349-377),
    createIndexConditionExpression (390-452), both createConditionalContribution (454-559, 561-632), createLoopResult (647-723), and the two
    callers which group the iterations of a Hessian element: createHessianContribution (model_c_source_gen_loops_hess.hpp 989-1057, with
    addContribution 543-555) and createReverseMode2Contribution (model_c_source_gen_loops_rev2.hpp 1114-1193);
    and how the nodes are printed (lang/c/language_c.hpp 1999-2065: if, else if, else, end, results inside a branch).

    Simplifications:
    - a std::set or std::map is the list of its elements in ascending order of keys;
    - a node of an if/else is the record of the arguments which the code gives it; the text is produced from these arguments in the order in
      which they are visited (first argument first);
    - an iteration is an N, a size_t; the numbers of elements of sets are N too;
    - the option to print a result (printResult) is left out, and so are the places where the values are computed. *)
From Coq Require Import List Bool Arith NArith ZArith.
From Verif Require Import Graph_model Codegen_model CSyntax Index_model Range_model.
Import ListNotations.
Local Open Scope N_scope.

(** ** createIndexConditionExpression (390-452) *)

(** allIters[it] = b (395-401): a std::map<size_t, bool> *)
Fixpoint iput (k : N) (b : bool) (l : list (N * bool)) : list (N * bool) :=
  match l with
  | [] => [(k, b)]
  | (k', b') :: l' => if k <? k' then (k, b) :: l else if k =? k' then (k, b) :: l' else (k', b') :: iput k b l'
  end.
Definition allIters (iters used : list N) : list (N * bool) :=
  fold_left (fun m k => iput k true m) iters (fold_left (fun m k => iput k false m) used []).

(** 430-448: what one run of consecutive iterations adds; [new] is (minNew, maxNew), None while both are end() *)
Definition emit (maxIter mn mx : N) (new : option (N * N)) : list N :=
  match new with
  | None => []
  | Some (a, b) =>
      if b =? a then [a; b]
      else [if mn =? 0 then mn else a; if mx =? maxIter then SIZE_MAX else b]
  end.
(** 417-428: the next element continues the run; 407-415: it starts a new one *)
Definition seen (k : N) (b : bool) (new : option (N * N)) : option (N * N) :=
  if b then match new with None => Some (k, k) | Some (a, _) => Some (a, k) end else new.
Fixpoint runs (maxIter : N) (l : list (N * bool)) (mn mx : N) (new : option (N * N)) : list N :=
  match l with
  | [] => emit maxIter mn mx new
  | (k, b) :: l' =>
      if k =? wadd mx 1 then runs maxIter l' mn k (seen k b new)
      else emit maxIter mn mx new ++ runs maxIter l' k k (seen k b None)
  end.
Definition createIndexConditionExpression (iters used : list N) (maxIter : N) : list N :=
  match allIters iters used with
  | [] => []
  | (k, b) :: l => runs maxIter l k k (seen k b None)
  end.

(** ** If/else structures of a loop *)
Section Loop.
Variable V : Type.                                          (* values: CG<Base> *)

(** a LoopIndexedDep node: where the value goes (a pattern over the iterations) and whether it is added (1) or assigned (0) *)
Record asg : Type := mkAsg { a_val : V; a_pat : outcome ipat; a_add : N }.
Inductive header : Type := HIf (cond : list N) | HElseIf (cond : list N) | HElse.
(** a StartIf, ElseIf or Else node: key and iterations kept in firstIt2Branch; the CondResult nodes among its arguments *)
Record brn : Type := mkBrn { b_pos : N * N; b_iters : list N; b_hdr : header; b_pre : list asg }.
(** the branches in the order in which they were made, and the CondResult nodes among the arguments of the EndIf node *)
Record ifelse : Type := mkIf { e_brs : list brn; e_end : list asg }.

Definition size (l : list N) : N := N.of_nat (length l).

(** IndexPattern::detect of a map from iterations to locations *)
Definition detect (locs : list (N * N)) : outcome ipat :=
  detectMap (length locs) (map (fun p => (Z.of_N (fst p), Z.of_N (snd p))) locs).

(** a branch asked for: its value, where it goes in each of its iterations (IfBranchData) *)
Definition branches : Type := list (N * (V * list (N * N))).    (* by the number of additions *)

(** std::map<SizeN1stIt, pair<size_t, set<size_t>>> (464-469): ascending in (number of iterations, first iteration) *)
Definition key_ltb (p q : N * N) : bool := (fst p <? fst q) || ((fst p =? fst q) && (snd p <? snd q)).
Definition key_eqb (p q : N * N) : bool := (fst p =? fst q) && (snd p =? snd q).
Definition groups : Type := list ((N * N) * (N * list N)).
Fixpoint gput (k : N * N) (v : N * list N) (l : groups) : groups :=
  match l with
  | [] => [(k, v)]
  | (k', v') :: l' => if key_ltb k k' then (k, v) :: l else if key_eqb k k' then (k, v) :: l' else (k', v') :: gput k v l'
  end.
(** [Bad]: the first element of an empty set *)
Fixpoint groupsOf (bs : branches) (acc : groups) : outcome groups :=
  match bs with
  | [] => Done acc
  | (c, (_, locs)) :: bs' =>
      match map fst locs with
      | [] => Bad
      | i0 :: _ => groupsOf bs' (gput (size (map fst locs), i0) (c, map fst locs) acc)
      end
  end.

(** findExistingIfElse (349-377): the position of the first structure with the same number of branches and the same iterations in each *)
Fixpoint list_eqb (a b : list N) : bool :=
  match a, b with [], [] => true | x :: a', y :: b' => (x =? y) && list_eqb a' b' | _, _ => false end.
Fixpoint sameIters (gs : groups) (bs : list brn) : bool :=
  match gs, bs with
  | [], [] => true
  | (_, (_, its)) :: gs', b :: bs' => list_eqb its (b_iters b) && sameIters gs' bs'
  | _, _ => false
  end.
Fixpoint findExistingIfElse (es : list ifelse) (gs : groups) : option nat :=
  match es with
  | [] => None
  | e :: es' => if sameIters gs (e_brs e) then Some 0%nat else option_map S (findExistingIfElse es' gs)
  end.

Fixpoint bget (c : N) (bs : branches) : option (V * list (N * N)) :=
  match bs with [] => None | (c', b) :: bs' => if c =? c' then Some b else bget c bs' end.

Definition opt_list {A} (o : option A) : list A := match o with Some a => [a] | None => [] end.

(** usedIter.insert(iterations) (519): a std::set *)
Fixpoint sput (k : N) (l : list N) : list N :=
  match l with [] => [k] | k' :: l' => if k <? k' then k :: l else if k =? k' then l else k' :: sput k l' end.
Definition sputs (ks l : list N) : list N := fold_left (fun l k => sput k l) ks l.

(** the branches are new (503-550).  [prev]: ifBranch is not null; [next]: nextBranchArg.
    [Bad]: a null ifBranch is dereferenced (505, 555), a count without a branch (491) *)
Fixpoint newBranches (bs : branches) (maxIter nLocal : N) (gs : groups) (used : list N) (prev : bool) (next : option asg)
  : outcome (list brn * option asg) :=
  match gs with
  | [] => if prev then Done ([], next) else Bad
  | (pos, (c, its)) :: gs' =>
      match bget c bs with
      | None => Bad
      | Some (v, locs) =>
          let a := mkAsg v (detect locs) 1 in
          if size used + size its =? nLocal then
            if prev then
              obind (newBranches bs maxIter nLocal gs' used true (Some a)) (fun r =>
              Done (mkBrn pos its HElse (opt_list next) :: fst r, snd r))
            else Bad
          else
            let cond := createIndexConditionExpression its used maxIter in
            obind (newBranches bs maxIter nLocal gs' (sputs its used) true (Some a)) (fun r =>
            Done (mkBrn pos its (if prev then HElseIf cond else HIf cond) (opt_list next) :: fst r, snd r))
      end
  end.

(** firstIt2Branch.at(pos).node->getArguments().push_back(next) (499-501); [None]: no such branch *)
Fixpoint pushBrn (pos : N * N) (next : option asg) (l : list brn) : option (list brn) :=
  match l with
  | [] => None
  | b :: l' =>
      if key_eqb pos (b_pos b) then Some (mkBrn (b_pos b) (b_iters b) (b_hdr b) (b_pre b ++ opt_list next) :: l')
      else option_map (cons b) (pushBrn pos next l')
  end.
(** the branches are those of an existing structure (497-501) *)
Fixpoint oldBranches (bs : branches) (gs : groups) (l : list brn) (next : option asg) : outcome (list brn * option asg) :=
  match gs with
  | [] => Done (l, next)
  | (pos, (c, _)) :: gs' =>
      match bget c bs, pushBrn pos next l with
      | Some (v, locs), Some l' => oldBranches bs gs' l' (Some (mkAsg v (detect locs) 1))
      | _, _ => Bad
      end
  end.

Fixpoint update {A} (n : nat) (a : A) (l : list A) : list A :=
  match l, n with
  | [], _ => []
  | _ :: l', O => a :: l'
  | x :: l', S n' => x :: update n' a l'
  end.

(** createConditionalContribution (454-559); the result is the structures of the loop afterwards *)
Definition createConditionalContribution (bs : branches) (maxIter nLocal : N) (es : list ifelse) : outcome (list ifelse) :=
  obind (groupsOf bs []) (fun gs =>
  match findExistingIfElse es gs with
  | Some n =>
      match nth_error es n with
      | Some e =>
          obind (oldBranches bs gs (e_brs e) None) (fun r =>
          Done (update n (mkIf (fst r) (e_end e ++ opt_list (snd r))) es))
      | None => Bad
      end
  | None =>
      obind (newBranches bs maxIter nLocal gs [] false None) (fun r =>
      Done (es ++ [mkIf (fst r) (opt_list (snd r))]))
  end).

(** the part shared by createLoopResult (664-720) and the second createConditionalContribution (576-631): one branch.
    [Bad]: no iteration, or a structure with the same iterations has no branch with the same key *)
Definition oneBranch (its : list N) (maxIter : N) (a : asg) (es : list ifelse) : outcome (list ifelse) :=
  match its with
  | [] => Bad
  | i0 :: _ =>
      let pos := (size its, i0) in
      let gs := [(pos, (1, its))] in
      match findExistingIfElse es gs with
      | Some n =>
          match nth_error es n with
          | Some e =>
              if existsb (fun b => key_eqb pos (b_pos b)) (e_brs e)
              then Done (update n (mkIf (e_brs e) (e_end e ++ [a])) es) else Bad
          | None => Bad
          end
      | None => Done (es ++ [mkIf [mkBrn pos its (HIf (createIndexConditionExpression its [] maxIter)) []] [a]])
      end
  end.

(** ** Results asked for, and the state of a loop: its if/else structures and the results of all iterations (createLoopEnd,
    model_c_source_gen_loops.hpp 200-232) *)
Variable isZero : V -> bool.                                (* isIdenticalZero *)
Variable vadd vmul : V -> V -> V.                           (* operators of CG<Base> *)

Record loop : Type := mkLoop { ifElses : list ifelse; always : list asg }.

(** createLoopResult (647-723) *)
Definition createLoopResult (locs : list (N * N)) (iterCount : N) (v : V) (add : N) (s : loop) : outcome loop :=
  if size (map fst locs) =? iterCount then Done (mkLoop (ifElses s) (always s ++ [mkAsg v (detect locs) add]))
  else obind (oneBranch (map fst locs) (wsub iterCount 1) (mkAsg v (detect locs) add) (ifElses s)) (fun es => Done (mkLoop es (always s))).

(** the second createConditionalContribution (561-632): a constant location *)
Definition constantContribution (loc : N) (its : list N) (maxIter : N) (v : V) (s : loop) : outcome loop :=
  obind (oneBranch its maxIter (mkAsg v (Done (PLin (mkLin 0 0 1 (Z.of_N loc)))) 1) (ifElses s)) (fun es => Done (mkLoop es (always s))).

(** locations[c][iter] = location, for the iterations with c > 0 (rev2 1132-1140, hess 1002-1009); [positions] gives (count, location) *)
Fixpoint lput (k : N) (p : N * N) (l : list (N * list (N * N))) : list (N * list (N * N)) :=
  match l with
  | [] => [(k, [p])]
  | (k', ps) :: l' => if k <? k' then (k, [p]) :: l else if k =? k' then (k', ps ++ [p]) :: l' else (k', ps) :: lput k p l'
  end.
Fixpoint locationsOf (positions : list (N * N)) (its : list N) (acc : list (N * list (N * N))) : outcome (list (N * list (N * N))) :=
  match its with
  | [] => Done acc
  | i :: its' =>
      match nth_error positions (N.to_nat i) with
      | None => Bad                                         (* positions[iter] past the end *)
      | Some (c, loc) => locationsOf positions its' (if 0 <? c then lput c (i, loc) acc else acc)
      end
  end.
(** ddfdxdx + ddfdxdx + ... (rev2 1152-1154, hess 1018-1020) *)
Fixpoint timesN (n : nat) (v acc : V) : V := match n with O => acc | S n' => timesN n' v (vadd acc v) end.
Definition times (c : N) (v : V) : V := timesN (N.to_nat c - 1) v v.

(** one value in all iterations, or a conditional one (hess 1025-1054, rev2 1159-1191) *)
Definition grouped (locations : list (N * list (N * N))) (val : N -> V) (maxIter nLocal : N) (s : loop) : outcome loop :=
  match locations with
  | [(c, locs)] =>
      if size (map fst locs) =? nLocal then Done (mkLoop (ifElses s) (always s ++ [mkAsg (val c) (detect locs) 1]))
      else obind (createConditionalContribution [(c, (val c, locs))] maxIter nLocal (ifElses s)) (fun es => Done (mkLoop es (always s)))
  | _ => obind (createConditionalContribution (map (fun cl => (fst cl, (val (fst cl), snd cl))) locations) maxIter nLocal (ifElses s))
               (fun es => Done (mkLoop es (always s)))
  end.

(** createHessianContribution (hess 989-1057) *)
Definition createHessianContribution (positions : list (N * N)) (v : V) (s : loop) : outcome loop :=
  if isZero v then Done s else
  obind (locationsOf positions (map N.of_nat (seq 0 (length positions))) []) (fun ls =>
  grouped ls (fun c => times c v) (wsub (N.of_nat (length positions)) 1) (N.of_nat (length positions)) s).
(** createReverseMode2Contribution (rev2 1114-1193); [group]: the iterations of the group *)
Definition createReverseMode2Contribution (group : list N) (positions : list (N * N)) (v tx1 : V) (s : loop) : outcome loop :=
  if isZero v then Done s else
  obind (locationsOf positions group []) (fun ls =>
  match ls with
  | [] => Done s
  | _ => grouped ls (fun c => vmul (times c v) tx1) (wsub (N.of_nat (length positions)) 1) (size group) s
  end).

Inductive request : Type :=
 | RResult (locs : list (N * N)) (iterCount : N) (v : V) (add : N)
 | RBranches (bs : branches) (maxIter nLocal : N)
 | RConstant (loc : N) (its : list N) (maxIter : N) (v : V)
 | RHessian (positions : list (N * N)) (v : V)
 | RReverse2 (group : list N) (positions : list (N * N)) (v tx1 : V).
Definition request1 (r : request) (s : loop) : outcome loop :=
  match r with
  | RResult locs n v add => createLoopResult locs n v add s
  | RBranches bs mx nl => obind (createConditionalContribution bs mx nl (ifElses s)) (fun es => Done (mkLoop es (always s)))
  | RConstant loc its mx v => constantContribution loc its mx v s
  | RHessian ps v => createHessianContribution ps v s
  | RReverse2 g ps v t => createReverseMode2Contribution g ps v t s
  end.
Fixpoint requests (rs : list request) (s : loop) : outcome loop :=
  match rs with [] => Done s | r :: rs' => obind (request1 r s) (requests rs') end.

(** ** The text of a structure, and its execution
    The arguments of a node come before it: the results of a branch are printed before the header of the next branch, the last ones before
    the end of the structure (language_c.hpp 1999-2065). *)
Inductive item : Type := IHdr (h : header) | IAsg (a : asg).
Definition textOf (e : ifelse) : list item :=
  flat_map (fun b => map IAsg (b_pre b) ++ [IHdr (b_hdr b)]) (e_brs e) ++ map IAsg (e_end e).

End Loop.

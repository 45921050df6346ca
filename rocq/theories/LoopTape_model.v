(** * Equation patterns and the models of loops

    Models
    - include/cppad/cg/patterns/equation_pattern.hpp (EquationPattern)
    - include/cppad/cg/patterns/dependent_pattern_matcher.hpp 151-157, 185-201 (the independents and aliases), 786-836
      (findRelatedVariables), 697-784 (createNewTape)
    - include/cppad/cg/patterns/loop.hpp 296-375 (createLoopModel), 580-693 (the independents of a loop), 695-1030
      (createLoopTapeNModel and the clones)
    - include/cppad/cg/patterns/loop_model.hpp 123-222 (the arrays of indexes of LoopModel)

    A node is its position in the list of nodes of the handler, so arguments are before the operations which use them.  Maps
    are lists with the last assignment first.  Only one handler is used (the exception "Only one code handler allowed" is not
    modelled).  std::map<const OperationNode*, ...> is ordered by addresses: where an order can be seen it is the order of
    creation here. *)
From Coq Require Import List Arith Bool.
From Verif Require Import Compare_model.
Import ListNotations.
Local Open Scope nat_scope.

(** A result, an exception, a null pointer or an access outside of a vector, or (never, see the theorems) no end. *)
Inductive pout (A : Type) := POk (a : A) | PThrow | PUndef | PFuel.
Arguments POk {A}. Arguments PThrow {A}. Arguments PUndef {A}. Arguments PFuel {A}.
Definition pbind {A B} (o : pout A) (f : A -> pout B) : pout B :=
  match o with POk a => f a | PThrow => PThrow | PUndef => PUndef | PFuel => PFuel end.

(** CGOpCode: independents, aliases, ArrayCreation and the others. *)
Inductive opc := OInv | OAlias | OArray | OOp (k : nat).
Definition opc_eqb (a b : opc) : bool :=
  match a, b with
  | OInv, OInv | OAlias, OAlias | OArray, OArray => true
  | OOp i, OOp j => i =? j
  | _, _ => false
  end.
Fixpoint info_eqb (a b : list nat) : bool :=
  match a, b with
  | [], [] => true
  | x :: r, y :: s => (x =? y) && info_eqb r s
  | _, _ => false
  end.
Definition mem (x : nat) (l : list nat) : bool := existsb (Nat.eqb x) l.

Section LoopTape.
Context {V : Type}.
(** operator== of the base type *)
Variable eqV : V -> V -> bool.

(** Argument: a parameter or an operation. *)
Inductive arg := AC (v : V) | AN (k : nat).
Record node := mkN { n_op : opc; n_info : list nat; n_args : list arg }.
Definition graph := list node.

Definition isInv (g : graph) (k : nat) : bool :=
  match nth_error g k with Some n => match n_op n with OInv => true | _ => false end | None => false end.

(** The loops which skip aliases, equation_pattern.hpp 272-283, 389-400. *)
Fixpoint skipAlias (fuel : nat) (g : graph) (k : nat) : pout nat :=
  match fuel with
  | 0 => PFuel
  | S fuel =>
      match nth_error g k with
      | None => PUndef
      | Some n =>
          match n_op n with
          | OAlias => match n_args n with
                      | [AN j] => if isInv g j then POk k else skipAlias fuel g j
                      | [AC _] => PUndef                         (* the null pointer becomes the node *)
                      | _ => PThrow                              (* CPPADCG_ASSERT_KNOWN *)
                      end
          | _ => POk k
          end
      end
  end.

(** ** EquationPattern *)

(** op2Arguments[op].arg2Independents[a][d] = j as (op, a, d, j); an empty map is a position which is not in the list. *)
Definition indexes := list (nat * nat * nat * nat).
Definition idxAt (l : indexes) (op a d : nat) : option nat :=
  match find (fun e => let '(o, b, c, _) := e in (o =? op) && (b =? a) && (c =? d)) l with
  | Some (_, _, _, j) => Some j
  | None => None
  end.
Definition hasPos (l : indexes) (op a : nat) : bool :=
  existsb (fun e => let '(o, b, _, _) := e in (o =? op) && (b =? a)) l.

(** operationEO2Reference[dep][op] = reference as (dep, op, reference). *)
Definition references := list (nat * nat * nat).
Definition refAt (l : references) (d s : nat) : option nat :=
  match find (fun e => let '(a, b, _) := e in (a =? d) && (b =? s)) l with Some (_, _, r) => Some r | None => None end.

(** The variables which comparePath changes: varColor, cmpColor_, indexedOpIndep and operationEO2Reference. *)
Record cst := mkS { s_color : list nat; s_next : nat; s_idx : indexes; s_eo : references }.

Fixpoint setAt (l : list nat) (i x : nat) : list nat :=
  match l, i with
  | [], _ => []
  | _ :: r, 0 => x :: r
  | y :: r, S i => y :: setAt r i x
  end.

(** saveIndependent (341-369): None is false. *)
Definition saveIndependent (g : graph) (consts : list (nat * nat)) (dref d op a jr j : nat) (idx : indexes) : option indexes :=
  if negb (isInv g jr) || negb (isInv g j) then None
  else if existsb (fun e => (fst e =? op) && (snd e =? a)) consts then None
  else Some ((op, a, d, j) :: (if hasPos idx op a then idx else (op, a, dref, jr) :: idx)).

(** The loop over the arguments (331-359). *)
Fixpoint cmpArgs (rec : nat -> nat -> cst -> pout (bool * cst)) (g : graph) (consts : list (nat * nat)) (dref d op a : nat)
    (l1 l2 : list arg) (st : cst) : pout (bool * cst) :=
  match l1, l2 with
  | x1 :: t1, x2 :: t2 =>
      match x1, x2 with
      | AC v, AC w => if eqV v w then cmpArgs rec g consts dref d op (S a) t1 t2 st else POk (false, st)
      | AC _, AN _ | AN _, AC _ => POk (false, st)
      | AN r, AN s =>
          if isInv g r then
            match saveIndependent g consts dref d op a r s (s_idx st) with
            | None => POk (false, st)
            | Some idx => cmpArgs rec g consts dref d op (S a) t1 t2 (mkS (s_color st) (s_next st) idx (s_eo st))
            end
          else pbind (rec r s st) (fun bs => if fst bs then cmpArgs rec g consts dref d op (S a) t1 t2 (snd bs) else POk bs)
      end
  | _, _ => POk (true, st)
  end.

(** comparePath for nodes (262-363).  [single]: dependents.size() == 1. *)
Fixpoint cmp (fuel : nat) (g : graph) (consts : list (nat * nat)) (dref : nat) (single : bool) (d minColor : nat) (r0 s0 : nat)
    (st : cst) : pout (bool * cst) :=
  match fuel with
  | 0 => PFuel
  | S fuel' =>
      let eo := (d, s0, r0) :: s_eo st in
      let eo := if single then (dref, r0, r0) :: eo else eo in
      pbind (skipAlias fuel g r0) (fun r =>
      pbind (skipAlias fuel g s0) (fun s =>
      match nth_error (s_color st) r, nth_error (s_color st) s with
      | Some cr, Some cs =>
          if (minColor <=? cs) && (minColor <=? cr) && (cs =? cr) then POk (true, mkS (s_color st) (s_next st) (s_idx st) eo)
          else
            let st := mkS (setAt (setAt (s_color st) r (s_next st)) s (s_next st)) (S (s_next st)) (s_idx st) eo in
            match nth_error g r, nth_error g s with
            | Some nr, Some ns =>
                if negb (opc_eqb (n_op nr) (n_op ns)) then POk (false, st)
                else if negb (info_eqb (n_info nr) (n_info ns)) then POk (false, st)
                else if negb (List.length (n_args nr) =? List.length (n_args ns)) then POk (false, st)
                else cmpArgs (cmp fuel' g consts dref single d minColor) g consts dref d r 0 (n_args nr) (n_args ns) st
            | _, _ => PUndef
            end
      | _, _ => PUndef
      end))
  end.

Record pattern := mkP { p_ref : nat; p_deps : list nat; p_idx : indexes; p_const : list (nat * nat); p_eo : references }.
(** The constructor (86-93) *)
Definition newPattern (d : nat) : pattern := mkP d [d] [] [] [].

(** The values of the dependents; testAdd (100-130) with comparePath for CG (237-260): minColor is the counter [next] before;
    on failure the members are restored, but not the colours.  Dependents are tested in increasing order, so the set is
    extended at its end. *)
Definition testAdd (g : graph) (deps : list arg) (p : pattern) (d : nat) (next : nat) (color : list nat)
    : pout (bool * pattern * nat * list nat) :=
  match nth_error deps (p_ref p), nth_error deps d with
  | Some (AC v), Some (AC w) =>
      POk (if eqV v w then (true, mkP (p_ref p) (p_deps p ++ [d]) (p_idx p) (p_const p) (p_eo p), next, color)
           else (false, p, next, color))
  | Some (AN r), Some (AN s) =>
      pbind (cmp (S (List.length g)) g (p_const p) (p_ref p) (List.length (p_deps p) =? 1) d next r s
               (mkS color next (p_idx p) (p_eo p))) (fun bs =>
      let st := snd bs in
      POk (if fst bs then (true, mkP (p_ref p) (p_deps p ++ [d]) (s_idx st) (p_const p) (s_eo st), s_next st, s_color st)
           else (false, p, s_next st, s_color st)))
  | Some _, Some _ => POk (false, p, next, color)
  | _, _ => PUndef
  end.

(** ** findRelatedVariables, dependent_pattern_matcher.hpp 786-836 *)

(** The inner loop (816-826). *)
Fixpoint testAll (g : graph) (deps : list arg) (p : pattern) (cs used : list nat) (next : nat) (color : list nat)
    : pout (pattern * list nat * nat * list nat) :=
  match cs with
  | [] => POk (p, used, next, color)
  | d :: r =>
      if mem d used then testAll g deps p r used next color
      else pbind (testAdd g deps p d next color) (fun o => let '(b, p, next, color) := o in
           testAll g deps p r (if b then d :: used else used) next color)
  end.

(** One set of candidates (800-834), in increasing order.  A new pattern is always made: eqCurr_ is only kept when something
    was found, and then used is not empty. *)
Fixpoint related (g : graph) (deps : list arg) (cs used : list nat) (next : nat) (color : list nat)
    : pout (list pattern * nat * list nat) :=
  match cs with
  | [] => POk ([], next, color)
  | d :: r =>
      if mem d used then related g deps r used next color
      else pbind (testAll g deps (newPattern d) r used next color) (fun o => let '(p, used, next, color) := o in
           pbind (related g deps r used next color) (fun o => let '(ps, next, color) := o in
           POk (if List.length (p_deps p) =? 1 then ps else p :: ps, next, color)))
  end.

Fixpoint relatedAll (g : graph) (deps : list arg) (css : list (list nat)) (next : nat) (color : list nat) : pout (list pattern) :=
  match css with
  | [] => POk []
  | cs :: r => pbind (related g deps cs [] next color) (fun o => let '(ps, next, color) := o in
               pbind (relatedAll g deps r next color) (fun qs => POk (ps ++ qs)))
  end.

(** detectNonIndexedIndependents, equation_pattern.hpp 172-226: positions where all the dependents use the same independent. *)
Definition constPos (idx : indexes) (op a : nat) : bool :=
  forallb (fun e => let '(o, b, d, _) := e in
    negb ((o =? op) && (b =? a)) ||
    forallb (fun e' => let '(o', b', d', _) := e' in
      negb ((o' =? op) && (b' =? a)) ||
      match idxAt idx op a d, idxAt idx op a d' with Some j, Some j' => j =? j' | _, _ => false end) idx) idx.
Definition detect (p : pattern) : pattern :=
  mkP (p_ref p) (p_deps p) (filter (fun e => let '(o, b, _, _) := e in negb (constPos (p_idx p) o b)) (p_idx p))
      (map (fun e => let '(o, b, _, _) := e in (o, b)) (filter (fun e => let '(o, b, _, _) := e in constPos (p_idx p) o b) (p_idx p))
       ++ p_const p) (p_eo p).

(** The dependents which are independents get an alias (185-201): the nodes after the aliases are made, and the dependents. *)
Fixpoint aliases (g : graph) (deps : list arg) (cs : list nat) : graph * list arg :=
  match cs with
  | [] => (g, deps)
  | d :: r =>
      match nth_error deps d with
      | Some (AN k) => if isInv g k then aliases (g ++ [mkN OAlias [] [AN k]]) (firstn d deps ++ AN (List.length g) :: skipn (S d) deps) r
                       else aliases g deps r
      | _ => aliases g deps r
      end
  end.

(** findLoops up to the patterns (180-212) and detectNonIndexedIndependents (829-836): colours start with 1. *)
Definition findPatterns (g : graph) (deps : list arg) (css : list (list nat)) : pout (graph * list arg * list pattern) :=
  let '(g, deps) := aliases g deps (concat css) in
  pbind (relatedAll g deps css 1 (repeat 0 (List.length g))) (fun ps => POk (g, deps, map detect ps)).

(** ** Loop::createLoopModel, loop.hpp 296-375, for loops with one group of equations *)

(** findIndexedPath, equation_pattern.hpp 385-446: varIndexed as (node, flag) and indexedOperations. *)
Definition marks := list (nat * bool).
Definition marked (m : marks) (k : nat) : bool := match find (fun e => fst e =? k) m with Some e => snd e | None => false end.
Fixpoint pathArgs (rec : nat -> nat -> marks * list nat -> pout (bool * (marks * list nat))) (g : graph) (idx : indexes) (op a : nat)
    (l1 l2 : list arg) (flag uses : bool) (st : marks * list nat) : pout (bool * bool * (marks * list nat)) :=
  match l1 with
  | [] => POk (flag, uses, st)
  | AC _ :: t1 => pathArgs rec g idx op (S a) t1 (tl l2) flag uses st
  | AN r :: t1 =>
      if isInv g r && hasPos idx op a then pathArgs rec g idx op (S a) t1 (tl l2) true true st
      else match l2 with
           | AN s :: t2 => pbind (rec r s st) (fun bs => pathArgs rec g idx op (S a) t1 t2 (flag || fst bs) uses (snd bs))
           | _ => PUndef
           end
  end.
Fixpoint indexedPath (fuel : nat) (g : graph) (idx : indexes) (r0 s0 : nat) (st : marks * list nat) : pout (bool * (marks * list nat)) :=
  match fuel with
  | 0 => PFuel
  | S fuel' =>
      pbind (skipAlias fuel g r0) (fun r =>
      pbind (skipAlias fuel g s0) (fun s =>
      match nth_error g r, nth_error g s with
      | Some nr, Some ns =>
          pbind (pathArgs (indexedPath fuel' g idx) g idx r 0 (n_args nr) (n_args ns) false false st) (fun o =>
          let '(flag, uses, st) := o in
          POk (flag, ((s, flag) :: fst st, if uses : bool then s :: snd st else snd st)))
      | _, _ => PUndef
      end))
  end.

(** dep2Iteration_ (302-309): the last iteration with the dependent. *)
Definition iterOf (iters : list (list nat)) (d : nat) : option nat :=
  find (fun it => mem d (nth it iters [])) (rev (seq 0 (List.length iters))).

(** addOperationArguments2Loop (583-604) for the arguments of [r]: the indexes of the loop are by iteration. *)
Fixpoint addOperation (iters : list (list nat)) (op r : nat) (idx : indexes) (l : indexes) : pout indexes :=
  match idx with
  | [] => POk l
  | (o, a, d, j) :: rest =>
      pbind (addOperation iters op r rest l) (fun l =>
      if o =? r then match iterOf iters d with Some it => POk ((op, a, it, j) :: l) | None => PThrow end else POk l)
  end.
(** all the operations of the pattern (339-346) *)
Fixpoint addAll (iters : list (list nat)) (idx : indexes) (l : indexes) : pout indexes :=
  match idx with
  | [] => POk l
  | (o, a, d, j) :: rest =>
      pbind (addAll iters rest l) (fun l =>
      match iterOf iters d with Some it => POk ((o, a, it, j) :: l) | None => PThrow end)
  end.
(** the operations of another dependent (348-359) *)
Fixpoint addOps (iters : list (list nat)) (p : pattern) (dep : nat) (ops : list nat) (l : indexes) : pout indexes :=
  match ops with
  | [] => POk l
  | op :: rest =>
      match refAt (p_eo p) dep op with
      | None => PThrow
      | Some r => if existsb (fun e => let '(o, _, _, _) := e in o =? r) (p_idx p)
                  then pbind (addOperation iters op r (p_idx p) l) (addOps iters p dep rest) else PThrow
      end
  end.

Definition patternOf (ps : list pattern) (d : nat) : option nat :=
  find (fun e => match nth_error ps e with Some p => mem d (p_deps p) | None => false end) (seq 0 (List.length ps)).

(** The dependents of the reference iteration (319-364). *)
Fixpoint collect (g : graph) (deps : list arg) (ps : list pattern) (iters : list (list nat)) (refs : list nat) (m : marks) (l : indexes)
    : pout (marks * indexes) :=
  match refs with
  | [] => POk (m, l)
  | dep :: rest =>
      match patternOf ps dep with
      | None => PThrow
      | Some e =>
          match nth_error ps e with
          | None => PUndef
          | Some p =>
              pbind (match nth_error deps (p_ref p), nth_error deps dep with
                     | Some (AN r), Some (AN s) =>
                         pbind (indexedPath (S (List.length g)) g (p_idx p) r s (m, [])) (fun o => POk (snd o))
                     | Some _, Some _ => POk (m, [])
                     | _, _ => PUndef
                     end) (fun o =>
              pbind (if dep =? p_ref p then addAll iters (p_idx p) l else addOps iters p dep (snd o) l) (fun l =>
              collect g deps ps iters rest (fst o) l))
          end
      end
  end.

(** IndependentOrder: the independent of each iteration (624-639); orders which are equal are one object (641-668), so the
    clone of an order is found by its contents. *)
Definition order := list (option nat).
Definition orderOf (l : indexes) (count op a : nat) : order := map (fun it => idxAt l op a it) (seq 0 count).
Fixpoint order_eqb (a b : order) : bool :=
  match a, b with
  | [], [] => true
  | Some x :: r, Some y :: s => (x =? y) && order_eqb r s
  | None :: r, None :: s => order_eqb r s
  | _, _ => false
  end.

(** handler_ and the maps of the clones.  An independent of handler_ has as info its position among the independents of handler_
    (nIndependents_), which is what the Evaluator uses. *)
Record clones := mkC {
  c_g : graph; c_n : nat;
  c_id : list (nat * nat);                  (* original node, clone *)
  c_idx : list (order * nat * nat);         (* order, clone, position *)
  c_non : list (nat * nat * nat);           (* original independent, clone, position *)
  c_tmp : list (nat * nat)                  (* original node of a temporary, position *)
}.
Definition newIndep (c : clones) : graph := c_g c ++ [mkN OInv [c_n c] []].

(** createIndependentClone, getIndexedIndependentClone, getNonIndexedIndependentClone (942-1006) *)
Definition cloneIndexed (l : indexes) (count op a : nat) (c : clones) : nat * clones :=
  let o := orderOf l count op a in
  match find (fun e => order_eqb (fst (fst e)) o) (c_idx c) with
  | Some (_, k, _) => (k, c)
  | None => (List.length (c_g c),
             mkC (newIndep c) (S (c_n c)) (c_id c) ((o, List.length (c_g c), c_n c) :: c_idx c) (c_non c) (c_tmp c))
  end.
Definition cloneNonIndexed (j : nat) (c : clones) : nat * clones :=
  match find (fun e => fst (fst e) =? j) (c_non c) with
  | Some (_, k, _) => (k, c)
  | None => (List.length (c_g c),
             mkC (newIndep c) (S (c_n c)) (c_id c) (c_idx c) ((j, List.length (c_g c), c_n c) :: c_non c) (c_tmp c))
  end.
Definition cloneIndep (l : indexes) (count op a j : nat) (c : clones) : nat * clones :=
  if hasPos l op a then cloneIndexed l count op a c else cloneNonIndexed j c.

(** makeTemporaryVarClone (1014-1032) *)
Definition cloneTemp (k : nat) (c : clones) : nat * clones :=
  (List.length (c_g c),
   mkC (newIndep c) (S (c_n c)) ((k, List.length (c_g c)) :: c_id c) (c_idx c) (c_non c) ((k, c_n c) :: c_tmp c)).

(** makeGraphClones (886-940) *)
Fixpoint cloneArgs (rec : nat -> clones -> pout (nat * clones)) (g : graph) (l : indexes) (count op a : nat) (args : list arg) (c : clones)
    : pout (list arg * clones) :=
  match args with
  | [] => POk ([], c)
  | AC v :: r => pbind (cloneArgs rec g l count op (S a) r c) (fun o => POk (AC v :: fst o, snd o))
  | AN j :: r =>
      pbind (if isInv g j then POk (cloneIndep l count op a j c) else rec j c) (fun o =>
      pbind (cloneArgs rec g l count op (S a) r (snd o)) (fun o' => POk (AN (fst o) :: fst o', snd o')))
  end.
Fixpoint clone (fuel : nat) (g : graph) (m : marks) (l : indexes) (count k : nat) (c : clones) : pout (nat * clones) :=
  match fuel with
  | 0 => PFuel
  | S fuel =>
      match find (fun e => fst e =? k) (c_id c) with
      | Some e => POk (snd e, c)
      | None =>
          match nth_error g k with
          | None => PUndef
          | Some n =>
              if marked m k || opc_eqb (n_op n) OArray then
                pbind (cloneArgs (clone fuel g m l count) g l count k 0 (n_args n) c) (fun o =>
                let c := snd o in
                POk (List.length (c_g c),
                     mkC (c_g c ++ [mkN (n_op n) (n_info n) (fst o)]) (c_n c) ((k, List.length (c_g c)) :: c_id c)
                         (c_idx c) (c_non c) (c_tmp c)))
              else POk (cloneTemp k c)
          end
      end
  end.

(** The dependents of the tape (724-749): (equation, clone). *)
Fixpoint cloneDeps (g : graph) (deps : list arg) (ps : list pattern) (m : marks) (l : indexes) (count : nat) (refs : list nat)
    (out : list (nat * arg)) (c : clones) : pout (list (nat * arg) * clones) :=
  match refs with
  | [] => POk (out, c)
  | dep :: rest =>
      match patternOf ps dep with
      | None => PThrow
      | Some e =>
          match nth_error deps dep with
          | None => PUndef
          | Some (AC v) => cloneDeps g deps ps m l count rest ((e, AC v) :: out) c
          | Some (AN k) =>
              pbind (if isInv g k then POk (cloneNonIndexed k c) else clone (S (List.length g)) g m l count k c) (fun o =>
              cloneDeps g deps ps m l count rest ((e, AN (fst o)) :: out) (snd o))
          end
      end
  end.

(** std::sort and the order of std::map: insertion sort. *)
Fixpoint insertBy {A} (lt : A -> A -> bool) (x : A) (l : list A) : list A :=
  match l with
  | [] => [x]
  | y :: r => if lt y x then y :: insertBy lt x r else x :: l
  end.
Definition sortBy {A} (lt : A -> A -> bool) (l : list A) : list A := fold_right (insertBy lt) [] l.

(** getInfo()[0] of an independent: its position among the independents of the model (151-157). *)
Definition indexOf (g : graph) (j : nat) : nat := match nth_error g j with Some n => hd 0 (n_info n) | None => 0 end.
Definition indexesOf (g : graph) (o : order) : list (option nat) := map (option_map (indexOf g)) o.

(** The numbers k of the temporaries (855-873): [temps] are the nodes with a number, in the order of the numbers. *)
Fixpoint positionOf (x : nat) (l : list nat) : nat := match l with [] => 0 | y :: r => if y =? x then 0 else S (positionOf x r) end.
Fixpoint numberTemps (ks : list nat) (temps : list nat) : list nat * list nat :=
  match ks with
  | [] => ([], temps)
  | k :: r => let temps := if mem k temps then temps else temps ++ [k] in
              let o := numberTemps r temps in (positionOf k temps :: fst o, snd o)
  end.

(** LoopModel: the tape (clones and dependents; [lm_local]: for each independent of the tape its position in handler_), the
    original indexes of the indexed, non-indexed and temporary independents, and of the dependents. *)
Record loopModel := mkLM {
  lm_g : graph; lm_deps : list (nat * arg); lm_local : list nat;
  lm_indexed : list (list (option nat)); lm_non : list nat; lm_tmp : list nat;
  lm_dep : list (list (option nat))
}.

(** dependentOrigIndexes (829-837): the last dependent of the equation in the iteration *)
Definition depIndexes (ps : list pattern) (iters : list (list nat)) : list (list (option nat)) :=
  map (fun e => map (fun it => find (fun d => match patternOf ps d with Some e' => e' =? e | None => false end) (rev (nth it iters [])))
                    (seq 0 (List.length iters))) (seq 0 (List.length ps)).

(** findReferenceIteration, equation_group.hpp 57-68: undefined (an assertion) if there is none. *)
Definition refIteration (ps : list pattern) (iters : list (list nat)) : option (list nat) :=
  find (fun s => List.length s =? List.length ps) iters.

(** createLoopModel and createLoopTapeNModel.  [iters]: iterationDependents_, from generateDependentLoopIndexes (C51);
    [temps]: origTemp2Index before. *)
Definition createLoop (g : graph) (deps : list arg) (ps : list pattern) (iters : list (list nat)) (temps : list nat)
    : pout (loopModel * list nat) :=
  match refIteration ps iters with
  | None => PUndef
  | Some refs =>
      let count := List.length iters in
      pbind (collect g deps ps iters refs [] []) (fun o =>
      let '(m, l) := o in
      pbind (cloneDeps g deps ps m l count refs [] (mkC [] 0 [] [] [] [])) (fun o =>
      let '(out, c) := o in
      let is := sortBy (fun a b => indexedIndepLt (indexesOf g (fst (fst a))) (indexesOf g (fst (fst b)))) (c_idx c) in
      let ns := sortBy (fun a b => indexOf g (fst (fst a)) <? indexOf g (fst (fst b))) (c_non c) in
      let o := numberTemps (map fst (c_tmp c)) temps in
      POk (mkLM (c_g c) out (map snd is ++ map snd ns ++ map snd (c_tmp c))
                (map (fun e => indexesOf g (fst (fst e))) is) (map (fun e => indexOf g (fst (fst e))) ns) (fst o)
                (depIndexes ps iters), snd o)))
  end.

(** ** Values *)

(** A result for each node from its position, the node and the results of the nodes before it. *)
Definition foldG {A} (f : nat -> node -> list A -> A) (g : graph) : list A :=
  fold_left (fun vs n => vs ++ [f (List.length vs) n vs]) g [].

Variable sem : opc -> list nat -> list V -> V.   (* the operations *)
Variable dflt : V.                                (* a value for what is never read *)
Definition argVal (vs : list V) (a : arg) : V := match a with AC v => v | AN k => nth k vs dflt end.
Definition nodeVal (x : nat -> V) (_ : nat) (n : node) (vs : list V) : V :=
  match n_op n with OInv => x (hd 0 (n_info n)) | o => sem o (n_info n) (map (argVal vs) (n_args n)) end.
(** The values of the nodes for the independents [x] (what the Evaluator replays, C25). *)
Definition values (g : graph) (x : nat -> V) : list V := foldG (nodeVal x) g.
Definition valueOf (g : graph) (x : nat -> V) (a : arg) : V := argVal (values g x) a.

(** An iteration of the loop: [x] the independents of the model and [z] the temporaries by number. *)
Definition loopInputs (lm : loopModel) (x z : nat -> V) (it : nat) : list V :=
  map (fun o => match nth it o None with Some j => x j | None => dflt end) (lm_indexed lm) ++ map x (lm_non lm) ++ map z (lm_tmp lm).
Definition localEnv (lm : loopModel) (ins : list V) (l : nat) : V :=
  match find (fun e => fst e =? l) (combine (lm_local lm) ins) with Some e => snd e | None => dflt end.
(** equation [e] of the tape in iteration [it]; CG() is used for equations which were not set *)
Definition loopValue (lm : loopModel) (x z : nat -> V) (it e : nat) : V :=
  match find (fun o => fst o =? e) (lm_deps lm) with
  | Some o => valueOf (lm_g lm) (localEnv lm (loopInputs lm x z it)) (snd o)
  | None => dflt
  end.
End LoopTape.
Arguments arg : clear implicits.
Arguments node : clear implicits.
Arguments graph : clear implicits.
Arguments loopModel : clear implicits.
Arguments clones : clear implicits.

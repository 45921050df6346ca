(** * Sparsity patterns reported by a model and the layouts of its sparse results

    Models
    - include/cppad/cg/model/model_c_source_gen_jac.hpp 459-479 (determineJacobianSparsity)
    - include/cppad/cg/model/model_c_source_gen_hes.hpp 546-660 (determineHessianSparsity)
    - include/cppad/cg/model/model_c_source_gen_impl.hpp 255-311 (colorByRow), 388-495 (the functions which report patterns)
    - include/cppad/cg/model/functor_generic_model.hpp 160-332, 370-441, 642-885, 1004-1044 (FunctorGenericModel)
    - include/cppad/cg/model/generic_model.hpp 384-395 (Hessian for one equation)

    Sets, vectors and the outcomes of calls are those of Sparsity_model.v; here [XAssert] is the exception of
    CPPADCG_ASSERT_KNOWN (always compiled in, cppad/cg/debug.hpp) and [XRange] an access outside of a vector or array, or the
    exception of std::map::at. *)
From Coq Require Import List Arith Bool.
From Verif Require Import Pool_model Sparsity_model.
Import ListNotations.
Local Open Scope nat_scope.

(** ** The functions of CppAD *)

(** What CppAD knows of a recorded function: Domain, Range, the columns of row i of the Jacobian and, for equation i, the
    columns of row j of its Hessian.  Trusted: CppAD's propagation of patterns is linear in the selected rows, so the two
    functions below give unions of these sets. *)
Record recorded := mkRec { rN : nat; rM : nat; rJac : nat -> set; rHes : nat -> nat -> set }.

(** ADFun::ForSparseJac(n, r): the pattern of F' R. *)
Definition forSparseJac (f : recorded) (r : pat) : pat :=
  map (fun i => sinsAll (flat_map (fun k => nth k r []) (rJac f i)) []) (seq 0 (rM f)).

(** ADFun::RevSparseHes(n, s, false) after ForSparseJac(n, r), s with one row: the pattern of R^T (sum over s of F_i)''. *)
Definition revSparseHes (f : recorded) (r : pat) (s : set) : pat :=
  map (fun j => sinsAll (flat_map (fun k => if sfind j (nth k r []) then flat_map (fun i => rHes f i k) s else [])
                                  (seq 0 (rN f))) []) (seq 0 (rN f)).

(** r(n); for (j : js) r[j].insert(j). *)
Definition diagonal (n : nat) (js : list nat) : xout pat :=
  foreach js (fun j r => insertAt r j j) (repeat [] n).

(** ** colorByRow, model_c_source_gen_impl.hpp 255-311 *)

(** class Color, model_c_source_gen.hpp 126-136 (row2Columns is never read).  column2Row: the last assignment first. *)
Record color := mkColor { cRows : set; cColumn2Row : list (nat * nat); cForbidden : set }.

(** intersects, util.hpp 414-438, with its tests of the first and last elements. *)
Definition intersects (a b : set) : bool :=
  match a, b with
  | [], _ | _, [] => false
  | a0 :: _, b0 :: _ =>
      if (last a 0 <? b0) || (last b 0 <? a0) then false
      else if List.length a <? List.length b then existsb (fun x => sfind x b) a else existsb (fun x => sfind x a) b
  end.

(** column2Row[j] = i for the columns of a row (303-306). *)
Definition assignAll (i : nat) (row : set) (m : list (nat * nat)) : list (nat * nat) :=
  fold_left (fun m j => (j, i) :: m) row m.

(** std::map::at *)
Definition at_ (m : list (nat * nat)) (j : nat) : xout nat :=
  match find (fun e => fst e =? j) m with Some e => XOk (snd e) | None => XRange end.

(** The search for a colour and the insertion (282-306).  The vector of colours is the list of those in use (c_used of them;
    the vector has one element per row, so a new one always fits). *)
Fixpoint place (i : nat) (row : set) (cs : list color) : list color :=
  match cs with
  | [] => [mkColor [i] (assignAll i row []) row]
  | c :: r =>
      if intersects (cForbidden c) row then c :: place i row r
      else mkColor (sins i (cRows c)) (assignAll i row (cColumn2Row c)) (sinsAll row (cForbidden c)) :: r
  end.

(** colorByRow; [columns]: Some when there are custom Hessian elements (273-280). *)
Definition colorByRow (columns : option set) (sparsity : pat) : list color :=
  fold_left (fun cs i =>
     let row := nth i sparsity [] in
     match row with
     | [] => cs
     | _ => place i (match columns with Some js => filter (fun j => sfind j js) row | None => row end) cs
     end) (seq 0 (List.length sparsity)) [].

(** ** determineJacobianSparsity and determineHessianSparsity *)

(** LocalSparsityInfo, model_c_source_gen.hpp 110-121 *)
Record info := mkInfo { iSparsity : pat; iRows : list nat; iCols : list nat }.
Definition noInfo : info := mkInfo [] [] [].

(** The elements asked for: all, or a list of rows and one of columns (Position, setCustomSparseJacobianElements). *)
Definition request := option (list nat * list nat).

(** model_c_source_gen_jac.hpp 459-479.  [old]: the value of _jacSparsity.  jacobianSparsitySet gives the pattern. *)
Definition determineJacobian (f : recorded) (custom : request) (old : info) : xout info :=
  match iSparsity old with
  | _ :: _ => XOk old
  | [] =>
      let sp := map (fun i => rJac f i) (seq 0 (rM f)) in
      match custom with
      | None => xbind (generateIndexesSet sp (iRows old) (iCols old)) (fun rc => XOk (mkInfo sp (fst rc) (snd rc)))
      | Some (rows, cols) => XOk (mkInfo sp rows cols)
      end
  end.

(** One colour (600-627): the rows of the combined Hessian are given to the equation which uses the variable. *)
Definition retrieve (f : recorded) (c : color) (hs : list pat) : xout (list pat) :=
  xbind (diagonal (rN f) (cForbidden c)) (fun r =>
  let sparsityc := revSparseHes f r (cRows c) in
  foreach (cForbidden c) (fun j hs =>
    xbind (rowAt sparsityc j) (fun s : set =>
    match s with
    | [] => XOk hs
    | _ => xbind (at_ (cColumn2Row c) j) (fun i =>
           xbind (rowAt hs i) (fun p : pat =>
           xbind (rowAt p j) (fun old : set => XOk (setNth hs i (setNth p j (sinsAll s old))))))
    end)) hs).

Fixpoint retrieveAll (f : recorded) (cs : list color) (hs : list pat) : xout (list pat) :=
  match cs with
  | [] => XOk hs
  | c :: r => xbind (retrieve f c hs) (retrieveAll f r)
  end.

(** The lists for one equation (630-648); the vectors rows and cols are empty before. *)
Definition listsOf (custom : request) (p : pat) : xout info :=
  match custom with
  | None => xbind (generateIndexesSet p [] []) (fun rc => XOk (mkInfo p (fst rc) (snd rc)))
  | Some (rows, cols) =>
      xbind (foreach (seq 0 (List.length rows)) (fun e st =>
        xbind (rowAt rows e) (fun i1 => xbind (rowAt cols e) (fun i2 =>
        xbind (rowAt p i1) (fun s : set =>
        if sfind i2 s then XOk (fst st ++ [i1], snd st ++ [i2]) else XOk st)))) ([], []))
      (fun rc => XOk (mkInfo p (fst rc) (snd rc)))
  end.

Fixpoint listsAll (custom : request) (ps : list pat) : xout (list info) :=
  match ps with
  | [] => XOk []
  | p :: r => xbind (listsOf custom p) (fun i => xbind (listsAll custom r) (fun l => XOk (i :: l)))
  end.

(** The patterns of the equations (568-650); [jac]: the pattern of the Jacobian, replaced when elements were requested. *)
Definition equationLists (f : recorded) (custom : request) (jac : pat) : xout (list info) :=
  xbind (match custom with
         | Some (rows, cols) =>
             let vars := sinsAll cols (sinsAll rows []) in
             xbind (diagonal (rN f) vars) (fun r => XOk (Some vars, forSparseJac f r))
         | None => XOk (None, jac)
         end) (fun vj =>
  xbind (retrieveAll f (colorByRow (fst vj) (snd vj)) (repeat (repeat [] (rN f)) (rM f))) (listsAll custom)).

(** determineHessianSparsity (546-660).  [byEq]: _hessianByEquation || _reverseTwo; [old]: the previous values of
    _hessSparsity and _hessSparsities. *)
Definition determineHessian (f : recorded) (custom : request) (byEq : bool) (old : info * list info) : xout (info * list info) :=
  match iSparsity (fst old) with
  | _ :: _ => XOk old
  | [] =>
      xbind (diagonal (rN f) (seq 0 (rN f))) (fun r =>
      let jac := forSparseJac f r in
      let sp := revSparseHes f r (seq 0 (rM f)) in
      xbind (if byEq then equationLists f custom jac else XOk (snd old)) (fun eqs =>
      match custom with
      | None => xbind (generateIndexesSet sp (iRows (fst old)) (iCols (fst old))) (fun rc => XOk (mkInfo sp (fst rc) (snd rc), eqs))
      | Some (rows, cols) => XOk (mkInfo sp rows cols, eqs)
      end))
  end.

(** ** The generated functions which report patterns *)

(** generateSparsity2DSource, model_c_source_gen_impl.hpp 388-412: the arrays rows and cols and their length. *)
Definition report := (list nat * list nat * nat)%type.
Definition sparsity2D (s : info) : report := (iRows s, iCols s, List.length (iRows s)).

(** generateSparsity2DSource2 (414-495): maxNnzIndex after the loop and the increment *)
Definition maxNnz (l : list info) : nat :=
  fold_left (fun a i => match iRows (nth i l noInfo) with [] => a | _ => S i end) (seq 0 (List.length l)) 0.
(** the arrays of arrays: 0 or the name rows<i>; only arrays which are not empty are declared (436-448, 454-468) *)
Definition pointers (l : list info) : list (option nat) :=
  map (fun i => match iRows (nth i l noInfo) with [] => None | _ => Some i end) (seq 0 (maxNnz l)).
Definition nnzs (l : list info) : list nat := firstn (maxNnz l) (map (fun s => List.length (iRows s)) l).
(** a call: a null pointer is an empty array *)
Definition sparsity2D2 (l : list info) (i : nat) : xout report :=
  if 0 <? maxNnz l then
    if i <? maxNnz l then
      xbind (rowAt (pointers l) i) (fun p => xbind (rowAt (nnzs l) i) (fun nnz =>
      match p with
      | None => XOk ([], [], nnz)
      | Some k => xbind (rowAt l k) (fun s => XOk (iRows s, iCols s, nnz))
      end))
    else XOk ([], [], 0)
  else XOk ([], [], 0).

(** ** Loading the patterns, functor_generic_model.hpp *)

(** std::copy(row, row + nnz, rows.begin()) after rows.resize(nnz) (200-214, 249-264, 308-323) *)
Definition loadLists (r : report) : xout (list nat * list nat) :=
  let '(row, col, nnz) := r in
  if (List.length row <? nnz) || (List.length col <? nnz) then XRange else XOk (firstn nnz row, firstn nnz col).

(** loadSparsity for std::vector<bool> (1004-1015) *)
Definition loadBool (nrows ncols : nat) (r : report) : xout (list bool) :=
  let '(row, col, nnz) := r in
  foreach (seq 0 nnz) (fun e s =>
    xbind (rowAt row e) (fun i => xbind (rowAt col e) (fun j =>
    xbind (rowAt s (i * ncols + j)) (fun _ => XOk (setNth s (i * ncols + j) true))))) (repeat false (nrows * ncols)).

(** loadSparsity for vectors of sets (1017-1031) *)
Definition loadSet (nrows : nat) (r : report) : xout pat :=
  let '(row, col, nnz) := r in
  foreach (seq 0 nnz) (fun e s =>
    xbind (rowAt row e) (fun i => xbind (rowAt col e) (fun j => insertAt s i j))) (repeat [] nrows).

(** ** The evaluation methods *)

Section Eval.
Context {V : Type}.
Variable zero one : V.

(** createDenseFromSparse (1033-1044); [size]: mat.size() *)
Definition createDense (compressed : list V) (nrows ncols : nat) (r : report) (size : nat) : xout (list V) :=
  let '(row, col, nnz) := r in
  if negb (size =? nrows * ncols) then XAssert else
  foreach (seq 0 nnz) (fun e mat =>
    xbind (rowAt row e) (fun i => xbind (rowAt col e) (fun j => xbind (rowAt compressed e) (fun v =>
    xbind (rowAt mat (i * ncols + j)) (fun _ => XOk (setNth mat (i * ncols + j) v)))))) (repeat zero size).

(** A generated function of arrays: it reads the arrays in[k], which must have the lengths [sizes], and writes its result
    to out[0], an array of [size] elements.  Elements which are not written keep the value of [before]. *)
Definition call (f : list (list V) -> list V) (sizes : list nat) (ins : list (list V)) (before : list V) : xout (list V) :=
  if negb (List.length ins =? List.length sizes) then XRange else
  if existsb (fun sx => List.length (snd sx) <? fst sx) (combine sizes ins) then XRange else
  if List.length before <? List.length (f ins) then XRange else XOk (f ins ++ skipn (List.length (f ins)) before).

(** A loaded model (53-93): [gReady]: _isLibraryReady and no missing atomic function; [gIn]: the lengths of the arrays of
    independents; the functions which are in the library. *)
Record loaded := mkLoaded {
  gReady : bool; gN : nat; gM : nat; gIn : list nat;
  gZero : option (list (list V) -> list V);
  gHes : option (list (list V) -> list V);
  gSJac : option (list (list V) -> list V);
  gSHes : option (list (list V) -> list V);
  gJacSp : option report;
  gHesSp : option report;
  gHes2Sp : option (nat -> xout report)
}.

(** CPPADCG_ASSERT_KNOWN *)
Definition known {A} (b : bool) (k : xout A) : xout A := if b then k else XAssert.
Definition need {A B} (o : option A) (k : A -> xout B) : xout B := match o with Some a => k a | None => XAssert end.
Definition one_array (g : loaded) : bool := List.length (gIn g) =? 1.

(** JacobianSparsitySet, JacobianSparsityBool, JacobianSparsity (165-214) *)
Definition JacobianSparsitySet (g : loaded) : xout pat :=
  known (gReady g) (need (gJacSp g) (fun r => loadSet (gM g) r)).
Definition JacobianSparsityBool (g : loaded) : xout (list bool) :=
  known (gReady g) (need (gJacSp g) (fun r => loadBool (gM g) (gN g) r)).
Definition JacobianSparsity (g : loaded) : xout (list nat * list nat) :=
  known (gReady g) (need (gJacSp g) loadLists).
(** HessianSparsitySet, HessianSparsityBool, HessianSparsity (221-264) *)
Definition HessianSparsitySet (g : loaded) : xout pat :=
  known (gReady g) (need (gHesSp g) (fun r => loadSet (gN g) r)).
Definition HessianSparsityBool (g : loaded) : xout (list bool) :=
  known (gReady g) (need (gHesSp g) (fun r => loadBool (gN g) (gN g) r)).
Definition HessianSparsity (g : loaded) : xout (list nat * list nat) :=
  known (gReady g) (need (gHesSp g) loadLists).
(** The same for one equation (270-323) *)
Definition EqHessianSparsitySet (g : loaded) (i : nat) : xout pat :=
  known (gReady g) (need (gHes2Sp g) (fun h => xbind (h i) (fun r => loadSet (gN g) r))).
Definition EqHessianSparsityBool (g : loaded) (i : nat) : xout (list bool) :=
  known (gReady g) (need (gHes2Sp g) (fun h => xbind (h i) (fun r => loadBool (gN g) (gN g) r))).
Definition EqHessianSparsity (g : loaded) (i : nat) : xout (list nat * list nat) :=
  known (gReady g) (need (gHes2Sp g) (fun h => xbind (h i) loadLists)).

(** ForwardZero(vx, vy, tx, ty) (371-400): the values and vy.  The inner loop stops at the first variable found. *)
Definition ForwardZeroVars (g : loaded) (vx vy : list bool) (tx ty : list V) : xout (list V * list bool) :=
  known (gReady g) (need (gZero g) (fun f =>
  known (one_array g && (List.length tx =? gN g) && (List.length ty =? gM g)) (
  xbind (call f (gIn g) [tx] ty) (fun ty' =>
  if 0 <? List.length vx then
    known (gN g <=? List.length vx) (known (gM g <=? List.length vy) (
    xbind (JacobianSparsitySet g) (fun sp =>
    xbind (foreach (seq 0 (gM g)) (fun i vy =>
      xbind (rowAt sp i) (fun row : set =>
      (fix scan (row : set) : xout (list bool) :=
         match row with
         | [] => XOk vy
         | j :: r => xbind (rowAt vx j) (fun b : bool =>
                     if b then xbind (rowAt vy i) (fun _ => XOk (setNth vy i true)) else scan r)
         end) row)) vy) (fun vy' => XOk (ty', vy')))))
  else XOk (ty', vy))))).

(** Hessian(x, w, hess) (424-441); [gIn] and the array of the multipliers *)
Definition hessSizes (g : loaded) : list nat := gIn g ++ [gM g].
Definition Hessian (g : loaded) (x w hess : list V) : xout (list V) :=
  known (gReady g) (need (gHes g) (fun f =>
  known (one_array g && (List.length x =? gN g) && (List.length w =? gM g) && (List.length hess =? gN g * gN g))
  (call f (hessSizes g) [x; w] hess))).
(** Hessian(x, i), generic_model.hpp 384-395.  [fresh k]: the elements of a vector of the user's type made with k elements. *)
Definition HessianEquation (fresh : nat -> list V) (g : loaded) (x : list V) (i : nat) : xout (list V) :=
  known (i <? gM g) (Hessian g x (setNth (fresh (gM g)) i one) (fresh (gN g * gN g))).

(** SparseJacobian(x, jac), dense result (648-676) *)
Definition SparseJacobianDense (g : loaded) (x : list V) (size : nat) : xout (list V) :=
  known (gReady g) (need (gSJac g) (fun f =>
  known (one_array g && (List.length x =? gN g) && (size =? gM g * gN g)) (
  match gJacSp g with
  | None => XRange                                         (* a null function pointer *)
  | Some r =>
      let '(_, _, nnz) := r in
      xbind (if 0 <? nnz then call f (gIn g) [x] (repeat zero nnz) else XOk []) (fun comp =>
      createDense comp (gM g) (gN g) r size)
  end))).

(** SparseJacobian(x, jac, row, col) with vectors (678-706): the size of x is not checked. *)
Definition SparseJacobianVectors (g : loaded) (x : list V) : xout (list V * list nat * list nat) :=
  known (gReady g) (need (gSJac g) (fun f =>
  known (one_array g) (
  match gJacSp g with
  | None => XRange
  | Some r =>
      let '(_, _, nnz) := r in
      if 0 <? nnz then
        xbind (call f (gIn g) [x] (repeat zero nnz)) (fun jac => xbind (loadLists r) (fun rc => XOk (jac, fst rc, snd rc)))
      else XOk ([], [], [])
  end))).

(** SparseJacobian(x, jac, &row, &col) with arrays (708-733) *)
Definition SparseJacobianArrays (g : loaded) (x jac : list V) : xout (list V * list nat * list nat) :=
  known (gReady g) (need (gSJac g) (fun f =>
  known (one_array g && (List.length x =? gN g)) (
  match gJacSp g with
  | None => XRange
  | Some (row, col, nnz) =>
      known (nnz =? List.length jac)
      (if 0 <? nnz then xbind (call f (gIn g) [x] jac) (fun jac => XOk (jac, row, col)) else XOk (jac, row, col))
  end))).

(** SparseJacobian with several arrays of independents (735-757): [xs] are the arrays behind the pointers. *)
Definition SparseJacobianMany (g : loaded) (xs : list (list V)) (jac : list V) : xout (list V * list nat * list nat) :=
  known (gReady g) (need (gSJac g) (fun f =>
  known (List.length (gIn g) =? List.length xs) (
  match gJacSp g with
  | None => XRange
  | Some (row, col, nnz) =>
      known (nnz =? List.length jac)
      (if 0 <? nnz then xbind (call f (gIn g) xs jac) (fun jac => XOk (jac, row, col)) else XOk (jac, row, col))
  end))).

(** SparseHessian(x, w, hess), dense result (765-793) *)
Definition SparseHessianDense (g : loaded) (x w : list V) (size : nat) : xout (list V) :=
  known (gReady g) (need (gSHes g) (fun f =>
  known ((List.length x =? gN g) && (List.length w =? gM g) && one_array g) (
  match gHesSp g with
  | None => XRange
  | Some r =>
      let '(_, _, nnz) := r in
      xbind (if 0 <? nnz then call f (hessSizes g) [x; w] (repeat zero nnz) else XOk []) (fun comp =>
      createDense comp (gN g) (gN g) r size)
  end))).

(** SparseHessian with vectors (795-826) *)
Definition SparseHessianVectors (g : loaded) (x w : list V) : xout (list V * list nat * list nat) :=
  known (gReady g) (need (gSHes g) (fun f =>
  known ((List.length x =? gN g) && (List.length w =? gM g) && one_array g) (
  match gHesSp g with
  | None => XRange
  | Some r =>
      let '(_, _, nnz) := r in
      if 0 <? nnz then
        xbind (loadLists r) (fun rc => xbind (call f (hessSizes g) [x; w] (repeat zero nnz)) (fun hess => XOk (hess, fst rc, snd rc)))
      else XOk ([], [], [])
  end))).

(** SparseHessian with arrays (828-855) *)
Definition SparseHessianArrays (g : loaded) (x w hess : list V) : xout (list V * list nat * list nat) :=
  known (gReady g) (need (gSHes g) (fun f =>
  known (one_array g && (List.length x =? gN g) && (List.length w =? gM g)) (
  match gHesSp g with
  | None => XRange
  | Some (row, col, nnz) =>
      known (nnz =? List.length hess)
      (if 0 <? nnz then xbind (call f (hessSizes g) [x; w] hess) (fun h => XOk (h, row, col)) else XOk (hess, row, col))
  end))).

(** SparseHessian with several arrays (857-885): _inHess is filled with the arrays and, last, the multipliers. *)
Definition SparseHessianMany (g : loaded) (xs : list (list V)) (w hess : list V) : xout (list V * list nat * list nat) :=
  known (gReady g) (need (gSHes g) (fun f =>
  known ((List.length (gIn g) =? List.length xs) && (List.length w =? gM g)) (
  match gHesSp g with
  | None => XRange
  | Some (row, col, nnz) =>
      known (nnz =? List.length hess)
      (if 0 <? nnz then xbind (call f (hessSizes g) (xs ++ [w]) hess) (fun h => XOk (h, row, col)) else XOk (hess, row, col))
  end))).
End Eval.

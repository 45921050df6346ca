(** * Model of the sparsity pattern helpers

    A sparsity pattern is a vector of sets of column indices.  A set
    (std::set<size_t>) is modelled by the increasing list of its elements, which
    is the order in which the iterators of std::set visit them.  size_t is
    modelled by the natural numbers. *)
From Coq Require Import List Arith Bool.
From Verif Require Import Pool_model.
Import ListNotations.
Local Open Scope nat_scope.

(** What a call can do: end normally, access a vector outside its range
    (undefined behaviour) or stop at an assertion (only in builds with
    assertions). *)
Inductive xout (A : Type) : Type :=
| XOk : A -> xout A
| XRange : xout A
| XAssert : xout A.
Arguments XOk {A} _.
Arguments XRange {A}.
Arguments XAssert {A}.

Definition xbind {A B : Type} (x : xout A) (f : A -> xout B) : xout B :=
  match x with XOk a => f a | XRange => XRange | XAssert => XAssert end.

(** A C++ loop over the values of [l] in order, with state [s]. *)
Fixpoint foreach {S : Type} (l : list nat) (f : nat -> S -> xout S) (s : S) : xout S :=
  match l with
  | [] => XOk s
  | k :: r => xbind (f k s) (foreach r f)
  end.

(** CPPADCG_ASSERT_UNKNOWN / assert: [dbg] says whether assertions are compiled
    in (cppad/cg/debug.hpp; NDEBUG). *)
Definition xassert {A : Type} (dbg b : bool) (k : xout A) : xout A :=
  if dbg && negb b then XAssert else k.

Definition set := list nat.
Definition pat := list set.

(** std::set::insert of one element. *)
Fixpoint sins (j : nat) (s : set) : set :=
  match s with
  | [] => [j]
  | x :: r => if j <? x then j :: s else if j =? x then s else x :: sins j r
  end.

(** std::set::insert of a range. *)
Definition sinsAll (l : list nat) (s : set) : set :=
  fold_left (fun s j => sins j s) l s.

(** std::set::erase of one element. *)
Fixpoint sdel (j : nat) (s : set) : set :=
  match s with
  | [] => []
  | x :: r => if x =? j then r else x :: sdel j r
  end.

(** std::set::find ... != end(). *)
Definition sfind (j : nat) (s : set) : bool := existsb (Nat.eqb j) s.

(** Reading pattern[i]; unchecked operator[] of a vector. *)
Definition rowAt {A : Type} (p : list A) (i : nat) : xout A :=
  match nth_error p i with Some s => XOk s | None => XRange end.

(** pattern[i].insert(j). *)
Definition insertAt (p : pat) (i j : nat) : xout pat :=
  xbind (rowAt p i) (fun s : set => XOk (setNth p i (sins j s))).

(** util.hpp 44-55: isIdentityPattern.  The early return is modelled by the
    conjunction stopping at the first row which differs. *)
Fixpoint isIdentityRows (p : pat) (l : list nat) : xout bool :=
  match l with
  | [] => XOk true
  | i :: r =>
      xbind (rowAt p i) (fun s : set =>
        match s with
        | [x] => if x =? i then isIdentityRows p r else XOk false
        | _ => XOk false
        end)
  end.

Definition isIdentityPattern (dbg : bool) (p : pat) (m : nat) : xout bool :=
  xassert dbg (m <=? List.length p) (isIdentityRows p (seq 0 m)).

(** The double loop of transposePattern and addTransMatrixSparsity:
    for i < m, for j in a[i], result[j].insert(i). *)
Definition transLoop (a : pat) (m : nat) (r : pat) : xout pat :=
  foreach (seq 0 m)
    (fun i r => xbind (rowAt a i) (fun s => foreach s (fun j r => insertAt r j i) r)) r.

(** util.hpp 57-70: transposePattern. *)
Definition transposePattern (dbg : bool) (p : pat) (m n : nat) : xout pat :=
  xassert dbg (m <=? List.length p) (transLoop p m (repeat [] n)).

(** util.hpp 81-92: addTransMatrixSparsity. *)
Definition addTransMatrixSparsity (dbg : bool) (a : pat) (m : nat) (r : pat) : xout pat :=
  xassert dbg (m <=? List.length a) (transLoop a m r).

(** util.hpp 102-106: addTransMatrixSparsity for the whole matrix. *)
Definition addTransMatrixSparsityAll (dbg : bool) (a : pat) (r : pat) : xout pat :=
  addTransMatrixSparsity dbg a (List.length a) r.

(** util.hpp 116-130: addMatrixSparsity. *)
Definition addMatrixSparsity (dbg : bool) (a : pat) (m : nat) (r : pat) : xout pat :=
  xassert dbg (m <=? List.length r)
  (xassert dbg (List.length a <=? m)
  (foreach (seq 0 m)
    (fun i r =>
       xbind (rowAt r i) (fun ri : set =>
       xbind (rowAt a i) (fun ai : set =>
         match ri with
         | [] => XOk (setNth r i ai)
         | _ => XOk (setNth r i (sinsAll ai ri))
         end))) r)).

(** util.hpp 139-145: addMatrixSparsity for the whole matrix. *)
Definition addMatrixSparsityAll (dbg : bool) (a : pat) (r : pat) : xout pat :=
  xassert dbg (List.length r =? List.length a)
    (addMatrixSparsity dbg a (List.length a) r).

(** util.hpp 177-214: multMatrixMatrixSparsity. *)
Definition multMatrixMatrixSparsity (dbg : bool) (a b r : pat) (m n q : nat) : xout pat :=
  xassert dbg (m <=? List.length a)
  (xassert dbg (n <=? List.length b)
  (xassert dbg (m <=? List.length r)
  (xbind (if n =? q then isIdentityPattern dbg b n else XOk false) (fun ident =>
   if ident then addMatrixSparsity dbg a m r
   else
     xbind (transposePattern dbg b n q) (fun bt =>
     foreach (seq 0 q)
       (fun jj r =>
          xbind (rowAt bt jj) (fun colB : set =>
          match colB with
          | [] => XOk r
          | _ =>
              foreach (seq 0 m)
                (fun i r =>
                   xbind (rowAt a i) (fun rowA : set =>
                   if existsb (fun k => sfind k rowA) colB
                   then insertAt r i jj else XOk r)) r
          end)) r))))).

(** util.hpp 156-162: multMatrixMatrixSparsity with the sizes of the vectors. *)
Definition multMatrixMatrixSparsityAll (dbg : bool) (a b r : pat) (q : nat) : xout pat :=
  multMatrixMatrixSparsity dbg a b r (List.length a) (List.length b) q.

(** util.hpp 238-248 and 306-316: the test for a pattern without elements in its
    first rows. *)
Fixpoint emptyRows (p : pat) (l : list nat) : xout bool :=
  match l with
  | [] => XOk true
  | i :: r =>
      xbind (rowAt p i) (fun s : set =>
        match s with [] => emptyRows p r | _ => XOk false end)
  end.

(** util.hpp 227-281: multMatrixTransMatrixSparsity. *)
Definition multMatrixTransMatrixSparsity (dbg : bool) (a b r : pat) (m n q : nat) : xout pat :=
  xassert dbg (m <=? List.length a)
  (xassert dbg (m <=? List.length b)
  (xassert dbg (n <=? List.length r)
  (xbind (emptyRows b (seq 0 m)) (fun empty =>
   if empty then XOk r else
   xbind (if m =? n then isIdentityPattern dbg a m else XOk false) (fun identA =>
   if identA then addMatrixSparsity dbg b n r else
   xbind (if m =? q then isIdentityPattern dbg b m else XOk false) (fun identB =>
   if identB then addTransMatrixSparsity dbg a m r else
   xbind (transposePattern dbg a m n) (fun at_ =>
   xbind (transposePattern dbg b m q) (fun bt =>
   foreach (seq 0 q)
     (fun jj r =>
        xbind (rowAt bt jj) (fun colB : set =>
        match colB with
        | [] => XOk r
        | _ =>
            foreach (seq 0 n)
              (fun i r =>
                 xbind (rowAt at_ i) (fun rowAt_ : set =>
                 match rowAt_ with
                 | [] => XOk r
                 | _ => if existsb (fun k => sfind k rowAt_) colB
                        then insertAt r i jj else XOk r
                 end)) r
        end)) r)))))))).

(** util.hpp 296-337: multMatrixMatrixSparsityTrans. *)
Definition multMatrixMatrixSparsityTrans (dbg : bool) (aT b rT : pat) (m n q : nat) : xout pat :=
  xassert dbg (m <=? List.length aT)
  (xassert dbg (m <=? List.length b)
  (xbind (emptyRows b (seq 0 m)) (fun empty =>
   if empty then XOk rT else
   xbind (if m =? q then isIdentityPattern dbg aT m else XOk false) (fun identA =>
   if identA then addTransMatrixSparsity dbg b m rT else
   xbind (transposePattern dbg aT m q) (fun a =>
   xbind (transposePattern dbg b m n) (fun bT =>
   foreach (seq 0 n)
     (fun jj r =>
        foreach (seq 0 q)
          (fun i r =>
             xbind (rowAt a i) (fun ai : set =>
             xbind (rowAt bT jj) (fun bj =>
             if existsb (fun k => sfind k bj) ai
             then insertAt r jj i else XOk r))) r) rT)))))).

(** util.hpp 22-42: zeroOrderDependency is not modelled: it only differs from the
    dependency loop of C48 by its output type. *)

(** ** Answers of an atomic function built from a compiled model *)

(** Clearing the first [k] sets of an output (atomic_generic_model.hpp 97-99,
    121-123, 155-157). *)
Definition clearRows (k : nat) (s : pat) : xout pat :=
  foreach (seq 0 k) (fun i s => xbind (rowAt s i) (fun _ => XOk (setNth s i []))) s.

(** atomic_generic_model.hpp 92-107: for_sparse_jac, with [jac] the result of
    model_.JacobianSparsitySet() and [m], [n] the Range and Domain. *)
Definition genericForSparseJac (dbg : bool) (jac : pat) (m n q : nat) (r s : pat) : xout pat :=
  xbind (clearRows m s) (fun s => multMatrixMatrixSparsity dbg jac r s m n q).

(** atomic_generic_model.hpp 116-131: rev_sparse_jac. *)
Definition genericRevSparseJac (dbg : bool) (jac : pat) (m n q : nat) (rT sT : pat) : xout pat :=
  xbind (clearRows n sT) (fun sT => multMatrixTransMatrixSparsity dbg jac rT sT m n q).

(** std::vector::resize of a vector of sets. *)
Definition resizeP {A : Type} (d : A) (k : nat) (p : list A) : list A :=
  firstn k p ++ repeat d (k - List.length p).

(** atomic_generic_model.hpp 166-173: is every dependent selected? *)
Fixpoint allSelected (s : list bool) (l : list nat) : xout bool :=
  match l with
  | [] => XOk true
  | i :: r => xbind (rowAt s i) (fun b => if b then allSelected s r else XOk false)
  end.

(** atomic_generic_model.hpp 182-187: the sum of the Hessian patterns of the
    selected dependents; [hess i] is model_.HessianSparsitySet(i). *)
Definition sumSelected (dbg : bool) (hess : nat -> pat) (s : list bool) (m n : nat) : xout pat :=
  foreach (seq 0 m)
    (fun i acc => xbind (rowAt s i) (fun b =>
       if b then addMatrixSparsityAll dbg (hess i) acc else XOk acc))
    (repeat [] n).

(** atomic_generic_model.hpp 193-199: t[j] = true for the non-zeros of the
    selected rows of the Jacobian. *)
Definition markSelected (jac : pat) (s : list bool) (m : nat) (t : list bool) : xout (list bool) :=
  foreach (seq 0 m)
    (fun i t => xbind (rowAt s i) (fun b =>
       if b then
         xbind (rowAt jac i) (fun row =>
           foreach row (fun j t => xbind (rowAt t j) (fun _ => XOk (setNth t j true))) t)
       else XOk t)) t.

(** atomic_generic_model.hpp 144-202: rev_sparse_hes; [hessAll] is
    model_.HessianSparsitySet() and [vx] is not used by the code. *)
Definition genericRevSparseHes (dbg : bool) (jac hessAll : pat) (hess : nat -> pat) (m n : nat)
    (s t : list bool) (q : nat) (r u v : pat) : xout (list bool * pat) :=
  xbind (clearRows n v) (fun v =>
  xbind (multMatrixTransMatrixSparsity dbg jac u v m n q) (fun v =>
  xbind (allSelected s (seq 0 m)) (fun all =>
  xbind (if all then multMatrixMatrixSparsity dbg (resizeP [] n hessAll) r v n n q
         else xbind (sumSelected dbg hess s m n) (fun sf =>
              multMatrixMatrixSparsity dbg sf r v n n q)) (fun v =>
  xbind (markSelected jac s m t) (fun t => XOk (t, v)))))).

(** atomic_fun_bridge.hpp 106-129, 138-159: for_sparse_jac and rev_sparse_jac of
    CGAtomicFunBridge with cached sparsities; [jac] is
    custom_jac_.getFullElements(). *)
Definition bridgeForSparseJac (dbg : bool) (jac : pat) (m n q : nat) (r s : pat) : xout pat :=
  xbind (clearRows (List.length s) s) (fun s => multMatrixMatrixSparsity dbg jac r s m n q).

Definition bridgeRevSparseJac (dbg : bool) (jac : pat) (m n q : nat) (rt st : pat) : xout pat :=
  xbind (clearRows (List.length st) st) (fun st =>
    multMatrixMatrixSparsityTrans dbg rt jac st m n q).

(** atomic_fun_bridge.hpp 172-244: rev_sparse_hes with cached sparsities; the
    products use the transposes of the Hessian patterns.  [hess i] is the
    filtered pattern of dependent [i] and the cache hess_ is not modelled. *)
Definition bridgeRevSparseHes (dbg : bool) (jac hessAll : pat) (hess : nat -> pat) (m n : nat)
    (s t : list bool) (q : nat) (r u v : pat) : xout (list bool * pat) :=
  xbind (clearRows n v) (fun v =>
  xbind (multMatrixTransMatrixSparsity dbg jac u v m n q) (fun v =>
  xbind (allSelected s (seq 0 m)) (fun all =>
  xbind (if all then multMatrixTransMatrixSparsity dbg hessAll r v n n q
         else xbind (sumSelected dbg hess s m n) (fun sf =>
              multMatrixTransMatrixSparsity dbg sf r v n n q)) (fun v =>
  xbind (markSelected jac s m t) (fun t => XOk (t, v)))))).

(** ** Lists of the positions of the elements *)

(** Writing vector[i] = x. *)
Definition storeAt (v : list nat) (i x : nat) : xout (list nat) :=
  xbind (rowAt v i) (fun _ => XOk (setNth v i x)).

(** extra/sparsity.hpp 238-269: generateSparsityIndexes for vectors of bool.  The state
    of the loop is (nnz, row, col). *)
Definition generateIndexesBool (dbg : bool) (sp : list bool) (m n : nat) (row col : list nat)
    : xout (list nat * list nat) :=
  xassert dbg (List.length sp =? m * n)
  (let nnz := List.length (filter (fun b => b) sp) in
   xbind (foreach (seq 0 m)
     (fun i st => foreach (seq 0 n)
        (fun j st =>
           let '(k, row, col) := st in
           xbind (rowAt sp (i * n + j)) (fun b =>
           if (b : bool) then
             xbind (storeAt row k i) (fun row =>
             xbind (storeAt col k j) (fun col => XOk (S k, row, col)))
           else XOk st)) st)
     (0, resizeP 0 nnz row, resizeP 0 nnz col)) (fun st =>
   let '(k, row, col) := st in
   xassert dbg (k =? List.length row) (XOk (row, col)))).

(** std::fill / std::copy of the values [xs] from position [k] on. *)
Fixpoint copyAt (xs : list nat) (k : nat) (v : list nat) : xout (list nat) :=
  match xs with
  | [] => XOk v
  | x :: r => xbind (storeAt v k x) (copyAt r (S k))
  end.

(** extra/sparsity.hpp 271-297: generateSparsityIndexes for vectors of sets. *)
Definition generateIndexesSet (p : pat) (row col : list nat) : xout (list nat * list nat) :=
  let m := List.length p in
  let nnz := fold_left (fun a s => a + List.length s) p 0 in
  let row := resizeP 0 nnz row in
  let col := resizeP 0 nnz col in
  if nnz =? 0 then XOk (row, col) else
  xbind (foreach (seq 0 m)
     (fun i st =>
        let '(k, row, col) := st in
        xbind (rowAt p i) (fun s : set =>
        xbind (copyAt (repeat i (List.length s)) k row) (fun row =>
        xbind (copyAt s k col) (fun col => XOk (k + List.length s, row, col)))))
     (0, row, col)) (fun st => let '(_, row, col) := st in XOk (row, col)).

(** extra/sparsity.hpp 299-309: generateSparsitySet. *)
Definition generateSet (dbg : bool) (row col : list nat) (p : pat) : xout pat :=
  xassert dbg (List.length row =? List.length col)
  (foreach (seq 0 (List.length row))
     (fun e p => xbind (rowAt row e) (fun i => xbind (rowAt col e) (fun j => insertAt p i j))) p).

(** extra/sparsity.hpp 116-125: estimateBestJacobianADMode; true for forward mode. *)
Definition estimateForward (rows cols : list nat) : bool :=
  List.length (sinsAll cols []) <=? List.length (sinsAll rows []).

(** ** Custom elements: custom_position.hpp *)

(** custom_position.hpp 24-31: CustomPosition.  [None] is a filter which is not
    defined (filterDefined_ == false). *)
Record position := mkPos {
  elFilter : option (list (list bool));
  full : option pat
}.

(** elFilter_[i][j] = true. *)
Definition allow (i j : nat) (f : list (list bool)) : xout (list (list bool)) :=
  xbind (rowAt f i) (fun row => xbind (rowAt row j) (fun _ => XOk (setNth f i (setNth row j true)))).

(** custom_position.hpp 34-37: the default constructor. *)
Definition noPosition : position := mkPos None None.

(** custom_position.hpp 39-51: from row and column indices. *)
Definition positionOfIndexes (dbg : bool) (m n : nat) (rows cols : list nat) : xout position :=
  xassert dbg (List.length rows =? List.length cols)
  (xbind (foreach (seq 0 (List.length rows))
      (fun e f => xbind (rowAt rows e) (fun i => xbind (rowAt cols e) (fun j => allow i j f)))
      (repeat (repeat false n) m)) (fun f => XOk (mkPos (Some f) None))).

(** custom_position.hpp 52-65: from a pattern. *)
Definition positionOfPattern (dbg : bool) (m n : nat) (els : pat) : xout position :=
  xassert dbg (List.length els <=? m)
  (xbind (foreach (seq 0 (List.length els))
      (fun i f => xbind (rowAt els i) (fun s => foreach s (fun j f => allow i j f) f))
      (repeat (repeat false n) m)) (fun f => XOk (mkPos (Some f) None))).

(** custom_position.hpp 95-111: filter. *)
Definition filterPattern (c : position) (p : pat) : xout pat :=
  match elFilter c with
  | None => XOk p
  | Some f =>
      foreach (seq 0 (List.length p))
        (fun i p =>
           xbind (rowAt p i) (fun s : set =>
           foreach s
             (fun j p =>
                xbind (rowAt f i) (fun fi => xbind (rowAt fi j) (fun ok =>
                if (ok : bool) then XOk p
                else xbind (rowAt p i) (fun s : set => XOk (setNth p i (sdel j s)))))) p)) p
  end.

(** custom_position.hpp 75-79: setFullElements. *)
Definition setFullElements (c : position) (els : pat) : xout position :=
  xbind (filterPattern c els) (fun els => XOk (mkPos (elFilter c) (Some els))).

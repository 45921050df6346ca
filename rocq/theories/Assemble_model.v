(** * The sparse Jacobian and Hessian put together from the directional functions

    When a model also has first-order forward or reverse functions (or second-order reverse functions) the
    generated sparse Jacobian (Hessian) calls one function per column or row and puts the results in the places the
    user asked for.  This file models the generator of that code and the execution of the code it prints:
    include/cppad/cg/model/model_c_source_gen_jac.hpp, model_c_source_gen_hes.hpp, model_c_source_gen_for1.hpp,
    model_c_source_gen_rev1.hpp, model_c_source_gen_rev2.hpp and model_c_source_gen_impl.hpp (without loops).

    Values are of any type [V]; the derivative that the AD library gives for the element (key, index) is a function
    [D : nat -> nat -> V], for given values of the arguments (the library itself, CppAD, is outside of the model).  An access out of the bounds of an
    array and a dereference of the first element of an empty set are the outcome [None]. *)
From Coq Require Import List Arith Bool.
From Verif Require Import Pool_model.
Import ListNotations.

(** ** The generator *)

(** std::map<size_t, ...>: [m[k].push_back(v)] (model_c_source_gen_jac.hpp 161-163, 174-176;
    model_c_source_gen_hes.hpp 240-242; model_c_source_gen_for1.hpp 26-29).  A map is a list with increasing keys. *)
Fixpoint push (k v : nat) (m : list (nat * list nat)) : list (nat * list nat) :=
  match m with
  | [] => [(k, [v])]
  | (k', vs) :: r =>
      if k <? k' then (k, [v]) :: (k', vs) :: r
      else if k =? k' then (k', vs ++ [v]) :: r
      else (k', vs) :: push k v r
  end.

(** The elements of each column (the keys are the columns and the values the rows, forward mode) or of each row
    (reverse mode): model_c_source_gen_jac.hpp 157-180, model_c_source_gen_for1.hpp 25-29. *)
Definition group (ks vs : list nat) : list (nat * list nat) :=
  fold_left (fun m p => push (fst p) (snd p) m) (combine ks vs) [].

(** The search of determineOrderByCol / determineOrderByRow for one element, model_c_source_gen_impl.hpp 591-599 and
    632-640: the position of the first element requested by the user which matches, because of the [break].  [e] is
    the position of the head of the lists. *)
Fixpoint firstAt (k v : nat) (ks vs : list nat) (e : nat) : option nat :=
  match ks, vs with
  | k' :: ks', v' :: vs' => if (v' =? v) && (k' =? k) then Some e else firstAt k v ks' vs' (S e)
  | _, _ => None
  end.

(** determineOrderByCol and determineOrderByRow for one key, model_c_source_gen_impl.hpp 584-602 and 625-643: a set of
    positions (a list here) for each element. *)
Definition locate (k : nat) (els ks vs : list nat) : list (list nat) :=
  map (fun v => match firstAt k v ks vs 0 with Some e => [e] | None => [] end) els.

(** The loop of model_c_source_gen_jac.hpp 200-209 (and model_c_source_gen_hes.hpp 261-270): [None] when the first
    element of an empty set is read. *)
Fixpoint inOrder (start e : nat) (locs : list (list nat)) : option bool :=
  match locs with
  | [] => Some true
  | l :: r =>
      match l with
      | [] => None
      | [p] => if p =? start + e then inOrder start (S e) r else Some false
      | _ :: _ :: _ => Some false
      end
  end.

(** model_c_source_gen_jac.hpp 192-211, model_c_source_gen_hes.hpp 253-272: [jacArrayStart] is the first position of
    the first element. *)
Definition ordered (locs : list (list nat)) : option bool :=
  match locs with
  | (p :: _) :: _ => inOrder p 0 locs
  | _ => None
  end.

(** CompressedVectorInfo (model_c_source_gen.hpp): the function number, the elements it gives, where they go, and
    whether it can write directly in the result. *)
Record info := mkInfo { i_key : nat; i_idx : list nat; i_loc : list (list nat); i_ord : bool }.

(** One entry of jacInfo / hessInfo. *)
Definition mkEntry (ks vs : list nat) (g : nat * list nat) : option info :=
  let l := locate (fst g) (snd g) ks vs in
  match ordered l with
  | Some b => Some (mkInfo (fst g) (snd g) l b)
  | None => None
  end.

Fixpoint mkEntries (ks vs : list nat) (gs : list (nat * list nat)) : option (list info) :=
  match gs with
  | [] => Some []
  | g :: r =>
      match mkEntry ks vs g, mkEntries ks vs r with
      | Some i, Some is => Some (i :: is)
      | _, _ => None
      end
  end.

(** generateSparseJacobianForRevSource up to line 211 (model_c_source_gen_jac.hpp 150-211) and
    generateSparseHessianSourceFromRev2 up to line 272 (model_c_source_gen_hes.hpp 226-272). *)
Definition entries (ks vs : list nat) : option (list info) := mkEntries ks vs (group ks vs).

(** maxCompressedSize, model_c_source_gen_jac.hpp 213-219 and model_c_source_gen_hes.hpp 277-282. *)
Definition maxCompressed (is : list info) : nat :=
  fold_left (fun m i => if (m <? length (i_idx i)) && negb (i_ord i) then length (i_idx i) else m) is 0.

(** The statements of the generated function. *)
Inductive stmt :=
| OutDirect (p : nat)               (* outLocal[0] = &jac[p]; *)
| OutCompressed                     (* outLocal[0] = compressed; *)
| Call (k : nat)                    (* <function>_<suffix>k(inLocal, outLocal, atomicFun); *)
| Copy (ls : list nat) (e : nat).   (* jac[l1] = jac[l2] = ... = compressed[e]; *)

(** The copies of model_c_source_gen_jac.hpp 301-309 (model_c_source_gen_hes.hpp 355-363). *)
Fixpoint copies (e : nat) (locs : list (list nat)) : list stmt :=
  match locs with
  | [] => []
  | l :: r => Copy l e :: copies (S e) r
  end.

(** The loop of generateSparseJacobianForRevSingleThreadSource, model_c_source_gen_jac.hpp 286-311, and of
    generateSparseHessianRev2SingleThreadSource, model_c_source_gen_hes.hpp 339-365.  [*location[0].begin()] was
    already read by [ordered], [hd 0 (hd [] ...)] reads it again. *)
Fixpoint emit (previousCompressed : bool) (is : list info) : list stmt :=
  match is with
  | [] => []
  | i :: r =>
      let compressed := negb (i_ord i) in
      (if negb compressed then [OutDirect (hd 0 (hd [] (i_loc i)))]
       else if negb previousCompressed then [OutCompressed] else [])
      ++ [Call (i_key i)]
      ++ (if compressed then copies 0 (i_loc i) else [])
      ++ emit compressed r
  end.

(** The generated function: [pr_size] is the size of the array compressed and [pr_start] tells whether outLocal[0]
    starts as compressed: always in the Jacobian (model_c_source_gen_jac.hpp 270-280), only with a non empty
    compressed in the Hessian (model_c_source_gen_hes.hpp 322-334). *)
Record program := mkProgram { pr_size : nat; pr_start : bool; pr_body : list stmt }.

Definition singleThread (hessian : bool) (is : list info) : program :=
  let m := maxCompressed is in
  mkProgram m (if hessian then 0 <? m else true) (emit true is).

(** The multi-thread version, model_c_source_gen_jac.hpp 319-458 and model_c_source_gen_hes.hpp 373-514: an array
    of functions, p[i], which are the directional functions when they can write directly in the result and otherwise
    a function "_wrap" with its own array compressed, and the offset given to each one. *)
Inductive job :=
| Direct (k : nat)
| Wrap (k : nat) (size : nat) (body : list stmt).

Definition jobOf (i : info) : job * nat :=
  if i_ord i then (Direct (i_key i), hd 0 (hd [] (i_loc i)))
  else (Wrap (i_key i) (length (i_idx i)) (copies 0 (i_loc i)), 0).

Definition multiThread (is : list info) : list (job * nat) := map jobOf is.

(** ** The execution of the generated code *)
Section Exec.
Variable V : Type.

(** The directional functions: the values written by the function number k, one after the other, in out[0]. *)
Variable fn : nat -> option (list V).

Inductive ptr := Nowhere | InResult (p : nat) | InCompressed.

Record mem := mkMem { m_res : list V; m_comp : list V; m_out : ptr }.

(** A[p], A[p + 1], ... are written. *)
Fixpoint writeAll (a : list V) (p : nat) (vs : list V) : option (list V) :=
  match vs with
  | [] => Some a
  | v :: r => if p <? length a then writeAll (setNth a p v) (S p) r else None
  end.

(** jac[l1] = jac[l2] = ... = v *)
Fixpoint assignAll (a : list V) (ls : list nat) (v : V) : option (list V) :=
  match ls with
  | [] => Some a
  | l :: r =>
      match assignAll a r v with
      | Some a' => if l <? length a' then Some (setNth a' l v) else None
      | None => None
      end
  end.

Definition step (s : stmt) (m : mem) : option mem :=
  match s with
  | OutDirect p => Some (mkMem (m_res m) (m_comp m) (InResult p))
  | OutCompressed => Some (mkMem (m_res m) (m_comp m) InCompressed)
  | Call k =>
      match fn k with
      | None => None
      | Some vs =>
          match m_out m with
          | Nowhere => None
          | InResult p =>
              match writeAll (m_res m) p vs with
              | Some a => Some (mkMem a (m_comp m) (m_out m))
              | None => None
              end
          | InCompressed =>
              match writeAll (m_comp m) 0 vs with
              | Some a => Some (mkMem (m_res m) a (m_out m))
              | None => None
              end
          end
      end
  | Copy ls e =>
      match nth_error (m_comp m) e with
      | None => None
      | Some v =>
          match assignAll (m_res m) ls v with
          | Some a => Some (mkMem a (m_comp m) (m_out m))
          | None => None
          end
      end
  end.

Fixpoint run (b : list stmt) (m : mem) : option mem :=
  match b with
  | [] => Some m
  | s :: r => match step s m with Some m' => run r m' | None => None end
  end.

(** A call of the generated single-thread function with the result array [res]; [garbage] is the initial content of
    the array compressed, which is not initialised. *)
Definition runProgram (p : program) (garbage res : list V) : option (list V) :=
  match run (pr_body p) (mkMem res garbage (if pr_start p then InCompressed else Nowhere)) with
  | Some m => Some (m_res m)
  | None => None
  end.

(** The writes that a job makes in the result array, in order: out[0] is &jac[offset] and, in a function "_wrap",
    jac is that pointer; its array compressed (initially [garbage]) is not shared with other jobs. *)
Fixpoint directWrites (p : nat) (vs : list V) : list (nat * V) :=
  match vs with
  | [] => []
  | v :: r => (p, v) :: directWrites (S p) r
  end.

Fixpoint copyWrites (offset : nat) (comp : list V) (b : list stmt) : option (list (nat * V)) :=
  match b with
  | [] => Some []
  | Copy ls e :: r =>
      match nth_error comp e, copyWrites offset comp r with
      | Some v, Some ws => Some (map (fun l => (offset + l, v)) (rev ls) ++ ws)
      | _, _ => None
      end
  | _ :: _ => None
  end.

(** [fnWrap] are the directional functions as they are called by the functions "_wrap". *)
Definition jobWrites (fnWrap : nat -> option (list V)) (garbage : nat -> list V) (j : job * nat) : option (list (nat * V)) :=
  match fst j with
  | Direct k => match fn k with Some vs => Some (directWrites (snd j) vs) | None => None end
  | Wrap k size b =>
      match fnWrap k with
      | Some vs =>
          match writeAll (firstn size (garbage k)) 0 vs with
          | Some comp => copyWrites (snd j) comp b
          | None => None
          end
      | None => None
      end
  end.

Fixpoint allWrites (fnWrap : nat -> option (list V)) (garbage : nat -> list V) (js : list (job * nat))
  : option (list (list (nat * V))) :=
  match js with
  | [] => Some []
  | j :: r =>
      match jobWrites fnWrap garbage j, allWrites fnWrap garbage r with
      | Some t, Some ts => Some (t :: ts)
      | _, _ => None
      end
  end.

(** The writes of the threads in the order in which they reach the result array. *)
Fixpoint applyWrites (ws : list (nat * V)) (a : list V) : option (list V) :=
  match ws with
  | [] => Some a
  | (p, v) :: r => if p <? length a then applyWrites r (setNth a p v) else None
  end.

End Exec.

(** Any way of ordering the accesses of several jobs which keeps the order of the accesses of each job: the schedules
    of the OpenMP loop (model_c_source_gen_jac.hpp 429-436) and of the thread pool (438-453). *)
Inductive interleaving {A} : list (list A) -> list A -> Prop :=
| ilNil ts : (forall t, In t ts -> t = []) -> interleaving ts []
| ilCons ts i a t l : nth_error ts i = Some (a :: t) -> interleaving (setNth ts i t) l -> interleaving ts (a :: l).

(** ** The directional functions *)
Section Functions.
Variable V : Type.
Variable zero : V.
Variable D : nat -> nat -> V.

(** With atomic functions: generateSparseForwardOneSourcesWithAtomics (model_c_source_gen_for1.hpp 62-130),
    generateSparseReverseOneSourcesWithAtomics (model_c_source_gen_rev1.hpp 60-130),
    generateSparseReverseTwoSourcesWithAtomics (model_c_source_gen_rev2.hpp 67-138): the elements are taken from the
    dense direction. *)
Definition outAtomics (k : nat) (els : list nat) : list V := map (D k) els.

(** The map pos, for one key: the last position of each element (model_c_source_gen_for1.hpp 166-180,
    model_c_source_gen_rev1.hpp 172-186, model_c_source_gen_rev2.hpp 154-165). *)
Fixpoint lastPos (v : nat) (els : list nat) (e : nat) : option nat :=
  match els with
  | [] => None
  | v' :: r =>
      match lastPos v r (S e) with
      | Some p => Some p
      | None => if v' =? v then Some e else None
      end
  end.

(** The loop which organises the elements, for one key (model_c_source_gen_for1.hpp 182-189,
    model_c_source_gen_rev1.hpp 188-195, model_c_source_gen_rev2.hpp 207-214): column[pos.at(i)] = jacFlat[el].  The
    column starts with default values, which are zero.  [positions.at] of an element which is not there throws. *)
Fixpoint organise (k : nat) (els : list nat) (ks vs : list nat) (col : list V) : option (list V) :=
  match ks, vs with
  | k' :: ks', v' :: vs' =>
      if k' =? k then
        match lastPos v' els 0 with
        | Some e => organise k els ks' vs' (setNth col e (D k v'))
        | None => None
        end
      else organise k els ks' vs' col
  | _, _ => Some col
  end.

Definition outNoAtomics (ks vs : list nat) (k : nat) (els : list nat) : option (list V) :=
  organise k els ks vs (repeat zero (length els)).

(** The generated functions: one for each key of the map elements. *)
Definition functions (atomics : bool) (ks vs : list nat) (k : nat) : option (list V) :=
  match find (fun g => fst g =? k) (group ks vs) with
  | None => None
  | Some g => if atomics then Some (outAtomics k (snd g)) else outNoAtomics ks vs k (snd g)
  end.

End Functions.

(** ** The Hessian *)

(** determineSecondOrderElements4Eval, model_c_source_gen_hes.hpp 516-541: the symmetric element is evaluated when
    only it is in the sparsity pattern.  [None]: an index out of the pattern. *)
Fixpoint evalElements (sp : list (list nat)) (rows cols : list nat) : option (list nat * list nat) :=
  match rows, cols with
  | i :: rows', j :: cols' =>
      match nth_error sp i with
      | None => None
      | Some ri =>
          match (if existsb (Nat.eqb j) ri then Some false
                 else match nth_error sp j with Some rj => Some (existsb (Nat.eqb i) rj) | None => None end),
                evalElements sp rows' cols' with
          | Some true, Some (rs, cs) => Some (j :: rs, i :: cs)
          | Some false, Some (rs, cs) => Some (i :: rs, j :: cs)
          | _, _ => None
          end
      end
  | _, _ => Some ([], [])
  end.

(** The map locations of generateSparseHessianSourceDirectly, model_c_source_gen_hes.hpp 107-123, as the list of the
    elements found so far: [false] when a repeated element makes it throw. *)
Fixpoint noRepeated (seen : list (nat * nat)) (rows cols : list nat) : bool :=
  match rows, cols with
  | i :: rows', j :: cols' =>
      if existsb (fun p => (fst p =? i) && (snd p =? j)) seen then false
      else noRepeated ((i, j) :: seen) rows' cols'
  | _, _ => true
  end.

(** The loop of model_c_source_gen_hes.hpp 134-156: the position of the symmetric element when the element is above
    the diagonal and the symmetric one was requested ([firstAt]: the map has one position for each element, as there
    are no repeated ones). *)
Definition duplicateOf (rows cols : list nat) (i j : nat) : option nat :=
  if i <? j then firstAt j i rows cols 0 else None.

(** model_c_source_gen_hes.hpp 183-203: the evaluated elements are put in their places and then the others are
    copied. *)
Fixpoint lowerValues {V} (H : nat -> nat -> V) (rows cols : list nat) (all : list nat * list nat) (e : nat)
  (hess : list V) : list V :=
  match rows, cols with
  | i :: rows', j :: cols' =>
      lowerValues H rows' cols' all (S e)
        (match duplicateOf (fst all) (snd all) i j with None => setNth hess e (H i j) | Some _ => hess end)
  | _, _ => hess
  end.

Fixpoint copyDuplicates {V} (rows cols : list nat) (all : list nat * list nat) (e : nat) (hess : list V)
  : option (list V) :=
  match rows, cols with
  | i :: rows', j :: cols' =>
      match duplicateOf (fst all) (snd all) i j with
      | None => copyDuplicates rows' cols' all (S e) hess
      | Some s =>
          match nth_error hess s with
          | Some v => copyDuplicates rows' cols' all (S e) (setNth hess e v)
          | None => None
          end
      end
  | _, _ => Some hess
  end.

Inductive houtcome (V : Type) := HDone (hess : list V) | HThrow | HUndef.
Arguments HDone {V}. Arguments HThrow {V}. Arguments HUndef {V}.

(** generateSparseHessianSourceDirectly, model_c_source_gen_hes.hpp 92-224, without loops; the generated code assigns
    each element of hess. *)
Definition hessianDirectly {V} (zero : V) (H : nat -> nat -> V) (sp : list (list nat)) (rows cols : list nat)
  : houtcome V :=
  match evalElements sp rows cols with
  | None => HUndef
  | Some (rs, cs) =>
      if noRepeated [] rs cs then
        match copyDuplicates rs cs (rs, cs) 0 (lowerValues H rs cs (rs, cs) 0 (repeat zero (length rows))) with
        | Some h => HDone h
        | None => HUndef
        end
      else HThrow
  end.

(** ** The arguments of the directional functions *)

(** The arrays to which the pointers of an argument in[] may point: the independent variables, a variable inLocal1 with
    the value 1, or the multipliers. *)
Inductive arr := ArX | ArOne | ArW.

(** The argument in[] of the sparse Jacobian and of the sparse Hessian (functor_generic_model.hpp). *)
Definition userIn (hessian : bool) : list arr := if hessian then [ArX; ArW] else [ArX].

(** inLocal made from in[].  The single-thread function (model_c_source_gen_jac.hpp 278-280, model_c_source_gen_hes.hpp
    329-331), the multi-thread function (model_c_source_gen_jac.hpp 422-423, model_c_source_gen_hes.hpp 479-480) and
    the functions "_wrap" (model_c_source_gen_jac.hpp 358-366, model_c_source_gen_hes.hpp 414-422) have the same
    statements: inLocal[0] = in[0]; inLocal[1] = &inLocal1; and, in the Hessian, inLocal[2] = in[1]; *)
Definition localIn (hessian : bool) (inp : list arr) : option (list arr) :=
  if hessian then match inp with a0 :: a1 :: _ => Some [a0; ArOne; a1] | _ => None end
  else match inp with a0 :: _ => Some [a0; ArOne] | _ => None end.

(** The argument of the directional functions called by the sparse Jacobian or Hessian, and of those called by the
    functions "_wrap", which receive the inLocal of the multi-thread function as in[] (args[i]->in = inLocal, or
    ( *p[i])(inLocal, outLocal, atomicFun)). *)
Definition directIn (hessian : bool) : option (list arr) := localIn hessian (userIn hessian).
Definition wrapIn (hessian : bool) : option (list arr) :=
  match directIn hessian with Some inp => localIn hessian inp | None => None end.

(** ** The whole: a call of the sparse Jacobian (Hessian) of the generated library *)
Section Calls.
Variable V : Type.
Variables zero one : V.
(** The numbers of independent and of dependent variables, the values of the independent variables and the
    multipliers. *)
Variables n m : nat.
Variables x w : list V.

Definition contents (a : arr) : list V := match a with ArX => x | ArOne => [one] | ArW => w end.

(** The derivative G (values, factor of the direction, multipliers) given by a directional function which was called
    with the argument inp; [None]: an array is shorter than what is read from it. *)
Definition derivative (hessian : bool) (G : list V -> V -> list V -> nat -> nat -> V) (inp : option (list arr))
  : option (nat -> nat -> V) :=
  match inp with
  | Some (a0 :: a1 :: r) =>
      match contents a1 with
      | s :: _ =>
          if length (contents a0) <? n then None
          else if hessian then
            match r with
            | a2 :: _ => if length (contents a2) <? m then None
                         else Some (G (firstn n (contents a0)) s (firstn m (contents a2)))
            | [] => None
            end
          else Some (G (firstn n (contents a0)) s [])
      | [] => None
      end
  | _ => None
  end.

Definition functionsAt (atomics : bool) (oD : option (nat -> nat -> V)) (ks vs : list nat) (k : nat) : option (list V) :=
  match oD with Some D => functions V zero D atomics ks vs k | None => None end.

(** The single-thread sparse Jacobian in forward ([forward = true]) or reverse mode; [J i j] is the derivative of the
    equation i with respect to the variable j. *)
Definition keys {A} (forward : bool) (rows cols : A) : A := if forward then cols else rows.
Definition vals {A} (forward : bool) (rows cols : A) : A := if forward then rows else cols.
Definition byKey (forward : bool) (J : nat -> nat -> V) (k v : nat) : V := if forward then J v k else J k v.

Definition assembleCall (hessian atomics : bool) (oD : option (nat -> nat -> V)) (ks vs : list nat)
  (garbage : nat -> list V) (res : list V) : option (list V) :=
  match entries ks vs with
  | None => None
  | Some is =>
      let p := singleThread hessian is in
      runProgram V (functionsAt atomics oD ks vs) p (firstn (pr_size p) (garbage 0)) res
  end.

Definition sparseJacobian (forward atomics : bool) (G : list V -> V -> list V -> nat -> nat -> V) (rows cols : list nat)
  (garbage : nat -> list V) (res : list V) : option (list V) :=
  assembleCall false atomics (derivative false (fun x s w => byKey forward (G x s w)) (directIn false))
    (keys forward rows cols) (vals forward rows cols) garbage res.

(** The writes of each job of the multi-thread version; [oDW] is for the functions "_wrap". *)
Definition assembleJobs (atomics : bool) (oD oDW : option (nat -> nat -> V)) (ks vs : list nat) (garbage : nat -> list V)
  : option (list (list (nat * V))) :=
  match entries ks vs with
  | None => None
  | Some is => allWrites V (functionsAt atomics oD ks vs) (functionsAt atomics oDW ks vs) garbage (multiThread is)
  end.

Definition sparseJacobianJobs (forward atomics : bool) (G : list V -> V -> list V -> nat -> nat -> V)
  (rows cols : list nat) (garbage : nat -> list V) : option (list (list (nat * V))) :=
  let d := derivative false (fun x s w => byKey forward (G x s w)) in
  assembleJobs atomics (d (directIn false)) (d (wrapIn false)) (keys forward rows cols) (vals forward rows cols) garbage.

(** The sparse Hessian from the second-order reverse functions: generateSparseHessianSourceFromRev2,
    model_c_source_gen_hes.hpp 226-302, without loops. *)
Definition sparseHessianRev2 (atomics : bool) (G : list V -> V -> list V -> nat -> nat -> V) (sp : list (list nat))
  (rows cols : list nat) (garbage : nat -> list V) (res : list V) : option (list V) :=
  match evalElements sp rows cols with
  | None => None
  | Some (rs, cs) => assembleCall true atomics (derivative true G (directIn true)) rs cs garbage res
  end.

Definition sparseHessianRev2Jobs (atomics : bool) (G : list V -> V -> list V -> nat -> nat -> V) (sp : list (list nat))
  (rows cols : list nat) (garbage : nat -> list V) : option (list (list (nat * V))) :=
  match evalElements sp rows cols with
  | None => None
  | Some (rs, cs) =>
      assembleJobs atomics (derivative true G (directIn true)) (derivative true G (wrapIn true)) rs cs garbage
  end.

End Calls.

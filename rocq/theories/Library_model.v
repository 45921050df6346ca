(** Model objects and model libraries: opening and closing dynamic libraries,
    obtaining, moving and destroying model objects, registering external
    functions and evaluating, over any history of such operations.

    Modelled code (all under include/cppad/cg/model):
    - dynamic_lib/linux/linux_dynamiclib.hpp 31-125 (LinuxDynamicLib)
    - dynamic_lib/linux/linux_dynamiclib_model.hpp 32-81 (LinuxDynamicLibModel)
    - functor_model_library.hpp 28-265 (FunctorModelLibrary)
    - functor_generic_model.hpp 34-1121 (FunctorGenericModel)
    - generic_model.hpp 28-48 and 889-894 (move, destruction and asAtomic)

    Simplifications: strings (paths, names) are numbers, since they are only
    compared; [std::set] is a list without repetitions; the compiled code is
    a set of functions of which only the identity, the number of non-zeros
    and the atomic functions that it calls are kept; the return code of
    compiled functions is 0 (the other codes are in Drivers_model.v). *)
From Coq Require Import List Bool PeanoNat Arith Lia.
Import ListNotations.

Definition path := nat.
Definition name := nat.
Definition oid := nat.

(** The functions of a compiled model that a model object may hold pointers
    to, functor_generic_model.hpp 53-93: the evaluation functions and the
    functions that give sparsity patterns. *)
Inductive fn : Type :=
| FZero | FFor1 | FRev1 | FRev2 | FJac | FHes
| FSFor1 | FSRev1 | FSRev2 | FSJac | FSHes
| PFor1 | PRev1 | PRev2 | PJac | PHes | PHes2.

(** What a library file has for one model: whether its element type is that
    of the caller ([md_type]), the numbers that the information function
    reports (functor_generic_model.hpp 947: equations, variables, input and
    output arrays), which functions are present, the names of the atomic
    functions it uses (None: the function that gives them is missing), the
    positions of the atomic functions that each function calls and the
    numbers of non-zeros of the Jacobian and Hessian. *)
Record mdl : Type := {
  md_type : bool;
  md_m : nat; md_n : nat; md_in : nat; md_out : nat;
  md_fn : fn -> bool;
  md_names : option (list name);
  md_calls : fn -> list nat;
  md_nnzJ : nat; md_nnzH : nat }.

(** A library file: the API version it reports (None: no such function), the
    list of model names (None: no such function), the symbols of each model
    and whether it has the thread pool functions (the on-close function is
    part of these). *)
Record file : Type := {
  fl_version : option nat;
  fl_models : option (list name);
  fl_mdl : name -> option mdl;
  fl_pool : bool }.

(** An external function given by the user: a CppAD atomic function or
    another model object (functor_generic_model.hpp 149-157). *)
Inductive ext : Type :=
| EAtomic (f : nat)
| EModel (m : oid).

(** LinuxDynamicLib: _dynLibHandle (None: nullptr), _modelNames, _models,
    the pointers to the thread functions (present or not) and _onClose. *)
Record lib : Type := {
  lb_path : path;
  lb_handle : bool;
  lb_names : list name;
  lb_models : list oid;
  lb_pool : bool;
  lb_onclose : bool }.

(** LinuxDynamicLibModel: _dynLib, _isLibraryReady, _name, _m, _n, sizes of
    _in and _out, the function pointers (into the file at [mo_path], null
    when [mo_fn] is false), _atomicNames, _atomic, _missingAtomicFunctions,
    _atomicFuncArg.libModel and the model that GenericModel::_atomic refers
    to (None: nullptr). *)
Record model : Type := {
  mo_lib : option oid;
  mo_ready : bool;
  mo_path : path; mo_name : name;
  mo_m : nat; mo_n : nat; mo_in : nat; mo_out : nat;
  mo_fn : fn -> bool;
  mo_names : list name;
  mo_ext : list (option ext);
  mo_missing : nat;
  mo_arg : oid;
  mo_atomic : option oid }.

(** The state: the objects alive, the next identity, how many times each
    file was opened and not closed (the count kept by dlopen and dlclose),
    the number of threads kept in the global variables of each mapped file
    and the calls made to the on-close functions (last first). *)
Record state : Type := {
  st_lib : oid -> option lib;
  st_mo : oid -> option model;
  st_next : oid;
  st_ref : path -> nat;
  st_thr : path -> nat;
  st_closed : list path }.

Definition upd {A} (f : nat -> A) (k : nat) (v : A) : nat -> A :=
  fun i => if Nat.eqb i k then v else f i.

Definition initial : state :=
  {| st_lib := fun _ => None; st_mo := fun _ => None; st_next := 0;
     st_ref := fun _ => 0; st_thr := fun _ => 0; st_closed := [] |}.

Definition setLib s l v : state :=
  {| st_lib := upd (st_lib s) l v; st_mo := st_mo s; st_next := st_next s;
     st_ref := st_ref s; st_thr := st_thr s; st_closed := st_closed s |}.
Definition setMo s m v : state :=
  {| st_lib := st_lib s; st_mo := upd (st_mo s) m v; st_next := st_next s;
     st_ref := st_ref s; st_thr := st_thr s; st_closed := st_closed s |}.
Definition setRef s p v : state :=
  {| st_lib := st_lib s; st_mo := st_mo s; st_next := st_next s;
     st_ref := upd (st_ref s) p v; st_thr := st_thr s; st_closed := st_closed s |}.
Definition setThr s p v : state :=
  {| st_lib := st_lib s; st_mo := st_mo s; st_next := st_next s;
     st_ref := st_ref s; st_thr := upd (st_thr s) p v; st_closed := st_closed s |}.
Definition fresh s : state :=
  {| st_lib := st_lib s; st_mo := st_mo s; st_next := S (st_next s);
     st_ref := st_ref s; st_thr := st_thr s; st_closed := st_closed s |}.
Definition closing s p : state :=
  {| st_lib := st_lib s; st_mo := st_mo s; st_next := st_next s;
     st_ref := st_ref s; st_thr := st_thr s; st_closed := p :: st_closed s |}.

(** The messages of the exceptions, grouped. *)
Inductive msg : Type :=
| MNoFile | MNoFunction | MVersion | MType | MDimension | MFunctions
| MNotReady | MNotDefined | MArrays | MSize | MMissing.

(** One call of a compiled function: the file, the model, the function and
    the external functions that the compiled code calls. *)
Record ran : Type := { rn_path : path; rn_name : name; rn_fn : fn; rn_ext : list ext }.

(** What an operation gives to the caller. *)
Inductive out : Type :=
| ONew (i : oid)
| ONull
| OThrow (e : msg)
| OBool (b : bool)
| ONat (n : nat)
| ONames (l : list name)
| ORan (l : list ran)
| ODone
| OUB.

(** The evaluation methods, functor_generic_model.hpp 336-885, with the
    sizes of the arguments ([k]: number of arrays, [nnz]: number of given
    elements of the sparse argument). *)
Inductive eval : Type :=
| EvZero (nx ny : nat)
| EvZeroArrays (k ny : nat)
| EvZeroVars (nvx nvy nx ny : nat)
| EvJac (nx nj : nat)
| EvHes (nx nw nh : nat)
| EvFor1 (ntx nty : nat)
| EvFor1S (nx nty nnz : nat)
| EvRev1 (ntx nty npx npy : nat)
| EvRev1S (nx npx nnz : nat)
| EvRev2 (ntx nty npx npy : nat)
| EvRev2S (nx npx npy nnz : nat)
| EvSJacDense (nx nj : nat)
| EvSJacVec (nx : nat)
| EvSJac (nx nj : nat)
| EvSJacArrays (k nj : nat)
| EvSHesDense (nx nw nh : nat)
| EvSHesVec (nx nw : nat)
| EvSHes (nx nw nh : nat)
| EvSHesArrays (k nw nh : nat).

(** The operations of the user. *)
Inductive op : Type :=
| Open (p : path)
| MoveLib (l : oid)
| Close (l : oid)
| Get (l : oid) (n : name)
| MoveModel (m : oid)
| Destroy (m : oid)
| Register (m : oid) (n : name) (e : ext)
| Avail (m : oid) (f : fn)
| AtomicNames (m : oid)
| Eval (m : oid) (e : eval)
| AsAtomicEval (m : oid) (e : eval)
| SetThreads (l : oid) (n : nat)
| GetThreads (l : oid).

Section LIB.

(** The files of the system, the API version of the header files and
    std::thread::hardware_concurrency(). *)
Variable fs : path -> option file.
Variable api : nat.
Variable hc : nat.

(** FunctorModelLibrary::validate, functor_model_library.hpp 207-258: the
    names of the models, or the exception. *)
Definition validateLib (f : file) : list name + msg :=
  match fl_version f with
  | None => inr MNoFunction
  | Some v =>
      if negb (Nat.eqb api v) then inr MVersion
      else match fl_models f with
           | None => inr MNoFunction
           | Some l => inl l
           end
  end.

(** LinuxDynamicLib constructor, linux_dynamiclib.hpp 41-62.  When validate
    throws the destructor does not run, hence dlclose is not called. *)
Definition openLib (s : state) (p : path) : state * out :=
  match fs p with
  | None => (s, OThrow MNoFile)
  | Some f =>
      let s := setRef s p (S (st_ref s p)) in
      match validateLib f with
      | inr e => (s, OThrow e)
      | inl names =>
          let s := if fl_pool f then setThr s p hc else s in
          (fresh (setLib s (st_next s)
             (Some {| lb_path := p; lb_handle := true; lb_names := names;
                      lb_models := []; lb_pool := fl_pool f;
                      lb_onclose := fl_pool f |})),
           ONew (st_next s))
      end
  end.

(** LinuxDynamicLib(LinuxDynamicLib&&), linux_dynamiclib.hpp 64-70 and
    functor_model_library.hpp 47-64: the handle, the on-close function, the
    names and the set of models go to the new object; the pointers to the
    thread functions are copied. *)
Definition moveLib (s : state) (l : oid) : state * out :=
  match st_lib s l with
  | None => (s, OUB)
  | Some b =>
      let s := setLib s (st_next s) (Some b) in
      let s := setLib s l
        (Some {| lb_path := lb_path b; lb_handle := false; lb_names := [];
                 lb_models := []; lb_pool := lb_pool b; lb_onclose := false |}) in
      (fresh s, ONew (st_next s))
  end.

(** LinuxDynamicLibModel::modelLibraryClosed, linux_dynamiclib_model.hpp
    75-78, and FunctorGenericModel::modelLibraryClosed,
    functor_generic_model.hpp 1053-1073. *)
Definition closedModel (o : model) : model :=
  {| mo_lib := None; mo_ready := false; mo_path := mo_path o; mo_name := mo_name o;
     mo_m := mo_m o; mo_n := mo_n o; mo_in := mo_in o; mo_out := mo_out o;
     mo_fn := fun _ => false; mo_names := mo_names o; mo_ext := mo_ext o;
     mo_missing := mo_missing o; mo_arg := mo_arg o; mo_atomic := mo_atomic o |}.

(** The loop over _models in the destructor, linux_dynamiclib.hpp 103-105;
    None: an object of the set does not exist any more. *)
Fixpoint closeModels (mo : oid -> option model) (l : list oid) :
  option (oid -> option model) :=
  match l with
  | [] => Some mo
  | m :: r =>
      match mo m with
      | None => None
      | Some o => closeModels (upd mo m (Some (closedModel o))) r
      end
  end.

(** ~LinuxDynamicLib, linux_dynamiclib.hpp 102-115. *)
Definition closeLib (s : state) (l : oid) : state * out :=
  match st_lib s l with
  | None => (s, OUB)
  | Some b =>
      match closeModels (st_mo s) (lb_models b) with
      | None => (s, OUB)
      | Some mo =>
          let s := {| st_lib := upd (st_lib s) l None; st_mo := mo;
                      st_next := st_next s; st_ref := st_ref s;
                      st_thr := st_thr s; st_closed := st_closed s |} in
          if lb_handle b then
            let s := if lb_onclose b then closing s (lb_path b) else s in
            (setRef s (lb_path b) (pred (st_ref s (lb_path b))), ODone)
          else (s, ODone)
      end
  end.

(** The consistency tests of FunctorGenericModel::loadFunctions,
    functor_generic_model.hpp 984-991. *)
Definition consistent (f : fn -> bool) : bool :=
  eqb (f FSFor1) (f PFor1) && eqb (f FSFor1) (f FFor1)
  && eqb (f FSRev1) (f PRev1) && eqb (f FSRev1) (f FRev1)
  && eqb (f FSRev2) (f PRev2) && eqb (f FSRev2) (f FRev2)
  && (negb (f FSJac) || f PJac) && (negb (f FSHes) || f PHes).

(** LinuxDynamicLibModel constructor and init: validate and loadFunctions,
    functor_generic_model.hpp 921-1011. *)
Definition newModel (l : oid) (p : path) (n : name) (id : oid) (f : file) : model + msg :=
  match fl_mdl f n with
  | None => inr MNoFunction
  | Some md =>
      if negb (md_type md) then inr MType
      else if Nat.eqb (md_in md) 0 || Nat.eqb (md_out md) 0 then inr MDimension
      else match md_names md with
           | None => inr MNoFunction
           | Some an =>
               if negb (consistent (md_fn md)) then inr MFunctions
               else inl {| mo_lib := Some l; mo_ready := true; mo_path := p; mo_name := n;
                           mo_m := md_m md; mo_n := md_n md; mo_in := md_in md;
                           mo_out := md_out md; mo_fn := md_fn md; mo_names := an;
                           mo_ext := map (fun _ => None) an; mo_missing := length an;
                           mo_arg := id; mo_atomic := None |}
           end
  end.

(** LinuxDynamicLib::modelLinuxDyn, linux_dynamiclib.hpp 75-84. *)
Definition getModel (s : state) (l : oid) (n : name) : state * out :=
  match st_lib s l with
  | None => (s, OUB)
  | Some b =>
      if existsb (Nat.eqb n) (lb_names b) then
        match fs (lb_path b) with
        | None => (s, OUB)
        | Some f =>
            match newModel l (lb_path b) n (st_next s) f with
            | inr e => (s, OThrow e)
            | inl o =>
                let b' := {| lb_path := lb_path b; lb_handle := lb_handle b;
                             lb_names := lb_names b;
                             lb_models := st_next s :: lb_models b;
                             lb_pool := lb_pool b; lb_onclose := lb_onclose b |} in
                (fresh (setMo (setLib s l (Some b')) (st_next s) (Some o)),
                 ONew (st_next s))
            end
        end
      else (s, ONull)
  end.

(** The move constructors: linux_dynamiclib_model.hpp 40-44,
    functor_generic_model.hpp 97-131 and generic_model.hpp 40-44.  The new
    object is not inserted in the set of the library. *)
Definition moveModel (s : state) (m : oid) : state * out :=
  match st_mo s m with
  | None => (s, OUB)
  | Some o =>
      let o' := {| mo_lib := mo_lib o; mo_ready := mo_ready o; mo_path := mo_path o;
                   mo_name := mo_name o; mo_m := mo_m o; mo_n := mo_n o;
                   mo_in := mo_in o; mo_out := mo_out o; mo_fn := mo_fn o;
                   mo_names := mo_names o; mo_ext := mo_ext o;
                   mo_missing := mo_missing o; mo_arg := st_next s;
                   mo_atomic := mo_atomic o |} in
      let old := {| mo_lib := None; mo_ready := false; mo_path := mo_path o;
                    mo_name := mo_name o; mo_m := mo_m o; mo_n := mo_n o;
                    mo_in := 0; mo_out := 0; mo_fn := mo_fn o;
                    mo_names := []; mo_ext := []; mo_missing := mo_missing o;
                    mo_arg := mo_arg o; mo_atomic := None |} in
      (fresh (setMo (setMo s (st_next s) (Some o')) m (Some old)), ONew (st_next s))
  end.

(** ~LinuxDynamicLibModel, linux_dynamiclib_model.hpp 46-50, and
    LinuxDynamicLib::destroyed, linux_dynamiclib.hpp 119-121. *)
Definition destroyModel (s : state) (m : oid) : state * out :=
  match st_mo s m with
  | None => (s, OUB)
  | Some o =>
      match mo_lib o with
      | None => (setMo s m None, ODone)
      | Some l =>
          match st_lib s l with
          | None => (s, OUB)
          | Some b =>
              let b' := {| lb_path := lb_path b; lb_handle := lb_handle b;
                           lb_names := lb_names b;
                           lb_models := filter (fun i => negb (Nat.eqb i m)) (lb_models b);
                           lb_pool := lb_pool b; lb_onclose := lb_onclose b |} in
              (setMo (setLib s l (Some b')) m None, ODone)
          end
      end
  end.

(** The loop of addExternalFunction, functor_generic_model.hpp 1076-1092,
    over the names and the wrappers: the new wrappers and the new number of
    missing functions (None: no such name). *)
Fixpoint addExternal (n : name) (e : ext) (names : list name)
    (exts : list (option ext)) (missing : nat) : option (list (option ext) * nat) :=
  match names, exts with
  | a :: names', x :: exts' =>
      if Nat.eqb n a then
        Some (Some e :: exts', match x with None => pred missing | Some _ => missing end)
      else
        match addExternal n e names' exts' missing with
        | None => None
        | Some (r, k) => Some (x :: r, k)
        end
  | _, _ => None
  end.

(** addAtomicFunction and addExternalModel, functor_generic_model.hpp
    149-157. *)
Definition register (s : state) (m : oid) (n : name) (e : ext) : state * out :=
  match st_mo s m with
  | None => (s, OUB)
  | Some o =>
      match addExternal n e (mo_names o) (mo_ext o) (mo_missing o) with
      | None => (s, OBool false)
      | Some (exts, k) =>
          (setMo s m (Some
             {| mo_lib := mo_lib o; mo_ready := mo_ready o; mo_path := mo_path o;
                mo_name := mo_name o; mo_m := mo_m o; mo_n := mo_n o;
                mo_in := mo_in o; mo_out := mo_out o; mo_fn := mo_fn o;
                mo_names := mo_names o; mo_ext := exts; mo_missing := k;
                mo_arg := mo_arg o; mo_atomic := mo_atomic o |}), OBool true)
      end
  end.

(** What the wrapper of an external function needs: an external model must
    still exist (generic_model_external_function_wrapper.hpp 31-40). *)
Definition reach (s : state) (e : ext) : bool :=
  match e with
  | EAtomic _ => true
  | EModel m => match st_mo s m with None => false | Some _ => true end
  end.

(** The calls atomicForward/atomicReverse made by compiled code, one per
    position: functor_generic_model.hpp 1094-1116.  None: the model of
    _atomicFuncArg, the wrapper or the external model does not exist. *)
Fixpoint callExternals (s : state) (exts : list (option ext)) (l : list nat) :
  option (list ext) :=
  match l with
  | [] => Some []
  | i :: r =>
      match nth i exts None with
      | None => None
      | Some e =>
          if reach s e then
            match callExternals s exts r with
            | None => None
            | Some es => Some (e :: es)
            end
          else None
      end
  end.

(** A call through one of the function pointers of a model object: undefined
    when the pointer is null or when the file is not mapped any more. *)
Definition callFn (s : state) (o : model) (f : fn) : option ran :=
  if mo_fn o f then
    match st_ref s (mo_path o) with
    | 0 => None
    | S _ =>
        match fs (mo_path o) with
        | None => None
        | Some fl =>
            match fl_mdl fl (mo_name o) with
            | None => None
            | Some md =>
                match st_mo s (mo_arg o) with
                | None => None
                | Some a =>
                    match callExternals s (mo_ext a) (md_calls md f) with
                    | None => None
                    | Some es => Some {| rn_path := mo_path o; rn_name := mo_name o;
                                         rn_fn := f; rn_ext := es |}
                    end
                end
            end
        end
    end
  else None.

(** A sequence of such calls. *)
Fixpoint callFns (s : state) (o : model) (l : list fn) : option (list ran) :=
  match l with
  | [] => Some []
  | f :: r =>
      match callFn s o f with
      | None => None
      | Some c => match callFns s o r with
                  | None => None
                  | Some cs => Some (c :: cs)
                  end
      end
  end.

(** The number of non-zeros that the sparsity functions report. *)
Definition nnzOf (o : model) (sel : mdl -> nat) : nat :=
  match fs (mo_path o) with
  | None => 0
  | Some fl => match fl_mdl fl (mo_name o) with None => 0 | Some md => sel md end
  end.

(** The steps of a method: tests, then calls, then further tests and calls
    (only when the earlier steps succeed).  [SRead b]: an access outside of
    an array of the caller unless [b]. *)
Inductive stepk : Type :=
| STest (b : bool) (e : msg)
| SCall (l : list fn)
| SRead (b : bool).

Fixpoint perform (s : state) (o : model) (l : list stepk) (acc : list ran) : out :=
  match l with
  | [] => ORan acc
  | STest true _ :: r => perform s o r acc
  | STest false e :: _ => OThrow e
  | SRead true :: r => perform s o r acc
  | SRead false :: _ => OUB
  | SCall fsl :: r =>
      match callFns s o fsl with
      | None => OUB
      | Some c => perform s o r (acc ++ c)
      end
  end.

(** [n] copies of a list of calls. *)
Fixpoint times (n : nat) (l : list fn) : list fn :=
  match n with 0 => [] | S k => l ++ times k l end.

(** The bodies of the evaluation methods, functor_generic_model.hpp 336-885,
    in the order of the code. *)
Definition body (o : model) (e : eval) : list stepk :=
  let ready := STest (mo_ready o) MNotReady in
  let has f := STest (mo_fn o f) MNotDefined in
  let one := STest (Nat.eqb (mo_in o) 1) MArrays in
  let arrays k := STest (Nat.eqb (mo_in o) k) MArrays in
  let eq a b := STest (Nat.eqb a b) MSize in
  let ge a b := STest (Nat.leb b a) MSize in
  let atomics := STest (Nat.eqb (mo_missing o) 0) MMissing in
  let n := mo_n o in
  let m := mo_m o in
  let nj := nnzOf o md_nnzJ in
  let nh := nnzOf o md_nnzH in
  let when (b : bool) (l : list stepk) := if b then l else [] in
  match e with
  | EvZero nx ny => (* 336-350 *)
      [ready; has FZero; one; eq ny m; eq nx n; atomics; SCall [FZero]]
  | EvZeroArrays k ny => (* 352-363 *)
      [ready; has FZero; arrays k; eq ny m; atomics; SCall [FZero]]
  | EvZeroVars nvx nvy nx ny => (* 365-395 *)
      [ready; has FZero; one; eq nx n; eq ny m; atomics; SCall [FZero]]
      ++ when (Nat.ltb 0 nvx)
           [ge nvx n; ge nvy m; ready; has PJac; SCall [PJac]]
  | EvJac nx nj => (* 402-417 *)
      [ready; has FJac; one; eq nx n; eq nj (m * n); atomics; SCall [FJac]]
  | EvHes nx nw nh => (* 424-441 *)
      [ready; has FHes; one; eq nx n; eq nw m; eq nh (n * n); atomics; SCall [FHes]]
  | EvFor1 ntx nty => (* 447-460 *)
      [ready; has FFor1; ge ntx (2 * n); ge nty (2 * m); atomics; SCall [FFor1]]
  | EvFor1S nx nty nnz => (* 466-502 *)
      [ready; has FSFor1; has PFor1; ge nx n; ge nty m; atomics;
       SCall (times nnz [PFor1; FSFor1])]
  | EvRev1 ntx nty npx npy => (* 508-526 *)
      [ready; has FRev1; ge ntx n; ge nty m; ge npx n; ge npy m; atomics; SCall [FRev1]]
  | EvRev1S nx npx nnz => (* 532-568 *)
      [ready; has FSRev1; has PRev1; ge nx n; ge npx n; atomics;
       SCall (times nnz [PRev1; FSRev1])]
  | EvRev2 ntx nty npx npy => (* 574-594 *)
      [ready; has FRev2; one; ge ntx (2 * n); ge nty (2 * m); ge npx (2 * n);
       ge npy (2 * m); atomics; SCall [FRev2]]
  | EvRev2S nx npx npy nnz => (* 600-640 *)
      [ready; has FSRev2; has PRev2; ge nx n; ge npx n; ge npy m; atomics;
       SCall (times nnz [PRev2; FSRev2])]
  | EvSJacDense nx nd => (* 648-677 *)
      [ready; has FSJac; one; eq nx n; eq nd (m * n); atomics; SCall [PJac]]
      ++ when (Nat.ltb 0 nj) [SCall [FSJac]] ++ [eq nd (m * n)]
  | EvSJacVec nx => (* 679-706: the size of x is not tested *)
      [ready; has FSJac; one; atomics; SCall [PJac]]
      ++ when (Nat.ltb 0 nj) [SRead (Nat.leb n nx); SCall [FSJac]]
  | EvSJac nx nd => (* 708-733 *)
      [ready; has FSJac; one; eq nx n; atomics; SCall [PJac]; eq nj nd]
      ++ when (Nat.ltb 0 nj) [SCall [FSJac]]
  | EvSJacArrays k nd => (* 735-757 *)
      [ready; has FSJac; arrays k; atomics; SCall [PJac]; eq nj nd]
      ++ when (Nat.ltb 0 nj) [SCall [FSJac]]
  | EvSHesDense nx nw nd => (* 765-795: the size of hess is only tested at
                               the end, in createDenseFromSparse 1045 *)
      [ready; has FSHes; eq nx n; eq nw m; one; atomics; SCall [PHes]]
      ++ when (Nat.ltb 0 nh) [SCall [FSHes]] ++ [eq nd (n * n)]
  | EvSHesVec nx nw => (* 797-828 *)
      [ready; has FSHes; eq nx n; eq nw m; one; atomics; SCall [PHes]]
      ++ when (Nat.ltb 0 nh) [SCall [FSHes]]
  | EvSHes nx nw nd => (* 830-857 *)
      [ready; has FSHes; one; eq nx n; eq nw m; atomics; SCall [PHes]; eq nh nd]
      ++ when (Nat.ltb 0 nh) [SCall [FSHes]]
  | EvSHesArrays k nw nd => (* 859-884 *)
      [ready; has FSHes; arrays k; eq nw m; atomics; SCall [PHes]; eq nh nd]
      ++ when (Nat.ltb 0 nh) [SCall [FSHes]]
  end.

(** An evaluation method of the model object [m]. *)
Definition evaluate (s : state) (m : oid) (e : eval) : out :=
  match st_mo s m with
  | None => OUB
  | Some o => perform s o (body o e) []
  end.

(** GenericModel::asAtomic (generic_model.hpp 889-894) followed by the use
    of the atomic function, which evaluates the model that it refers to
    (atomic_generic_model.hpp 52-85). *)
Definition asAtomic (s : state) (m : oid) : state * option oid :=
  match st_mo s m with
  | None => (s, None)
  | Some o =>
      match mo_atomic o with
      | Some r => (s, Some r)
      | None =>
          (setMo s m (Some
             {| mo_lib := mo_lib o; mo_ready := mo_ready o; mo_path := mo_path o;
                mo_name := mo_name o; mo_m := mo_m o; mo_n := mo_n o;
                mo_in := mo_in o; mo_out := mo_out o; mo_fn := mo_fn o;
                mo_names := mo_names o; mo_ext := mo_ext o;
                mo_missing := mo_missing o; mo_arg := mo_arg o;
                mo_atomic := Some m |}), Some m)
      end
  end.

(** FunctorModelLibrary::setThreadNumber and getThreadNumber,
    functor_model_library.hpp 122-133: through pointers into the file. *)
Definition setThreads (s : state) (l : oid) (n : nat) : state * out :=
  match st_lib s l with
  | None => (s, OUB)
  | Some b =>
      if lb_pool b then
        match st_ref s (lb_path b) with
        | 0 => (s, OUB)
        | S _ => (setThr s (lb_path b) n, ODone)
        end
      else (s, ODone)
  end.

Definition getThreads (s : state) (l : oid) : out :=
  match st_lib s l with
  | None => OUB
  | Some b =>
      if lb_pool b then
        match st_ref s (lb_path b) with
        | 0 => OUB
        | S _ => ONat (st_thr s (lb_path b))
        end
      else ONat 1
  end.

(** One operation of the user; getAtomicFunctionNames and the methods that
    tell whether a function is available are functor_generic_model.hpp
    145-147 and 160-162, 329-331, ... *)
Definition step (s : state) (c : op) : state * out :=
  match c with
  | Open p => openLib s p
  | MoveLib l => moveLib s l
  | Close l => closeLib s l
  | Get l n => getModel s l n
  | MoveModel m => moveModel s m
  | Destroy m => destroyModel s m
  | Register m n e => register s m n e
  | Avail m f =>
      match st_mo s m with None => (s, OUB) | Some o => (s, OBool (mo_fn o f)) end
  | AtomicNames m =>
      match st_mo s m with None => (s, OUB) | Some o => (s, ONames (mo_names o)) end
  | Eval m e => (s, evaluate s m e)
  | AsAtomicEval m e =>
      match asAtomic s m with
      | (s, None) => (s, OUB)
      | (s, Some r) => (s, evaluate s r e)
      end
  | SetThreads l n => setThreads s l n
  | GetThreads l => (s, getThreads s l)
  end.

(** A history. *)
Fixpoint run (s : state) (h : list op) : state * list out :=
  match h with
  | [] => (s, [])
  | c :: r =>
      let (s1, o) := step s c in
      let (s2, os) := run s1 r in (s2, o :: os)
  end.

End LIB.

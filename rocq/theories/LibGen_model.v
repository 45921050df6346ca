(** * Creating a library from models

    Models ModelCSourceGen::getSources and generateSources (include/cppad/cg/model/model_c_source_gen_impl.hpp 92-156 and
    the functions which write to _sources), ModelLibraryCSourceGen (model_library_c_source_gen.hpp 112-190 and
    model_library_c_source_gen_impl.hpp 106-345), AbstractCCompiler (compiler/abstract_c_compiler.hpp 139-262),
    GccCompiler::buildDynamic (compiler/gcc_compiler.hpp 46-82), DynamicLibraryProcessor::createDynamicLibrary and
    createStaticLibrary (dynamic_lib/dynamic_library_processor.hpp 124-227) and the loading of functions
    (functor_generic_model.hpp 937, 964-983, functor_model_library.hpp 212-253).

    Simplifications: models without loops (_loopTapes is empty); the text of a source file is represented by what it was
    generated from, the external symbols it defines and the external symbols it calls (those of the C library and of the
    atomic functions, which are given by pointers, are left out); the compiler and the linker are given by their results,
    one for each call, and may fail at any call; remove() of an existing file succeeds; the job timer and the messages are
    left out; sources are not saved to disk before they are compiled. *)
From Coq Require Import List Bool Arith String Ascii.
From Verif Require Import Names_model.
Import ListNotations.
Local Open Scope string_scope.
Local Open Scope nat_scope.

(** ** Names of functions *)

(** MultiThreadingType (threadpool/multi_threading_type.hpp) *)
Inductive mt : Type := MtNone | MtPthreads | MtOpenmp.

(** the functions of a model: FUNCTION_... (model_c_source_gen_impl.hpp 23-79); the last three are the functions of one
    independent or dependent variable (for1 113-118, rev1 118-123, rev2 126-131) *)
Inductive fn : Type :=
 | FZero | FJac | FHes | FFor1 | FRev1 | FRev2 | FSJac | FSHes | FJacSp | FHesSp | FHesSp2
 | FSFor1 | FSRev1 | FSRev2 | FFor1Sp | FRev1Sp | FRev2Sp | FInfo | FAtomics
 | FFor1J (j : nat) | FRev1I (i : nat) | FRev2J (j : nat).

(** the values of FUNCTION_... *)
Definition fnText (f : fn) : string :=
  match f with
  | FZero => "forward_zero" | FJac => "jacobian" | FHes => "hessian"
  | FFor1 => "forward_one" | FRev1 => "reverse_one" | FRev2 => "reverse_two"
  | FSJac => "sparse_jacobian" | FSHes => "sparse_hessian"
  | FJacSp => "jacobian_sparsity" | FHesSp => "hessian_sparsity" | FHesSp2 => "hessian_sparsity2"
  | FSFor1 => "sparse_forward_one" | FSRev1 => "sparse_reverse_one" | FSRev2 => "sparse_reverse_two"
  | FFor1Sp => "forward_one_sparsity" | FRev1Sp => "reverse_one_sparsity" | FRev2Sp => "sparse_reverse_two_sparsity"
  | FInfo => "info" | FAtomics => "atomic_functions"
  | FFor1J j => "sparse_forward_one_indep" ++ dec j
  | FRev1I i => "sparse_reverse_one_dep" ++ dec i
  | FRev2J j => "sparse_reverse_two_indep" ++ dec j
  end.

(** a whole function, a part of a function with too many assignments (language_c.hpp 1050), or the wrapper of a function
    called by several threads (model_c_source_gen_jac.hpp 357, model_c_source_gen_hes.hpp) *)
Inductive part : Type := PWhole | PPart (k : nat) | PWrap.
Definition partText (p : part) : string :=
  match p with PWhole => "" | PPart k => "__" ++ dec k | PWrap => "_wrap" end.

(** _name + "_" + FUNCTION_... *)
Definition cname (model : string) (f : fn) (p : part) : string := model ++ "_" ++ fnText f ++ partText p.
(** functionName + ".c" *)
Definition cfile (model : string) (f : fn) (p : part) : string := cname model f p ++ ".c".

(** the characters accepted by the constructor of ModelCSourceGen (model_c_source_gen.hpp 317-330) *)
Definition between (a b c : ascii) : bool := (nat_of_ascii a <=? nat_of_ascii c) && (nat_of_ascii c <=? nat_of_ascii b).
Definition letter (c : ascii) : bool := between "a" "z" c || between "A" "Z" c.
Fixpoint nameRest (s : string) : bool :=
  match s with
  | EmptyString => true
  | String c r => (letter c || between "0" "9" c || Ascii.eqb c "_") && nameRest r
  end.
Definition validName (s : string) : bool :=
  match s with EmptyString => false | String c r => letter c && nameRest r end.

(** ** std::map with strings as keys; the order of the keys is the one of std::map when the list was built by [mput] *)
Section Map.
Context {A : Type}.
Definition smap : Type := list (string * A).
Fixpoint mget (k : string) (l : smap) : option A :=
  match l with [] => None | (k', v) :: r => if String.eqb k k' then Some v else mget k r end.
Definition mhas (k : string) (l : smap) : bool := match mget k l with Some _ => true | None => false end.
Fixpoint mreplace (k : string) (v : A) (l : smap) : smap :=
  match l with [] => [] | (k', v') :: r => if String.eqb k k' then (k, v) :: r else (k', v') :: mreplace k v r end.
Fixpoint minsert (k : string) (v : A) (l : smap) : smap :=
  match l with [] => [(k, v)] | (k', v') :: r => if String.ltb k k' then (k, v) :: (k', v') :: r else (k', v') :: minsert k v r end.
(** m[k] = v *)
Definition mput (k : string) (v : A) (l : smap) : smap := if mhas k l then mreplace k v l else minsert k v l.
(** several assignments *)
Fixpoint mputs (ws : list (string * A)) (l : smap) : smap :=
  match ws with [] => l | (k, v) :: r => mputs r (mput k v l) end.
End Map.
Arguments smap : clear implicits.

(** ** Sources of a model *)

(** the settings of ModelCSourceGen and the facts about its tape which determine which sources are created *)
Record cfg : Type := mkCfg {
  zero : bool; jac : bool; hes : bool; sjac : bool; shes : bool; byEq : bool;  (* _zero ... _hessianByEquation *)
  for1 : bool; rev1 : bool; rev2 : bool;                                       (* _forwardOne, _reverseOne, _reverseTwo *)
  reuse1 : bool; reuse2 : bool;                    (* _sparseJacobianReusesOne, _sparseHessianReusesRev2 *)
  multi : bool;                                    (* _multiThreading *)
  fwd : bool;                                      (* forwardMode, model_c_source_gen_jac.hpp 75-87 *)
  jcols : list nat; jrows : list nat; hrows : list nat;   (* the keys of elements in for1 27-30, rev1, rev2 34-37 *)
  unordered : list nat;                            (* the elements of jcols, jrows (or hrows) which need a wrapper (jac 216-230) *)
  parts : fn -> nat                                (* the number of parts each generated function is divided in *)
}.

(** generateSparseJacobianForRevSource is used (jac 92-98) *)
Definition jacReuses (s : cfg) : bool := reuse1 s && ((for1 s && fwd s) || (rev1 s && negb (fwd s))).
(** generateSparseHessianSourceFromRev2 is used (hes 85) *)
Definition hesReuses (s : cfg) : bool := reuse2 s && rev2 s.
Definition noThreads (t : mt) : bool := match t with MtNone => true | _ => false end.
(** generateSparseJacobianForRevMultiThreadSource is used (jac 243), generateSparseHessianRev2MultiThreadSource (hes 296) *)
Definition jacThreads (s : cfg) (t : mt) : bool := jacReuses s && negb (negb (multi s) || noThreads t).
Definition hesThreads (s : cfg) (t : mt) : bool := hesReuses s && negb (negb (multi s) || noThreads t).

(** isJacobianMultiThreadingEnabled, isHessianMultiThreadingEnabled (model_c_source_gen.hpp 423-429) *)
Definition jacMulti (s : cfg) : bool := multi s && sjac s && reuse1 s && (for1 s || rev1 s).
Definition hesMulti (s : cfg) : bool := multi s && shes s && reuse2 s && rev2 s.

(** the sources of the library (model_library_c_source_gen_impl.hpp 106-345) *)
Inductive libfile : Type := LVersion | LModels | LOnClose | LAccess | LPool.
Definition libFileName (l : libfile) : string :=
  match l with
  | LVersion => "cppad_cg_version.c" | LModels => "cppad_cg_models.c" | LOnClose => "cppad_cg_on_close.c"
  | LAccess => "thread_pool_access.c" | LPool => "thread_pool.c"
  end.

(** the content of a source file: what it was generated from *)
Inductive content : Type :=
 | CModel (model : string) (f : fn) (p : part) (s : cfg) (t : mt)
 | CLib (l : libfile) (models : list string) (t : mt)    (* [t]: the threads used by the library, MtNone when not used *)
 | CCustom (defs uses : list string)
 | CGarbage.                                             (* what a failed compilation may leave *)

(** langC.setGenerateFunction(...) and handler.generateCode(...): the parts and the function *)
Definition langWrites (n : string) (s : cfg) (t : mt) (f : fn) : list (string * content) :=
  (map (fun k => (cfile n f (PPart k), CModel n f (PPart k) s t)) (seq 1 (parts s f))
   ++ [(cfile n f PWhole, CModel n f PWhole s t)])%list.
(** _sources[functionName + ".c"] = _cache.str() *)
Definition textWrite (n : string) (s : cfg) (t : mt) (f : fn) : list (string * content) :=
  [(cfile n f PWhole, CModel n f PWhole s t)].

(** generateSources (model_c_source_gen_impl.hpp 100-156): the assignments to _sources in order *)
Definition writes (n : string) (s : cfg) (t : mt) : list (string * content) :=
  let lang := langWrites n s t in
  let text := textWrite n s t in
  ((if zero s then lang FZero else [])
   ++ (if jac s then lang FJac else [])
   ++ (if hes s then lang FHes else [])
   ++ (if for1 s then flat_map (fun j => lang (FFor1J j)) (jcols s) ++ text FSFor1 ++ text FFor1Sp ++ text FFor1 else [])
   ++ (if rev1 s then flat_map (fun i => lang (FRev1I i)) (jrows s) ++ text FSRev1 ++ text FRev1Sp ++ text FRev1 else [])
   ++ (if rev2 s then flat_map (fun j => lang (FRev2J j)) (hrows s) ++ text FSRev2 ++ text FRev2Sp ++ text FRev2 else [])
   ++ (if sjac s then (if jacReuses s then text FSJac else lang FSJac) else [])
   ++ (if shes s then (if hesReuses s then text FSHes else lang FSHes) else [])
   ++ (if sjac s || for1 s || rev1 s then text FJacSp else [])
   ++ (if shes s || rev2 s then text FHesSp ++ (if byEq s || rev2 s then text FHesSp2 else []) else [])
   ++ text FInfo ++ text FAtomics)%list.

(** a ModelCSourceGen: the settings and _sources *)
Record mstate : Type := mkM { m_cfg : cfg; m_src : smap content }.

(** getSources (92-98); [crash = Some k]: an exception is thrown after [k] assignments to _sources.
    The result is the model and whether it returned *)
Definition getSources (n : string) (t : mt) (crash : option nat) (m : mstate) : mstate * bool :=
  match m_src m with
  | [] => match crash with
          | None => (mkM (m_cfg m) (mputs (writes n (m_cfg m) t) []), true)
          | Some k => (mkM (m_cfg m) (mputs (firstn k (writes n (m_cfg m) t)) []), false)
          end
  | _ :: _ => (m, true)
  end.

(** ** Sources of the library *)

(** the symbols used by a function with several threads (model_c_source_gen_impl.hpp 665-770) *)
Definition poolCalls (t : mt) : list string :=
  match t with
  | MtNone => []
  | MtPthreads => ["cppadcg_thpool_get_n_time_meas"; "cppadcg_thpool_is_disabled"; "cppadcg_thpool_add_jobs";
                   "cppadcg_thpool_wait"; "cppadcg_thpool_update_order"]
  | MtOpenmp => ["cppadcg_openmp_is_disabled"; "cppadcg_openmp_is_verbose"; "cppadcg_openmp_get_threads";
                 "cppadcg_openmp_apply_scheduler_strategy"]
  end.
(** the external functions of threadpool/pthread_pool.c and threadpool/openmp.c *)
Definition poolDefs (t : mt) : list string :=
  match t with
  | MtNone => []
  | MtPthreads => ["cppadcg_thpool_set_threads"; "cppadcg_thpool_get_threads"; "cppadcg_thpool_set_scheduler_strategy";
                   "cppadcg_thpool_get_scheduler_strategy"; "cppadcg_thpool_set_disabled"; "cppadcg_thpool_is_disabled";
                   "cppadcg_thpool_set_guided_maxgroupwork"; "cppadcg_thpool_get_guided_maxgroupwork";
                   "cppadcg_thpool_get_n_time_meas"; "cppadcg_thpool_set_n_time_meas"; "cppadcg_thpool_set_verbose";
                   "cppadcg_thpool_get_time_meas_ref"; "cppadcg_thpool_set_time_meas_ref"; "cppadcg_thpool_is_verbose";
                   "cppadcg_thpool_prepare"; "cppadcg_thpool_add_job"; "cppadcg_thpool_add_jobs"; "cppadcg_thpool_wait";
                   "cppadcg_thpool_update_order"; "cppadcg_thpool_shutdown"; "thpool_init"; "thpool_cleanup"]
  | MtOpenmp => ["cppadcg_openmp_set_disabled"; "cppadcg_openmp_is_disabled"; "cppadcg_openmp_set_verbose";
                 "cppadcg_openmp_is_verbose"; "cppadcg_openmp_set_threads"; "cppadcg_openmp_get_threads";
                 "cppadcg_openmp_set_scheduler_strategy"; "cppadcg_openmp_get_scheduler_strategy";
                 "cppadcg_openmp_apply_scheduler_strategy"]
  end.
(** the functions called by thread_pool_access.c (model_library_c_source_gen_impl.hpp 206-300) *)
Definition accessCalls (t : mt) : list string :=
  match t with
  | MtNone => []
  | MtPthreads => ["cppadcg_thpool_set_disabled"; "cppadcg_thpool_is_disabled"; "cppadcg_thpool_set_threads";
                   "cppadcg_thpool_get_threads"; "cppadcg_thpool_set_scheduler_strategy";
                   "cppadcg_thpool_get_scheduler_strategy"; "cppadcg_thpool_set_verbose"; "cppadcg_thpool_is_verbose";
                   "cppadcg_thpool_set_guided_maxgroupwork"; "cppadcg_thpool_get_guided_maxgroupwork";
                   "cppadcg_thpool_set_n_time_meas"; "cppadcg_thpool_get_n_time_meas"]
  | MtOpenmp => ["cppadcg_openmp_set_disabled"; "cppadcg_openmp_is_disabled"; "cppadcg_openmp_set_threads";
                 "cppadcg_openmp_get_threads"; "cppadcg_openmp_set_scheduler_strategy";
                 "cppadcg_openmp_get_scheduler_strategy"; "cppadcg_openmp_set_verbose"; "cppadcg_openmp_is_verbose"]
  end.
(** the functions of thread_pool_access.c (206-345, the names at 32-66) *)
Definition accessDefs : list string :=
  ["cppad_cg_set_thread_pool_disabled"; "cppad_cg_is_thread_pool_disabled"; "cppad_cg_set_thread_number";
   "cppad_cg_get_thread_number"; "cppad_cg_thpool_set_scheduler_strategy"; "cppad_cg_thpool_get_scheduler_strategy";
   "cppad_cg_thpool_set_verbose"; "cppad_cg_thpool_is_verbose"; "cppad_cg_thpool_set_guided_maxgroupwork";
   "cppad_cg_thpool_get_guided_maxgroupwork"; "cppad_cg_thpool_set_number_of_time_meas";
   "cppad_cg_thpool_get_number_of_time_meas"].

(** the indexes of the functions called by the sparse Jacobian *)
Definition jacCalls (s : cfg) : list fn := if for1 s && fwd s then map FFor1J (jcols s) else map FRev1I (jrows s).
Definition isIn (l : list nat) (i : nat) : bool := existsb (Nat.eqb i) l.
(** the functions with a wrapper (jac 345-358, hes) *)
Definition jacWraps (s : cfg) : list fn :=
  if for1 s && fwd s then map FFor1J (filter (isIn (unordered s)) (jcols s)) else map FRev1I (filter (isIn (unordered s)) (jrows s)).
Definition hesWraps (s : cfg) : list fn := map FRev2J (filter (isIn (unordered s)) (hrows s)).

(** the external symbols defined by a source *)
Definition defs (c : content) : list string :=
  match c with
  | CModel n f p s t =>
      cname n f p ::
      match f, p with
      | FSJac, PWhole => if jacThreads s t then map (fun g => cname n g PWrap) (jacWraps s) else []
      | FSHes, PWhole => if hesThreads s t then map (fun g => cname n g PWrap) (hesWraps s) else []
      | _, _ => []
      end
  | CLib LVersion _ _ => ["cppad_cg_version"]
  | CLib LModels _ _ => ["cppad_cg_models"]
  | CLib LOnClose _ _ => ["cppad_cg_on_close"]
  | CLib LAccess _ _ => accessDefs
  | CLib LPool _ t => poolDefs t
  | CCustom d _ => d
  | CGarbage => []
  end.

(** the external symbols called by a source *)
Definition uses (c : content) : list string :=
  match c with
  | CModel n f p s t =>
      match f, p with
      | FSFor1, PWhole => map (fun j => cname n (FFor1J j) PWhole) (jcols s)                (* impl 330-342 *)
      | FSRev1, PWhole => map (fun i => cname n (FRev1I i) PWhole) (jrows s)
      | FSRev2, PWhole => map (fun j => cname n (FRev2J j) PWhole) (hrows s)
      | FFor1, PWhole => [cname n FSFor1 PWhole; cname n FFor1Sp PWhole]                    (* for1 236-310 *)
      | FRev1, PWhole => [cname n FSRev1 PWhole; cname n FRev1Sp PWhole]
      | FRev2, PWhole => [cname n FSRev2 PWhole; cname n FRev2Sp PWhole]
      | FSJac, PWhole =>
          if jacReuses s then (map (fun g => cname n g PWhole) (jacCalls s) ++ (if jacThreads s t then poolCalls t else []))%list
          else map (fun k => cname n f (PPart k)) (seq 1 (parts s f))
      | FSHes, PWhole =>
          if hesReuses s then (map (fun j => cname n (FRev2J j) PWhole) (hrows s) ++ (if hesThreads s t then poolCalls t else []))%list
          else map (fun k => cname n f (PPart k)) (seq 1 (parts s f))
      | (FZero | FJac | FHes | FFor1J _ | FRev1I _ | FRev2J _), PWhole =>
          map (fun k => cname n f (PPart k)) (seq 1 (parts s f))
      | _, _ => []
      end
  | CLib LOnClose _ MtPthreads => ["cppadcg_thpool_shutdown"]
  | CLib LAccess _ t => accessCalls t
  | CCustom _ u => u
  | _ => []
  end.

(** the world: a ModelLibraryCSourceGen, its models, a compiler and the files of the temporary folder *)
Record world : Type := mkW {
  w_models : smap mstate;            (* _models and the objects they point to *)
  w_custom : smap content;           (* _customSource *)
  w_lib : smap content;              (* _libSources *)
  w_mt : mt;                         (* _multiThreading *)
  w_files : smap content;            (* the files on the disk *)
  w_ofiles : list string             (* _ofiles, a set *)
}.

(** some model uses several threads *)
Definition usingThreads (ms : smap mstate) : bool := existsb (fun nm => jacMulti (m_cfg (snd nm)) || hesMulti (m_cfg (snd nm))) ms.
(** getLibrarySources (106-133): the sources created when _libSources is empty *)
Definition libWrites (ms : smap mstate) (t : mt) : list (string * content) :=
  let names := map fst ms in
  let used := if negb (noThreads t) && usingThreads ms then t else MtNone in
  ([(libFileName LVersion, CLib LVersion names used); (libFileName LModels, CLib LModels names used);
    (libFileName LOnClose, CLib LOnClose names used); (libFileName LAccess, CLib LAccess names used)]
   ++ (if noThreads used then [] else [(libFileName LPool, CLib LPool names used)]))%list.
Definition getLibrarySources (w : world) : world :=
  match w_lib w with
  | [] => mkW (w_models w) (w_custom w) (mputs (libWrites (w_models w) (w_mt w)) []) (w_mt w) (w_files w) (w_ofiles w)
  | _ :: _ => w
  end.

(** ** Compiler *)

(** the results of calls to the compiler or the linker; a failed call throws and leaves anything in its output file *)
Inductive call : Type := CallOk | CallFail (left : option content).

Definition objFile (tmp : string) (src : string) : string := tmp ++ "/" ++ src ++ ".o".
(** std::set::insert *)
Fixpoint sinsert (x : string) (l : list string) : list string :=
  match l with [] => [x] | y :: r => if String.ltb x y then x :: l else y :: sinsert x r end.
Definition sadd (x : string) (l : list string) : list string := if existsb (String.eqb x) l then l else sinsert x l.
Fixpoint mremove {A : Type} (k : string) (l : smap A) : smap A :=
  match l with [] => [] | (k', v) :: r => if String.eqb k k' then mremove k r else (k', v) :: mremove k r end.
(** a file after a failed call *)
Definition leave (k : string) (x : option content) (l : smap content) : smap content :=
  match x with None => mremove k l | Some c => mput k c l end.

(** the files and _ofiles after compileSources (139-230), the results which were not used and whether it returned *)
Fixpoint compile (tmp : string) (src : smap content) (ext : list call) (fs : smap content) (os : list string)
  : smap content * list string * list call * bool :=
  match src with
  | [] => (fs, os, ext, true)
  | (n, c) :: r =>
      let o := objFile tmp n in
      match ext with
      | CallFail x :: ext' => (leave o x fs, sadd o os, ext', false)
      | CallOk :: ext' => compile tmp r ext' (mput o c fs) (sadd o os)
      | [] => compile tmp r [] (mput o c fs) (sadd o os)
      end
  end.

(** cleanup (245-258): all object files are removed *)
Definition cleanFiles (os : list string) (fs : smap content) : smap content := fold_left (fun l o => mremove o l) os fs.

(** the library created by buildDynamic (gcc_compiler.hpp 46-82) or ar.create: the content of the object files; the linker
    reports an error when two of them define the same symbol or one is missing *)
Fixpoint objects (os : list string) (fs : smap content) : option (list content) :=
  match os with
  | [] => Some []
  | o :: r => match mget o fs, objects r fs with Some c, Some cs => Some (c :: cs) | _, _ => None end
  end.
Fixpoint nodup (l : list string) : bool :=
  match l with [] => true | x :: r => negb (existsb (String.eqb x) r) && nodup r end.
Definition linked (os : list string) (fs : smap content) : option (list content) :=
  match objects os fs with
  | Some cs => if nodup (flat_map defs cs) then Some cs else None
  | None => None
  end.

(** the loop over the models in createDynamicLibrary (132-142); [crash n] is the exception thrown while the sources of
    model [n] are generated *)
Fixpoint compileModels (tmp : string) (t : mt) (crash : string -> option nat) (todo : smap mstate) (ext : list call)
    (fs : smap content) (os : list string) : smap mstate * smap content * list string * list call * bool :=
  match todo with
  | [] => ([], fs, os, ext, true)
  | (n, m) :: r =>
      let '(m', ok) := getSources n t (crash n) m in
      if ok then
        let '(fs', os', ext', ok') := compile tmp (m_src m') ext fs os in
        if ok' then
          let '(r', fs2, os2, ext2, ok2) := compileModels tmp t crash r ext' fs' os' in
          ((n, m') :: r', fs2, os2, ext2, ok2)
        else ((n, m') :: r, fs', os', ext', false)
      else ((n, m') :: r, fs, os, ext, false)
  end.

(** createDynamicLibrary (124-178) and createStaticLibrary (183-227): the world afterwards and the library which was
    created; [None]: an exception was thrown *)
Definition create (tmp : string) (crash : string -> option nat) (ext : list call) (w : world) : world * option (list content) :=
  let '(ms, fs1, os1, ext1, ok1) := compileModels tmp (w_mt w) crash (w_models w) ext (w_files w) (w_ofiles w) in
  let w1 := mkW ms (w_custom w) (w_lib w) (w_mt w) fs1 os1 in
  if negb ok1 then (mkW ms (w_custom w) (w_lib w) (w_mt w) (cleanFiles os1 fs1) [], None)
  else
    let w2 := getLibrarySources w1 in
    let '(fs2, os2, ext2, ok2) := compile tmp (w_lib w2) ext1 fs1 os1 in
    if negb ok2 then (mkW ms (w_custom w) (w_lib w2) (w_mt w) (cleanFiles os2 fs2) [], None)
    else
      let '(fs3, os3, ext3, ok3) := compile tmp (w_custom w) ext2 fs2 os2 in
      let done (lib : option (list content)) := (mkW ms (w_custom w) (w_lib w2) (w_mt w) (cleanFiles os3 fs3) [], lib) in
      if negb ok3 then done None
      else match ext3 with
           | CallFail _ :: _ => done None
           | _ => done (linked os3 fs3)
           end.

(** ** Operations *)
Inductive op : Type :=
 | OpSet (n : string) (s : cfg)                 (* any of the setCreate... functions of a model *)
 | OpAddModel (n : string) (s : cfg)            (* addModel with a new model (model_library_c_source_gen.hpp 142-149) *)
 | OpCustom (n : string) (defs uses : list string)  (* addCustomFunctionSource (155-159) *)
 | OpThreads (t : mt)                           (* setMultiThreading (182-184) *)
 | OpSources (n : string) (t : mt)              (* getSources by another library with the same model *)
 | OpCreate (tmp : string) (crash : string -> option nat) (ext : list call).

(** the library created by the operation, if any *)
Definition step (o : op) (w : world) : world * option (list content) :=
  match o with
  | OpSet n s =>
      match mget n (w_models w) with
      | Some m => (mkW (mput n (mkM s (m_src m)) (w_models w)) (w_custom w) (w_lib w) (w_mt w) (w_files w) (w_ofiles w), None)
      | None => (w, None)
      end
  | OpAddModel n s =>
      if mhas n (w_models w) || negb (validName n) then (w, None)     (* CPPADCG_ASSERT_KNOWN throws *)
      else (mkW (mput n (mkM s []) (w_models w)) (w_custom w) [] (w_mt w) (w_files w) (w_ofiles w), None)
  | OpCustom n d u =>
      if String.eqb n "" then (w, None)
      else (mkW (w_models w) (mput n (CCustom d u) (w_custom w)) (w_lib w) (w_mt w) (w_files w) (w_ofiles w), None)
  | OpThreads t => (mkW (w_models w) (w_custom w) (w_lib w) t (w_files w) (w_ofiles w), None)
  | OpSources n t =>
      match mget n (w_models w) with
      | Some m => (mkW (mput n (fst (getSources n t None m)) (w_models w)) (w_custom w) (w_lib w) (w_mt w) (w_files w) (w_ofiles w), None)
      | None => (w, None)
      end
  | OpCreate tmp crash ext => create tmp crash ext w
  end.
Fixpoint run (ops : list op) (w : world) : world :=
  match ops with [] => w | o :: r => run r (fst (step o w)) end.

(** a new ModelLibraryCSourceGen and a new compiler (the constructor with models is the same as addModel for each) *)
Definition newWorld (fs : smap content) : world := mkW [] [] [] MtNone fs [].

(** ** Loading *)

(** the symbols of a library *)
Definition symbols (lib : list content) : list string := flat_map defs lib.
Definition hasSym (lib : list content) (x : string) : bool := existsb (String.eqb x) (symbols lib).
(** dlopen with RTLD_NOW: every symbol which is called must be defined *)
Definition loads (lib : list content) : bool := forallb (hasSym lib) (flat_map uses lib).

(** the functions a FunctorGenericModel says are available (functor_generic_model.hpp 160-762, loaded at 964-983) *)
Record avail : Type := mkAvail {
  a_zero : bool; a_jac : bool; a_hes : bool; a_for1 : bool; a_sfor1 : bool; a_rev1 : bool; a_srev1 : bool;
  a_rev2 : bool; a_srev2 : bool; a_sjac : bool; a_shes : bool; a_jacSp : bool; a_hesSp : bool; a_hesSp2 : bool
}.
(** [None]: the constructor throws, since a required function is missing *)
Definition model (lib : list content) (n : string) : option avail :=
  let has f := hasSym lib (cname n f PWhole) in
  if has FInfo && has FAtomics then
    Some (mkAvail (has FZero) (has FJac) (has FHes) (has FFor1) (has FFor1Sp && has FSFor1) (has FRev1)
                  (has FRev1Sp && has FSRev1) (has FRev2) (has FSRev2) (has FJacSp && has FSJac) (has FHesSp && has FSHes)
                  (has FJacSp) (has FHesSp) (has FHesSp2))
  else None.

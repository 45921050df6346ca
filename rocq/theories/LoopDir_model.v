(** * Directional derivatives of models with loops

    The function of all the directions, generateGlobalForRevWithLoopsFunctionSource
    (include/cppad/cg/model/patterns/model_c_source_gen_loops.hpp 1166-1252); the generated ForwardOne, ReverseOne and ReverseTwo of a model with loops,
    which clear the work array (model_c_source_gen_for1.hpp 296-300, model_c_source_gen_rev1.hpp 299-303, model_c_source_gen_rev2.hpp 342-346); and the
    methods with sparse arguments of FunctorGenericModel (functor_generic_model.hpp 466-503, 532-568, 600-640), which do not.
    What does not depend on loops (the search of the directions, the sparsity functions, the final sums) is in Drivers_model.v.

    The map elements (direction -> its elements) is [group ks vs], with the requested elements (ks[p], vs[p]): generateSparseForwardOneSources
    (model_c_source_gen_for1.hpp 21-38), generateSparseReverseOneSources (model_c_source_gen_rev1.hpp 21-38) and generateSparseReverseTwoSources
    (model_c_source_gen_rev2.hpp 21-45).  The functions outside of loops and of groups of results of loops are inputs, as in LoopAsm_model.v; here
    they also get the seed.  The memory of the work array is always found (C53 has the case in which it is not). *)
From Coq Require Import List Arith Bool.
From Verif Require Import Pool_model Assemble_model Drivers_model LoopAsm_model.
Import ListNotations.
Local Open Scope nat_scope.

(** ** generateGlobalForRevWithLoopsFunctionSource *)
Inductive dcall : Type :=
| DNoLoop (k : nat)                (* <function>_noloop_<suffix>k(args); *)
| DLoop (f k : nat).               (* <function of a loop and group>(k, args); *)
Definition hasKey (km : keymap) (k : nat) : bool := existsb (fun q => fst q =? k) km.
(** The statements of "case k:" (1213-1240); [None]: the default (1242-1243).  [functions] (1178-1191) has, for each direction, the loops and groups with
    that direction. *)
Definition dirCalls (els : list (nat * list nat)) (nl : keymap) (gs : list lgroup) (k : nat) : option (list dcall) :=
  if hasKey els k then
    Some ((if hasKey nl k then [DNoLoop k] else []) ++ flat_map (fun g => if hasKey (lg_keys g) k then [DLoop (lg_fn g) k] else []) gs)
  else None.

Section Run.
Variable V : Type.
Variable zero : V.
Variable add : V -> V -> V.
Variable isz : V -> bool.
Variable noLoop : nat -> V -> option (list V).                   (* direction, seed: out[0][0], out[0][1], ... *)
Variable loopFn : nat -> nat -> V -> option (list (nat * V)).     (* function, direction, seed: positions and what is added to them *)
Variables ks vs : list nat.
Variables (nl : keymap) (gs : list lgroup).

Definition callRun (s : V) (c : dcall) (comp : list V) : option (list V) :=
  match c with
  | DNoLoop k => match noLoop k s with Some o => writeAll V comp 0 o | None => None end
  | DLoop f k => match loopFn f k s with Some l => addAll V add comp 0 l | None => None end
  end.
Fixpoint callsRun (s : V) (cs : list dcall) (comp : list V) : option (list V) :=
  match cs with [] => Some comp | c :: r => match callRun s c comp with Some comp' => callsRun s r comp' | None => None end end.

(** A call: [DirFails] is the return code 1. *)
Inductive dirOut := DirDone (comp : list V) | DirFails | DirUndef.
Definition dirRun (k : nat) (s : V) (comp : list V) : dirOut :=
  match dirCalls (group ks vs) nl gs k with
  | None => DirFails
  | Some cs => match callsRun s cs comp with Some comp' => DirDone comp' | None => DirUndef end
  end.

(** ** The last loop of the generated functions *)
Fixpoint eachDirectionL (f : nat -> nat) (seedOf : nat -> option V) (pos : list nat) (comp : option (list V)) (out : list V) : outcome V :=
  match pos with
  | [] => Ret Done out
  | j :: r =>
      match seedOf j, sparsityOf ks vs j, comp with
      | Some s, Some (els, nnz), Some c =>
          match writeAll V c 0 (repeat zero nnz) with
          | None => Undef
          | Some c0 =>
              match dirRun j s c0 with
              | DirUndef => Undef
              | DirFails => Ret Failed out
              | DirDone c' =>
                  match accumulate V add f (firstn nnz els) c' out with
                  | None => Undef
                  | Some out' => eachDirectionL f seedOf r (Some c') out'
                  end
              end
          end
      | _, _, _ => Undef
      end
  end.
(** as [directional] in Drivers_model.v *)
Definition directionalL (ok : nat -> bool) (garbage : list V) (f : nat -> nat) (nDir nOut : nat) (seedOf : nat -> option V) (out : list V) : outcome V :=
  match scan V isz ks vs ok seedOf (seq 0 nDir) [] 0 with
  | ScanUndef => Undef
  | ScanNoMemory => Ret NoMemory out
  | Scanned pos nnzMax =>
      match clear V zero f (seq 0 nOut) out with
      | None => Undef
      | Some out' =>
          match pos with
          | [] => Ret Done out'
          | _ => eachDirectionL f seedOf pos (Some (firstn nnzMax garbage)) out'
          end
      end
  end.
Definition forwardOneL (ok : nat -> bool) (garbage : list V) (n m : nat) (tx ty : list V) : outcome V :=
  directionalL ok garbage (fun i => i * 2 + 1) n m (fun j => nth_error tx (j * 2 + 1)) ty.
Definition reverseOneL (ok : nat -> bool) (garbage : list V) (n m : nat) (px py : list V) : outcome V :=
  directionalL ok garbage (fun j => j) m n (fun i => nth_error py i) px.

(** ** The methods with sparse arguments; the result has also the work array, a member of the model, which the next call gets *)
Inductive moutL := LDone (comp out : list V) | LThrow | LUndef.
Fixpoint sparseLoopL (idx : list nat) (seeds : list V) (comp out : list V) : moutL :=
  match idx, seeds with
  | j :: idx', s :: seeds' =>
      match sparsityOf ks vs j with
      | None => LUndef
      | Some (els, nnz) =>
          match dirRun j s comp with
          | DirUndef => LUndef
          | DirFails => LThrow
          | DirDone comp' =>
              match accumulate V add (fun i => i) (firstn nnz els) comp' out with
              | None => LUndef
              | Some out' => sparseLoopL idx' seeds' comp' out'
              end
          end
      end
  | _, _ => LDone comp out
  end.
Definition sparseMethodL (nOut : nat) (comp : list V) (idx : list nat) (seeds : list V) (out : list V) : moutL :=
  if negb (nOut <=? length out) then LThrow
  else
    match clear V zero (fun i => i) (seq 0 nOut) out with
    | None => LUndef
    | Some out' => sparseLoopL idx seeds (firstn nOut comp) out'
    end.
End Run.
Arguments LDone {V}. Arguments LThrow {V}. Arguments LUndef {V}. Arguments DirDone {V}. Arguments DirFails {V}. Arguments DirUndef {V}.

(** ** ReverseTwo: the functions get also the weights *)
Section ReverseTwoL.
Variable V : Type.
Variable zero : V.
Variable add : V -> V -> V.
Variable isz : V -> bool.
Variable noLoop : list V -> nat -> V -> option (list V).
Variable loopFn : list V -> nat -> nat -> V -> option (list (nat * V)).
Variables ks vs : list nat.
Variables (nl : keymap) (gs : list lgroup).
(** as [reverseTwo] in Drivers_model.v *)
Definition reverseTwoL (ok : nat -> bool) (garbage : list V) (n m : nat) (tx px py : list V) : outcome V :=
  match weights V isz py (seq 0 m) with
  | None => Undef
  | Some None => Ret Failed px
  | Some (Some w) =>
      match clear V zero (fun j => j * 2) (seq 0 n) px with
      | None => Undef
      | Some px' =>
          if forallb isz w then Ret Done px'
          else
            match scan V isz ks vs ok (fun j => nth_error tx (j * 2 + 1)) (seq 0 n) [] 0 with
            | ScanUndef => Undef
            | ScanNoMemory => Ret NoMemory px'
            | Scanned [] _ => Ret Done px'
            | Scanned pos nnzMax =>
                eachDirectionL V zero add (noLoop w) (loopFn w) ks vs nl gs (fun j => j * 2) (fun j => nth_error tx (j * 2 + 1)) pos
                  (Some (firstn nnzMax garbage)) px'
            end
      end
  end.
End ReverseTwoL.

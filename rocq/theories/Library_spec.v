(** What the user is told about model libraries and model objects: a machine
    without pointers, handles, counters or sets of observers.  Only the
    description of the files and the names of the operations come from
    Library_model.v. *)
From Coq Require Import List Bool PeanoNat Arith.
From Verif Require Import Library_model.
Import ListNotations.

(** An object the user created: in use, moved from or destroyed. *)
Inductive astat : Type := Live | Shell | Gone.

(** A model object: the library that provided it, the file, the name and
    the last external function given for each name. *)
Record amo : Type := {
  am_stat : astat; am_lib : oid; am_path : path; am_name : name;
  am_ext : name -> option ext }.

(** Libraries and models by handle; the number of threads is that of the
    file; the times that a file was opened in vain; the closing calls. *)
Record aworld : Type := {
  a_lib : oid -> option (path * astat);
  a_mo : oid -> option amo;
  a_next : oid;
  a_thr : path -> nat;
  a_failed : path -> nat;
  a_closed : list path }.

Definition anone : aworld :=
  {| a_lib := fun _ => None; a_mo := fun _ => None; a_next := 0;
     a_thr := fun _ => 0; a_failed := fun _ => 0; a_closed := [] |}.

(** What the user sees of an operation; an exception because the library
    was closed is told apart. *)
Inductive view : Type :=
| VNew (i : oid) | VNull | VClosed | VThrow | VBool (b : bool) | VNat (n : nat)
| VNames (l : list name) | VRan (l : list ran) | VDone.

Definition see (o : out) : option view :=
  match o with
  | ONew i => Some (VNew i)
  | ONull => Some VNull
  | OThrow MNotReady => Some VClosed
  | OThrow _ => Some VThrow
  | OBool b => Some (VBool b)
  | ONat n => Some (VNat n)
  | ONames l => Some (VNames l)
  | ORan l => Some (VRan l)
  | ODone => Some VDone
  | OUB => None
  end.

Section SPEC.

Variable fs : path -> option file.
Variable api : nat.
Variable hc : nat.

(** A file that can be used as a library. *)
Definition goodFile (f : file) : bool :=
  match fl_version f, fl_models f with
  | Some v, Some _ => Nat.eqb v api
  | _, _ => false
  end.

Definition modelsOf (f : file) : list name :=
  match fl_models f with Some l => l | None => [] end.

(** A model whose symbols can be used: the type of the caller, at least an
    input and an output, a list of atomic functions, a sparse directional
    function when and only when the dense one and its pattern exist, and
    sparse Jacobians and Hessians with their patterns. *)
Definition goodModel (md : mdl) : bool :=
  let same a b := Bool.eqb (md_fn md a) (md_fn md b) in
  md_type md && Nat.ltb 0 (md_in md) && Nat.ltb 0 (md_out md)
  && match md_names md with Some _ => true | None => false end
  && same FFor1 FSFor1 && same FSFor1 PFor1
  && same FRev1 FSRev1 && same FSRev1 PRev1
  && same FRev2 FSRev2 && same FSRev2 PRev2
  && implb (md_fn md FSJac) (md_fn md PJac) && implb (md_fn md FSHes) (md_fn md PHes).

Definition namesOf (md : mdl) : list name :=
  match md_names md with Some l => l | None => [] end.

(** The functions that an evaluation needs. *)
Definition needs (e : eval) : list fn :=
  match e with
  | EvZero _ _ | EvZeroArrays _ _ => [FZero]
  | EvZeroVars nvx _ _ _ => if Nat.eqb nvx 0 then [FZero] else [FZero; PJac]
  | EvJac _ _ => [FJac]
  | EvHes _ _ _ => [FHes]
  | EvFor1 _ _ => [FFor1]
  | EvFor1S _ _ _ => [PFor1; FSFor1]
  | EvRev1 _ _ _ _ => [FRev1]
  | EvRev1S _ _ _ => [PRev1; FSRev1]
  | EvRev2 _ _ _ _ => [FRev2]
  | EvRev2S _ _ _ _ => [PRev2; FSRev2]
  | EvSJacDense _ _ | EvSJacVec _ | EvSJac _ _ | EvSJacArrays _ _ => [PJac; FSJac]
  | EvSHesDense _ _ _ | EvSHesVec _ _ | EvSHes _ _ _ | EvSHesArrays _ _ _ => [PHes; FSHes]
  end.

(** The sizes that the documentation asks for. *)
Definition sizes (md : mdl) (e : eval) : bool :=
  let n := md_n md in
  let m := md_m md in
  let one := Nat.eqb (md_in md) 1 in
  match e with
  | EvZero nx ny => one && Nat.eqb nx n && Nat.eqb ny m
  | EvZeroArrays k ny => Nat.eqb (md_in md) k && Nat.eqb ny m
  | EvZeroVars nvx nvy nx ny =>
      one && Nat.eqb nx n && Nat.eqb ny m
      && (Nat.eqb nvx 0 || (Nat.leb n nvx && Nat.leb m nvy))
  | EvJac nx nj => one && Nat.eqb nx n && Nat.eqb nj (m * n)
  | EvHes nx nw nh => one && Nat.eqb nx n && Nat.eqb nw m && Nat.eqb nh (n * n)
  | EvFor1 ntx nty => Nat.leb (2 * n) ntx && Nat.leb (2 * m) nty
  | EvFor1S nx nty _ => Nat.leb n nx && Nat.leb m nty
  | EvRev1 ntx nty npx npy =>
      Nat.leb n ntx && Nat.leb m nty && Nat.leb n npx && Nat.leb m npy
  | EvRev1S nx npx _ => Nat.leb n nx && Nat.leb n npx
  | EvRev2 ntx nty npx npy =>
      one && Nat.leb (2 * n) ntx && Nat.leb (2 * m) nty && Nat.leb (2 * n) npx
      && Nat.leb (2 * m) npy
  | EvRev2S nx npx npy _ => Nat.leb n nx && Nat.leb n npx && Nat.leb m npy
  | EvSJacDense nx nj => one && Nat.eqb nx n && Nat.eqb nj (m * n)
  | EvSJacVec nx => one && Nat.eqb nx n
  | EvSJac nx nj => one && Nat.eqb nx n && Nat.eqb (md_nnzJ md) nj
  | EvSJacArrays k nj => Nat.eqb (md_in md) k && Nat.eqb (md_nnzJ md) nj
  | EvSHesDense nx nw nh => one && Nat.eqb nx n && Nat.eqb nw m && Nat.eqb nh (n * n)
  | EvSHesVec nx nw => one && Nat.eqb nx n && Nat.eqb nw m
  | EvSHes nx nw nh => one && Nat.eqb nx n && Nat.eqb nw m && Nat.eqb (md_nnzH md) nh
  | EvSHesArrays k nw nh => Nat.eqb (md_in md) k && Nat.eqb nw m && Nat.eqb (md_nnzH md) nh
  end.

(** The compiled functions that an evaluation calls, in order: the
    directional methods call the pattern and the function once per element
    given; an empty Jacobian or Hessian is not evaluated. *)
Definition calls (md : mdl) (e : eval) : list fn :=
  let each k l := concat (repeat l k) in
  let some k (l : list fn) := if Nat.eqb k 0 then [] else l in
  match e with
  | EvZero _ _ | EvZeroArrays _ _ => [FZero]
  | EvZeroVars nvx _ _ _ => FZero :: some nvx [PJac]
  | EvJac _ _ => [FJac]
  | EvHes _ _ _ => [FHes]
  | EvFor1 _ _ => [FFor1]
  | EvFor1S _ _ k => each k [PFor1; FSFor1]
  | EvRev1 _ _ _ _ => [FRev1]
  | EvRev1S _ _ k => each k [PRev1; FSRev1]
  | EvRev2 _ _ _ _ => [FRev2]
  | EvRev2S _ _ _ k => each k [PRev2; FSRev2]
  | EvSJacDense _ _ | EvSJacVec _ | EvSJac _ _ | EvSJacArrays _ _ =>
      PJac :: some (md_nnzJ md) [FSJac]
  | EvSHesDense _ _ _ | EvSHesVec _ _ | EvSHes _ _ _ | EvSHesArrays _ _ _ =>
      PHes :: some (md_nnzH md) [FSHes]
  end.

(** The external functions that compiled function [f] reaches: those given
    for the names at the positions that it uses. *)
Definition reaches (md : mdl) (given : name -> option ext) (f : fn) : list ext :=
  flat_map (fun i => match given (nth i (namesOf md) 0) with
                     | Some e => [e] | None => [] end) (md_calls md f).

(** An evaluation of a model object of an open library. *)
Definition aeval (a : amo) (md : mdl) (e : eval) : view :=
  if forallb (md_fn md) (needs e) && sizes md e
     && forallb (fun n => match am_ext a n with Some _ => true | None => false end)
                (namesOf md)
  then VRan (map (fun f => {| rn_path := am_path a; rn_name := am_name a; rn_fn := f;
                              rn_ext := reaches md (am_ext a) f |}) (calls md e))
  else VThrow.

Definition symbols (p : path) (n : name) : option mdl :=
  match fs p with None => None | Some f => fl_mdl f n end.

Definition isLive (st : astat) : bool := match st with Live => true | _ => false end.

(** Whether the library of a model object is still open. *)
Definition opened (w : aworld) (a : amo) : bool :=
  match a_lib w (am_lib a) with Some (_, st) => isLive st | None => false end.

Definition setALib w l v :=
  {| a_lib := upd (a_lib w) l v; a_mo := a_mo w; a_next := a_next w; a_thr := a_thr w;
     a_failed := a_failed w; a_closed := a_closed w |}.
Definition setAMo w m v :=
  {| a_lib := a_lib w; a_mo := upd (a_mo w) m v; a_next := a_next w; a_thr := a_thr w;
     a_failed := a_failed w; a_closed := a_closed w |}.
Definition setAThr w p v :=
  {| a_lib := a_lib w; a_mo := a_mo w; a_next := a_next w; a_thr := upd (a_thr w) p v;
     a_failed := a_failed w; a_closed := a_closed w |}.
Definition afresh w :=
  {| a_lib := a_lib w; a_mo := a_mo w; a_next := S (a_next w); a_thr := a_thr w;
     a_failed := a_failed w; a_closed := a_closed w |}.
Definition afail w p :=
  {| a_lib := a_lib w; a_mo := a_mo w; a_next := a_next w; a_thr := a_thr w;
     a_failed := upd (a_failed w) p (S (a_failed w p)); a_closed := a_closed w |}.
Definition aclose w p :=
  {| a_lib := a_lib w; a_mo := a_mo w; a_next := a_next w; a_thr := a_thr w;
     a_failed := a_failed w; a_closed := p :: a_closed w |}.

Definition withStat (a : amo) st : amo :=
  {| am_stat := st; am_lib := am_lib a; am_path := am_path a; am_name := am_name a;
     am_ext := am_ext a |}.

Definition evalOf (w : aworld) (m : oid) (e : eval) : view :=
  match a_mo w m with
  | None => VNull
  | Some a =>
      if opened w a then
        match symbols (am_path a) (am_name a) with
        | None => VNull
        | Some md => aeval a md e
        end
      else VClosed
  end.

(** What is promised for each operation.  (Operations on handles that the
    user does not hold are outside, see [proper].) *)
Definition astep (w : aworld) (c : op) : aworld * view :=
  match c with
  | Open p =>
      match fs p with
      | None => (w, VThrow)
      | Some f =>
          if goodFile f then
            let w := if fl_pool f then setAThr w p hc else w in
            (afresh (setALib w (a_next w) (Some (p, Live))), VNew (a_next w))
          else (afail w p, VThrow)
      end
  | MoveLib l =>
      match a_lib w l with
      | None => (w, VNull)
      | Some (p, st) =>
          let w1 := setALib (setALib w (a_next w) (Some (p, st))) l (Some (p, Shell)) in
          let w2 := {| a_lib := a_lib w1;
                       a_mo := fun i => match a_mo w1 i with
                                        | None => None
                                        | Some a => Some
                                            (if Nat.eqb (am_lib a) l
                                             then {| am_stat := am_stat a;
                                                     am_lib := a_next w;
                                                     am_path := am_path a;
                                                     am_name := am_name a;
                                                     am_ext := am_ext a |}
                                             else a)
                                        end;
                       a_next := a_next w1; a_thr := a_thr w1; a_failed := a_failed w1;
                       a_closed := a_closed w1 |} in
          (afresh w2, VNew (a_next w))
      end
  | Close l =>
      match a_lib w l with
      | None => (w, VNull)
      | Some (p, st) =>
          let pool := match fs p with Some f => fl_pool f | None => false end in
          let w := if isLive st && pool then aclose w p else w in
          (setALib w l (Some (p, Gone)), VDone)
      end
  | Get l n =>
      match a_lib w l with
      | None => (w, VNull)
      | Some (p, _) =>
          match fs p with
          | None => (w, VNull)
          | Some f =>
              if existsb (Nat.eqb n) (modelsOf f) then
                match fl_mdl f n with
                | None => (w, VThrow)
                | Some md =>
                    if goodModel md then
                      (afresh (setAMo w (a_next w)
                         (Some {| am_stat := Live; am_lib := l; am_path := p;
                                  am_name := n; am_ext := fun _ => None |})),
                       VNew (a_next w))
                    else (w, VThrow)
                end
              else (w, VNull)
          end
      end
  | MoveModel m =>
      match a_mo w m with
      | None => (w, VNull)
      | Some a =>
          (afresh (setAMo (setAMo w (a_next w) (Some a)) m (Some (withStat a Shell))),
           VNew (a_next w))
      end
  | Destroy m =>
      match a_mo w m with
      | None => (w, VNull)
      | Some a => (setAMo w m (Some (withStat a Gone)), VDone)
      end
  | Register m n e =>
      match a_mo w m with
      | None => (w, VNull)
      | Some a =>
          match symbols (am_path a) (am_name a) with
          | None => (w, VNull)
          | Some md =>
              if existsb (Nat.eqb n) (namesOf md) then
                (setAMo w m (Some {| am_stat := am_stat a; am_lib := am_lib a;
                                     am_path := am_path a; am_name := am_name a;
                                     am_ext := upd (am_ext a) n (Some e) |}),
                 VBool true)
              else (w, VBool false)
          end
      end
  | Avail m f =>
      match a_mo w m with
      | None => (w, VNull)
      | Some a =>
          match symbols (am_path a) (am_name a) with
          | None => (w, VNull)
          | Some md => (w, VBool (opened w a && md_fn md f))
          end
      end
  | AtomicNames m =>
      match a_mo w m with
      | None => (w, VNull)
      | Some a =>
          match symbols (am_path a) (am_name a) with
          | None => (w, VNull)
          | Some md => (w, VNames (namesOf md))
          end
      end
  | Eval m e => (w, evalOf w m e)
  | AsAtomicEval m e => (w, evalOf w m e)
  | SetThreads l n =>
      match a_lib w l with
      | None => (w, VNull)
      | Some (p, _) =>
          match fs p with
          | None => (w, VNull)
          | Some f => (if fl_pool f then setAThr w p n else w, VDone)
          end
      end
  | GetThreads l =>
      match a_lib w l with
      | None => (w, VNull)
      | Some (p, _) =>
          match fs p with
          | None => (w, VNull)
          | Some f => (w, VNat (if fl_pool f then a_thr w p else 1))
          end
      end
  end.

Definition libStat (w : aworld) l := match a_lib w l with Some (_, st) => st | None => Gone end.
Definition moStat (w : aworld) m := match a_mo w m with Some a => am_stat a | None => Gone end.

(** No model object in use, other than [m], calls the model object [m]. *)
Definition uncalled (w : aworld) (m : oid) : bool :=
  forallb (fun i =>
    match a_mo w i with
    | None => true
    | Some a =>
        negb (isLive (am_stat a)) || Nat.eqb i m
        || match symbols (am_path a) (am_name a) with
           | None => true
           | Some md =>
               forallb (fun n => match am_ext a n with
                                 | Some (EModel j) => negb (Nat.eqb j m)
                                 | _ => true
                                 end) (namesOf md)
           end
    end) (seq 0 (a_next w)).

Definition isGone (st : astat) : bool := match st with Gone => true | _ => false end.

(** The uses that the documentation allows: objects in use, and destruction
    of objects moved from; "this object must only be deleted after the
    model" (generic_model.hpp 155, 171). *)
Definition proper (w : aworld) (c : op) : bool :=
  match c with
  | Open _ => true
  | MoveLib l | Get l _ | SetThreads l _ | GetThreads l => isLive (libStat w l)
  | Close l => negb (isGone (libStat w l))
  | MoveModel m | Avail m _ | AtomicNames m | Eval m _ | AsAtomicEval m _ =>
      isLive (moStat w m)
  | Destroy m => negb (isGone (moStat w m)) && uncalled w m
  | Register m _ e =>
      isLive (moStat w m)
      && match e with EModel j => isLive (moStat w j) | EAtomic _ => true end
  end.

(** The uses for which the code keeps its promise: as [proper], no model is
    moved, a library is only moved before model objects are obtained from it
    (or after these were destroyed), and the sparse Jacobian in vectors is
    requested with a vector of the right size. *)
Definition covered (w : aworld) (c : op) : bool :=
  proper w c &&
  match c with
  | MoveModel _ => false
  | MoveLib l =>
      forallb (fun i => match a_mo w i with
                        | None => true
                        | Some a => negb (isLive (am_stat a) && Nat.eqb (am_lib a) l)
                        end) (seq 0 (a_next w))
  | Eval m (EvSJacVec nx) | AsAtomicEval m (EvSJacVec nx) =>
      match a_mo w m with
      | None => true
      | Some a => match symbols (am_path a) (am_name a) with
                  | None => true
                  | Some md => Nat.eqb nx (md_n md)
                  end
      end
  | _ => true
  end.

Fixpoint arun (w : aworld) (h : list op) : aworld * list view :=
  match h with
  | [] => (w, [])
  | c :: r =>
      let (w1, o) := astep w c in
      let (w2, os) := arun w1 r in (w2, o :: os)
  end.

(** A history every operation of which satisfies [ok] when it is done. *)
Fixpoint along (ok : aworld -> op -> bool) (w : aworld) (h : list op) : bool :=
  match h with
  | [] => true
  | c :: r => ok w c && along ok (fst (astep w c)) r
  end.

End SPEC.

(** The lists of atomic functions of the files have no repetitions and the
    compiled code only calls functions in its list. *)
Definition goodFiles (fs : path -> option file) : Prop :=
  forall p f n md an, fs p = Some f -> fl_mdl f n = Some md -> md_names md = Some an ->
    NoDup an /\ forall g i, In i (md_calls md g) -> i < length an.

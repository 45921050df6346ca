(** * Thread pool: jobs, order, groups and the job queue

    Models the sequential parts of include/cppad/cg/model/threadpool/pthread_pool.c.

    Simplifications:
    - malloc always succeeds; verbose output and the measurement of times are left out;
    - float is an arbitrary type with the operations used ([FOps]); IEEE binary32 is one instance (Pool_thm.v);
    - the linked list of jobs (front ... rear, linked by prev, the last one NULL) is a list, len its length;
    - reading through a NULL pointer and indexing out of an array are the outcome [Bad]. *)
From Coq Require Import List Bool Arith ZArith.
From Verif Require Import Graph_model Codegen_model.
Import ListNotations.

Class FOps (F : Type) : Type := {
  f0 : F; fadd : F -> F -> F; fsub : F -> F -> F; fmul : F -> F -> F; fdiv : F -> F -> F;
  fofnat : nat -> F; f09 : F;                               (* int -> float; 0.9f *)
  flt : F -> F -> bool; fle : F -> F -> bool; feq : F -> F -> bool }.

Section Pool.
Context {F : Type} {FO : FOps F}.

(** Job (90-99): which function and argument it stands for, and *avgElapsed (None: NULL) *)
Record job : Type := mkJob { j_fun : nat; j_avg : option F }.

(** enum ScheduleStrategy (35-38) *)
Inductive strategy : Type := STATIC | DYNAMIC | GUIDED.

(** ** cppadcg_thpool_update_order (298-354).
    [nonZero]: some elapsed[i] != 0; [refs]: refElapsed after the update *)
Inductive timeref : Type := TAVG | TMIN.
Definition updRef (tr : timeref) (nMeas : nat) (r e : F) : F :=
  match tr with
  | TAVG => fdiv (fadd (fmul r (fofnat nMeas)) e) (fofnat (nMeas + 1))
  | TMIN => if Nat.eqb nMeas 0 || flt e r then e else r
  end.
Definition updRefs (tr : timeref) (nMeas : nat) (refs elapsed : list F) : list F :=
  map (fun p => updRef tr nMeas (fst p) (snd p)) (combine refs elapsed).
Definition nonZero (elapsed : list F) : bool := existsb (fun e => negb (feq e f0)) elapsed.
(** elapsedOrder before qsort *)
Definition pairs (refs : list F) : list (F * nat) := combine refs (seq 0 (length refs)).
Fixpoint setNth {A} (l : list A) (i : nat) (a : A) : list A :=
  match l, i with
  | [], _ => []
  | _ :: l', O => a :: l'
  | x :: l', S i' => x :: setNth l' i' a
  end.
(** for i: order[elapsedOrder[i].index] = nJobs - i - 1 *)
Fixpoint writeOrder (n : nat) (sorted : list (F * nat)) (i : nat) (order : list nat) : list nat :=
  match sorted with
  | [] => order
  | (_, k) :: s => writeOrder n s (S i) (setNth order k (n - i - 1))
  end.
(** [sorted]: what qsort made of [pairs refs'] *)
Definition updateOrder (elapsed : list F) (sorted : list (F * nat)) (order : list nat) : list nat :=
  if nonZero elapsed then writeOrder (length elapsed) sorted 0 order else order.

(** ** thpool_add_jobs (571-614): the jobs in the order in which they are put in the queue *)
Definition newJob (avgElapsed : option (list F)) (j : nat) : outcome job :=
  match avgElapsed with
  | None => Done (mkJob j None)
  | Some avg => match nth_error avg j with Some a => Done (mkJob j (Some a)) | None => Bad end
  end.
Fixpoint newJobs (nJobs : nat) (avgElapsed : option (list F)) (order : list nat) : outcome (list job) :=
  match order with
  | [] => Done []
  | j :: o =>
      if Nat.ltb j nJobs                                            (* functions[j], args[j] *)
      then obind (newJob avgElapsed j) (fun a => obind (newJobs nJobs avgElapsed o) (fun l => Done (a :: l)))
      else Bad
  end.

(** ** jobqueue_push_static_jobs (619-767) *)
(** for i: if durations[i] + avg < target (678-687) *)
Fixpoint firstFit (durs : list F) (i : nat) (avg target : F) : option (nat * F) :=
  match durs with
  | [] => None
  | d :: durs' => let nd := fadd d avg in if flt nd target then Some (i, nd) else firstFit durs' (S i) avg target
  end.
(** the group which ends first (689-702) *)
Fixpoint bestFit (durs : list F) (i : nat) (avg : F) (best : nat * F) : nat * F :=
  match durs with
  | [] => best
  | d :: durs' => let nd := fadd d avg in bestFit durs' (S i) avg (if flt nd (snd best) then (i, nd) else best)
  end.
Definition place (durs : list F) (avg target : F) : nat * F :=
  match firstFit durs 0 avg target with
  | Some r => r
  | None => match durs with [] => (0, f0) | d :: durs' => bestFit durs' 1 avg (0, fadd d avg) end
  end.
Fixpoint assignGroups (durs : list F) (target : F) (avg : list F) : list nat :=
  match avg with
  | [] => []
  | a :: avg' => let (i, d) := place durs a target in i :: assignGroups (setNth durs i d) target avg'
  end.
Definition sumF (l : list F) : F := fold_left fadd l f0.
(** n_jobs[i] *)
Definition countOf (i : nat) (j2t : list nat) : nat := length (filter (Nat.eqb i) j2t).
(** group->jobs[group->size] = *newjobs[j]; group->size++ : [caps] are the sizes of the allocated arrays *)
Fixpoint fillGroups (caps : list nat) (groups : list (list job)) (jobs : list job) (j2t : list nat) : outcome (list (list job)) :=
  match jobs, j2t with
  | [], _ => Done groups
  | _ :: _, [] => Bad
  | a :: jobs', i :: j2t' =>
      match nth_error groups i, nth_error caps i with
      | Some g, Some c => if Nat.ltb (length g) c then fillGroups caps (setNth groups i (g ++ [a])) jobs' j2t' else Bad
      | _, _ => Bad
      end
  end.
(** [j2t]: jobs2thread (negative: never set).  Result: the new jobs2thread and the groups, first group first *)
Definition staticGroups (numThreads : nat) (jobs : list job) (avg : list F) (j2t : list Z) (changed : bool)
  : outcome (list nat * list (list job)) :=
  let n := Nat.min (length jobs) numThreads in
  let fresh := match j2t with z :: _ => changed || Z.ltb z 0 | [] => changed end in
  let chosen := if fresh then Done (assignGroups (repeat f0 n) (fdiv (sumF avg) (fofnat n)) avg)
                else if forallb (fun z => Z.leb 0 z && Z.ltb z (Z.of_nat n)) j2t then Done (map Z.to_nat j2t) else Bad (* n_jobs[jobs2thread[j]]++ *) in
  obind chosen (fun c =>
  obind (fillGroups (map (fun i => countOf i c) (seq 0 n)) (repeat [] n) jobs c) (fun g => Done (c, g))).

(** ** The queue *)
Record queue : Type := mkQ { q_jobs : list job; q_groups : list (list job); q_total : F; q_ret : F }.
Definition emptyQ : queue := mkQ [] [] f0 f0.

(** jobqueue_push_internal (1146-1168) *)
Definition push1 (q : queue) (j : job) : queue :=
  mkQ (q_jobs q ++ [j]) (q_groups q) (match j_avg j with Some a => fadd (q_total q) a | None => q_total q end) (q_ret q).
(** add to the queue (748-756) *)
Definition pushGroups (q : queue) (gs : list (list job)) : queue := mkQ (q_jobs q) (gs ++ q_groups q) (q_total q) (q_ret q).

(** jobqueue_extract_single (1202-1225) *)
Definition extract1 (q : queue) : option (job * queue) :=
  match q_jobs q with
  | [] => None
  | [j] => Some (j, mkQ [] (q_groups q) f0 f0)
  | j :: l => Some (j, mkQ l (q_groups q) (match j_avg j with Some a => fsub (q_total q) a | None => q_total q end) (q_ret q))
  end.
(** the do/while loop of the guided scheduler (1321-1333): [rest] are the jobs after the first one; the list ends with NULL, so
    the loop ends only by a break *)
Fixpoint walk (rest : list job) (dnext target : F) (size : nat) (d : F) : outcome (nat * F) :=
  match rest with
  | [] => Bad                                                     (* job->avgElapsed with job == NULL *)
  | j :: rest' =>
      match j_avg j with
      | None => Done (size, d)
      | Some a => let dn := fadd dnext a in if flt dn target then walk rest' dn target (S size) dn else Done (size, d)
      end
  end.
(** for i < size: jobqueue_extract_single (1339-1344) *)
Fixpoint extractN (n : nat) (q : queue) : outcome (list job * queue) :=
  match n with
  | O => Done ([], q)
  | S n' => match extract1 q with
            | None => Bad                                          (* *job with job == NULL *)
            | Some (j, q') => obind (extractN n' q') (fun r => Done (j :: fst r, snd r))
            end
  end.
(** jobqueue_extract_single_group (1227-1239) *)
Definition pullSingle (q : queue) : list job * queue :=
  match extract1 q with Some (j, q') => ([j], q') | None => ([], q) end.

(** jobqueue_pull (1246-1358).  [now], [failed]: result of get_monotonic_time and whether clock_gettime failed (info != 0).
    The final bsem_post is in PoolSys_model.v. *)
Definition pull (s : strategy) (nThreads : nat) (maxwork : F) (now : F) (failed : bool) (q : queue) : outcome (option (list job) * queue) :=
  match s, q_groups q with
  | STATIC, g :: gs => Done (Some g, mkQ (q_jobs q) gs (q_total q) (q_ret q))
  | _, _ =>
    match q_jobs q with
    | [] => Done (None, q)
    | first :: rest =>
      if (match s with DYNAMIC => true | _ => false end) || Nat.eqb (length (q_jobs q)) 1 || fle (q_total q) f0
      then let (g, q') := pullSingle q in Done (Some g, q')
      else match j_avg first with
           | None => let (g, q') := pullSingle q in Done (Some g, q')
           | Some d =>
               let target0 := fdiv (fmul (q_total q) maxwork) (fofnat nThreads) in
               let target := if flt f0 (q_ret q) && failed
                             then let m := fmul f09 (fsub (q_ret q) now) in if flt target0 m then m else target0
                             else target0 in
               obind (walk rest d target 1 d) (fun r =>
               obind (extractN (fst r) q) (fun e =>
               let q' := snd e in let dn := fadd now (snd r) in
               Done (Some (fst e), if flt (q_ret q') dn then mkQ (q_jobs q') (q_groups q') (q_total q') dn else q')))
           end
    end
  end.
End Pool.

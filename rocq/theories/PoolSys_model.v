(** * Thread pool: the concurrent system

    Models the threads of include/cppad/cg/model/threadpool/pthread_pool.c as a transition system: every step is one of the
    points where threads can interleave.

    - A section under queue->rwmutex (push, pull, change of strategy) is one step: everything it writes is written under that
      mutex.  thpool_wait reads len and group_front without it; the intermediate values of len inside such a section are zero
      only if the value before or the value after is, so the test "len != 0" cannot tell them from the values before or after.
    - A section under the mutex of the binary semaphore is one step, possibly inside one under rwmutex.
    - thcount_lock is held by thpool_wait over several steps ([s_T]); the sections of the workers are one step each, except the
      last one (num_threads_alive--), where the unlock is a step of its own.
    - pthread_cond_wait: the thread is moved to a sleeping state; signal moves one sleeping thread back, broadcast all of them;
      spurious wake-ups are the separate steps [E_spurious] and [E_spuriousWait].
    - A job is an opaque computation which does not call the pool; its start and its end are two steps.
    - [s_pushed], [s_started], [s_finished] are records of what happened; no step reads them except [C_wait], which keeps the
      number of jobs added before the call. *)
From Coq Require Import List Bool Arith ZArith.
From Verif Require Import Graph_model Codegen_model Pool_model.
Import ListNotations.

Section Sys.
Context {F : Type} {FO : FOps F}.
Variable maxwork : F.                                   (* cppadcg_pool_guided_maxgroupwork *)

(** thread_do (962-1078): where a worker is *)
Inductive wpc : Type :=
 | WLoop                                                (* while (threads_keepalive) *)
 | WCheck                                               (* in bsem_wait, awake: about to test v *)
 | WSleep                                               (* in bsem_wait, in pthread_cond_wait *)
 | WWoke                                                (* after bsem_wait *)
 | WPull                                                (* inner while (threads_keepalive) *)
 | WRun (js : list (@job F))                            (* jobs of the group still to do *)
 | WBusy (j : @job F) (js : list (@job F))              (* inside func_buff(arg_buff) *)
 | WIdle                                                (* before num_threads_working-- *)
 | WEnd                                                 (* before num_threads_alive-- *)
 | WUnlock                                              (* after it, before the unlock of thcount_lock *)
 | WDead.
(** thpool_wait (794-804): where a waiting thread is; [k]: jobs added before the call *)
Inductive tpc : Type :=
 | TLock (k : nat) | TLen (k : nat) | TGrp (k : nat) | TWork (k : nat) | TSleep (k : nat) | TDone (k : nat).

Record st : Type := mkSt {
  s_q : @queue F; s_strat : strategy; s_v : bool; s_work : nat; s_T : bool;
  s_ws : list wpc; s_ts : list tpc;
  s_keep : bool; s_alive : nat; s_freed : bool;
  s_pushed : list (@job F); s_started : list (@job F); s_finished : list (@job F) }.

(** after thpool_init with n threads (461-518) *)
Definition init (n : nat) (s : strategy) : st := mkSt emptyQ s false 0 false (repeat WLoop n) [] true n false [] [] [].

Definition upQ q s := mkSt q (s_strat s) (s_v s) (s_work s) (s_T s) (s_ws s) (s_ts s) (s_keep s) (s_alive s) (s_freed s) (s_pushed s) (s_started s) (s_finished s).
Definition upStrat x s := mkSt (s_q s) x (s_v s) (s_work s) (s_T s) (s_ws s) (s_ts s) (s_keep s) (s_alive s) (s_freed s) (s_pushed s) (s_started s) (s_finished s).
Definition upV v s := mkSt (s_q s) (s_strat s) v (s_work s) (s_T s) (s_ws s) (s_ts s) (s_keep s) (s_alive s) (s_freed s) (s_pushed s) (s_started s) (s_finished s).
Definition upWork n s := mkSt (s_q s) (s_strat s) (s_v s) n (s_T s) (s_ws s) (s_ts s) (s_keep s) (s_alive s) (s_freed s) (s_pushed s) (s_started s) (s_finished s).
Definition upT b s := mkSt (s_q s) (s_strat s) (s_v s) (s_work s) b (s_ws s) (s_ts s) (s_keep s) (s_alive s) (s_freed s) (s_pushed s) (s_started s) (s_finished s).
Definition upWs w s := mkSt (s_q s) (s_strat s) (s_v s) (s_work s) (s_T s) w (s_ts s) (s_keep s) (s_alive s) (s_freed s) (s_pushed s) (s_started s) (s_finished s).
Definition upTs t s := mkSt (s_q s) (s_strat s) (s_v s) (s_work s) (s_T s) (s_ws s) t (s_keep s) (s_alive s) (s_freed s) (s_pushed s) (s_started s) (s_finished s).
Definition upKeep b s := mkSt (s_q s) (s_strat s) (s_v s) (s_work s) (s_T s) (s_ws s) (s_ts s) b (s_alive s) (s_freed s) (s_pushed s) (s_started s) (s_finished s).
Definition upAlive n s := mkSt (s_q s) (s_strat s) (s_v s) (s_work s) (s_T s) (s_ws s) (s_ts s) (s_keep s) n (s_freed s) (s_pushed s) (s_started s) (s_finished s).
Definition upFreed b s := mkSt (s_q s) (s_strat s) (s_v s) (s_work s) (s_T s) (s_ws s) (s_ts s) (s_keep s) (s_alive s) b (s_pushed s) (s_started s) (s_finished s).
Definition logPushed l s := mkSt (s_q s) (s_strat s) (s_v s) (s_work s) (s_T s) (s_ws s) (s_ts s) (s_keep s) (s_alive s) (s_freed s) (s_pushed s ++ l) (s_started s) (s_finished s).
Definition logStarted j s := mkSt (s_q s) (s_strat s) (s_v s) (s_work s) (s_T s) (s_ws s) (s_ts s) (s_keep s) (s_alive s) (s_freed s) (s_pushed s) (s_started s ++ [j]) (s_finished s).
Definition logFinished j s := mkSt (s_q s) (s_strat s) (s_v s) (s_work s) (s_T s) (s_ws s) (s_ts s) (s_keep s) (s_alive s) (s_freed s) (s_pushed s) (s_started s) (s_finished s ++ [j]).
Definition setW i p s := upWs (setNth (s_ws s) i p) s.
Definition setT i p s := upTs (setNth (s_ts s) i p) s.

(** bsem_post (1393-1398): wakes one sleeping thread, if there is one *)
Inductive posted : st -> st -> Prop :=
 | P_one s i : nth_error (s_ws s) i = Some WSleep -> posted s (setW i WCheck (upV true s))
 | P_none s : (forall i, nth_error (s_ws s) i <> Some WSleep) -> posted s (upV true s).
(** bsem_post_all (1402-1407) *)
Definition wakeW (p : wpc) : wpc := match p with WSleep => WCheck | _ => p end.
Definition postAll (s : st) : st := upWs (map wakeW (s_ws s)) (upV true s).
(** pthread_cond_signal(&threads_all_idle) *)
Inductive signalled : st -> st -> Prop :=
 | S_one s i k : nth_error (s_ts s) i = Some (TSleep k) -> signalled s (setT i (TLock k) s)
 | S_none s : (forall i k, nth_error (s_ts s) i <> Some (TSleep k)) -> signalled s s.

(** "more than one job in queue -> post it" (1352-1355) *)
Definition more (q : @queue F) : bool := match q_jobs q, q_groups q with [], [] => false | _, _ => true end.
Inductive repost : st -> st -> Prop :=
 | R_post s s' : more (s_q s) = true -> posted s s' -> repost s s'
 | R_none s : more (s_q s) = false -> repost s s.

(** steps of the workers and of the threads inside thpool_wait *)
Inductive istep : st -> st -> Prop :=
 (* while (thpool->threads_keepalive) (996) *)
 | I_loop s i : nth_error (s_ws s) i = Some WLoop -> istep s (setW i (if s_keep s then WCheck else WEnd) s)
 (* bsem_wait (1411-1418) *)
 | I_take s i : nth_error (s_ws s) i = Some WCheck -> s_v s = true -> istep s (setW i WWoke (upV false s))
 | I_sleep s i : nth_error (s_ws s) i = Some WCheck -> s_v s = false -> istep s (setW i WSleep s)
 (* if (!keepalive) break (1000-1002); num_threads_working++ (1004-1006) *)
 | I_stop s i : nth_error (s_ws s) i = Some WWoke -> s_keep s = false -> istep s (setW i WEnd s)
 | I_work s i : nth_error (s_ws s) i = Some WWoke -> s_keep s = true -> s_T s = false -> istep s (setW i WPull (upWork (s_work s + 1) s))
 (* inner loop (1008-1015) *)
 | I_quit s i : nth_error (s_ws s) i = Some WPull -> s_keep s = false -> istep s (setW i WIdle s)
 | I_pull s s1 i now failed g q' : nth_error (s_ws s) i = Some WPull -> s_keep s = true ->
     pull (s_strat s) (length (s_ws s)) maxwork now failed (s_q s) = Done (Some g, q') ->
     repost (upQ q' s) s1 -> istep s (setW i (WRun g) s1)
 | I_empty s s1 i now failed q' : nth_error (s_ws s) i = Some WPull -> s_keep s = true ->
     pull (s_strat s) (length (s_ws s)) maxwork now failed (s_q s) = Done (None, q') ->
     repost (upQ q' s) s1 -> istep s (setW i WIdle s1)
 (* for (i = 0; i < workGroup->size; ++i) (1021-1047) *)
 | I_start s i j js : nth_error (s_ws s) i = Some (WRun (j :: js)) -> istep s (setW i (WBusy j js) (logStarted j s))
 | I_finish s i j js : nth_error (s_ws s) i = Some (WBusy j js) -> istep s (setW i (WRun js) (logFinished j s))
 | I_next s i : nth_error (s_ws s) i = Some (WRun []) -> istep s (setW i WPull s)
 (* num_threads_working--; signal (1065-1070) *)
 | I_idle s s1 i : nth_error (s_ws s) i = Some WIdle -> s_T s = false ->
     (if Nat.eqb (s_work s - 1) 0 then signalled (upWork (s_work s - 1) s) s1 else s1 = upWork (s_work s - 1) s) -> istep s (setW i WLoop s1)
 (* num_threads_alive-- (1073-1075) *)
 | I_end s i : nth_error (s_ws s) i = Some WEnd -> s_T s = false -> istep s (setW i WUnlock (upT true (upAlive (s_alive s - 1) s)))
 | I_unlock s i : nth_error (s_ws s) i = Some WUnlock -> istep s (setW i WDead (upT false s))
 (* thpool_wait (795-801) *)
 | I_tlock s i k : nth_error (s_ts s) i = Some (TLock k) -> s_T s = false -> istep s (setT i (TLen k) (upT true s))
 | I_tlen s i k : nth_error (s_ts s) i = Some (TLen k) ->
     istep s (match q_jobs (s_q s) with [] => setT i (TGrp k) s | _ => setT i (TSleep k) (upT false s) end)
 | I_tgrp s i k : nth_error (s_ts s) i = Some (TGrp k) ->
     istep s (match q_groups (s_q s) with [] => setT i (TWork k) s | _ => setT i (TSleep k) (upT false s) end)
 | I_twork s i k : nth_error (s_ts s) i = Some (TWork k) ->
     istep s (if Nat.eqb (s_work s) 0
              then setT i (TDone k) (upT false (upQ (mkQ (q_jobs (s_q s)) (q_groups (s_q s)) f0 f0) s))
              else setT i (TSleep k) (upT false s)).

(** spurious wake-ups *)
Inductive estep : st -> st -> Prop :=
 | E_spurious s i : nth_error (s_ws s) i = Some WSleep -> estep s (setW i WCheck s)
 | E_spuriousWait s i k : nth_error (s_ts s) i = Some (TSleep k) -> estep s (setT i (TLock k) s).

(** calls of the other threads of the program: any number of them, at any time *)
Inductive cstep : st -> st -> Prop :=
 (* thpool_add_job: jobqueue_push (1171-1180) *)
 | C_push s s1 j : posted (upQ (push1 (s_q s) j) s) s1 -> cstep s (logPushed [j] s1)
 (* thpool_add_jobs: jobqueue_multipush (1186-1197) *)
 | C_multi s js : cstep s (logPushed js (postAll (upQ (fold_left push1 js (s_q s)) s)))
 (* thpool_add_jobs: jobqueue_push_static_jobs with the groups [gs] (619-767), when the strategy is STATIC (608) *)
 | C_static s gs : s_strat s = STATIC -> cstep s (logPushed (concat gs) (postAll (upQ (pushGroups (s_q s) gs) s)))
 (* thpool_wait is called *)
 | C_wait s : cstep s (upTs (s_ts s ++ [TLock (length (s_pushed s))]) s).

(** cppadcg_thpool_set_scheduler_strategy (154-163) *)
Inductive sstep : st -> st -> Prop := S_strat s x : sstep s (upStrat x s).

(** thpool_destroy (879-923): keepalive = 0; posts; frees when num_threads_alive == 0 *)
Inductive dstep : st -> st -> Prop :=
 | D_stop s : dstep s (upKeep false s)
 | D_post s : s_keep s = false -> dstep s (postAll s)
 | D_free s : s_keep s = false -> s_alive s = 0 -> dstep s (upFreed true s).

(** the pool in use: no change of strategy, no shutdown *)
Inductive use : st -> st -> Prop :=
 | U_i s s' : istep s s' -> use s s' | U_e s s' : estep s s' -> use s s' | U_c s s' : cstep s s' -> use s s'.
(** anything can happen *)
Inductive any : st -> st -> Prop :=
 | A_u s s' : use s s' -> any s s' | A_s s s' : sstep s s' -> any s s' | A_d s s' : dstep s s' -> any s s'.

Inductive runs (R : st -> st -> Prop) : st -> st -> Prop :=
 | runs0 s : runs R s s
 | runsS s1 s2 s3 : runs R s1 s2 -> R s2 s3 -> runs R s1 s3.
End Sys.

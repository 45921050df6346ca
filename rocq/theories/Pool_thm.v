(** * Thread pool of the generated code: theorems

    C28: every job is run exactly once; thpool_wait returns only after the jobs added before it.
    C42: the pool does not stall: all jobs are run and thpool_wait returns.
    C29, C30: order and groups of jobs.
    C43: shutdown. *)
From Coq Require Import List Bool Arith ZArith Lia Permutation QArith Qcanon SpecFloat.
From Verif Require Import Graph_model Codegen_model Pool_model PoolSys_model Pool_proofs Pool_live Pool_group Pool_exact Pool_stop.
Import ListNotations.
Local Open Scope nat_scope.

(** ** How runs are built *)
Lemma runs_front {F} (R : @st F -> st -> Prop) s1 s2 s3 : R s1 s2 -> runs R s2 s3 -> runs R s1 s3.
Proof. intros H1 H2. induction H2 as [|a b c H2 IH H3]; [eapply runsS; [apply runs0|exact H1]|eapply runsS; eauto]. Qed.
Ltac go_i C := eapply runs_front; [apply U_i; eapply C; reflexivity|cbn].
Ltac go_a C := eapply runs_front; [apply A_u, U_i; eapply C; reflexivity|cbn].

(** ** C28 *)
(** Whatever the schedule, including spurious wake-ups, changes of strategy and shutdown, and whatever the calls made by any
    number of other threads: jobs are only started if added, no more often than added, and finished no more often than started. *)
Theorem C28_no_job_runs_twice {F} {FO : FOps F} (mw : F) n x s : runs (any mw) (init n x) s ->
  (exists rest, Permutation (s_pushed s) (s_started s ++ rest)) /\ (exists rest, Permutation (s_started s) (s_finished s ++ rest)).
Proof.
  intros H. apply reach_Inv in H. split.
  - pose proof (i_perm s H) as P. pose proof (i_start s H) as Q.
    assert (exists r, Permutation (flat_map held (s_ws s)) (flat_map running (s_ws s) ++ r)) as (r & Hr).
    { clear. induction (s_ws s) as [|p l (r & Hr)]; [exists []; reflexivity|]. cbn [flat_map].
      destruct p; cbn [held running app]; try (exists r; exact Hr).
      - exists (js ++ r). rewrite Hr, !app_assoc. apply Permutation_app_tail, Permutation_app_comm.
      - exists (js ++ r). apply perm_skip. rewrite Hr, !app_assoc. apply Permutation_app_tail, Permutation_app_comm. }
    exists (pending s ++ r). rewrite P, Q, Hr. rewrite (Permutation_app_comm (pending s)). rewrite <- !app_assoc. apply Permutation_app_head.
    rewrite !app_assoc. rewrite (Permutation_app_comm r). rewrite <- !app_assoc. apply Permutation_app_head, Permutation_app_comm.
  - exists (flat_map running (s_ws s)). rewrite (i_start s H). apply Permutation_app_comm.
Qed.
Print Assumptions C28_no_job_runs_twice.
(** In particular: different jobs added once each are started once each. *)
Corollary C28_distinct_jobs {F} {FO : FOps F} (mw : F) n x s : runs (any mw) (init n x) s -> NoDup (s_pushed s) -> NoDup (s_started s) /\ NoDup (s_finished s).
Proof.
  intros H Hd. destruct (C28_no_job_runs_twice mw n x s H) as [(r & P) (r' & Q)]. pose proof (Permutation_NoDup P Hd) as D.
  assert (forall a b : list (@job F), NoDup (a ++ b) -> NoDup a) as Ha.
  { clear. intros a b D. induction a as [|x a IH]; [constructor|]. cbn in D. inversion D; subst. constructor; [intros C; apply H1, in_or_app; auto|apply IH; assumption]. }
  apply Ha in D. split; [exact D|]. pose proof (Permutation_NoDup Q D) as D'. apply Ha in D'. exact D'.
Qed.
Print Assumptions C28_distinct_jobs.
(** A job which was added is nowhere else than in the queue, in the hands of one worker, or finished. *)
Theorem C28_no_job_is_lost {F} {FO : FOps F} (mw : F) n x s : runs (any mw) (init n x) s ->
  Permutation (s_pushed s) ((q_jobs (s_q s) ++ concat (q_groups (s_q s))) ++
    flat_map (fun p => match p with WRun js => js | WBusy j js => j :: js | _ => [] end) (s_ws s) ++ s_finished s).
Proof. intros H. apply (i_perm s (reach_Inv _ _ _ _ H)). Qed.
Print Assumptions C28_no_job_is_lost.
(** thpool_wait: when it returned, the [k] jobs added before the call are finished, each as often as it was added. *)
Theorem C28_wait_returns_after_the_jobs {F} {FO : FOps F} (mw : F) n x s i k : runs (any mw) (init n x) s ->
  nth_error (s_ts s) i = Some (TDone k) -> k <= length (s_pushed s) /\ exists rest, Permutation (s_finished s) (firstn k (s_pushed s) ++ rest).
Proof. intros H E. apply (i_wait s (reach_Inv _ _ _ _ H) i (TDone k) E). Qed.
Print Assumptions C28_wait_returns_after_the_jobs.

(** ** C42 *)
(** From every state of the pool in use, the threads of the pool and the threads in thpool_wait can make only finitely many steps
    without a further call (or spurious wake-up). *)
Theorem C42_no_endless_activity {F} {FO : FOps F} (mw : F) n x s : runs (use mw) (init n x) s -> Acc (fun b a => istep mw a b) s.
Proof.
  intros H. destruct (use_reach _ _ _ _ H) as [_ HL]. clear H. remember (rank s) as r eqn:Er. revert s Er HL.
  induction r as [r IH] using (well_founded_induction lt_wf). intros s Er HL. constructor. intros s' Hs.
  apply (IH (rank s')); [subst; eapply istep_rank; eassumption|reflexivity|eapply istep_Live; eassumption].
Qed.
Print Assumptions C42_no_endless_activity.
(** When they cannot make a step any more, all jobs were run, unless a worker read through a null pointer in the queue (C30). *)
Theorem C42_all_jobs_are_run {F} {FO : FOps F} (mw : F) n x s : 0 < n -> runs (use mw) (init n x) s ->
  (forall s', ~ istep mw s s') -> ~ crash mw s -> Permutation (s_finished s) (s_pushed s) /\ q_jobs (s_q s) = [] /\ q_groups (s_q s) = [].
Proof.
  intros Hn H HS HC. destruct (use_reach _ _ _ _ H) as [HI HL]. destruct (stuck_quiet mw n x s HI HL Hn HS HC) as (A & _ & C & _).
  destruct (quiet_finished s HI A C) as [P _]. apply more_false in A. split; [symmetry; exact P|exact A].
Qed.
Print Assumptions C42_all_jobs_are_run.
(** If no two threads are in thpool_wait at the same time, every thpool_wait has returned by then. *)
Theorem C42_wait_returns {F} {FO : FOps F} (mw : F) n x s : 0 < n -> runs (solo mw) (init n x) s ->
  (forall s', ~ istep mw s s') -> ~ crash mw s -> forall i t, nth_error (s_ts s) i = Some t -> exists k, t = TDone k.
Proof.
  intros Hn H HS HC i t Et. destruct (solo_reach _ _ _ _ H) as (HI & HL & HW). destruct (stuck_quiet mw n x s HI HL Hn HS HC) as (A & _ & C & D).
  destruct (quiet_finished s HI A C) as [_ P]. destruct (D i t Et) as (k & [->| ->]); [|eauto]. exfalso.
  assert (0 < cnt isTSleep (s_ts s)) as Hc by (pose proof (cnt_in isTSleep (s_ts s) i _ Et) as X; cbn in X; lia).
  destruct (HW Hc) as [X|X]; [congruence|lia].
Qed.
Print Assumptions C42_wait_returns.
(** With the default strategy, or without timing information, no worker reads through a null pointer, in any arithmetic. *)
Theorem C42_dynamic_never_crashes {F} {FO : FOps F} (mw : F) s : s_strat s = DYNAMIC \/ (forall j, In j (q_jobs (s_q s)) -> j_avg j = None) -> ~ crash mw s.
Proof. intros [H|H] (i & now & failed & _ & E); [rewrite H in E; exact (pull_dynamic _ _ _ _ _ E)|exact (pull_untimed _ _ _ _ _ _ H E)]. Qed.
Print Assumptions C42_dynamic_never_crashes.

(** A run: one worker, one job, one thread which waits. *)
Section Example.
Definition jb (i : nat) : @job Qc := mkJob i None.
Definition mwx : Qc := Q2Qc (3 # 4).
Definition runEnd : @st Qc :=
  mkSt emptyQ DYNAMIC false 0 false [WSleep] [TDone 1] true 1 false [jb 7] [jb 7] [jb 7].
Lemma sleepers_stuck (s : @st Qc) mw : Forall (fun p => p = WSleep) (s_ws s) -> Forall (fun t => exists k, t = TSleep k \/ t = TDone k) (s_ts s) -> forall s', ~ istep mw s s'.
Proof.
  intros H1 H2 s' Hs. rewrite Forall_forall in H1, H2.
  destruct Hs; match goal with
  | H : nth_error (s_ws _) _ = Some _ |- _ => apply nth_error_In, H1 in H; discriminate
  | H : nth_error (s_ts _) _ = Some _ |- _ => apply nth_error_In, H2 in H; destruct H as (? & [?|?]); discriminate
  end.
Qed.
Lemma solo_use (s s' : @st Qc) mw : use mw s s' -> cnt undone (s_ts s') <= 1 -> solo mw s s'.
Proof. intros H1 H2. split; assumption. Qed.
Ltac go_s C := eapply runs_front; [split; [apply U_i; eapply C; reflexivity|cbn; lia]|cbn].
Example C42_run : runs (solo mwx) (init 1 DYNAMIC) runEnd.
Proof.
  go_s (I_loop mwx (init 1 DYNAMIC) 0). go_s (I_sleep (F := Qc) mwx (mkSt emptyQ DYNAMIC false 0 false [WCheck] [] true 1 false [] [] []) 0).
  eapply runs_front; [split; [apply U_c; eapply (C_push _ _ (jb 7)); eapply (P_one _ 0); reflexivity|cbn; lia]|cbn].
  eapply runs_front; [split; [apply U_c, C_wait|cbn; lia]|cbn].
  eapply runs_front; [split; [apply U_i, (I_tlock _ _ 0 1); reflexivity|cbn; lia]|cbn].
  eapply runs_front; [split; [apply U_i, (I_tlen _ _ 0 1); reflexivity|cbn; lia]|cbn].
  eapply runs_front; [split; [apply U_i, (I_take _ _ 0); reflexivity|cbn; lia]|cbn].
  eapply runs_front; [split; [apply U_i, (I_work _ _ 0); reflexivity|cbn; lia]|cbn].
  eapply runs_front; [split; [apply U_i; eapply (I_pull _ _ _ 0 (Q2Qc 0) false); [reflexivity|reflexivity|reflexivity|apply R_none; reflexivity]|cbn; lia]|cbn].
  eapply runs_front; [split; [apply U_i; eapply (I_start _ _ 0); reflexivity|cbn; lia]|cbn].
  eapply runs_front; [split; [apply U_i; eapply (I_finish _ _ 0); reflexivity|cbn; lia]|cbn].
  eapply runs_front; [split; [apply U_i; eapply (I_next _ _ 0); reflexivity|cbn; lia]|cbn].
  eapply runs_front; [split; [apply U_i; eapply (I_empty _ _ _ 0 (Q2Qc 0) false); [reflexivity|reflexivity|reflexivity|apply R_none; reflexivity]|cbn; lia]|cbn].
  eapply runs_front; [split; [apply U_i; eapply (I_idle _ _ _ 0); [reflexivity|reflexivity|cbn; apply (S_one _ 0 1); reflexivity]|cbn; lia]|cbn].
  eapply runs_front; [split; [apply U_i, (I_loop _ _ 0); reflexivity|cbn; lia]|cbn].
  eapply runs_front; [split; [apply U_i, (I_sleep _ _ 0); reflexivity|cbn; lia]|cbn].
  eapply runs_front; [split; [apply U_i, (I_tlock _ _ 0 1); reflexivity|cbn; lia]|cbn].
  eapply runs_front; [split; [apply U_i, (I_tlen _ _ 0 1); reflexivity|cbn; lia]|cbn].
  eapply runs_front; [split; [apply U_i, (I_tgrp _ _ 0 1); reflexivity|cbn; lia]|cbn].
  eapply runs_front; [split; [apply U_i, (I_twork _ _ 0 1); reflexivity|cbn; lia]|cbn].
  apply runs0.
Qed.
Example C42_run_ends : (forall s', ~ istep mwx runEnd s') /\ ~ crash mwx runEnd.
Proof.
  split; [apply sleepers_stuck; repeat constructor; exists 1; auto|]. apply C42_dynamic_never_crashes. left; reflexivity.
Qed.
End Example.

(** *** Where the claim fails *)
(** Two threads in thpool_wait: only one of them is woken. *)
Definition twoEnd : @st Qc := mkSt emptyQ DYNAMIC false 0 false [WSleep] [TDone 1; TSleep 1] true 1 false [jb 7] [jb 7] [jb 7].
Theorem C42_two_waits_refuted : exists s : @st Qc, runs (use mwx) (init 1 DYNAMIC) s /\ s_finished s = s_pushed s /\ s_strat s = DYNAMIC /\
  (forall s', ~ istep mwx s s') /\ exists i k, nth_error (s_ts s) i = Some (TSleep k).
Proof.
  exists twoEnd. split.
  - go_i (I_loop mwx (init 1 DYNAMIC) 0). go_i (I_sleep (F := Qc) mwx (mkSt emptyQ DYNAMIC false 0 false [WCheck] [] true 1 false [] [] []) 0).
    eapply runs_front; [apply U_c; eapply (C_push _ _ (jb 7)); eapply (P_one _ 0); reflexivity|cbn].
    eapply runs_front; [apply U_c, C_wait|cbn]. eapply runs_front; [apply U_c, C_wait|cbn].
    eapply runs_front; [apply U_i, (I_tlock _ _ 0 1); reflexivity|cbn].
    eapply runs_front; [apply U_i, (I_tlen _ _ 0 1); reflexivity|cbn].
    eapply runs_front; [apply U_i, (I_tlock _ _ 1 1); reflexivity|cbn].
    eapply runs_front; [apply U_i, (I_tlen _ _ 1 1); reflexivity|cbn].
    eapply runs_front; [apply U_i, (I_take _ _ 0); reflexivity|cbn].
    eapply runs_front; [apply U_i, (I_work _ _ 0); reflexivity|cbn].
    eapply runs_front; [apply U_i; eapply (I_pull _ _ _ 0 (Q2Qc 0) false); [reflexivity|reflexivity|reflexivity|apply R_none; reflexivity]|cbn].
    eapply runs_front; [apply U_i; eapply (I_start _ _ 0); reflexivity|cbn].
    eapply runs_front; [apply U_i; eapply (I_finish _ _ 0); reflexivity|cbn].
    eapply runs_front; [apply U_i; eapply (I_next _ _ 0); reflexivity|cbn].
    eapply runs_front; [apply U_i; eapply (I_empty _ _ _ 0 (Q2Qc 0) false); [reflexivity|reflexivity|reflexivity|apply R_none; reflexivity]|cbn].
    eapply runs_front; [apply U_i; eapply (I_idle _ _ _ 0); [reflexivity|reflexivity|cbn; apply (S_one _ 0 1); reflexivity]|cbn].
    eapply runs_front; [apply U_i, (I_loop _ _ 0); reflexivity|cbn].
    eapply runs_front; [apply U_i, (I_sleep _ _ 0); reflexivity|cbn].
    eapply runs_front; [apply U_i, (I_tlock _ _ 0 1); reflexivity|cbn].
    eapply runs_front; [apply U_i, (I_tlen _ _ 0 1); reflexivity|cbn].
    eapply runs_front; [apply U_i, (I_tgrp _ _ 0 1); reflexivity|cbn].
    eapply runs_front; [apply U_i, (I_twork _ _ 0 1); reflexivity|cbn].
    apply runs0.
  - split; [reflexivity|]. split; [reflexivity|]. split; [|exists 1, 1; reflexivity].
    apply sleepers_stuck; [repeat constructor|repeat constructor; exists 1; auto].
Qed.
Print Assumptions C42_two_waits_refuted.

(** The strategy is changed while static groups are pending: their jobs are never run, whatever the schedule. *)
Definition lost (s : @st Qc) : Prop :=
  s_strat s = DYNAMIC /\ q_jobs (s_q s) = [] /\ q_groups (s_q s) = [[jb 7]] /\ flat_map held (s_ws s) = [] /\ s_finished s = [].
Lemma held_nil (l : list (@wpc Qc)) i p : flat_map held l = [] -> nth_error l i = Some p -> held p = [].
Proof. revert i. induction l as [|q l IH]; intros [|i] H E; cbn in *; try discriminate; apply app_eq_nil in H; destruct H as [H1 H2]; [congruence|eapply IH; eassumption]. Qed.
Lemma lost_setW s i a o : lost s -> nth_error (s_ws s) i = Some o -> held a = [] -> lost (setW i a s).
Proof.
  intros (A & B & C & D & E) Hi Ha. repeat split; auto. cbn. rewrite (flat_set_same held _ _ _ _ Hi); [exact D|]. rewrite Ha. symmetry. eapply held_nil; eassumption.
Qed.
Lemma lost_step s s' : lost s -> istep mwx s s' -> lost s'.
Proof.
  intros H Hstep. pose proof H as (L1 & L2 & L3 & L4 & L5).
  assert (HR : forall s1 l v, s1 = upWs l (upV v s) -> flat_map held l = flat_map held (s_ws s) -> lost s1) by (intros s1 l v -> X; repeat split; auto; cbn; congruence).
  destruct Hstep as [s i E|s i E Ev|s i E Ev|s i E Ek|s i E Ek ET|s i E Ek|s s1 i now failed g q' E Ek Ep Er|s s1 i now failed q' E Ek Ep Er|s i j js E|s i j js E|s i E|s s1 i E ET Es|s i E ET|s i E|s i k E ET|s i k E|s i k E|s i k E].
  - eapply (lost_setW s); [exact H|exact E|destruct (s_keep s); reflexivity].
  - apply (lost_setW (upV false s) i WWoke _ H E eq_refl).
  - apply (lost_setW s i WSleep _ H E eq_refl).
  - apply (lost_setW s i WEnd _ H E eq_refl).
  - apply (lost_setW (upWork (s_work s + 1) s) i WPull _ H E eq_refl).
  - apply (lost_setW s i WIdle _ H E eq_refl).
  - exfalso. unfold pull in Ep. rewrite L1, L2 in Ep. destruct (q_groups (s_q s)); discriminate.
  - pose proof (pull_spec _ _ _ _ _ _ _ _ Ep) as (-> & _). destruct (repost_ws _ _ Er) as (l & v & -> & W & A).
    specialize (A i WPull ltac:(discriminate) E). eapply lost_setW; [|exact A|reflexivity]. apply (HR _ l v); [destruct s; reflexivity|apply W].
  - pose proof (held_nil _ _ _ L4 E) as C. discriminate.
  - pose proof (held_nil _ _ _ L4 E) as C. discriminate.
  - apply (lost_setW s i WPull _ H E eq_refl).
  - assert (HL : forall s2, lost s2 -> s_ws s2 = s_ws s -> lost (setW i WLoop s2)) by (intros s2 H2 X; eapply lost_setW; [exact H2|rewrite X; exact E|reflexivity]).
    destruct (Nat.eqb _ 0); [|subst; apply HL; [exact H|reflexivity]]. remember (upWork (s_work s - 1) s) as s2 eqn:E2. destruct Es; subst; apply HL; try exact H; reflexivity.
  - apply (lost_setW (upT true (upAlive (s_alive s - 1) s)) i WUnlock _ H E eq_refl).
  - apply (lost_setW (upT false s) i WDead _ H E eq_refl).
  - exact H.
  - destruct (q_jobs (s_q s)); exact H.
  - rewrite L3. exact H.
  - destruct (Nat.eqb _ 0); [|exact H]. repeat split; auto.
Qed.
Theorem C42_strategy_change_refuted : exists s : @st Qc, runs (any mwx) (init 1 STATIC) s /\ s_keep s = true /\ s_pushed s = [jb 7] /\
  forall s', runs (istep mwx) s s' -> s_finished s' = [].
Proof.
  eexists. split; [|split; [|split]].
  - eapply runs_front; [apply A_u, U_c, (C_static _ [[jb 7]]); reflexivity|]. eapply runs_front; [apply A_s, (S_strat _ DYNAMIC)|]. apply runs0.
  - reflexivity.
  - reflexivity.
  - intros s' H. assert (lost s') as (_ & _ & _ & _ & X); [|exact X].
    revert H. match goal with |- runs _ ?a _ -> _ => assert (lost a) as H0 by (repeat split); revert H0; generalize a end. intros a H0 H.
    induction H as [|s1 s2 s3 H IH Hs]; [exact H0|]. eapply lost_step; [apply IH, H0|exact Hs].
Qed.
Print Assumptions C42_strategy_change_refuted.

(** ** C29 *)
(** ascending order of qsort with comparePair *)
Fixpoint ascending {F} {FO : FOps F} (l : list (F * nat)) : Prop :=
  match l with a :: ((b :: _) as l') => flt (fst b) (fst a) = false /\ ascending l' | _ => True end.
(** Whatever qsort returns, the order array stays a permutation, and every job is submitted exactly once. *)
Theorem C29_order_is_a_permutation {F} {FO : FOps F} (elapsed refs : list F) sorted order :
  length refs = length elapsed -> length order = length elapsed -> Permutation sorted (pairs refs) -> Permutation order (seq 0 (length elapsed)) ->
  Permutation (updateOrder elapsed sorted order) (seq 0 (length elapsed)).
Proof.
  intros H1 H2 H3 H4. unfold updateOrder. destruct (nonZero elapsed); [|exact H4]. rewrite <- H2. apply writeOrder_perm.
  rewrite H3. unfold pairs. rewrite H2, <- H1. clear. set (n := length refs). assert (E : length (seq 0 n) = length refs) by apply seq_length. revert E. generalize (seq 0 n). clear n.
  induction refs as [|r refs IH]; intros [|a l] E; try discriminate; [reflexivity|]. cbn. apply perm_skip, IH. injection E; auto.
Qed.
Print Assumptions C29_order_is_a_permutation.
Theorem C29_each_job_submitted_once {F} {FO : FOps F} nJobs (avg : option (list F)) order :
  Permutation order (seq 0 nJobs) -> (forall l, avg = Some l -> length l = nJobs) ->
  exists l, newJobs nJobs avg order = Done l /\ Permutation (map j_fun l) (seq 0 nJobs).
Proof.
  intros H Ha. destruct (newJobs_ok nJobs avg order) as (l & E & M); [|exact Ha|exists l; split; [exact E|rewrite M; exact H]].
  apply Forall_forall. intros j Hj. apply (Permutation_in _ H) in Hj. apply in_seq in Hj. lia.
Qed.
Print Assumptions C29_each_job_submitted_once.
(** What update_order stores at a job is the place it should start at (slowest first) ... *)
Theorem C29_order_holds_ranks {F} {FO : FOps F} (elapsed refs : list F) sorted order p v k :
  length refs = length elapsed -> length order = length elapsed -> Permutation sorted (pairs refs) -> nonZero elapsed = true ->
  nth_error sorted p = Some (v, k) -> nth_error (updateOrder elapsed sorted order) k = Some (length elapsed - 1 - p).
Proof.
  intros H1 H2 H3 H4 E. unfold updateOrder. rewrite H4.
  assert (HP : Permutation (map snd sorted) (seq 0 (length elapsed))).
  { rewrite H3. unfold pairs. rewrite <- H1. clear. set (n := length refs). assert (E : length (seq 0 n) = length refs) by apply seq_length. revert E. generalize (seq 0 n). clear n.
    induction refs as [|r refs IH]; intros [|a l] E; try discriminate; [reflexivity|]. cbn. apply perm_skip, IH. injection E; auto. }
  rewrite (writeOrder_at sorted (length elapsed) 0 order p v k); [f_equal; lia| |exact E|].
  - eapply Permutation_NoDup; [symmetry; exact HP|apply seq_NoDup].
  - assert (In k (seq 0 (length elapsed))) as Hin by (rewrite <- HP; apply in_map_iff; exists (v, k); split; [reflexivity|eapply nth_error_In; exact E]). apply in_seq in Hin. lia.
Qed.
Print Assumptions C29_order_holds_ranks.
(** ... but add_jobs reads the array as the list of the jobs to start: three jobs of 1, 3 and 2 seconds start in the order 2, 1, 3. *)
Definition q (n : nat) : Qc := qcnat n.
Theorem C29_slowest_first_refuted : exists (times : list Qc) sorted order l,
  Permutation sorted (pairs times) /\ ascending sorted /\ order = updateOrder times sorted [0; 1; 2] /\ newJobs 3 (Some times) order = Done l /\
  map j_avg l = [Some (q 2); Some (q 1); Some (q 3)] /\ times = [q 1; q 3; q 2].
Proof.
  exists [q 1; q 3; q 2], [(q 1, 0); (q 2, 2); (q 3, 1)]. eexists. eexists. split; [|split; [|split; [reflexivity|split; [vm_compute; reflexivity|split; vm_compute; reflexivity]]]].
  - cbn. apply perm_skip, perm_swap.
  - cbn. repeat split; vm_compute; reflexivity.
Qed.
Print Assumptions C29_slowest_first_refuted.

(** ** C30 *)
(** Static groups: every job is in exactly one group, whatever the arithmetic and the durations (even NaN); no access out of
    bounds.  [jobs2thread] is new (negative), or is computed again, or was made for at least this number of threads. *)
Theorem C30_static_groups_partition {F} {FO : FOps F} numThreads jobs (avg : list F) j2t changed :
  0 < numThreads -> length avg = length jobs -> length j2t = length jobs ->
  changed = true \/ (exists z l, j2t = z :: l /\ (z < 0)%Z) \/ Forall (fun z => (0 <= z < Z.of_nat (Nat.min (length jobs) numThreads))%Z) j2t ->
  exists c gs, staticGroups numThreads jobs avg j2t changed = Done (c, gs) /\ length gs = Nat.min (length jobs) numThreads /\ Permutation (concat gs) jobs /\
               length c = length jobs /\ Forall (fun i => i < length gs) c.
Proof.
  intros H1 H2 H3 H4. destruct (static_ok numThreads jobs avg j2t changed H1 H2 H3 H4) as (c & E & L & R). exists c. eexists. split; [exact E|].
  unfold groupsOf at 1 3. rewrite map_length, seq_length. split; [reflexivity|]. split; [apply groups_perm; assumption|]. split; assumption.
Qed.
Print Assumptions C30_static_groups_partition.
Example C30_static_example : staticGroups (F := Qc) 2 [jb 0; jb 1; jb 2] [q 3; q 1; q 1] [(-1)%Z; (-1)%Z; (-1)%Z] false = Done ([0; 1; 1], [[jb 0]; [jb 1; jb 2]]).
Proof. vm_compute. reflexivity. Qed.
(** The groups chosen for four threads are used again after the number of threads was reduced to two: out of bounds. *)
Theorem C30_stale_groups_refuted : exists (jobs : list (@job Qc)) avg c gs, staticGroups 4 jobs avg (repeat (-1)%Z 4) true = Done (c, gs) /\
  staticGroups 2 jobs avg (map Z.of_nat c) false = Bad.
Proof. exists [jb 0; jb 1; jb 2; jb 3], [q 1; q 1; q 1; q 1]. eexists. eexists. split; vm_compute; reflexivity. Qed.
Print Assumptions C30_stale_groups_refuted.

(** Pulling takes the first group, or a non-empty first part of the queue, and leaves the rest. *)
Theorem C30_pull_partitions {F} {FO : FOps F} x n (mw now : F) failed q g q' : pull x n mw now failed q = Done (Some g, q') ->
  (q_groups q = g :: q_groups q' /\ q_jobs q' = q_jobs q) \/ (q_groups q' = q_groups q /\ q_jobs q = g ++ q_jobs q' /\ g <> []).
Proof. intros E. destruct (pull_spec mw _ _ _ _ _ _ _ E) as [(_ & A & B)|(_ & A & B & C)]; auto. Qed.
Print Assumptions C30_pull_partitions.
(** With exact times, the share of the total given to a group at most 1 per thread, and a working clock, no pull reads past the end of
    the queue, in any state of the pool (any strategy, changes of strategy, any calls). *)
Theorem C30_guided_exact_is_safe (mw : Qc) n x s now : 0 < n -> (mw <= qcnat n)%Qc -> runs (any mw) (init n x) s ->
  (forall j a, In j (s_pushed s) -> j_avg j = Some a -> (Q2Qc 0 <= a)%Qc) -> pull (s_strat s) (length (s_ws s)) mw now false (s_q s) <> Bad.
Proof.
  intros Hn Hm H Hp. rewrite (reach_len _ _ _ _ H). apply pull_exact; [exact Hn|exact Hm|]. apply (reach_TotOk _ _ _ _ H). exact Hp.
Qed.
Print Assumptions C30_guided_exact_is_safe.
Definition jt (i : nat) (t : Qc) : @job Qc := mkJob i (Some t).
Example C30_guided_example : exists s : @st Qc, runs (any mwx) (init 2 GUIDED) s /\ q_jobs (s_q s) = [jt 0 (q 1); jt 1 (q 1); jt 2 (q 9)] /\
  exists q', pull (s_strat s) (length (s_ws s)) mwx (q 0) false (s_q s) = Done (Some [jt 0 (q 1); jt 1 (q 1)], q').
Proof.
  eexists. split; [eapply runs_front; [apply A_u, U_c, (C_multi _ [jt 0 (q 1); jt 1 (q 1); jt 2 (q 9)])|apply runs0]|]. split; [reflexivity|]. eexists. vm_compute. reflexivity.
Qed.

(** Outside of these bounds the queue is left through a null pointer.  (1) A share above 1 per thread: *)
Theorem C30_large_share_refuted : exists (mw : Qc) (s : @st Qc), runs (use mw) (init 1 GUIDED) s /\ mw = q 2 /\ crash mw s.
Proof.
  exists (q 2). eexists. split; [|split; [reflexivity|]].
  - eapply runs_front; [apply U_c, (C_multi _ [jt 0 (q 1); jt 1 (q 1)])|]. eapply runs_front; [apply U_i, (I_loop _ _ 0); reflexivity|].
    eapply runs_front; [apply U_i, (I_take _ _ 0); reflexivity|]. eapply runs_front; [apply U_i, (I_work _ _ 0); reflexivity|]. apply runs0.
  - exists 0, (q 0), false. split; [reflexivity|vm_compute; reflexivity].
Qed.
Print Assumptions C30_large_share_refuted.
(** (2) The default share (0.75), one thread, and the arithmetic of float: *)
Local Instance B32 : FOps spec_float := {
  f0 := S754_zero false; fadd := SFadd 24 128; fsub := SFsub 24 128; fmul := SFmul 24 128; fdiv := SFdiv 24 128;
  fofnat := fun n => match n with O => S754_zero false | _ => binary_normalize 24 128 (Z.of_nat n) 0 false end; f09 := S754_finite false 15099494 (-24);
  flt := SFltb; fle := SFleb; feq := SFeqb }.
Definition jf (i : nat) (z : Z) (e : Z) : @job spec_float := mkJob i (Some (binary_normalize 24 128 z e false)).
Definition mw75 : spec_float := binary_normalize 24 128 3 (-2) false.
(** 1 s, 1.25 * 2^-24 s and 1.25 * 2^-24 s *)
Definition jobs32 : list (@job spec_float) := [jf 0 1 0; jf 1 5 (-26); jf 2 5 (-26)].
Theorem C30_float_default_refuted : exists s : @st spec_float, runs (use mw75) (init 1 GUIDED) s /\ s_pushed s = jobs32 /\ crash mw75 s.
Proof.
  eexists. split; [|split].
  - eapply runs_front; [apply U_c, (C_multi _ jobs32)|]. eapply runs_front; [apply U_i, (I_loop _ _ 0); reflexivity|].
    eapply runs_front; [apply U_i, (I_take _ _ 0); reflexivity|]. eapply runs_front; [apply U_i, (I_work _ _ 0); reflexivity|].
    eapply runs_front; [apply U_i; eapply (I_pull _ _ _ 0 f0 false); [reflexivity|reflexivity|vm_compute; reflexivity|apply R_post; [reflexivity|apply P_none; intros [|[|i]]; discriminate]]|].
    eapply runs_front; [apply U_i; eapply (I_start _ _ 0); reflexivity|]. eapply runs_front; [apply U_i; eapply (I_finish _ _ 0); reflexivity|].
    eapply runs_front; [apply U_i; eapply (I_next _ _ 0); reflexivity|]. apply runs0.
  - reflexivity.
  - exists 0, f0, false. split; [reflexivity|vm_compute; reflexivity].
Qed.
Print Assumptions C30_float_default_refuted.

(** ** C43 *)
(** The memory of the pool is freed only after every worker has left its loop; none runs a job any more. *)
Theorem C43_freed_after_the_jobs_partial {F} {FO : FOps F} (mw : F) n x s : runs (any mw) (init n x) s -> s_freed s = true ->
  forall i p, nth_error (s_ws s) i = Some p -> p = WUnlock \/ p = WDead.
Proof.
  intros H Hf i p E. pose proof (reach_Stop mw n x s H) as [H1 _ H3]. rewrite (H3 Hf) in H1. symmetry in H1.
  pose proof (cnt_zero isAlive (s_ws s) H1 i p E) as C. destruct p; try discriminate; auto.
Qed.
Print Assumptions C43_freed_after_the_jobs_partial.
(** But a worker may still hold the mutex inside the freed memory, and unlocks it. *)
Theorem C43_use_after_free_refuted : exists s s' : @st Qc, runs (any mwx) (init 1 DYNAMIC) s /\ s_freed s = true /\
  nth_error (s_ws s) 0 = Some WUnlock /\ istep mwx s s'.
Proof.
  eexists. eexists. split; [|split; [|split]].
  - eapply runs_front; [apply A_d, D_stop|]. go_a (I_loop mwx (upKeep false (init 1 DYNAMIC)) 0).
    eapply runs_front; [apply A_u, U_i; eapply (I_end _ _ 0); reflexivity|]. eapply runs_front; [apply A_d, D_free; reflexivity|]. apply runs0.
  - reflexivity.
  - reflexivity.
  - eapply (I_unlock _ _ 0); reflexivity.
Qed.
Print Assumptions C43_use_after_free_refuted.
(** Shutdown ends: after keepalive = 0 the threads make finitely many steps between two posts; then every worker sleeps or has left,
    and the next post makes at least one more worker leave. *)
Theorem C43_shutdown_ends {F} {FO : FOps F} (mw : F) n x s : runs (any mw) (init n x) s -> s_keep s = false ->
  Acc (fun b a => istep mw a b) s /\
  ((forall s', ~ istep mw s s') -> (forall i p, nth_error (s_ws s) i = Some p -> p = WSleep \/ p = WDead) /\
     forall i s', nth_error (s_ws s) i = Some WSleep -> runs (istep mw) (postAll s) s' -> (forall s2, ~ istep mw s' s2) ->
       cnt isDead (s_ws s) < cnt isDead (s_ws s')).
Proof.
  intros H K. pose proof (reach_Inv mw n x s H) as HI. split; [|intros HS; split].
  - clear H HI. remember (erank s) as r eqn:Er. revert s Er K. induction r as [r IH] using (well_founded_induction lt_wf). intros s Er K. constructor. intros s' Hs.
    destruct (istep_erank mw s s' K Hs) as [A B]. apply (IH (erank s')); [subst; exact A|reflexivity|exact B].
  - apply (stop_stuck mw s HI K HS).
  - intros i s' E Hr HS'. pose proof (post_Leave s K (ex_intro _ i E)) as HL.
    assert (HI' : Inv s').
    { assert (HI1 : Inv (postAll s)) by (apply postAll_Inv, HI). clear -Hr HI1. induction Hr as [|a b c Hr IH Hs]; [exact HI1|]. eapply istep_Inv; [apply IH, HI1|exact Hs]. }
    assert (HL' : Leave (cnt isDead (s_ws s)) s').
    { clear -Hr HL. remember (postAll s) as s0 eqn:E0. clear E0. induction Hr as [|a b c Hr IH Hs]; [exact HL|]. eapply istep_Leave; [apply IH, HL|exact Hs]. }
    destruct HL' as (K' & _ & [D|[[Hv Hc]|Hl]]); [exact D| |]; exfalso; pose proof (stop_stuck mw s' HI' K' HS') as HQ.
    + assert (cnt isCheck (s_ws s') = 0); [|lia]. clear -HQ. induction (s_ws s') as [|p l IH]; [reflexivity|]. cbn. rewrite IH by (intros i; apply (HQ (S i))). destruct (HQ 0 p eq_refl); subst; reflexivity.
    + assert (cnt leaving (s_ws s') = 0); [|lia]. clear -HQ. induction (s_ws s') as [|p l IH]; [reflexivity|]. cbn. rewrite IH by (intros i; apply (HQ (S i))). destruct (HQ 0 p eq_refl); subst; reflexivity.
Qed.
Print Assumptions C43_shutdown_ends.

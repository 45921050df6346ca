(** * Proofs on the thread pool: progress *)
From Coq Require Import List Bool Arith ZArith Lia Permutation Wellfounded.
From Verif Require Import Graph_model Codegen_model Pool_model PoolSys_model Pool_proofs.
Import ListNotations.

Section Sys.
Context {F : Type} {FO : FOps F}.
Variable maxwork : F.
Notation st := (@st F). Notation job := (@job F). Notation wpc := (@wpc F).

(** at most one thread is inside thpool_wait *)
Definition undone (t : tpc) : nat := match t with TDone _ => 0 | _ => 1 end.
Definition solo (s s' : st) : Prop := use maxwork s s' /\ cnt undone (s_ts s') <= 1.

Definition gone (p : wpc) : nat := match p with WEnd | WUnlock | WDead => 1 | _ => 0 end.
Definition active (p : wpc) : nat := match p with WWoke | WPull | WRun _ | WBusy _ _ => 1 | _ => 0 end.
Definition isCheck (p : wpc) : nat := match p with WCheck => 1 | _ => 0 end.
Definition isSleep (p : wpc) : nat := match p with WSleep => 1 | _ => 0 end.

(** what holds while the pool is in use *)
Record Live (n : nat) (x : strategy) (s : st) : Prop := {
  l_keep : s_keep s = true;
  l_strat : s_strat s = x;
  l_len : length (s_ws s) = n;
  l_gone : cnt gone (s_ws s) = 0;
  l_grp : q_groups (s_q s) <> [] -> x = STATIC;
  l_more : more (s_q s) = true -> s_v s = true \/ 0 < cnt active (s_ws s);
  l_v : s_v s = true -> cnt isSleep (s_ws s) = 0 \/ 0 < cnt isCheck (s_ws s) }.

Lemma cnt_repeat (n : nat) (f : wpc -> nat) p : cnt f (repeat p n) = n * f p.
Proof. induction n as [|n IH]; cbn [repeat cnt]; [reflexivity|]. rewrite IH. cbn. reflexivity. Qed.
Lemma init_Live n x : Live n x (init n x).
Proof. split; cbn; auto; try discriminate; [apply repeat_length|rewrite cnt_repeat; cbn; lia|congruence]. Qed.

(** posting: v becomes 1, a sleeper (if any) is awake, no active or gone worker moves *)
Lemma posted_live s s' : posted s s' ->
  exists l, s' = upWs l (upV true s) /\ length l = length (s_ws s) /\ cnt gone l = cnt gone (s_ws s) /\ cnt active l = cnt active (s_ws s) /\
            (cnt isSleep l = 0 \/ 0 < cnt isCheck l) /\ awake (s_ws s) l.
Proof.
  intros H. destruct (posted_ws _ _ H) as (l & El & W & A). exists l. split; [exact El|]. split; [apply W|].
  destruct H as [s0 i E|s0 E].
  - assert (l = setNth (s_ws s0) i WCheck) as -> by (clear -El; unfold setW, upWs, upV in El; cbn in El; congruence).
    pose proof (cnt_set gone (s_ws s0) i WCheck _ E). pose proof (cnt_set active (s_ws s0) i WCheck _ E). pose proof (cnt_set isCheck (s_ws s0) i WCheck _ E).
    cbn in *. repeat split; try lia; auto.
  - assert (l = s_ws s0) as -> by (clear -El; unfold setW, upWs, upV in El; cbn in El; congruence).
    repeat split; auto. left. clear -E. induction (s_ws s0) as [|p ps IH]; [reflexivity|]. cbn [cnt].
    rewrite IH; [|intros i; apply (E (S i))]. specialize (E 0). destruct p; cbn in *; congruence.
Qed.
Lemma wake_live (l : list wpc) : length (map wakeW l) = length l /\ cnt gone (map wakeW l) = cnt gone l /\ cnt active (map wakeW l) = cnt active l /\ cnt isSleep (map wakeW l) = 0.
Proof. rewrite map_length, !cnt_map. repeat split; try (apply cnt_ext; intros [ ]; reflexivity). induction l as [|p l IH]; [reflexivity|]. cbn [cnt]. rewrite IH. destruct p; reflexivity. Qed.
Lemma repost_live s s' : repost s s' ->
  exists l v, s' = upWs l (upV v s) /\ length l = length (s_ws s) /\ cnt gone l = cnt gone (s_ws s) /\ cnt active l = cnt active (s_ws s) /\
            (v = true -> cnt isSleep l = 0 \/ 0 < cnt isCheck l \/ (v = s_v s /\ l = s_ws s)) /\ awake (s_ws s) l /\ (more (s_q s) = true -> v = true).
Proof.
  intros [s0 s1 Hm P|s0 Hm].
  - destruct (posted_live _ _ P) as (l & -> & A1 & A2 & A3 & A4 & A5). exists l, true. repeat split; auto. intros _. destruct A4; auto.
  - exists (s_ws s0), (s_v s0). repeat split; auto; [destruct s0; reflexivity|intros i o _ H; exact H|congruence].
Qed.

(** one worker moves; nothing else changes *)
Lemma Live_setW n x s i a o : Live n x s -> nth_error (s_ws s) i = Some o -> gone a = 0 ->
  (active o <= active a \/ more (s_q s) = false) -> isSleep a <= isSleep o -> isCheck o <= isCheck a -> Live n x (setW i a s).
Proof.
  intros [H1 H2 H3 H4 H5 H6 H7] E Hg Ha Hs Hc. split; cbn; auto.
  - rewrite setNth_length; exact H3.
  - pose proof (cnt_set gone (s_ws s) i a o E). lia.
  - intros Hm. destruct Ha as [Ha|Ha]; [|congruence]. destruct (H6 Hm) as [|C]; [auto|right]. pose proof (cnt_set active (s_ws s) i a o E). lia.
  - intros Hv. pose proof (cnt_set isSleep (s_ws s) i a o E). pose proof (cnt_set isCheck (s_ws s) i a o E). destruct (H7 Hv); [left|right]; lia.
Qed.
Lemma not_gone n x s i o : Live n x s -> nth_error (s_ws s) i = Some o -> gone o = 0.
Proof. intros H E. apply (cnt_zero gone (s_ws s) (l_gone _ _ _ H) i o E). Qed.
Lemma more_false (q : @queue F) : more q = false <-> q_jobs q = [] /\ q_groups q = [].
Proof. unfold more. destruct (q_jobs q), (q_groups q); split; try intros [? ?]; try discriminate; auto. Qed.

Lemma istep_Live n x s s' : Live n x s -> istep maxwork s s' -> Live n x s'.
Proof.
  intros H Hstep. pose proof H as [H1 H2 H3 H4 H5 H6 H7].
  destruct Hstep as [s i E|s i E Ev|s i E Ev|s i E Ek|s i E Ek ET|s i E Ek|s s1 i now failed g q' E Ek Ep Er|s s1 i now failed q' E Ek Ep Er|s i j js E|s i j js E|s i E|s s1 i E ET Es|s i E ET|s i E|s i k E ET|s i k E|s i k E|s i k E].
  - rewrite H1. eapply Live_setW; [exact H|exact E|..]; cbn; auto.
  - (* v = 0 *) split; cbn; auto; try discriminate.
    + rewrite setNth_length; exact H3.
    + pose proof (cnt_set gone (s_ws s) i WWoke _ E) as C. cbn in C. lia.
    + right. pose proof (cnt_set active (s_ws s) i WWoke _ E) as C. cbn in C. lia.
  - split; cbn; auto.
    + rewrite setNth_length; exact H3.
    + pose proof (cnt_set gone (s_ws s) i WSleep _ E) as C. cbn in C. lia.
    + intros Hm. pose proof (cnt_set active (s_ws s) i WSleep _ E) as C. cbn in C. destruct (H6 Hm); [congruence|right; lia].
    + congruence.
  - congruence.
  - apply (Live_setW n x (upWork (s_work s + 1) s) i WPull WWoke); cbn; auto. split; auto.
  - congruence.
  - (* pull: a group *)
    pose proof (pull_spec _ _ _ _ _ _ _ _ Ep) as HP. cbn in HP. rewrite H2 in HP.
    destruct (repost_live _ _ Er) as (l & v & -> & A1 & A2 & A3 & A4 & A5 & A6). cbn in *. specialize (A5 i WPull ltac:(discriminate) E).
    pose proof (cnt_set active l i (WRun g) _ A5) as C1. pose proof (cnt_in active l i _ A5) as C2. cbn in C1, C2.
    split; cbn; auto.
    + rewrite setNth_length, A1; exact H3.
    + pose proof (cnt_set gone l i (WRun g) _ A5) as C. cbn in C. lia.
    + intros Hg. destruct HP as [(-> & _)|(_ & G & _)]; [reflexivity|apply H5; congruence].
    + intros Hv. pose proof (cnt_set isSleep l i (WRun g) _ A5) as C. pose proof (cnt_set isCheck l i (WRun g) _ A5) as C'. cbn in C, C'.
      destruct (A4 Hv) as [A|[A|[Av Al]]]; [left; lia|right; lia|]. subst l. rewrite Av in Hv. destruct (H7 Hv); [left|right]; lia.
  - (* pull: nothing *)
    pose proof (pull_spec _ _ _ _ _ _ _ _ Ep) as HP. cbn in HP. destruct HP as (-> & HP1 & HP2).
    assert (Hg : q_groups (s_q s) = []). { destruct (q_groups (s_q s)) eqn:Eg; [reflexivity|]. specialize (H5 ltac:(discriminate)). subst x. apply HP2. congruence. }
    assert (Hm : more (s_q s) = false) by (apply more_false; auto).
    remember (upQ (s_q s) s) as s2 eqn:E2. assert (Hm2 : more (s_q s2) = false) by (subst; exact Hm).
    destruct Er as [s2 s3 Hm' _|s2 _]; [congruence|]. subst s2.
    apply (Live_setW n x (upQ (s_q s) s) i WIdle WPull); cbn; auto. split; auto.
  - apply (Live_setW n x (logStarted j s) i (WBusy j js) (WRun (j :: js))); cbn; auto. split; auto.
  - apply (Live_setW n x (logFinished j s) i (WRun js) (WBusy j js)); cbn; auto. split; auto.
  - eapply Live_setW; [exact H|exact E|..]; cbn; auto.
  - assert (HL : forall s2, s_ws s2 = s_ws s -> s_q s2 = s_q s -> s_v s2 = s_v s -> s_keep s2 = s_keep s -> s_strat s2 = s_strat s -> Live n x (setW i WLoop s2)).
    { intros s2 F1 F2 F3 F4 F5. apply (Live_setW n x s2 i WLoop WIdle); cbn; auto; [|congruence]. split; rewrite ?F1, ?F2, ?F3, ?F4, ?F5; auto. }
    destruct (Nat.eqb _ 0); [|subst; apply HL; reflexivity]. remember (upWork (s_work s - 1) s) as s2 eqn:E2. destruct Es; subst; apply HL; reflexivity.
  - pose proof (not_gone _ _ _ _ _ H E). discriminate.
  - pose proof (not_gone _ _ _ _ _ H E). discriminate.
  - split; cbn; auto.
  - destruct (q_jobs (s_q s)) eqn:Eq; split; cbn; auto.
  - destruct (q_groups (s_q s)) eqn:Eq; split; cbn; auto; rewrite Eq; auto.
  - destruct (Nat.eqb (s_work s) 0); split; cbn; auto.
Qed.
Lemma estep_Live n x s s' : Live n x s -> estep s s' -> Live n x s'.
Proof.
  intros H Hs; destruct Hs as [s0 i E|s0 i k E].
  - eapply Live_setW; [exact H|exact E|..]; cbn; auto.
  - destruct H. split; cbn; auto.
Qed.
Lemma cstep_Live n x s s' : Live n x s -> cstep s s' -> Live n x s'.
Proof.
  intros H Hs; destruct Hs as [s0 s1 j P|s0 js|s0 gs ES|s0]; destruct H as [H1 H2 H3 H4 H5 H6 H7].
  - destruct (posted_live _ _ P) as (l & -> & A1 & A2 & A3 & A4 & A5). cbn in *. split; cbn; auto; congruence.
  - destruct (wake_live (s_ws s0)) as (A1 & A2 & A3 & A4). destruct (fold_push1 js (s_q s0)) as [_ B]. split; cbn; auto; try congruence. rewrite B; exact H5.
  - destruct (wake_live (s_ws s0)) as (A1 & A2 & A3 & A4). split; cbn; auto; congruence.
  - split; cbn; auto.
Qed.
Lemma use_Live n x s s' : Live n x s -> use maxwork s s' -> Live n x s'.
Proof. intros H Hs; destruct Hs as [s0 s1 Hs|s0 s1 Hs|s0 s1 Hs]; [eapply istep_Live|eapply estep_Live|eapply cstep_Live]; eassumption. Qed.

(** ** Every step of the pool itself uses up a resource *)
Definition wA (p : wpc) : nat := match p with WRun js => 2 * length js | WBusy _ js => 2 * length js + 1 | _ => 0 end.
Definition wB (p : wpc) : nat := match p with WSleep => 0 | WCheck => 1 | WLoop => 2 | WIdle => 3 | WPull => 4 | _ => 5 end.
Definition tB (t : tpc) : nat := match t with TLock _ => 6 | TLen _ => 5 | TGrp _ => 4 | TWork _ => 3 | _ => 0 end.
Definition jobsLeft (s : st) : nat :=
  3 * length (q_jobs (s_q s)) + cnt (fun g : list job => 1 + 3 * length g) (q_groups (s_q s)) + cnt wA (s_ws s).
Definition b2n (b : bool) : nat := if b then 1 else 0.
Definition rank (s : st) : nat := 1000 * jobsLeft s + (100 * b2n (s_v s) + 10 * cnt wB (s_ws s) + cnt tB (s_ts s)).

Lemma posted_wB s s' : posted s s' -> exists l, s' = upWs l (upV true s) /\ cnt wA l = cnt wA (s_ws s) /\ cnt wB l <= cnt wB (s_ws s) + 1 /\ awake (s_ws s) l.
Proof.
  intros H. destruct (posted_ws _ _ H) as (l & El & W & A). exists l. split; [exact El|].
  destruct H as [s0 i E|s0 E].
  - assert (l = setNth (s_ws s0) i WCheck) as -> by (clear -El; unfold setW, upWs, upV in El; cbn in El; congruence).
    pose proof (cnt_set wA (s_ws s0) i WCheck _ E). pose proof (cnt_set wB (s_ws s0) i WCheck _ E). cbn in *. repeat split; auto; lia.
  - assert (l = s_ws s0) as -> by (clear -El; unfold setW, upWs, upV in El; cbn in El; congruence). repeat split; auto; lia.
Qed.
Lemma repost_wB s s' : repost s s' -> exists l v, s' = upWs l (upV v s) /\ cnt wA l = cnt wA (s_ws s) /\ cnt wB l <= cnt wB (s_ws s) + 1 /\ awake (s_ws s) l.
Proof.
  intros [s0 s1 Hm P|s0 Hm]; [destruct (posted_wB _ _ P) as (l & H); exists l, true; exact H|].
  exists (s_ws s0), (s_v s0). repeat split; auto; [destruct s0; reflexivity|lia|intros i o _ H; exact H].
Qed.
Lemma rank_setW (s : st) i a o : nth_error (s_ws s) i = Some o -> wA a = wA o -> wB a < wB o -> rank (setW i a s) < rank s.
Proof.
  intros E HA HB. unfold rank, jobsLeft. cbn [setW upWs s_q s_ws s_v s_ts]. pose proof (cnt_set wA (s_ws s) i a o E). pose proof (cnt_set wB (s_ws s) i a o E). lia.
Qed.

Lemma istep_rank n x s s' : Live n x s -> istep maxwork s s' -> rank s' < rank s.
Proof.
  intros H Hstep. pose proof H as [H1 H2 H3 H4 H5 H6 H7].
  destruct Hstep as [s i E|s i E Ev|s i E Ev|s i E Ek|s i E Ek ET|s i E Ek|s s1 i now failed g q' E Ek Ep Er|s s1 i now failed q' E Ek Ep Er|s i j js E|s i j js E|s i E|s s1 i E ET Es|s i E ET|s i E|s i k E ET|s i k E|s i k E|s i k E].
  - rewrite H1. eapply rank_setW; [exact E|..]; cbn; auto.
  - unfold rank, jobsLeft. cbn [setW upWs upV s_q s_ws s_v s_ts b2n]. rewrite Ev. cbn [b2n].
    pose proof (cnt_set wA (s_ws s) i WWoke _ E) as C. pose proof (cnt_set wB (s_ws s) i WWoke _ E) as C'. cbn [wA wB] in C, C'. lia.
  - eapply rank_setW; [exact E|..]; cbn; auto.
  - congruence.
  - apply (rank_setW (upWork (s_work s + 1) s) i WPull WWoke E); cbn; auto.
  - congruence.
  - pose proof (pull_spec _ _ _ _ _ _ _ _ Ep) as HP. cbn in HP.
    destruct (repost_wB _ _ Er) as (l & v & -> & A1 & A2 & A3). cbn in A1, A2. specialize (A3 i WPull ltac:(discriminate) E).
    pose proof (cnt_set wA l i (WRun g) _ A3) as C1. pose proof (cnt_set wB l i (WRun g) _ A3) as C2. cbn [wA wB] in C1, C2.
    unfold rank, jobsLeft. cbn [setW upWs upV upQ s_q s_ws s_v s_ts].
    assert (Hb : forall b, b2n b <= 1) by (intros []; cbn; lia). pose proof (Hb v).
    destruct HP as [(_ & G1 & G2)|(_ & G1 & G2 & G3)].
    + rewrite G1, G2. cbn [cnt]. lia.
    + rewrite G1, G2, app_length. destruct g as [|g0 g]; [congruence|]. cbn [length] in *. lia.
  - pose proof (pull_spec _ _ _ _ _ _ _ _ Ep) as HP. cbn in HP. destruct HP as (-> & HP1 & HP2).
    assert (Hg : q_groups (s_q s) = []). { destruct (q_groups (s_q s)) eqn:Eg; [reflexivity|]. specialize (H5 ltac:(discriminate)). subst x. apply HP2. congruence. }
    assert (Hm : more (s_q s) = false) by (apply more_false; auto).
    remember (upQ (s_q s) s) as s2 eqn:E2. assert (Hm2 : more (s_q s2) = false) by (subst; exact Hm).
    destruct Er as [s2 s3 Hm' _|s2 _]; [congruence|]. subst s2.
    apply (rank_setW (upQ (s_q s) s) i WIdle WPull E); cbn; auto.
  - unfold rank, jobsLeft. cbn [setW upWs logStarted s_q s_ws s_v s_ts].
    pose proof (cnt_set wA (s_ws s) i (WBusy j js) _ E) as C. pose proof (cnt_set wB (s_ws s) i (WBusy j js) _ E) as C'. cbn [wA wB length] in C, C'. lia.
  - unfold rank, jobsLeft. cbn [setW upWs logFinished s_q s_ws s_v s_ts].
    pose proof (cnt_set wA (s_ws s) i (WRun js) _ E) as C. pose proof (cnt_set wB (s_ws s) i (WRun js) _ E) as C'. cbn [wA wB length] in C, C'. lia.
  - eapply rank_setW; [exact E|..]; cbn; auto.
  - assert (C : forall s2, s_ws s2 = s_ws s -> s_q s2 = s_q s -> s_v s2 = s_v s -> cnt tB (s_ts s2) <= cnt tB (s_ts s) + 6 -> rank (setW i WLoop s2) < rank s).
    { intros s2 F1 F2 F3 F4. unfold rank, jobsLeft. cbn [setW upWs s_q s_ws s_v s_ts]. rewrite F1, F2, F3.
      pose proof (cnt_set wA (s_ws s) i WLoop _ E) as C. pose proof (cnt_set wB (s_ws s) i WLoop _ E) as C'. cbn [wA wB] in C, C'. lia. }
    destruct (Nat.eqb _ 0); [|subst; apply C; cbn; auto; lia]. remember (upWork (s_work s - 1) s) as s2 eqn:E2.
    destruct Es as [s2 m k Hm|s2 _]; [|subst; apply C; cbn; auto; lia].
    pose proof (cnt_set tB (s_ts s2) m (TLock k) _ Hm) as C'. cbn [tB] in C'. subst s2. cbn in C'. apply C; cbn; auto. lia.
  - pose proof (not_gone _ _ _ _ _ H E). discriminate.
  - pose proof (not_gone _ _ _ _ _ H E). discriminate.
  - unfold rank, jobsLeft. cbn [setT upTs upT s_q s_ws s_v s_ts]. pose proof (cnt_set tB (s_ts s) i (TLen k) _ E) as C. cbn [tB] in C. lia.
  - pose proof (cnt_set tB (s_ts s) i (TGrp k) _ E) as C. pose proof (cnt_set tB (s_ts s) i (TSleep k) _ E) as C'. cbn [tB] in C, C'.
    destruct (q_jobs (s_q s)) eqn:Eq; unfold rank, jobsLeft; cbn [setT upTs upT s_q s_ws s_v s_ts]; lia.
  - pose proof (cnt_set tB (s_ts s) i (TWork k) _ E) as C. pose proof (cnt_set tB (s_ts s) i (TSleep k) _ E) as C'. cbn [tB] in C, C'.
    destruct (q_groups (s_q s)) eqn:Eq; unfold rank, jobsLeft; cbn [setT upTs upT s_q s_ws s_v s_ts]; rewrite ?Eq; lia.
  - pose proof (cnt_set tB (s_ts s) i (TDone k) _ E) as C. pose proof (cnt_set tB (s_ts s) i (TSleep k) _ E) as C'. cbn [tB] in C, C'.
    destruct (Nat.eqb (s_work s) 0) eqn:Eq; unfold rank, jobsLeft; cbn [setT upTs upT upQ s_q s_ws s_v s_ts q_jobs q_groups]; lia.
Qed.

(** ** A waiting thread is asleep only while there is work *)
Definition isTSleep (t : tpc) : nat := match t with TSleep _ => 1 | _ => 0 end.
Definition Waits (s : st) : Prop := 0 < cnt isTSleep (s_ts s) -> more (s_q s) = true \/ 0 < s_work s.

Lemma cnt_set_le {A} (f : A -> nat) (l : list A) i a : cnt f (setNth l i a) <= cnt f l + f a.
Proof. destruct (nth_error l i) as [o|] eqn:E; [pose proof (cnt_set f l i a o E); lia|]. revert i E. induction l as [|y l IH]; intros [|i] E; cbn in *; try discriminate; try lia. specialize (IH i E). lia. Qed.

Lemma istep_Waits s s' : Inv s -> Waits s -> cnt undone (s_ts s') <= 1 -> istep maxwork s s' -> Waits s'.
Proof.
  intros HI H Hu Hstep. unfold Waits in *.
  destruct Hstep as [s i E|s i E Ev|s i E Ev|s i E Ek|s i E Ek ET|s i E Ek|s s1 i now failed g q' E Ek Ep Er|s s1 i now failed q' E Ek Ep Er|s i j js E|s i j js E|s i E|s s1 i E ET Es|s i E ET|s i E|s i k E ET|s i k E|s i k E|s i k E]; cbn in *; try exact H.
  - intros _. right. lia.
  - pose proof (working_pos s i WPull HI E eq_refl). destruct (repost_wB _ _ Er) as (l & v & -> & _). cbn. intros _. right. lia.
  - pose proof (working_pos s i WPull HI E eq_refl). destruct (repost_wB _ _ Er) as (l & v & -> & _). cbn. intros _. right. lia.
  - destruct (Nat.eqb_spec (s_work s - 1) 0) as [Hw|Hw]; [|subst s1; cbn; intros _; right; lia].
    remember (upWork (s_work s - 1) s) as s2 eqn:E2. destruct Es as [s2 m k Hm|s2 Hn]; subst s2; cbn in *.
    + intros Hs. exfalso. clear -Hs Hu Hm. revert m Hm Hs Hu. induction (s_ts s) as [|t l IH]; intros [|m] Hm Hs Hu; cbn in *; try discriminate.
      * injection Hm as ->. cbn in *. assert (cnt isTSleep l <= cnt undone l) by (apply cnt_le; intros []; cbn; lia). lia.
      * destruct t; cbn in *; try (eapply IH; eauto; lia).
        all: pose proof (cnt_in undone (setNth l m (TLock k)) m (TLock k)) as C; rewrite nth_set_eq in C by (apply nth_error_Some; congruence);
             specialize (C eq_refl); cbn in C; lia.
    + intros Hs. exfalso. clear -Hs Hn. induction (s_ts s) as [|t l IH]; cbn in *; [lia|].
      destruct t; cbn in Hs; try (apply IH; [intros i0; apply (Hn (S i0))|exact Hs]). exact (Hn 0 k eq_refl).
  - intros Hs. apply H. pose proof (cnt_set isTSleep (s_ts s) i (TLen k) _ E) as C. cbn in C. lia.
  - destruct (q_jobs (s_q s)) eqn:Eq; cbn; intros Hs.
    + apply H. pose proof (cnt_set isTSleep (s_ts s) i (TGrp k) _ E) as C. cbn in C. lia.
    + left. unfold more. rewrite Eq. reflexivity.
  - destruct (q_groups (s_q s)) eqn:Eq; cbn; intros Hs.
    + apply H. pose proof (cnt_set isTSleep (s_ts s) i (TWork k) _ E) as C. cbn in C. lia.
    + left. unfold more. rewrite Eq. destruct (q_jobs (s_q s)); reflexivity.
  - destruct (Nat.eqb_spec (s_work s) 0) as [Hw|Hw]; cbn; intros Hs; [|right; lia].
    apply H. pose proof (cnt_set isTSleep (s_ts s) i (TDone k) _ E) as C. cbn in C. lia.
Qed.
Lemma solo_Waits s s' : Inv s -> Waits s -> solo s s' -> Waits s'.
Proof.
  intros HI H [Hs Hu]. destruct Hs as [s s' Hs|s s' Hs|s s' Hs].
  - eapply istep_Waits; eassumption.
  - unfold Waits in *. destruct Hs as [s i E|s i k E]; cbn; [exact H|]. intros Hs. apply H. pose proof (cnt_set isTSleep (s_ts s) i (TLock k) _ E) as C. cbn in C. lia.
  - unfold Waits in *. destruct Hs as [s s1 j P|s js|s gs ES|s].
    + destruct (posted_wB _ _ P) as (l & -> & _). cbn. intros _. left. unfold more. cbn. destruct (q_jobs (s_q s)); reflexivity.
    + cbn. destruct (fold_push1 js (s_q s)) as [A B]. intros Hs. destruct (H Hs) as [Hm|]; [left|auto]. unfold more in *. rewrite A, B. destruct (q_jobs (s_q s)); [|reflexivity]. cbn.
      destruct js; [exact Hm|reflexivity].
    + cbn. intros Hs. destruct (H Hs) as [Hm|]; [left|auto]. unfold more in *. cbn. destruct (q_jobs (s_q s)); [|reflexivity]. destruct gs; [exact Hm|reflexivity].
    + cbn. rewrite cnt_app. cbn. intros Hs. apply H. lia.
Qed.
Lemma solo_reach n x s : runs solo (init n x) s -> Inv s /\ Live n x s /\ Waits s.
Proof.
  intros H. remember (init n x) as s0 eqn:E. induction H as [|s1 s2 s3 H IH Hs]; [subst|].
  - split; [apply init_Inv|]. split; [apply init_Live|]. intros Hc. cbn in Hc. lia.
  - destruct (IH E) as (A & B & C). split; [eapply any_Inv; [exact A|]; apply A_u, Hs|]. split; [eapply use_Live; [exact B|apply Hs]|eapply solo_Waits; eassumption].
Qed.
Lemma use_reach n x s : runs (use maxwork) (init n x) s -> Inv s /\ Live n x s.
Proof.
  intros H. remember (init n x) as s0 eqn:E. induction H as [|s1 s2 s3 H IH Hs]; [subst|].
  - split; [apply init_Inv|apply init_Live].
  - destruct (IH E) as (A & B). split; [eapply any_Inv; [exact A|]; apply A_u, Hs|eapply use_Live; [exact B|apply Hs]].
Qed.

(** ** States where nothing can happen *)
Definition stuck (s : st) : Prop := forall s', ~ istep maxwork s s'.
(** a worker which pulls reads through NULL *)
Definition crash (s : st) : Prop := exists i now failed, nth_error (s_ws s) i = Some WPull /\ pull (s_strat s) (length (s_ws s)) maxwork now failed (s_q s) = Bad.

Lemma posted_total (s : st) : exists s', posted s s'.
Proof.
  assert (D : (exists i, nth_error (s_ws s) i = Some WSleep) \/ (forall i, nth_error (s_ws s) i <> Some WSleep)).
  { generalize (s_ws s). induction l as [|p l IH]; [right; intros [|i]; discriminate|].
    destruct p; try (destruct IH as [[i Hi]|Hn]; [left; exists (S i); exact Hi|right; intros [|i]; [discriminate|apply Hn]]). left. exists 0. reflexivity. }
  destruct D as [[i Hi]|Hn]; eexists; [apply (P_one _ i Hi)|apply P_none; exact Hn].
Qed.
Lemma repost_total (s : st) : exists s', repost s s'.
Proof. destruct (more (s_q s)) eqn:E; [destruct (posted_total s) as [s' P]; exists s'; apply R_post; assumption|exists s; apply R_none; exact E]. Qed.
Lemma signalled_total (s : st) : exists s', signalled s s'.
Proof.
  assert (D : (exists i k, nth_error (s_ts s) i = Some (TSleep k)) \/ (forall i k, nth_error (s_ts s) i <> Some (TSleep k))).
  { generalize (s_ts s). induction l as [|p l IH]; [right; intros [|i] k; discriminate|].
    destruct p; try (destruct IH as [[i [k' Hi]]|Hn]; [left; exists (S i), k'; exact Hi|right; intros [|i] k'; [discriminate|apply Hn]]). left. exists 0, k. reflexivity. }
  destruct D as [[i [k Hi]]|Hn]; eexists; [apply (S_one _ i k Hi)|apply S_none; exact Hn].
Qed.
Lemma walk_nofuel (rest : list job) : forall dn tg size d, walk rest dn tg size d <> Fuel.
Proof. induction rest as [|j rest IH]; intros dn tg size d; cbn [walk]; [discriminate|]. destruct (j_avg j); [|discriminate]. destruct (flt _ tg); [apply IH|discriminate]. Qed.
Lemma extractN_nofuel n : forall q : @queue F, extractN n q <> Fuel.
Proof. induction n as [|n IH]; intros q; cbn [extractN]; [discriminate|]. destruct (extract1 q) as [[j q1]|]; [|discriminate]. specialize (IH q1). destruct (extractN n q1); cbn [obind]; congruence. Qed.
Lemma pull_nofuel x n now failed (q : @queue F) : pull x n maxwork now failed q <> Fuel.
Proof.
  unfold pull. assert (forall a b c d, obind (walk a b c 1 d) (fun r => obind (extractN (fst r) q) (fun e =>
               let q' := snd e in let dn := fadd now (snd r) in
               Done (Some (fst e), if flt (q_ret q') dn then mkQ (q_jobs q') (q_groups q') (q_total q') dn else q'))) <> Fuel).
  { intros a b c d. pose proof (walk_nofuel a b c 1 d). destruct (walk a b c 1 d) as [[sz dd]| |]; cbn [obind]; try congruence.
    pose proof (extractN_nofuel sz q). cbn [fst snd]. destruct (extractN sz q); cbn [obind]; congruence. }
  destruct x; [destruct (q_groups q); [|discriminate]|destruct (q_groups q)|destruct (q_groups q)];
    (destruct (q_jobs q) as [|fst rest]; [discriminate|]; destruct (pullSingle q); destruct (_ || _); [discriminate|]; destruct (j_avg fst); [apply H|discriminate]).
Qed.

Lemma holderT s : Inv s -> cnt gone (s_ws s) = 0 -> s_T s = true -> exists i t, nth_error (s_ts s) i = Some t /\ holdsT t = 1.
Proof.
  intros H Hg HT. pose proof (i_T s H) as C. rewrite HT in C.
  assert (cnt holdsW (s_ws s) = 0). { assert (cnt holdsW (s_ws s) <= cnt gone (s_ws s)) by (apply cnt_le; intros []; cbn; lia). lia. }
  assert (Hc : 0 < cnt holdsT (s_ts s)) by lia. clear -Hc. revert Hc. induction (s_ts s) as [|t l IH]; cbn; intros Hc; [lia|].
  destruct (holdsT t) as [|[|z]] eqn:E; [|exists 0, t; auto|destruct t; discriminate]. destruct IH as (i & u & A & B); [lia|]. exists (S i), u. auto.
Qed.

Lemma stuck_quiet n x s : Inv s -> Live n x s -> 0 < n -> stuck s -> ~ crash s ->
  more (s_q s) = false /\ s_T s = false /\ (forall i p, nth_error (s_ws s) i = Some p -> p = WSleep) /\
  (forall i t, nth_error (s_ts s) i = Some t -> exists k, t = TSleep k \/ t = TDone k).
Proof.
  intros HI HL Hn HS HC.
  assert (HT : s_T s = false).
  { destruct (s_T s) eqn:ET; [|reflexivity]. exfalso. destruct (holderT s HI (l_gone _ _ _ HL) ET) as (i & t & Ht & Hh).
    destruct t; try discriminate; eapply HS; [apply (I_tlen _ _ i k Ht)|apply (I_tgrp _ _ i k Ht)|apply (I_twork _ _ i k Ht)]. }
  assert (HW : forall i p, nth_error (s_ws s) i = Some p -> p = WSleep).
  { intros i p E. pose proof (not_gone _ _ _ _ _ HL E) as Hg. destruct p; try discriminate; try reflexivity; exfalso.
    - eapply HS. apply (I_loop _ _ i E).
    - destruct (s_v s) eqn:Ev; eapply HS; [apply (I_take _ _ i E Ev)|apply (I_sleep _ _ i E Ev)].
    - eapply HS. apply (I_work _ _ i E (l_keep _ _ _ HL) HT).
    - destruct (pull (s_strat s) (length (s_ws s)) maxwork f0 false (s_q s)) as [[[g|] q']| |] eqn:Ep.
      + destruct (repost_total (upQ q' s)) as [s1 R]. eapply HS. eapply (I_pull _ _ s1 i f0 false g q' E (l_keep _ _ _ HL) Ep R).
      + destruct (repost_total (upQ q' s)) as [s1 R]. eapply HS. eapply (I_empty _ _ s1 i f0 false q' E (l_keep _ _ _ HL) Ep R).
      + exact (pull_nofuel _ _ _ _ _ Ep).
      + apply HC. exists i, f0, false. auto.
    - destruct js as [|j js]; eapply HS; [apply (I_next _ _ i E)|apply (I_start _ _ i j js E)].
    - eapply HS. apply (I_finish _ _ i j js E).
    - destruct (signalled_total (upWork (s_work s - 1) s)) as [s1 Sg].
      destruct (Nat.eqb (s_work s - 1) 0) eqn:Ew; eapply HS; [apply (I_idle _ s s1 i E HT)|apply (I_idle _ s (upWork (s_work s - 1) s) i E HT)]; rewrite Ew; [exact Sg|reflexivity]. }
  assert (Hall : forall f : wpc -> nat, f WSleep = 0 -> cnt f (s_ws s) = 0).
  { intros f Hf. clear -HW Hf. induction (s_ws s) as [|p l IH]; [reflexivity|]. cbn. rewrite (HW 0 p eq_refl), Hf. apply IH. intros i q. apply (HW (S i) q). }
  split; [|split; [exact HT|split; [exact HW|]]].
  - destruct (more (s_q s)) eqn:Em; [|reflexivity]. exfalso. destruct (l_more _ _ _ HL Em) as [Hv|Ha]; [|rewrite Hall in Ha by reflexivity; lia].
    destruct (l_v _ _ _ HL Hv) as [Hz|Hz]; [|rewrite Hall in Hz by reflexivity; lia].
    pose proof (l_len _ _ _ HL) as Hl. destruct (s_ws s) as [|p l] eqn:Ew; [cbn in Hl; lia|]. specialize (HW 0 p eq_refl). subst p. discriminate.
  - intros i t E. destruct t; eauto; exfalso; eapply HS; [apply (I_tlock _ _ i k E HT)|apply (I_tlen _ _ i k E)|apply (I_tgrp _ _ i k E)|apply (I_twork _ _ i k E)].
Qed.
Lemma quiet_finished (s : st) : Inv s -> more (s_q s) = false -> (forall i p, nth_error (s_ws s) i = Some p -> p = WSleep) ->
  Permutation (s_pushed s) (s_finished s) /\ s_work s = 0.
Proof.
  intros HI Hm HW.
  assert (H0 : s_work s = 0).
  { rewrite (i_work s HI). clear -HW. induction (s_ws s) as [|p l IH]; [reflexivity|]. cbn. rewrite (HW 0 p eq_refl). apply IH. intros i q. apply (HW (S i) q). }
  split; [|exact H0]. rewrite (i_perm s HI). apply more_false in Hm. unfold pending. destruct Hm as [-> ->]. rewrite idle_nothing; [reflexivity|]. rewrite <- (i_work s HI). exact H0.
Qed.
End Sys.

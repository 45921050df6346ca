(** * Proofs on the thread pool: shutdown *)
From Coq Require Import List Bool Arith ZArith Lia Permutation.
From Verif Require Import Graph_model Codegen_model Pool_model PoolSys_model Pool_proofs Pool_live.
Import ListNotations.

Section Sys.
Context {F : Type} {FO : FOps F}.
Variable maxwork : F.
Notation st := (@st F). Notation job := (@job F). Notation wpc := (@wpc F).

Definition isAlive (p : wpc) : nat := match p with WUnlock | WDead => 0 | _ => 1 end.
Definition isDead (p : wpc) : nat := match p with WDead => 1 | _ => 0 end.
(** num_threads_alive counts the threads which did not leave; the pool is freed after all of them left *)
Record Stop (s : st) : Prop := {
  p_alive : s_alive s = cnt isAlive (s_ws s);
  p_end : s_keep s = true -> cnt gone (s_ws s) = 0;
  p_free : s_freed s = true -> s_alive s = 0 }.
Lemma init_Stop n x : Stop (init n x).
Proof. split; cbn; [rewrite cnt_repeat; cbn; lia|rewrite cnt_repeat; cbn; lia|discriminate]. Qed.

Lemma alive_wake p : isAlive (wakeW p) = isAlive p. Proof. destruct p; reflexivity. Qed.
Lemma gone_wake (p : wpc) : gone (wakeW p) = gone p. Proof. destruct p; reflexivity. Qed.
Lemma posted_alive s s' : posted s s' -> exists l, s' = upWs l (upV true s) /\ cnt isAlive l = cnt isAlive (s_ws s) /\ cnt gone l = cnt gone (s_ws s) /\ awake (s_ws s) l.
Proof.
  intros H. destruct (posted_ws _ _ H) as (l & El & W & A). exists l. split; [exact El|].
  destruct H as [s0 i E|s0 E].
  - assert (l = setNth (s_ws s0) i WCheck) as -> by (clear -El; unfold setW, upWs, upV in El; cbn in El; congruence).
    pose proof (cnt_set isAlive (s_ws s0) i WCheck _ E). pose proof (cnt_set gone (s_ws s0) i WCheck _ E). cbn in *. repeat split; auto; lia.
  - assert (l = s_ws s0) as -> by (clear -El; unfold setW, upWs, upV in El; cbn in El; congruence). repeat split; auto.
Qed.
Lemma repost_alive s s' : repost s s' -> exists l v, s' = upWs l (upV v s) /\ cnt isAlive l = cnt isAlive (s_ws s) /\ cnt gone l = cnt gone (s_ws s) /\ awake (s_ws s) l.
Proof.
  intros [s0 s1 Hm P|s0 Hm]; [destruct (posted_alive _ _ P) as (l & H); exists l, true; exact H|].
  exists (s_ws s0), (s_v s0). repeat split; auto; [destruct s0; reflexivity|intros i o _ H; exact H].
Qed.
Lemma Stop_setW s i a o : Stop s -> nth_error (s_ws s) i = Some o -> isAlive a = isAlive o -> (s_keep s = true -> gone a <= gone o) -> Stop (setW i a s).
Proof.
  intros [H1 H2 H3] E Ha Hg. split; cbn.
  - pose proof (cnt_set isAlive (s_ws s) i a o E). lia.
  - intros K. specialize (H2 K). specialize (Hg K). pose proof (cnt_set gone (s_ws s) i a o E). pose proof (cnt_in gone (s_ws s) i o E). lia.
  - exact H3.
Qed.
Lemma istep_Stop s s' : Stop s -> istep maxwork s s' -> Stop s'.
Proof.
  intros H Hstep. pose proof H as [H1 H2 H3].
  destruct Hstep as [s i E|s i E Ev|s i E Ev|s i E Ek|s i E Ek ET|s i E Ek|s s1 i now failed g q' E Ek Ep Er|s s1 i now failed q' E Ek Ep Er|s i j js E|s i j js E|s i E|s s1 i E ET Es|s i E ET|s i E|s i k E ET|s i k E|s i k E|s i k E].
  - eapply Stop_setW; [exact H|exact E|destruct (s_keep s); reflexivity|]. intros ->. cbn. auto.
  - apply (Stop_setW (upV false s) i WWoke WCheck); cbn; auto. split; auto.
  - eapply Stop_setW; [exact H|exact E|..]; cbn; auto.
  - eapply Stop_setW; [exact H|exact E|..]; cbn; auto. congruence.
  - apply (Stop_setW (upWork (s_work s + 1) s) i WPull WWoke); cbn; auto. split; auto.
  - eapply Stop_setW; [exact H|exact E|..]; cbn; auto.
  - destruct (repost_alive _ _ Er) as (l & v & -> & A1 & A2 & A3). cbn in *. specialize (A3 i WPull ltac:(discriminate) E).
    apply (Stop_setW (upWs l (upV v (upQ q' s))) i (WRun g) WPull); cbn; auto. split; cbn; auto; [congruence|rewrite A2; exact H2].
  - destruct (repost_alive _ _ Er) as (l & v & -> & A1 & A2 & A3). cbn in *. specialize (A3 i WPull ltac:(discriminate) E).
    apply (Stop_setW (upWs l (upV v (upQ q' s))) i WIdle WPull); cbn; auto. split; cbn; auto; [congruence|rewrite A2; exact H2].
  - apply (Stop_setW (logStarted j s) i (WBusy j js) (WRun (j :: js))); cbn; auto. split; auto.
  - apply (Stop_setW (logFinished j s) i (WRun js) (WBusy j js)); cbn; auto. split; auto.
  - eapply Stop_setW; [exact H|exact E|..]; cbn; auto.
  - assert (HL : forall s2, s_ws s2 = s_ws s -> s_alive s2 = s_alive s -> s_freed s2 = s_freed s -> s_keep s2 = s_keep s -> Stop (setW i WLoop s2)).
    { intros s2 F1 F2 F3 F4. apply (Stop_setW s2 i WLoop WIdle); cbn; auto; [|congruence]. split; rewrite ?F1, ?F2, ?F3, ?F4; auto. }
    destruct (Nat.eqb _ 0); [|subst; apply HL; reflexivity]. remember (upWork (s_work s - 1) s) as s2 eqn:E2. destruct Es; subst; apply HL; reflexivity.
  - split; cbn.
    + pose proof (cnt_set isAlive (s_ws s) i WUnlock _ E) as C. cbn in C. lia.
    + intros K. specialize (H2 K). pose proof (cnt_in gone (s_ws s) i _ E) as C. cbn in C. lia.
    + intros K. specialize (H3 K). lia.
  - apply (Stop_setW (upT false s) i WDead WUnlock); cbn; auto. split; auto.
  - split; cbn; auto.
  - destruct (q_jobs (s_q s)) eqn:Eq; split; cbn; auto.
  - destruct (q_groups (s_q s)) eqn:Eq; split; cbn; auto.
  - destruct (Nat.eqb (s_work s) 0); split; cbn; auto.
Qed.
Lemma any_Stop s s' : Stop s -> any maxwork s s' -> Stop s'.
Proof.
  intros H Hs. destruct Hs as [s s' Hs|s s' Hs|s s' Hs].
  - destruct Hs as [s s' Hs|s s' Hs|s s' Hs]; [eapply istep_Stop; eassumption| |].
    + destruct Hs as [s i E|s i k E]; [eapply Stop_setW; [exact H|exact E|..]; cbn; auto|]. destruct H. split; cbn; auto.
    + destruct H as [H1 H2 H3]. destruct Hs as [s s1 j P|s js|s gs ES|s].
      * destruct (posted_alive _ _ P) as (l & -> & A1 & A2 & _). cbn in *. split; cbn; auto; [congruence|rewrite A2; exact H2].
      * split; cbn; auto; rewrite cnt_map; [rewrite H1; symmetry; apply cnt_ext, alive_wake|]. intros K. rewrite (cnt_ext _ gone); [auto|apply gone_wake].
      * split; cbn; auto; rewrite cnt_map; [rewrite H1; symmetry; apply cnt_ext, alive_wake|]. intros K. rewrite (cnt_ext _ gone); [auto|apply gone_wake].
      * split; cbn; auto.
  - destruct H as [H1 H2 H3]. destruct Hs. split; cbn; auto.
  - destruct H as [H1 H2 H3]. destruct Hs as [s|s K|s K A].
    + split; cbn; auto. discriminate.
    + split; cbn; auto; rewrite cnt_map; [rewrite H1; symmetry; apply cnt_ext, alive_wake|]. congruence.
    + split; cbn; auto.
Qed.
Lemma reach_Stop n x s : runs (any maxwork) (init n x) s -> Stop s.
Proof. intros H. remember (init n x) as s0 eqn:E. induction H as [|s1 s2 s3 H IH Hs]; [subst; apply init_Stop|eapply any_Stop; eauto]. Qed.

(** ** After keepalive = 0 every worker stops: each step uses up a resource *)
Definition eB (p : wpc) : nat :=
  match p with WSleep | WDead => 0 | WUnlock => 1 | WEnd => 2 | WWoke => 3 | WCheck | WLoop => 4 | WIdle => 5 | WPull => 6
  | WRun js => 7 + 2 * length js | WBusy _ js => 8 + 2 * length js end.
Definition erank (s : st) : nat := 10 * cnt eB (s_ws s) + cnt tB (s_ts s).
Lemma erank_setW (s : st) i a o : nth_error (s_ws s) i = Some o -> eB a < eB o -> erank (setW i a s) < erank s.
Proof. intros E HB. unfold erank. cbn [setW upWs s_ws s_ts]. pose proof (cnt_set eB (s_ws s) i a o E). lia. Qed.
Lemma istep_erank s s' : s_keep s = false -> istep maxwork s s' -> erank s' < erank s /\ s_keep s' = false.
Proof.
  intros K Hstep.
  destruct Hstep as [s i E|s i E Ev|s i E Ev|s i E Ek|s i E Ek ET|s i E Ek|s s1 i now failed g q' E Ek Ep Er|s s1 i now failed q' E Ek Ep Er|s i j js E|s i j js E|s i E|s s1 i E ET Es|s i E ET|s i E|s i k E ET|s i k E|s i k E|s i k E]; try congruence.
  - rewrite K. split; [eapply erank_setW; [exact E|cbn; lia]|exact K].
  - split; [apply (erank_setW (upV false s) i WWoke WCheck E); cbn; lia|exact K].
  - split; [eapply erank_setW; [exact E|cbn; lia]|exact K].
  - split; [eapply erank_setW; [exact E|cbn; lia]|exact K].
  - split; [eapply erank_setW; [exact E|cbn; lia]|exact K].
  - split; [apply (erank_setW (logStarted j s) i (WBusy j js) _ E); cbn [eB length]; lia|exact K].
  - split; [apply (erank_setW (logFinished j s) i (WRun js) _ E); cbn [eB length]; lia|exact K].
  - split; [eapply erank_setW; [exact E|cbn; lia]|exact K].
  - assert (C : forall s2, s_ws s2 = s_ws s -> s_keep s2 = s_keep s -> cnt tB (s_ts s2) <= cnt tB (s_ts s) + 6 -> erank (setW i WLoop s2) < erank s /\ s_keep (setW i WLoop s2) = false).
    { intros s2 F1 F2 F3. split; [|cbn; congruence]. unfold erank. cbn [setW upWs s_ws s_ts]. rewrite F1.
      pose proof (cnt_set eB (s_ws s) i WLoop _ E) as C'. cbn [eB] in C'. lia. }
    destruct (Nat.eqb _ 0); [|subst; apply C; cbn; auto; lia]. remember (upWork (s_work s - 1) s) as s2 eqn:E2.
    destruct Es as [s2 m k Hm|s2 _]; [|subst; apply C; cbn; auto; lia].
    pose proof (cnt_set tB (s_ts s2) m (TLock k) _ Hm) as C'. cbn [tB] in C'. subst s2. cbn in C'. apply C; cbn; auto. lia.
  - split; [apply (erank_setW (upT true (upAlive (s_alive s - 1) s)) i WUnlock _ E); cbn; lia|exact K].
  - split; [apply (erank_setW (upT false s) i WDead _ E); cbn; lia|exact K].
  - split; [|exact K]. unfold erank. cbn [setT upTs upT s_ws s_ts]. pose proof (cnt_set tB (s_ts s) i (TLen k) _ E) as C. cbn [tB] in C. lia.
  - pose proof (cnt_set tB (s_ts s) i (TGrp k) _ E) as C. pose proof (cnt_set tB (s_ts s) i (TSleep k) _ E) as C'. cbn [tB] in C, C'.
    destruct (q_jobs (s_q s)) eqn:Eq; (split; [|exact K]); unfold erank; cbn [setT upTs upT s_ws s_ts]; lia.
  - pose proof (cnt_set tB (s_ts s) i (TWork k) _ E) as C. pose proof (cnt_set tB (s_ts s) i (TSleep k) _ E) as C'. cbn [tB] in C, C'.
    destruct (q_groups (s_q s)) eqn:Eq; (split; [|exact K]); unfold erank; cbn [setT upTs upT s_ws s_ts]; lia.
  - pose proof (cnt_set tB (s_ts s) i (TDone k) _ E) as C. pose proof (cnt_set tB (s_ts s) i (TSleep k) _ E) as C'. cbn [tB] in C, C'.
    destruct (Nat.eqb (s_work s) 0) eqn:Eq; (split; [|exact K]); unfold erank; cbn [setT upTs upT upQ s_ws s_ts]; lia.
Qed.
(** nothing left to do: every worker sleeps or left *)
Lemma stop_stuck s : Inv s -> s_keep s = false -> stuck maxwork s -> forall i p, nth_error (s_ws s) i = Some p -> p = WSleep \/ p = WDead.
Proof.
  intros HI K HS.
  assert (HU : forall i, nth_error (s_ws s) i <> Some WUnlock) by (intros i E; eapply HS; apply (I_unlock _ _ i E)).
  assert (HT : s_T s = false).
  { destruct (s_T s) eqn:ET; [|reflexivity]. exfalso. pose proof (i_T s HI) as C. rewrite ET in C.
    assert (cnt holdsW (s_ws s) = 0). { clear -HU. induction (s_ws s) as [|p l IH]; [reflexivity|]. cbn. rewrite IH by (intros i; apply (HU (S i))). specialize (HU 0). destruct p; cbn in *; congruence. }
    assert (Hc : 0 < cnt holdsT (s_ts s)) by lia.
    assert (exists i t, nth_error (s_ts s) i = Some t /\ holdsT t = 1) as (i & t & Ht & Hh).
    { clear -Hc. revert Hc. induction (s_ts s) as [|t l IH]; cbn; intros Hc; [lia|].
      destruct (holdsT t) as [|[|z]] eqn:E; [|exists 0, t; auto|destruct t; discriminate]. destruct IH as (i & u & A & B); [lia|]. exists (S i), u. auto. }
    destruct t; try discriminate; eapply HS; [apply (I_tlen _ _ i k Ht)|apply (I_tgrp _ _ i k Ht)|apply (I_twork _ _ i k Ht)]. }
  intros i p E. destruct p; auto; exfalso.
  - eapply HS. apply (I_loop _ _ i E).
  - destruct (s_v s) eqn:Ev; eapply HS; [apply (I_take _ _ i E Ev)|apply (I_sleep _ _ i E Ev)].
  - eapply HS. apply (I_stop _ _ i E K).
  - eapply HS. apply (I_quit _ _ i E K).
  - destruct js as [|j js]; eapply HS; [apply (I_next _ _ i E)|apply (I_start _ _ i j js E)].
  - eapply HS. apply (I_finish _ _ i j js E).
  - destruct (signalled_total (upWork (s_work s - 1) s)) as [s1 Sg].
    destruct (Nat.eqb (s_work s - 1) 0) eqn:Ew; eapply HS; [apply (I_idle _ s s1 i E HT)|apply (I_idle _ s (upWork (s_work s - 1) s) i E HT)]; rewrite Ew; [exact Sg|reflexivity].
  - eapply HS. apply (I_end _ _ i E HT).
  - exact (HU i E).
Qed.
(** a post lets at least one more worker leave *)
Definition leaving (p : wpc) : nat := match p with WWoke | WEnd | WUnlock => 1 | _ => 0 end.
Definition Leave (d : nat) (s : st) : Prop :=
  s_keep s = false /\ d <= cnt isDead (s_ws s) /\ (d < cnt isDead (s_ws s) \/ (s_v s = true /\ 0 < cnt isCheck (s_ws s)) \/ 0 < cnt leaving (s_ws s)).
Lemma Leave_setW d s i a o : Leave d s -> nth_error (s_ws s) i = Some o -> isDead o <= isDead a -> isCheck o <= isCheck a -> leaving o <= leaving a + isDead a - isDead o -> Leave d (setW i a s).
Proof.
  intros (K & H1 & H2) E Hd Hc Hl. pose proof (cnt_set isDead (s_ws s) i a o E). pose proof (cnt_set isCheck (s_ws s) i a o E). pose proof (cnt_set leaving (s_ws s) i a o E).
  pose proof (cnt_in leaving (s_ws s) i o E). split; [exact K|]. cbn. split; [lia|]. destruct H2 as [H2|[[H2 H2']|H2]]; [left; lia|right; left; split; [exact H2|lia]|].
  destruct (Nat.eq_dec (isDead a) (isDead o)); [right; right; lia|left; lia].
Qed.
Lemma istep_Leave d s s' : Leave d s -> istep maxwork s s' -> Leave d s'.
Proof.
  intros H Hstep. pose proof H as (K & H1 & H2).
  destruct Hstep as [s i E|s i E Ev|s i E Ev|s i E Ek|s i E Ek ET|s i E Ek|s s1 i now failed g q' E Ek Ep Er|s s1 i now failed q' E Ek Ep Er|s i j js E|s i j js E|s i E|s s1 i E ET Es|s i E ET|s i E|s i k E ET|s i k E|s i k E|s i k E]; try congruence.
  - rewrite K. eapply Leave_setW; [exact H|exact E|..]; cbn; lia.
  - split; [exact K|]. cbn. pose proof (cnt_set isDead (s_ws s) i WWoke _ E) as C1. pose proof (cnt_set leaving (s_ws s) i WWoke _ E) as C2. cbn in C1, C2. split; [lia|right; right; lia].
  - split; [exact K|]. cbn. pose proof (cnt_set isDead (s_ws s) i WSleep _ E) as C1. pose proof (cnt_set leaving (s_ws s) i WSleep _ E) as C2. cbn in C1, C2. split; [lia|].
    destruct H2 as [H2|[[H2 _]|H2]]; [left; lia|congruence|right; right; lia].
  - eapply Leave_setW; [exact H|exact E|..]; cbn; lia.
  - eapply Leave_setW; [exact H|exact E|..]; cbn; lia.
  - apply (Leave_setW d (logStarted j s) i (WBusy j js) _ H E); cbn; lia.
  - apply (Leave_setW d (logFinished j s) i (WRun js) _ H E); cbn; lia.
  - eapply Leave_setW; [exact H|exact E|..]; cbn; lia.
  - assert (HL : forall s2, s_ws s2 = s_ws s -> s_v s2 = s_v s -> s_keep s2 = s_keep s -> Leave d (setW i WLoop s2)).
    { intros s2 F1 F2 F3. apply (Leave_setW d s2 i WLoop WIdle); cbn; auto; [|congruence]. unfold Leave. rewrite F1, F2, F3. exact H. }
    destruct (Nat.eqb _ 0); [|subst; apply HL; reflexivity]. remember (upWork (s_work s - 1) s) as s2 eqn:E2. destruct Es; subst; apply HL; reflexivity.
  - apply (Leave_setW d (upT true (upAlive (s_alive s - 1) s)) i WUnlock _ H E); cbn; lia.
  - apply (Leave_setW d (upT false s) i WDead _ H E); cbn; lia.
  - exact H.
  - destruct (q_jobs (s_q s)); exact H.
  - destruct (q_groups (s_q s)); exact H.
  - destruct (Nat.eqb (s_work s) 0); exact H.
Qed.
Lemma post_Leave s : s_keep s = false -> (exists i, nth_error (s_ws s) i = Some WSleep) -> Leave (cnt isDead (s_ws s)) (postAll s).
Proof.
  intros K (i & E). split; [exact K|]. cbn. rewrite !cnt_map. split; [apply Nat.eq_le_incl, cnt_ext; intros []; reflexivity|].
  right; left. split; [reflexivity|]. pose proof (cnt_in (fun p => isCheck (wakeW p)) (s_ws s) i _ E). cbn in *. lia.
Qed.
End Sys.

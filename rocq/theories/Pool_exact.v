(** * Guided groups with exact arithmetic: the queue is never left *)
From Coq Require Import List Bool Arith ZArith Lia Permutation QArith Qcanon.
From Verif Require Import Graph_model Codegen_model Pool_model PoolSys_model Pool_proofs.
Import ListNotations.
Local Open Scope nat_scope.

(** times are rational numbers *)
Definition qcltb (a b : Qc) : bool := if Qclt_le_dec a b then true else false.
Definition qcleb (a b : Qc) : bool := if Qclt_le_dec b a then false else true.
Definition qcnat (n : nat) : Qc := Q2Qc (inject_Z (Z.of_nat n)).
Global Instance QcF : FOps Qc := {
  f0 := Q2Qc 0; fadd := Qcplus; fsub := Qcminus; fmul := Qcmult; fdiv := Qcdiv; fofnat := qcnat; f09 := Q2Qc (9 # 10);
  flt := qcltb; fle := qcleb; feq := fun a b => if Qc_eq_dec a b then true else false }.

Lemma qcltb_true a b : qcltb a b = true -> (a < b)%Qc. Proof. unfold qcltb. destruct (Qclt_le_dec a b); [auto|discriminate]. Qed.
Lemma qcleb_false a b : qcleb a b = false -> (b < a)%Qc. Proof. unfold qcleb. destruct (Qclt_le_dec b a); [auto|discriminate]. Qed.

Definition avgOf (j : @job Qc) : Qc := match j_avg j with Some a => a | None => Q2Qc 0 end.
Fixpoint sumAvg (l : list (@job Qc)) : Qc := match l with [] => Q2Qc 0 | j :: l' => Qcplus (avgOf j) (sumAvg l') end.
Definition nonneg (l : list (@job Qc)) : Prop := forall j a, In j l -> j_avg j = Some a -> (Q2Qc 0 <= a)%Qc.
Lemma nonneg_avg l j : nonneg l -> In j l -> (Q2Qc 0 <= avgOf j)%Qc.
Proof. intros H Hi. unfold avgOf. destruct (j_avg j) as [a|] eqn:E; [apply (H j a Hi E)|apply Qcle_refl]. Qed.
Lemma sumAvg_nonneg l : nonneg l -> (Q2Qc 0 <= sumAvg l)%Qc.
Proof.
  induction l as [|j l IH]; intros H; cbn [sumAvg]; [apply Qcle_refl|].
  replace (Q2Qc 0) with (Qcplus (Q2Qc 0) (Q2Qc 0)) by ring. apply Qcplus_le_compat; [apply (nonneg_avg (j :: l)); [exact H|left; reflexivity]|].
  apply IH. intros k a Hk. apply H. right; exact Hk.
Qed.
Lemma sumAvg_app l l' : sumAvg (l ++ l') = Qcplus (sumAvg l) (sumAvg l').
Proof. induction l as [|j l IH]; cbn [app sumAvg]; [ring|]. rewrite IH. ring. Qed.

(** the loop over the queue runs off its end only if all the durations together are below the target *)
Lemma walk_bad rest : forall dn tg size d, walk rest dn tg size d = Bad -> rest = [] \/ (Qcplus dn (sumAvg rest) < tg)%Qc.
Proof.
  induction rest as [|j rest IH]; intros dn tg size d E; [auto|]. right. cbn [walk] in E. destruct (j_avg j) as [a|] eqn:Ea; [|discriminate].
  cbn [fadd QcF flt] in E. destruct (qcltb (dn + a) tg) eqn:El; [|discriminate]. apply qcltb_true in El. cbn [sumAvg]. unfold avgOf. rewrite Ea.
  destruct (IH _ _ _ _ E) as [->|H].
  - cbn [sumAvg]. replace (dn + (a + Q2Qc 0))%Qc with (dn + a)%Qc by ring. exact El.
  - replace (dn + (a + sumAvg rest))%Qc with (dn + a + sumAvg rest)%Qc by ring. exact H.
Qed.
Lemma walk_le {F} {FO : FOps F} (rest : list (@job F)) : forall dn tg size d n d', walk rest dn tg size d = Done (n, d') -> n <= size + length rest.
Proof.
  induction rest as [|j rest IH]; intros dn tg size d n d' E; cbn [walk] in E; [discriminate|].
  destruct (j_avg j); [|injection E as <- <-; lia]. destruct (flt _ tg); [|injection E as <- <-; lia]. apply IH in E. cbn. lia.
Qed.
Lemma extractN_ok {F} {FO : FOps F} n : forall q : @queue F, n <= length (q_jobs q) -> extractN n q <> Bad.
Proof.
  induction n as [|n IH]; intros q H; cbn [extractN]; [discriminate|].
  destruct (extract1 q) as [[j q1]|] eqn:E1.
  - destruct (extract1_jobs _ _ _ E1) as [A _]. rewrite A in H. cbn in H. specialize (IH q1 ltac:(lia)). destruct (extractN n q1); cbn [obind]; congruence.
  - unfold extract1 in E1. destruct (q_jobs q) as [|a [|b l]]; [cbn in H; lia|discriminate|discriminate].
Qed.
Lemma target_le total mw n : 0 < n -> (Q2Qc 0 < total)%Qc -> (mw <= qcnat n)%Qc -> (total * mw / qcnat n <= total)%Qc.
Proof.
  intros Hn Ht Hm. assert (HN : (Q2Qc 0 < qcnat n)%Qc).
  { change (Qred 0 < Qred (inject_Z (Z.of_nat n)))%Q. rewrite !Qred_correct. unfold inject_Z, Qlt. cbn. lia. }
  assert (HN0 : qcnat n <> Q2Qc 0) by (intros C; rewrite C in HN; exact (Qclt_not_eq _ _ HN eq_refl)).
  assert (HI : (Q2Qc 0 <= / qcnat n)%Qc).
  { destruct (Qclt_le_dec (/ qcnat n) (Q2Qc 0)) as [C|C]; [|exact C]. exfalso.
    assert (X : (qcnat n * / qcnat n < Q2Qc 0)%Qc). { replace (Q2Qc 0) with (Q2Qc 0 * qcnat n)%Qc by ring. rewrite (Qcmult_comm (qcnat n)). apply Qcmult_lt_compat_r; assumption. }
    rewrite Qcmult_inv_r in X by exact HN0. exact (Qclt_not_le _ _ X ltac:(discriminate)). }
  unfold Qcdiv. apply (Qcle_trans _ (total * qcnat n * / qcnat n)).
  - apply Qcmult_le_compat_r; [|exact HI]. rewrite !(Qcmult_comm total). apply Qcmult_le_compat_r; [exact Hm|apply Qclt_le_weak; exact Ht].
  - rewrite <- Qcmult_assoc, Qcmult_inv_r by exact HN0. rewrite Qcmult_1_r. apply Qcle_refl.
Qed.

Lemma pull_total {F} {FO : FOps F} (A : Prop) x n mw now failed (q : @queue F) :
  pull x n mw now failed q = Bad ->
  (forall first second rest d, x <> DYNAMIC -> q_jobs q = first :: second :: rest -> j_avg first = Some d -> fle (q_total q) f0 = false ->
     walk (second :: rest) d (let target0 := fdiv (fmul (q_total q) mw) (fofnat n) in
       if flt f0 (q_ret q) && failed then let m := fmul f09 (fsub (q_ret q) now) in if flt target0 m then m else target0 else target0) 1 d = Bad -> A) -> A.
Proof.
  intros E H.
  assert (HE : match q_jobs q with
    | [] => Done (None, q)
    | first :: rest =>
      if (match x with DYNAMIC => true | _ => false end) || Nat.eqb (length (q_jobs q)) 1 || fle (q_total q) f0
      then let (g, q') := pullSingle q in Done (Some g, q')
      else match j_avg first with
           | None => let (g, q') := pullSingle q in Done (Some g, q')
           | Some d =>
               let target0 := fdiv (fmul (q_total q) mw) (fofnat n) in
               let target := if flt f0 (q_ret q) && failed
                             then let m := fmul f09 (fsub (q_ret q) now) in if flt target0 m then m else target0
                             else target0 in
               obind (walk rest d target 1 d) (fun r =>
               obind (extractN (fst r) q) (fun e =>
               let q' := snd e in let dn := fadd now (snd r) in
               Done (Some (fst e), if flt (q_ret q') dn then mkQ (q_jobs q') (q_groups q') (q_total q') dn else q')))
           end
    end = Bad -> A).
  { clear E. intros E. destruct (q_jobs q) as [|first rest] eqn:Eq; [discriminate|]. destruct (pullSingle q) as [g q1].
    destruct (_ || _) eqn:Eo; [discriminate|]. destruct (j_avg first) as [d|] eqn:Ed; [|discriminate]. cbv zeta in E.
    apply orb_false_iff in Eo. destruct Eo as [Eo1 Eo2]. apply orb_false_iff in Eo1. destruct Eo1 as [Eo0 Eo1].
    destruct rest as [|second rest]; [discriminate|]. cbv zeta in H.
    destruct (walk (second :: rest) d _ 1 d) as [[sz dd]| |] eqn:Ew; cbn [obind] in E; try discriminate.
    - exfalso. apply walk_le in Ew. cbn [fst] in E. pose proof (extractN_ok sz q) as X. rewrite Eq in X. cbn [length] in *.
      destruct (extractN sz q); cbn [obind] in E; try discriminate. apply X; [lia|reflexivity].
    - eapply H; [|reflexivity|exact Ed|exact Eo2|exact Ew]. destruct x; [discriminate|discriminate Eo0|discriminate]. }
  unfold pull in E. destruct x; [destruct (q_groups q); [|discriminate]|..]; apply HE; exact E.
Qed.

(** DYNAMIC: no arithmetic at all *)
Lemma pull_dynamic {F} {FO : FOps F} n mw now failed (q : @queue F) : pull DYNAMIC n mw now failed q <> Bad.
Proof. intros E. apply (pull_total False _ _ _ _ _ _ E). intros first second rest d Hx. congruence. Qed.
(** no timing information: none either *)
Lemma pull_untimed {F} {FO : FOps F} x n mw now failed (q : @queue F) : (forall j, In j (q_jobs q) -> j_avg j = None) -> pull x n mw now failed q <> Bad.
Proof. intros H E. apply (pull_total False _ _ _ _ _ _ E). intros first second rest d _ Eq Ed. rewrite (H first) in Ed by (rewrite Eq; left; reflexivity). discriminate. Qed.

Lemma pull_exact x n mw now (q : @queue Qc) : 0 < n -> (mw <= qcnat n)%Qc -> (q_total q <= sumAvg (q_jobs q))%Qc -> pull x n mw now false q <> Bad.
Proof.
  intros Hn Hm Ht E. apply (pull_total False _ _ _ _ _ _ E). intros first second rest d _ Eq Ed El Ew.
  cbv zeta in Ew. rewrite andb_false_r in Ew. destruct (walk_bad _ _ _ _ _ Ew) as [C|C]; [discriminate|].
  cbn [fle f0 QcF] in El. apply qcleb_false in El. cbn [fdiv fmul fofnat QcF] in C.
  apply (Qclt_not_le _ _ C). apply (Qcle_trans _ (q_total q)); [apply target_le; assumption|].
  rewrite Eq in Ht. cbn [sumAvg] in *. unfold avgOf at 1 in Ht. rewrite Ed in Ht. exact Ht.
Qed.

(** ** total_time never exceeds the sum of the queued durations *)
Definition TotOk (s : @st Qc) : Prop := nonneg (s_pushed s) -> (q_total (s_q s) <= sumAvg (q_jobs (s_q s)))%Qc.
Lemma extract1_total (q : @queue Qc) j q' : extract1 q = Some (j, q') -> (q_total q <= sumAvg (q_jobs q))%Qc -> (q_total q' <= sumAvg (q_jobs q'))%Qc.
Proof.
  unfold extract1. destruct (q_jobs q) as [|a [|b l]] eqn:Eq; [discriminate| |]; intros [= <- <-] H; cbn [q_total q_jobs]; [apply Qcle_refl|].
  cbn [sumAvg] in *. unfold avgOf at 1 in H. destruct (j_avg a) as [x|].
  - cbn [fsub QcF]. unfold Qcminus. replace (avgOf b + sumAvg l)%Qc with (x + (avgOf b + sumAvg l) + - x)%Qc by ring. apply Qcplus_le_compat; [exact H|apply Qcle_refl].
  - replace (avgOf b + sumAvg l)%Qc with (Q2Qc 0 + (avgOf b + sumAvg l))%Qc by ring. exact H.
Qed.
Lemma extractN_total n : forall (q : @queue Qc) l q', extractN n q = Done (l, q') -> (q_total q <= sumAvg (q_jobs q))%Qc -> (q_total q' <= sumAvg (q_jobs q'))%Qc.
Proof.
  induction n as [|n IH]; intros q l q' E H; cbn [extractN] in E; [injection E as <- <-; exact H|].
  destruct (extract1 q) as [[j q1]|] eqn:E1; [|discriminate]. destruct (extractN n q1) as [[l1 q2]| |] eqn:E2; cbn [obind] in E; try discriminate.
  injection E as <- <-. cbn [snd]. eapply IH; [exact E2|]. eapply extract1_total; eassumption.
Qed.
Lemma pull_tot x n mw now failed (q : @queue Qc) r q' : pull x n mw now failed q = Done (r, q') -> (q_total q <= sumAvg (q_jobs q))%Qc -> (q_total q' <= sumAvg (q_jobs q'))%Qc.
Proof.
  intros E H.
  assert (Hs : forall g q1, pullSingle q = (g, q1) -> (q_total q1 <= sumAvg (q_jobs q1))%Qc).
  { intros g q1 Es. unfold pullSingle in Es. destruct (extract1 q) as [[j q2]|] eqn:E1; injection Es as <- <-; [eapply extract1_total; eassumption|exact H]. }
  unfold pull in E. destruct x; [destruct (q_groups q) as [|g gs]; [|injection E as <- <-; exact H]|..];
    (destruct (q_jobs q) as [|first rest] eqn:Eq; [injection E as <- <-; rewrite Eq; exact H|]; rewrite <- Eq in *;
     destruct (pullSingle q) as [g1 q1] eqn:Es; specialize (Hs g1 q1 eq_refl); destruct (_ || _); [injection E as <- <-; exact Hs|];
     destruct (j_avg first) as [d|]; [|injection E as <- <-; exact Hs]; cbv zeta in E;
     destruct (walk rest d _ 1 d) as [[sz dd]| |]; cbn [obind] in E; try discriminate;
     destruct (extractN (fst (sz, dd)) q) as [[l q2]| |] eqn:Ee; cbn [obind] in E; try discriminate; cbn [fst snd] in E; injection E as <- <-;
     pose proof (extractN_total _ _ _ _ Ee H) as HT; match goal with |- context [if ?b then _ else _] => destruct b end; exact HT).
Qed.
Lemma nonneg_app l l' : nonneg (l ++ l') -> nonneg l /\ nonneg l'.
Proof. intros H. split; intros j a Hj; apply H, in_or_app; auto. Qed.
Lemma push1_tot j (q : @queue Qc) : (q_total q <= sumAvg (q_jobs q))%Qc -> (q_total (push1 q j) <= sumAvg (q_jobs (push1 q j)))%Qc.
Proof.
  intros H. cbn [push1 q_total q_jobs]. rewrite sumAvg_app. cbn [sumAvg]. unfold avgOf. destruct (j_avg j) as [a|]; cbn [fadd QcF].
  - replace (sumAvg (q_jobs q) + (a + Q2Qc 0))%Qc with (sumAvg (q_jobs q) + a)%Qc by ring. apply Qcplus_le_compat; [exact H|apply Qcle_refl].
  - replace (sumAvg (q_jobs q) + (Q2Qc 0 + Q2Qc 0))%Qc with (sumAvg (q_jobs q)) by ring. exact H.
Qed.
Lemma fold_push1_tot js : forall q : @queue Qc, (q_total q <= sumAvg (q_jobs q))%Qc -> (q_total (fold_left push1 js q) <= sumAvg (q_jobs (fold_left push1 js q)))%Qc.
Proof. induction js as [|j js IH]; intros q H; cbn [fold_left]; [exact H|]. apply IH, push1_tot, H. Qed.
Lemma any_TotOk mw (s s' : @st Qc) : Inv s -> TotOk s -> any mw s s' -> TotOk s'.
Proof.
  intros HI H Hs. destruct Hs as [s s' Hs|s s' Hs|s s' Hs].
  - destruct Hs as [s s' Hs|s s' Hs|s s' Hs].
    + unfold TotOk in *.
      destruct Hs as [s i E|s i E Ev|s i E Ev|s i E Ek|s i E Ek ET|s i E Ek|s s1 i now failed g q' E Ek Ep Er|s s1 i now failed q' E Ek Ep Er|s i j js E|s i j js E|s i E|s s1 i E ET Es|s i E ET|s i E|s i k E ET|s i k E|s i k E|s i k E]; try exact H.
      * destruct (repost_ws _ _ Er) as (l & v & -> & _). cbn. intros Hn. eapply pull_tot; [exact Ep|apply H, Hn].
      * destruct (repost_ws _ _ Er) as (l & v & -> & _). cbn. intros Hn. eapply pull_tot; [exact Ep|apply H, Hn].
      * destruct (Nat.eqb _ 0); [|subst; exact H]. remember (upWork (s_work s - 1) s) as s2 eqn:E2. destruct Es; subst; exact H.
      * destruct (q_jobs (s_q s)) eqn:Eq; cbn; rewrite Eq; exact H.
      * destruct (q_groups (s_q s)) eqn:Eq; cbn; exact H.
      * destruct (Nat.eqb (s_work s) 0); [|exact H]. cbn [setT upTs upT upQ s_q s_pushed q_total q_jobs]. intros Hn. cbn [f0 QcF]. apply sumAvg_nonneg. intros j a Hj. apply Hn.
        eapply Permutation_in; [symmetry; apply (i_perm s HI)|]. apply in_or_app. left. unfold pending. apply in_or_app. left. exact Hj.
    + destruct Hs; exact H.
    + unfold TotOk in *. destruct Hs as [s s1 j P|s js|s gs ES|s]; [| | |exact H].
      * destruct (posted_ws _ _ P) as (l & -> & _). cbn [logPushed upWs upV upQ s_q s_pushed]. intros Hn. apply push1_tot, H. apply nonneg_app in Hn. apply Hn.
      * cbn [logPushed postAll upWs upV upQ s_q s_pushed]. intros Hn. apply fold_push1_tot, H. apply nonneg_app in Hn. apply Hn.
      * cbn. intros Hn. apply H. apply nonneg_app in Hn. apply Hn.
  - destruct Hs; exact H.
  - destruct Hs; exact H.
Qed.
Lemma reach_TotOk mw n x (s : @st Qc) : runs (any mw) (init n x) s -> TotOk s.
Proof.
  intros H. remember (init n x) as s0 eqn:E. induction H as [|s1 s2 s3 H IH Hs]; [subst; intros _; apply Qcle_refl|].
  eapply any_TotOk; [|exact (IH E)|exact Hs]. subst. eapply reach_Inv; exact H.
Qed.
Lemma any_len {F} {FO : FOps F} (mw : F) s s' : any mw s s' -> length (s_ws s') = length (s_ws s).
Proof.
  intros Hs. destruct Hs as [s s' Hs|s s' Hs|s s' Hs].
  - destruct Hs as [s s' Hs|s s' Hs|s s' Hs].
    + destruct Hs as [s i E|s i E Ev|s i E Ev|s i E Ek|s i E Ek ET|s i E Ek|s s1 i now failed g q' E Ek Ep Er|s s1 i now failed q' E Ek Ep Er|s i j js E|s i j js E|s i E|s s1 i E ET Es|s i E ET|s i E|s i k E ET|s i k E|s i k E|s i k E]; cbn; rewrite ?setNth_length; auto.
      * destruct (repost_ws _ _ Er) as (l & v & -> & W & _). cbn in *. apply W.
      * destruct (repost_ws _ _ Er) as (l & v & -> & W & _). cbn in *. apply W.
      * destruct (Nat.eqb _ 0); [|subst; reflexivity]. remember (upWork (s_work s - 1) s) as s2 eqn:E2. destruct Es; subst; reflexivity.
      * destruct (q_jobs (s_q s)); reflexivity.
      * destruct (q_groups (s_q s)); reflexivity.
      * destruct (Nat.eqb (s_work s) 0); reflexivity.
    + destruct Hs; cbn; rewrite ?setNth_length; reflexivity.
    + destruct Hs as [s s1 j P|s js|s gs ES|s]; cbn; rewrite ?map_length; auto. destruct (posted_ws _ _ P) as (l & -> & W & _). apply W.
  - destruct Hs; reflexivity.
  - destruct Hs; cbn; rewrite ?map_length; reflexivity.
Qed.
Lemma reach_len {F} {FO : FOps F} (mw : F) n x s : runs (any mw) (init n x) s -> length (s_ws s) = n.
Proof.
  intros H. remember (init n x) as s0 eqn:E. induction H as [|s1 s2 s3 H IH Hs]; [subst; apply repeat_length|]. rewrite (any_len _ _ _ Hs). apply IH, E.
Qed.

(** * The values of a model with loops *)
From Coq Require Import List Bool Arith NArith Reals Sorted Lia Permutation Lra.
From Verif Require Import Graph_model Codegen_model CSyntax Range_model LoopCond_model LoopCond_spec LoopJac_model LoopJac_spec LoopJac_maps LoopJac_row LoopJac_state LoopJac_analysis LoopJac_run LoopJac_main LoopJac_final.
Import ListNotations.
Local Open Scope nat_scope.

Lemma loops_set : forall (gen : nat -> loopM -> res (nat * loop V)) (T : nat -> N -> option R) ls m,
  (forall q l, nth_error ls q = Some l -> exists s, gen (m + q) l = Ok (l_iters l, s) /\ (forall a, exists b, run_iters s (iters (l_iters l)) a b) /\
     forall a b p, run_iters s (iters (l_iters l)) a b -> b p = match T (m + q) p with Some w => w | None => a p end) ->
  exists ps, rloops gen m ls = Ok ps /\ (forall a, exists b, run_loops ps a b) /\
    forall a b p, run_loops ps a b -> b p = fold_left (fun v n => match T n p with Some w => w | None => v end) (seq m (length ls)) (a p).
Proof.
  intros gen T. induction ls as [|l ls IH]; intros m H; cbn [rloops length seq fold_left].
  - exists []. split; [reflexivity|]. split; [intro a; exists a; constructor|]. intros a b p Hr. inversion Hr; subst. reflexivity.
  - destruct (H 0 l eq_refl) as (s & E & H1 & H2). rewrite Nat.add_0_r in E. rewrite E. cbn [rbind]. destruct (IH (S m)) as (ps & E2 & I1 & I2).
    { intros q l' Hq. specialize (H (S q) l' Hq). rewrite Nat.add_succ_r in H. exact H. }
    rewrite E2. cbn [rbind]. eexists. split; [reflexivity|]. split.
    + intro a. destruct (H1 a) as (b & Hb). destruct (I1 b) as (c & Hc). exists c. econstructor; [exact Hb|exact Hc].
    + intros a c p Hr. inversion Hr as [|? ? ? ? b ? Hb Hc]; subst. rewrite (I2 _ _ p Hc), (H2 _ _ p Hb), Nat.add_0_r. reflexivity.
Qed.
Lemma fold_None : forall (T : nat -> option R) ns v, (forall n, In n ns -> T n = None) -> fold_left (fun v n => match T n with Some w => w | None => v end) ns v = v.
Proof. induction ns as [|n ns IH]; intros v H; cbn [fold_left]; [reflexivity|]. rewrite (H n (or_introl eq_refl)). apply IH. intros n' Hn'. apply H. right. exact Hn'. Qed.
Lemma fold_one : forall (T : nat -> option R) w n0 ns v, In n0 ns -> T n0 = Some w -> (forall n, In n ns -> n <> n0 -> T n = None) ->
  fold_left (fun v n => match T n with Some w => w | None => v end) ns v = w.
Proof.
  induction ns as [|n ns IH]; intros v Hi Hw H; [destruct Hi|]. cbn [fold_left]. destruct (in_dec Nat.eq_dec n0 ns) as [Hi2|Hi2].
  - apply IH; auto. intros n' Hn'. apply H. right. exact Hn'.
  - destruct Hi as [->|Hi]; [|contradiction]. rewrite Hw. apply fold_None. intros n' Hn'. apply H; [right; exact Hn'|]. intros ->. contradiction.
Qed.

Lemma depLocs_locsOf : forall m r k, (forall i, In (Some i) r -> i < m) -> depLocs m k r = locsOf k r.
Proof.
  induction r as [|o r IH]; intros k H; cbn [depLocs locsOf]; [reflexivity|]. rewrite IH by (intros i Hi; apply H; right; exact Hi). destruct o as [i|]; [|reflexivity].
  specialize (H i (or_introl eq_refl)). apply Nat.ltb_lt in H. rewrite H. reflexivity.
Qed.

Section Values.
Variable F : nat -> nat -> (nat -> R) -> R.
Variable G : nat -> (nat -> R) -> R.
Variable absent : nat -> nat -> nat -> R.
Variable md : model.
Variable x : nat -> R.
Variable m : nat.
Hypothesis Hg : good md.
Hypothesis Hm : forall i p, place_of md i p -> i < m.

Definition target (n : nat) (p : N) : option R :=
  match nth_error (m_loops md) n with
  | Some l => match findDep (N.to_nat p) (l_deps l) with Some (tapeI, it) => Some (F n tapeI (tapeVars G absent md x n l it)) | None => None end
  | None => None
  end.
Lemma findDep_place : forall n l i tapeI it, nth_error (m_loops md) n = Some l -> findDep i (l_deps l) = Some (tapeI, it) -> place_of md i (Some (n, (tapeI, it))).
Proof. intros n l i tapeI it Hn H. destruct (findDep_Some _ _ _ _ H) as (r & H1 & H2). exact (P_loop md i n l tapeI r it Hn H1 H2). Qed.

Lemma value_loop : forall n l, nth_error (m_loops md) n = Some l ->
  exists s, rbind (makeLoop (valueRequests F G absent md x m n l)) (fun p => Ok (l_iters l, p)) = Ok (l_iters l, s) /\ (forall a, exists b, run_iters s (iters (l_iters l)) a b) /\
     forall a b p, run_iters s (iters (l_iters l)) a b -> b p = match target n p with Some w => w | None => a p end.
Proof.
  intros n l Hn. pose proof (Hl md Hg n l Hn) as Gl. destruct (g_iters md l Gl) as [G1 G2].
  assert (Hrow : forall tapeI r, In (tapeI, r) (numbered (l_deps l)) -> nth_error (l_deps l) tapeI = Some r /\ length r = l_iters l /\ depLocs m 0%N r = locsOf 0%N r /\ exists it i, nth_error r it = Some (Some i)).
  { intros tapeI r H. apply numbered_nth in H. split; [exact H|]. split; [pose proof (g_deps md l Gl) as Hd; rewrite Forall_forall in Hd; exact (Hd r (nth_error_In _ _ H))|].
    split; [|pose proof (g_used md l Gl) as Hu; rewrite Forall_forall in Hu; exact (Hu r (nth_error_In _ _ H))].
    apply depLocs_locsOf. intros i Hi. apply In_nth_error in Hi. destruct Hi as (it & Hi). exact (Hm i _ (P_loop md i n l tapeI r it Hn H Hi)). }
  assert (Hv : Forall (valid V zeroV (iters (l_iters l))) (valueRequests F G absent md x m n l)).
  { unfold valueRequests. apply Forall_forall. intros q Hq. apply in_map_iff in Hq. destruct Hq as ([tapeI r] & <- & Hq). cbn [fst snd]. destruct (Hrow _ _ Hq) as (H1 & H2 & H3 & it & i & H4). rewrite H3.
    apply result_valid; auto.
    - intro H. pose proof (locsOf_at r 0 it) as A. rewrite H, H4 in A. discriminate.
    - apply locsOf_iters.
    - intros k Hk. apply locsOf_iters in Hk. lia. }
  destruct (makeLoop_served (l_iters l) _ Hv) as (s & E & Hs). rewrite E. cbn [rbind]. exists s. split; [reflexivity|]. split; [intro a; exact (run_exists _ _ _ Hs _ a (incl_refl _))|].
  intros a b p Hrun.
  assert (Hr0 : Forall (isResult 0) (valueRequests F G absent md x m n l)).
  { unfold valueRequests. apply Forall_forall. intros q Hq. apply in_map_iff in Hq. destruct Hq as ([tapeI r] & <- & Hq). unfold isResult. eauto. }
  assert (Hgo : forall q k w, In q (valueRequests F G absent md x m n l) -> goes q k p 0%N w -> exists tapeI r, nth_error (l_deps l) tapeI = Some r /\ nth_error r (N.to_nat k) = Some (Some (N.to_nat p)) /\ w = F n tapeI (tapeVars G absent md x n l (N.to_nat k))).
  { intros q k w Hq (locs & c & v & Eq & El & Ew). unfold valueRequests in Hq. apply in_map_iff in Hq. destruct Hq as ([tapeI r] & Eq2 & Hq). cbn [fst snd] in Eq2. destruct (Hrow _ _ Hq) as (H1 & H2 & H3 & _).
    rewrite Eq2 in Eq || rewrite <- Eq2 in Eq. inversion Eq; subst. exists tapeI, r. split; [exact H1|]. rewrite H3 in El. pose proof (locsOf_at r 0 (N.to_nat k)) as A. rewrite N2Nat.id, N.add_0_l in A. rewrite A in El.
    destruct (nth_error r (N.to_nat k)) as [[i|]|]; try discriminate. inversion El; subst. rewrite Nnat.Nat2N.id. auto. }
  assert (Hall : forall q k w, In q (valueRequests F G absent md x m n l) -> goes q k p 0%N w -> target n p = Some w).
  { intros q k w Hq Hgq. destruct (Hgo q k w Hq Hgq) as (tapeI & r & H1 & H2 & ->). unfold target. rewrite Hn. destruct (findDep (N.to_nat p) (l_deps l)) as [[a' b']|] eqn:Ef.
    - pose proof (g_one md Hg _ _ _ (findDep_place n l _ _ _ Hn Ef) (P_loop md _ n l tapeI r _ Hn H1 H2)) as Ep. inversion Ep; subst. reflexivity.
    - destruct (findDep_None _ _ Ef _ _ _ H1 H2). }
  destruct (target n p) as [w|] eqn:Et.
  - destruct (run_sets _ _ _ Hs w _ a b p (incl_refl _) Hr0) as [R1 _]; [|exact Hrun|].
    + intros q k w' Hq _ Hgq. specialize (Hall q k w' Hq Hgq). congruence.
    + apply R1. unfold target in Et. rewrite Hn in Et. destruct (findDep (N.to_nat p) (l_deps l)) as [[tapeI it]|] eqn:Ef; [|discriminate]. destruct (findDep_Some _ _ _ _ Ef) as (r & H1 & H2).
      eexists. exists (N.of_nat it). eexists. split; [unfold valueRequests; apply in_map_iff; exists (tapeI, r); split; [reflexivity|apply numbered_nth; exact H1]|]. split.
      * apply iters_In. destruct (loop_row md Hg n l tapeI r it _ Hn H1 H2) as (_ & _ & Hit). lia.
      * destruct (Hrow tapeI r (proj2 (numbered_nth _ _ _) H1)) as (_ & _ & H3 & _). cbn [fst snd]. eexists. eexists. eexists. split; [reflexivity|]. split; [|reflexivity].
        rewrite H3. pose proof (locsOf_at r 0 it) as A. rewrite N.add_0_l in A. rewrite A, H2, N2Nat.id. reflexivity.
  - destruct (run_sets _ _ _ Hs 0%R _ a b p (incl_refl _) Hr0) as [_ R2]; [|exact Hrun|].
    + intros q k w' Hq _ Hgq. specialize (Hall q k w' Hq Hgq). congruence.
    + apply R2. intros q k w' Hq _ Hgq. specialize (Hall q k w' Hq Hgq). congruence.
Qed.

Lemma value_program : exists prog, valueProgram F G absent md x m = Ok prog /\ (exists b, produces prog b) /\
  forall b, produces prog b -> 
    (forall n l tapeI r it i, nth_error (m_loops md) n = Some l -> nth_error (l_deps l) tapeI = Some r -> nth_error r it = Some (Some i) -> b i = F n tapeI (tapeVars G absent md x n l it)) /\
    (forall f il i, m_free md = Some f -> nth_error (f_eqs f) il = Some i -> b i = G il x).
Proof.
  unfold valueProgram. destruct (loops_set (fun n l => rbind (makeLoop (valueRequests F G absent md x m n l)) (fun p => Ok (l_iters l, p))) target (m_loops md) 0) as (ps & E & L1 & L2).
  { intros q l Hq. exact (value_loop q l Hq). }
  rewrite E. cbn [rbind]. eexists. split; [reflexivity|]. set (ss := match m_free md with Some f => _ | None => [] end). split.
  { destruct (L1 (fun _ => 0%R)) as (a & Ha). eexists. exists a. split; [exact Ha|]. intro q. reflexivity. }
  intros b (a & Ha & Hb). cbn [p_loops p_set] in Ha, Hb.
  assert (Hss : forall i w, In (i, w) ss <-> exists f il, m_free md = Some f /\ nth_error (f_eqs f) il = Some i /\ w = G il x).
  { intros i w. unfold ss. destruct (m_free md) as [f|]; [|split; [intros []|intros (f & il & H & _); discriminate]]. rewrite in_map_iff. split.
    - intros ([il i'] & H1 & H2). cbn [fst snd] in H1. inversion H1; subst. apply numbered_nth in H2. exists f, il. auto.
    - intros (f' & il & H1 & H2 & ->). inversion H1; subst. exists (il, i). split; [reflexivity|]. apply numbered_nth. exact H2. }
  split.
  - intros n l tapeI r it i Hn Hr Hi. pose proof (P_loop md i n l tapeI r it Hn Hr Hi) as Hp. rewrite Hb. destruct (assign_spec 0%R ss (fun q => a (N.of_nat q)) i) as [_ A2].
    { intros w Hw. apply Hss in Hw. destruct Hw as (f & il & H1 & H2 & _). pose proof (g_one md Hg i _ _ Hp (P_free md i f H1 (nth_error_In _ _ H2))). discriminate. }
    rewrite A2.
    2: { intro H. apply in_map_iff in H. destruct H as ([i' w] & H0 & H). cbn [fst] in H0. subst i'. apply Hss in H. destruct H as (f & il & H1 & H2 & _).
         pose proof (g_one md Hg i _ _ Hp (P_free md i f H1 (nth_error_In _ _ H2))). discriminate. }
    rewrite (L2 _ _ (N.of_nat i) Ha). apply (fold_one (fun n => target n (N.of_nat i)) _ n).
    + apply in_seq. split; [lia|]. apply nth_error_Some. congruence.
    + unfold target. rewrite Hn, Nnat.Nat2N.id. destruct (findDep i (l_deps l)) as [[a' b']|] eqn:Ef.
      * pose proof (g_one md Hg _ _ _ (findDep_place n l _ _ _ Hn Ef) Hp) as Ep. inversion Ep; subst. reflexivity.
      * destruct (findDep_None _ _ Ef _ _ _ Hr Hi).
    + intros n' _ Hne. unfold target. destruct (nth_error (m_loops md) n') as [l'|] eqn:En; [|reflexivity]. rewrite Nnat.Nat2N.id. destruct (findDep i (l_deps l')) as [[a' b']|] eqn:Ef; [|reflexivity].
      pose proof (g_one md Hg _ _ _ (findDep_place n' l' _ _ _ En Ef) Hp) as Ep. inversion Ep; subst. congruence.
  - intros f il i Hf Hi. rewrite Hb. destruct (assign_spec (G il x) ss (fun q => a (N.of_nat q)) i) as [A1 _].
    { intros w Hw. apply Hss in Hw. destruct Hw as (f' & il' & H1 & H2 & ->). rewrite Hf in H1. inversion H1; subst f'. f_equal.
      eapply NoDup_nth_error; [exact (proj1 (g_free md Hg f Hf))|apply nth_error_Some; congruence|congruence]. }
    apply A1. apply (in_map fst ss (i, G il x)). apply Hss. exists f, il. auto.
Qed.
End Values.

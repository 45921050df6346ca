(** * Whole generated functions of a model with loops *)
From Coq Require Import List Bool Arith NArith Reals Sorted Lia Permutation Lra Classical_Prop FunctionalExtensionality.
From Verif Require Import Graph_model Codegen_model CSyntax Range_model LoopCond_model LoopCond_spec LoopJac_model LoopJac_spec LoopJac_maps LoopJac_row LoopJac_state LoopJac_analysis LoopJac_run LoopJac_main.
Import ListNotations.
Local Open Scope nat_scope.

Lemma assign_spec : forall w ps b q, (forall w', In (q, w') ps -> w' = w) -> (In q (map fst ps) -> fold_left assign ps b q = w) /\ (~ In q (map fst ps) -> fold_left assign ps b q = b q).
Proof.
  intros w. induction ps as [|[q0 w0] ps IH]; intros b q H; cbn [fold_left map fst In]; [split; [tauto|reflexivity]|].
  destruct (IH (assign b (q0, w0)) q (fun w' Hw => H w' (or_intror Hw))) as [I1 I2]. split.
  - intro Hq. destruct (in_dec Nat.eq_dec q (map fst ps)) as [Hi|Hi]; [exact (I1 Hi)|]. rewrite (I2 Hi). destruct Hq as [->|Hq]; [|contradiction]. unfold assign. cbn [fst snd]. rewrite Nat.eqb_refl.
    apply H. left. reflexivity.
  - intro Hq. rewrite I2 by tauto. unfold assign. cbn [fst snd]. destruct (q =? q0) eqn:E; [|reflexivity]. apply Nat.eqb_eq in E. subst. tauto.
Qed.

Lemma loops_run : forall (gen : nat -> loopM -> res (nat * loop V)) (C : nat -> N -> R) ls m,
  (forall q l, nth_error ls q = Some l -> exists s, gen (m + q) l = Ok (l_iters l, s) /\ (forall a, exists b, run_iters s (iters (l_iters l)) a b) /\
     forall a b p, run_iters s (iters (l_iters l)) a b -> b p = (a p + C (m + q)%nat p)%R) ->
  exists ps, rloops gen m ls = Ok ps /\ (forall a, exists b, run_loops ps a b) /\ forall a b p, run_loops ps a b -> b p = (a p + sumL (fun n => C n p) (seq m (length ls)))%R.
Proof.
  intros gen C. induction ls as [|l ls IH]; intros m H; cbn [rloops length seq sumL].
  - exists []. split; [reflexivity|]. split; [intro a; exists a; constructor|]. intros a b p Hr. inversion Hr; subst. lra.
  - destruct (H 0 l eq_refl) as (s & E & H1 & H2). rewrite Nat.add_0_r in E. rewrite E. cbn [rbind]. destruct (IH (S m)) as (ps & E2 & I1 & I2).
    { intros q l' Hq. specialize (H (S q) l' Hq). rewrite Nat.add_succ_r in H. exact H. }
    rewrite E2. cbn [rbind]. eexists. split; [reflexivity|]. split.
    + intro a. destruct (H1 a) as (b & Hb). destruct (I1 b) as (c & Hc). exists c. econstructor; [exact Hb|exact Hc].
    + intros a c p Hr. inversion Hr as [|? ? ? ? b ? Hb Hc]; subst. rewrite (I2 _ _ p Hc), (H2 _ _ p Hb), Nat.add_0_r. lra.
Qed.

(** ** The Jacobian *)
Section Jacobian.
Variable dF : nat -> nat -> nat -> (nat -> R) -> R.
Variable G : nat -> (nat -> R) -> R.
Variable dG : nat -> nat -> (nat -> R) -> R.
Variable absent : nat -> nat -> nat -> R.
Variable md : model.
Variable x : nat -> R.
Hypothesis Hg : good md.
Hypothesis HdF : forall n l tapeI row t u, nth_error (m_loops md) n = Some l -> nth_error (l_row l) tapeI = Some row -> ~ In t row -> dF n tapeI t u = 0%R.
Hypothesis HdG : forall f il row j, m_free md = Some f -> nth_error (f_row f) il = Some row -> ~ In j row -> dG il j x = 0%R.
Variable els : list (nat * nat).
Variable s : state.
Hypothesis HI : Inv md (numbered els) s.

Definition rowS (n : nat) (l : loopM) (tapeI it e : nat) : R := rowSum dF G dG absent md x s n l tapeI it e.
Lemma loopRequests_Ok : forall n l, nth_error (m_loops md) n = Some l -> exists rs, loopRequests dF G dG absent md x n l s = Ok rs /\ Forall (valid V zeroV (iters (l_iters l))) rs /\ Forall (isResult 1) rs /\
  forall it e, sumL (fun q => contrib q (N.of_nat it) (N.of_nat e)) rs = sumL (fun tapeI => rowS n l tapeI it e) (seq 0 (length (l_deps l))).
Proof.
  intros n l Hn. pose proof (Hl md Hg n l Hn) as Gl. unfold loopRequests.
  destruct (rmap_Ok (rowResults dF G dG absent md x 1%R n l s) (fun tapeI rs => Forall (valid V zeroV (iters (l_iters l))) rs /\ Forall (isResult 1) rs /\
    forall it e, sumL (fun q => contrib q (N.of_nat it) (N.of_nat e)) rs = rowS n l tapeI it e) (seq 0 (length (l_deps l)))) as (rss & E & H).
  { intros tapeI Ht. apply in_seq in Ht. destruct (nth_error (l_row l) tapeI) as [row|] eqn:Er; [|apply nth_error_None in Er; rewrite (g_rows md l Gl) in Er; lia].
    destruct (rowResults_Ok dF G dG absent md x Hg HdF HdG (numbered els) s HI 1%R n l Hn tapeI row Er) as (rs & E1 & E2 & E3 & E4). exists rs. split; [exact E1|]. split; [exact E2|]. split; [exact E3|]. intros it e. rewrite E4. apply Rmult_1_r. }
  rewrite E. cbn [rbind]. exists (concat rss). split; [reflexivity|]. split; [|split].
  - clear E. induction H as [|a rs ts rss (H1 & _) _ IH]; cbn [concat]; [constructor|apply Forall_app; auto].
  - clear E. induction H as [|a rs ts rss (_ & H1 & _) _ IH]; cbn [concat]; [constructor|apply Forall_app; auto].
  - intros it e. rewrite sumL_concat. symmetry. apply (sumL_Forall2 _ _ _ _ _ H). intros a rs (_ & _ & H3). symmetry. apply H3.
Qed.
Definition loopTotal (n : nat) (p : N) : R :=
  match nth_error (m_loops md) n with
  | Some l => sumL (fun it => sumL (fun tapeI => rowS n l tapeI it (N.to_nat p)) (seq 0 (length (l_deps l)))) (seq 0 (l_iters l))
  | None => 0%R
  end.
Lemma jac_loops : exists ps, rloops (fun n l => rbind (loopRequests dF G dG absent md x n l s) (fun rs => rbind (makeLoop rs) (fun p => Ok (l_iters l, p)))) 0 (m_loops md) = Ok ps /\
  (forall a, exists b, run_loops ps a b) /\ forall a b p, run_loops ps a b -> b p = (a p + sumL (fun n => loopTotal n p) (seq 0 (length (m_loops md))))%R.
Proof.
  apply loops_run. intros n l Hn. cbn [plus]. destruct (loopRequests_Ok n l Hn) as (rs & E & Hv & Hr & Hs). rewrite E. cbn [rbind]. destruct (makeLoop_served (l_iters l) rs Hv) as (sl & El & Hsv). rewrite El. cbn [rbind].
  exists sl. split; [reflexivity|]. split; [intro a; exact (run_exists _ _ _ Hsv _ a (incl_refl _))|]. intros a b p Hrun.
  rewrite (run_adds _ _ _ Hsv _ _ _ p Hr (incl_refl _) Hrun). f_equal. unfold loopTotal. rewrite Hn. unfold iters. rewrite sumL_map. apply sumL_ext. intros it _. rewrite <- Hs. rewrite N2Nat.id. reflexivity.
Qed.

(** one element of a loop *)
Lemma total_element : forall n l tapeI row it e i j, nth_error (m_loops md) n = Some l -> nth_error (l_row l) tapeI = Some row -> nth_error els e = Some (i, j) -> findLoop i (m_loops md) = Some (n, (tapeI, it)) ->
  sumL (fun n => loopTotal n (N.of_nat e)) (seq 0 (length (m_loops md))) = sumL (fun t => dF n tapeI t (tapeVars G absent md x n l it) * dsource dG md x l it j t)%R (seq 0 (nTape l)).
Proof.
  intros n l tapeI row it e i j Hn Hrow He Hf.
  assert (Z : forall n' l' t' it', nth_error (m_loops md) n' = Some l' -> t' < length (l_deps l') -> (n', (t', it')) <> (n, (tapeI, it)) -> rowS n' l' t' it' e = 0%R).
  { intros n' l' t' it' Hn' Ht' Hne. pose proof (Hl md Hg n' l' Hn') as Gl. destruct (nth_error (l_row l') t') as [row'|] eqn:Er; [|apply nth_error_None in Er; rewrite (g_rows md l' Gl) in Er; lia].
    apply (rowSum_zero dF G dG absent md x (numbered els) s HI n' l' Hn' t' row' Er it' e). intros i' j' He'. apply numbered_nth in He'. rewrite He in He'. injection He' as <- <-. rewrite Hf. congruence. }
  destruct (findLoop_Some _ _ _ _ _ Hf) as (l0 & r0 & Hl0 & Hr0 & Hi0). assert (l0 = l) by congruence. subst l0.
  destruct (loop_row md Hg n l tapeI r0 it i Hn Hr0 Hi0) as (Gl & _ & Hit).
  rewrite (sumL_single _ _ n (seq_NoDup _ _)).
  - unfold loopTotal. rewrite Hn, Nnat.Nat2N.id. rewrite (sumL_single _ _ it (seq_NoDup _ _)).
    + rewrite (sumL_single _ _ tapeI (seq_NoDup _ _)).
      * apply (rowSum_total dF G dG absent md x Hg HdF HdG (numbered els) s HI n l Hn tapeI row Hrow it e i j (proj2 (numbered_nth _ _ _) He) Hf). intros i' j' He' _. apply numbered_nth in He'. congruence.
      * apply in_seq. split; [lia|]. apply nth_error_Some. congruence.
      * intros t' Ht' Hne. apply in_seq in Ht'. apply Z; [exact Hn|lia|congruence].
    + apply in_seq. lia.
    + intros it' Hit' Hne. apply sumL_zero. intros t' Ht'. apply in_seq in Ht'. apply Z; [exact Hn|lia|congruence].
  - apply in_seq. split; [lia|]. apply nth_error_Some. congruence.
  - intros n' Hn' Hne. unfold loopTotal. destruct (nth_error (m_loops md) n') as [l'|] eqn:E; [|reflexivity]. rewrite Nnat.Nat2N.id. apply sumL_zero. intros it' _. apply sumL_zero. intros t' Ht'. apply in_seq in Ht'.
    apply Z; [exact E|lia|congruence].
Qed.

Lemma outside_In : forall e w, In (e, w) (outside dG md x s) <-> exists il j i f, w = dG il j x /\ nth_error els e = Some (i, j) /\ m_free md = Some f /\ nth_error (f_eqs f) il = Some i.
Proof.
  intros e w. unfold outside. rewrite in_flat_map. split.
  - intros (il & _ & H). apply in_flat_map in H. destruct H as (j & _ & H). apply in_map_iff in H. destruct H as (e' & E & H). inversion E; subst. apply (v_locs md _ _ HI) in H.
    destruct H as (i & f & H1 & H2 & H3). apply numbered_nth in H1. exists il, j, i, f. auto.
  - intros (il & j & i & f & -> & H1 & H2 & H3). assert (Hl : In e (noLoopLocs s il j)) by (apply (v_locs md _ _ HI); exists i, f; rewrite numbered_nth; auto).
    exists il. split.
    + apply in_seq. unfold nEq. rewrite H2. split; [lia|]. apply nth_error_Some. congruence.
    + apply in_flat_map. exists j. split; [exact (v_eval md _ _ HI _ _ _ Hl)|]. apply in_map_iff. exists e. auto.
Qed.
End Jacobian.

(** ** The derivative *)
Section Derivative.
Variable F : nat -> nat -> (nat -> R) -> R.
Variable dF : nat -> nat -> nat -> (nat -> R) -> R.
Variable G : nat -> (nat -> R) -> R.
Variable dG : nat -> nat -> (nat -> R) -> R.
Variable absent : nat -> nat -> nat -> R.
Variable md : model.
Hypothesis Hg : good md.


Lemma tapeVars_read : forall x n l it t, nth_error (sources l it) t <> Some None -> tapeVars G absent md x n l it t = read G md x (nth_error (sources l it) t).
Proof.
  intros x n l it t Hp. unfold tapeVars. destruct (t <? length (l_indexed l)) eqn:E1.
  - apply Nat.ltb_lt in E1. destruct (sources_indexed_None l it t E1 Hp) as (j & Hj). rewrite Hj. apply (sources_indexed l it t j E1) in Hj. rewrite Hj. reflexivity.
  - apply Nat.ltb_ge in E1. destruct (t <? length (l_indexed l) + length (l_non l)) eqn:E2.
    + apply Nat.ltb_lt in E2. pose proof (sources_non l it (t - length (l_indexed l))) as E. replace (length (l_indexed l) + (t - length (l_indexed l))) with t in E by lia. rewrite E by lia.
      destruct (nth_error (l_non l) (t - length (l_indexed l))); reflexivity.
    + apply Nat.ltb_ge in E2. pose proof (sources_tmp l it (t - length (l_indexed l) - length (l_non l))) as E.
      replace (length (l_indexed l) + length (l_non l) + (t - length (l_indexed l) - length (l_non l))) with t in E by lia. rewrite E.
      destruct (nth_error (l_tmp l) (t - length (l_indexed l) - length (l_non l))); reflexivity.
Qed.
Lemma moved_0 : forall x j, moved x j 0 = x.
Proof. intros. apply functional_extensionality. intro j'. unfold moved. destruct (j' =? j); lra. Qed.

Lemma total_derivative : forall x n l tapeI deps row it i j, tapes_right F dF G dG md x -> nth_error (m_loops md) n = Some l -> nth_error (l_deps l) tapeI = Some deps -> nth_error deps it = Some (Some i) -> nth_error (l_row l) tapeI = Some row ->
  partial (fun x => F n tapeI (fun t => read G md x (nth_error (sources l it) t))) x j
    (sumL (fun t => dF n tapeI t (tapeVars G absent md x n l it) * dsource dG md x l it j t)%R (seq 0 (nTape l))).
Proof.
  intros x n l tapeI deps row it i j HT Hn Hd Hi Hr. destruct HT as (_ & HF & HG). destruct (HF n l tapeI row Hn Hr) as (D1 & D2 & D3). destruct (loop_row md Hg n l tapeI deps it i Hn Hd Hi) as (Gl & _ & _).
  unfold partial. set (c := fun (s : R) (t : nat) => read G md (moved x j s) (nth_error (sources l it) t)).
  assert (E0 : c 0%R = fun t => read G md x (nth_error (sources l it) t)) by (unfold c; rewrite moved_0; reflexivity). pose proof (D1 deps it i Hd Hi) as Hd1. cbn beta zeta in Hd1. rewrite <- E0 in Hd1. specialize (Hd1 c (dsource dG md x l it j) (fun t => eq_refl)). fold (nTape l) in Hd1. rewrite sumTo_sumL in Hd1.
  assert (E : sumL (fun t => dF n tapeI t (tapeVars G absent md x n l it) * dsource dG md x l it j t)%R (seq 0 (nTape l)) = sumL (fun t => dF n tapeI t (c 0%R) * dsource dG md x l it j t)%R (seq 0 (nTape l))).
  { apply sumL_ext. intros t _. f_equal. apply D3. intros t' Ht'. unfold c. rewrite moved_0. apply tapeVars_read. exact (g_present md l Gl tapeI row deps it i t' Hr Hd Hi Ht'). }
  rewrite E. apply Hd1. intros t _. unfold c, dsource. destruct (nth_error (sources l it) t) as [[[j'|k]|]|] eqn:Es; cbn [read].
  - unfold moved. destruct (j' =? j).
    + replace 1%R with (0 + 1)%R by lra. apply (derivable_pt_lim_plus (fun _ => x j') (fun s => s)); [apply derivable_pt_lim_const|apply derivable_pt_lim_id].
    + apply derivable_pt_lim_const.
  - assert (Hk : In k (l_tmp l)).
    { apply nth_error_In in Es. unfold sources in Es. rewrite !in_app_iff, !in_map_iff in Es. destruct Es as [(r & Hs & _)|[(a & Hs & _)|(a & Hs & Ha)]]; [destruct (nth_error r it) as [[?|]|]; discriminate|discriminate|inversion Hs; subst; exact Ha]. }
    destruct (g_temps md l Gl k Hk) as (f & Ef & Hlt). destruct (nth_error (f_row f) (length (f_eqs f) + k)) as [sp|] eqn:Ep; [|apply nth_error_None in Ep; lia].
    destruct (HG f _ sp Ef Ep j) as [P _]. unfold eqCount. rewrite Ef. exact P.
  - apply derivable_pt_lim_const.
  - apply derivable_pt_lim_const.
Qed.
End Derivative.

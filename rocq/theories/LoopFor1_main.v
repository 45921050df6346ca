(** * First order forward mode of a model with loops: the functions of the groups, and what all the functions add up to *)
From Coq Require Import List Bool Arith NArith ZArith Reals Sorted Lia Permutation Lra.
From Verif Require Import Pool_model Graph_model Codegen_model CSyntax Index_model Range_model LoopCond_model LoopCond_spec Assemble_model Assemble_proofs Assemble_thm
  LoopAsm_model LoopAsm_spec LoopAsm_maps LoopJac_model LoopJac_spec LoopJac_maps LoopJac_row LoopJac_state LoopJac_analysis LoopJac_run LoopJac_main LoopJac_final
  LoopDir_model LoopDir_proofs LoopRev1_model LoopRev1_exec LoopRev1_analysis LoopRev1_main LoopFor1_model LoopFor1_iters LoopFor1_groups LoopFor1_col.
Import ListNotations.
Local Open Scope nat_scope.

Section Loop.
Variable dF : nat -> nat -> nat -> (nat -> R) -> R.
Variable G : nat -> (nat -> R) -> R.
Variable dG : nat -> nat -> (nat -> R) -> R.
Variable absent : nat -> nat -> nat -> R.
Variable md : model.
Variable x : nat -> R.
Hypothesis Hg : good md.
Hypothesis HdF : forall n l tapeI row t u, nth_error (m_loops md) n = Some l -> nth_error (l_row l) tapeI = Some row -> ~ In t row -> dF n tapeI t u = 0%R.
Hypothesis HdG : forall f il row j, m_free md = Some f -> nth_error (f_row f) il = Some row -> ~ In j row -> dG il j x = 0%R.
Variable P : list elem.
Variable s : state.
Hypothesis HI : Inv md P s.
Variable n : nat.
Variable l : loopM.
Hypothesis Hn : nth_error (m_loops md) n = Some l.
Let U (it : nat) : nat -> R := tapeVars G absent md x n l it.
Definition tval (t : nat) (a : term) (it : nat) : R :=
  match a with
  | Idx u => dF n t u (U it)
  | Non j => (dD dF G absent md x n l t j it + sumL (dT dF G dG absent md x n l t j it) (tks (infos s n t) j))%R
  end.
Definition pos (t : nat) (a : term) (it : nat) : option nat := posAt (termPos (infos s n t) a) it.
Definition termAt (t : nat) (a : term) (it e : nat) : R := if isEq e (pos t a it) then tval t a it else 0%R.
Lemma pos_idx t u it : pos t (Idx u) it = pget (indexedPositions (infos s n t)) u it.
Proof. reflexivity. Qed.
Lemma pos_non t j it : pos t (Non j) it = pget (nonIndexedPositions (infos s n t)) j it.
Proof. reflexivity. Qed.

(** ** What an equation gives for a column *)
Section Row.
Variable tapeI : nat.
Variable row : list nat.
Hypothesis Hrow : nth_error (l_row l) tapeI = Some row.
Let r := infos s n tapeI.
Lemma colSum_total : forall it e j, Req md P n tapeI it j e ->
  sumL (fun a => if isEq j (termCol l a it) then termAt tapeI a it e else 0%R) (candidates l j) = sumL (fun t => dF n tapeI t (U it) * dsource dG md x l it j t)%R (seq 0 (nTape l)).
Proof.
  intros it e j Hreq. pose proof (Hl md Hg n l Hn) as Gl. pose proof (v_rows md _ _ HI _ _ _ _ Hn Hrow) as R0. fold r in R0. set (D := fun t => dF n tapeI t (U it)).
  assert (Dz : forall t, ~ In t row -> D t = 0%R) by (intros t Ht; exact (HdF n l tapeI row t _ Hn Hrow Ht)).
  unfold candidates, nTape. rewrite !seq_app, !sumL_app, sumL_map. cbn [plus sumL]. rewrite Rplus_assoc. f_equal.
  - (* indexed variables *)
    apply sumL_ext. intros t Ht. apply in_seq in Ht. fold (D t). unfold termAt, dsource. cbn [termCol tval]. rewrite pos_idx. fold r. fold (D t).
    assert (Hpos : entry (l_indexed l) t it = Some j -> (pget (indexedPositions r) t it = Some e <-> In t row)).
    { intros Ee. rewrite (r_i _ _ _ _ _ R0). split; [intros (j' & _ & _ & H2); exact H2|intros H2; exists j; auto]. }
    destruct (isEq j (entry (l_indexed l) t it)) eqn:Ej.
    + apply isEq_iff in Ej. pose proof (Hpos Ej) as Hp. apply (sources_indexed l it t j) in Ej; [|lia]. rewrite Ej, Nat.eqb_refl. destruct (isEq e (pget (indexedPositions r) t it)) eqn:E; [lra|].
      rewrite (Dz t); [lra|]. rewrite <- Hp, <- isEq_iff. congruence.
    + destruct (nth_error (sources l it) t) as [[[j'|k]|]|] eqn:Es; try lra.
      * destruct (j' =? j) eqn:Ejj; [|lra]. apply Nat.eqb_eq in Ejj. subst j'. apply sources_indexed in Es; [|lia]. rewrite (proj2 (isEq_iff j _) Es) in Ej. discriminate.
      * exfalso. unfold sources in Es. rewrite nth_error_app1 in Es by (rewrite map_length; lia). rewrite nth_error_map in Es. destruct (nth_error (l_indexed l) t) as [rw|]; [|discriminate].
        cbn in Es. destruct (nth_error rw it) as [[?|]|]; discriminate.
  - (* the variable itself and the temporaries *)
    cbn [termCol]. rewrite (proj2 (isEq_iff j (Some j)) eq_refl). unfold termAt. rewrite pos_non. cbn [tval]. fold r.
    set (nI := length (l_indexed l)). set (nN := length (l_non l)).
    assert (Hpos : pget (nonIndexedPositions r) j it = Some e <-> direct l row j \/ exists k, via md l row j k).
    { rewrite (r_n _ _ _ _ _ R0). tauto. }
    assert (ED : dD dF G absent md x n l tapeI j it = sumL (fun t => D t * dsource dG md x l it j t)%R (seq nI nN)).
    { unfold dD. destruct (getNonIndexed l j) as [t|] eqn:Et.
      - apply (getNonIndexed_iff md l Gl) in Et. fold nI nN in Et. destruct Et as [Ht Et].
        rewrite (sumL_single _ _ t (seq_NoDup _ _)); [|apply in_seq; lia|].
        + rewrite (dsource_non dF G dG absent md x HdF HdG n l tapeI row) by (fold nI nN; lia). fold nI. rewrite Et, Nat.eqb_refl. unfold D, U. cbn beta. lra.
        + intros t' Ht' Hne. apply in_seq in Ht'. rewrite (dsource_non dF G dG absent md x HdF HdG n l tapeI row) by (fold nI nN; lia). fold nI.
          destruct (nth_error (l_non l) (t' - nI)) as [j'|] eqn:Ej; [|lra]. destruct (j' =? j) eqn:Ejj; [|lra]. apply Nat.eqb_eq in Ejj. subst j'. exfalso. apply Hne.
          assert (t' - nI = t - nI); [|lia]. eapply NoDup_nth_error; [exact (g_non md l Gl)| |congruence]. apply nth_error_Some. congruence.
      - symmetry. apply sumL_zero. intros t' Ht'. apply in_seq in Ht'. rewrite (dsource_non dF G dG absent md x HdF HdG n l tapeI row) by (fold nI nN; lia). fold nI.
        destruct (nth_error (l_non l) (t' - nI)) as [j'|] eqn:Ej; [|lra]. destruct (j' =? j) eqn:Ejj; [|lra]. apply Nat.eqb_eq in Ejj. subst j'.
        assert (Hc : getNonIndexed l j = Some t') by (apply (getNonIndexed_iff md l Gl); fold nI nN; split; [lia|exact Ej]). congruence. }
    assert (Tin : forall k, In k (l_tmp l) -> exists t, getTemp l k = Some t /\ nI + nN <= t /\ nth_error (l_tmp l) (t - nI - nN) = Some k).
    { intros k Hk. apply In_nth_error in Hk. destruct Hk as (q & Hq). exists (nI + nN + q). assert (Hs : nth_error (l_tmp l) (nI + nN + q - nI - nN) = Some k) by (replace (nI + nN + q - nI - nN) with q by lia; exact Hq).
      split; [apply (getTemp_iff md l Gl); fold nI nN; split; [lia|exact Hs]|]. split; [lia|exact Hs]. }
    assert (ET : sumL (dT dF G dG absent md x n l tapeI j it) (l_tmp l) = sumL (fun t => D t * dsource dG md x l it j t)%R (seq (nI + nN) (length (l_tmp l)))).
    { pose (kf := fun t => match nth_error (l_tmp l) (t - nI - nN) with Some k => k | None => 0 end). assert (Hm : map kf (seq (nI + nN) (length (l_tmp l))) = l_tmp l).
      { apply (nth_ext _ _ 0 0); [rewrite map_length, seq_length; reflexivity|]. intros q Hq. rewrite map_length, seq_length in Hq.
        rewrite (nth_indep _ 0 (kf 0)) by (rewrite map_length, seq_length; exact Hq).
        rewrite map_nth, seq_nth by exact Hq. unfold kf. replace (nI + nN + q - nI - nN) with q by lia. rewrite (nth_error_nth' _ 0 Hq). reflexivity. }
      rewrite <- Hm at 1. rewrite sumL_map. apply sumL_ext. unfold kf. intros t Ht. apply in_seq in Ht. rewrite (dsource_tmp dF G dG absent md x HdF HdG n l tapeI row) by (fold nI nN; lia). fold nI nN.
      destruct (nth_error (l_tmp l) (t - nI - nN)) as [k|] eqn:Ek; [|apply nth_error_None in Ek; lia]. unfold dT. rewrite (proj2 (getTemp_iff md l Gl k t)); [reflexivity|]. fold nI nN. split; [lia|exact Ek]. }
    assert (Tz : forall k, In k (l_tmp l) -> dT dF G dG absent md x n l tapeI j it k <> 0%R -> via md l row j k).
    { intros k Hk Hne. destruct (Tin k Hk) as (t & H1 & H2 & H3). exists t. split.
      - destruct (in_dec Nat.eq_dec t row) as [Hr|Hr]; [exact Hr|]. exfalso. apply Hne. unfold dT. rewrite H1. cbn beta. pose proof (Dz t Hr) as Z. unfold D, U in Z. rewrite Z. lra.
      - split; [exact H2|]. split; [exact H3|]. destruct (g_temps md l Gl k Hk) as (f & Hff & Hlt). destruct (nth_error (f_row f) (length (f_eqs f) + k)) as [sp|] eqn:Es; [|apply nth_error_None in Es; lia].
        exists f, sp. split; [exact Hff|]. split; [exact Es|]. destruct (in_dec Nat.eq_dec j sp) as [Hj|Hj]; [exact Hj|]. exfalso. apply Hne. unfold dT. rewrite H1. unfold nEq. rewrite Hff, (HdG f _ sp j Hff Es Hj). lra. }
    assert (Htk : forall k, In k (tks r j) <-> via md l row j k).
    { intro k. rewrite (r_t _ _ _ _ _ R0). split; [tauto|]. intro H. split; [exact H|]. exists it, e. exact Hreq. }
    assert (Hvt : forall k, via md l row j k -> In k (l_tmp l)) by (intros k (t & _ & _ & Hk & _); exact (nth_error_In _ _ Hk)).
    assert (ES : sumL (dT dF G dG absent md x n l tapeI j it) (tks r j) = sumL (dT dF G dG absent md x n l tapeI j it) (l_tmp l)).
    { apply sumL_support; [apply sorted_NoDup, (r_ts _ _ _ _ _ R0)|exact (g_tmp md l Gl)| |].
      - intros k Hk _. apply Hvt, Htk, Hk.
      - intros k Hk Hne. apply Htk. exact (Tz k Hk Hne). }
    change (fun t => (dF n tapeI t (U it) * dsource dG md x l it j t)%R) with (fun t => (D t * dsource dG md x l it j t)%R). rewrite <- ED, <- ET, <- ES.
    destruct (isEq e (pget (nonIndexedPositions r) j it)) eqn:Ep; [lra|].
    assert (Hno : ~ (direct l row j \/ exists k, via md l row j k)) by (rewrite <- Hpos, <- isEq_iff; congruence).
    assert (dD dF G absent md x n l tapeI j it = 0%R) as ->. { unfold dD. destruct (getNonIndexed l j) as [t|] eqn:Et; [|reflexivity]. apply (Dz t). intro Hr. apply Hno. left. exists t. auto. }
    destruct (tks r j) as [|k ks] eqn:Ek; [cbn [sumL]; lra|]. exfalso. apply Hno. right. exists k. apply Htk. left. reflexivity.
Qed.
End Row.

(** ** The results of a group *)
Lemma tapeRow_of t : In t (tapeRows l) -> exists row, nth_error (l_row l) t = Some row.
Proof.
  intros I. unfold tapeRows in I. apply in_seq in I. destruct (nth_error (l_row l) t) as [row|] eqn:E; [exists row; reflexivity|]. apply nth_error_None in E. rewrite (g_rows md l (Hl md Hg n l Hn)) in E. lia.
Qed.
Hypothesis Hdir : forall t j it e u, In t (tapeRows l) -> pget (nonIndexedPositions (infos s n t)) j it = Some e -> getNonIndexed l j = Some u ->
  existsb (fun i => mem u (loopEvalRow (infos s n i))) (tapeRows l) = true.
Lemma termPos_wf t a p : In t (tapeRows l) -> termPos (infos s n t) a = Some p -> length p = l_iters l /\ exists it e, nth_error p it = Some (Some e).
Proof.
  intros It E. destruct (tapeRow_of t It) as (row & Er). pose proof (v_rows md _ _ HI _ _ _ _ Hn Er) as R0. destruct a as [u|j]; cbn [termPos] in E; [exact (proj2 (r_wi _ _ _ _ _ R0) u p E)|exact (proj2 (r_wn _ _ _ _ _ R0) j p E)].
Qed.
Lemma termValue_ok t a p : In t (tapeRows l) -> termPos (infos s n t) a = Some p -> exists v, termValue dF G dG absent md x n l s t a = Ok v /\ forall k, v k = tval t a (N.to_nat k).
Proof.
  intros It E. destruct (tapeRow_of t It) as (row & Er). pose proof (v_rows md _ _ HI _ _ _ _ Hn Er) as R0. destruct (termPos_wf t a p It E) as (_ & it & e & He). destruct a as [u|j]; cbn [termPos termValue tval] in *.
  - unfold dyi. assert (Iu : In u (loopEvalRow (infos s n t))). { apply (r_e1 _ _ _ _ _ R0). apply mget_In in E; [exact (in_map fst _ _ E)|apply (r_wi _ _ _ _ _ R0)]. }
    apply mem_In in Iu. rewrite Iu. eexists. split; [reflexivity|]. reflexivity.
  - assert (Hp : pget (nonIndexedPositions (infos s n t)) j it = Some e) by (unfold pget; rewrite E, He; reflexivity). pose proof (proj1 (r_n _ _ _ _ _ R0 j it e) Hp) as [Hq _].
    assert (X : exists d, directValue dF G absent md x n l s t j = Ok d /\ forall k, d k = dD dF G absent md x n l t j (N.to_nat k)).
    { unfold directValue, dD. destruct (getNonIndexed l j) as [u|] eqn:Eu; [|eexists; split; reflexivity]. rewrite (Hdir t j it e u It Hp Eu). eexists. split; [reflexivity|]. intros k. unfold dyi.
      destruct (mem u (loopEvalRow (infos s n t))) eqn:Em; [lra|]. apply mem_nIn in Em. symmetry. apply (HdF n l t row u _ Hn Er). intros Hr. apply Em. exact (r_e2 _ _ _ _ _ R0 j u it e Eu Hr Hq). }
    destruct X as (d & -> & Hd). cbn [rbind]. change (match mget j (tmpEvals (infos s n t)) with Some ks => ks | None => [] end) with (tks (infos s n t) j).
    destruct (temporaries_Ok dF G dG absent md x Hg P s HI n l Hn t row Er j (tks (infos s n t) j) d (fun k H => H)) as (v & Ev & Hv). exists v. split; [exact Ev|]. intros k. rewrite Hv, Hd. reflexivity.
Qed.
Lemma nth_numbered {A} (q : list A) k : nth_error (numbered q) k = option_map (pair k) (nth_error q k).
Proof.
  destruct (nth_error q k) as [a|] eqn:E; cbn [option_map].
  - assert (In (k, a) (numbered q)) as I by (apply numbered_nth; exact E). apply In_nth_error in I. destruct I as (m & I). assert (m = k); [|subst; exact I].
    assert (X : nth_error (map fst (numbered q)) m = Some k) by (rewrite nth_error_map, I; reflexivity). rewrite numbered_fst in X. assert (m < length (seq 0 (length q))) by (apply nth_error_Some; rewrite X; discriminate). rewrite seq_length in H.
    rewrite (nth_error_nth' _ 0), seq_nth in X by (rewrite ?seq_length; exact H). injection X as X. lia.
  - apply nth_error_None in E. apply nth_error_None. unfold numbered. rewrite combine_length, seq_length. lia.
Qed.
Lemma restrict_nth its p it : nth_error (restrictTo its p) it = option_map (fun o => if mem it its then o else None) (nth_error p it).
Proof. unfold restrictTo. rewrite nth_error_map. unfold positions in p. rewrite (nth_numbered p it). destruct (nth_error p it); reflexivity. Qed.
Lemma groupResult_ok its dx t a : In t (tapeRows l) ->
  exists bs, groupResult dF G dG absent md x n l s its dx (t, a) = Ok bs /\ Forall (valid V zeroV (iters (l_iters l))) bs /\ Forall (isResult 1) bs /\
    (forall it e, In it its -> sumL (fun q => contrib q (N.of_nat it) (N.of_nat e)) bs = (termAt t a it e * dx)%R) /\
    (forall it e locs m w, In (RResult V locs m w 1%N) bs -> loc_at (N.of_nat it) locs = Some (N.of_nat e) -> pos t a it = Some e).
Proof.
  intros It. unfold groupResult. cbn [fst snd]. destruct (termPos (infos s n t) a) as [p|] eqn:E.
  2: { exists []. split; [reflexivity|]. split; [constructor|]. split; [constructor|]. split; [|intros ? ? ? ? ? []]. intros it e _. cbn [sumL]. unfold termAt, pos. rewrite E. cbn [posAt isEq]. lra. }
  destruct (termPos_wf t a p It E) as (Lp & _). set (p' := restrictTo its p). assert (Lp' : length p' = l_iters l) by (unfold p', restrictTo; rewrite map_length; unfold numbered; rewrite combine_length, seq_length; lia).
  assert (Hp : forall it, In it its -> nth_error p' it = nth_error p it).
  { intros it I. unfold p'. rewrite restrict_nth. apply mem_In in I. rewrite I. destruct (nth_error p it); reflexivity. }
  destruct (forallb (fun o => negb (isSome o)) p') eqn:Ef.
  - exists []. split; [reflexivity|]. split; [constructor|]. split; [constructor|]. split; [|intros ? ? ? ? ? []]. intros it e I. cbn [sumL]. unfold termAt, pos. rewrite E. cbn [posAt]. rewrite <- (Hp it I).
    destruct (nth_error p' it) as [[e'|]|] eqn:X; cbn [isEq]; try lra. exfalso. rewrite forallb_forall in Ef. specialize (Ef _ (nth_error_In _ _ X)). discriminate.
  - destruct (termValue_ok t a p It E) as (v & Ev & Hv). rewrite Ev. cbn [rbind]. eexists. split; [reflexivity|].
    assert (W : wfpos (l_iters l) [(0, p')]).
    { split; [constructor; [constructor|constructor]|]. intros k q X. cbn [mget] in X. destruct (k =? 0); [|discriminate]. injection X as <-. split; [exact Lp'|].
      assert (Y : existsb isSome p' = true). { clear - Ef. induction p' as [|o q IH]; [discriminate|]. cbn [forallb existsb] in *. destruct o; [reflexivity|]. cbn [isSome negb andb orb] in *. auto. }
      apply existsb_exists in Y. destruct Y as (o & Io & Eo). destruct o as [e|]; [|discriminate]. apply In_nth_error in Io. destruct Io as (it & X). exists it, e. exact X. }
    assert (I0 : In (0, p') [(0, p')]) by (left; reflexivity). split; [|split; [|split]].
    + constructor; [|constructor]. exact (positions_valid dF G dG absent md x Hg HdF HdG n l Hn 0 [] [(0, p')] (0, p') _ W I0).
    + constructor; [|constructor]. unfold isResult, jacobianElement. eauto.
    + intros it e I. cbn [sumL]. rewrite (contrib_element dF G dG absent md x HdF HdG l 0 [] [(0, p')] 0 p' _ it e W I0). unfold termAt, pos. rewrite E. unfold pget. cbn [mget Nat.eqb posAt]. rewrite (Hp it I), Hv, Nnat.Nat2N.id.
      destruct (nth_error p it) as [[e'|]|]; cbn [isEq]; try lra. destruct (e =? e'); lra.
    + intros it e locs m w [X|[]] Y. unfold jacobianElement in X. injection X as <- _ _. pose proof (locsOf_at p' 0 it) as A. rewrite N.add_0_l, Y in A. unfold pos. rewrite E. cbn [posAt].
      destruct (nth_error p' it) as [[e'|]|] eqn:Z; try discriminate. injection A as A. apply Nat2N.inj in A. subst e'. unfold p' in Z. rewrite restrict_nth in Z. destruct (nth_error p it) as [o|]; [|discriminate]. cbn [option_map] in Z.
      destruct (mem it its); [|discriminate]. injection Z as ->. reflexivity.
Qed.
Lemma list_prod_sum {A B} (f : A -> B -> R) (la : list A) (lb : list B) : sumL (fun q => f (fst q) (snd q)) (list_prod la lb) = sumL (fun a => sumL (f a) lb) la.
Proof. induction la as [|a la IH]; cbn [list_prod sumL]; [reflexivity|]. rewrite sumL_app, IH, sumL_map. cbn [fst snd]. reflexivity. Qed.
Definition groupTerm (g : cgroup) (it e : nat) : R := sumL (fun t => sumL (fun a => termAt t a it e) (fst g)) (tapeRows l).
Lemma groupLoop_ok g dx : exists p, groupLoop dF G dG absent md x n l s g dx = Ok p /\ forall it, In it (groupIters l g) ->
  exists es, mapO (effectOf it) (executed V (N.of_nat it) p) = Some es /\ (forall e, addedAt R 0%R Rplus es e = (groupTerm g it e * dx)%R) /\
    (forall e v, In (e, v) es -> exists t a, In t (tapeRows l) /\ In a (fst g) /\ pos t a it = Some e).
Proof.
  unfold groupLoop. set (its := groupIters l g).
  destruct (rmap_Ok (groupResult dF G dG absent md x n l s its dx) (fun q bs => Forall (valid V zeroV (iters (l_iters l))) bs /\ Forall (isResult 1) bs /\
    (forall it e, In it its -> sumL (fun q => contrib q (N.of_nat it) (N.of_nat e)) bs = (termAt (fst q) (snd q) it e * dx)%R) /\
    (forall it e locs m w, In (RResult V locs m w 1%N) bs -> loc_at (N.of_nat it) locs = Some (N.of_nat e) -> pos (fst q) (snd q) it = Some e)) (list_prod (tapeRows l) (fst g))) as (bss & Eb & Hb).
  { intros [t a] I. apply in_prod_iff in I. exact (groupResult_ok its dx t a (proj1 I)). }
  rewrite Eb. cbn [rbind].
  assert (Hall : Forall (valid V zeroV (iters (l_iters l))) (concat bss) /\ Forall (isResult 1) (concat bss) /\
    (forall it e, In it its -> sumL (fun q => contrib q (N.of_nat it) (N.of_nat e)) (concat bss) = sumL (fun q => termAt (fst q) (snd q) it e * dx)%R (list_prod (tapeRows l) (fst g))) /\
    (forall it e locs m w, In (RResult V locs m w 1%N) (concat bss) -> loc_at (N.of_nat it) locs = Some (N.of_nat e) -> exists q, In q (list_prod (tapeRows l) (fst g)) /\ pos (fst q) (snd q) it = Some e)).
  { clear Eb. induction Hb as [|q bs qs bss (A & B & C & D) _ (A' & B' & C' & D')]; cbn [concat].
    - split; [constructor|]. split; [constructor|]. split; [reflexivity|intros ? ? ? ? ? []].
    - split; [apply Forall_app; auto|]. split; [apply Forall_app; auto|]. split.
      + intros it e I. rewrite sumL_app. cbn [sumL]. rewrite (C it e I), (C' it e I). reflexivity.
      + intros it e locs m w I X. apply in_app_iff in I. destruct I as [I|I]; [exists q; split; [left; reflexivity|exact (D it e locs m w I X)]|]. destruct (D' it e locs m w I X) as (q' & I' & X'). exists q'. split; [right; exact I'|exact X']. }
  destruct Hall as (A & B & C & D). destruct (makeLoop_served (l_iters l) (concat bss) A) as (p & Ep & _). exists p. split; [exact Ep|]. intros it I.
  assert (Lit : it < l_iters l) by (unfold its, groupIters in I; apply filter_In in I; destruct I as [I _]; apply in_seq in I; lia).
  destruct (effects (l_iters l) (concat bss) p it A B Ep Lit) as (es & E1 & E2 & E3). exists es. split; [exact E1|]. split.
  - intros e. rewrite E2, (C it e I). rewrite (sumL_scale (fun q : nat * term => termAt (fst q) (snd q) it e)). f_equal. apply (list_prod_sum (fun t a => termAt t a it e)).
  - intros e v Ie. destruct (E3 e v Ie) as (locs & m & w & I1 & I2). destruct (D it e locs m w I1 I2) as ([t a] & Iq & X). apply in_prod_iff in Iq. cbn [fst snd] in X. exists t, a. split; [apply Iq|]. split; [apply Iq|exact X].
Qed.

(** ** The function of a group at a column *)
Lemma addedAt_concat ls e : addedAt R 0%R Rplus (concat ls) e = sumL (fun q => addedAt R 0%R Rplus q e) ls.
Proof.
  unfold addedAt. induction ls as [|q ls IH]; cbn [concat sumL]; [reflexivity|]. rewrite filter_app, map_app. rewrite !total_sum in *. rewrite sumL_app. f_equal. exact IH.
Qed.
Lemma mapO_Ok {A B} (f : A -> option B) (T : A -> B -> Prop) q : (forall a, In a q -> exists b, f a = Some b /\ T a b) -> exists bs, mapO f q = Some bs /\ Forall2 T q bs.
Proof.
  induction q as [|a q IH]; intros H; cbn [mapO]; [exists []; split; [reflexivity|constructor]|]. destruct (H a (or_introl eq_refl)) as (b & E & Hb). destruct (IH (fun c I => H c (or_intror I))) as (bs & E2 & H2).
  rewrite E, E2. exists (b :: bs). split; [reflexivity|constructor; assumption].
Qed.
Lemma nth_seq_sum (f : nat -> R) (its : list nat) : sumL (fun lit => f (nth lit its 0)) (seq 0 (length its)) = sumL f its.
Proof.
  induction its as [|a its IH]; cbn [length seq sumL]; [reflexivity|]. f_equal. rewrite <- IH. rewrite <- seq_shift, sumL_map. reflexivity.
Qed.
Lemma groupFn_ok nx g dx j its : In g (columnGroups s n l nx) -> In (j, its) (snd g) ->
  exists p c es, groupLoop dF G dG absent md x n l s g dx = Ok p /\ countAt g j = Some c /\
    option_map (@concat (nat * R)) (mapO (fun lit => match iterationAt g j lit with Some it => mapO (effectOf it) (executed V (N.of_nat it) p) | None => None end) (seq 0 c)) = Some es /\
    (forall e, addedAt R 0%R Rplus es e = (sumL (fun it => groupTerm g it e) its * dx)%R) /\
    (forall e v, In (e, v) es -> exists t a it, In t (tapeRows l) /\ In a (fst g) /\ In it its /\ pos t a it = Some e).
Proof.
  intros Ig Ij. destruct (group_In s n l nx g Ig) as (Hw & Hne & Hc). destruct (groupLoop_ok g dx) as (p & Ep & Hp). exists p, (length its).
  assert (Hin : forall it, In it its -> In it (groupIters l g)).
  { intros it I. destruct (fst g) as [|a r] eqn:Ea; [destruct (Hne eq_refl)|]. assert (Ia : In a (fst g)) by (rewrite Ea; left; reflexivity). apply (groupIters_In s n l nx g it a Ig Ia). exists j, its. split; [exact Ij|]. split; [exact I|].
    rewrite <- Ea in Hc. destruct (Hc j its Ij) as [_ H]. destruct (H a Ia) as [_ X]. rewrite <- X in I. apply termIters_In in I. apply I. }
  destruct (mapO_Ok (fun lit => match iterationAt g j lit with Some it => mapO (effectOf it) (executed V (N.of_nat it) p) | None => None end)
    (fun lit es => (forall e, addedAt R 0%R Rplus es e = (groupTerm g (nth lit its 0%nat) e * dx)%R) /\ (forall e v, In (e, v) es -> exists t a, In t (tapeRows l) /\ In a (fst g) /\ pos t a (nth lit its 0) = Some e) /\ lit < length its) (seq 0 (length its))) as (ess & Ee & He).
  { intros lit I. apply in_seq in I. assert (L : lit < length its) by lia. pose proof (nth_error_nth' its 0 L) as X. rewrite (iteration_ok g j its lit _ Hw Ij X). destruct (Hp (nth lit its 0) (Hin _ (nth_error_In _ _ X))) as (es & E1 & E2 & E3). exists es. auto. }
  exists (concat ess). split; [exact Ep|]. split; [exact (count_ok g j its Hw Ij)|]. rewrite Ee. split; [reflexivity|]. split.
  - intros e. rewrite addedAt_concat, <- (nth_seq_sum (fun it => groupTerm g it e) its), <- sumL_scale. clear Ee. induction He as [|lit es lits ess (A & _) _ IH]; cbn [sumL]; [reflexivity|]. rewrite A, IH. reflexivity.
  - intros e v I. apply in_concat in I. destruct I as (es & I1 & I2). clear Ee. induction He as [|lit es' lits ess (_ & B & L) _ IH]; [destruct I1|]. destruct I1 as [->|I1]; [|exact (IH I1)].
    destruct (B e v I2) as (t & a & It & Ia & X). exists t, a, (nth lit its 0). split; [exact It|]. split; [exact Ia|]. split; [apply nth_In; exact L|exact X].
Qed.

(** ** All the groups of the loop at a column *)
Definition groupVal (g : cgroup) (j e : nat) : R := sumL (fun c => if fst c =? j then sumL (fun it => groupTerm g it e) (snd c) else 0%R) (snd g).
Lemma groupVal_at nx g j its e : In g (columnGroups s n l nx) -> In (j, its) (snd g) -> groupVal g j e = sumL (fun it => groupTerm g it e) its.
Proof.
  intros Ig Ij. destruct (group_In s n l nx g Ig) as ((S & _) & _). unfold groupVal. apply LoopJac_maps.sorted_NoDup in S. rewrite (sumL_single _ _ (j, its)); [cbn [fst snd]; rewrite Nat.eqb_refl; reflexivity|exact (NoDup_map_inv _ _ S)|exact Ij|].
  intros [j' its'] I N. cbn [fst snd]. destruct (Nat.eqb_spec j' j) as [->|]; [|reflexivity]. exfalso. apply N. f_equal. clear - S Ij I. induction (snd g) as [|c cs IH]; [destruct Ij|]. cbn [map] in S. inversion S as [|? ? S1 S2]; subst.
  destruct Ij as [->|Ij], I as [I|I]; [congruence| | |exact (IH Ij S2 I)]; exfalso; apply S1.
  - exact (in_map fst _ _ I).
  - subst c. exact (in_map fst _ _ Ij).
Qed.
Lemma groupVal_none nx g j e : In g (columnGroups s n l nx) -> ~ In j (map fst (snd g)) -> groupVal g j e = 0%R.
Proof.
  intros _ N. unfold groupVal. apply sumL_zero. intros [j' its] I. cbn [fst snd]. destruct (Nat.eqb_spec j' j) as [->|]; [|reflexivity]. exfalso. apply N. exact (in_map fst _ _ I).
Qed.
Lemma sumL_swap {A B} (f : A -> B -> R) la lb : sumL (fun a => sumL (f a) lb) la = sumL (fun b => sumL (fun a => f a b) la) lb.
Proof. induction la as [|a la IH]; cbn [sumL]; [symmetry; apply sumL_zero; reflexivity|]. rewrite IH, <- sumL_plus. reflexivity. Qed.
Lemma loop_sum nx j e : j < nx -> sumL (fun g => groupVal g j e) (columnGroups s n l nx) =
  sumL (fun a => sumL (fun it => sumL (fun t => termAt t a it e) (tapeRows l)) (termIters s n l j a)) (candidates l j).
Proof.
  intros L. pose (h := fun (k : nat) (its : list nat) (a : term) => if k =? j then sumL (fun it => sumL (fun t => termAt t a it e) (tapeRows l)) its else 0%R).
  transitivity (sumL (fun g : cgroup => sumL (fun c => sumL (h (fst c) (snd c)) (fst g)) (snd g)) (columnGroups s n l nx)).
  - apply sumL_ext. intros g _. unfold groupVal. apply sumL_ext. intros [k its] _. cbn [fst snd]. unfold h. destruct (k =? j); [|symmetry; apply sumL_zero; reflexivity].
    unfold groupTerm. rewrite (sumL_swap (fun a it => sumL (fun t => termAt t a it e) (tapeRows l))). apply sumL_ext. intros it _. apply sumL_swap.
  - rewrite groups_sum; [|intros k a; unfold h; destruct (k =? j); reflexivity]. rewrite (sumL_single _ _ j (seq_NoDup _ _)); [|apply in_seq; lia|].
    + apply sumL_ext. intros a _. unfold h. rewrite Nat.eqb_refl. reflexivity.
    + intros k _ N. apply sumL_zero. intros a _. unfold h. destruct (Nat.eqb_spec k j); [contradiction|reflexivity].
Qed.
(** a position of a term in an iteration which is of column [j]: an element of column [j] which was requested *)
Lemma term_req t a it e j : In t (tapeRows l) -> In it (termIters s n l j a) -> pos t a it = Some e -> (forall k, a = Non k -> k = j) -> Req md P n t it j e.
Proof.
  intros It Ii E Hk. destruct (tapeRow_of t It) as (row & Er). pose proof (v_rows md _ _ HI _ _ _ _ Hn Er) as R0. apply termIters_In in Ii. destruct Ii as (_ & _ & C). destruct a as [u|k]; cbn [termCol] in C.
  - rewrite pos_idx in E. apply (r_i _ _ _ _ _ R0) in E. destruct E as (j' & Q & E & _). assert (j' = j) by congruence. subst j'. exact Q.
  - rewrite (Hk k eq_refl) in *. rewrite pos_non in E. apply (r_n _ _ _ _ _ R0) in E. apply E.
Qed.
Lemma candidate_non j a k : In a (candidates l j) -> a = Non k -> k = j.
Proof. intros I ->. unfold candidates in I. apply in_app_iff in I. destruct I as [I|[X|[]]]; [apply in_map_iff in I; destruct I as (? & X & _); discriminate|congruence]. Qed.
Lemma loop_none nx j e : j < nx -> (forall i t it, In (e, (i, j)) P -> findLoop i (m_loops md) <> Some (n, (t, it))) -> sumL (fun g => groupVal g j e) (columnGroups s n l nx) = 0%R.
Proof.
  intros L H. rewrite (loop_sum nx j e L). apply sumL_zero. intros a Ia. apply sumL_zero. intros it Ii. apply sumL_zero. intros t It. unfold termAt. destruct (isEq e (pos t a it)) eqn:E; [|reflexivity]. exfalso. apply isEq_iff in E.
  destruct (term_req t a it e j It Ii E (fun k => candidate_non j a k Ia)) as (i & I & X). exact (H i t it I X).
Qed.
Lemma loop_total nx i j e t0 it0 : j < nx -> In (e, (i, j)) P -> (forall i', In (e, (i', j)) P -> i' = i) -> findLoop i (m_loops md) = Some (n, (t0, it0)) ->
  sumL (fun g => groupVal g j e) (columnGroups s n l nx) = sumL (fun t => dF n t0 t (U it0) * dsource dG md x l it0 j t)%R (seq 0 (nTape l)).
Proof.
  intros L He Hu Hf. rewrite (loop_sum nx j e L).
  assert (It0 : In t0 (tapeRows l) /\ it0 < l_iters l).
  { destruct (findLoop_Some _ _ _ _ _ Hf) as (l' & d & A & B & C). assert (l' = l) by congruence. subst l'. split; [unfold tapeRows; apply in_seq; split; [lia|]; apply nth_error_Some; rewrite B; discriminate|].
    exact (proj2 (proj2 (loop_row md Hg n l t0 d it0 i Hn B C))). }
  destruct It0 as [It0 Lit0]. destruct (tapeRow_of t0 It0) as (row & Er). rewrite <- (colSum_total t0 row Er it0 e j); [|exists i; auto].
  apply sumL_ext. intros a Ia.
  assert (Hone : forall t it, In t (tapeRows l) -> In it (termIters s n l j a) -> termAt t a it e <> 0%R -> t = t0 /\ it = it0).
  { intros t it It Ii N. unfold termAt in N. destruct (isEq e (pos t a it)) eqn:E; [|destruct (N eq_refl)]. apply isEq_iff in E. destruct (term_req t a it e j It Ii E (fun k => candidate_non j a k Ia)) as (i' & I & X).
    rewrite (Hu i' I) in X. rewrite X in Hf. injection Hf as -> ->. auto. }
  destruct (in_dec Nat.eq_dec it0 (termIters s n l j a)) as [Ii|Ni].
  - rewrite (sumL_single _ _ it0 (termIters_NoDup s n l j a) Ii).
    + rewrite (sumL_single _ _ t0); [|apply seq_NoDup|exact It0|].
      * pose proof Ii as Ii2. apply termIters_In in Ii2. destruct Ii2 as (_ & _ & C). rewrite (proj2 (isEq_iff j _) C). reflexivity.
      * intros t It N. destruct (Req_EM_T (termAt t a it0 e) 0%R) as [Z|Z]; [exact Z|]. exfalso. apply N. exact (proj1 (Hone t it0 It Ii Z)).
    + intros it Iit N. apply sumL_zero. intros t It. destruct (Req_EM_T (termAt t a it e) 0%R) as [Z|Z]; [exact Z|]. exfalso. apply N. exact (proj2 (Hone t it It Iit Z)).
  - rewrite sumL_zero.
    + destruct (isEq j (termCol l a it0)) eqn:C; [|reflexivity]. unfold termAt. destruct (isEq e (pos t0 a it0)) eqn:E; [|reflexivity]. exfalso. apply Ni. apply isEq_iff in C, E. apply termIters_In. split; [exact Lit0|]. split; [|exact C].
      exists t0, e. split; [exact It0|exact E].
    + intros it Iit. apply sumL_zero. intros t It. destruct (Req_EM_T (termAt t a it e) 0%R) as [Z|Z]; [exact Z|]. exfalso. apply Ni. rewrite <- (proj2 (Hone t it It Iit Z)). exact Iit.
Qed.
End Loop.

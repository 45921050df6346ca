(** * The elements of a Jacobian with loops are total derivatives *)
From Coq Require Import List Bool Arith NArith Reals Sorted Lia Permutation Lra Classical_Prop.
From Verif Require Import Graph_model Codegen_model CSyntax Range_model LoopCond_model LoopCond_spec LoopJac_model LoopJac_spec LoopJac_maps LoopJac_row LoopJac_state LoopJac_analysis LoopJac_run.
Import ListNotations.
Local Open Scope nat_scope.

Lemma rmap_Ok : forall {A B} (f : A -> res B) (P : A -> B -> Prop) l, (forall a, In a l -> exists b, f a = Ok b /\ P a b) -> exists bs, rmap f l = Ok bs /\ Forall2 P l bs.
Proof.
  induction l as [|a l IH]; intro H; cbn [rmap]; [exists []; auto|]. destruct (H a (or_introl eq_refl)) as (b & E & Hp). destruct IH as (bs & E2 & Hf). { intros c Hc. apply H. right. exact Hc. }
  rewrite E. cbn [rbind]. rewrite E2. exists (b :: bs). auto.
Qed.

Section Main.
Variable dF : nat -> nat -> nat -> (nat -> R) -> R.
Variable G : nat -> (nat -> R) -> R.
Variable dG : nat -> nat -> (nat -> R) -> R.
Variable absent : nat -> nat -> nat -> R.
Variable md : model.
Variable x : nat -> R.
Hypothesis Hg : good md.
Hypothesis HdF : forall n l tapeI row t u, nth_error (m_loops md) n = Some l -> nth_error (l_row l) tapeI = Some row -> ~ In t row -> dF n tapeI t u = 0%R.
Hypothesis HdG : forall f il row j, m_free md = Some f -> nth_error (f_row f) il = Some row -> ~ In j row -> dG il j x = 0%R.

Let U (n : nat) (l : loopM) (it : nat) : nat -> R := tapeVars G absent md x n l it.
Lemma nEq_eq : nEq md = eqCount md.
Proof. reflexivity. Qed.

(** ** The values of one row *)
Section Row.
Variable P : list elem.
Variable s : state.
Hypothesis HI : Inv md P s.
Variable py : R.
Variable n : nat.
Variable l : loopM.
Hypothesis Hn : nth_error (m_loops md) n = Some l.
Variable tapeI : nat.
Variable row : list nat.
Hypothesis Hrow : nth_error (l_row l) tapeI = Some row.
Let r := infos s n tapeI.
Lemma Hl : good_loop md l.
Proof. pose proof (g_loops md Hg) as H. rewrite Forall_forall in H. exact (H l (nth_error_In _ _ Hn)). Qed.
Lemma HR : RInv md l row (Req md P n tapeI) r.
Proof. exact (v_rows md _ _ HI _ _ _ _ Hn Hrow). Qed.

Definition dD (j k : nat) : R := match getNonIndexed l j with Some t => dF n tapeI t (U n l k) | None => 0%R end.
Definition dT (j k kk : nat) : R := match getTemp l kk with Some t => (dF n tapeI t (U n l k) * dG (nEq md + kk) j x)%R | None => 0%R end.

Lemma indexedResult_Ok : forall jp, In jp (indexedPositions r) ->
  exists b, indexedResult dF G absent md x py n l tapeI r jp = Ok b /\ exists v, b = jacobianElement (snd jp) v /\ forall k, v k = (dF n tapeI (fst jp) (U n l (N.to_nat k)) * py)%R.
Proof.
  intros jp Hj. unfold indexedResult, dyi. assert (He : In (fst jp) (loopEvalRow r)) by (apply (r_e1 _ _ _ _ _ HR), in_map, Hj). apply mem_In in He. rewrite He.
  eexists. split; [reflexivity|]. eexists. split; [reflexivity|]. intro k. cbn beta. unfold U. lra.
Qed.
Lemma viaT_temp : forall j k t, viaT md l row j k t -> getTemp l k = Some t.
Proof. intros j k t (_ & H1 & H2 & _). apply (getTemp_iff md l Hl). auto. Qed.
Lemma temporaries_Ok : forall j ks (acc : V), (forall k, In k ks -> In k (tks r j)) ->
  exists v, rfold (viaTemporary dF G dG absent md x n l s tapeI j r) ks acc = Ok v /\ forall k, v k = (acc k + sumL (dT j (N.to_nat k)) ks)%R.
Proof.
  intros j. induction ks as [|kk ks IH]; intros acc Hk; cbn [rfold sumL].
  - exists acc. split; [reflexivity|]. intro. lra.
  - pose proof (Hk kk (or_introl eq_refl)) as Hkk. pose proof (proj1 (r_t _ _ _ _ _ HR j kk) Hkk) as [(t & Ht) _].
    unfold viaTemporary at 1. rewrite (viaT_temp _ _ _ Ht). unfold dyi, dz. pose proof (r_e3 _ _ _ _ _ HR j kk t Hkk Ht) as He. apply mem_In in He. rewrite He.
    pose proof (v_tmps md _ _ HI n l tapeI row j kk Hn Hrow Hkk) as Hz. rewrite <- nEq_eq in Hz. apply mem_In in Hz. rewrite Hz. cbn [rbind].
    destruct (IH (fun it => (acc it + dF n tapeI t (tapeVars G absent md x n l (N.to_nat it)) * dG (nEq md + kk) j x)%R)) as (v & Ev & Hv). { intros k' H'. apply Hk. right. exact H'. }
    exists v. split; [exact Ev|]. intro k. rewrite Hv. unfold dT at 2. rewrite (viaT_temp _ _ _ Ht). unfold U. lra.
Qed.
Lemma nonIndexedResult_Ok : forall jp, In jp (nonIndexedPositions r) ->
  exists b, nonIndexedResult dF G dG absent md x py n l s tapeI r jp = Ok b /\ exists v, b = jacobianElement (snd jp) v /\ forall k, v k = ((dD (fst jp) (N.to_nat k) + sumL (dT (fst jp) (N.to_nat k)) (tks r (fst jp))) * py)%R.
Proof.
  intros [j p] Hj. cbn [fst snd]. unfold nonIndexedResult. cbn [fst snd].
  destruct (r_wn _ _ _ _ _ HR) as [K W]. pose proof (proj1 (mget_In j p _ K) Hj) as Hm. destruct (W j p Hm) as (_ & it & e & He).
  assert (Hp : pget (nonIndexedPositions r) j it = Some e) by (unfold pget; rewrite Hm, He; reflexivity). apply (r_n _ _ _ _ _ HR) in Hp. destruct Hp as [Hq _].
  set (d := match getNonIndexed l j with Some t => _ | None => _ end). assert (Hd : forall k, d k = dD j (N.to_nat k)).
  { intro k. unfold d, dD. destruct (getNonIndexed l j) as [t|] eqn:Et; [|reflexivity]. unfold dyi. destruct (mem t (loopEvalRow r)) eqn:Em; [unfold U; lra|].
    apply mem_nIn in Em. symmetry. apply (HdF n l tapeI row t _ Hn Hrow). intro Hi. apply Em. exact (r_e2 _ _ _ _ _ HR j t it e Et Hi Hq). }
  change (match mget j (tmpEvals r) with Some ks => ks | None => [] end) with (tks r j).
  destruct (temporaries_Ok j (tks r j) d (fun k H => H)) as (v & Ev & Hv). rewrite Ev. cbn [rbind]. eexists. split; [reflexivity|]. eexists. split; [reflexivity|]. intro k. cbn beta. rewrite Hv, Hd. lra.
Qed.
Lemma positions_valid : forall m jp v, wfpos (l_iters l) m -> In jp m -> valid V zeroV (iters (l_iters l)) (jacobianElement (snd jp) v).
Proof.
  intros m [j p] v [K W] Hj. cbn [snd]. pose proof (proj1 (mget_In j p _ K) Hj) as Hm. destruct (W j p Hm) as (E & it & e & He). unfold jacobianElement. rewrite E.
  destruct (g_iters md l Hl) as [G1 G2]. apply result_valid; auto.
  - intro H. pose proof (locsOf_at p 0 it) as A. rewrite H, He in A. discriminate.
  - apply locsOf_iters.
  - intros k Hk. apply locsOf_iters in Hk. lia.
Qed.

(** what the row adds at [e] in iteration [it] *)
Definition rowSum (it e : nat) : R :=
  (sumL (fun t => match pget (indexedPositions r) t it with Some e' => if e =? e' then dF n tapeI t (U n l it) else 0%R | None => 0%R end) (map fst (indexedPositions r))
   + sumL (fun j => match pget (nonIndexedPositions r) j it with Some e' => if e =? e' then (dD j it + sumL (dT j it) (tks r j))%R else 0%R | None => 0%R end) (map fst (nonIndexedPositions r)))%R.
Lemma contrib_element : forall m j p v it e, wfpos (l_iters l) m -> In (j, p) m -> 
  contrib (jacobianElement p v) (N.of_nat it) (N.of_nat e) = match pget m j it with Some e' => if e =? e' then v (N.of_nat it) else 0%R | None => 0%R end.
Proof.
  intros m j p v it e [K W] Hj. pose proof (proj1 (mget_In j p _ K) Hj) as Hm. unfold contrib, jacobianElement. pose proof (locsOf_at p 0 it) as A. rewrite N.add_0_l in A. rewrite A.
  unfold pget. rewrite Hm. destruct (nth_error p it) as [[e'|]|]; try reflexivity. destruct (N.of_nat e =? N.of_nat e')%N eqn:E1, (e =? e') eqn:E2; try reflexivity.
  - apply N.eqb_eq in E1. apply Nat.eqb_neq in E2. lia.
  - apply N.eqb_neq in E1. apply Nat.eqb_eq in E2. subst. congruence.
Qed.
Lemma rowResults_Ok : exists rs, rowResults dF G dG absent md x py n l s tapeI = Ok rs /\ Forall (valid V zeroV (iters (l_iters l))) rs /\ Forall (isResult 1) rs /\
  forall it e, sumL (fun q => contrib q (N.of_nat it) (N.of_nat e)) rs = (rowSum it e * py)%R.
Proof.
  unfold rowResults. fold r. destruct (rmap_Ok _ _ _ indexedResult_Ok) as (a & Ea & Ha). destruct (rmap_Ok _ _ _ nonIndexedResult_Ok) as (b & Eb & Hb). rewrite Ea. cbn [rbind]. rewrite Eb. cbn [rbind].
  exists (a ++ b). split; [reflexivity|].
  assert (Go : forall m (val : nat -> N -> R) bs, wfpos (l_iters l) m -> Forall2 (fun jp q => exists v, q = jacobianElement (snd jp) v /\ forall k, v k = val (fst jp) k) m bs ->
    Forall (valid V zeroV (iters (l_iters l))) bs /\ Forall (isResult 1) bs /\
    forall it e, sumL (fun q => contrib q (N.of_nat it) (N.of_nat e)) bs = sumL (fun j => match pget m j it with Some e' => if e =? e' then val j (N.of_nat it) else 0%R | None => 0%R end) (map fst m)).
  { intros m val bs W H2. assert (Hx : forall m' bs', incl m' m -> Forall2 (fun jp q => exists v, q = jacobianElement (snd jp) v /\ forall k, v k = val (fst jp) k) m' bs' ->
      Forall (valid V zeroV (iters (l_iters l))) bs' /\ Forall (isResult 1) bs' /\
      forall it e, sumL (fun q => contrib q (N.of_nat it) (N.of_nat e)) bs' = sumL (fun j => match pget m j it with Some e' => if e =? e' then val j (N.of_nat it) else 0%R | None => 0%R end) (map fst m')).
    { intros m' bs' Hi H. induction H as [|[j p] q m' bs' (v & -> & Hv) Hf IH]; [split; [constructor|split; [constructor|reflexivity]]|].
      cbn [fst snd] in *. destruct IH as (I1 & I2 & I3). { intros y Hy. apply Hi. right. exact Hy. }
      assert (Hin : In (j, p) m) by (apply Hi; left; reflexivity). split; [|split].
      - constructor; [exact (positions_valid m (j, p) v W Hin)|exact I1].
      - constructor; [|exact I2]. unfold isResult, jacobianElement. eauto.
      - intros it e. cbn [sumL map fst]. rewrite I3, (contrib_element m j p v it e W Hin), Hv. reflexivity. }
    exact (Hx m bs (incl_refl m) H2). }
  destruct (Go _ (fun t k => dF n tapeI t (U n l (N.to_nat k)) * py)%R a (r_wi _ _ _ _ _ HR) Ha) as (A1 & A2 & A3).
  destruct (Go _ (fun j k => (dD j (N.to_nat k) + sumL (dT j (N.to_nat k)) (tks r j)) * py)%R b (r_wn _ _ _ _ _ HR) Hb) as (B1 & B2 & B3).
  split; [apply Forall_app; auto|]. split; [apply Forall_app; auto|]. intros it e. rewrite sumL_app, A3, B3. unfold rowSum. rewrite Rmult_plus_distr_r.
  f_equal; rewrite <- sumL_scale; apply sumL_ext; intros j _; rewrite ?Nnat.Nat2N.id; [destruct (pget (indexedPositions r) j it) as [e'|]|destruct (pget (nonIndexedPositions r) j it) as [e'|]]; try destruct (e =? e'); lra.
Qed.

(** the row adds at [e] only what belongs to it *)
Lemma rowSum_zero : forall it e, (forall i j, In (e, (i, j)) P -> findLoop i (m_loops md) <> Some (n, (tapeI, it))) -> rowSum it e = 0%R.
Proof.
  intros it e Hf. unfold rowSum.
  assert (Hq : forall j' , ~ Req md P n tapeI it j' e).
  { intros j' (i' & Hi & Hf'). exact (Hf i' j' Hi Hf'). }
  rewrite !sumL_zero; [lra| |]; intros a _.
  - destruct (pget (nonIndexedPositions r) a it) as [e'|] eqn:E; [|reflexivity]. destruct (e =? e') eqn:E2; [|reflexivity]. apply Nat.eqb_eq in E2. subst e'. apply (r_n _ _ _ _ _ HR) in E. destruct (Hq a (proj1 E)).
  - destruct (pget (indexedPositions r) a it) as [e'|] eqn:E; [|reflexivity]. destruct (e =? e') eqn:E2; [|reflexivity]. apply Nat.eqb_eq in E2. subst e'. apply (r_i _ _ _ _ _ HR) in E.
    destruct E as (j' & Hj & _). destruct (Hq j' Hj).
Qed.
(** the derivative of the variables of the tape by [j] *)
Definition dsource (it j t : nat) : R :=
  match nth_error (sources l it) t with
  | Some (Some (XVar j')) => if j' =? j then 1%R else 0%R
  | Some (Some (ZTmp k)) => dG (eqCount md + k) j x
  | _ => 0%R
  end.
Definition nTape : nat := length (l_indexed l) + length (l_non l) + length (l_tmp l).
Lemma dsource_non : forall it j t, length (l_indexed l) <= t < length (l_indexed l) + length (l_non l) ->
  dsource it j t = match nth_error (l_non l) (t - length (l_indexed l)) with Some j' => if j' =? j then 1%R else 0%R | None => 0%R end.
Proof.
  intros it j t Ht. unfold dsource. pose proof (sources_non l it (t - length (l_indexed l))) as E. replace (length (l_indexed l) + (t - length (l_indexed l))) with t in E by lia.
  rewrite E by lia. destruct (nth_error (l_non l) (t - length (l_indexed l))); reflexivity.
Qed.
Lemma dsource_tmp : forall it j t, length (l_indexed l) + length (l_non l) <= t ->
  dsource it j t = match nth_error (l_tmp l) (t - length (l_indexed l) - length (l_non l)) with Some k => dG (eqCount md + k) j x | None => 0%R end.
Proof.
  intros it j t Ht. unfold dsource. pose proof (sources_tmp l it (t - length (l_indexed l) - length (l_non l))) as E.
  replace (length (l_indexed l) + length (l_non l) + (t - length (l_indexed l) - length (l_non l))) with t in E by lia.
  rewrite E. destruct (nth_error (l_tmp l) (t - length (l_indexed l) - length (l_non l))); reflexivity.
Qed.
Lemma rowSum_total : forall it e i j, In (e, (i, j)) P -> findLoop i (m_loops md) = Some (n, (tapeI, it)) ->
  (forall i' j', In (e, (i', j')) P -> findLoop i' (m_loops md) = Some (n, (tapeI, it)) -> j' = j) ->
  rowSum it e = sumL (fun t => dF n tapeI t (U n l it) * dsource it j t)%R (seq 0 nTape).
Proof.
  intros it e i j He Hf Hu. pose proof Hl as Gl. pose proof HR as R0. set (D := fun t => dF n tapeI t (U n l it)).
  assert (Hreq : forall j', Req md P n tapeI it j' e <-> j' = j).
  { intro j'. split; [intros (i' & Hi & Hf'); exact (Hu i' j' Hi Hf')|]. intros ->. exists i. split; [exact He|exact Hf]. }
  assert (Dz : forall t, ~ In t row -> D t = 0%R) by (intros t Ht; exact (HdF n l tapeI row t _ Hn Hrow Ht)).
  unfold nTape. rewrite !seq_app, !sumL_app. cbn [plus]. unfold rowSum. rewrite Rplus_assoc. f_equal.
  - (* indexed variables *)
    assert (Hpos : forall t, pget (indexedPositions r) t it = Some e <-> entry (l_indexed l) t it = Some j /\ In t row).
    { intro t. rewrite (r_i _ _ _ _ _ R0). split; [intros (j' & Hj & H1 & H2); apply Hreq in Hj; subst; auto|intros [H1 H2]; exists j; rewrite Hreq; auto]. }
    transitivity (sumL (fun t => if isEq e (pget (indexedPositions r) t it) then D t else 0%R) (map fst (indexedPositions r))).
    { apply sumL_ext. intros t _. destruct (pget (indexedPositions r) t it); reflexivity. }
    transitivity (sumL (fun t => if isEq e (pget (indexedPositions r) t it) then D t else 0%R) (seq 0 (length (l_indexed l)))).
    + apply sumL_support; [apply sorted_NoDup, (r_wi _ _ _ _ _ R0)|apply seq_NoDup| |]; intros t Ht Hx; destruct (isEq e (pget (indexedPositions r) t it)) eqn:E; try congruence; apply isEq_iff in E.
      * apply Hpos in E. destruct E as [E _]. apply entry_Some in E. destruct E as (rw & E & _). apply in_seq. split; [lia|]. apply nth_error_Some. congruence.
      * unfold pget in E. destruct (mget t (indexedPositions r)) as [p|] eqn:Em; [|discriminate]. apply (in_map fst _ (t, p)). apply mget_In; [apply (r_wi _ _ _ _ _ R0)|exact Em].
    + apply sumL_ext. intros t Ht. apply in_seq in Ht. fold (D t). unfold dsource. destruct (isEq e (pget (indexedPositions r) t it)) eqn:E.
      * apply isEq_iff, Hpos in E. destruct E as [E _]. apply (sources_indexed l it t j) in E; [|lia]. rewrite E, Nat.eqb_refl. lra.
      * assert (Hno : ~ (entry (l_indexed l) t it = Some j /\ In t row)) by (rewrite <- Hpos, <- isEq_iff; congruence).
        destruct (in_dec Nat.eq_dec t row) as [Hr|Hr]; [|rewrite (Dz t Hr); lra].
        destruct (nth_error (sources l it) t) as [[[j'|k]|]|] eqn:Es; try lra.
        -- destruct (j' =? j) eqn:Ej; [|lra]. apply Nat.eqb_eq in Ej. subst j'. exfalso. apply Hno. split; [|exact Hr]. apply sources_indexed in Es; [exact Es|lia].
        -- exfalso. unfold sources in Es. rewrite nth_error_app1 in Es by (rewrite map_length; lia). rewrite nth_error_map in Es. destruct (nth_error (l_indexed l) t) as [rw|]; [|discriminate].
           cbn in Es. destruct (nth_error rw it) as [[?|]|]; discriminate.
  - (* non-indexed variables and temporaries *)
    set (nI := length (l_indexed l)). set (nN := length (l_non l)).
    assert (Hpos : forall j', pget (nonIndexedPositions r) j' it = Some e <-> j' = j /\ (direct l row j \/ exists k, via md l row j k)).
    { intro j'. rewrite (r_n _ _ _ _ _ R0), Hreq. split; intros [-> H]; auto. }
    assert (ED : dD j it = sumL (fun t => D t * dsource it j t)%R (seq nI nN)).
    { unfold dD. destruct (getNonIndexed l j) as [t|] eqn:Et.
      - apply (getNonIndexed_iff md l Gl) in Et. fold nI nN in Et. destruct Et as [Ht Et].
        rewrite (sumL_single _ _ t (seq_NoDup _ _)); [|apply in_seq; lia|].
        + rewrite dsource_non by (fold nI nN; lia). fold nI. rewrite Et, Nat.eqb_refl. unfold D. lra.
        + intros t' Ht' Hne. apply in_seq in Ht'. rewrite dsource_non by (fold nI nN; lia). fold nI.
          destruct (nth_error (l_non l) (t' - nI)) as [j'|] eqn:Ej; [|lra]. destruct (j' =? j) eqn:Ejj; [|lra]. apply Nat.eqb_eq in Ejj. subst j'. exfalso. apply Hne.
          assert (t' - nI = t - nI); [|lia]. eapply NoDup_nth_error; [exact (g_non md l Gl)| |congruence]. apply nth_error_Some. congruence.
      - symmetry. apply sumL_zero. intros t' Ht'. apply in_seq in Ht'. rewrite dsource_non by (fold nI nN; lia). fold nI.
        destruct (nth_error (l_non l) (t' - nI)) as [j'|] eqn:Ej; [|lra]. destruct (j' =? j) eqn:Ejj; [|lra]. apply Nat.eqb_eq in Ejj. subst j'.
        assert (Hc : getNonIndexed l j = Some t') by (apply (getNonIndexed_iff md l Gl); fold nI nN; split; [lia|exact Ej]). congruence. }
    assert (Tin : forall k, In k (l_tmp l) -> exists t, getTemp l k = Some t /\ nI + nN <= t /\ nth_error (l_tmp l) (t - nI - nN) = Some k).
    { intros k Hk. apply In_nth_error in Hk. destruct Hk as (q & Hq). exists (nI + nN + q). assert (Hs : nth_error (l_tmp l) (nI + nN + q - nI - nN) = Some k) by (replace (nI + nN + q - nI - nN) with q by lia; exact Hq).
      split; [apply (getTemp_iff md l Gl); fold nI nN; split; [lia|exact Hs]|]. split; [lia|exact Hs]. }
    assert (ET : sumL (dT j it) (l_tmp l) = sumL (fun t => D t * dsource it j t)%R (seq (nI + nN) (length (l_tmp l)))).
    { pose (kf := fun t => match nth_error (l_tmp l) (t - nI - nN) with Some k => k | None => 0 end). assert (Hm : map kf (seq (nI + nN) (length (l_tmp l))) = l_tmp l).
      { apply (nth_ext _ _ 0 0); [rewrite map_length, seq_length; reflexivity|]. intros q Hq. rewrite map_length, seq_length in Hq.
        rewrite (nth_indep _ 0 (kf 0)) by (rewrite map_length, seq_length; exact Hq).
        rewrite map_nth, seq_nth by exact Hq. unfold kf. replace (nI + nN + q - nI - nN) with q by lia. rewrite (nth_error_nth' _ 0 Hq). reflexivity. }
      rewrite <- Hm at 1. rewrite sumL_map. apply sumL_ext. unfold kf. intros t Ht. apply in_seq in Ht. rewrite dsource_tmp by (fold nI nN; lia). fold nI nN.
      destruct (nth_error (l_tmp l) (t - nI - nN)) as [k|] eqn:Ek; [|apply nth_error_None in Ek; lia]. unfold dT. rewrite (proj2 (getTemp_iff md l Gl k t)); [reflexivity|]. fold nI nN. split; [lia|exact Ek]. }
    assert (Tz : forall k, In k (l_tmp l) -> dT j it k <> 0%R -> via md l row j k).
    { intros k Hk Hne. destruct (Tin k Hk) as (t & H1 & H2 & H3). exists t. split.
      - destruct (in_dec Nat.eq_dec t row) as [Hr|Hr]; [exact Hr|]. exfalso. apply Hne. unfold dT. rewrite H1. fold (D t). rewrite (Dz t Hr). lra.
      - split; [exact H2|]. split; [exact H3|]. destruct (g_temps md l Gl k Hk) as (f & Hff & Hlt). destruct (nth_error (f_row f) (length (f_eqs f) + k)) as [sp|] eqn:Es; [|apply nth_error_None in Es; lia].
        exists f, sp. split; [exact Hff|]. split; [exact Es|]. destruct (in_dec Nat.eq_dec j sp) as [Hj|Hj]; [exact Hj|]. exfalso. apply Hne. unfold dT. rewrite H1. unfold nEq. rewrite Hff, (HdG f _ sp j Hff Es Hj). lra. }
    assert (Htk : forall k, In k (tks r j) <-> via md l row j k).
    { intro k. rewrite (r_t _ _ _ _ _ R0). split; [tauto|]. intro H. split; [exact H|]. exists it, e. apply Hreq. reflexivity. }
    assert (Hvt : forall k, via md l row j k -> In k (l_tmp l)) by (intros k (t & _ & _ & Hk & _); exact (nth_error_In _ _ Hk)).
    assert (ES : sumL (dT j it) (tks r j) = sumL (dT j it) (l_tmp l)).
    { apply sumL_support; [apply sorted_NoDup, (r_ts _ _ _ _ _ R0)|exact (g_tmp md l Gl)| |].
      - intros k Hk _. apply Hvt, Htk, Hk.
      - intros k Hk Hne. apply Htk. exact (Tz k Hk Hne). }
    change (fun t => (dF n tapeI t (U n l it) * dsource it j t)%R) with (fun t => (D t * dsource it j t)%R). rewrite <- ED, <- ET, <- ES.
    set (g := fun j' => match pget (nonIndexedPositions r) j' it with Some e' => if e =? e' then (dD j' it + sumL (dT j' it) (tks r j'))%R else 0%R | None => 0%R end).
    assert (Hgz : forall j', j' <> j -> g j' = 0%R).
    { intros j' Hj'. unfold g. destruct (pget (nonIndexedPositions r) j' it) as [e'|] eqn:E; [|reflexivity]. destruct (e =? e') eqn:E2; [|reflexivity]. apply Nat.eqb_eq in E2. subst e'. apply Hpos in E. tauto. }
    destruct (pget (nonIndexedPositions r) j it) as [e'|] eqn:Ep.
    + assert (e' = e). { pose proof Ep as Ep2. apply (r_n _ _ _ _ _ R0) in Ep2. assert (pget (nonIndexedPositions r) j it = Some e) by (apply Hpos; tauto). congruence. } subst e'.
      rewrite (sumL_single g _ j).
      * unfold g. rewrite Ep, Nat.eqb_refl. reflexivity.
      * apply sorted_NoDup, (r_wn _ _ _ _ _ R0).
      * unfold pget in Ep. destruct (mget j (nonIndexedPositions r)) as [p|] eqn:Em; [|discriminate]. apply (in_map fst _ (j, p)). apply mget_In; [apply (r_wn _ _ _ _ _ R0)|exact Em].
      * intros b _ Hb. exact (Hgz b Hb).
    + assert (Hno : ~ (direct l row j \/ exists k, via md l row j k)). { intro H. assert (pget (nonIndexedPositions r) j it = Some e) by (apply Hpos; auto). congruence. }
      rewrite (sumL_zero g).
      * assert (dD j it = 0%R) as ->. { unfold dD. destruct (getNonIndexed l j) as [t|] eqn:Et; [|reflexivity]. apply (Dz t). intro Hr. apply Hno. left. exists t. auto. }
        destruct (tks r j) as [|k ks] eqn:Ek; [cbn [sumL]; lra|]. exfalso. apply Hno. right. exists k. apply Htk. left. reflexivity.
      * intros j' _. destruct (Nat.eq_dec j' j) as [->|Hne]; [unfold g; rewrite Ep; reflexivity|exact (Hgz j' Hne)].
Qed.
End Row.
End Main.

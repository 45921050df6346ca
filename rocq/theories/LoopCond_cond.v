(** * The ranges made for a set of iterations hold for these iterations *)
From Coq Require Import List Bool Arith NArith ZArith Sorted Lia.
From Verif Require Import Range_model Range_spec LoopCond_model LoopCond_spec.
Import ListNotations.
Local Open Scope N_scope.

Lemma iput_in k b l : StronglySorted N.lt (map fst l) ->
  StronglySorted N.lt (map fst (iput k b l)) /\ forall k' b', In (k', b') (iput k b l) <-> (k' = k /\ b' = b) \/ (k' <> k /\ In (k', b') l).
Proof.
  induction l as [|[k1 b1] l IH]; intros HS; cbn [iput map fst] in *.
  - split; [repeat constructor|]. intros k' b'. cbn [In]. split.
    + intros [E|[]]. injection E as <- <-. left. auto.
    + intros [[-> ->]|[_ []]]. left. reflexivity.
  - inversion HS as [|? ? HS1 HF]; subst. destruct (N.ltb_spec k k1).
    + split.
      * cbn [map fst]. constructor; [exact HS|]. constructor; [exact H|]. eapply Forall_impl; [|exact HF]. cbn. intros. lia.
      * intros k' b'. cbn [In]. split.
        -- intros [E|[E|I]]; [injection E as <- <-; left; auto|injection E as <- <-; right; split; [lia|left; reflexivity]|].
           right. split; [|right; exact I]. apply (in_map fst) in I. cbn [fst] in I. rewrite Forall_forall in HF. specialize (HF _ I). lia.
        -- intros [[-> ->]|[_ [E|I]]]; auto.
    + destruct (N.eqb_spec k k1) as [->|Hne].
      * split; [cbn [map fst]; constructor; assumption|]. intros k' b'. cbn [In]. split.
        -- intros [E|I]; [injection E as <- <-; left; auto|]. right. split; [|right; exact I].
           apply (in_map fst) in I. cbn [fst] in I. rewrite Forall_forall in HF. specialize (HF _ I). lia.
        -- intros [[-> ->]|[Hk [E|I]]]; [left; reflexivity|injection E as <- <-; congruence|right; exact I].
      * destruct (IH HS1) as [I1 I2]. split.
        -- cbn [map fst]. constructor; [exact I1|]. rewrite Forall_forall in HF |- *. intros x Hx. apply in_map_iff in Hx.
           destruct Hx as ([x' bx] & <- & Hx). cbn [fst]. apply I2 in Hx. destruct Hx as [[-> _]|[_ Hx]]; [lia|].
           apply (in_map fst) in Hx. exact (HF _ Hx).
        -- intros k' b'. cbn [In]. rewrite I2. split.
           ++ intros [E|[[-> ->]|[Hk I]]]; [injection E as <- <-; right; split; [congruence|left; reflexivity]|left; auto|right; split; [exact Hk|right; exact I]].
           ++ intros [[-> ->]|[Hk [E|I]]]; auto.
Qed.
Lemma iputs_in b ks : forall l, StronglySorted N.lt (map fst l) ->
  let r := fold_left (fun m k => iput k b m) ks l in
  StronglySorted N.lt (map fst r) /\ forall k' b', In (k', b') r <-> (In k' ks /\ b' = b) \/ (~ In k' ks /\ In (k', b') l).
Proof.
  induction ks as [|k ks IH]; intros l HS; cbn [fold_left].
  - split; [exact HS|]. intros. cbn [In]. tauto.
  - destruct (iput_in k b l HS) as [H1 H2]. destruct (IH _ H1) as [H3 H4]. split; [exact H3|].
    intros k' b'. rewrite H4, H2. cbn [In]. destruct (N.eq_dec k' k) as [->|Hn].
    + destruct (in_dec N.eq_dec k ks); [|]; intuition congruence.
    + intuition congruence.
Qed.
Lemma allIters_in its used : StronglySorted N.lt (map fst (allIters its used)) /\
  forall k b, In (k, b) (allIters its used) <-> (In k its /\ b = true) \/ (~ In k its /\ In k used /\ b = false).
Proof.
  destruct (iputs_in false used [] (SSorted_nil _)) as [H1 H2]. destruct (iputs_in true its _ H1) as [H3 H4].
  split; [exact H3|]. intros k b. unfold allIters. rewrite H4, H2. cbn [In]. tauto.
Qed.

Section Runs.
Variable maxIter : N.
Variables A D : N -> Prop.                     (* the iterations of the condition; all the iterations in the map *)
Hypothesis Hmax : maxIter < SIZE_MAX.
Hypothesis HAD : forall k, A k -> D k.
Hypothesis HDm : forall k, D k -> k <= maxIter.

Definition state (mn mx : N) (new : option (N * N)) : Prop :=
  mn <= mx /\ (forall k, mn <= k <= mx -> D k) /\
  match new with
  | None => forall k, mn <= k <= mx -> ~ A k
  | Some (a, b) => mn <= a /\ a <= b /\ b <= mx /\ A a /\ A b /\ forall k, mn <= k <= mx -> A k -> a <= k <= b
  end.
(** [out lo l]: valid, ordered, and all start at or after [lo] *)
Fixpoint out (lo : N) (l : list N) : Prop :=
  match l with [] => True | [_] => False | a :: b :: r => lo <= a /\ a <= b /\ b <= SIZE_MAX /\ (r = [] \/ b < SIZE_MAX /\ out (b + 1) r) end.
Lemma out_ok lo l : out lo l -> valid_ranges l /\ disjoint_ranges l.
Proof.
  revert lo. assert (H : forall n l, (length l <= n)%nat -> forall lo, out lo l -> valid_ranges l /\ disjoint_ranges l).
  { induction n as [|n IH]; intros [|a [|b r]] Hl lo; cbn [out valid_ranges disjoint_ranges length] in *; try tauto; try lia.
    intros (H1 & H2 & H3 & H4). destruct H4 as [->|[H4 H5]]; [cbn; tauto|].
    destruct (IH r ltac:(lia) _ H5) as [I1 I2]. repeat (split; try assumption). destruct r as [|c r]; [exact I|]. destruct r as [|d r]; [destruct H5|]. cbn [out] in H5. lia. }
  intros lo. exact (H (length l) l (le_n _) lo).
Qed.
Lemma out_weaken lo lo' l : lo' <= lo -> out lo l -> out lo' l.
Proof. destruct l as [|a [|b r]]; cbn [out]; auto. intros H (H1 & H2). split; [lia|exact H2]. Qed.

Lemma emit_spec mn mx new : state mn mx new ->
  match emit maxIter mn mx new with
  | [] => forall k, mn <= k <= mx -> ~ A k
  | [a; b] => mn <= a /\ a <= b /\ (b <= mx \/ mx = maxIter /\ b = SIZE_MAX) /\
      forall k, k <= maxIter -> (A k \/ ~ D k) -> (a <= k <= b <-> A k /\ mn <= k <= mx)
  | _ => False
  end.
Proof.
  intros (H1 & H2 & H3). unfold emit. destruct new as [[a b]|]; [|exact H3]. destruct H3 as (H3 & H4 & H5 & Aa & Ab & H6).
  destruct (N.eqb_spec b a) as [->|Hne].
  - repeat split; try lia.
    + assert (k = a) as -> by lia. exact Aa.
    + intros. destruct H7. assert (a <= k <= a) by (apply H6; [lia|assumption]). lia.
    + intros. destruct H7. assert (a <= k <= a) by (apply H6; [lia|assumption]). lia.
  - destruct (N.eqb_spec mn 0) as [->|Hm0]; destruct (N.eqb_spec mx maxIter) as [->|Hmx]; (split; [lia|]); (split; [lia|]); (split; [lia|]); intros k Hk Hor; split.
    all: try (intros [HA HB]; specialize (H6 k HB HA); lia).
    all: intros HB; split; [|lia]; destruct Hor as [Ha|Hd]; [exact Ha|exfalso; apply Hd, H2; lia].
Qed.

Lemma runs_spec l : forall mn mx new, state mn mx new -> StronglySorted N.lt (map fst l) ->
  (forall k b, In (k, b) l -> mx < k /\ D k /\ (b = true <-> A k)) ->
  (forall k, D k -> mx < k -> exists b, In (k, b) l) ->
  out mn (runs maxIter l mn mx new) /\
  forall k, k <= maxIter -> (A k \/ ~ D k) -> (In_ranges k (runs maxIter l mn mx new) <-> A k /\ mn <= k).
Proof.
  induction l as [|[k b] l IH]; intros mn mx new HS Hs Hl Hr; cbn [runs].
  - pose proof (emit_spec mn mx new HS) as HE. assert (Hmx : mx <= maxIter) by (destruct HS as (H1 & H2 & _); apply HDm, H2; lia).
    assert (Hup : forall k, A k -> k <= mx).
    { intros k Ak. destruct (N.le_gt_cases k mx); [assumption|]. destruct (Hr k (HAD k Ak) H) as (? & []). }
    destruct (emit maxIter mn mx new) as [|a [|b [|? ?]]]; try contradiction.
    + split; [exact I|]. intros k _ _. cbn [In_ranges]. split; [tauto|]. intros [Ak Hk]. apply (HE k); [|exact Ak]. specialize (Hup k Ak). lia.
    + destruct HE as (E1 & E2 & E3 & E4). split.
      * cbn [out]. repeat split; try lia. left. reflexivity.
      * intros k Hk Ho. cbn [In_ranges]. rewrite (E4 k Hk Ho). split; [tauto|]. intros [Ak Hk2]. left. split; [exact Ak|]. specialize (Hup k Ak). lia.
  - inversion Hs as [|? ? Hs1 HF]; subst. destruct (Hl k b (or_introl eq_refl)) as (K1 & K2 & K3).
    assert (Hmx : mx < maxIter) by (specialize (HDm k K2); lia).
    assert (Hl' : forall k0 b0, In (k0, b0) l -> k < k0 /\ D k0 /\ (b0 = true <-> A k0)).
    { intros k0 b0 I0. split; [|apply Hl; right; exact I0]. rewrite Forall_forall in HF. exact (HF _ (in_map fst _ _ I0)). }
    assert (Hr' : forall k0, D k0 -> k < k0 -> exists b0, In (k0, b0) l).
    { intros k0 D0 Hk0. destruct (Hr k0 D0 ltac:(lia)) as (b0 & [E|I0]); [injection E as <- _; lia|]. exists b0. exact I0. }
    assert (Hgap : forall k0, D k0 -> mx < k0 -> k <= k0).
    { intros k0 D0 H0. destruct (Hr k0 D0 H0) as (b0 & [E|I0]); [injection E as <- _; lia|]. specialize (Hl' _ _ I0). lia. }
    assert (Ew : wadd mx 1 = mx + 1). { unfold wadd. apply N.mod_small. lia. }
    rewrite Ew. destruct (N.eqb_spec k (mx + 1)) as [->|Hne].
    + assert (HS' : state mn (mx + 1) (seen (mx + 1) b new)).
      { destruct HS as (S1 & S2 & S3). split; [lia|]. split; [intros k Hk; destruct (N.eq_dec k (mx + 1)) as [->|]; [exact K2|apply S2; lia]|].
        unfold seen. destruct b.
        - destruct new as [[a b]|].
          + destruct S3 as (T1 & T2 & T3 & T4 & T5 & T6). repeat split; try lia; try assumption; try (apply K3; reflexivity).
            * destruct (N.eq_dec k (mx + 1)) as [->|]; [lia|apply (T6 k); [lia|assumption]].
          + repeat split; try lia; try (apply K3; reflexivity). destruct (N.eq_dec k (mx + 1)) as [->|]; [lia|]. exfalso. apply (S3 k); [lia|assumption].
        - assert (HN : ~ A (mx + 1)) by (intros HA; apply K3 in HA; discriminate).
          destruct new as [[a b]|].
          + destruct S3 as (T1 & T2 & T3 & T4 & T5 & T6). repeat split; try lia; try assumption.
            * destruct (N.eq_dec k (mx + 1)) as [->|]; [contradiction|apply (T6 k); [lia|assumption]].
            * destruct (N.eq_dec k (mx + 1)) as [->|]; [contradiction|apply (T6 k); [lia|assumption]].
          + intros k Hk HA. destruct (N.eq_dec k (mx + 1)) as [->|]; [contradiction|apply (S3 k); [lia|assumption]]. }
      exact (IH mn (mx + 1) _ HS' Hs1 Hl' Hr').
    + assert (HS' : state k k (seen k b None)).
      { split; [lia|]. split; [intros k0 Hk; assert (k0 = k) as -> by lia; exact K2|]. unfold seen. destruct b.
        - repeat split; try lia; apply K3; reflexivity.
        - intros k0 Hk HA. assert (k0 = k) as -> by lia. apply K3 in HA. discriminate. }
      destruct (IH k k _ HS' Hs1 Hl' Hr') as [I1 I2]. set (rest := runs maxIter l k k (seen k b None)) in *.
      pose proof (emit_spec mn mx new HS) as HE. assert (Hmn : mn <= mx) by apply HS.
      assert (Hb : forall k0, A k0 -> mn <= k0 -> mn <= k0 <= mx \/ k <= k0).
      { intros k0 HA Hk0. destruct (N.le_gt_cases k0 mx); [left; lia|right; apply Hgap; auto]. }
      destruct (emit maxIter mn mx new) as [|a [|e [|? ?]]]; try contradiction; cbn [app].
      * split; [apply (out_weaken k); [lia|exact I1]|]. intros k0 Hk Ho. rewrite (I2 k0 Hk Ho). split; [intros [HA Hk0]; split; [exact HA|lia]|].
        intros [HA Hk0]. split; [exact HA|]. destruct (Hb k0 HA Hk0) as [Hc|]; [|assumption]. destruct (HE k0 Hc HA).
      * destruct HE as (E1 & E2 & E3 & E4). destruct E3 as [E3|[E3 _]]; [|lia]. split.
        -- cbn [out]. repeat split; try lia. right. split; [lia|]. apply (out_weaken k); [lia|exact I1].
        -- intros k0 Hk Ho. cbn [In_ranges]. rewrite (I2 k0 Hk Ho), (E4 k0 Hk Ho). split.
           ++ intros [[HA Hk0]|[HA Hk0]]; (split; [exact HA|lia]).
           ++ intros [HA Hk0]. destruct (Hb k0 HA Hk0); [left|right]; split; assumption.
Qed.
End Runs.

Lemma cond_spec its used mx : its <> [] -> mx < SIZE_MAX -> (forall k, In k its \/ In k used -> k <= mx) ->
  let c := createIndexConditionExpression its used mx in
  c <> [] /\ valid_ranges c /\ disjoint_ranges c /\ forall k, k <= mx -> ~ In k used \/ In k its -> (In_ranges k c <-> In k its).
Proof.
  intros Hne Hmx Hb. unfold createIndexConditionExpression. destruct (allIters_in its used) as [HS HI].
  set (A := fun k => In k its). set (D := fun k => In k its \/ In k used).
  assert (Hd : forall k, D k <-> exists b, In (k, b) (allIters its used)).
  { intros k. unfold D. split.
    - intros [I|I]; [exists true; apply HI; auto|]. destruct (in_dec N.eq_dec k its); [exists true|exists false]; apply HI; auto.
    - intros (b & I). apply HI in I. tauto. }
  destruct (allIters its used) as [|[k0 b0] l] eqn:E.
  - exfalso. destruct its as [|i its]; [contradiction|]. destruct (proj1 (Hd i)) as (b & []). left. left. reflexivity.
  - cbn [map fst] in HS. inversion HS as [|? ? HS1 HF]; subst.
    assert (Hk0 : D k0) by (apply Hd; exists b0; left; reflexivity).
    assert (HA0 : b0 = true <-> A k0).
    { pose proof (proj1 (HI k0 b0) (or_introl eq_refl)) as H0. unfold A. destruct H0 as [[? ->]|(? & ? & ->)]; split; auto; try discriminate; tauto. }
    assert (Hst : state A D k0 k0 (seen k0 b0 None)).
    { split; [lia|]. split; [intros k Hk; assert (k = k0) as -> by lia; exact Hk0|]. unfold seen. destruct b0.
      - repeat split; try lia; apply HA0; reflexivity.
      - intros k Hk HAk. assert (k = k0) as -> by lia. apply HA0 in HAk. discriminate. }
    destruct (runs_spec mx A D Hmx ltac:(intros k H; left; exact H) Hb l k0 k0 _ Hst HS1) as [H1 H2].
    + intros k b I. split; [rewrite Forall_forall in HF; exact (HF _ (in_map fst _ _ I))|]. split; [apply Hd; exists b; right; exact I|].
      pose proof (proj1 (HI k b) (or_intror I)) as H0. unfold A. destruct H0 as [[? ->]|(? & ? & ->)]; split; auto; try discriminate; tauto.
    + intros k Dk Hk. apply Hd in Dk. destruct Dk as (b & [Ek|I]); [injection Ek as <- _; lia|]. exists b. exact I.
    + destruct (out_ok mx Hmx _ _ H1) as [V1 V2]. cbv zeta. set (c := runs mx l k0 k0 (seen k0 b0 None)) in *.
      assert (Hlow : forall k, A k -> k0 <= k).
      { intros k Ak. assert (Dk : D k) by (left; exact Ak). apply Hd in Dk. destruct Dk as (b & [Ek|I]); [injection Ek as <- _; lia|].
        rewrite Forall_forall in HF. specialize (HF _ (in_map fst _ _ I)). cbn [fst] in HF. lia. }
      assert (H3 : forall k, k <= mx -> ~ In k used \/ In k its -> (In_ranges k c <-> In k its)).
      { intros k Hk Hu. rewrite (H2 k Hk); [split; [intros [Ak _]; exact Ak|intros Ak; split; [exact Ak|exact (Hlow k Ak)]]|].
        unfold A, D. destruct (in_dec N.eq_dec k its); [left; assumption|right; tauto]. }
      split; [|split; [exact V1|split; [exact V2|exact H3]]].
      intros Ec. destruct its as [|i its]; [contradiction|]. assert (Hin : In_ranges i c) by (apply H3; [apply Hb; left; left; reflexivity|right; left; reflexivity|left; reflexivity]).
      rewrite Ec in Hin. exact Hin.
Qed.

(** * Lemmas about iteration ranges *)
From Coq Require Import List Arith NArith Lia Bool Sorting.Sorted ZifyBool ZifyN.
From Verif Require Import CSyntax CSyntax_proofs Range_model Range_spec.
Import ListNotations.
Local Open Scope N_scope.

Lemma wadd_small a b : a + b <= SIZE_MAX -> wadd a b = a + b.
Proof. intros H. unfold wadd. apply N.mod_small. unfold SIZE_MAX in *. lia. Qed.
Lemma wsub_small a b : b <= a -> a <= SIZE_MAX -> wsub a b = a - b.
Proof.
  intros H1 H2. unfold wsub.
  replace (a + (SIZE_MAX + 1) - b) with ((a - b) + 1 * (SIZE_MAX + 1)) by (unfold SIZE_MAX in *; lia).
  rewrite N.mod_add by (unfold SIZE_MAX; lia). apply N.mod_small. unfold SIZE_MAX in *; lia.
Qed.
Lemma wsub_big a b : a < b -> b <= SIZE_MAX -> wsub a b = a + (SIZE_MAX + 1) - b.
Proof. intros H1 H2. unfold wsub. apply N.mod_small. unfold SIZE_MAX in *; lia. Qed.

(** ** pairs *)
Definition Inp (k : N) (l : list (N * N)) : Prop := exists p, In p l /\ fst p <= k /\ k <= snd p.
Definition vp (p : N * N) : Prop := fst p <= snd p /\ snd p <= SIZE_MAX.
Definition lep (p q : N * N) : Prop := fst p < fst q \/ (fst p = fst q /\ snd p <= snd q).

Lemma Inp_cons k p l : Inp k (p :: l) <-> (fst p <= k /\ k <= snd p) \/ Inp k l.
Proof.
  unfold Inp. split.
  - intros [q [[E|H] Hq]]; [subst; auto | right; eauto].
  - intros [H|[q [H Hq]]]; [exists p; simpl; auto | exists q; simpl; auto].
Qed.

Lemma to_from p : to_pairs (from_pairs p) = Some p.
Proof. induction p as [|[a b] p IH]; simpl; [reflexivity|]. rewrite IH. reflexivity. Qed.

Lemma pairs_ind2 (Q : list N -> Prop) : Q [] -> (forall a, Q [a]) -> (forall a b l, Q l -> Q (a :: b :: l)) -> forall l, Q l.
Proof.
  intros H0 H1 H2 l. assert (H : Q l /\ forall a, Q (a :: l)); [|tauto].
  induction l as [|x l [IH1 IH2]]; [auto|]. split; [apply IH2|]. intros a. apply H2, IH1.
Qed.

Lemma to_pairs_valid l : valid_ranges l -> exists p, to_pairs l = Some p /\ Forall vp p /\ l = from_pairs p.
Proof.
  revert l. apply (pairs_ind2 (fun l => valid_ranges l -> exists p, to_pairs l = Some p /\ Forall vp p /\ l = from_pairs p)).
  - intros _. exists []. repeat split; constructor.
  - intros a [].
  - intros a b l IH [H1 [H2 H3]]. destruct (IH H3) as [p [E [F G]]]. exists ((a, b) :: p). simpl. rewrite E.
    repeat split; [constructor; [unfold vp; simpl; auto|exact F] | subst; reflexivity].
Qed.

Lemma In_from_pairs k p : In_ranges k (from_pairs p) <-> Inp k p.
Proof.
  induction p as [|[a b] p IH]; simpl.
  - split; [tauto|]. intros [q [[] _]].
  - rewrite Inp_cons, IH. simpl. tauto.
Qed.

Lemma valid_from_pairs p : valid_ranges (from_pairs p) <-> Forall vp p.
Proof.
  induction p as [|[a b] p IH]; simpl; [split; [constructor|trivial]|].
  rewrite IH. split.
  - intros [H1 [H2 H3]]. constructor; [split; simpl; auto|auto].
  - intros H. inversion H; subst. destruct H2 as [H2 H2']. simpl in *. auto.
Qed.

Lemma lep_trans p q r : lep p q -> lep q r -> lep p r.
Proof. unfold lep. lia. Qed.

Lemma ordered_from_pairs p : ordered_ranges (from_pairs p) -> StronglySorted lep p.
Proof.
  intros H. apply Sorted_StronglySorted; [exact lep_trans|].
  induction p as [|[a b] p IH]; [constructor|].
  simpl in H. destruct H as [H1 H2]. constructor; [apply IH; exact H2|].
  destruct p as [|[c d] p]; constructor. unfold lep; simpl in *. exact H1.
Qed.

(** ** insertion *)
Lemma pair_ltb_spec x p : pair_ltb x p = true <-> ~ lep p x.
Proof. unfold pair_ltb, lep. rewrite orb_true_iff, andb_true_iff, !N.ltb_lt, N.eqb_eq. lia. Qed.

Lemma lower_bound_p_spec p l : StronglySorted lep l ->
  let (a, b) := lower_bound_p p l in
  l = a ++ b /\ Forall (fun x => lep x p) a /\ Forall (lep p) b.
Proof.
  induction l as [|x l IH]; intros Hs; simpl.
  - repeat split; constructor.
  - inversion Hs as [|? ? Hs' Hx]; subst. destruct (pair_ltb x p) eqn:E.
    + specialize (IH Hs'). destruct (lower_bound_p p l) as [a b]. destruct IH as [E1 [F1 F2]].
      apply pair_ltb_spec in E.
      repeat split; [simpl; congruence| |exact F2]. constructor; [unfold lep in *; lia|exact F1].
    + assert (Hp : lep p x). { destruct (pair_ltb_spec x p) as [_ H]. unfold lep in *.
        rewrite E in H. destruct (N.lt_ge_cases (fst p) (fst x)); [lia|]. 
        destruct (N.eq_dec (fst p) (fst x)); [|exfalso; assert (false = true) by (apply H; lia); discriminate].
        destruct (N.le_gt_cases (snd p) (snd x)); [lia|]. exfalso; assert (false = true) by (apply H; lia); discriminate. }
      repeat split; [constructor|]. constructor; [exact Hp|].
      apply Forall_forall. intros y Hy. rewrite Forall_forall in Hx. eapply lep_trans; [exact Hp|auto].
Qed.

Lemma SS_app (l1 l2 : list (N * N)) : StronglySorted lep (l1 ++ l2) <->
  StronglySorted lep l1 /\ StronglySorted lep l2 /\ (forall x y, In x l1 -> In y l2 -> lep x y).
Proof.
  induction l1 as [|x l1 IH]; simpl.
  - split; [intros H; repeat split; [constructor|exact H|tauto]|tauto].
  - split.
    + intros H. inversion H as [|? ? H1 H2]; subst. apply IH in H1. destruct H1 as [A [B C]].
      rewrite Forall_forall in H2. repeat split; [|exact B|].
      * constructor; [exact A|]. apply Forall_forall. intros y Hy. apply H2, in_or_app; auto.
      * intros u v [E|Hu] Hv; [subst; apply H2, in_or_app; auto|auto].
    + intros [H [B C]]. inversion H as [|? ? H1 H2]; subst. constructor.
      * apply IH. repeat split; auto.
      * rewrite Forall_forall in *. intros y Hy. apply in_app_or in Hy. destruct Hy; auto.
Qed.

Lemma insert_all_spec new : forall pre post,
  StronglySorted lep (pre ++ post) -> StronglySorted lep new ->
  (forall x y, In x pre -> In y new -> lep x y) ->
  StronglySorted lep (insert_all pre post new) /\
  (forall x, In x (insert_all pre post new) <-> In x pre \/ In x post \/ In x new).
Proof.
  induction new as [|p new IH]; intros pre post Hs Hn Hpn; simpl.
  - split; [exact Hs|]. intros x. rewrite in_app_iff. tauto.
  - pose proof (proj1 (SS_app _ _) Hs) as [S1 [S2 S3]].
    pose proof (lower_bound_p_spec p post S2) as HL.
    destruct (lower_bound_p p post) as [a b]. destruct HL as [Epost [Fa Fb]].
    inversion Hn as [|? ? Hn1 Hn2]; subst. rewrite Forall_forall in Fa, Fb, Hn2.
    apply SS_app in S2. destruct S2 as [Sa [Sb Sab]].
    destruct (IH (pre ++ a ++ [p]) b) as [R1 R2].
    + rewrite <- app_assoc. apply SS_app. repeat split; [exact S1| |].
      * rewrite <- app_assoc. apply SS_app. repeat split; [exact Sa| |].
        -- simpl. constructor; [exact Sb|]. apply Forall_forall. exact Fb.
        -- intros x y Hx [E|Hy]; [subst; auto|]. auto.
      * intros x y Hx Hy. rewrite <- app_assoc in Hy. apply in_app_or in Hy.
        destruct Hy as [Hy|[E|Hy]].
        -- apply S3; [exact Hx|apply in_or_app; auto].
        -- subst. apply Hpn; [exact Hx|left; reflexivity].
        -- apply S3; [exact Hx|apply in_or_app; auto].
    + exact Hn1.
    + intros x y Hx Hy. apply in_app_or in Hx. destruct Hx as [Hx|Hx]; [apply Hpn; [exact Hx|right; exact Hy]|].
      apply in_app_or in Hx. destruct Hx as [Hx|[E|[]]].
      * eapply lep_trans; [apply Fa; exact Hx|apply Hn2; exact Hy].
      * subst. auto.
    + split; [exact R1|]. intros x. rewrite R2. rewrite !in_app_iff. simpl. tauto.
Qed.

(** ** merging *)
Lemma merge_mem k l : k <= SIZE_MAX -> forall top, Forall vp (top :: l) -> StronglySorted lep (top :: l) ->
  (Inp k (merge top l) <-> Inp k (top :: l)).
Proof.
  intros Hk. induction l as [|c l IH]; intros top Hv Hs; simpl; [reflexivity|].
  inversion Hv as [|? ? V1 V2]; subst. inversion V2 as [|? ? Vc V3]; subst.
  inversion Hs as [|? ? S1 S2]; subst. inversion S1 as [|? ? S3 S4]; subst.
  inversion S2 as [|? ? T1 T2]; subst. rewrite Forall_forall in T2, S4.
  destruct (snd top =? SIZE_MAX) eqn:E0.
  - rewrite !Inp_cons. split; [intros [H|[q [[] _]]]; auto|].
    intros H. left. apply N.eqb_eq in E0.
    destruct H as [H|[H|[q [Hq H]]]]; [exact H| |].
    + unfold lep in T1. lia.
    + specialize (T2 q Hq). unfold lep in T2. lia.
  - apply N.eqb_neq in E0. destruct V1 as [V1a V1b]. destruct Vc as [Vca Vcb].
    rewrite wadd_small by lia.
    destruct (snd top + 1 <? fst c) eqn:E1.
    + rewrite !Inp_cons. rewrite IH; [|exact V2|exact S1]. rewrite Inp_cons. tauto.
    + destruct (snd top <? snd c) eqn:E2.
      * rewrite IH.
        -- rewrite !Inp_cons. simpl. unfold lep in T1. split; [|].
           ++ intros [H|H]; [|tauto]. lia.
           ++ intros [H|[H|H]]; [left; lia|left; lia|tauto].
        -- constructor; [split; simpl; unfold lep in T1; lia|auto].
        -- constructor; [exact S3|]. apply Forall_forall. intros q Hq. specialize (T2 q Hq). specialize (S4 q Hq).
           unfold lep in *. simpl. lia.
      * rewrite IH.
        -- rewrite !Inp_cons. unfold lep in T1. split; [tauto|]. intros [H|[H|H]]; [tauto|left; lia|tauto].
        -- constructor; [split; auto|auto].
        -- constructor; [exact S3|]. apply Forall_forall. exact T2.
Qed.

(** the merged list is valid, ordered, and leaves a gap between successive ranges *)
Lemma merge_norm l : forall top, Forall vp (top :: l) -> StronglySorted lep (top :: l) ->
  Forall vp (merge top l) /\ disjoint_ranges (from_pairs (merge top l)) /\
  (exists h r, merge top l = (fst top, h) :: r).
Proof.
  induction l as [|c l IH]; intros top Hv Hs; simpl.
  - inversion Hv; subst. split; [constructor; auto; constructor|]. destruct top; simpl. split; [tauto|]. eauto.
  - inversion Hv as [|? ? V1 V2]; subst. inversion V2 as [|? ? Vc V3]; subst.
    inversion Hs as [|? ? S1 S2]; subst. inversion S1 as [|? ? S3 S4]; subst.
    inversion S2 as [|? ? T1 T2]; subst. rewrite Forall_forall in T2, S4.
    destruct (snd top =? SIZE_MAX) eqn:E0.
    + split; [constructor; auto; constructor|]. destruct top; simpl. split; [tauto|]. eauto.
    + apply N.eqb_neq in E0. destruct V1 as [V1a V1b].
      rewrite wadd_small by lia.
      destruct (snd top + 1 <? fst c) eqn:E1.
      * destruct (IH c) as [A [B [h [r C]]]]; [auto| constructor; auto; apply Forall_forall; auto|].
        split; [constructor; [split; auto|exact A]|]. split; [|destruct top; simpl; eauto].
        destruct top as [t1 t2]. cbn [from_pairs]. rewrite C in *. cbn [from_pairs] in *.
        split; [simpl in *; lia|exact B].
      * destruct (snd top <? snd c) eqn:E2.
        -- destruct (IH (fst top, snd c)) as [A [B [h [r C]]]].
           ++ constructor; [destruct Vc; split; simpl; lia|auto].
           ++ constructor; [exact S3|]. apply Forall_forall. intros q Hq. specialize (T2 q Hq). specialize (S4 q Hq).
              unfold lep in *. simpl. lia.
           ++ simpl in C. eauto.
        -- destruct (IH top) as [A [B C]].
           ++ constructor; [split; auto|auto].
           ++ constructor; [exact S3|]. apply Forall_forall. exact T2.
           ++ auto.
Qed.

Lemma merge_input p1 l1 p2 l2 : Forall vp (p1 :: l1) -> Forall vp (p2 :: l2) ->
  StronglySorted lep (p1 :: l1) -> StronglySorted lep (p2 :: l2) ->
  exists x r, insert_all [] (p1 :: l1) (p2 :: l2) = x :: r /\ Forall vp (x :: r) /\ StronglySorted lep (x :: r) /\
    (forall k, Inp k (x :: r) <-> Inp k (p1 :: l1) \/ Inp k (p2 :: l2)).
Proof.
  intros V1 V2 S1 S2.
  destruct (insert_all_spec (p2 :: l2) [] (p1 :: l1) S1 S2 ltac:(intros ? ? [])) as [R1 R2].
  destruct (insert_all [] (p1 :: l1) (p2 :: l2)) as [|x r] eqn:E.
  - exfalso. apply (R2 p1). right; left; left; reflexivity.
  - exists x, r. repeat split; auto.
    + apply Forall_forall. intros q Hq. rewrite Forall_forall in V1, V2. apply R2 in Hq. destruct Hq as [[]|[H|H]]; auto.
    + intros [q [Hq H]]. apply R2 in Hq. destruct Hq as [[]|[Hq|Hq]]; [left|right]; exists q; auto.
    + intros [[q [Hq H]]|[q [Hq H]]]; exists q; (split; [apply R2; auto|exact H]).
Qed.

Lemma combineOverlap_correct l1 l2 :
  valid_ranges l1 -> ordered_ranges l1 -> valid_ranges l2 -> ordered_ranges l2 ->
  exists r, combineOverlapingIterationRanges l1 l2 = Some r /\ valid_ranges r /\
    (forall k, k <= SIZE_MAX -> (In_ranges k r <-> In_ranges k l1 \/ In_ranges k l2)) /\
    (disjoint_ranges l1 -> disjoint_ranges l2 -> disjoint_ranges r).
Proof.
  intros V1 O1 V2 O2. unfold combineOverlapingIterationRanges.
  destruct l1 as [|a1 l1]; [exists l2; simpl; repeat split; auto; tauto|].
  destruct l2 as [|a2 l2]; [exists (a1 :: l1); repeat split; auto; simpl; tauto|].
  destruct (to_pairs_valid _ V1) as [p1 [E1 [F1 G1]]]. destruct (to_pairs_valid _ V2) as [p2 [E2 [F2 G2]]].
  rewrite E1, E2. rewrite G1 in O1 |- *. rewrite G2 in O2 |- *.
  apply ordered_from_pairs in O1, O2.
  destruct p1 as [|p1 q1]; [discriminate|]. destruct p2 as [|p2 q2]; [discriminate|].
  destruct (merge_input _ _ _ _ F1 F2 O1 O2) as [x [r [E [Vx [Sx Mx]]]]].
  rewrite E. destruct (merge_norm r x Vx Sx) as [N1 [N2 _]].
  eexists. split; [reflexivity|]. split; [apply valid_from_pairs; exact N1|]. split.
  - intros k Hk. rewrite !In_from_pairs. rewrite merge_mem by auto. apply Mx.
  - intros _ _. exact N2.
Qed.

(** ** complement *)
Lemma low_out k r : forall a b, a <= b -> valid_ranges r -> disjoint_ranges (a :: b :: r) -> k < a -> ~ In_ranges k r.
Proof.
  revert r.
  refine (pairs_ind2 (fun r => forall a b, a <= b -> valid_ranges r -> disjoint_ranges (a :: b :: r) -> k < a -> ~ In_ranges k r) _ _ _).
  - intros; simpl; tauto.
  - intros; simpl; tauto.
  - intros c d r IH a b W1 [Vc [Vd Vr]] [D1 D2] Hka [H|H].
    + lia.
    + revert H. apply (IH c d); auto. lia.
Qed.
Lemma invert_tail_correct r : forall lo hi, valid_ranges (lo :: hi :: r) -> disjoint_ranges (lo :: hi :: r) ->
  exists t, invert_tail hi r = Some t /\
   (forall k, k <= SIZE_MAX -> (In_ranges k t <-> hi < k /\ ~ In_ranges k r)).
Proof.
  revert r. apply (pairs_ind2 (fun r => forall lo hi, valid_ranges (lo :: hi :: r) -> disjoint_ranges (lo :: hi :: r) ->
  exists t, invert_tail hi r = Some t /\
   (forall k, k <= SIZE_MAX -> (In_ranges k t <-> hi < k /\ ~ In_ranges k r)))).
  - intros lo hi [V1 [V2 _]] _. simpl. eexists; split; [reflexivity|]. intros k Hk.
    destruct (hi =? SIZE_MAX) eqn:E; simpl.
    + split; [tauto|]. lia.
    + rewrite wadd_small by lia. lia.
  - intros a lo hi [_ [_ []]].
  - intros a b r IH lo hi [V1 [V2 V3]] [D1 D2]. cbn [invert_tail].
    destruct (IH a b V3 D2) as [t [Et Ht]]. rewrite Et. eexists; split; [reflexivity|].
    intros k Hk. cbn [In_ranges]. rewrite Ht by exact Hk.
    destruct V3 as [W1 [W2 W3]].
    rewrite wadd_small by lia. rewrite wsub_small by lia.
    assert (Hout : k < a -> ~ In_ranges k r).
    { intros Hka. apply (low_out k r a b); auto. }
    split.
    + intros [H|[H H2]].
      * split; [lia|]. intros [H3|H3]; [lia|]. revert H3. apply Hout. lia.
      * split; [lia|]. intros [H3|H3]; [lia|tauto].
    + intros [H H2]. destruct (N.le_gt_cases k b) as [Hb|Hb].
      * left. split; [lia|]. assert (~ (a <= k)) by (intros ?; apply H2; left; lia). lia.
      * right. split; [exact Hb|]. intros H3. apply H2. right; exact H3.
Qed.

Lemma invert_correct l : valid_ranges l -> disjoint_ranges l ->
  exists r, invertIterationRanges l = Some r /\
    (forall k, k <= SIZE_MAX -> (In_ranges k r <-> ~ In_ranges k l)).
Proof.
  intros V D. destruct l as [|lo [|hi r]].
  - exists [0; SIZE_MAX]. split; [reflexivity|]. intros k Hk. simpl. split; [tauto|]. intros _. left; lia.
  - destruct V.
  - destruct (invert_tail_correct r lo hi V D) as [t [Et Ht]].
    cbn [invertIterationRanges]. rewrite Et. eexists; split; [reflexivity|]. intros k Hk.
    destruct V as [V1 [V2 V3]].
    assert (Hlow : k < lo -> ~ In_ranges k r).
    { apply (low_out k r lo hi); auto. }
    destruct (lo =? 0) eqn:E0; cbn [app In_ranges].
    + rewrite Ht by exact Hk. split.
      * intros [H H2] [H3|H3]; [lia|tauto].
      * intros H. split; [|tauto]. assert (~ k <= hi) by (intros ?; apply H; left; lia). lia.
    + rewrite Ht by exact Hk. rewrite wsub_small by lia. split.
      * intros [H|[H H2]] [H3|H3]; try lia; [|tauto]. revert H3. apply Hlow. lia.
      * intros H. destruct (N.le_gt_cases lo k) as [Hl|Hl]; [|left; lia]. right. split; [|tauto].
        assert (~ k <= hi) by (intros ?; apply H; left; lia). lia.
Qed.

Lemma disjoint_ordered l : valid_ranges l -> disjoint_ranges l -> ordered_ranges l.
Proof.
  revert l. apply (pairs_ind2 (fun l => valid_ranges l -> disjoint_ranges l -> ordered_ranges l)).
  - simpl; auto.
  - simpl; auto.
  - intros a b l IH [V1 [V2 V3]] [D1 D2]. cbn [ordered_ranges]. split; [|apply IH; auto].
    destruct l as [|c [|d l]]; auto. left. lia.
Qed.

(** ** if / else-if / else *)
Lemma else_loop_upper b : forall acc, wf_chain b -> (match b with Else _ => False | _ => True end) ->
  valid_ranges acc -> disjoint_ranges acc ->
  exists r, else_loop acc b = Some r /\ valid_ranges r /\ disjoint_ranges r /\
    (forall k, k <= SIZE_MAX -> In_ranges k r -> In_ranges k acc \/ covered b k).
Proof.
  induction b as [c|p IH c|p IH]; intros acc Hwf Hne Va Da; simpl.
  - destruct Hwf as [Hc [Vc Dc]].
    destruct (combineOverlap_correct acc c) as [r [E [V [M D]]]]; auto using disjoint_ordered.
    exists r. repeat split; auto. intros k Hk H. apply M in H; auto.
  - destruct Hwf as [Hp [Hpe [Hc [Vc Dc]]]].
    destruct (combineOverlap_correct acc c) as [r [E [V [M D]]]]; auto using disjoint_ordered.
    rewrite E. destruct p as [c'|p' c'|p'].
    + exists r. repeat split; auto. intros k Hk H. apply M in H; auto. tauto.
    + destruct (IH r) as [r' [E' [V' [D' M']]]]; auto.
      exists r'. repeat split; auto. intros k Hk H. apply M' in H; auto. destruct H as [H|H].
      * apply M in H; auto. tauto.
      * right. left. exact H.
    + contradiction.
  - contradiction.
Qed.

Lemma ifBranch_else_upper p : wf_chain (Else p) ->
  exists r, ifBranchIterationRanges (Else p) = Some r /\
   forall k, k <= SIZE_MAX -> taken (Else p) k -> In_ranges k r.
Proof.
  intros [Hwf Hne]. destruct (else_loop_upper p [] Hwf Hne I I) as [r [E [V [D M]]]].
  simpl. rewrite E. destruct (invert_correct r V D) as [r' [E' H']]. exists r'. split; [exact E'|].
  intros k Hk Ht. apply H'; [exact Hk|]. intros Hin. destruct (M k Hk Hin) as [[]|H]. exact (Ht H).
Qed.

Lemma ifBranch_if_else_exact c : wf_chain (Else (StartIf c)) ->
  exists r, ifBranchIterationRanges (Else (StartIf c)) = Some r /\
   forall k, k <= SIZE_MAX -> (In_ranges k r <-> taken (Else (StartIf c)) k).
Proof.
  intros [[Hc [V D]] _]. cbn [ifBranchIterationRanges else_loop].
  destruct (combineOverlap_correct [] c I I V (disjoint_ordered c V D)) as [r [E [V' [M D']]]].
  rewrite E. destruct (invert_correct r V' (D' I D)) as [r' [E' H']]. exists r'. split; [exact E'|].
  intros k Hk. rewrite H' by exact Hk. rewrite M by exact Hk. simpl. tauto.
Qed.

(** ** printed conditions *)
Definition cond_true (v : option N) : option bool := match v with Some n => Some (negb (n =? 0)) | None => None end.

Fixpoint in_rangesb (k : N) (l : list N) : bool :=
  match l with lo :: hi :: r => ((lo <=? k) && (k <=? hi)) || in_rangesb k r | _ => false end.
Lemma in_rangesb_spec k l : in_rangesb k l = true <-> In_ranges k l.
Proof.
  revert l. apply (pairs_ind2 (fun l => in_rangesb k l = true <-> In_ranges k l)).
  - simpl. split; [discriminate|tauto].
  - simpl. split; [discriminate|tauto].
  - intros a b l IH. cbn [in_rangesb In_ranges]. rewrite orb_true_iff, andb_true_iff, !N.leb_le, IH. tauto.
Qed.

Lemma Gat n (a : iatom) : (n <= 8)%nat -> G n [TAtom a] (EAtom a).
Proof. intros H. apply (G_ups n 8); [exact H|apply G_atom]. Qed.

Lemma Gcmp n o (a b : iatom) : (n <= lv o)%nat -> (lv o <= 6)%nat -> G n [TAtom a; TOp o; TAtom b] (EBin o (EAtom a) (EAtom b)).
Proof.
  intros H H6. apply (G_ups n (lv o)); [exact H|]. apply (G_bin o [TAtom a] [TAtom b]); apply Gat; lia.
Qed.

(** a single printed range: readable at level 3 ([&&] operand) except the unparenthesised [||]/[&&] forms, used alone *)
Lemma print_range_reads n sz mn mx : mn <= mx -> mx <= SIZE_MAX -> (n = 1)%nat \/ ((n = 2)%nat /\ sz <> 2%nat) ->
  exists e, G n (print_range sz mn mx) e /\
    forall i, i <= SIZE_MAX -> evalC i e = Some (b2n ((mn <=? i) && (i <=? mx))).
Proof.
  intros Hmn Hmx Hn. unfold print_range.
  destruct (mn =? mx) eqn:E1.
  { eexists; split; [apply Gcmp; simpl; lia|]. intros i Hi. simpl. do 2 f_equal.
    apply N.eqb_eq in E1. subst. lia. }
  destruct (mn =? 0) eqn:E2.
  { eexists; split; [apply Gcmp; simpl; lia|]. intros i Hi. simpl. do 2 f_equal. lia. }
  destruct (mx =? SIZE_MAX) eqn:E3.
  { eexists; split; [apply Gcmp; simpl; lia|]. intros i Hi. simpl. do 2 f_equal. lia. }
  assert (Hin : exists e, G 1 (if wsub mx mn =? 1
                 then [TAtom (ANum mn); TOp EqEq; TAtom AIdx; TOp OrOr; TAtom AIdx; TOp EqEq; TAtom (ANum mx)]
                 else [TAtom (ANum mn); TOp Le; TAtom AIdx; TOp AndAnd; TAtom AIdx; TOp Le; TAtom (ANum mx)]) e /\
    forall i, i <= SIZE_MAX -> evalC i e = Some (b2n ((mn <=? i) && (i <=? mx)))).
  { destruct (wsub mx mn =? 1) eqn:E4.
    - exists (EBin OrOr (EBin EqEq (EAtom (ANum mn)) (EAtom AIdx)) (EBin EqEq (EAtom AIdx) (EAtom (ANum mx)))).
      split.
      + apply (G_bin OrOr [TAtom (ANum mn); TOp EqEq; TAtom AIdx] [TAtom AIdx; TOp EqEq; TAtom (ANum mx)]);
        apply Gcmp; simpl; lia.
      + intros i Hi. cbn. rewrite wsub_small in E4 by lia. destruct (mn =? i) eqn:?, (i =? mx) eqn:?, ((mn <=? i) && (i <=? mx)) eqn:?; try reflexivity; exfalso; lia.
    - exists (EBin AndAnd (EBin Le (EAtom (ANum mn)) (EAtom AIdx)) (EBin Le (EAtom AIdx) (EAtom (ANum mx)))).
      split.
      + apply G_up; [lia|].
        apply (G_bin AndAnd [TAtom (ANum mn); TOp Le; TAtom AIdx] [TAtom AIdx; TOp Le; TAtom (ANum mx)]);
        apply Gcmp; simpl; lia.
      + intros i Hi. cbn. destruct (mn <=? i) eqn:?, (i <=? mx) eqn:?; cbn; reflexivity. }
  destruct Hin as [e [He Hv]]. destruct (Nat.eqb_spec sz 2) as [Esz|Nsz].
  - destruct Hn as [Hn|[Hn Hc]]; [subst n|congruence]. exists e. auto.
  - exists e. split; [|exact Hv]. apply (G_ups n 8); [lia|].
    apply G_paren. apply G_up; [lia|]. exact He.
Qed.

(** the remaining ranges, given what has been printed before *)
Lemma print_ranges_reads sz r : forall pre e0, sz <> 2%nat -> valid_ranges r ->
  G 1 pre e0 -> exists t e, print_ranges sz false r = Some t /\ G 1 (pre ++ t) e /\
    forall i v0, i <= SIZE_MAX -> evalC i e0 = Some (b2n v0) -> evalC i e = Some (b2n (v0 || in_rangesb i r)).
Proof.
  revert r. refine (pairs_ind2 (fun r => forall pre e0, sz <> 2%nat -> valid_ranges r ->
  G 1 pre e0 -> exists t e, print_ranges sz false r = Some t /\ G 1 (pre ++ t) e /\
    forall i v0, i <= SIZE_MAX -> evalC i e0 = Some (b2n v0) -> evalC i e = Some (b2n (v0 || in_rangesb i r))) _ _ _).
  - intros pre e0 _ _ H. exists [], e0. rewrite app_nil_r. repeat split; auto. intros. simpl. rewrite orb_false_r. auto.
  - intros a pre e0 _ [].
  - intros mn mx r IH pre e0 Hsz [V1 [V2 V3]] H0.
    destruct (print_range_reads 2 sz mn mx) as [e1 [G1 E1]]; [lia|lia|auto|].
    destruct (IH (pre ++ TOp OrOr :: print_range sz mn mx) (EBin OrOr e0 e1) Hsz V3) as [t [e [Et [Ge Ee]]]].
    { apply (G_bin OrOr); assumption. }
    cbn [print_ranges]. rewrite Et. eexists; exists e. split; [reflexivity|]. split.
    + rewrite <- app_assoc in Ge. exact Ge.
    + intros i v0 Hi Hv0. rewrite (Ee i (v0 || ((mn <=? i) && (i <=? mx))) Hi).
      * cbn [in_rangesb]. rewrite orb_assoc. reflexivity.
      * cbn [evalC]. rewrite Hv0, (E1 i Hi). destruct v0, ((mn <=? i) && (i <=? mx)); reflexivity.
Qed.

Lemma printIndexCond_correct info : info <> [] -> valid_ranges info ->
  exists t e, printIndexCondExpr info = Some t /\ c_reads t e /\
    forall i, i <= SIZE_MAX -> cond_true (evalC i e) = Some (in_rangesb i info).
Proof.
  intros Hne V. destruct info as [|mn [|mx r]]; [congruence|destruct V|]. destruct V as [V1 [V2 V3]].
  cbn [printIndexCondExpr print_ranges app].
  set (sz := length (mn :: mx :: r)).
  destruct (print_range_reads 1 sz mn mx) as [e1 [G1 E1]]; [lia|lia|auto|].
  destruct r as [|a r].
  - cbn [print_ranges]. rewrite app_nil_r. eexists; exists e1. split; [reflexivity|]. split; [apply G_up; [lia|exact G1]|].
    intros i Hi. rewrite E1 by exact Hi. cbn [in_rangesb]. rewrite orb_false_r.
    destruct ((mn <=? i) && (i <=? mx)); reflexivity.
  - destruct (print_ranges_reads sz (a :: r) (print_range sz mn mx) e1) as [t [e [Et [Ge Ee]]]]; auto.
    { subst sz. simpl. lia. }
    rewrite Et. eexists; exists e. split; [reflexivity|]. split; [apply G_up; [lia|exact Ge]|].
    intros i Hi. rewrite (Ee i _ Hi (E1 i Hi)).
    change (in_rangesb i (mn :: mx :: a :: r)) with ((mn <=? i) && (i <=? mx) || in_rangesb i (a :: r)).
    destruct ((mn <=? i) && (i <=? mx) || in_rangesb i (a :: r)); reflexivity.
Qed.

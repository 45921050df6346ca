(** * Proofs: the remaining equations and the results *)
From Coq Require Import List Bool Arith Lia.
From Verif Require Import Match_model Match_spec Match_thm Elim_model Elim_spec Elim_graph Elim_loop.
Import ListNotations.

(** the graph while the remaining equations are matched; [F]: pairs which must not change *)
Record last (vs : list nat) (m : nat) (F : nat -> nat -> Prop) (g : graph) : Prop := {
  l_g : gok vs m g;
  l_m : matching g;
  l_v : forall v e, v_asg (gv g v) = Some e -> In v vs /\ e < m;
  l_f : forall i j, F i j -> v_asg (gv g j) = Some i /\ v_del (gv g j) = true }.

Lemma same_gok vs m g g' : same_structure g g' -> gok vs m g -> gok vs m g'.
Proof.
  intros (_ & A & B & C) G. split.
  - rewrite A. exact (o_ne _ _ _ G).
  - intros v e. destruct (B v) as (-> & -> & _), (C e) as (-> & -> & _). apply (o_in _ _ _ G).
  - intros e. destruct (C e) as (_ & -> & _). apply (o_nd _ _ _ G).
  - intros v e. destruct (B v) as (_ & -> & _). apply (o_rng _ _ _ G).
Qed.
Lemma augmentAll_last vs m F is_ : (forall i, In i is_ -> i < m) -> forall g, last vs m F g -> exists g', augmentAll is_ g = EOk g' /\ last vs m F g'.
Proof.
  induction is_ as [|i is_ IH]; intros L g I; cbn [augmentAll]; [exists g; auto|].
  assert (L' : forall k, In k is_ -> k < m) by (intros k K; apply L; right; exact K). specialize (IH L').
  destruct (is_none (e_asg (ge g i))) eqn:N; [|apply IH; exact I]. apply is_none_true in N.
  assert (Hi : i < ne g) by (rewrite (o_ne _ _ _ (l_g _ _ _ _ I)); apply L; left; reflexivity).
  assert (R : in_range g) by (intros v e H; rewrite (o_ne _ _ _ (l_g _ _ _ _ I)); apply (l_v _ _ _ _ I v e H)).
  assert (P : procedure Depth) by (left; reflexivity).
  destruct (C26_augmentation_always_answers Depth i g P (l_m _ _ _ _ I) R Hi) as (g' & found & A). rewrite A. apply IH.
  destruct found.
  - assert (Nm : ~ matched g i) by (unfold matched; congruence).
    destruct (C26_success_extends_the_matching Depth _ i g g' P (l_m _ _ _ _ I) R Hi Nm A) as (M' & R' & _ & D & K & SS).
    pose proof (same_gok vs m g g' SS (l_g _ _ _ _ I)) as G'. destruct SS as (_ & SN & SV & _). split; [exact G'|exact M'| |].
    + intros v e H. pose proof (R' v e H) as Re. rewrite (o_ne _ _ _ G') in Re. split; [|exact Re]. apply M' in H. destruct (D e v H) as [H1|[H1 _]].
      * apply (l_m _ _ _ _ I) in H1. apply (l_v _ _ _ _ I v e H1).
      * apply (o_in _ _ _ (l_g _ _ _ _ I) v e H1).
    + intros a b H. destruct (l_f _ _ _ _ I a b H) as [H1 H2]. destruct (SV b) as (-> & _). split; [|exact H2].
      assert (H3 : v_asg (gv g' b) <> None) by (apply K; congruence). destruct (v_asg (gv g' b)) as [e|] eqn:Q; [|congruence].
      apply M' in Q. destruct (D e b Q) as [H4|[H4 _]].
      * apply (l_m _ _ _ _ I) in H4. congruence.
      * apply (o_in _ _ _ (l_g _ _ _ _ I)) in H4. destruct H4 as (_ & H4 & _). congruence.
  - destruct (C26_failure_changes_no_assignment Depth _ i g g' P (l_m _ _ _ _ I) R Hi A) as (AV & AE & SS).
    pose proof (same_gok vs m g g' SS (l_g _ _ _ _ I)) as G'. destruct SS as (_ & _ & SV & _). split; [exact G'| | |].
    + intros v e. rewrite AV, AE. apply (l_m _ _ _ _ I).
    + intros v e. rewrite AV. apply (l_v _ _ _ _ I).
    + intros a b. rewrite AV. destruct (SV b) as (-> & _). apply (l_f _ _ _ _ I).
Qed.
Lemma delete_last vs m F g j : last vs m F g -> last vs m F (delete_node g j).
Proof.
  intros I. destruct (delete_ok vs m g j (l_g _ _ _ _ I)) as (A & B & C & D). split; [exact A| | |].
  - intros v e. rewrite B, C. apply (l_m _ _ _ _ I).
  - intros v e. rewrite B. apply (l_v _ _ _ _ I).
  - intros a b H. rewrite B, D. destruct (l_f _ _ _ _ I a b H) as [H1 H2]. rewrite H2, orb_true_r. auto.
Qed.
Lemma forInformation_last vs m F js g : last vs m F g -> exists g', forInformation js g = EOk g' /\ last vs m F g'.
Proof.
  intros I. unfold forInformation. rewrite (o_ne _ _ _ (l_g _ _ _ _ I)). apply augmentAll_last; [intros i Q; apply in_seq in Q; lia|].
  revert g I. induction js as [|j js IH]; cbn [fold_left]; intros g I; [exact I|]. apply IH. destruct (is_none _); [exact I|apply delete_last; exact I].
Qed.

(** ** What is saved *)
Lemma setAt_length l : forall i v, length (setAt l i v) = length l.
Proof. induction l as [|a l IH]; intros [|i] v; cbn; auto. Qed.
Lemma setAt_nth l : forall k v i, i < length l -> nth i (setAt l k v) None = if i =? k then v else nth i l None.
Proof.
  induction l as [|a l IH]; intros [|k] v [|i] H; cbn in H |- *; try lia; try reflexivity. apply IH. lia.
Qed.
Lemma save_length js g : forall old, length (save js g old) = length old.
Proof.
  unfold save. induction js as [|j js IH]; cbn [fold_left]; intros old; [reflexivity|]. rewrite IH. destruct (v_asg (gv g j)); [apply setAt_length|reflexivity].
Qed.
Lemma save_nth js g : matching g -> forall old i, i < length old ->
  nth i (save js g old) None = match e_asg (ge g i) with Some j => if mem j js then Some j else nth i old None | None => nth i old None end.
Proof.
  intros M. unfold save. induction js as [|a js IH]; cbn [fold_left]; intros old i H; [destruct (e_asg (ge g i)); reflexivity|].
  rewrite IH by (destruct (v_asg (gv g a)); [rewrite setAt_length|]; exact H).
  destruct (v_asg (gv g a)) as [k|] eqn:A.
  - rewrite setAt_nth by exact H. destruct (i =? k) eqn:Q.
    + apply Nat.eqb_eq in Q. subst k. apply M in A. rewrite A. cbn [mem existsb]. rewrite Nat.eqb_refl. cbn [orb]. destruct (mem a js); reflexivity.
    + destruct (e_asg (ge g i)) as [j|] eqn:E; [|reflexivity]. cbn [mem existsb]. fold (mem j js). destruct (j =? a) eqn:Q'; [|reflexivity].
      apply Nat.eqb_eq in Q'. subst a. apply M in E. apply Nat.eqb_neq in Q. congruence.
  - destruct (e_asg (ge g i)) as [j|] eqn:E; [|reflexivity]. cbn [mem existsb]. fold (mem j js). destruct (j =? a) eqn:Q'; [|reflexivity].
    apply Nat.eqb_eq in Q'. subst a. apply M in E. congruence.
Qed.

(** pairs of a graph *)
Definition pairs_of (g : graph) (m : nat) : list (nat * nat) :=
  flat_map (fun i => match e_asg (ge g i) with Some v => [(i, v)] | None => [] end) (seq 0 m).
Lemma pairs_of_In g m i v : In (i, v) (pairs_of g m) <-> i < m /\ e_asg (ge g i) = Some v.
Proof.
  unfold pairs_of. rewrite in_flat_map. split.
  - intros (a & A & B). apply in_seq in A. destruct (e_asg (ge g a)) eqn:E; [|destruct B]. destruct B as [B|[]]. inversion B; subst. split; [lia|exact E].
  - intros [A B]. exists i. rewrite in_seq, B. split; [lia|left; reflexivity].
Qed.
Lemma flat_nodup g (f : nat * nat -> nat) l : matching g -> NoDup l -> (f = fst \/ f = snd) ->
  NoDup (map f (flat_map (fun i => match e_asg (ge g i) with Some v => [(i, v)] | None => [] end) l)).
Proof.
  intros M N Hf. induction l as [|a l IH]; cbn; [constructor|]. inversion N; subst. rewrite map_app. specialize (IH H2).
  destruct (e_asg (ge g a)) as [v|] eqn:E; cbn [map app]; [|exact IH]. constructor; [|exact IH].
  intros B. apply in_map_iff in B. destruct B as ([b w] & B1 & B2). apply in_flat_map in B2. destruct B2 as (c & C1 & C2).
  destruct (e_asg (ge g c)) as [w'|] eqn:E'; [|destruct C2]. destruct C2 as [C2|[]]. inversion C2; subst b w'.
  destruct Hf as [->| ->]; cbn in B1; subst; [contradiction|]. apply M in E. apply M in E'. congruence.
Qed.
Lemma pairs_of_one g m : matching g -> one_to_one (pairs_of g m).
Proof. intros M. split; apply flat_nodup; auto; apply seq_NoDup. Qed.

(** ** The loops end when every candidate left was refused *)
Lemma loop_last X pass fuel : forall s s', loop X pass fuel s = EOk s' -> exists t, pass t = EOk (false, s').
Proof.
  induction fuel as [|f IH]; intros s s'; cbn [loop]; [discriminate|]. destruct (pass s) as [[c t]| | |] eqn:P; cbn [ebind fst snd]; try discriminate.
  destruct c; [apply IH|]. intros [= <-]. exists s. exact P.
Qed.
Lemma assign_false X solvable subst free s i j s' : assign X solvable subst free s i j = EOk (false, s') ->
  s' = s /\ exists x1, subst (ex X s) i j = Some x1 /\ stays X solvable free s x1 i j = false.
Proof.
  unfold assign. destruct (subst (ex X s) i j) as [x1|]; [|discriminate]. destruct (affected X s i j); [discriminate|].
  destruct (stays X solvable free s x1 i j) eqn:Q; [discriminate|]. intros [= <-]. split; [reflexivity|exists x1; auto].
Qed.
Lemma tearEqs_false X solvable subst free j is_ : forall s s', tearEqs X solvable subst free j is_ s = EOk (false, s') ->
  s' = s /\ forall i, In i is_ -> e_asg (ge (eg X s) i) = None -> exists x1, subst (ex X s) i j = Some x1 /\ stays X solvable free s x1 i j = false.
Proof.
  induction is_ as [|i is_ IH]; intros s s'; cbn [tearEqs]; [intros [= <-]; split; [reflexivity|intros i []]|].
  destruct (is_none (e_asg (ge (eg X s) i))) eqn:N.
  - destruct (assign X solvable subst free s i j) as [[c t]| | |] eqn:A; cbn [ebind fst snd]; try discriminate. destruct c; [discriminate|].
    apply assign_false in A. destruct A as [-> A]. intros H. apply IH in H. destruct H as [-> H]. split; [reflexivity|].
    intros k [<-|K]; [intros _; exact A|exact (H k K)].
  - intros H. apply IH in H. destruct H as [-> H]. split; [reflexivity|]. apply is_none_false in N. intros k [<-|K]; [congruence|exact (H k K)].
Qed.
Lemma tear_false X solvable subst free js : forall s s', tear X solvable subst free js s = EOk (false, s') ->
  s' = s /\ forall j i, In j js -> v_del (gv (eg X s) j) = false -> In i (v_eqs (gv (eg X s) j)) -> e_asg (ge (eg X s) i) = None ->
    exists x1, subst (ex X s) i j = Some x1 /\ stays X solvable free s x1 i j = false.
Proof.
  induction js as [|j js IH]; intros s s'; cbn [tear]; [intros [= <-]; split; [reflexivity|intros j i []]|].
  destruct (v_del (gv (eg X s) j)) eqn:D.
  - intros H. apply IH in H. destruct H as [-> H]. split; [reflexivity|]. intros k i [<-|K]; [congruence|exact (H k i K)].
  - destruct (tearEqs X solvable subst free j _ s) as [[c t]| | |] eqn:A; cbn [ebind fst snd]; try discriminate. destruct c; [discriminate|].
    apply tearEqs_false in A. destruct A as [-> A]. intros H. apply IH in H. destruct H as [-> H]. split; [reflexivity|].
    intros k i [<-|K]; [intros _; exact (A i)|exact (H k i K)].
Qed.
Lemma matchLoops_last X solvable subst free diff dummy s s' : matchLoops X solvable subst free diff dummy s = EOk s' ->
  forall j i, In j (diff ++ dummy) -> v_del (gv (eg X s') j) = false -> In i (v_eqs (gv (eg X s') j)) -> e_asg (ge (eg X s') i) = None ->
    exists x1, subst (ex X s') i j = Some x1 /\ stays X solvable free s' x1 i j = false.
Proof.
  unfold matchLoops. intros H. apply loop_last in H. destruct H as (t & H).
  destruct (loop X _ _ t) as [u| | |] eqn:L; cbn [ebind] in H; try discriminate. apply tear_false in H. destruct H as [-> H]. exact H.
Qed.

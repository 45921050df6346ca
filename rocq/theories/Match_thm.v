(** * C26, C27: augmenting paths *)
From Coq Require Import List Arith Bool Lia.
From Verif Require Import Match_model Match_spec Match_proofs.
Import ListNotations.

Definition procedure (K : variant) : Prop := K = Depth \/ K = DepthA.

Lemma allowed_same K g g' v : Same g g' -> (allowed K g' v <-> allowed K g v).
Proof.
  intros (_ & _ & H & _). unfold allowed. destruct (marks K); [tauto|].
  unfold highest_derivative. destruct (H v) as (_ & _ & -> & ->). tauto.
Qed.

Lemma is_none_true {A} (o : option A) : is_none o = true <-> o = None.
Proof. destruct o; cbn; split; congruence. Qed.
Lemma is_none_false {A} (o : option A) : negb (is_none o) = true <-> o <> None.
Proof. destruct o; cbn; split; congruence. Qed.

Lemma look_some_K K : procedure K ->
  forall g l j, look K g l = Some j -> In j l /\ allowed K g j /\ asgV g j = None.
Proof.
  intros [-> | ->] g l j; cbn [look Depth DepthA allowed marks].
  - destruct (find _ l) as [j'|] eqn:F.
    + intros H. injection H as <-. apply find_some in F. destruct F as [I B].
      apply andb_true_iff in B. destruct B as [_ B]. apply is_none_true in B.
      split; [exact I|]. split; [exact Logic.I|exact B].
    + intros F'. apply find_some in F'. destruct F' as [I B].
      apply andb_true_iff in B. destruct B as [_ B]. apply is_none_true in B.
      split; [exact I|]. split; [exact Logic.I|exact B].
  - intros F. apply find_some in F. destruct F as [I B].
    rewrite !andb_true_iff in B. destruct B as [[B1 B2] B3].
    apply is_none_true in B1. apply is_none_false in B2. apply is_none_true in B3.
    repeat split; assumption.
Qed.

Lemma look_none_K K : procedure K ->
  forall g l, look K g l = None -> forall j, In j l -> allowed K g j -> asgV g j <> None.
Proof.
  intros [-> | ->] g l; cbn [look Depth DepthA allowed marks].
  - destruct (find _ l) as [j'|] eqn:F; [discriminate|].
    intros F' j I _ N.
    apply find_none with (x := j) in F; [|exact I]. apply find_none with (x := j) in F'; [|exact I].
    unfold asgV in N. rewrite N in F, F'. cbn in F, F'. rewrite andb_true_r in F, F'.
    rewrite F' in F. discriminate.
  - intros F j I [A B] N.
    apply find_none with (x := j) in F; [|exact I]. unfold asgV in N. rewrite N in F.
    rewrite A in F. apply is_none_false in B. rewrite B in F. discriminate.
Qed.

Lemma pass_iff_K K : procedure K ->
  forall g j, pass K g j = true <-> colV g j = false /\ allowed K g j.
Proof.
  intros [-> | ->] g j; cbn [pass Depth DepthA allowed marks].
  - rewrite negb_true_iff. unfold any_variable. tauto.
  - rewrite !andb_true_iff, negb_true_iff, is_none_true, is_none_false.
    unfold highest_derivative. tauto.
Qed.

Lemma augment_ok K : procedure K -> forall f i g0,
  matching g0 -> in_range g0 -> i < ne g0 ->
  match augment K f i g0 with
  | Ret g' true => Succ (allowed K) g0 g' i
  | Ret g' false => Fail K (allowed K) g0 g' i
  | Null => False
  | NoFuel => f <= unc (upde g0 i e_color)
  end.
Proof.
  intros HK. exact (augment_spec K (allowed K) (allowed_same K)
    (look_some_K K HK) (look_none_K K HK) (pass_iff_K K HK)).
Qed.

Lemma unc_le g : unc g <= ne g.
Proof.
  unfold unc. rewrite <- (seq_length (ne g) 0) at 2.
  induction (seq 0 (ne g)) as [|a l IH]; cbn [filter length]; [lia|].
  destruct (negb (colE g a)); cbn [length]; lia.
Qed.

(** ** C26 *)

(** Both procedures end: the depth of the recursion is at most the number of
    equations plus one and no null assignment is ever dereferenced. *)
Theorem C26_augmentation_always_answers : forall K i g,
  procedure K -> matching g -> in_range g -> i < ne g ->
  exists g' found, augment K (S (ne g)) i g = Ret g' found.
Proof.
  intros K i g HK M R Hi. pose proof (augment_ok K HK (S (ne g)) i g M R Hi) as H.
  destruct (augment K (S (ne g)) i g) as [g' b| |]; [eauto|destruct H|].
  pose proof (unc_le (upde g i e_color)). cbn [upde ne] in H0. lia.
Qed.
Print Assumptions C26_augmentation_always_answers.

(** A successful augmentation, whatever colours the nodes had before. *)
Theorem C26_success_extends_the_matching : forall K fuel i g g',
  procedure K -> matching g -> in_range g -> i < ne g -> ~ matched g i ->
  augment K fuel i g = Ret g' true ->
  matching g' /\ in_range g' /\
  (forall e, matched g' e <-> matched g e \/ e = i) /\
  (forall e v, e_asg (ge g' e) = Some v ->
     e_asg (ge g e) = Some v \/ (occurs g v e /\ allowed K g v)) /\
  (forall v, v_asg (gv g v) <> None -> v_asg (gv g' v) <> None) /\
  same_structure g g'.
Proof.
  intros K fuel i g g' HK M R Hi Hm E.
  pose proof (augment_ok K HK fuel i g M R Hi) as H. rewrite E in H.
  destruct H as (S0 & S1 & S2 & S3 & S4 & S5 & S6 & S7 & S8).
  unfold matched in Hm. fold (asgE g i) in Hm.
  assert (Ei : asgE g i = None) by (destruct (asgE g i); [exfalso; apply Hm; discriminate|reflexivity]).
  assert (M' : matching g').
  { intros v e. fold (asgV g' v) (asgE g' e). rewrite <- S1, Ei. split; [intros A; split; [exact A|discriminate]|tauto]. }
  assert (Me : forall e, matched g' e <-> matched g e \/ e = i).
  { intros e. unfold matched. fold (asgE g' e) (asgE g e).
    destruct (Nat.eq_dec e i) as [->|N]; [split; auto|].
    rewrite (S3 e N). split; [auto|]. intros [A|A]; [exact A|contradiction]. }
  split; [exact M'|]. split.
  - intros v e A. apply M' in A.
    assert (Hm' : matched g' e) by (unfold matched; congruence).
    destruct S0 as (_ & -> & _).
    apply Me in Hm'. destruct Hm' as [Hm'| ->]; [|exact Hi].
    unfold matched in Hm'. destruct (e_asg (ge g e)) as [w|] eqn:W; [|congruence].
    apply (R w). apply M. exact W.
  - split; [exact Me|]. split; [|split; [exact S7|exact S0]].
    intros e v A. destruct (S4 e v A) as [[B _]|B]; auto.
Qed.
Print Assumptions C26_success_extends_the_matching.

(** A failed augmentation changes no assignment. *)
Theorem C26_failure_changes_no_assignment : forall K fuel i g g',
  procedure K -> matching g -> in_range g -> i < ne g ->
  augment K fuel i g = Ret g' false ->
  (forall v, v_asg (gv g' v) = v_asg (gv g v)) /\
  (forall e, e_asg (ge g' e) = e_asg (ge g e)) /\
  same_structure g g'.
Proof.
  intros K fuel i g g' HK M R Hi E.
  pose proof (augment_ok K HK fuel i g M R Hi) as H. rewrite E in H.
  destruct H as ((S0 & A & B & _) & _). split; [exact A|]. split; [exact B|exact S0].
Qed.
Print Assumptions C26_failure_changes_no_assignment.

(** ** C27 *)

Lemma coloured_list g : exists l, NoDup l /\ forall e, In e l <-> e < ne g /\ colE g e = true.
Proof.
  exists (filter (colE g) (seq 0 (ne g))). split; [apply NoDup_filter, seq_NoDup|].
  intros e. rewrite filter_In, in_seq. intuition lia.
Qed.

(** The equations given a colour by a failed augmentation, and the variables
    allowed in them: the latter are all assigned to the former, so there are
    fewer of them. *)
Lemma fail_Hall K i g g' : procedure K -> matching g -> in_range g -> i < ne g -> ~ matched g i ->
  uncoloured g -> Fail K (allowed K) g g' i ->
  exists es, NoDup es /\ In i es /\ (forall e, In e es <-> e_col (ge g' e) = true) /\
    (forall e, In e es -> e = i \/ matched g e) /\
    (forall vs, NoDup vs -> (forall v, In v vs -> allowed K g v /\ exists e, In e es /\ occurs g v e) ->
       length vs < length es).
Proof.
  intros HK M R Hi Hm [UV UE] (F1 & F2 & F3 & _ & _ & F6).
  destruct F3 as [_ F3].
  { intros v Cv. unfold colV in Cv. rewrite UV in Cv. discriminate. }
  destruct (coloured_list g') as (es & Nd & Hes).
  assert (HNE : ne g' = ne g) by apply F1.
  assert (Heq : forall e, colE g' e = true -> e = i \/ matched g e).
  { intros e Ce. destruct (F6 e Ce (UE e)) as [?|(v & e' & Av & _)]; auto.
    right. unfold matched. rewrite (proj1 (proj2 F1)) in Av. apply M in Av. congruence. }
  assert (Hr : forall e, colE g' e = true -> e < ne g').
  { intros e Ce. rewrite HNE. destruct (Heq e Ce) as [->|Hme]; [exact Hi|].
    unfold matched in Hme. destruct (e_asg (ge g e)) as [w|] eqn:W; [|congruence].
    apply (R w). apply M. exact W. }
  exists es. split; [exact Nd|]. split; [apply Hes; split; [apply Hr|]; exact F2|].
  split; [intros e; rewrite Hes; split; [tauto|]; intros Ce; split; [apply Hr|]; exact Ce|].
  split; [intros e I; apply Heq; apply Hes; exact I|].
  intros vs Nv Hv.
  (* map each variable to its equation *)
  set (f := fun v => match v_asg (gv g v) with Some k => k | None => 0 end).
  assert (Hf : forall v, In v vs -> exists k, v_asg (gv g v) = Some k /\ f v = k /\ In k es /\ k <> i).
  { intros v I. destruct (Hv v I) as (Cv & e & Ie & Oc).
    apply Hes in Ie. destruct Ie as [_ Ce].
    destruct (F3 e Ce) as [Bad|Cl]; [unfold colE in Bad; rewrite UE in Bad; discriminate|].
    destruct (Cl v) as (k & Ak & Ck).
    - rewrite (varsE_same g g' e (proj1 F1)). exact Oc.
    - apply (allowed_same K g g' v (proj1 F1)). exact Cv.
    - rewrite (proj1 (proj2 F1)) in Ak. unfold asgV in Ak. exists k.
      split; [exact Ak|]. split; [unfold f; rewrite Ak; reflexivity|].
      split; [apply Hes; split; [apply Hr|]; exact Ck|].
      intros ->. apply Hm. unfold matched. apply M in Ak. congruence. }
  assert (Hinj : forall a b, In a vs -> In b vs -> f a = f b -> a = b).
  { intros a b Ia Ib E. destruct (Hf a Ia) as (k & A1 & A2 & _), (Hf b Ib) as (k' & B1 & B2 & _).
    assert (k = k') by congruence. subst k'. apply M in A1. apply M in B1. congruence. }
  assert (Hlen : length (map f vs ++ [i]) <= length es).
  { apply NoDup_incl_length.
    - apply NoDup_rev in Nv. assert (Nm : NoDup (map f vs)).
      { apply NoDup_rev in Nv. rewrite rev_involutive in Nv.
        clear -Nv Hinj. induction vs as [|a l IH]; [constructor|].
        inversion Nv as [|a' l' Na Nl]; subst. cbn [map]. constructor.
        - intros I. apply in_map_iff in I. destruct I as (b & E & Ib).
          assert (a = b) by (apply Hinj; [left; reflexivity|right; exact Ib|congruence]). subst b. contradiction.
        - apply IH; [exact Nl|]. intros; apply Hinj; auto; right; assumption. }
      clear Nv. assert (Ni : ~ In i (map f vs)).
      { intros I. apply in_map_iff in I. destruct I as (v & E & Iv).
        destruct (Hf v Iv) as (k & _ & A & _ & B). congruence. }
      clear -Nm Ni. induction (map f vs) as [|a l IH]; cbn [app].
      + constructor; [intros []|constructor].
      + inversion Nm; subst. constructor.
        * rewrite in_app_iff. intros [I|[I|[]]]; [contradiction|]. subst a. apply Ni. left. reflexivity.
        * apply IH; [assumption|]. intros I. apply Ni. right. exact I.
    - intros x I. apply in_app_iff in I. destruct I as [I|[->|[]]].
      + apply in_map_iff in I. destruct I as (v & <- & Iv). destruct (Hf v Iv) as (k & _ & -> & A & _). exact A.
      + apply Hes. split; [apply Hr|]; exact F2. }
  rewrite app_length, map_length in Hlen. cbn [length] in Hlen. lia.
Qed.

(** A failed augmentation from a graph without colours: the coloured equations
    [es] contain the equation asked for and equations which were matched
    before, and any set of allowed variables occurring in them is smaller than
    [es]. *)
Theorem C27_failure_shows_too_few_variables : forall K fuel i g g',
  procedure K -> matching g -> in_range g -> i < ne g -> ~ matched g i -> uncoloured g ->
  augment K fuel i g = Ret g' false ->
  exists es, NoDup es /\ In i es /\ (forall e, In e es <-> e_col (ge g' e) = true) /\
    (forall e, In e es -> e = i \/ matched g e) /\
    (forall vs, NoDup vs -> (forall v, In v vs -> allowed K g v /\ exists e, In e es /\ occurs g v e) ->
       length vs < length es).
Proof.
  intros K fuel i g g' HK M R Hi Hm U E.
  pose proof (augment_ok K HK fuel i g M R Hi) as H. rewrite E in H.
  eapply fail_Hall; eauto.
Qed.
Print Assumptions C27_failure_shows_too_few_variables.

(** Hence no choice of distinct variables, by any method, serves the equation
    asked for together with those matched before. *)
Theorem C27_failure_means_no_matching : forall K fuel i g g',
  procedure K -> matching g -> in_range g -> i < ne g -> ~ matched g i -> uncoloured g ->
  augment K fuel i g = Ret g' false ->
  ~ exists r, representatives (allowed K g) g (fun e => e = i \/ matched g e) r.
Proof.
  intros K fuel i g g' HK M R Hi Hm U E (r & Hr1 & Hr2).
  destruct (C27_failure_shows_too_few_variables K fuel i g g' HK M R Hi Hm U E)
    as (es & Nd & Ii & _ & Hes & Hall).
  assert (L : length (map r es) < length es).
  { apply Hall.
    - clear -Nd Hes Hr2. induction es as [|a l IH]; [constructor|].
      inversion Nd as [|? ? Na Nl]; subst. cbn [map]. constructor.
      + intros I. apply in_map_iff in I. destruct I as (b & Eb & Ib).
        assert (b = a).
        { apply Hr2; [apply Hes; right; exact Ib|apply Hes; left; reflexivity|exact Eb]. }
        subst b. contradiction.
      + apply IH; [exact Nl|]. intros e I. apply Hes. right. exact I.
    - intros v I. apply in_map_iff in I. destruct I as (e & <- & Ie).
      destruct (Hr1 e (Hes e Ie)) as [Oc Al]. split; [exact Al|]. exists e. auto. }
  rewrite map_length in L. lia.
Qed.
Print Assumptions C27_failure_means_no_matching.

(** The answer is exactly whether such a choice exists, when the matching so
    far uses allowed variables of the equations. *)
Theorem C27_the_answer_decides : forall K fuel i g g' found,
  procedure K -> matching g -> in_range g -> i < ne g -> ~ matched g i -> uncoloured g ->
  (forall e v, e_asg (ge g e) = Some v -> occurs g v e /\ allowed K g v) ->
  augment K fuel i g = Ret g' found ->
  (found = true <-> exists r, representatives (allowed K g) g (fun e => e = i \/ matched g e) r).
Proof.
  intros K fuel i g g' found HK M R Hi Hm U Ho E. split.
  - intros ->.
    destruct (C26_success_extends_the_matching K fuel i g g' HK M R Hi Hm E)
      as (M' & _ & Me & Hed & _).
    exists (fun e => match e_asg (ge g' e) with Some v => v | None => 0 end). split.
    + intros e He. assert (Hm' : matched g' e) by (apply Me; tauto).
      unfold matched in Hm'. destruct (e_asg (ge g' e)) as [v|] eqn:A; [|congruence].
      destruct (Hed e v A) as [B|B]; [apply Ho; exact B|exact B].
    + intros e e' He He' Heq.
      assert (Hm1 : matched g' e) by (apply Me; tauto).
      assert (Hm2 : matched g' e') by (apply Me; tauto).
      unfold matched in *. destruct (e_asg (ge g' e)) as [v|] eqn:A; [|congruence].
      destruct (e_asg (ge g' e')) as [v'|] eqn:B; [|congruence]. subst v'.
      apply M' in A. apply M' in B. congruence.
  - intros Hr. destruct found; [reflexivity|]. exfalso.
    exact (C27_failure_means_no_matching K fuel i g g' HK M R Hi Hm U E Hr).
Qed.
Print Assumptions C27_the_answer_decides.

(** * The graph built for a model *)
From Coq Require Import List Arith Bool Lia.
From Verif Require Import Match_model Match_spec Match_struct.
Import ListNotations.

Definition MG (g : graph) : Prop :=
  St g /\ (forall e, e_vars (ge g e) = e_orig (ge g e) /\ e_der (ge g e) = None /\ e_asg (ge g e) = None) /\
  (forall v, v_del (gv g v) = false /\ v_asg (gv g v) = None).

Lemma MG_model g : MG g <-> model_graph g.
Proof.
  split.
  - intros (HS & E & V). constructor.
    + apply HS.
    + intros e. apply (s_nd g HS).
    + intros e. apply E.
    + intros e v. rewrite (s_eqs g HS). destruct (E e) as (-> & _). tauto.
    + apply HS.
    + apply HS.
    + intros e. apply E.
    + apply V.
  - intros [M1 M2 M3 M4 M5 M6 M7 M8]. split; [|split; [|exact M8]].
    + constructor; auto.
      * intros e. rewrite M3. auto.
      * intros e v. rewrite M3. split; [intros I; split; [exact I|apply M8]|tauto].
      * intros e v. rewrite M3. apply M4.
      * intros e e' D. destruct (M7 e). congruence.
      * intros v D. destruct (M8 v). congruence.
    + intros e. destruct (M7 e). auto.
Qed.

Lemma add_MG g i j : MG g -> i < ne g -> j < nv g ->
  MG (add_variable g i j) /\ nv (add_variable g i j) = nv g /\ ne (add_variable g i j) = ne g.
Proof.
  intros (HS & E & V) Hi Hj. destruct (add_variable_ok g i j HS Hi Hj) as (S' & N1 & N2 & V' & E' & Ei & _).
  split; [|auto]. split; [exact S'|]. split.
  - intros e. destruct (Nat.eq_dec e i) as [->|N].
    + destruct Ei as (-> & _ & -> & _). split; [|apply E].
      unfold add_variable. destruct (existsb (Nat.eqb j) (e_orig (ge g i))); [apply E|].
      cbv zeta. change (gv (upde g i _) j) with (gv g j). destruct (V j) as [-> _].
      cbn [updv upde ge]. rewrite Nat.eqb_refl. cbn [e_orig e_vars]. destruct (E i) as (-> & _). reflexivity.
    + rewrite (E' e N). apply E.
  - intros v. destruct (V' v) as (-> & -> & _). apply V.
Qed.

Definition well_numbered (anti : list (option nat)) : Prop :=
  (forall j a, nth j anti None = Some a -> a < j) /\
  (forall j j' a, nth j anti None = Some a -> nth j' anti None = Some a -> j = j').

Lemma nth_Some_lt (l : list (option nat)) j a : nth j l None = Some a -> j < length l.
Proof.
  intros H. destruct (lt_dec j (length l)) as [L|L]; [exact L|]. rewrite nth_overflow in H; [discriminate|lia].
Qed.

Lemma init_MG anti rows : well_numbered anti ->
  (forall r, In r rows -> forall j, In j r -> j < length anti) ->
  model_graph (init_graph anti rows) /\ nv (init_graph anti rows) = length anti /\ ne (init_graph anti rows) = length rows.
Proof.
  intros [W1 W2] HR. rewrite <- MG_model. unfold init_graph. set (g0 := Gr _ _ _ _).
  assert (H0 : MG g0).
  { split; [|split; [intros e; cbn; auto|intros v; cbn; auto]].
    constructor; cbn.
    - intros e v [].
    - intros e. split; constructor.
    - tauto.
    - tauto.
    - intros v w. split.
      + intros F. apply find_some in F. destruct F as [_ F]. destruct (nth w anti None) as [a|]; [|discriminate].
        apply Nat.eqb_eq in F. congruence.
      + intros A. destruct (find _ _) as [x|] eqn:F.
        * apply find_some in F. destruct F as [_ F]. destruct (nth x anti None) as [a|] eqn:Q; [|discriminate].
          apply Nat.eqb_eq in F. subst a. f_equal. eapply W2; eauto.
        * exfalso. apply find_none with (x := w) in F.
          -- rewrite A, Nat.eqb_refl in F. discriminate.
          -- apply -> in_rev. apply in_seq. apply nth_Some_lt in A. lia.
    - intros v w F. apply find_some in F. destruct F as [I F]. apply in_rev in I. apply in_seq in I.
      destruct (nth w anti None) as [a|] eqn:Q; [|discriminate]. apply Nat.eqb_eq in F. subst a.
      apply W1 in Q. lia.
    - discriminate.
    - discriminate. }
  assert (N1 : nv g0 = length anti) by reflexivity. assert (N2 : ne g0 = length rows) by reflexivity.
  clearbody g0. set (n := length anti) in *. set (m := length rows) in *.
  assert (Gen : forall l, (forall i, In i l -> i < m) -> forall g, MG g -> nv g = n -> ne g = m ->
    let g' := fold_left (fun g i => fold_left (fun g j => add_variable g i j) (nth i rows []) g) l g in
    MG g' /\ nv g' = n /\ ne g' = m).
  { induction l as [|i l IH]; intros Hl g HM Hn Hm; cbv zeta; cbn [fold_left]; [auto|].
    assert (Hi : i < m) by (apply Hl; left; reflexivity).
    assert (R : forall j, In j (nth i rows []) -> j < n) by (apply HR, nth_In; exact Hi).
    assert (Row : forall r, (forall j, In j r -> j < n) -> forall g, MG g -> nv g = n -> ne g = m ->
      let g' := fold_left (fun g j => add_variable g i j) r g in MG g' /\ nv g' = n /\ ne g' = m).
    { clear -Hi. induction r as [|j r IHr]; intros Hr g HM Hn Hm; cbv zeta; cbn [fold_left]; [auto|].
      destruct (add_MG g i j HM) as (A & B & C); [lia|rewrite Hn; apply Hr; left; reflexivity|].
      apply IHr; [intros x Hx; apply Hr; right; exact Hx|exact A|lia|lia]. }
    destruct (Row _ R g HM Hn Hm) as (A & B & C).
    apply IH; auto. intros x Hx. apply Hl. right. exact Hx. }
  apply Gen; auto. intros i I. apply in_seq in I. lia.
Qed.

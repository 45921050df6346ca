(** * Proofs about the augmenting path procedures *)
From Coq Require Import List Arith Bool Lia.
From Verif Require Import Match_model.
Import ListNotations.

Definition asgV (g : graph) (v : nat) := v_asg (gv g v).
Definition asgE (g : graph) (e : nat) := e_asg (ge g e).
Definition colE (g : graph) (e : nat) := e_col (ge g e).
Definition colV (g : graph) (v : nat) := v_col (gv g v).
Definition varsE (g : graph) (e : nat) := e_vars (ge g e).

Definition Mt (g : graph) : Prop := forall v e, asgV g v = Some e <-> asgE g e = Some v.
Definition Rg (g : graph) : Prop := forall v e, asgV g v = Some e -> e < ne g.

(** Nothing but assignments and colours differs. *)
Definition Same (g g' : graph) : Prop :=
  nv g' = nv g /\ ne g' = ne g /\
  (forall v, v_del (gv g' v) = v_del (gv g v) /\ v_eqs (gv g' v) = v_eqs (gv g v) /\
             v_der (gv g' v) = v_der (gv g v) /\ v_anti (gv g' v) = v_anti (gv g v)) /\
  (forall e, e_orig (ge g' e) = e_orig (ge g e) /\ e_vars (ge g' e) = e_vars (ge g e) /\
             e_der (ge g' e) = e_der (ge g e) /\ e_of (ge g' e) = e_of (ge g e)).

Definition Grow (g g' : graph) : Prop :=
  Same g g' /\ (forall v, asgV g' v = asgV g v) /\ (forall e, asgE g' e = asgE g e) /\
  (forall e, colE g e = true -> colE g' e = true) /\
  (forall v, colV g v = true -> colV g' v = true).

Lemma Same_refl g : Same g g.
Proof. repeat split. Qed.
Lemma Same_trans a b c : Same a b -> Same b c -> Same a c.
Proof.
  intros (A1 & A2 & A3 & A4) (B1 & B2 & B3 & B4).
  split; [congruence|]. split; [congruence|]. split.
  - intros v. destruct (A3 v) as (? & ? & ? & ?), (B3 v) as (? & ? & ? & ?). repeat split; congruence.
  - intros e. destruct (A4 e) as (? & ? & ? & ?), (B4 e) as (? & ? & ? & ?). repeat split; congruence.
Qed.
Lemma Grow_refl g : Grow g g.
Proof. split; [apply Same_refl|]. repeat split; auto. Qed.
Lemma Grow_trans a b c : Grow a b -> Grow b c -> Grow a c.
Proof.
  intros (A1 & A2 & A3 & A4 & A5) (B1 & B2 & B3 & B4 & B5).
  split; [eapply Same_trans; eauto|].
  split; [intros; rewrite B2; auto|]. split; [intros; rewrite B3; auto|]. split; auto.
Qed.

Lemma Grow_colorE g i : Grow g (upde g i e_color).
Proof.
  split; [|split; [|split; [|split]]].
  - repeat split; try reflexivity; cbn [upde ge]; destruct (Nat.eqb_spec e i); reflexivity.
  - reflexivity.
  - intros e. unfold asgE. cbn [upde ge]. destruct (Nat.eqb_spec e i); reflexivity.
  - intros e. unfold colE. cbn [upde ge]. destruct (Nat.eqb_spec e i); auto.
  - auto.
Qed.
Lemma Grow_colorV g j : Grow g (updv g j v_color).
Proof.
  split; [|split; [|split; [|split]]].
  - repeat split; try reflexivity; cbn [updv gv]; destruct (Nat.eqb_spec v j); reflexivity.
  - intros v. unfold asgV. cbn [updv gv]. destruct (Nat.eqb_spec v j); reflexivity.
  - reflexivity.
  - auto.
  - intros v. unfold colV. cbn [updv gv]. destruct (Nat.eqb_spec v j); auto.
Qed.

Lemma Same_assign g j i : Same g (set_assign g j i).
Proof.
  repeat split; cbn [set_assign upde updv ge gv].
  all: try (destruct (Nat.eqb_spec v j); reflexivity).
  all: destruct (Nat.eqb_spec e i); reflexivity.
Qed.
Lemma asgV_assign g j i v : asgV (set_assign g j i) v = if v =? j then Some i else asgV g v.
Proof. unfold asgV, set_assign. cbn [upde updv gv]. destruct (v =? j); reflexivity. Qed.
Lemma asgE_assign g j i e : asgE (set_assign g j i) e = if e =? i then Some j else asgE g e.
Proof. unfold asgE, set_assign. cbn [upde updv ge]. destruct (e =? i); reflexivity. Qed.
Lemma colE_assign g j i e : colE (set_assign g j i) e = colE g e.
Proof. unfold colE, set_assign. cbn [upde updv ge]. destruct (e =? i); reflexivity. Qed.
Lemma colV_assign g j i e : colV (set_assign g j i) e = colV g e.
Proof. unfold colV, set_assign. cbn [upde updv gv]. destruct (e =? j); reflexivity. Qed.

Lemma colE_color g i e : colE (upde g i e_color) e = if e =? i then true else colE g e.
Proof. unfold colE. cbn [upde ge]. destruct (e =? i); reflexivity. Qed.
Lemma colV_color g i e : colV (updv g i v_color) e = if e =? i then true else colV g e.
Proof. unfold colV. cbn [updv gv]. destruct (e =? i); reflexivity. Qed.

Lemma Grow_Mt g g' : Grow g g' -> Mt g -> Mt g'.
Proof. intros (_ & A & B & _) H v e. rewrite A, B. apply H. Qed.
Lemma Grow_Rg g g' : Grow g g' -> Rg g -> Rg g'.
Proof. intros (S & A & _) H v e. rewrite A. destruct S as (_ & -> & _). apply H. Qed.

(** number of equations without colour *)
Definition unc (g : graph) : nat := length (filter (fun e => negb (colE g e)) (seq 0 (ne g))).

Lemma filter_le {A} (p q : A -> bool) l :
  (forall x, p x = true -> q x = true) -> length (filter p l) <= length (filter q l).
Proof.
  intros H. induction l as [|a l IH]; cbn [filter]; [lia|].
  destruct (p a) eqn:P.
  - rewrite (H _ P). cbn [length]. lia.
  - destruct (q a); cbn [length]; lia.
Qed.
Lemma filter_lt {A} (p q : A -> bool) l a :
  (forall x, p x = true -> q x = true) -> In a l -> p a = false -> q a = true ->
  length (filter p l) < length (filter q l).
Proof.
  intros H. induction l as [|b l IH]; cbn [filter]; intros I P Q; [destruct I|].
  destruct I as [->|I].
  - rewrite P, Q. cbn [length]. pose proof (filter_le p q l H). lia.
  - specialize (IH I P Q). destruct (p b) eqn:Pb.
    + rewrite (H _ Pb). cbn [length]. lia.
    + destruct (q b); cbn [length]; lia.
Qed.

Lemma unc_grow g g' : Grow g g' -> unc g' <= unc g.
Proof.
  intros ((_ & N & _) & _ & _ & C & _). unfold unc. rewrite N. apply filter_le.
  intros e H. apply negb_true_iff in H. apply negb_true_iff.
  destruct (colE g e) eqn:E; auto. rewrite (C _ E) in H. discriminate.
Qed.
Lemma unc_color g i : i < ne g -> colE g i = false -> unc (upde g i e_color) < unc g.
Proof.
  intros Hi Ci. unfold unc. cbn [upde ne].
  apply filter_lt with (a := i).
  - intros e H. apply negb_true_iff in H. apply negb_true_iff.
    rewrite colE_color in H. destruct (e =? i); congruence.
  - apply in_seq. lia.
  - rewrite colE_color, Nat.eqb_refl. reflexivity.
  - rewrite Ci. reflexivity.
Qed.

Section Variant.
  Variable K : variant.
  (** the variables the procedure may match *)
  Variable C : graph -> nat -> Prop.
  Hypothesis C_same : forall g g' v, Same g g' -> (C g' v <-> C g v).
  Hypothesis look_some : forall g l j, look K g l = Some j -> In j l /\ C g j /\ asgV g j = None.
  Hypothesis look_none : forall g l, look K g l = None -> forall j, In j l -> C g j -> asgV g j <> None.
  Hypothesis pass_iff : forall g j, pass K g j = true <-> colV g j = false /\ C g j.

  Lemma augment_S f i g0 :
    augment K (S f) i g0 =
    let g := upde g0 i e_color in
    match look K g (varsE g i) with
    | Some j => Ret (set_assign g j i) true
    | None => augment_loop K f i (varsE g i) g
    end.
  Proof. reflexivity. Qed.

  Definition Closed (g : graph) (e : nat) : Prop :=
    forall v, In v (varsE g e) -> C g v -> exists k, asgV g v = Some k /\ colE g k = true.
  Definition Vinv (g : graph) : Prop :=
    forall v, colV g v = true -> exists k, asgV g v = Some k /\ colE g k = true.

  (** the same before [i] gets its colour *)
  Definition VinvX (g : graph) (i : nat) : Prop :=
    forall v, colV g v = true -> exists k, asgV g v = Some k /\ (colE g k = true \/ k = i).

  Lemma Closed_grow g g' e : Grow g g' -> Closed g e -> Closed g' e.
  Proof.
    intros (S & A & _ & Cc & _) H v I Cv.
    unfold varsE in *. destruct S as (S1 & S2 & S3 & S4).
    rewrite (proj1 (proj2 (S4 e))) in I.
    destruct (H v I) as (k & Hk & Ck).
    - apply (C_same g g'); [repeat split; auto; try apply S3; try apply S4|exact Cv].
    - exists k. split; [rewrite A; exact Hk|auto].
  Qed.

  (** what a failed call leaves behind *)
  Definition Fail (g0 g' : graph) (i : nat) : Prop :=
    Grow g0 g' /\ colE g' i = true /\
    (VinvX g0 i ->
       Vinv g' /\
       (forall e, colE g' e = true -> colE g0 e = true \/ Closed g' e)) /\
    (marks K = true -> forall e, colE g' e = true -> colE g0 e = false ->
       forall v, In v (varsE g' e) -> C g' v -> colV g' v = true) /\
    (forall v, colV g' v = true -> colV g0 v = false ->
       exists e, colE g' e = true /\ In v (varsE g' e) /\ C g' v) /\
    (forall e, colE g' e = true -> colE g0 e = false -> e = i \/
       exists v e', asgV g' v = Some e /\ colE g' e' = true /\ In v (varsE g' e') /\ C g' v).

  (** what a successful call leaves behind *)
  Definition Succ (g0 g' : graph) (i : nat) : Prop :=
    Same g0 g' /\
    (forall v e, (asgV g' v = Some e /\ asgE g0 i <> Some v) <-> asgE g' e = Some v) /\
    asgE g' i <> None /\
    (forall e, e <> i -> (asgE g' e = None <-> asgE g0 e = None)) /\
    (forall e v, asgE g' e = Some v ->
       (asgE g0 e = Some v /\ e <> i) \/ (In v (varsE g0 e) /\ C g0 v)) /\
    (forall e, colE g0 e = true -> e <> i -> asgE g' e = asgE g0 e) /\
    (forall v e, asgV g0 v = Some e -> colE g0 e = true \/ e = i -> asgV g' v = Some e) /\
    (forall v, asgV g0 v <> None -> asgV g' v <> None) /\
    (forall v e, asgV g' v = Some e -> asgV g0 v = Some e \/ (In v (varsE g0 e) /\ C g0 v)).

  (** the state of the loop over variables *)
  Definition LoopInv (g0 : graph) (i : nat) (vs : list nat) (js : list nat) (g : graph) : Prop :=
    Grow g0 g /\ colE g i = true /\
    (VinvX g0 i ->
       Vinv g /\
       (forall e, colE g e = true -> colE g0 e = true \/ e = i \/ Closed g e)) /\
    (marks K = true -> forall e, colE g e = true -> colE g0 e = false -> e <> i ->
       forall v, In v (varsE g e) -> C g v -> colV g v = true) /\
    (forall v, colV g v = true -> colV g0 v = false ->
       exists e, colE g e = true /\ In v (varsE g e) /\ C g v) /\
    (forall e, colE g e = true -> colE g0 e = false -> e = i \/
       exists v e', asgV g v = Some e /\ colE g e' = true /\ In v (varsE g e') /\ C g v) /\
    (forall v, In v vs -> C g v -> In v js \/
       ((marks K = true -> colV g v = true) /\
        (VinvX g0 i -> exists k, asgV g v = Some k /\ colE g k = true))).

  Lemma varsE_same g g' e : Same g g' -> varsE g' e = varsE g e.
  Proof. intros (_ & _ & _ & H). apply H. Qed.

  Lemma succ_lift g0 g2 g'' i j k :
    Mt g0 -> Grow g0 g2 -> colE g2 i = true ->
    asgV g2 j = Some k -> colE g2 k = false -> In j (varsE g2 i) -> C g2 j ->
    Succ g2 g'' k -> Succ g0 (set_assign g'' j i) i.
  Proof.
    intros M G Ci Hj Ck Ij Cj (S0 & S1 & S2 & S3 & S4 & S5 & S6 & S7 & S8).
    assert (M2 : Mt g2) by (eapply Grow_Mt; eauto).
    destruct G as (GS & GA & GE & GC & GV).
    assert (Nik : i <> k) by (intros ->; congruence).
    assert (Ekj : asgE g2 k = Some j) by (apply M2; exact Hj).
    assert (Ei : asgE g'' i = asgE g2 i) by (apply S5; auto).
    assert (Vj : asgV g'' j = Some k) by (apply S6; auto).
    split; [eapply Same_trans; [exact GS|]; eapply Same_trans; [exact S0|apply Same_assign]|].
    split; [|split; [|split; [|split; [|split; [|split; [|split]]]]]].
    - intros v e. rewrite asgV_assign, asgE_assign. rewrite <- GE.
      destruct (Nat.eqb_spec v j) as [->|Nv]; destruct (Nat.eqb_spec e i) as [->|Ne].
      + split; [reflexivity|]. intros _. split; [reflexivity|].
        intros Hc. apply M2 in Hc. congruence.
      + split.
        * intros [Hc _]. congruence.
        * intros Hc. apply S1 in Hc. destruct Hc as [_ Hc]. congruence.
      + split; [|congruence].
        intros [A B]. exfalso.
        assert (asgE g'' i = Some v) by (apply S1; split; [exact A|congruence]).
        congruence.
      + rewrite <- S1. split.
        * intros [A B]. split; [exact A|congruence].
        * intros [A B]. split; [exact A|].
          intros Hc. apply M2 in Hc. assert (asgV g'' v = Some i) by (apply S6; auto). congruence.
    - rewrite asgE_assign, Nat.eqb_refl. discriminate.
    - intros e Ne. rewrite asgE_assign. destruct (Nat.eqb_spec e i); [contradiction|].
      rewrite <- GE. destruct (Nat.eq_dec e k) as [->|Nk].
      + split; intros Hc; [contradiction|]. congruence.
      + apply S3; exact Nk.
    - intros e v. rewrite asgE_assign. destruct (Nat.eqb_spec e i) as [->|Ne].
      + intros Hv. injection Hv as <-. right. rewrite <- (varsE_same _ _ i GS).
        split; [exact Ij|]. apply (C_same g0 g2); auto.
      + intros Hv. apply S4 in Hv. destruct Hv as [[A B]|[A B]].
        * left. rewrite <- GE. auto.
        * right. rewrite <- (varsE_same _ _ e GS). split; [exact A|]. apply (C_same g0 g2); auto.
    - intros e Ce Ne. rewrite asgE_assign. destruct (Nat.eqb_spec e i); [contradiction|].
      rewrite <- GE. apply S5; [auto|]. intros ->. rewrite (GC _ Ce) in Ck. discriminate.
    - intros v e Hv Hor. rewrite asgV_assign.
      rewrite <- GA in Hv.
      destruct (Nat.eqb_spec v j) as [->|Nv].
      + exfalso. assert (e = k) by congruence. subst e.
        destruct Hor as [Hc|Hc]; [rewrite (GC _ Hc) in Ck; discriminate|congruence].
      + apply S6; [exact Hv|]. left. destruct Hor as [Hc| ->]; auto.
    - intros v Hv. rewrite asgV_assign. destruct (v =? j); [discriminate|].
      apply S7. rewrite GA. exact Hv.
    - intros v e. rewrite asgV_assign. destruct (Nat.eqb_spec v j) as [->|Nv].
      + intros He. injection He as <-. right. rewrite <- (varsE_same _ _ i GS).
        split; [exact Ij|]. apply (C_same g0 g2); auto.
      + intros He. apply S8 in He. rewrite GA in He. destruct He as [He|[A B]]; [auto|].
        right. rewrite <- (varsE_same _ _ e GS). split; [exact A|]. apply (C_same g0 g2); auto.
  Qed.

  Lemma augment_spec : forall f i g0,
    Mt g0 -> Rg g0 -> i < ne g0 ->
    match augment K f i g0 with
    | Ret g' true => Succ g0 g' i
    | Ret g' false => Fail g0 g' i
    | Null => False
    | NoFuel => f <= unc (upde g0 i e_color)
    end.
  Proof.
    induction f as [|f IH]; intros i g0 M R Hi; [cbn [augment]; lia|].
    rewrite augment_S. cbv zeta.
    set (g1 := upde g0 i e_color).
    assert (G1 : Grow g0 g1) by apply Grow_colorE.
    assert (C1 : colE g1 i = true) by (unfold g1; rewrite colE_color, Nat.eqb_refl; reflexivity).
    destruct (look K g1 (varsE g1 i)) as [j|] eqn:L.
    - (* a variable without assignment *)
      apply look_some in L. destruct L as (Ij & Cj & Nj).
      assert (Gs := G1). destruct Gs as (GS & GA & GE & GC & GV).
      assert (M1 : Mt g1) by (eapply Grow_Mt; eauto).
      split; [eapply Same_trans; [exact GS|apply Same_assign]|].
      split; [|split; [|split; [|split; [|split; [|split; [|split]]]]]].
      + intros v e. rewrite asgV_assign, asgE_assign. rewrite <- GE.
        destruct (Nat.eqb_spec v j) as [->|Nv]; destruct (Nat.eqb_spec e i) as [->|Ne].
        * split; [reflexivity|]. intros _. split; [reflexivity|].
          intros Hc. apply M1 in Hc. congruence.
        * split; [intros [Hc _]; congruence|]. intros Hc. apply M1 in Hc. congruence.
        * split; [|congruence]. intros [A B]. apply M1 in A. congruence.
        * rewrite <- (M1 v e). split; [tauto|]. intros A. split; [exact A|].
          intros B. apply M1 in B. congruence.
      + rewrite asgE_assign, Nat.eqb_refl. discriminate.
      + intros e Ne. rewrite asgE_assign. destruct (Nat.eqb_spec e i); [contradiction|]. rewrite GE. tauto.
      + intros e v. rewrite asgE_assign. destruct (Nat.eqb_spec e i) as [->|Ne].
        * intros Hv. injection Hv as <-. right. rewrite <- (varsE_same _ _ i GS).
          split; [exact Ij|]. apply (C_same g0 g1); auto.
        * rewrite GE. auto.
      + intros e Ce Ne. rewrite asgE_assign. destruct (Nat.eqb_spec e i); [contradiction|]. apply GE.
      + intros v e Hv Hor. rewrite asgV_assign. rewrite <- GA in Hv.
        destruct (Nat.eqb_spec v j) as [->|Nv]; [congruence|exact Hv].
      + intros v Hv. rewrite asgV_assign. destruct (v =? j); [discriminate|]. rewrite GA. exact Hv.
      + intros v e. rewrite asgV_assign. destruct (Nat.eqb_spec v j) as [->|Nv].
        * intros He. injection He as <-. right. rewrite <- (varsE_same _ _ i GS).
          split; [exact Ij|]. apply (C_same g0 g1); auto.
        * rewrite GA. auto.
    - (* all are assigned *)
      assert (LN := look_none _ _ L). clear L.
      set (vs := varsE g1 i) in *.
      assert (Loop : forall js g, LoopInv g0 i vs js g -> Grow g1 g -> incl js vs ->
         match augment_loop K f i js g with
         | Ret g' true => Succ g0 g' i
         | Ret g' false => Fail g0 g' i
         | Null => False
         | NoFuel => S f <= unc g1
         end).
      { induction js as [|j js IHj]; intros g LI G1g Inc.
        - cbn [augment_loop]. destruct LI as (A1 & A2 & A3 & A4 & A5 & A6 & A7).
          assert (Hvs : varsE g i = vs) by (apply varsE_same; apply G1g).
          split; [exact A1|]. split; [exact A2|]. split; [|split; [|split; [exact A5|exact A6]]].
          + intros V0. destruct (A3 V0) as [B1 B2]. split; [exact B1|].
            intros e Ce. destruct (B2 e Ce) as [Q|[Q|Q]]; [|subst e|]; auto.
            right. intros v Iv Cv. rewrite Hvs in Iv. destruct (A7 v Iv Cv) as [[]|[_ B]]. auto.
          + intros Mk e Ce Ne v Iv Cv. destruct (Nat.eq_dec e i) as [->|Nei].
            * rewrite Hvs in Iv. destruct (A7 v Iv Cv) as [[]|[B _]]. auto.
            * eapply A4; eauto.
        - cbn [augment_loop]. fold (augment_loop K f i).
          assert (Inc' : incl js vs) by (intros x Hx; apply Inc; right; exact Hx).
          destruct (pass K g j) eqn:P.
          + apply pass_iff in P. destruct P as [Pc PC].
            set (g2 := if marks K then updv g j v_color else g).
            assert (G2 : Grow g g2) by (unfold g2; destruct (marks K); [apply Grow_colorV|apply Grow_refl]).
            assert (Ij : In j vs) by (apply Inc; left; reflexivity).
            assert (CE2 : forall e, colE g2 e = colE g e) by (unfold g2; destruct (marks K); reflexivity).
            assert (CV2 : forall v, colV g2 v = if marks K then (if v =? j then true else colV g v) else colV g v).
            { unfold g2. destruct (marks K); [apply colV_color|reflexivity]. }
            clearbody g2.
            assert (G12 : Grow g1 g2) by (eapply Grow_trans; eauto).
            assert (Gg : Grow g0 g) by apply LI.
            assert (G02 : Grow g0 g2) by (eapply Grow_trans; eauto).
            assert (Cj2 : C g2 j) by (apply (C_same g g2); [apply G2|exact PC]).
            assert (Cj1 : C g1 j) by (apply (C_same g1 g2); [apply G12|exact Cj2]).
            assert (Hvs2 : varsE g2 i = vs) by (apply varsE_same; apply G12).
            destruct (v_asg (gv g2 j)) as [k|] eqn:Aj; fold (asgV g2 j) in Aj.
            2: { apply (LN j Ij Cj1). destruct G12 as (_ & A & _). rewrite <- A. exact Aj. }
            fold (colE g2 k).
            destruct (colE g2 k) eqn:Ck.
            * (* the equation of j was visited *)
              apply IHj; [|exact G12|exact Inc'].
              destruct LI as (A1 & A2 & A3 & A4 & A5 & A6 & A7).
              assert (SG := proj1 G2).
              split; [exact G02|]. split; [rewrite CE2; exact A2|].
              split; [|split; [|split; [|split]]].
              -- intros V0. destruct (A3 V0) as [B1 B2]. split.
                 ++ intros v Cv. rewrite CV2 in Cv. destruct (marks K).
                    ** destruct (Nat.eqb_spec v j) as [E|Nv]; [rewrite E; exists k; auto|].
                       destruct (B1 v Cv) as (k' & Q1 & Q2). exists k'.
                       destruct G2 as (_ & Q & _). rewrite Q, CE2. auto.
                    ** destruct (B1 v Cv) as (k' & Q1 & Q2). exists k'.
                       destruct G2 as (_ & Q & _). rewrite Q, CE2. auto.
                 ++ intros e Ce. rewrite CE2 in Ce. destruct (B2 e Ce) as [Q|[Q|Q]]; [left; exact Q|right; left; exact Q|].
                    right. right. exact (Closed_grow _ _ e G2 Q).
              -- intros Mk e Ce Ne Nei v Iv Cv. rewrite CE2 in Ce.
                 rewrite (varsE_same _ _ e SG) in Iv.
                 assert (colV g v = true) by (eapply A4; eauto; apply (C_same g g2); auto).
                 destruct G2 as (_ & _ & _ & _ & Q). apply Q. assumption.
              -- intros v Cv Nv. rewrite CV2 in Cv. destruct (marks K).
                 ++ destruct (Nat.eqb_spec v j) as [E|Nvj].
                    ** rewrite E. exists i. rewrite CE2, Hvs2. auto.
                    ** destruct (A5 v Cv Nv) as (e & Q1 & Q2 & Q3). exists e.
                       rewrite CE2, (varsE_same _ _ e SG). split; auto. split; auto.
                       apply (C_same g g2); auto.
                 ++ destruct (A5 v Cv Nv) as (e & Q1 & Q2 & Q3). exists e.
                    rewrite CE2, (varsE_same _ _ e SG). split; auto. split; auto.
                    apply (C_same g g2); auto.
              -- intros e Ce Ne. rewrite CE2 in Ce. destruct (A6 e Ce Ne) as [?|(v & e' & Q1 & Q2 & Q3 & Q4)]; auto.
                 right. exists v, e'. destruct G2 as (_ & Q & _). rewrite Q, CE2, (varsE_same _ _ e' SG).
                 split; auto. split; auto. split; auto. apply (C_same g g2); auto.
              -- intros v Iv Cv. destruct (Nat.eq_dec v j) as [->|Nvj].
                 ++ right. split.
                    ** intros Mk. rewrite CV2, Mk, Nat.eqb_refl. reflexivity.
                    ** intros _. exists k. auto.
                 ++ assert (Cv' : C g v) by (apply (C_same g g2); auto).
                    destruct (A7 v Iv Cv') as [[->|B]|[B1 B2]]; [contradiction|auto|].
                    right. destruct G2 as (_ & Q & _ & Q' & Q''). split; [auto|].
                    intros V0. destruct (B2 V0) as (k' & ? & ?). exists k'. rewrite Q. auto.
            * (* recursion *)
              assert (M2 : Mt g2) by (eapply Grow_Mt; eauto).
              assert (R2 : Rg g2) by (eapply Grow_Rg; eauto).
              assert (Hk : k < ne g2) by (eapply R2; eauto).
              specialize (IH k g2 M2 R2 Hk).
              destruct (augment K f k g2) as [g'' [|]| |].
              -- eapply succ_lift; eauto.
                 ++ rewrite CE2. apply LI.
                 ++ rewrite Hvs2. exact Ij.
              -- (* failed call *)
                 destruct IH as (F1 & F2 & F3 & F4 & F5 & F6).
                 destruct LI as (A1 & A2 & A3 & A4 & A5 & A6 & A7).
                 assert (G0' : Grow g0 g'') by (eapply Grow_trans; eauto).
                 assert (SG := proj1 G2). assert (SF := proj1 F1).
                 assert (SGF : Same g g'') by (eapply Same_trans; eauto).
                 assert (GGF : Grow g g'') by (eapply Grow_trans; eauto).
                 assert (VI : VinvX g0 i -> VinvX g2 k).
                 { intros V0 v Cv. destruct (A3 V0) as [B1 _]. rewrite CV2 in Cv.
                   assert (Q := proj1 (proj2 G2)).
                   destruct (marks K); [destruct (Nat.eqb_spec v j) as [E|Nv]|].
                   - rewrite E. exists k. auto.
                   - destruct (B1 v Cv) as (k' & Q1 & Q2). exists k'. rewrite Q, CE2. auto.
                   - destruct (B1 v Cv) as (k' & Q1 & Q2). exists k'. rewrite Q, CE2. auto. }
                 apply IHj; [|eapply Grow_trans; [exact G1g|exact GGF]|exact Inc'].
                 split; [exact G0'|]. split; [apply GGF; exact A2|].
                 split; [|split; [|split; [|split]]].
                 ++ intros V0. destruct (F3 (VI V0)) as [B1 B2]. split; [exact B1|].
                    intros e Ce. destruct (B2 e Ce) as [Q|Q]; auto.
                    rewrite CE2 in Q. destruct (A3 V0) as [_ B3].
                    destruct (B3 e Q) as [?|[?|?]]; auto.
                    right. right. eapply Closed_grow; eauto.
                 ++ intros Mk e Ce Ne Nei v Iv Cv.
                    destruct (colE g2 e) eqn:E2.
                    ** rewrite CE2 in E2. rewrite (varsE_same _ _ e SGF) in Iv.
                       apply GGF. eapply A4; eauto. apply (C_same g g''); auto.
                    ** eapply F4; eauto.
                 ++ intros v Cv Nv. destruct (colV g2 v) eqn:E2.
                    ** rewrite CV2 in E2.
                       assert (Hor : v = j \/ colV g v = true).
                       { destruct (marks K); [destruct (Nat.eqb_spec v j)|]; auto. }
                       destruct Hor as [->|Hc].
                       --- exists i. split; [apply GGF; exact A2|].
                           rewrite (varsE_same _ _ i SF), Hvs2. split; [exact Ij|].
                           apply (C_same g2 g''); auto.
                       --- destruct (A5 v Hc Nv) as (e & Q1 & Q2 & Q3). exists e.
                           split; [apply GGF; exact Q1|]. rewrite (varsE_same _ _ e SGF). split; [exact Q2|].
                           apply (C_same g g''); auto.
                    ** apply F5; auto.
                 ++ intros e Ce Ne. destruct (colE g2 e) eqn:E2.
                    ** rewrite CE2 in E2. destruct (A6 e E2 Ne) as [?|(v & e' & Q1 & Q2 & Q3 & Q4)]; auto.
                       right. exists v, e'. split; [rewrite (proj1 (proj2 GGF)); exact Q1|].
                       split; [apply GGF; exact Q2|]. rewrite (varsE_same _ _ e' SGF). split; [exact Q3|].
                       apply (C_same g g''); auto.
                    ** right. destruct (F6 e Ce E2) as [->|Q]; [|exact Q].
                       exists j, i. split; [rewrite (proj1 (proj2 F1)); exact Aj|].
                       split; [apply GGF; exact A2|]. rewrite (varsE_same _ _ i SF), Hvs2.
                       split; [exact Ij|]. apply (C_same g2 g''); auto.
                 ++ intros v Iv Cv. destruct (Nat.eq_dec v j) as [->|Nvj].
                    ** right. split.
                       --- intros Mk. apply F1. rewrite CV2, Mk, Nat.eqb_refl. reflexivity.
                       --- intros _. exists k. split; [rewrite (proj1 (proj2 F1)); exact Aj|exact F2].
                    ** assert (Cv' : C g v) by (apply (C_same g g''); auto).
                       destruct (A7 v Iv Cv') as [[->|B]|[B1 B2]]; [contradiction|auto|].
                       right. split; [intros Mk; apply GGF; auto|].
                       intros V0. destruct (B2 V0) as (k' & ? & ?). exists k'.
                       rewrite (proj1 (proj2 GGF)). split; [assumption|]. apply GGF. assumption.
              -- exact IH.
              -- assert (unc (upde g2 k e_color) < unc g2) by (apply unc_color; auto).
                 assert (unc g2 <= unc g1) by (apply unc_grow; exact G12). lia.
          + (* skipped *)
            apply IHj; [|exact G1g|exact Inc'].
            destruct LI as (A1 & A2 & A3 & A4 & A5 & A6 & A7).
            split; [exact A1|]. split; [exact A2|]. split; [exact A3|]. split; [exact A4|].
            split; [exact A5|]. split; [exact A6|].
            intros v Iv Cv. destruct (A7 v Iv Cv) as [[->|B]|B]; auto.
            right.
            assert (Cc : colV g v = true).
            { destruct (colV g v) eqn:E; auto. exfalso.
              assert (pass K g v = true) by (apply pass_iff; auto). congruence. }
            split; [auto|]. intros V0. apply (proj1 (A3 V0)). exact Cc. }
      specialize (Loop vs g1).
      destruct (augment_loop K f i vs g1) as [g' [|]| |]; apply Loop.
      all: try apply Grow_refl.
      all: try (intros x Hx; exact Hx).
      all: split; [exact G1|]; split; [exact C1|]; split; [|split; [|split; [|split]]].
      all: try (intros V0; split;
        [intros v Cv; destruct (V0 v Cv) as (k & Q1 & Q2); exists k;
         rewrite (proj1 (proj2 G1)); split; [exact Q1|];
         destruct Q2 as [Q2| ->]; [apply G1; exact Q2|exact C1]
        |intros e Ce; unfold g1 in Ce; rewrite colE_color in Ce;
         destruct (Nat.eqb_spec e i); auto]).
      all: try (intros Mk e Ce Ne Nei; exfalso; unfold g1 in Ce; rewrite colE_color in Ce;
        destruct (Nat.eqb_spec e i); congruence).
      all: try (intros v Cv Nv; exfalso; change (colV g0 v = true) in Cv; congruence).
      all: try (intros e Ce Ne; left; unfold g1 in Ce; rewrite colE_color in Ce;
        destruct (Nat.eqb_spec e i); congruence).
      all: intros v Iv Cv; left; exact Iv.
  Qed.
End Variant.

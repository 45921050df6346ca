(** * A pass of the method of Soares and Secchi *)
From Coq Require Import List Arith Bool Lia.
From Verif Require Import Match_model Match_spec Match_proofs Match_struct Match_thm Match_pant
  Soares_model Soares_path Soares_diff.
Import ListNotations.

(** equations which are marked or were differentiated *)
Definition held (g : graph) (M : list nat) (e : nat) : Prop := In e M \/ e_der (ge g e) <> None.

(** the marked equations have more members than highest derivatives *)
Definition few (g : graph) (M : list nat) : Prop :=
  exists k phi, In k M /\
    (forall v e, In e M -> In v (varsE g e) -> highest_derivative g v -> In (phi v) M /\ phi v <> k) /\
    (forall v e v' e', In e M -> In v (varsE g e) -> highest_derivative g v ->
       In e' M -> In v' (varsE g e') -> highest_derivative g v' -> phi v = phi v' -> v = v').

Record PI (g : graph) (M : list nat) : Prop := {
  p_st : St g;
  p_del : forall v, v < nv g -> v_del (gv g v) = false;
  p_mt : Mt g;
  p_in : forall v e, asgV g v = Some e -> In v (varsE g e);
  p_cv : forall v, colV g v = false;
  p_full : full g (held g M);
  p_low : forall v e, asgV g v = Some e -> highest_derivative g v \/ held g M e;
  p_col : forall e, colE g e = true -> held g M e;
  p_none : forall e, e_der (ge g e) <> None -> forall v, In v (varsE g e) -> v_der (gv g v) <> None;
  p_asg : forall e, e_der (ge g e) <> None -> asgE g e <> None;
  p_nd : NoDup M;
  p_m : forall e, In e M -> e < ne g /\ e_der (ge g e) = None;
  p_few : M <> [] -> few g M }.

Lemma in_orig g e v : St g -> (forall v, v < nv g -> v_del (gv g v) = false) -> (In v (varsE g e) <-> In v (e_orig (ge g e))).
Proof. intros HS HD. unfold varsE. rewrite (s_var g HS). split; [tauto|]. intros I. split; [exact I|]. apply HD. apply (s_or g HS) in I. apply I. Qed.

Lemma p_rg g M : PI g M -> Rg g.
Proof. intros H v e A. apply (p_in _ _ H) in A. apply (s_var g (p_st _ _ H)) in A. destruct A as [A _]. apply (s_or g (p_st _ _ H)) in A. apply A. Qed.

Lemma held_lt g M e : PI g M -> held g M e -> e < ne g.
Proof.
  intros H [I|D]; [apply (p_m _ _ H e I)|]. destruct (e_der (ge g e)) as [d|] eqn:E; [|congruence].
  apply (s_ede g (p_st _ _ H)) in E. lia.
Qed.

(** ** What does not depend on assignments and colours *)
Lemma held_same g g' M e : Same g g' -> (held g' M e <-> held g M e).
Proof. intros (_ & _ & _ & E). unfold held. destruct (E e) as (_ & _ & -> & _). tauto. Qed.
Lemma high_same g g' v : Same g g' -> (highest_derivative g' v <-> highest_derivative g v).
Proof. intros S0. apply (allowed_same DepthA g g' v S0). Qed.
Lemma few_same g g' M : Same g g' -> few g M -> few g' M.
Proof.
  intros S0 (k & phi & Ik & A & B). exists k, phi. split; [exact Ik|]. split.
  - intros v e I J D. rewrite (varsE_same g g' e S0) in J. apply (high_same g g' v S0) in D. exact (A v e I J D).
  - intros v e v' e' I J D I' J' D'.
    rewrite (varsE_same g g' e S0) in J. rewrite (varsE_same g g' e' S0) in J'.
    apply (high_same g g' v S0) in D. apply (high_same g g' v' S0) in D'. exact (B v e v' e' I J D I' J' D').
Qed.

Lemma PI_next g g' M M' : Same g g' -> PI g M ->
  Mt g' -> (forall v e, asgV g' v = Some e -> In v (varsE g e)) -> (forall v, colV g' v = false) ->
  (forall e v, held g M' e -> In v (varsE g e) -> highest_derivative g v -> exists k, asgV g' v = Some k /\ held g M' k) ->
  (forall v e, asgV g' v = Some e -> highest_derivative g v \/ held g M' e) ->
  (forall e, colE g' e = true -> held g M' e) ->
  (forall e, asgE g e <> None -> asgE g' e <> None) ->
  NoDup M' -> (forall e, In e M' -> e < ne g /\ e_der (ge g e) = None) -> (M' <> [] -> few g M') ->
  PI g' M'.
Proof.
  intros S0 H Hm Hi Hc Hf Hl Hco Ha Hn HM Hw. constructor; auto.
  - eapply St_same; [exact S0|apply H].
  - intros v L. destruct S0 as (N & _ & V & _). destruct (V v) as (-> & _). apply H. lia.
  - intros v e A. rewrite (varsE_same g g' e S0). auto.
  - intros e v P I D. rewrite (held_same g g' M' e S0) in P. rewrite (varsE_same g g' e S0) in I.
    apply (high_same g g' v S0) in D. destruct (Hf e v P I D) as (k & A & B). exists k. split; [exact A|].
    apply (held_same g g' M' k S0). exact B.
  - intros v e A. destruct (Hl v e A) as [D|D]; [left; apply (high_same g g' v S0)|right; apply (held_same g g' M' e S0)]; exact D.
  - intros e C. apply (held_same g g' M' e S0). auto.
  - intros e D v I. rewrite (varsE_same g g' e S0) in I. destruct S0 as (_ & _ & V & E).
    destruct (V v) as (_ & _ & -> & _). destruct (E e) as (_ & _ & Q & _). rewrite Q in D. eapply (p_none _ _ H); eauto.
  - intros e D. destruct S0 as (_ & _ & _ & E). destruct (E e) as (_ & _ & Q & _). rewrite Q in D.
    apply Ha. apply (p_asg _ _ H). exact D.
  - intros e I. destruct S0 as (_ & -> & _ & E). destruct (E e) as (_ & _ & -> & _). auto.
  - intros N. eapply few_same; eauto.
Qed.

(** ** Marking *)
Lemma insert_In e m x : In x (insert_set e m) <-> In x m \/ x = e.
Proof.
  unfold insert_set. destruct (existsb (Nat.eqb e) m) eqn:X.
  - apply existsb_eqb in X. intuition congruence.
  - rewrite in_app_iff. cbn [In]. intuition congruence.
Qed.
Lemma insert_NoDup e m : NoDup m -> NoDup (insert_set e m).
Proof.
  intros N. unfold insert_set. destruct (existsb (Nat.eqb e) m) eqn:X; [exact N|].
  apply NoDup_snoc; [exact N|]. rewrite <- existsb_eqb. congruence.
Qed.

Lemma mark_ok l : forall g m, NoDup m -> NoDup l ->
  let '(g', m') := fold_left mark_one l (g, m) in
  Same g g' /\ gv g' = gv g /\ (forall e, asgE g' e = asgE g e) /\
  (forall e, colE g' e = true <-> colE g e = true /\ (e_der (ge g e) <> None \/ ~ In e l)) /\
  NoDup m' /\ (forall e, In e m' <-> In e m \/ (In e l /\ colE g e = true /\ e_der (ge g e) = None)).
Proof.
  induction l as [|a l IH]; intros g m Nm Nl; cbn [fold_left].
  - split; [apply Same_refl|]. split; [reflexivity|]. split; [reflexivity|]. split; [|split; [exact Nm|]].
    + intros e. cbn [In]. tauto.
    + intros e. cbn [In]. tauto.
  - inversion Nl as [|? ? Na Nl']; subst. unfold mark_one at 2.
    destruct (e_col (ge g a) && is_none (e_der (ge g a))) eqn:C.
    + apply andb_true_iff in C. destruct C as [Ca Da]. apply is_none_true in Da. fold (colE g a) in Ca.
      set (g1 := upde g a e_uncolor).
      assert (S1 : Same g g1).
      { repeat split; try reflexivity; cbn [g1 upde ge]; destruct (Nat.eqb_spec e a); reflexivity. }
      assert (A1 : forall e, asgE g1 e = asgE g e) by (intros e; unfold asgE; cbn [g1 upde ge]; destruct (e =? a); reflexivity).
      assert (C1 : forall e, colE g1 e = if e =? a then false else colE g e) by (intros e; unfold colE; cbn [g1 upde ge]; destruct (e =? a); reflexivity).
      specialize (IH g1 (insert_set a m) (insert_NoDup a m Nm) Nl').
      destruct (fold_left mark_one l (g1, insert_set a m)) as [g' m'].
      destruct IH as (B1 & B2 & B3 & B4 & B5 & B6).
      assert (Dq : forall e, e_der (ge g1 e) = e_der (ge g e)) by (intros e; apply S1).
      split; [eapply Same_trans; eauto|]. split; [exact B2|]. split; [intros e; rewrite B3; apply A1|].
      split; [|split; [exact B5|]].
      * intros e. rewrite B4, C1, Dq. cbn [In]. destruct (Nat.eqb_spec e a) as [->|N].
        -- split; [intros [Q _]; discriminate|]. intros [_ [Q|Q]]; tauto.
        -- intuition congruence.
      * intros e. rewrite B6, insert_In, C1, Dq. cbn [In]. destruct (Nat.eqb_spec e a) as [->|N].
        -- split; intros _; [right; auto|left; right; reflexivity].
        -- split; intuition congruence.
    + specialize (IH g m Nm Nl'). destruct (fold_left mark_one l (g, m)) as [g' m'].
      destruct IH as (B1 & B2 & B3 & B4 & B5 & B6).
      assert (Q : ~ (colE g a = true /\ e_der (ge g a) = None)).
      { intros [Q1 Q2]. unfold colE in Q1. rewrite Q1, Q2 in C. discriminate. }
      split; [exact B1|]. split; [exact B2|]. split; [exact B3|]. split; [|split; [exact B5|]].
      * intros e. rewrite B4. cbn [In]. split; [|tauto]. intros [X [Y|Y]]; split; auto.
        destruct (Nat.eq_dec e a) as [->|N]; [|right; intuition congruence].
        left. intros Z. apply Q. auto.
      * intros e. rewrite B6. cbn [In]. split; [tauto|]. intros [X|([<-|X] & Y & Z)]; auto.
        exfalso. apply Q. auto.
Qed.

(** ** One equation of the loop *)
Definition no_choice (g : graph) (k : nat) : Prop :=
  ~ exists r, representatives (any_variable g) g (fun e => e = k \/ matched g e) r.

Lemma visit_ok g M k : PI g M -> k < ne g ->
  match visit g M k with
  | VOk g' M' => PI g' M' /\ Same g g' /\ (forall e, asgE g e <> None \/ e = k -> asgE g' e <> None) /\ incl M M'
  | VThrow g' => Same g g' /\ ((forall e, e_der (ge g e) = None) -> no_choice g k)
  | VNull => False
  | VDepth => False
  end.
Proof.
  intros H Hk. unfold visit. destruct (e_asg (ge g k)) as [v|] eqn:Ek; fold (asgE g k) in Ek.
  { split; [exact H|]. split; [apply Same_refl|]. split; [|apply incl_refl]. intros e [A| ->]; congruence. }
  assert (HA : procedure DepthA) by (right; reflexivity). assert (HD : procedure Depth) by (left; reflexivity).
  assert (M0 := p_mt _ _ H). assert (R0 := p_rg _ _ H).
  assert (Dk : e_der (ge g k) = None).
  { destruct (e_der (ge g k)) eqn:D; [|reflexivity]. exfalso. apply (p_asg _ _ H k); [congruence|exact Ek]. }
  pose proof (augment_ok DepthA HA (S (ne g)) k g M0 R0 Hk) as Ok.
  destruct (augment DepthA (S (ne g)) k g) as [g1 [|]| |] eqn:E1.
  - (* found *)
    destruct (augmentA_full (held g M) _ _ _ _ M0 R0 Hk (p_full _ _ H) E1) as (_ & _ & FV).
    assert (CV := augmentA_colV _ _ _ _ _ E1).
    destruct Ok as (S0 & S1 & S2 & S3 & S4 & S5 & S6 & S7 & S8).
    assert (SU : Same g (uncolor_eqs g1)) by (eapply Same_trans; [exact S0|repeat split]).
    assert (MU : forall e, asgE g e <> None \/ e = k -> asgE (uncolor_eqs g1) e <> None).
    { intros e Q. change (asgE g1 e <> None). destruct (Nat.eq_dec e k) as [->|N]; [exact S2|].
      destruct Q as [Q|Q]; [|contradiction]. intros Z. apply Q. apply (S3 e N). exact Z. }
    split; [|split; [exact SU|]; split; [exact MU|apply incl_refl]].
    apply (PI_next g _ M M SU H).
    + intros v e. change (asgV g1 v = Some e <-> asgE g1 e = Some v). rewrite <- S1, Ek.
      split; [intros A; split; [exact A|discriminate]|tauto].
    + intros v e A. change (asgV g1 v = Some e) in A. destruct (S8 v e A) as [B|[B _]]; [apply (p_in _ _ H); exact B|exact B].
    + intros v. change (colV g1 v = false). rewrite CV. apply H.
    + intros e v P I D. destruct (p_full _ _ H e v P I D) as (x & A & Px). exists x. split; [|exact Px].
      change (asgV g1 v = Some x). apply FV; auto.
    + intros v e A. change (asgV g1 v = Some e) in A. destruct (S8 v e A) as [B|[_ B]]; [apply (p_low _ _ H); exact B|left; exact B].
    + intros e C. discriminate.
    + intros e Q. apply MU. auto.
    + apply H.
    + apply H.
    + apply H.
  - (* not found *)
    destruct Ok as (G1 & C1 & F3 & _).
    assert (CV := augmentA_colV _ _ _ _ _ E1).
    assert (VX : VinvX g k) by (intros v Cv; rewrite (p_cv _ _ H) in Cv; discriminate).
    destruct (F3 VX) as [_ F4]. clear F3.
    assert (S1 := proj1 G1). assert (N1 : ne g1 = ne g) by apply S1.
    destruct G1 as (_ & GA & GE & GC & _).
    assert (Dq : forall e, e_der (ge g1 e) = e_der (ge g e)) by (intros e; apply S1).
    pose proof (mark_ok (seq 0 (ne g1)) g1 M (p_nd _ _ H) (seq_NoDup _ _)) as MK.
    unfold mark_coloured. destruct (fold_left mark_one (seq 0 (ne g1)) (g1, M)) as [g2 M2].
    destruct MK as (S2 & V2 & A2 & C2 & Nd2 & I2).
    assert (S02 : Same g g2) by (eapply Same_trans; eauto).
    assert (N2 : ne g2 = ne g) by (apply S02).
    assert (AV : forall v, asgV g2 v = asgV g v) by (intros v; unfold asgV; rewrite V2; apply GA).
    assert (AE : forall e, asgE g2 e = asgE g e) by (intros e; rewrite A2; apply GE).
    assert (Inc : incl M M2) by (intros x Hx; apply I2; auto).
    assert (Hin : forall e, held g M e -> held g M2 e) by (intros e [I|D]; [left; auto|right; exact D]).
    assert (Hco : forall e, colE g1 e = true -> held g M2 e).
    { intros e C. destruct (e_der (ge g e)) as [d|] eqn:D; [right; congruence|].
      destruct (F4 e C) as [Q|Cl].
      - apply Hin. apply (p_col _ _ H). exact Q.
      - destruct (le_lt_dec (ne g) e) as [L|L].
        + exfalso.
          (* an equation out of range has no colour *)
          pose proof (augment_ok DepthA HA (S (ne g)) k g M0 R0 Hk) as Ok'. rewrite E1 in Ok'.
          destruct Ok' as (_ & _ & _ & _ & _ & F6).
          destruct (colE g e) eqn:Ce.
          * apply (p_col _ _ H) in Ce. apply (held_lt g M e H) in Ce. lia.
          * destruct (F6 e C Ce) as [->|(v & e' & Av & _)]; [lia|]. rewrite GA in Av. apply R0 in Av. lia.
        + left. apply I2. right. split; [apply in_seq; lia|]. split; [exact C|rewrite Dq; exact D]. }
    assert (Km : In k M2).
    { apply I2. right. split; [apply in_seq; lia|]. split; [exact C1|rewrite Dq; exact Dk]. }
    assert (Fu : forall e v, held g M2 e -> In v (varsE g e) -> highest_derivative g v ->
       exists x, asgV g v = Some x /\ held g M2 x).
    { intros e v P I D.
      assert (Old : held g M e -> exists x, asgV g v = Some x /\ held g M2 x).
      { intros P'. destruct (p_full _ _ H e v P' I D) as (x & Ax & Px). exists x. auto. }
      destruct P as [P|P]; [|apply Old; right; exact P].
      apply I2 in P. destruct P as [P|(_ & C & De)]; [apply Old; left; exact P|].
      destruct (F4 e C) as [Q|Cl]; [apply Old; apply (p_col _ _ H); exact Q|].
      destruct (Cl v) as (x & Ax & Cx).
      - rewrite (varsE_same g g1 e S1). exact I.
      - apply (high_same g g1 v S1). exact D.
      - rewrite GA in Ax. exists x. split; [exact Ax|apply Hco; exact Cx]. }
    assert (Fw : few g M2).
    { exists k, (fun v => match asgV g v with Some x => x | None => 0 end). split; [exact Km|].
      assert (Z : forall v e, In e M2 -> In v (varsE g e) -> highest_derivative g v ->
         exists x, asgV g v = Some x /\ In x M2 /\ x <> k).
      { intros v e I J D. destruct (Fu e v (or_introl I) J D) as (x & Ax & Px). exists x. split; [exact Ax|]. split.
        - destruct Px as [Px|Px]; [exact Px|]. exfalso. apply (p_none _ _ H x Px v (p_in _ _ H v x Ax)). apply D.
        - intros ->. apply M0 in Ax. congruence. }
      split.
      - intros v e I J D. destruct (Z v e I J D) as (x & -> & A & B). auto.
      - intros v e v' e' I J D I' J' D'. destruct (Z v e I J D) as (x & A & _), (Z v' e' I' J' D') as (x' & A' & _).
        rewrite A, A'. intros ->. apply M0 in A. apply M0 in A'. congruence. }
    assert (M2m : forall e, In e M2 -> e < ne g /\ e_der (ge g e) = None).
    { intros e I. apply I2 in I. destruct I as [I|(I & _ & D)]; [apply (p_m _ _ H); exact I|].
      apply in_seq in I. rewrite Dq in D. split; [lia|exact D]. }
    assert (Mg2 : Mt g2) by (intros v e; rewrite AV, AE; apply M0).
    assert (Rg2 : Rg g2) by (intros v e; rewrite AV, N2; apply R0).
    assert (Hk2 : k < ne g2) by (rewrite N2; exact Hk).
    assert (Ins : inside g2 (held g M2)).
    { intros e v x P I A. rewrite (varsE_same g g2 e S02) in I. rewrite AV in A.
      destruct (p_low _ _ H v x A) as [D|Px]; [|auto].
      destruct (Fu e v P I D) as (x' & A' & P'). assert (x' = x) by congruence. subst x'. exact P'. }
    pose proof (augment_ok Depth HD (S (ne g2)) k g2 Mg2 Rg2 Hk2) as Ok.
    destruct (augment Depth (S (ne g2)) k g2) as [g3 [|]| |] eqn:E3.
    + destruct (augment_inside Depth (held g M2) HD _ _ _ _ _ Mg2 Rg2 Hk2 Ins (or_introl Km) E3) as (_ & J2 & J3).
      destruct Ok as (T0 & T1 & T2 & T3 & T4 & T5 & T6 & T7 & T8).
      assert (SU : Same g (uncolor_vars g3)).
      { eapply Same_trans; [exact S02|]. eapply Same_trans; [exact T0|repeat split]. }
      assert (MU : forall e, asgE g e <> None \/ e = k -> asgE (uncolor_vars g3) e <> None).
      { intros e Q. change (asgE g3 e <> None). destruct (Nat.eq_dec e k) as [->|N]; [exact T2|].
        destruct Q as [Q|Q]; [|contradiction]. intros Z. apply Q. rewrite <- AE. apply (T3 e N). exact Z. }
      split; [|split; [exact SU|]; split; [exact MU|exact Inc]].
      apply (PI_next g _ M M2 SU H).
      * intros v e. change (asgV g3 v = Some e <-> asgE g3 e = Some v). rewrite <- T1, AE, Ek.
        split; [intros A; split; [exact A|discriminate]|tauto].
      * intros v e A. change (asgV g3 v = Some e) in A. destruct (T8 v e A) as [B|[B _]].
        -- rewrite AV in B. apply (p_in _ _ H). exact B.
        -- rewrite (varsE_same g g2 e S02) in B. exact B.
      * reflexivity.
      * intros e v P I D. destruct (Fu e v P I D) as (x & A & Px).
        assert (Q : asgV g3 v <> None) by (apply T7; rewrite AV; congruence).
        destruct (asgV g3 v) as [y|] eqn:Y; [|congruence]. exists y. split; [exact Y|].
        destruct (J2 v y Y) as [B|B]; [|exact B]. rewrite AV in B. assert (y = x) by congruence. subst y. exact Px.
      * intros v e A. change (asgV g3 v = Some e) in A. destruct (J2 v e A) as [B|B]; [|auto].
        rewrite AV in B. destruct (p_low _ _ H v e B); auto.
      * intros e C. change (colE g3 e = true) in C. destruct (J3 e C) as [B|B]; [|exact B].
        apply C2 in B. apply Hco. apply B.
      * intros e Q. apply MU. auto.
      * exact Nd2.
      * exact M2m.
      * intros _. exact Fw.
    + destruct Ok as ((S3 & _) & _). split; [eapply Same_trans; eauto|].
      intros ND (r & R1 & R2).
      apply (C27_failure_means_no_matching Depth (S (ne g2)) k g2 g3 HD Mg2 Rg2 Hk2); auto.
      * intros Q. apply Q. fold (asgE g2 k). rewrite AE. exact Ek.
      * split; [intros v; unfold colV in *; rewrite V2; fold (colV g1 v); unfold colV; rewrite CV; apply H|].
        intros e. fold (colE g2 e). destruct (colE g2 e) eqn:C; [|reflexivity]. exfalso.
        apply C2 in C. destruct C as [C [Q|Q]]; [rewrite Dq in Q; apply Q, ND|].
        apply Q. apply in_seq. assert (L : e < ne g); [|lia].
        destruct (Hco e C) as [I|D]; [apply M2m; exact I|exfalso; apply D, ND].
      * exists r. split.
        -- intros e P. assert (P' : e = k \/ matched g e).
           { destruct P as [P|P]; [auto|]. right. unfold matched in *. fold (asgE g2 e) in P. rewrite AE in P. exact P. }
           destruct (R1 e P') as [O _]. split; [|exact I]. unfold occurs. fold (varsE g2 e). rewrite (varsE_same g g2 e S02). exact O.
        -- intros e e' P P'. apply R2.
           ++ destruct P as [P|P]; [auto|]. right. unfold matched in *. fold (asgE g2 e) in P. rewrite AE in P. exact P.
           ++ destruct P' as [P'|P']; [auto|]. right. unfold matched in *. fold (asgE g2 e') in P'. rewrite AE in P'. exact P'.
    + exact Ok.
    + pose proof (unc_le (upde g2 k e_color)) as U. cbn [upde ne] in U. lia.
  - exact Ok.
  - pose proof (unc_le (upde g k e_color)) as U. cbn [upde ne] in U. lia.
Qed.

(** ** The loop over the equations *)
Lemma visits_ok ks : forall g M, PI g M -> (forall k, In k ks -> k < ne g) ->
  match visits ks g M with
  | VOk g' M' => PI g' M' /\ Same g g' /\ (forall e, asgE g e <> None \/ In e ks -> asgE g' e <> None)
  | VThrow g' => Same g g' /\ ((forall e, e_der (ge g e) = None) ->
      ~ exists r, representatives (any_variable g) g (fun e => e < ne g) r)
  | VNull => False
  | VDepth => False
  end.
Proof.
  induction ks as [|k ks IH]; intros g M H Hk; cbn [visits].
  - split; [exact H|]. split; [apply Same_refl|]. intros e [A|[]]. exact A.
  - assert (Lk : k < ne g) by (apply Hk; left; reflexivity).
    pose proof (visit_ok g M k H Lk) as V. destruct (visit g M k) as [g1 M1|g1| |]; auto.
    + destruct V as (A1 & A2 & A3 & _). assert (N1 : ne g1 = ne g) by apply A2.
      specialize (IH g1 M1 A1). destruct (visits ks g1 M1) as [g' M'|g'| |].
      * destruct IH as (B1 & B2 & B3); [intros x Hx; rewrite N1; apply Hk; right; exact Hx|].
        split; [exact B1|]. split; [eapply Same_trans; eauto|].
        intros e Q. apply B3. cbn [In] in Q. destruct Q as [Q|[<-|Q]]; [left; apply A3; auto|left; apply A3; auto|auto].
      * destruct IH as (B1 & B2); [intros x Hx; rewrite N1; apply Hk; right; exact Hx|].
        split; [eapply Same_trans; eauto|]. intros ND (r & R1 & R2). apply B2.
        -- intros e. destruct A2 as (_ & _ & _ & E). destruct (E e) as (_ & _ & -> & _). apply ND.
        -- exists r. rewrite N1. split; [|exact R2]. intros e L. split; [|exact I].
           unfold occurs. fold (varsE g1 e). rewrite (varsE_same g g1 e A2). apply (R1 e L).
      * apply IH. intros x Hx. rewrite N1. apply Hk. right. exact Hx.
      * apply IH. intros x Hx. rewrite N1. apply Hk. right. exact Hx.
    + destruct V as (A1 & A2). split; [exact A1|]. intros ND (r & R1 & R2). apply (A2 ND). exists r.
      assert (Lt : forall e, e = k \/ matched g e -> e < ne g).
      { intros e [->|Q]; [exact Lk|]. unfold matched in Q. destruct (e_asg (ge g e)) as [v|] eqn:A; [|congruence].
        apply (p_rg _ _ H v). apply (p_mt _ _ H). exact A. }
      split; [intros e P; apply R1; auto|]. intros e e' P P'. apply R2; auto.
Qed.

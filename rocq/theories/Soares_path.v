(** * More about the augmenting path procedures: closed sets of equations *)
From Coq Require Import List Arith Bool Lia.
From Verif Require Import Match_model Match_spec Match_proofs Match_thm.
Import ListNotations.

Lemma augment_unfold K f i g0 :
  augment K (S f) i g0 =
  let g := upde g0 i e_color in
  match look K g (varsE g i) with
  | Some j => Ret (set_assign g j i) true
  | None => augment_loop K f i (varsE g i) g
  end.
Proof. reflexivity. Qed.

Lemma loop_cons K f i j js g : augment_loop K f i (j :: js) g =
  if pass K g j then
    let g := if marks K then updv g j v_color else g in
    match v_asg (gv g j) with
    | None => Null
    | Some k =>
        if e_col (ge g k) then augment_loop K f i js g
        else match augment K f k g with
             | Ret g' true => Ret (set_assign g' j i) true
             | Ret g' false => augment_loop K f i js g'
             | r => r
             end
    end
  else augment_loop K f i js g.
Proof. reflexivity. Qed.

(** ** The second procedure gives no colour to variables *)
Lemma augmentA_colV : forall f i g g' b, augment DepthA f i g = Ret g' b -> forall v, colV g' v = colV g v.
Proof.
  induction f as [|f IH]; intros i g0 g' b; [discriminate|]. rewrite augment_unfold. cbv zeta.
  set (g := upde g0 i e_color). assert (C : forall v, colV g v = colV g0 v) by reflexivity. clearbody g.
  destruct (look DepthA g (varsE g i)) as [j|].
  - intros E. injection E as <- <-. intros v. rewrite colV_assign. apply C.
  - generalize (varsE g i). intros js. revert g C. induction js as [|j js IHj]; intros g C.
    + cbn [augment_loop]. intros E. injection E as <- <-. exact C.
    + rewrite loop_cons. destruct (pass DepthA g j); [|apply IHj; exact C].
      change (marks DepthA) with false. cbv beta iota zeta.
      destruct (v_asg (gv g j)) as [k|]; [|discriminate].
      destruct (e_col (ge g k)); [apply IHj; exact C|].
      destruct (augment DepthA f k g) as [g1 [|]| |] eqn:E1; try discriminate.
      * intros E. injection E as <- <-. intros v. rewrite colV_assign. rewrite (IH _ _ _ _ E1). apply C.
      * apply IHj. intros v. rewrite (IH _ _ _ _ E1). apply C.
Qed.

(** ** A set which the second procedure cannot leave *)

(** the variables allowed in the equations of [P] are assigned to equations
    of [P] *)
Definition full (g : graph) (P : nat -> Prop) : Prop :=
  forall e v, P e -> In v (varsE g e) -> highest_derivative g v -> exists k, asgV g v = Some k /\ P k.

Lemma full_grow g g' P : Grow g g' -> full g P -> full g' P.
Proof.
  intros (S0 & A & _) H e v Pe I D. rewrite (varsE_same g g' e S0) in I.
  apply (allowed_same DepthA g g' v S0) in D. destruct (H e v Pe I D) as (k & Ak & Pk).
  exists k. rewrite A. auto.
Qed.

Lemma augmentA_full P : forall f i g g', Mt g -> Rg g -> i < ne g -> full g P ->
  augment DepthA f i g = Ret g' true ->
  ~ P i /\ (forall e, P e -> asgE g' e = asgE g e) /\
  (forall v e, P e -> asgV g v = Some e -> asgV g' v = Some e).
Proof.
  assert (HK : procedure DepthA) by (right; reflexivity).
  induction f as [|f IH]; intros i g0 g' M R Hi F; [discriminate|]. rewrite augment_unfold. cbv zeta.
  assert (G : Grow g0 (upde g0 i e_color)) by apply Grow_colorE.
  set (g := upde g0 i e_color) in *. clearbody g.
  assert (Mg : Mt g) by (eapply Grow_Mt; eauto).
  assert (Fg : full g P) by (eapply full_grow; eauto).
  destruct (look DepthA g (varsE g i)) as [j|] eqn:Lk.
  - intros E. injection E as <-.
    apply (look_some_K DepthA HK) in Lk. destruct Lk as (I & D & Nj).
    assert (Ni : ~ P i). { intros Pi. destruct (Fg i j Pi I D) as (k & Ak & _). congruence. }
    destruct G as (_ & GA & GE & _).
    split; [exact Ni|]. split.
    + intros e Pe. rewrite asgE_assign. destruct (Nat.eqb_spec e i) as [->|N]; [contradiction|]. apply GE.
    + intros v e Pe A. rewrite asgV_assign. destruct (Nat.eqb_spec v j) as [->|N].
      * rewrite <- GA in A. congruence.
      * rewrite GA. exact A.
  - clear Lk. assert (Sub : incl (varsE g i) (varsE g0 i)) by (rewrite (varsE_same g0 g i (proj1 G)); intros x; auto).
    revert Sub. generalize (varsE g i). intros js. revert g G Mg Fg.
    induction js as [|j js IHj]; intros g G Mg Fg Sub; [discriminate|].
    assert (Sub' : incl js (varsE g0 i)) by (intros x Hx; apply Sub; right; exact Hx).
    rewrite loop_cons. destruct (pass DepthA g j) eqn:Pj; [|apply IHj; auto].
    change (marks DepthA) with false. cbv beta iota zeta.
    destruct (v_asg (gv g j)) as [k|] eqn:Aj; [|discriminate]. fold (asgV g j) in Aj.
    destruct (e_col (ge g k)); [apply IHj; auto|].
    assert (Rk : Rg g) by (eapply Grow_Rg; eauto). assert (Hk : k < ne g) by (eapply Rk; eauto).
    pose proof (augment_ok DepthA HK f k g Mg Rk Hk) as Ok.
    destruct (augment DepthA f k g) as [g1 [|]| |] eqn:E1; try discriminate.
    + intros E. injection E as <-. destruct (IH k g g1 Mg Rk Hk Fg E1) as (Nk & HE & HV).
      apply (pass_iff_K DepthA HK) in Pj. destruct Pj as [_ D].
      assert (Ni : ~ P i).
      { intros Pi. destruct (Fg i j Pi) as (k' & Ak & Pk).
        - rewrite (varsE_same g0 g i (proj1 G)). apply Sub. left. reflexivity.
        - exact D.
        - assert (k' = k) by congruence. subst k'. contradiction. }
      destruct G as (_ & GA & GE & _).
      split; [exact Ni|]. split.
      * intros e Pe. rewrite asgE_assign. destruct (Nat.eqb_spec e i) as [->|N]; [contradiction|].
        rewrite HE; auto.
      * intros v e Pe A. rewrite asgV_assign. rewrite <- GA in A. destruct (Nat.eqb_spec v j) as [->|N].
        -- assert (e = k) by congruence. subst e. contradiction.
        -- apply HV; auto.
    + destruct Ok as (G1 & _). apply IHj; auto.
      * eapply Grow_trans; eauto.
      * eapply Grow_Mt; eauto.
      * eapply full_grow; eauto.
Qed.

(** ** A set which holds every search started in it *)

(** the assigned variables of the equations of [P] are assigned in [P] *)
Definition inside (g : graph) (P : nat -> Prop) : Prop :=
  forall e v k, P e -> In v (varsE g e) -> asgV g v = Some k -> P k.

Lemma inside_grow g g' P : Grow g g' -> inside g P -> inside g' P.
Proof.
  intros (S0 & A & _) H e v k Pe I Ak. rewrite (varsE_same g g' e S0) in I. rewrite A in Ak. eapply H; eauto.
Qed.

Lemma augment_inside K P : procedure K -> forall f i g g' b, Mt g -> Rg g -> i < ne g -> inside g P -> P i ->
  augment K f i g = Ret g' b ->
  (forall e, ~ P e -> asgE g' e = asgE g e) /\
  (forall v e, asgV g' v = Some e -> asgV g v = Some e \/ P e) /\
  (forall e, colE g' e = true -> colE g e = true \/ P e).
Proof.
  intros HK. induction f as [|f IH]; intros i g0 g' b M R Hi F Pi; [discriminate|]. rewrite augment_unfold. cbv zeta.
  assert (G : Grow g0 (upde g0 i e_color)) by apply Grow_colorE.
  assert (Co : forall e, colE (upde g0 i e_color) e = true -> colE g0 e = true \/ P e).
  { intros e. rewrite colE_color. destruct (Nat.eqb_spec e i) as [->|N]; auto. }
  set (g := upde g0 i e_color) in *. clearbody g.
  assert (Mg : Mt g) by (eapply Grow_Mt; eauto).
  assert (Fg : inside g P) by (eapply inside_grow; eauto).
  assert (GEA := G). destruct GEA as (_ & GA & GE & _).
  destruct (look K g (varsE g i)) as [j|] eqn:Lk.
  - intros E. injection E as <- <-.
    split; [|split].
    + intros e Pe. rewrite asgE_assign. destruct (Nat.eqb_spec e i) as [->|N]; [contradiction|]. apply GE.
    + intros v e. rewrite asgV_assign. destruct (Nat.eqb_spec v j) as [->|N].
      * intros A. injection A as <-. auto.
      * rewrite GA. auto.
    + intros e. rewrite colE_assign. apply Co.
  - clear Lk GA GE. assert (Sub : incl (varsE g i) (varsE g0 i)) by (rewrite (varsE_same g0 g i (proj1 G)); intros x; auto).
    revert Sub. generalize (varsE g i). intros js. revert g G Co Mg Fg.
    induction js as [|j js IHj]; intros g G Co Mg Fg Sub.
    + cbn [augment_loop]. intros E. injection E as <- <-. destruct G as (_ & GA & GE & _).
      split; [intros e _; apply GE|]. split; [|exact Co]. intros v e. rewrite GA. auto.
    + assert (Sub' : incl js (varsE g0 i)) by (intros x Hx; apply Sub; right; exact Hx).
      rewrite loop_cons. destruct (pass K g j) eqn:Pj; [|apply IHj; auto]. cbv zeta.
      assert (G2 : Grow g (if marks K then updv g j v_color else g)) by (destruct (marks K); [apply Grow_colorV|apply Grow_refl]).
      assert (Co2 : forall e, colE (if marks K then updv g j v_color else g) e = colE g e) by (destruct (marks K); reflexivity).
      set (g2 := if marks K then updv g j v_color else g) in *. clearbody g2.
      assert (M2 : Mt g2) by (eapply Grow_Mt; eauto).
      assert (F2 : inside g2 P) by (eapply inside_grow; eauto).
      assert (G02 : Grow g0 g2) by (eapply Grow_trans; eauto).
      assert (Co02 : forall e, colE g2 e = true -> colE g0 e = true \/ P e) by (intros e; rewrite Co2; apply Co).
      destruct (v_asg (gv g2 j)) as [k|] eqn:Aj; [|discriminate]. fold (asgV g2 j) in Aj.
      destruct (e_col (ge g2 k)); [apply IHj; auto|].
      assert (R2 : Rg g2) by (eapply Grow_Rg; [exact G02|exact R]). assert (Hk : k < ne g2) by (eapply R2; eauto).
      assert (Pk : P k).
      { apply (F2 i j k Pi); [|exact Aj]. rewrite (varsE_same g0 g2 i (proj1 G02)). apply Sub. left. reflexivity. }
      pose proof (augment_ok K HK f k g2 M2 R2 Hk) as Ok.
      destruct (augment K f k g2) as [g1 [|]| |] eqn:E1; try discriminate.
      * intros E. injection E as <- <-. destruct (IH k g2 g1 true M2 R2 Hk F2 Pk E1) as (HE & HV & HC).
        destruct G02 as (_ & GA & GE & _). split; [|split].
        -- intros e Pe. rewrite asgE_assign. destruct (Nat.eqb_spec e i) as [->|N]; [contradiction|].
           rewrite HE; auto.
        -- intros v e. rewrite asgV_assign. destruct (Nat.eqb_spec v j) as [->|N].
           ++ intros A. injection A as <-. auto.
           ++ intros A. destruct (HV v e A) as [B|B]; [|auto]. rewrite GA in B. auto.
        -- intros e. rewrite colE_assign. intros C. destruct (HC e C) as [B|B]; auto.
      * destruct (IH k g2 g1 false M2 R2 Hk F2 Pk E1) as (HE & HV & HC).
        destruct Ok as (G1 & _). apply IHj; auto.
        -- eapply Grow_trans; eauto.
        -- intros e C. destruct (HC e C) as [B|B]; auto.
        -- eapply Grow_Mt; eauto.
        -- eapply inside_grow; eauto.
Qed.

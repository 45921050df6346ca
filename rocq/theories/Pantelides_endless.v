(** * A model for which Pantelides' method does not end

    Two equations, both in the same variable only, and a second variable that
    occurs in no equation. *)
From Coq Require Import List Arith Bool Lia.
From Verif Require Import Match_model Match_spec Match_proofs Match_struct Match_thm Match_pant Match_loop
  Match_init Pantelides_proofs.
Import ListNotations.

Definition closed_in (g : graph) (e x : nat) : Prop :=
  forall v, In v (e_orig (ge g e)) ->
    (v_der (gv g v) = None -> v = x) /\ (forall w, v_der (gv g v) = Some w -> In w (e_orig (ge g e))).

(** the current equations [a], [b] have one highest derivative [x] *)
Record Stuck (a b x : nat) (g : graph) : Prop := {
  k_inv : Inv g; k_cur : Cur 2 1 b g; k_ne : a <> b; k_a : a < ne g; k_ad : e_der (ge g a) = None;
  k_leaf : forall e, e < ne g -> e_der (ge g e) = None -> e = a \/ e = b;
  k_xa : In x (e_orig (ge g a)); k_xb : In x (e_orig (ge g b)); k_x : v_der (gv g x) = None;
  k_ca : closed_in g a x; k_cb : closed_in g b x; k_asg : asgV g x = Some a }.

Lemma Stuck_frame a b x g g' : Frame g g' -> St g' -> Stuck a b x g -> Stuck a b x g'.
Proof.
  intros F HS [K1 K2 K3 K4 K5 K6 K7 K8 K9 K10 K11 K12].
  assert (I' : Inv g') by (eapply Inv_frame; eauto).
  assert (C' : Cur 2 1 b g') by (eapply Cur_frame; eauto).
  destruct F as (N1 & N2 & V & E).
  assert (Eo : forall e, e_orig (ge g' e) = e_orig (ge g e)) by (intros e; apply E).
  assert (Ed : forall e, e_der (ge g' e) = e_der (ge g e)) by (intros e; apply E).
  assert (Vd : forall v, v_der (gv g' v) = v_der (gv g v)) by (intros e; apply V).
  constructor; auto.
  - lia.
  - rewrite Ed; auto.
  - intros e L. rewrite Ed. apply K6. lia.
  - rewrite Eo; auto.
  - rewrite Eo; auto.
  - rewrite Vd; auto.
  - intros v. rewrite Eo, Vd. apply K10.
  - intros v. rewrite Eo, Vd. apply K11.
  - unfold asgV. destruct (V x) as (-> & _). exact K12.
Qed.

Lemma Stuck_step a b x g : Stuck a b x g -> exists a' b' x' g', Stuck a' b' x' g' /\
  forall f, pantelides_from (S f) 2 1 b g = pantelides_from f 2 1 b' g'.
Proof.
  intros HK. assert (HI0 := k_inv _ _ _ _ HK). assert (HC0 := k_cur _ _ _ _ HK).
  destruct (prepare_ok g (i_st _ HI0)) as (PF & PS & PU & PL).
  assert (HKg0 := Stuck_frame a b x g (prepare g) PF PS HK). clear HK.
  destruct (pass_ok 2 1 b g HI0 HC0) as (_ & _ & _ & _ & P).
  cbn [pantelides_from]. set (g0 := prepare g) in *. clearbody g0.
  destruct HKg0 as [HI HC K3 K4 K5 K6 K7 K8 K9 K10 K11 K12].
  assert (HR : in_range g0) by (intros v e A; apply (i_rg g0 HI v e A)).
  pose proof (augment_ok Depth Depth_proc (S (ne g0)) b g0 (i_mt _ HI) HR (c_i _ _ _ _ HC)) as H.
  destruct (augment Depth (S (ne g0)) b g0) as [g1 [|]| |].
  - exfalso. destruct P as (I1 & _ & _ & _ & Fin). destruct Fin as [_ Fin]; [lia|].
    assert (S0 := proj1 H). destruct S0 as (N1 & N2 & SV & SE).
    assert (One : forall e, (e = a \/ e = b) -> e_asg (ge g1 e) = Some x).
    { intros e He. assert (L : e < ne g1) by (rewrite N2; destruct He as [->| ->]; [exact K4|apply HC]).
      assert (D : e_der (ge g1 e) = None).
      { destruct (SE e) as (_ & _ & -> & _). destruct He as [->| ->]; [exact K5|apply HC]. }
      assert (A := Fin e L D). destruct (e_asg (ge g1 e)) as [y|] eqn:Y; [|congruence]. f_equal.
      assert (Ay : asgV g1 y = Some e) by (apply (i_mt _ I1); exact Y).
      assert (Iy := i_in _ I1 y e Ay). assert (Dy := proj2 (i_dd _ I1 y e Ay) D).
      destruct (SE e) as (Eo & _). rewrite Eo in Iy. destruct (SV y) as (_ & _ & Vy & _). rewrite Vy in Dy.
      destruct He as [->| ->]; [apply (K10 y Iy); exact Dy|apply (K11 y Iy); exact Dy]. }
    assert (A := One a (or_introl eq_refl)). assert (B := One b (or_intror eq_refl)).
    apply (i_mt _ I1) in A. apply (i_mt _ I1) in B. congruence.
  - assert (HCol := fail_coloured g0 g1 b PU H).
    assert (HRd := Ready_of g0 HI PU PL).
    pose proof (failed_ok g0 g1 b HRd (c_i _ _ _ _ HC) (c_asg _ _ _ _ HC) (c_der _ _ _ _ HC) HCol) as FO.
    assert (HCol' := HCol). destruct HCol' as (F1 & F2 & F3 & F4 & F5 & F6).
    assert (SS := proj1 F1). assert (SS' := SS). destruct SS' as (N1 & N2 & SV & SE).
    assert (HS1 : St g1) by (eapply St_same; [exact SS|apply HI]).
    assert (Xd : v_del (gv g1 x) = false).
    { destruct (v_del (gv g1 x)) eqn:D; [|reflexivity]. exfalso. apply (s_del g1 HS1 x D).
      destruct (SV x) as (_ & _ & -> & _). exact K9. }
    assert (Xa : In x (varsE g1 a)) by (apply (s_var g1 HS1); destruct (SE a) as (-> & _); auto).
    assert (Xb : In x (varsE g1 b)) by (apply (s_var g1 HS1); destruct (SE b) as (-> & _); auto).
    assert (Cx : colV g1 x = true) by (apply (F4 b F2 x Xb)).
    assert (Ca : colE g1 a = true).
    { destruct (F3 x Cx) as (k & Ak & Ck). rewrite (proj1 (proj2 F1)) in Ak. congruence. }
    assert (Only : forall e, colE g1 e = true -> e = a \/ e = b).
    { intros e Ce. destruct (fp_colE g0 g1 b 2 1 HI HC PL HCol e Ce) as [L D].
      apply K6; [lia|]. destruct (SE e) as (_ & _ & <- & _). exact D. }
    destruct (failed g1 b) as [g2 i'|g2|] eqn:Fd.
    + destruct P as (I2 & C2 & _ & _). assert (HD := FO).
      destruct (d_eold _ _ _ _ HD a) as (_ & _ & Ea); [lia|]. destruct (Ea Ca) as (_ & a' & A1 & A2 & A3 & A4).
      assert (Lb : b < ne g1) by (rewrite N2; apply HC).
      destruct (d_eold _ _ _ _ HD b Lb) as (_ & _ & Eb). destruct (Eb F2) as (_ & b' & B1 & B2 & B3 & B4).
      assert (b' = i') by (pose proof (d_i _ _ _ _ HD); congruence). subst b'.
      assert (Lx : x < nv g1) by (apply (s_var g1 HS1) in Xa; apply (s_or g1 HS1 a); apply Xa).
      destruct (d_vold _ _ _ _ HD x Lx) as (_ & _ & Vx). destruct (Vx Cx) as (_ & x' & X1 & X2 & X3).
      exists a', i', x', g2. split; [|reflexivity].
      assert (Var : forall e v, colE g1 e = true -> In v (e_orig (ge g1 e)) -> exists w, v_der (gv g2 v) = Some w).
      { intros e v. apply (fp_var g0 g1 g2 b i' HI PL HCol HD). }
      assert (Keep : forall v w, v_der (gv g0 v) = Some w -> v_der (gv g2 v) = Some w).
      { intros v w D. apply (fp_keepV g0 g1 g2 b i' HI HCol HD). destruct (SV v) as (_ & _ & -> & _). exact D. }
      assert (Cl : forall e d, colE g1 e = true -> In x (e_orig (ge g0 e)) -> closed_in g0 e x ->
         (forall y, In y (e_orig (ge g2 d)) <-> In y (e_orig (ge g1 e)) \/
           exists v, In v (e_orig (ge g1 e)) /\ v_der (gv g2 v) = Some y) -> closed_in g2 d x').
      { intros e d Ce Ix Hc Or v Iv. destruct (SE e) as (Eo & _). rewrite Eo in Or.
        assert (Old : In v (e_orig (ge g0 e)) ->
          (v_der (gv g2 v) = None -> v = x') /\ (forall w, v_der (gv g2 v) = Some w -> In w (e_orig (ge g2 d)))).
        { intros Io. split.
          - intros Nn. destruct (Var e v Ce) as (w & W); [rewrite Eo; exact Io|congruence].
          - intros w W. apply Or. right. exists v. auto. }
        apply Or in Iv. destruct Iv as [Io|(u & Iu & Du)]; [apply Old; exact Io|].
        destruct (v_der (gv g0 u)) as [w0|] eqn:D0.
        - assert (w0 = v) by (pose proof (Keep u w0 D0); congruence). subst w0.
          apply Old. apply (Hc u Iu). exact D0.
        - assert (u = x) by (apply (Hc u Iu); exact D0). subst u.
          assert (v = x') by congruence. subst v. split; [reflexivity|].
          intros w W. destruct (d_vnew _ _ _ _ HD x' X1 X2) as [_ Q]. congruence. }
      constructor; auto.
      * intros Q. subst a'. apply K3. eapply der_inj; [apply HD|exact A3|exact B3].
      * apply (d_enew _ _ _ _ HD); auto.
      * intros e Le De. destruct (lt_dec e (ne g1)) as [L'|L'].
        -- exfalso. destruct (d_eold _ _ _ _ HD e L') as (_ & En & Ec).
           destruct (e_col (ge g1 e)) eqn:Ce.
           { destruct (Ec eq_refl) as (_ & d & _ & _ & D3 & _). congruence. }
           rewrite (En eq_refl) in De. destruct (SE e) as (_ & _ & Q & _). rewrite Q in De.
           destruct (K6 e) as [->| ->]; [lia|exact De| |]; unfold colE in *; congruence.
        -- destruct (d_enew _ _ _ _ HD e) as (_ & e0 & E1 & E2 & E3); [lia|exact Le|].
           destruct (Only e0 E2) as [->| ->]; [left|right]; congruence.
      * apply A4. right. exists x. split; [destruct (SE a) as (-> & _); exact K7|exact X3].
      * apply B4. right. exists x. split; [destruct (SE b) as (-> & _); exact K8|exact X3].
      * apply (d_vnew _ _ _ _ HD); auto.
      * apply (Cl a a' Ca K7 K10 A4).
      * apply (Cl b i' F2 K8 K11 B4).
      * apply (d_asg _ _ _ _ HD). right. exists x, a. split; [exact Cx|]. split; [exact X3|].
        split; [|exact A3]. rewrite (proj1 (proj2 F1)). exact K12.
    + exfalso. destruct (failed_throw g0 g1 b g2 HRd (c_i _ _ _ _ HC) (c_der _ _ _ _ HC) HCol Fd) as (e & Ce & He).
      assert (Ae : a = e /\ b = e).
      { assert (Xe : In x (varsE g1 e)) by (destruct (Only e Ce) as [->| ->]; assumption).
        split; apply (He _ x); auto. }
      destruct Ae. congruence.
    + contradiction.
  - contradiction.
  - contradiction.
Qed.

Lemma Stuck_forever f : forall a b x g, Stuck a b x g -> pantelides_from f 2 1 b g = PFuel.
Proof.
  induction f as [|f IH]; intros a b x g H; [reflexivity|].
  destruct (Stuck_step a b x g H) as (a' & b' & x' & g' & H' & E). rewrite E. eapply IH; eauto.
Qed.

Definition twice : graph := init_graph [None; None] [[0]; [0]].
Lemma twice_model : model_graph twice.
Proof.
  apply (init_MG [None; None] [[0]; [0]]).
  - split; intros j; [intros a|intros j' a]; do 2 (destruct j as [|j]; [cbn; discriminate|]); cbn; destruct j; discriminate.
  - intros r Hr j Hj. cbn [In length] in *. intuition (subst; cbn [In] in *; intuition lia).
Qed.

Definition graph_of (r : res) : graph := match r with Ret g _ => g | _ => twice end.
Definition first_call : res := augment Depth (S (ne (prepare twice))) 0 (prepare twice).
Definition twice1 : graph := graph_of first_call.

Lemma twice1_eq : augment Depth (S (ne (prepare twice))) 0 (prepare twice) = Ret twice1 true.
Proof.
  unfold twice1, first_call.
  assert (F : match augment Depth (S (ne (prepare twice))) 0 (prepare twice) with Ret _ b => b | _ => false end = true) by (vm_compute; reflexivity).
  destruct (augment Depth (S (ne (prepare twice))) 0 (prepare twice)) as [g b| |]; [rewrite F; reflexivity|discriminate|discriminate].
Qed.

Lemma first_pass g g1 : Inv g -> Cur 2 0 0 g ->
  augment Depth (S (ne (prepare g))) 0 (prepare g) = Ret g1 true -> Inv g1 /\ Cur 2 1 1 g1.
Proof.
  intros HI HC E. destruct (pass_ok 2 0 0 g HI HC) as (_ & _ & _ & _ & P). cbv zeta in P.
  rewrite E in P. destruct P as (I1 & _ & _ & C1 & _). auto.
Qed.
Lemma first_step g g1 f : ne g = 2 ->
  augment Depth (S (ne (prepare g))) 0 (prepare g) = Ret g1 true ->
  pantelides (S f) g = pantelides_from f 2 1 1 g1.
Proof. intros N E. unfold pantelides. rewrite N. cbn [pantelides_from]. rewrite E. reflexivity. Qed.

Lemma stuck_from g1 : Inv g1 -> Cur 2 1 1 g1 -> ne g1 = 2 ->
  e_orig (ge g1 0) = [0] -> e_orig (ge g1 1) = [0] -> e_der (ge g1 0) = None ->
  v_der (gv g1 0) = None -> asgV g1 0 = Some 0 -> Stuck 0 1 0 g1.
Proof.
  intros I1 C1 N O0 O1 D0 V0 A0.
  constructor; auto.
  - rewrite N. lia.
  - intros e L _. rewrite N in L. lia.
  - rewrite O0. left. reflexivity.
  - rewrite O1. left. reflexivity.
  - intros v. rewrite O0. intros [<-|[]]. rewrite V0. split; [reflexivity|discriminate].
  - intros v. rewrite O1. intros [<-|[]]. rewrite V0. split; [reflexivity|discriminate].
Qed.

Lemma twice_endless fuel : pantelides fuel twice = PFuel.
Proof.
  destruct fuel as [|f]; [reflexivity|].
  rewrite (first_step twice twice1 f eq_refl twice1_eq).
  assert (N : ne twice = 2) by (vm_compute; reflexivity).
  assert (HC : Cur 2 0 0 twice).
  { rewrite <- N at 1. apply (model_Cur _ twice_model). rewrite N. lia. }
  destruct (first_pass twice twice1 (model_Inv _ twice_model) HC twice1_eq) as [I1 C1].
  eapply Stuck_forever. apply stuck_from; [exact I1|exact C1| | | | | |]; vm_compute; reflexivity.
Qed.

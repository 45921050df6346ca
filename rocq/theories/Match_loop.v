(** * The loop of Pantelides' method *)
From Coq Require Import List Arith Bool Lia.
From Verif Require Import Match_model Match_spec Match_proofs Match_struct Match_thm Match_pant.
Import ListNotations.

(** between passes *)
Record Inv (g : graph) : Prop := {
  i_st : St g;
  i_mt : Mt g;
  i_rg : forall v e, asgV g v = Some e -> v < nv g /\ e < ne g;
  i_in : forall v e, asgV g v = Some e -> In v (e_orig (ge g e));
  i_dd : forall v e, asgV g v = Some e -> (v_der (gv g v) = None <-> e_der (ge g e) = None);
  i_up : forall e d, e_der (ge g e) = Some d -> forall v, In v (e_orig (ge g e)) ->
           exists w, v_der (gv g v) = Some w /\ In w (e_orig (ge g d));
  i_dn : forall e d, e_der (ge g e) = Some d -> forall w, In w (e_orig (ge g d)) ->
           In w (e_orig (ge g e)) \/ exists v, In v (e_orig (ge g e)) /\ v_der (gv g v) = Some w }.

Record Cur (nd k i : nat) (g : graph) : Prop := {
  c_k : k < nd; c_nd : nd <= ne g; c_i : i < ne g; c_or : i = k \/ nd <= i;
  c_asg : e_asg (ge g i) = None; c_der : e_der (ge g i) = None;
  c_pend : forall e, k < e -> e < nd -> e_asg (ge g e) = None /\ e_der (ge g e) = None;
  c_full : forall e, e < ne g -> e_der (ge g e) = None -> e_asg (ge g e) <> None \/ e = i \/ (k < e /\ e < nd) }.

(** same assignments, derivatives and original variables *)
Definition Frame (g g' : graph) : Prop :=
  nv g' = nv g /\ ne g' = ne g /\
  (forall v, v_asg (gv g' v) = v_asg (gv g v) /\ v_der (gv g' v) = v_der (gv g v)) /\
  (forall e, e_orig (ge g' e) = e_orig (ge g e) /\ e_der (ge g' e) = e_der (ge g e) /\ e_asg (ge g' e) = e_asg (ge g e)).

Lemma Inv_frame g g' : Frame g g' -> St g' -> Inv g -> Inv g'.
Proof.
  intros (N1 & N2 & V & E) HS [I1 I2 I3 I4 I5 I6 I7].
  assert (A : forall v, asgV g' v = asgV g v) by (intros v; apply V).
  constructor.
  - exact HS.
  - intros v e. rewrite A. unfold asgE. destruct (E e) as (_ & _ & ->). apply I2.
  - intros v e. rewrite A, N1, N2. apply I3.
  - intros v e. rewrite A. destruct (E e) as (-> & _). apply I4.
  - intros v e. rewrite A. destruct (E e) as (_ & -> & _). destruct (V v) as (_ & ->). apply I5.
  - intros e d. destruct (E e) as (-> & -> & _), (E d) as (-> & _). intros D v Iv.
    destruct (I6 e d D v Iv) as (w & W & Iw). exists w. destruct (V v) as (_ & ->). auto.
  - intros e d. destruct (E e) as (-> & -> & _), (E d) as (-> & _). intros D w Iw.
    destruct (I7 e d D w Iw) as [?|(v & Iv & Dv)]; [auto|]. right. exists v. destruct (V v) as (_ & ->). auto.
Qed.
Lemma Cur_frame nd k i g g' : Frame g g' -> Cur nd k i g -> Cur nd k i g'.
Proof.
  intros (N1 & N2 & V & E) [C1 C2 C3 C4 C5 C6 C7 C8]. constructor; auto; try lia.
  - destruct (E i) as (_ & _ & ->). exact C5.
  - destruct (E i) as (_ & -> & _). exact C6.
  - intros e. destruct (E e) as (_ & -> & ->). apply C7.
  - intros e. rewrite N2. destruct (E e) as (_ & -> & ->). apply C8.
Qed.

Lemma prepare_ok g : St g -> Frame g (prepare g) /\ St (prepare g) /\ uncoloured (prepare g) /\
  (forall v, v_del (gv (prepare g) v) = false -> v_der (gv (prepare g) v) = None).
Proof.
  intros HS. destruct (delete_low_ok g HS) as (A1 & (L1 & L2 & L3 & L4) & A3). unfold prepare.
  assert (HU : forall g1, St g1 -> St (uncolor_all g1)).
  { intros g1 H1. apply St_same with (g := g1); [|exact H1]. repeat split. }
  split; [|split; [apply HU; exact A1|]; split; [split; reflexivity|exact A3]].
  split; [exact L1|]. split; [exact L2|]. split.
  - intros v. destruct (L3 v) as (? & ? & _). auto.
  - intros e. destruct (L4 e) as (? & ? & _ & ? & _). auto.
Qed.

Lemma Frame_keeps g g' : Frame g g' -> keeps_original g g'.
Proof.
  intros (N1 & N2 & V & E). split; [lia|]. split; [lia|]. split; [|split; [|split; [|split]]].
  - intros e _. apply E.
  - intros v w. destruct (V v) as (_ & ->). auto.
  - intros v w. destruct (V v) as (_ & ->). auto.
  - intros e d. destruct (E e) as (_ & -> & _). auto.
  - intros e d. destruct (E e) as (_ & -> & _). auto.
Qed.
Lemma keeps_trans a b c : keeps_original a b -> keeps_original b c -> keeps_original a c.
Proof.
  intros (A1 & A2 & A3 & A4 & A5 & A6 & A7) (B1 & B2 & B3 & B4 & B5 & B6 & B7).
  split; [lia|]. split; [lia|]. split; [|split; [|split; [|split]]]; auto.
  - intros e L. rewrite B3; [|lia]. apply A3. exact L.
  - intros v w D. destruct (B5 v w D) as [Q|Q]; [|right; lia]. apply A5. exact Q.
  - intros v w D. destruct (B7 v w D) as [Q|Q]; [|right; lia]. apply A7. exact Q.
Qed.
Lemma Same_keeps g g' : Same g g' -> keeps_original g g'.
Proof.
  intros (N1 & N2 & V & E). split; [lia|]. split; [lia|]. split; [|split; [|split; [|split]]].
  - intros e _. apply E.
  - intros v w. destruct (V v) as (_ & _ & -> & _). auto.
  - intros v w. destruct (V v) as (_ & _ & -> & _). auto.
  - intros e d. destruct (E e) as (_ & _ & -> & _). auto.
  - intros e d. destruct (E e) as (_ & _ & -> & _). auto.
Qed.

(** ** The ghost state used for termination *)
Fixpoint up (g : graph) (n : nat) (v w : nat) : Prop :=
  match n with
  | O => v = w
  | S n => exists u, v_der (gv g v) = Some u /\ up g n u w
  end.

Record Track (nd : nat) (g : graph) (cur tv lf sl : nat -> nat) : Prop := {
  t_cur : forall f, f < nd -> cur f < ne g /\ e_der (ge g (cur f)) = None;
  t_tv : forall f, f < nd -> In (tv f) (e_orig (ge g (cur f)));
  t_up : forall f, f < nd -> up g (sl f) (tv f) (lf f) /\ v_der (gv g (lf f)) = None;
  t_inj : forall f f', f < nd -> f' < nd -> lf f = lf f' -> f = f';
  t_sur : forall e, e < ne g -> e_der (ge g e) = None -> exists f, f < nd /\ cur f = e }.

Definition total (nd : nat) (sl : nat -> nat) : nat := list_sum (map sl (seq 0 nd)).

Lemma up_mono g g' : (forall v w, v_der (gv g v) = Some w -> v_der (gv g' v) = Some w) ->
  forall n v w, up g n v w -> up g' n v w.
Proof.
  intros H. induction n as [|n IH]; cbn [up]; [auto|]. intros v w (u & A & B). exists u. auto.
Qed.
Lemma up_snoc g : forall n v w x, up g n v w -> v_der (gv g w) = Some x -> up g (S n) v x.
Proof.
  induction n as [|n IH]; intros v w x.
  - cbn [up]. intros -> D. exists x. auto.
  - intros (u & A & B) D. exists u. split; [exact A|]. exact (IH u w x B D).
Qed.

Lemma Track_frame nd g g' cur tv lf sl : ne g' = ne g ->
  (forall v, v_der (gv g' v) = v_der (gv g v)) ->
  (forall e, e_orig (ge g' e) = e_orig (ge g e) /\ e_der (ge g' e) = e_der (ge g e)) ->
  Track nd g cur tv lf sl -> Track nd g' cur tv lf sl.
Proof.
  intros N V E [T1 T2 T3 T4 T5]. constructor.
  - intros f L. rewrite N. destruct (E (cur f)) as [_ ->]. auto.
  - intros f L. destruct (E (cur f)) as [-> _]. auto.
  - intros f L. rewrite V. destruct (T3 f L) as [A B]. split; [|exact B].
    revert A. apply up_mono. intros v w. rewrite V. auto.
  - exact T4.
  - intros e. rewrite N. destruct (E e) as [_ ->]. apply T5.
Qed.

(** ** After a failed pass *)
Section FailedPass.
  Variables (g0 g g' : graph) (i i' nd k : nat).
  Hypothesis HI : Inv g0.
  Hypothesis HC : Cur nd k i g0.
  Hypothesis HL : forall v, v_del (gv g0 v) = false -> v_der (gv g0 v) = None.
  Hypothesis HCol : Coloured g0 g i.
  Hypothesis HD : Diffed g g' i i'.

  Lemma SG : Same g0 g.
  Proof. exact (proj1 (proj1 HCol)). Qed.

  Lemma fp_nv : nv g = nv g0. Proof. apply SG. Qed.
  Lemma fp_ne : ne g = ne g0. Proof. apply SG. Qed.
  Lemma fp_vder v : v_der (gv g v) = v_der (gv g0 v).
  Proof. apply (Same_fields g0 g SG v 0). Qed.
  Lemma fp_eder e : e_der (ge g e) = e_der (ge g0 e).
  Proof. apply (Same_fields g0 g SG 0 e). Qed.
  Lemma fp_orig e : e_orig (ge g e) = e_orig (ge g0 e).
  Proof. destruct SG as (_ & _ & _ & H). apply H. Qed.
  Lemma fp_asgV v : asgV g v = asgV g0 v.
  Proof. apply HCol. Qed.
  Lemma fp_asgE v : asgE g v = asgE g0 v.
  Proof. apply HCol. Qed.
  Lemma fp_st : St g.
  Proof. eapply St_same; [exact SG|apply HI]. Qed.

  Lemma fp_colE e : colE g e = true -> e < ne g /\ e_der (ge g e) = None.
  Proof.
    intros Ce. destruct HCol as (F1 & F2 & F3 & F4 & F5 & F6).
    destruct (F6 e Ce) as [->|(v & A & Cv)].
    - rewrite fp_ne, fp_eder. split; apply HC.
    - rewrite fp_asgV in A. split; [rewrite fp_ne; apply (i_rg g0 HI v e A)|].
      rewrite fp_eder. apply (i_dd g0 HI v e A). apply HL.
      destruct (F5 v Cv) as (e' & _ & I). apply (s_var g fp_st) in I. destruct I as [_ D].
      destruct (Same_fields g0 g SG v 0) as (_ & <- & _). exact D.
  Qed.
  Lemma fp_colV v : colV g v = true -> v < nv g /\ v_der (gv g v) = None.
  Proof.
    intros Cv. destruct HCol as (F1 & F2 & F3 & F4 & F5 & F6).
    destruct (F5 v Cv) as (e' & _ & I). apply (s_var g fp_st) in I. destruct I as [I D].
    split; [apply (s_or g fp_st) in I; apply I|]. rewrite fp_vder. apply HL.
    destruct (Same_fields g0 g SG v 0) as (_ & <- & _). exact D.
  Qed.

  (** derivatives already there are kept *)
  Lemma fp_keepV v w : v_der (gv g v) = Some w -> v_der (gv g' v) = Some w.
  Proof.
    intros D. assert (L : v < nv g) by (apply (s_lt g fp_st) in D; lia).
    destruct (d_vold _ _ _ _ HD v L) as (_ & A & B).
    destruct (v_col (gv g v)) eqn:Cv; [destruct (B eq_refl) as [Q _]; congruence|]. rewrite A; auto.
  Qed.
  Lemma fp_keepE e d : e_der (ge g e) = Some d -> e_der (ge g' e) = Some d.
  Proof.
    intros D. assert (L : e < ne g) by (apply (s_ede g fp_st) in D; lia).
    destruct (d_eold _ _ _ _ HD e L) as (_ & A & B).
    destruct (e_col (ge g e)) eqn:Cv; [destruct (B eq_refl) as [Q _]; congruence|]. rewrite A; auto.
  Qed.

  (** a variable of a coloured equation has a derivative afterwards *)
  Lemma fp_var e v : colE g e = true -> In v (e_orig (ge g e)) -> exists w, v_der (gv g' v) = Some w.
  Proof.
    intros Ce I. destruct HCol as (F1 & F2 & F3 & F4 & F5 & F6).
    destruct (v_del (gv g v)) eqn:D.
    - assert (Q := s_del g fp_st v D). destruct (v_der (gv g v)) as [w|] eqn:W; [|congruence].
      exists w. apply fp_keepV. exact W.
    - assert (Cv : colV g v = true) by (apply (F4 e Ce); apply (s_var g fp_st); auto).
      destruct (fp_colV v Cv) as [L _]. destruct (d_vold _ _ _ _ HD v L) as (_ & _ & B).
      destruct (B Cv) as (_ & w & _ & _ & W). exists w. exact W.
  Qed.

  Lemma fp_Inv : Inv g'.
  Proof.
    assert (HS' := d_st _ _ _ _ HD).
    destruct HCol as (F1 & F2 & F3 & F4 & F5 & F6).
    assert (Lim : forall v e, asgV g v = Some e -> v < nv g /\ e < ne g).
    { intros v e. rewrite fp_asgV, fp_nv, fp_ne. apply (i_rg g0 HI). }
    constructor.
    - exact HS'.
    - apply (d_mt _ _ _ _ HD).
    - intros w d A. apply (d_asg _ _ _ _ HD) in A. destruct A as [A|(v & e & Cv & Dv & Av & De)].
      + apply Lim in A. pose proof (d_nv _ _ _ _ HD). pose proof (d_ne _ _ _ _ HD). lia.
      + apply (s_lt g' HS') in Dv. apply (s_ede g' HS') in De. lia.
    - intros w d A. apply (d_asg _ _ _ _ HD) in A. destruct A as [A|(v & e & Cv & Dv & Av & De)].
      + destruct (Lim w d A) as [_ L]. destruct (d_eold _ _ _ _ HD d L) as (-> & _).
        rewrite fp_orig. apply (i_in g0 HI). rewrite <- fp_asgV. exact A.
      + destruct (F3 v Cv) as (k' & Ak & Ck). assert (k' = e) by congruence. subst k'.
        destruct (Lim v e Av) as [_ L]. destruct (d_eold _ _ _ _ HD e L) as (_ & _ & B).
        destruct (B Ck) as (_ & d' & _ & _ & Dd & Or). assert (d' = d) by congruence. subst d'.
        apply Or. right. exists v. split; [|exact Dv]. rewrite fp_orig. apply (i_in g0 HI). rewrite <- fp_asgV. exact Av.
    - intros w d A. apply (d_asg _ _ _ _ HD) in A. destruct A as [A|(v & e & Cv & Dv & Av & De)].
      + destruct (Lim w d A) as [Lw Ld].
        destruct (d_vold _ _ _ _ HD w Lw) as (_ & Vn & Vc). destruct (d_eold _ _ _ _ HD d Ld) as (_ & En & Ec).
        destruct (v_col (gv g w)) eqn:Cw.
        * destruct (F3 w Cw) as (k' & Ak & Ck). assert (k' = d) by congruence. subst k'.
          destruct (Vc eq_refl) as (_ & x & _ & _ & ->). destruct (Ec Ck) as (_ & y & _ & _ & -> & _). split; discriminate.
        * destruct (e_col (ge g d)) eqn:Cd.
          -- exfalso. destruct (F6 d Cd) as [->|(v' & A' & Cv')].
             ++ rewrite fp_asgV in A. apply (i_mt g0 HI) in A. unfold asgE in A. rewrite (c_asg _ _ _ _ HC) in A. discriminate.
             ++ rewrite fp_asgV in A, A'. apply (i_mt g0 HI) in A. apply (i_mt g0 HI) in A'.
                assert (v' = w) by congruence. subst v'. unfold colV in Cv'. congruence.
          -- rewrite (Vn eq_refl), (En eq_refl), fp_vder, fp_eder. apply (i_dd g0 HI). rewrite <- fp_asgV. exact A.
      + destruct (F3 v Cv) as (k' & Ak & Ck). assert (k' = e) by congruence. subst k'.
        destruct (Lim v e Av) as [Lv Le].
        destruct (d_vold _ _ _ _ HD v Lv) as (_ & _ & Vc). destruct (d_eold _ _ _ _ HD e Le) as (_ & _ & Ec).
        destruct (Vc Cv) as (_ & w' & W1 & W2 & W3). assert (w' = w) by congruence. subst w'.
        destruct (Ec Ck) as (_ & d' & D1 & D2 & D3 & _). assert (d' = d) by congruence. subst d'.
        destruct (d_vnew _ _ _ _ HD w W1 W2) as [_ ->]. destruct (d_enew _ _ _ _ HD d D1 D2) as [-> _]. tauto.
    - intros e d De v Iv.
      assert (Le' : e < ne g') by (apply (s_ede g' HS') in De; lia).
      destruct (lt_dec e (ne g)) as [L|L].
      2: { destruct (d_enew _ _ _ _ HD e) as [Q _]; [lia|exact Le'|congruence]. }
      destruct (d_eold _ _ _ _ HD e L) as (Q & En & Ec). rewrite Q in Iv.
      destruct (e_col (ge g e)) eqn:Ce.
      + destruct (Ec eq_refl) as (_ & d' & D1 & D2 & D3 & D4). assert (d' = d) by congruence. subst d'.
        destruct (fp_var e v Ce Iv) as (w & W). exists w. split; [exact W|]. apply D4. right. exists v. auto.
      + rewrite (En eq_refl) in De. rewrite fp_eder in De. rewrite fp_orig in Iv.
        destruct (i_up g0 HI e d De v Iv) as (w & W & Iw). exists w. split; [apply fp_keepV; rewrite fp_vder; exact W|].
        assert (Ld : d < ne g) by (rewrite fp_ne; apply (s_ede g0 (i_st _ HI)) in De; lia).
        destruct (d_eold _ _ _ _ HD d Ld) as (-> & _). rewrite fp_orig. exact Iw.
    - intros e d De w Iw.
      assert (Le' : e < ne g') by (apply (s_ede g' HS') in De; lia).
      destruct (lt_dec e (ne g)) as [L|L].
      2: { destruct (d_enew _ _ _ _ HD e) as [Q _]; [lia|exact Le'|congruence]. }
      destruct (d_eold _ _ _ _ HD e L) as (Q & En & Ec). rewrite Q.
      destruct (e_col (ge g e)) eqn:Ce.
      + destruct (Ec eq_refl) as (_ & d' & D1 & D2 & D3 & D4). assert (d' = d) by congruence. subst d'.
        apply D4. exact Iw.
      + rewrite (En eq_refl) in De. rewrite fp_eder in De.
        assert (Ld : d < ne g) by (rewrite fp_ne; apply (s_ede g0 (i_st _ HI)) in De; lia).
        destruct (d_eold _ _ _ _ HD d Ld) as (Q' & _). rewrite Q', fp_orig in Iw. rewrite fp_orig.
        destruct (i_dn g0 HI e d De w Iw) as [?|(v & Iv & Dv)]; [auto|].
        right. exists v. split; [exact Iv|]. apply fp_keepV. rewrite fp_vder. exact Dv.
  Qed.

  Lemma fp_new_i : ne g <= i' /\ i' < ne g' /\ e_asg (ge g' i') = None /\ e_der (ge g' i') = None.
  Proof.
    destruct HCol as (F1 & F2 & F3 & F4 & F5 & F6).
    destruct (fp_colE i F2) as [Li _].
    destruct (d_eold _ _ _ _ HD i Li) as (_ & _ & Ec). destruct (Ec F2) as (_ & d & D1 & D2 & D3 & _).
    assert (d = i') by (pose proof (d_i _ _ _ _ HD); congruence). subst d.
    split; [exact D1|]. split; [exact D2|]. split; [|apply (d_enew _ _ _ _ HD); auto].
    destruct (e_asg (ge g' i')) as [x|] eqn:X; [|reflexivity]. exfalso.
    fold (asgE g' i') in X. apply (d_mt _ _ _ _ HD) in X. apply (d_asg _ _ _ _ HD) in X.
    destruct X as [X|(v & e & Cv & Dv & Av & De)].
    - rewrite fp_asgV in X. apply (i_rg g0 HI) in X. rewrite fp_ne in D1. lia.
    - assert (e = i) by (eapply der_inj; [apply HD|exact De|exact D3]). subst e.
      rewrite fp_asgV in Av. apply (i_mt g0 HI) in Av. unfold asgE in Av. rewrite (c_asg _ _ _ _ HC) in Av. discriminate.
  Qed.

  Lemma fp_Cur : Cur nd k i' g'.
  Proof.
    destruct HCol as (F1 & F2 & F3 & F4 & F5 & F6).
    destruct fp_new_i as (N1 & N2 & N3 & N4).
    destruct HC as [C1 C2 C3 C4 C5 C6 C7 C8].
    assert (AE : forall e, e < ne g -> e_asg (ge g' e) = e_asg (ge g0 e)).
    { intros e L. fold (asgE g' e) (asgE g0 e). rewrite <- fp_asgE.
      assert (M' := d_mt _ _ _ _ HD). assert (Mg : Mt g) by (eapply Grow_Mt; [exact F1|apply HI]).
      destruct (asgE g e) as [x|] eqn:X.
      - apply M'. apply (d_asg _ _ _ _ HD). left. apply Mg. exact X.
      - destruct (asgE g' e) as [x|] eqn:Y; [|reflexivity]. exfalso. apply M' in Y. apply (d_asg _ _ _ _ HD) in Y.
        destruct Y as [Y|(v & e' & Cv & Dv & Av & De)].
        + apply Mg in Y. congruence.
        + destruct (F3 v Cv) as (k' & Ak & Ck). assert (k' = e') by congruence. subst k'.
          destruct (fp_colE e' Ck) as [Le _]. destruct (d_eold _ _ _ _ HD e' Le) as (_ & _ & Ec).
          destruct (Ec Ck) as (_ & d & D1 & _ & D3 & _). assert (d = e) by congruence. lia. }
    pose proof (d_ne _ _ _ _ HD) as HNE. rewrite fp_ne in *.
    constructor; auto; try lia.
    - intros e L1 L2. destruct (C7 e L1 L2) as [A B]. rewrite AE; [|lia]. split; [exact A|].
      destruct (d_eold _ _ _ _ HD e) as (_ & En & Ec); [rewrite fp_ne; lia|].
      destruct (e_col (ge g e)) eqn:Ce; [|rewrite (En eq_refl), fp_eder; exact B].
      exfalso. destruct (F6 e Ce) as [->|(v & Av & Cv)]; [lia|].
      rewrite fp_asgV in Av. apply (i_mt g0 HI) in Av. unfold asgE in Av. congruence.
    - intros e L De. destruct (lt_dec e (ne g0)) as [L'|L'].
      + destruct (d_eold _ _ _ _ HD e) as (_ & En & Ec); [rewrite fp_ne; lia|].
        destruct (e_col (ge g e)) eqn:Ce.
        { destruct (Ec eq_refl) as (_ & d & _ & _ & D3 & _). congruence. }
        rewrite (En eq_refl), fp_eder in De. rewrite AE; [|exact L'].
        destruct (C8 e L' De) as [A|[->|B]]; [auto| |auto]. unfold colE in F2. congruence.
      + (* a new equation is the derivative of a coloured one *)
        destruct (d_enew _ _ _ _ HD e) as (_ & e0 & E1 & E2 & E3); [rewrite fp_ne; lia|exact L|].
        destruct (F6 e0 E2) as [->|(v & Av & Cv)].
        * right. left. pose proof (d_i _ _ _ _ HD). congruence.
        * left. destruct (fp_colV v Cv) as [Lv _]. destruct (d_vold _ _ _ _ HD v Lv) as (_ & _ & Vc).
          destruct (Vc Cv) as (_ & w & _ & _ & W).
          assert (A : asgV g' w = Some e) by (apply (d_asg _ _ _ _ HD); right; exists v, e0; auto).
          apply (d_mt _ _ _ _ HD) in A. unfold asgE in A. congruence.
  Qed.

  Lemma fp_keeps : keeps_original g0 g'.
  Proof.
    split; [rewrite <- fp_nv; apply HD|]. split; [rewrite <- fp_ne; apply HD|].
    split; [|split; [|split; [|split]]].
    - intros e L. destruct (d_eold _ _ _ _ HD e) as (-> & _); [rewrite fp_ne; exact L|]. apply fp_orig.
    - intros v w D. apply fp_keepV. rewrite fp_vder. exact D.
    - intros v w D. rewrite <- fp_vder, <- fp_nv.
      assert (L : v < nv g') by (apply (s_lt g' (d_st _ _ _ _ HD)) in D; lia).
      destruct (lt_dec v (nv g)) as [L'|L'].
      + destruct (d_vold _ _ _ _ HD v L') as (_ & A & B).
        destruct (v_col (gv g v)); [|left; rewrite <- (A eq_refl); exact D].
        destruct (B eq_refl) as (_ & w' & W & _ & W'). right. congruence.
      + destruct (d_vnew _ _ _ _ HD v) as [_ Q]; [lia|exact L|congruence].
    - intros e d D. apply fp_keepE. rewrite fp_eder. exact D.
    - intros e d D. rewrite <- fp_eder, <- fp_ne.
      assert (L : e < ne g') by (apply (s_ede g' (d_st _ _ _ _ HD)) in D; lia).
      destruct (lt_dec e (ne g)) as [L'|L'].
      + destruct (d_eold _ _ _ _ HD e L') as (_ & A & B).
        destruct (e_col (ge g e)); [|left; rewrite <- (A eq_refl); exact D].
        destruct (B eq_refl) as (_ & w' & W & _ & W' & _). right. congruence.
      + destruct (d_enew _ _ _ _ HD e) as [Q _]; [lia|exact L|congruence].
  Qed.

  (** ** The sum of the distances decreases *)
  Variables (cur tv lf sl : nat -> nat).
  Hypothesis HT : Track nd g0 cur tv lf sl.

  Definition next (o : option nat) (x : nat) : nat := match o with Some y => y | None => x end.
  Definition cur' f := if e_col (ge g (cur f)) then next (e_der (ge g' (cur f))) 0 else cur f.
  Definition tv' f := if e_col (ge g (cur f)) then next (v_der (gv g' (tv f))) 0 else tv f.
  Definition lf' f := if v_col (gv g (lf f)) then next (v_der (gv g' (lf f))) 0 else lf f.
  Definition sl' f := (if v_col (gv g (lf f)) then S (sl f) else sl f) - (if e_col (ge g (cur f)) then 1 else 0).

  Lemma up_in n : forall v w, v < nv g -> up g n v w -> w < nv g.
  Proof.
    induction n as [|n IH]; cbn [up]; intros v w L; [intros <-; exact L|].
    intros (u & D & U). apply (IH u); [apply (s_lt g fp_st) in D; lia|exact U].
  Qed.

  Lemma fp_up f : f < nd -> up g (sl f) (tv f) (lf f) /\ v_der (gv g (lf f)) = None /\ tv f < nv g /\ lf f < nv g.
  Proof.
    intros L. destruct (t_up _ _ _ _ _ _ HT f L) as [A B].
    assert (U : up g (sl f) (tv f) (lf f)) by (revert A; apply up_mono; intros v w; rewrite fp_vder; auto).
    assert (Lt : tv f < nv g).
    { assert (I := t_tv _ _ _ _ _ _ HT f L). rewrite fp_nv. apply (s_or g0 (i_st _ HI)) in I. apply I. }
    split; [exact U|]. split; [rewrite fp_vder; exact B|]. split; [exact Lt|]. eapply up_in; eauto.
  Qed.

  (** the slack of a differentiated equation is not zero, or grows *)
  Lemma fp_slack f : f < nd -> e_col (ge g (cur f)) = true ->
    v_col (gv g (lf f)) = true \/ 0 < sl f.
  Proof.
    intros L Ce. destruct (fp_up f L) as (U & N & Lt & Ll).
    destruct (sl f) as [|n] eqn:Es; [|right; lia]. left. cbn [up] in U.
    assert (I := t_tv _ _ _ _ _ _ HT f L). rewrite <- fp_orig in I. rewrite U in I.
    destruct HCol as (F1 & F2 & F3 & F4 & F5 & F6). apply (F4 (cur f) Ce).
    apply (s_var g fp_st). split; [exact I|].
    destruct (v_del (gv g (lf f))) eqn:D; [|reflexivity]. exfalso. exact (s_del g fp_st _ D N).
  Qed.

  Lemma fp_total_len f : f < nd ->
    exists n, up g' n (tv f) (lf' f) /\ n = (if v_col (gv g (lf f)) then S (sl f) else sl f) /\
              v_der (gv g' (lf' f)) = None.
  Proof.
    intros L. destruct (fp_up f L) as (U & N & Lt & Ll).
    assert (U' : up g' (sl f) (tv f) (lf f)) by (revert U; apply up_mono; exact fp_keepV).
    unfold lf'. destruct (d_vold _ _ _ _ HD (lf f) Ll) as (_ & A & B).
    destruct (v_col (gv g (lf f))) eqn:Cl.
    - destruct (B eq_refl) as (_ & w & W1 & W2 & W3). rewrite W3. cbn [next].
      exists (S (sl f)). split; [eapply up_snoc; eauto|]. split; [reflexivity|].
      apply (d_vnew _ _ _ _ HD w W1 W2).
    - exists (sl f). split; [exact U'|]. split; [reflexivity|]. rewrite (A eq_refl). exact N.
  Qed.

  Lemma fp_Track : Track nd g' cur' tv' lf' sl'.
  Proof.
    destruct HCol as (F1 & F2 & F3 & F4 & F5 & F6).
    assert (Hc : forall f, f < nd -> cur f < ne g /\ e_der (ge g (cur f)) = None).
    { intros f L. rewrite fp_ne, fp_eder. apply (t_cur _ _ _ _ _ _ HT f L). }
    constructor.
    - intros f L. destruct (Hc f L) as [A B]. unfold cur'.
      destruct (d_eold _ _ _ _ HD (cur f) A) as (_ & En & Ec).
      destruct (e_col (ge g (cur f))) eqn:Ce.
      + destruct (Ec eq_refl) as (_ & d & D1 & D2 & D3 & _). rewrite D3. cbn [next].
        split; [exact D2|]. apply (d_enew _ _ _ _ HD d D1 D2).
      + pose proof (d_ne _ _ _ _ HD). split; [lia|]. rewrite (En eq_refl). exact B.
    - intros f L. destruct (Hc f L) as [A B]. unfold cur', tv'.
      assert (I := t_tv _ _ _ _ _ _ HT f L). rewrite <- fp_orig in I.
      destruct (d_eold _ _ _ _ HD (cur f) A) as (Eo & En & Ec).
      destruct (e_col (ge g (cur f))) eqn:Ce.
      + destruct (Ec eq_refl) as (_ & d & D1 & D2 & D3 & D4). rewrite D3. cbn [next].
        destruct (fp_var (cur f) (tv f) Ce I) as (w & W). rewrite W. cbn [next].
        apply D4. right. exists (tv f). auto.
      + rewrite Eo. exact I.
    - intros f L. destruct (fp_total_len f L) as (n & U & En & Nn). split; [|exact Nn].
      unfold tv', sl'. rewrite <- En. destruct (e_col (ge g (cur f))) eqn:Ce.
      + assert (Hn : 0 < n).
        { destruct (fp_slack f L Ce) as [Q|Q]; [rewrite En, Q; lia|]. rewrite En. destruct (v_col (gv g (lf f))); lia. }
        destruct n as [|n]; [lia|]. cbn [up] in U. destruct U as (u & Du & U). rewrite Du. cbn [next].
        replace (S n - 1) with n by lia. exact U.
      + rewrite Nat.sub_0_r. exact U.
    - intros f f' L L' E.
      destruct (fp_up f L) as (_ & _ & _ & Lf), (fp_up f' L') as (_ & _ & _ & Lf').
      apply (t_inj _ _ _ _ _ _ HT f f' L L').
      unfold lf' in E.
      destruct (d_vold _ _ _ _ HD (lf f) Lf) as (_ & _ & B), (d_vold _ _ _ _ HD (lf f') Lf') as (_ & _ & B').
      destruct (v_col (gv g (lf f))) eqn:C1; destruct (v_col (gv g (lf f'))) eqn:C2; auto.
      + destruct (B eq_refl) as (_ & w & _ & _ & W), (B' eq_refl) as (_ & w' & _ & _ & W').
        rewrite W, W' in E. cbn [next] in E. subst w'.
        apply (s_der g' (d_st _ _ _ _ HD)) in W. apply (s_der g' (d_st _ _ _ _ HD)) in W'. congruence.
      + destruct (B eq_refl) as (_ & w & W1 & _ & W). rewrite W in E. cbn [next] in E. lia.
      + destruct (B' eq_refl) as (_ & w & W1 & _ & W). rewrite W in E. cbn [next] in E. lia.
    - intros e L De. destruct (lt_dec e (ne g)) as [L'|L'].
      + destruct (d_eold _ _ _ _ HD e L') as (_ & En & Ec).
        destruct (e_col (ge g e)) eqn:Ce.
        { destruct (Ec eq_refl) as (_ & d & _ & _ & D3 & _). congruence. }
        rewrite (En eq_refl), fp_eder in De. rewrite fp_ne in L'.
        destruct (t_sur _ _ _ _ _ _ HT e L' De) as (f & Lf & <-). exists f. split; [exact Lf|].
        unfold cur'. rewrite Ce. reflexivity.
      + destruct (d_enew _ _ _ _ HD e) as (_ & e0 & E1 & E2 & E3); [lia|exact L|].
        destruct (fp_colE e0 E2) as [_ N0]. rewrite fp_eder in N0. rewrite fp_ne in E1.
        destruct (t_sur _ _ _ _ _ _ HT e0 E1 N0) as (f & Lf & <-). exists f. split; [exact Lf|].
        unfold cur'. rewrite E2, E3. reflexivity.
  Qed.

  Lemma sum_split (p q : nat -> bool) (s s' : nat -> nat) l :
    (forall f, In f l -> s' f + (if q f then 1 else 0) = s f + (if p f then 1 else 0)) ->
    list_sum (map s' l) + length (filter q l) = list_sum (map s l) + length (filter p l).
  Proof.
    induction l as [|a l IH]; intros H; [reflexivity|].
    assert (IH' := IH (fun f I => H f (or_intror I))). assert (Ha := H a (or_introl eq_refl)). clear IH H.
    change (list_sum (map s' (a :: l))) with (s' a + list_sum (map s' l)).
    change (list_sum (map s (a :: l))) with (s a + list_sum (map s l)).
    cbn [filter].
    destruct (q a), (p a); cbn [length] in *; lia.
  Qed.

  Lemma NoDup_map_in {A B} (f : A -> B) l : NoDup l ->
    (forall a b, In a l -> In b l -> f a = f b -> a = b) -> NoDup (map f l).
  Proof.
    induction l as [|a l IH]; intros Nd H; cbn [map]; [constructor|].
    inversion Nd as [|? ? Na Nl]; subst. constructor.
    - intros I. apply in_map_iff in I. destruct I as (b & E & Ib).
      assert (b = a) by (apply H; [right; exact Ib|left; reflexivity|exact E]). subst b. contradiction.
    - apply IH; [exact Nl|]. intros; apply H; auto; right; assumption.
  Qed.

  Lemma fp_fewer :
    length (filter (fun f => v_col (gv g (lf f))) (seq 0 nd)) < length (filter (fun f => e_col (ge g (cur f))) (seq 0 nd)).
  Proof.
    destruct HCol as (F1 & F2 & F3 & F4 & F5 & F6).
    set (B := filter _ _). set (A := filter (fun f => e_col (ge g (cur f))) (seq 0 nd)).
    assert (HB : forall f, In f B -> f < nd /\ v_col (gv g (lf f)) = true).
    { intros f I. apply filter_In in I. destruct I as [I C]. apply in_seq in I. split; [lia|exact C]. }
    assert (HA : forall e, colE g e = true -> In e (map cur A)).
    { intros e Ce. destruct (fp_colE e Ce) as [L N]. rewrite fp_ne in L. rewrite fp_eder in N.
      destruct (t_sur _ _ _ _ _ _ HT e L N) as (f & Lf & <-). apply in_map. apply filter_In. split; [|exact Ce].
      apply in_seq. lia. }
    set (h := fun f => next (asgV g (lf f)) 0).
    assert (Hh : forall f, In f B -> exists e, asgV g (lf f) = Some e /\ h f = e /\ colE g e = true /\ e <> i).
    { intros f I. destruct (HB f I) as [L C]. destruct (F3 (lf f) C) as (e & Ae & Ce).
      exists e. split; [exact Ae|]. split; [unfold h; rewrite Ae; reflexivity|]. split; [exact Ce|].
      intros ->. rewrite fp_asgV in Ae. apply (i_mt g0 HI) in Ae. unfold asgE in Ae. rewrite (c_asg _ _ _ _ HC) in Ae. discriminate. }
    assert (Nd : NoDup (map h B ++ [i])).
    { apply NoDup_snoc.
      - apply NoDup_map_in; [apply NoDup_filter, seq_NoDup|].
        intros a b Ia Ib E. destruct (Hh a Ia) as (e & A1 & A2 & _), (Hh b Ib) as (e' & B1 & B2 & _).
        assert (e = e') by congruence. subst e'.
        apply (t_inj _ _ _ _ _ _ HT); [apply HB; exact Ia|apply HB; exact Ib|].
        rewrite fp_asgV in A1, B1. apply (i_mt g0 HI) in A1. apply (i_mt g0 HI) in B1. congruence.
      - intros I. apply in_map_iff in I. destruct I as (f & E & If). destruct (Hh f If) as (e & _ & E1 & _ & N). congruence. }
    assert (Len : length (map h B ++ [i]) <= length (map cur A)).
    { apply NoDup_incl_length; [exact Nd|]. intros x I. apply in_app_iff in I. destruct I as [I|[<-|[]]].
      - apply in_map_iff in I. destruct I as (f & E & If). destruct (Hh f If) as (e & _ & E1 & Ce & _). apply HA. congruence.
      - apply HA. exact F2. }
    rewrite app_length, !map_length in Len. cbn [length] in Len. lia.
  Qed.

  Lemma fp_total : total nd sl' < total nd sl.
  Proof.
    unfold total.
    assert (E := sum_split (fun f => v_col (gv g (lf f))) (fun f => e_col (ge g (cur f))) sl sl' (seq 0 nd)).
    assert (list_sum (map sl' (seq 0 nd)) + length (filter (fun f => e_col (ge g (cur f))) (seq 0 nd)) =
            list_sum (map sl (seq 0 nd)) + length (filter (fun f => v_col (gv g (lf f))) (seq 0 nd))).
    { apply E. intros f I. apply in_seq in I. unfold sl'.
      assert (Hs : e_col (ge g (cur f)) = true -> v_col (gv g (lf f)) = true \/ 0 < sl f) by (apply fp_slack; lia).
      destruct (e_col (ge g (cur f))); destruct (v_col (gv g (lf f))); try lia.
      all: destruct (Hs eq_refl) as [Q|Q]; [discriminate|lia]. }
    pose proof fp_fewer. lia.
  Qed.
End FailedPass.

(** ** One pass *)
Lemma Ready_of g : Inv g -> uncoloured g -> (forall v, v_del (gv g v) = false -> v_der (gv g v) = None) -> Ready g.
Proof. intros [I1 I2 I3 I4 I5 I6 I7] U L. constructor; auto. Qed.

Lemma Depth_proc : procedure Depth.
Proof. left. reflexivity. Qed.

Lemma succ_Inv g0 g i : Inv g0 -> i < ne g0 -> e_asg (ge g0 i) = None -> e_der (ge g0 i) = None ->
  (forall v, v_del (gv g0 v) = false -> v_der (gv g0 v) = None) ->
  Succ (allowed Depth) g0 g i ->
  Inv g /\ (forall e, e_asg (ge g e) <> None <-> e_asg (ge g0 e) <> None \/ e = i).
Proof.
  intros HI Hi Ha Hd HL (S0 & S1 & S2 & S3 & S4 & S5 & S6 & S7 & S8).
  assert (HS : St g) by (eapply St_same; [exact S0|apply HI]).
  assert (Sx := S0). destruct Sx as (N1 & N2 & SV & SE).
  assert (HM : Mt g).
  { intros v e. rewrite <- S1. unfold asgE at 1. rewrite Ha. split; [intros A; split; [exact A|discriminate]|tauto]. }
  assert (Hmt : forall e, e_asg (ge g e) <> None <-> e_asg (ge g0 e) <> None \/ e = i).
  { intros e. destruct (Nat.eq_dec e i) as [->|N]; [split; auto|].
    fold (asgE g e) (asgE g0 e). rewrite (S3 e N). split; [auto|]. intros [A|A]; [exact A|contradiction]. }
  assert (New : forall v e, asgV g v = Some e -> asgV g0 v = Some e \/ (In v (varsE g0 e) /\ (e_asg (ge g0 e) <> None \/ e = i))).
  { intros v e A. destruct (S8 v e A) as [B|[B _]]; [auto|]. right. split; [exact B|].
    apply Hmt. apply HM in A. unfold asgE in A. congruence. }
  split; [|exact Hmt].
  assert (Lim : forall e, e_asg (ge g0 e) <> None \/ e = i -> e < ne g0).
  { intros e [A| ->]; [|exact Hi]. destruct (e_asg (ge g0 e)) as [w|] eqn:W; [|congruence].
    fold (asgE g0 e) in W. apply (i_mt g0 HI) in W. apply (i_rg g0 HI w e W). }
  constructor.
  - exact HS.
  - exact HM.
  - intros v e A. rewrite N1, N2. destruct (New v e A) as [B|[B C]]; [apply (i_rg g0 HI v e B)|].
    split; [|apply Lim; exact C]. unfold varsE in B. apply (s_var g0 (i_st _ HI)) in B. destruct B as [B _].
    apply (s_or g0 (i_st _ HI)) in B. apply B.
  - intros v e A. destruct (SE e) as (-> & _). destruct (New v e A) as [B|[B C]]; [apply (i_in g0 HI v e B)|].
    apply (s_var g0 (i_st _ HI)) in B. apply B.
  - intros v e A. destruct (SE e) as (_ & _ & -> & _). destruct (SV v) as (_ & _ & -> & _).
    destruct (New v e A) as [B|[B C]]; [apply (i_dd g0 HI v e B)|].
    apply (s_var g0 (i_st _ HI)) in B. destruct B as [Bo Bd]. rewrite (HL v Bd).
    split; [intros _|reflexivity]. destruct C as [C| ->]; [|exact Hd].
    destruct (e_asg (ge g0 e)) as [w|] eqn:W; [|congruence].
    fold (asgE g0 e) in W. apply (i_mt g0 HI) in W.
    (* w is the former variable of e *)
    destruct (e_der (ge g0 e)) as [d|] eqn:De; [|reflexivity]. exfalso.
    destruct (i_up g0 HI e d De v Bo) as (u & Du & _). rewrite (HL v Bd) in Du. discriminate.
  - intros e d. destruct (SE e) as (-> & _ & -> & _). destruct (SE d) as (-> & _). intros D v Iv.
    destruct (i_up g0 HI e d D v Iv) as (w & W & Iw). exists w. destruct (SV v) as (_ & _ & -> & _). auto.
  - intros e d. destruct (SE e) as (-> & _ & -> & _). destruct (SE d) as (-> & _). intros D w Iw.
    destruct (i_dn g0 HI e d D w Iw) as [?|(v & Iv & Dv)]; [auto|]. right. exists v. destruct (SV v) as (_ & _ & -> & _). auto.
Qed.

Definition Final (g : graph) : Prop :=
  Inv g /\ forall e, e < ne g -> e_der (ge g e) = None -> e_asg (ge g e) <> None.

(** what one pass does *)
Lemma pass_ok nd k i g : Inv g -> Cur nd k i g ->
  let g0 := prepare g in
  Inv g0 /\ Cur nd k i g0 /\ keeps_original g g0 /\
  (forall cur tv lf sl, Track nd g cur tv lf sl -> Track nd g0 cur tv lf sl) /\
  match augment Depth (S (ne g0)) i g0 with
  | Ret g1 true =>
      Inv g1 /\ keeps_original g g1 /\
      (forall cur tv lf sl, Track nd g cur tv lf sl -> Track nd g1 cur tv lf sl) /\
      (S k < nd -> Cur nd (S k) (S k) g1) /\ (nd <= S k -> Final g1)
  | Ret g1 false =>
      match failed g1 i with
      | FNext g2 i' => Inv g2 /\ Cur nd k i' g2 /\ keeps_original g g2 /\
          (forall cur tv lf sl, Track nd g cur tv lf sl ->
             exists cur' tv' lf' sl', Track nd g2 cur' tv' lf' sl' /\ total nd sl' < total nd sl)
      | FThrow _ => True
      | FNull => False
      end
  | Null => False
  | NoFuel => False
  end.
Proof.
  intros HI0 HC0. cbv zeta.
  destruct (prepare_ok g (i_st _ HI0)) as (PF & PS & PU & PL).
  set (g0 := prepare g) in *.
  assert (HI : Inv g0) by (eapply Inv_frame; eauto).
  assert (HC : Cur nd k i g0) by (eapply Cur_frame; eauto).
  assert (HK : keeps_original g g0) by (apply Frame_keeps; exact PF).
  assert (HTr : forall cur tv lf sl, Track nd g cur tv lf sl -> Track nd g0 cur tv lf sl).
  { intros cur tv lf sl. destruct PF as (_ & N & V & E). apply Track_frame; [exact N|intros v; apply V|].
    intros e. destruct (E e) as (? & ? & _). auto. }
  split; [exact HI|]. split; [exact HC|]. split; [exact HK|]. split; [exact HTr|].
  assert (HR : in_range g0) by (intros v e A; apply (i_rg g0 HI v e A)).
  pose proof (augment_ok Depth Depth_proc (S (ne g0)) i g0 (i_mt _ HI) HR (c_i _ _ _ _ HC)) as H.
  destruct (augment Depth (S (ne g0)) i g0) as [g1 [|]| |].
  - assert (Sx := H). destruct Sx as (S0 & _).
    destruct (succ_Inv g0 g1 i HI (c_i _ _ _ _ HC) (c_asg _ _ _ _ HC) (c_der _ _ _ _ HC) PL H) as [I1 Hm].
    assert (Sy := S0). destruct Sy as (N1 & N2 & SV & SE).
    split; [exact I1|]. split; [eapply keeps_trans; [exact HK|apply Same_keeps; exact S0]|].
    assert (An : forall e, e_asg (ge g0 e) = None -> e <> i -> e_asg (ge g1 e) = None).
    { intros e A N. destruct (e_asg (ge g1 e)) as [x|] eqn:X; [|reflexivity]. exfalso.
      assert (Q : e_asg (ge g1 e) <> None) by congruence. apply Hm in Q. destruct Q; congruence. }
    destruct HC as [C1 C2 C3 C4 C5 C6 C7 C8]. split; [|split].
    + intros cur tv lf sl T. apply (Track_frame nd g0); [exact N2|intros v; apply SV| |apply HTr; exact T].
      intros e. destruct (SE e) as (? & _ & ? & _). auto.
    + intros Lk. constructor; auto; try lia.
      * apply An; [apply C7; lia|lia].
      * destruct (SE (S k)) as (_ & _ & -> & _). apply C7; lia.
      * intros e L1 L2. destruct (SE e) as (_ & _ & -> & _). split; [apply An; [apply C7; lia|lia]|apply C7; lia].
      * intros e L De. destruct (SE e) as (_ & _ & Q & _). rewrite Q in De. rewrite N2 in L.
        destruct (C8 e L De) as [A|[->|[A1 A2]]].
        -- left. apply Hm. auto.
        -- left. apply Hm. auto.
        -- destruct (Nat.eq_dec e (S k)); [auto|]. right. right. lia.
    + intros Lk. split; [exact I1|]. intros e L De. destruct (SE e) as (_ & _ & Q & _). rewrite Q in De. rewrite N2 in L.
      apply Hm. destruct (C8 e L De) as [A|[->|[A1 A2]]]; auto. lia.
  - assert (HCol := fail_coloured g0 g1 i PU H).
    pose proof (failed_ok g0 g1 i (Ready_of g0 HI PU PL) (c_i _ _ _ _ HC) (c_asg _ _ _ _ HC) (c_der _ _ _ _ HC) HCol) as FO.
    destruct (failed g1 i) as [g2 i'|g2|]; [|exact I|exact FO].
    split; [eapply fp_Inv; eauto|]. split; [eapply fp_Cur; eauto|].
    split; [eapply keeps_trans; [exact HK|eapply fp_keeps; eauto]|].
    intros cur tv lf sl T. apply HTr in T.
    exists (cur' g1 g2 cur), (tv' g1 g2 cur tv), (lf' g1 g2 lf), (sl' g1 cur lf sl).
    split; [eapply fp_Track; eauto|eapply fp_total; eauto].
  - exact H.
  - pose proof (unc_le (upde g0 i e_color)). cbn [upde ne] in H0. lia.
Qed.

Lemma loop_ok nd : forall fuel k i g, Inv g -> Cur nd k i g ->
  match pantelides_from fuel nd k i g with
  | PDone g' => Final g' /\ keeps_original g g' /\
      (forall cur tv lf sl, Track nd g cur tv lf sl -> exists cur' tv' lf' sl', Track nd g' cur' tv' lf' sl')
  | PThrow _ => True
  | PNull => False
  | PFuel => forall cur tv lf sl, Track nd g cur tv lf sl -> fuel <= total nd sl + (nd - k)
  end.
Proof.
  induction fuel as [|fuel IH]; intros k i g HI HC; cbn [pantelides_from]; [lia|].
  destruct (pass_ok nd k i g HI HC) as (_ & _ & _ & _ & P).
  set (g0 := prepare g) in *.
  destruct (augment Depth (S (ne g0)) i g0) as [g1 [|]| |].
  - destruct P as (I1 & K1 & T1 & P1 & P2).
    destruct (Nat.ltb_spec (S k) nd) as [L|L].
    + specialize (IH (S k) (S k) g1 I1 (P1 L)).
      destruct (pantelides_from fuel nd (S k) (S k) g1) as [g'|g'| |].
      * destruct IH as (A & B & C). split; [exact A|]. split; [eapply keeps_trans; eauto|]. intros; eapply C; eauto.
      * exact I.
      * exact IH.
      * intros cur tv lf sl T. specialize (IH cur tv lf sl (T1 _ _ _ _ T)). lia.
    + split; [apply P2; exact L|]. split; [exact K1|]. intros cur tv lf sl T. exists cur, tv, lf, sl. auto.
  - destruct (failed g1 i) as [g2 i'|g2|]; [|exact I|exact P].
    destruct P as (I2 & C2 & K2 & T2). specialize (IH k i' g2 I2 C2).
    destruct (pantelides_from fuel nd k i' g2) as [g'|g'| |].
    + destruct IH as (A & B & C). split; [exact A|]. split; [eapply keeps_trans; eauto|].
      intros cur tv lf sl T. destruct (T2 _ _ _ _ T) as (c1 & t1 & l1 & s1 & T' & _). eapply C; eauto.
    + exact I.
    + exact IH.
    + intros cur tv lf sl T. destruct (T2 _ _ _ _ T) as (c1 & t1 & l1 & s1 & T' & Lt).
      specialize (IH _ _ _ _ T'). lia.
  - exact P.
  - contradiction.
Qed.

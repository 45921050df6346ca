(** * The method of Soares and Secchi: passes, result and end *)
From Coq Require Import List Arith Bool Lia Permutation.
From Verif Require Import Match_model Match_spec Match_proofs Match_struct Match_thm Match_pant Match_loop Match_init
  Pantelides_proofs Soares_model Soares_spec Soares_path Soares_diff Soares_pass.
Import ListNotations.

Definition UP (g : graph) : Prop :=
  forall e d, e_der (ge g e) = Some d -> forall x,
    In x (e_orig (ge g d)) <-> exists v, In v (e_orig (ge g e)) /\ v_der (gv g v) = Some x.
Definition LastOk (g : graph) (last : list nat) : Prop :=
  NoDup last /\ forall e, In e last -> exists d, e_der (ge g e) = Some d /\ e_der (ge g d) = None.

Lemma UP_same g g' : Same g g' -> UP g -> UP g'.
Proof.
  intros (_ & _ & V & E) H e d. destruct (E e) as (-> & _ & -> & _), (E d) as (-> & _). intros D x.
  rewrite (H e d D x). split; intros (v & I & Q); exists v; destruct (V v) as (_ & _ & Q' & _); split; congruence.
Qed.
Lemma LastOk_same g g' l : Same g g' -> LastOk g l -> LastOk g' l.
Proof.
  intros (_ & _ & _ & E) [N H]. split; [exact N|]. intros e I. destruct (H e I) as (d & A & B). exists d.
  destruct (E e) as (_ & _ & -> & _), (E d) as (_ & _ & -> & _). auto.
Qed.

Lemma raised_few g g' M l : PI g M -> M <> [] -> Permutation l M ->
  Grown (flat_map (fun e => e_orig (ge g e)) l) g g' ->
  cnt (raisedb g g') (nv g) < length M.
Proof.
  intros H N P G. destruct (p_few _ _ H N) as (k & phi & Ik & A & B).
  unfold cnt. set (rs := filter (raisedb g g') (seq 0 (nv g))).
  assert (R : forall v, In v rs -> exists e, In e M /\ In v (varsE g e) /\ highest_derivative g v).
  { intros v I. apply filter_In in I. destruct I as [I Q]. apply in_seq in I.
    unfold raisedb, leafb in Q. rewrite !andb_true_iff in Q. destruct Q as [[Q1 Q2] Q3].
    apply is_none_true in Q1. apply is_none_false in Q2. apply is_none_false in Q3.
    destruct (gr_der _ _ _ G v) as [Q|(_ & Q & _)]; [lia|congruence|].
    apply in_flat_map in Q. destruct Q as (e & Ie & Iv). exists e.
    split; [eapply Permutation_in; eauto|]. split; [|split; assumption].
    apply (in_orig g e v (p_st _ _ H) (p_del _ _ H)). exact Iv. }
  assert (Nr : NoDup rs) by (apply NoDup_filter, seq_NoDup).
  assert (L : length (k :: map phi rs) <= length M).
  { apply NoDup_incl_length.
    - constructor.
      + intros I. apply in_map_iff in I. destruct I as (v & Q & I). destruct (R v I) as (e & Ie & Iv & D).
        destruct (A v e Ie Iv D) as [_ X]. contradiction.
      + clearbody rs. clear -Nr R B. induction rs as [|a l IH]; [constructor|]. inversion Nr as [|? ? Na Nl]; subst. cbn [map]. constructor.
        * intros I. apply in_map_iff in I. destruct I as (v & Q & I).
          destruct (R v) as (e & Ie & Iv & D); [right; exact I|]. destruct (R a) as (e' & Ie' & Iv' & D'); [left; reflexivity|].
          assert (v = a) by (exact (B v e a e' Ie Iv D Ie' Iv' D' Q)). subst v. contradiction.
        * apply IH; [|exact Nl]. intros v I. apply R. right. exact I.
    - intros x [<-|I]; [exact Ik|]. apply in_map_iff in I. destruct I as (v & <- & I).
      destruct (R v I) as (e & Ie & Iv & D). apply (A v e Ie Iv D). }
  cbn [length] in L. rewrite map_length in L. lia.
Qed.

Lemma PI_diff g M l : PI g M -> M <> [] -> (forall e, e < ne g -> asgE g e <> None) -> Permutation l M ->
  let g' := differentiate l g in
  PI g' [] /\ (UP g -> UP g') /\ keeps_original g g' /\ LastOk g' M /\
  cnt (leafb g') (nv g') = cnt (leafb g) (nv g) /\ cnt (topb g') (ne g') = cnt (topb g) (ne g) /\
  nv g' + cnt (algb g') (nv g') + ne g < nv g + cnt (algb g) (nv g) + ne g'.
Proof.
  intros H N Hall P. cbv zeta. assert (HS := p_st _ _ H).
  assert (Nl : NoDup l) by (apply (Permutation_NoDup (Permutation_sym P)), H).
  assert (Il : forall e, In e l <-> In e M) by (intros e; split; apply Permutation_in; [exact P|apply Permutation_sym; exact P]).
  assert (D : Diffed l g (differentiate l g)).
  { apply diff_ok; auto. intros e I. apply (p_m _ _ H). apply Il. exact I. }
  set (g' := differentiate l g) in *. clearbody g'.
  assert (G := df_gr _ _ _ D). assert (NV := gr_nv _ _ _ G). assert (NE := df_ne _ _ _ D).
  assert (AVb : forall v e, asgV g v = Some e -> v < nv g /\ e < ne g).
  { intros v e A. apply (p_in _ _ H) in A. apply (in_orig g e v HS (p_del _ _ H)) in A. apply (s_or g HS) in A. exact A. }
  assert (AV : forall v, asgV g' v = asgV g v).
  { intros v. destruct (lt_dec v (nv g)) as [L|L]; [apply (gr_old _ _ _ G v L)|].
    assert (Q : asgV g v = None) by (destruct (asgV g v) as [e|] eqn:A; [apply AVb in A; lia|reflexivity]).
    rewrite Q. destruct (lt_dec v (nv g')) as [L'|L'].
    - apply (gr_new _ _ _ G v); lia.
    - destruct (gr_out _ _ _ G v) as (_ & A & _); [lia|]. unfold asgV in *. congruence. }
  assert (AE : forall e, asgE g' e = asgE g e).
  { intros e. destruct (lt_dec e (ne g)) as [L|L]; [apply (df_old _ _ _ D e L)|].
    assert (Q : asgE g e = None).
    { destruct (asgE g e) as [v|] eqn:A; [apply (p_mt _ _ H) in A; apply AVb in A; lia|reflexivity]. }
    rewrite Q. destruct (lt_dec e (ne g')) as [L'|L'].
    - apply (df_new _ _ _ D e); lia.
    - unfold asgE in *. rewrite (df_out _ _ _ D); [exact Q|lia]. }
  assert (DerLt : forall e d, e_der (ge g e) = Some d -> e < ne g /\ d < ne g) by (intros e d Q; apply (s_ede g HS) in Q; lia).
  (* an equation with a derivative now *)
  assert (Old : forall e d, e_der (ge g' e) = Some d -> e < ne g /\ (In e l \/ (e_der (ge g e) = Some d /\ ~ In e l))).
  { intros e d Q. destruct (lt_dec e (ne g)) as [L|L].
    - split; [exact L|]. destruct (in_dec Nat.eq_dec e l) as [I|I]; [auto|]. right. split; [|exact I].
      rewrite <- (df_der _ _ _ D e L I). exact Q.
    - exfalso. destruct (lt_dec e (ne g')) as [L'|L'].
      + destruct (df_new _ _ _ D e) as (Z & _); [lia|lia|congruence].
      + rewrite (df_out _ _ _ D) in Q; [|lia]. apply DerLt in Q. lia. }
  assert (Held : forall e, held g M e -> held g' [] e).
  { intros e [I|Q]; right.
    - apply Il in I. destruct (df_in _ _ _ D e I) as (d & _ & _ & Z). congruence.
    - destruct (e_der (ge g e)) as [d|] eqn:Z; [|congruence]. rewrite (df_der _ _ _ D).
      + congruence.
      + apply (DerLt e d Z).
      + intros I. apply Il in I. apply (p_m _ _ H) in I. destruct I. congruence. }
  assert (Va : forall e, e < ne g -> varsE g' e = varsE g e) by (intros e L; apply (df_old _ _ _ D e L)).
  assert (Del : forall v, v < nv g' -> v_del (gv g' v) = false).
  { intros v L. destruct (lt_dec v (nv g)) as [L'|L'].
    - destruct (gr_old _ _ _ G v L') as (-> & _). apply (p_del _ _ H v L').
    - apply (gr_new _ _ _ G v); lia. }
  assert (Hn : forall e, e_der (ge g' e) <> None -> forall v, In v (varsE g' e) -> v_der (gv g' v) <> None).
  { intros e Q v I. destruct (e_der (ge g' e)) as [d|] eqn:Z; [|congruence]. destruct (Old e d Z) as [L [J|[J _]]]; rewrite (Va e L) in I.
    - apply (gr_has _ _ _ G). apply in_flat_map. exists e. split; [exact J|]. apply (in_orig g e v HS (p_del _ _ H)). exact I.
    - assert (X : v_der (gv g v) <> None) by (apply (p_none _ _ H e); [congruence|exact I]).
      destruct (v_der (gv g v)) as [w|] eqn:W; [|congruence]. rewrite (Grown_mono _ _ _ G v w); [discriminate| |exact W].
      apply (s_lt g HS) in W. lia. }
  split; [|split; [|split; [|split; [|split; [|split]]]]].
  - constructor.
    + apply D.
    + exact Del.
    + intros v e. rewrite AV, AE. apply H.
    + intros v e A. rewrite AV in A. rewrite Va; [apply (p_in _ _ H); exact A|]. apply AVb in A. apply A.
    + intros v. destruct (lt_dec v (nv g)) as [L|L].
      * unfold colV. destruct (gr_old _ _ _ G v L) as (_ & _ & _ & ->). apply (p_cv _ _ H).
      * destruct (lt_dec v (nv g')) as [L'|L']; [apply (gr_new _ _ _ G v); lia|].
        unfold colV. destruct (gr_out _ _ _ G v) as (_ & _ & _ & _ & ->); [lia|]. apply (p_cv _ _ H).
    + intros e v [[]|Q] I [X _]. exfalso. exact (Hn e Q v I X).
    + intros v e A. rewrite AV in A. destruct (p_low _ _ H v e A) as [[X Y]|X]; [|right; apply Held; exact X].
      destruct (AVb v e A) as [Lv _].
      destruct (gr_der _ _ _ G v Lv) as [Q|(_ & Q & _)].
      * left. split; [congruence|]. destruct (gr_old _ _ _ G v Lv) as (_ & _ & -> & _). exact Y.
      * right. apply Held. apply in_flat_map in Q. destruct Q as (e0 & I0 & Iv).
        destruct (p_full _ _ H e0 v) as (k & Ak & Pk).
        -- left. apply Il. exact I0.
        -- apply (in_orig g e0 v HS (p_del _ _ H)). exact Iv.
        -- split; assumption.
        -- assert (k = e) by congruence. subst k. exact Pk.
    + intros e C. unfold colE in C. destruct (lt_dec e (ne g)) as [L|L].
      * apply Held. apply (p_col _ _ H). unfold colE. destruct (df_old _ _ _ D e L) as (_ & _ & _ & _ & Q). congruence.
      * exfalso. destruct (lt_dec e (ne g')) as [L'|L'].
        -- destruct (df_new _ _ _ D e) as (_ & _ & Q & _); [lia|lia|congruence].
        -- rewrite (df_out _ _ _ D) in C; [|lia]. apply (p_col _ _ H) in C. apply (held_lt g M e H) in C. lia.
    + exact Hn.
    + intros e Q. rewrite AE. destruct (e_der (ge g' e)) as [d|] eqn:Z; [|congruence].
      apply Hall. apply (Old e d Z).
    + constructor.
    + intros e [].
    + intros Q. contradiction.
  - intros U e d Z x. destruct (Old e d Z) as [L [J|[J _]]].
    + destruct (df_old _ _ _ D e L) as (-> & _). apply (df_up _ _ _ D e d J Z).
    + destruct (df_old _ _ _ D e L) as (-> & _). destruct (DerLt e d J) as [_ Ld].
      destruct (df_old _ _ _ D d Ld) as (-> & _). rewrite (U e d J x).
      assert (K : forall v, In v (e_orig (ge g e)) -> v_der (gv g' v) = v_der (gv g v)).
      { intros v I. apply (in_orig g e v HS (p_del _ _ H)) in I.
        assert (X : v_der (gv g v) <> None) by (apply (p_none _ _ H e); [congruence|exact I]).
        destruct (v_der (gv g v)) as [w|] eqn:W; [|congruence]. apply (Grown_mono _ _ _ G v w); [|exact W].
        apply (s_lt g HS) in W. lia. }
      split; intros (v & I & Q); exists v; (split; [exact I|]); [rewrite K|rewrite <- K]; auto.
  - split; [lia|]. split; [lia|]. split; [|split; [|split; [|split]]].
    + intros e L. apply (df_old _ _ _ D e L).
    + intros v w Q. apply (Grown_mono _ _ _ G v w); [|exact Q]. apply (s_lt g HS) in Q. lia.
    + intros v w Q. destruct (lt_dec v (nv g)) as [L|L].
      * destruct (gr_der _ _ _ G v L) as [X|(_ & _ & w' & W1 & _ & W3)]; [left; congruence|right].
        assert (w' = w) by congruence. subst w'. exact W1.
      * left. destruct (lt_dec v (nv g')) as [L'|L'].
        -- destruct (gr_new _ _ _ G v) as (_ & _ & X & _); [lia|lia|congruence].
        -- destruct (gr_out _ _ _ G v) as (_ & _ & X & _); [lia|congruence].
    + intros e d Q. rewrite (df_der _ _ _ D); [exact Q|apply (DerLt e d Q)|].
      intros I. apply Il in I. apply (p_m _ _ H) in I. destruct I. congruence.
    + intros e d Q. destruct (Old e d Q) as [L [J|[J _]]]; [|auto].
      destruct (df_in _ _ _ D e J) as (d' & X & _ & Y). assert (d' = d) by congruence. subst d'. auto.
  - split; [apply H|]. intros e I. apply Il in I. destruct (df_in _ _ _ D e I) as (d & X1 & X2 & X3).
    exists d. split; [exact X3|]. apply (df_new _ _ _ D d X1 X2).
  - apply (gr_leaf _ _ _ G).
  - apply (df_top _ _ _ D).
  - assert (C := Grown_count _ _ _ G). assert (R := raised_few g g' M l H N P G).
    assert (Ln : length l = length M) by (apply Permutation_length; exact P). lia.
Qed.

(** every equation is assigned a variable of its own, so there are enough *)
Lemma matched_le g M : PI g M -> (forall e, e < ne g -> asgE g e <> None) -> ne g <= nv g.
Proof.
  intros H Hall. set (f := fun e => match asgE g e with Some v => v | None => 0 end).
  assert (F : forall e, e < ne g -> asgE g e = Some (f e)).
  { intros e L. unfold f. specialize (Hall e L). destruct (asgE g e); congruence. }
  rewrite <- (seq_length (ne g) 0), <- (seq_length (nv g) 0), <- (map_length f (seq 0 (ne g))).
  apply NoDup_incl_length.
  - assert (G : forall l, NoDup l -> (forall e, In e l -> e < ne g) -> NoDup (map f l)).
    { induction l as [|a l IH]; intros Nd Hl; [constructor|]. inversion Nd; subst. cbn [map]. constructor.
      - intros I. apply in_map_iff in I. destruct I as (b & Q & I).
        assert (A := F a (Hl a (or_introl eq_refl))). assert (B := F b (Hl b (or_intror I))). rewrite Q in B.
        apply (p_mt _ _ H) in A. apply (p_mt _ _ H) in B. congruence.
      - apply IH; [assumption|]. intros e I. apply Hl. right. exact I. }
    apply G; [apply seq_NoDup|]. intros e I. apply in_seq in I. lia.
  - intros v I. apply in_map_iff in I. destruct I as (e & <- & I). apply in_seq in I.
    assert (A : asgE g e = Some (f e)) by (apply F; lia). apply (p_mt _ _ H) in A. apply (p_in _ _ H) in A.
    apply (in_orig g e _ (p_st _ _ H) (p_del _ _ H)) in A. apply (s_or g (p_st _ _ H)) in A. apply in_seq. lia.
Qed.

Lemma cnt_same g g' : Same g g' -> cnt (leafb g') (nv g') = cnt (leafb g) (nv g) /\
  cnt (topb g') (ne g') = cnt (topb g) (ne g) /\ cnt (algb g') (nv g') = cnt (algb g) (nv g).
Proof.
  intros (-> & -> & V & E). split; [|split]; apply cnt_ext; intros x _.
  - unfold leafb. destruct (V x) as (_ & _ & -> & _). reflexivity.
  - unfold topb. destruct (E x) as (_ & _ & -> & _). reflexivity.
  - unfold algb. destruct (V x) as (_ & _ & -> & ->). reflexivity.
Qed.

(** ** The loop *)
Definition Done (g0 g : graph) (last : list nat) : Prop :=
  PI g [] /\ UP g /\ (forall e, e < ne g -> asgE g e <> None) /\ keeps_original g0 g /\ LastOk g last /\
  cnt (leafb g) (nv g) = cnt (leafb g0) (nv g0) /\ cnt (topb g) (ne g) = cnt (topb g0) (ne g0).

Lemma soares_loop ord : orders ord -> forall fuel p g last, PI g [] -> UP g -> LastOk g last ->
  match soares_from fuel ord p g last with
  | SDone g' last' => Done g g' last'
  | SThrow g' => keeps_original g g' /\ ((forall e, e_der (ge g' e) = None) ->
      ~ exists r, representatives (any_variable g) g (fun e => e < ne g) r)
  | SNull => False
  | SFuel => fuel = 0 \/ fuel + ne g <= nv g + cnt (algb g) (nv g) + 1
  | SDepth => False
  end.
Proof.
  intros HO. induction fuel as [|f IH]; intros p g last H U LO; cbn [soares_from]; [auto|].
  pose proof (visits_ok (seq 0 (ne g)) g [] H) as V.
  destruct (visits (seq 0 (ne g)) g []) as [g1 M1|g1| |].
  - destruct V as (A1 & A2 & A3); [intros k I; apply in_seq in I; lia|].
    assert (U1 := UP_same g g1 A2 U). assert (L1 := LastOk_same g g1 last A2 LO).
    assert (K1 := Same_keeps g g1 A2). destruct (cnt_same g g1 A2) as (C1 & C2 & C3).
    assert (N1 : ne g1 = ne g) by apply A2. assert (N1' : nv g1 = nv g) by apply A2.
    assert (All : forall e, e < ne g1 -> asgE g1 e <> None).
    { intros e L. apply A3. right. apply in_seq. lia. }
    assert (Le := matched_le g1 M1 A1 All).
    destruct M1 as [|m M1].
    + split; [exact A1|]. split; [exact U1|]. split; [exact All|]. split; [exact K1|]. split; [exact L1|]. auto.
    + set (M := m :: M1) in *.
      destruct (PI_diff g1 M (ord p M) A1) as (B1 & B2 & B3 & B4 & B5 & B6 & B7).
      * discriminate.
      * exact All.
      * apply HO.
      * set (g2 := differentiate (ord p M) g1) in *. specialize (IH (S p) g2 M B1 (B2 U1) B4).
        destruct (soares_from f ord (S p) g2 M) as [g' last'|g'| | |]; auto.
        -- destruct IH as (D1 & D2 & D3 & D4 & D5 & D6 & D7).
           split; [exact D1|]. split; [exact D2|]. split; [exact D3|]. split; [|split; [exact D5|split; congruence]].
           eapply keeps_trans; [exact K1|]. eapply keeps_trans; [exact B3|exact D4].
        -- destruct IH as (D1 & D2). split.
           ++ eapply keeps_trans; [exact K1|]. eapply keeps_trans; [exact B3|exact D1].
           ++ intros ND. exfalso. destruct B4 as [_ B4]. destruct (B4 m) as (d & Q & _); [left; reflexivity|].
              destruct D1 as (_ & _ & _ & _ & _ & D1 & _). apply D1 in Q. rewrite ND in Q. discriminate.
        -- right. destruct IH as [->|IH]; lia.
  - destruct V as (A1 & A2); [intros k I; apply in_seq in I; lia|].
    split; [apply Same_keeps; exact A1|]. intros ND. apply A2. intros e.
    destruct A1 as (_ & _ & _ & E). destruct (E e) as (_ & _ & Q & _). rewrite <- Q. apply ND.
  - apply V. intros k I. apply in_seq in I. lia.
  - apply V. intros k I. apply in_seq in I. lia.
Qed.

(** ** The start *)
Lemma model_PI g : model_graph g -> uncoloured g -> PI g [] /\ UP g /\ LastOk g [].
Proof.
  intros H [UV UE]. assert (HS := model_St g H). destruct H as [M1 M2 M3 M4 M5 M6 M7 M8].
  assert (A : forall v, asgV g v = None) by (intros v; apply M8).
  assert (D : forall e, e_der (ge g e) = None) by (intros v; apply M7).
  split; [|split].
  - constructor; auto.
    + intros v _. apply M8.
    + intros v e. rewrite A. unfold asgE. destruct (M7 e) as [_ ->]. split; discriminate.
    + intros v e. rewrite A. discriminate.
    + intros e v [[]|Q]. rewrite D in Q. congruence.
    + intros v e. rewrite A. discriminate.
    + intros e Q. unfold colE in Q. rewrite UE in Q. discriminate.
    + constructor.
    + intros e [].
    + intros Q. congruence.
  - intros e d Q. rewrite D in Q. discriminate.
  - split; [constructor|]. intros e [].
Qed.

(** ** The result *)
Lemma Done_ode g0 g last : Done g0 g last -> ode_structure g.
Proof.
  intros (H & _ & All & _). split; [exact (p_mt _ _ H)|]. split.
  - intros e L. specialize (All e L). unfold asgE in All. destruct (e_asg (ge g e)) as [v|] eqn:A; [|congruence].
    exists v. split; [reflexivity|]. apply (in_orig g e v (p_st _ _ H) (p_del _ _ H)). apply (p_in _ _ H). apply (p_mt _ _ H). exact A.
  - intros e v L D A. assert (B : asgV g v = Some e) by (apply (p_mt _ _ H); exact A).
    destruct (p_low _ _ H v e B) as [Q|[[]|Q]]; [exact Q|congruence].
Qed.

Lemma Done_total g0 g last : Done g0 g last -> total_derivatives g.
Proof.
  intros (H & U & _) e d D. destruct (s_ede g (p_st _ _ H) e d D) as (A & B & C).
  split; [exact A|]. split; [exact B|]. split; [exact C|]. split.
  - intros v I. assert (X : v_der (gv g v) <> None).
    { apply (p_none _ _ H e); [congruence|]. apply (in_orig g e v (p_st _ _ H) (p_del _ _ H)). exact I. }
    destruct (v_der (gv g v)) as [w|] eqn:W; [|congruence]. exists w. split; [reflexivity|].
    apply (U e d D). exists v. auto.
  - intros w I. apply (U e d D) in I. exact I.
Qed.

Lemma Done_removable g0 g last : Done g0 g last -> removable g (last_added g last).
Proof.
  intros (H & U & _ & _ & [N L] & _). unfold last_added. split.
  - clear U. induction last as [|a l IH]; [constructor|]. inversion N; subst. cbn [map]. constructor.
    + intros I. apply in_map_iff in I. destruct I as (b & Q & I).
      destruct (L a) as (d & Da & _); [left; reflexivity|]. rewrite Da in Q.
      assert (a = b) by (eapply der_inj; [apply (p_st _ _ H)|exact Da|exact Q]). subst b. contradiction.
    + apply IH; [assumption|]. intros e I. apply L. right. exact I.
  - intros o I. apply in_map_iff in I. destruct I as (e & <- & I). destruct (L e I) as (d & A & B). exists d.
    split; [exact A|]. destruct (s_ede g (p_st _ _ H) e d A) as (_ & C & E). split; [exact C|]. split; [congruence|exact B].
Qed.

Lemma Done_determined g0 g last : Done g0 g last -> square g0 -> determined g.
Proof.
  intros D Sq. assert (Ode := Done_ode g0 g last D). destruct D as (H & _ & All & _ & _ & C1 & C2).
  destruct Ode as (_ & _ & O3).
  set (f := fun e => match asgE g e with Some v => v | None => 0 end).
  assert (F : forall e, e < ne g -> asgE g e = Some (f e)).
  { intros e L. unfold f. specialize (All e L). destruct (asgE g e); congruence. }
  set (tops := filter (topb g) (seq 0 (ne g))). set (leaves := filter (leafb g) (seq 0 (nv g))).
  assert (Tl : forall e, In e tops -> e < ne g /\ e_der (ge g e) = None).
  { intros e I. apply filter_In in I. destruct I as [I Q]. apply in_seq in I. apply is_none_true in Q. split; [lia|exact Q]. }
  assert (Nf : NoDup (map f tops)).
  { assert (G : forall l, NoDup l -> (forall e, In e l -> e < ne g) -> NoDup (map f l)).
    { induction l as [|a l IH]; intros Nd Hl; [constructor|]. inversion Nd; subst. cbn [map]. constructor.
      - intros I. apply in_map_iff in I. destruct I as (b & Q & I).
        assert (A := F a (Hl a (or_introl eq_refl))). assert (B := F b (Hl b (or_intror I))). rewrite Q in B.
        apply (p_mt _ _ H) in A. apply (p_mt _ _ H) in B. congruence.
      - apply IH; [assumption|]. intros e I. apply Hl. right. exact I. }
    apply G; [apply NoDup_filter, seq_NoDup|]. intros e I. apply Tl. exact I. }
  assert (Inc : incl (map f tops) leaves).
  { intros v I. apply in_map_iff in I. destruct I as (e & <- & I). destruct (Tl e I) as [L N].
    assert (A := F e L). destruct (O3 e (f e) L N A) as [X _].
    apply (p_mt _ _ H) in A. apply (p_in _ _ H) in A. apply (in_orig g e _ (p_st _ _ H) (p_del _ _ H)) in A. apply (s_or g (p_st _ _ H)) in A.
    apply filter_In. split; [apply in_seq; lia|]. unfold leafb. rewrite X. reflexivity. }
  assert (Len : length leaves <= length (map f tops)).
  { rewrite map_length. change (length leaves) with (cnt (leafb g) (nv g)). change (length tops) with (cnt (topb g) (ne g)).
    rewrite C1, C2. unfold square in Sq. unfold cnt, leafb, topb. rewrite Sq. lia. }
  assert (Rev : incl leaves (map f tops)) by (apply NoDup_length_incl; auto).
  intros v L N. assert (I : In v leaves).
  { apply filter_In. split; [apply in_seq; lia|]. unfold leafb. rewrite N. reflexivity. }
  apply Rev in I. apply in_map_iff in I. destruct I as (e & Q & I). destruct (Tl e I) as [Le Ne].
  assert (A := F e Le). rewrite Q in A. destruct (O3 e v Le Ne A) as [_ X]. split; [exact X|].
  exists e. split; [exact Le|]. split; [exact Ne|]. apply (p_mt _ _ H) in A. split; [exact A|].
  apply (in_orig g e v (p_st _ _ H) (p_del _ _ H)). apply (p_in _ _ H). exact A.
Qed.

Lemma Done_Final g0 g last : Done g0 g last -> Final g.
Proof.
  intros D. assert (T := Done_total g0 g last D). assert (Ode := Done_ode g0 g last D).
  destruct D as (H & U & All & _). split; [|intros e L _; apply All; exact L].
  assert (AVb : forall v e, asgV g v = Some e -> In v (e_orig (ge g e)) /\ v < nv g /\ e < ne g).
  { intros v e A. apply (p_in _ _ H) in A. apply (in_orig g e v (p_st _ _ H) (p_del _ _ H)) in A. split; [exact A|]. apply (s_or g (p_st _ _ H)) in A. exact A. }
  constructor.
  - apply H.
  - apply H.
  - intros v e A. apply AVb in A. tauto.
  - intros v e A. apply AVb in A. tauto.
  - intros v e A. destruct (AVb v e A) as (I & Lv & Le). split.
    + intros N. destruct (e_der (ge g e)) as [d|] eqn:Q; [|reflexivity]. exfalso.
      apply (p_none _ _ H e) with (v := v); [congruence| |exact N]. apply (p_in _ _ H). exact A.
    + intros N. destruct Ode as (_ & _ & O). apply (O e v Le N). apply (p_mt _ _ H). exact A.
  - intros e d Q. apply (T e d Q).
  - intros e d Q w I. right. apply (T e d Q). exact I.
Qed.

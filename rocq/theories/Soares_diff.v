(** * Derivatives of equations without their original variables *)
From Coq Require Import List Arith Bool Lia.
From Verif Require Import Match_model Match_spec Match_proofs Match_struct Match_thm.
Import ListNotations.

(** numbers of variables: without derivative, and of these the algebraic ones *)
Definition leafb (g : graph) (v : nat) : bool := is_none (v_der (gv g v)).
Definition algb (g : graph) (v : nat) : bool := is_none (v_der (gv g v)) && is_none (v_anti (gv g v)).
Definition cnt (p : nat -> bool) (n : nat) : nat := length (filter p (seq 0 n)).

Lemma cnt_S p n : cnt p (S n) = cnt p n + (if p n then 1 else 0).
Proof.
  unfold cnt. rewrite seq_S, filter_app, app_length. cbn [plus filter].
  destruct (p n); reflexivity.
Qed.
Lemma cnt_ext p q n : (forall v, v < n -> p v = q v) -> cnt p n = cnt q n.
Proof.
  induction n as [|n IH]; intros H; [reflexivity|]. rewrite !cnt_S, IH, H; auto.
Qed.
Lemma cnt_drop p q n j : j < n -> p j = true -> q j = false -> (forall v, v < n -> v <> j -> p v = q v) ->
  cnt p n = S (cnt q n).
Proof.
  induction n as [|n IH]; intros L P Q H; [lia|]. rewrite !cnt_S. destruct (Nat.eq_dec j n) as [->|N].
  - rewrite P, Q, (cnt_ext p q n); [lia|]. intros v Lv. apply H; lia.
  - rewrite IH; auto; [|lia]. rewrite (H n); [lia|lia|lia].
Qed.

Definition dstep0 (d : nat) (g : graph) (j : nat) : graph :=
  match v_der (gv g j) with
  | Some dj => add_variable g d dj
  | None => let '(g', dj) := create_v g j in add_variable g' d dj
  end.

(** what one step, and then the loop, does *)
Record Grown (l : list nat) (g g' : graph) : Prop := {
  gr_nv : nv g <= nv g';
  gr_old : forall v, v < nv g -> v_del (gv g' v) = v_del (gv g v) /\ v_asg (gv g' v) = v_asg (gv g v) /\
     v_anti (gv g' v) = v_anti (gv g v) /\ v_col (gv g' v) = v_col (gv g v);
  gr_der : forall v, v < nv g -> v_der (gv g' v) = v_der (gv g v) \/
     (v_der (gv g v) = None /\ In v l /\ exists w, nv g <= w /\ w < nv g' /\ v_der (gv g' v) = Some w);
  gr_has : forall v, In v l -> v_der (gv g' v) <> None;
  gr_new : forall w, nv g <= w -> w < nv g' -> v_del (gv g' w) = false /\ v_asg (gv g' w) = None /\
     v_der (gv g' w) = None /\ v_col (gv g' w) = false /\
     exists v, v < nv g /\ In v l /\ v_der (gv g v) = None /\ v_anti (gv g' w) = Some v;
  gr_leaf : cnt (leafb g') (nv g') = cnt (leafb g) (nv g);
  gr_out : forall v, nv g' <= v -> v_del (gv g' v) = v_del (gv g v) /\ v_asg (gv g' v) = v_asg (gv g v) /\
     v_der (gv g' v) = v_der (gv g v) /\ v_anti (gv g' v) = v_anti (gv g v) /\ v_col (gv g' v) = v_col (gv g v) }.

Lemma Grown_refl g : Grown [] g g.
Proof.
  constructor; auto; try (intros; lia).

Qed.

Lemma Grown_mono l g g' : Grown l g g' -> forall v w, v < nv g -> v_der (gv g v) = Some w -> v_der (gv g' v) = Some w.
Proof. intros H v w L D. destruct (gr_der _ _ _ H v L) as [->|(Q & _)]; congruence. Qed.

Lemma Grown_trans l1 l2 g g1 g2 : (forall v, In v l1 -> v < nv g) -> (forall v, In v l2 -> v < nv g) ->
  Grown l1 g g1 -> Grown l2 g1 g2 -> Grown (l1 ++ l2) g g2.
Proof.
  intros H1 H2 A B. assert (N1 := gr_nv _ _ _ A). assert (N2 := gr_nv _ _ _ B). constructor.
  - lia.
  - intros v L. destruct (gr_old _ _ _ A v L) as (? & ? & ? & ?). destruct (gr_old _ _ _ B v) as (? & ? & ? & ?); [lia|].
    repeat split; congruence.
  - intros v L. destruct (gr_der _ _ _ A v L) as [Q|(Q & I & w & W1 & W2 & W3)].
    + destruct (gr_der _ _ _ B v) as [Q'|(Q' & I & w & W1 & W2 & W3)]; [lia|left; congruence|].
      right. split; [congruence|]. split; [apply in_app_iff; auto|]. exists w. split; [lia|]. auto.
    + right. split; [exact Q|]. split; [apply in_app_iff; auto|]. exists w. split; [exact W1|]. split; [lia|].
      eapply Grown_mono; eauto. lia.
  - intros v I. apply in_app_iff in I. destruct I as [I|I]; [|apply (gr_has _ _ _ B v I)].
    assert (L := H1 v I). assert (Q := gr_has _ _ _ A v I). destruct (v_der (gv g1 v)) as [w|] eqn:D; [|congruence].
    rewrite (Grown_mono _ _ _ B v w); [discriminate|lia|exact D].
  - intros w L1 L2. destruct (lt_dec w (nv g1)) as [L|L].
    + destruct (gr_new _ _ _ A w L1 L) as (Q1 & Q2 & Q3 & Q4 & v & V1 & V2 & V3 & V4).
      destruct (gr_old _ _ _ B w L) as (-> & -> & -> & ->).
      destruct (gr_der _ _ _ B w L) as [->|(_ & I & _)]; [|apply H2 in I; lia].
      split; [exact Q1|]. split; [exact Q2|]. split; [exact Q3|]. split; [exact Q4|]. exists v.
      split; [exact V1|]. split; [apply in_app_iff; auto|]. auto.
    + destruct (gr_new _ _ _ B w) as (Q1 & Q2 & Q3 & Q4 & v & V1 & V2 & V3 & V4); [lia|exact L2|].
      split; [exact Q1|]. split; [exact Q2|]. split; [exact Q3|]. split; [exact Q4|]. exists v.
      assert (Lv := H2 v V2). split; [exact Lv|]. split; [apply in_app_iff; auto|]. split; [|exact V4].
      destruct (v_der (gv g v)) as [x|] eqn:D; [|reflexivity].
      rewrite (Grown_mono _ _ _ A v x Lv D) in V3. discriminate.
  - rewrite (gr_leaf _ _ _ B). apply (gr_leaf _ _ _ A).
  - intros v L. destruct (gr_out _ _ _ B v L) as (-> & -> & -> & -> & ->). apply (gr_out _ _ _ A). lia.
Qed.

(** the variables are those of a graph with the same variables *)
Lemma Grown_frame l g g' h h' : Grown l g g' ->
  nv h = nv g -> nv h' = nv g' ->
  (forall v, v_del (gv h v) = v_del (gv g v) /\ v_asg (gv h v) = v_asg (gv g v) /\
     v_der (gv h v) = v_der (gv g v) /\ v_anti (gv h v) = v_anti (gv g v) /\ v_col (gv h v) = v_col (gv g v)) ->
  (forall v, v_del (gv h' v) = v_del (gv g' v) /\ v_asg (gv h' v) = v_asg (gv g' v) /\
     v_der (gv h' v) = v_der (gv g' v) /\ v_anti (gv h' v) = v_anti (gv g' v) /\ v_col (gv h' v) = v_col (gv g' v)) ->
  Grown l h h'.
Proof.
  intros A E1 E2 F F'. constructor; rewrite ?E1, ?E2.
  - apply A.
  - intros v L. destruct (F v) as (-> & -> & _ & -> & ->), (F' v) as (-> & -> & _ & -> & ->). apply (gr_old _ _ _ A v L).
  - intros v L. destruct (F v) as (_ & _ & -> & _ & _), (F' v) as (_ & _ & -> & _ & _). apply (gr_der _ _ _ A v L).
  - intros v I. destruct (F' v) as (_ & _ & -> & _ & _). apply (gr_has _ _ _ A v I).
  - intros w L1 L2. destruct (F' w) as (-> & -> & -> & -> & ->).
    destruct (gr_new _ _ _ A w L1 L2) as (Q1 & Q2 & Q3 & Q4 & v & V1 & V2 & V3 & V4).
    split; [exact Q1|]. split; [exact Q2|]. split; [exact Q3|]. split; [exact Q4|]. exists v.
    destruct (F v) as (_ & _ & -> & _ & _). auto.
  - rewrite (cnt_ext (leafb h') (leafb g')), (cnt_ext (leafb h) (leafb g)).
    + apply (gr_leaf _ _ _ A).
    + intros v _. unfold leafb. destruct (F v) as (_ & _ & -> & _). reflexivity.
    + intros v _. unfold leafb. destruct (F' v) as (_ & _ & -> & _). reflexivity.
  - intros v L. destruct (F' v) as (-> & -> & -> & -> & ->). destruct (F v) as (-> & -> & -> & -> & ->). apply (gr_out _ _ _ A v L).
Qed.

Lemma create_v_Grown g j : St g -> j < nv g -> v_der (gv g j) = None -> Grown [j] g (fst (create_v g j)).
Proof.
  intros HS Hj HD. destruct (create_v_ok g j HS Hj HD) as (A1 & A2 & A3 & A4 & A5 & A6 & A7 & A8).
  set (g' := fst (create_v g j)) in *. constructor.
  - lia.
  - intros v L. destruct (A7 v L) as (? & ? & ? & ? & ? & ?). auto.
  - intros v L. destruct (Nat.eq_dec v j) as [->|N].
    + right. split; [exact HD|]. split; [left; reflexivity|]. exists (nv g). split; [lia|]. split; [lia|exact A5].
    + left. apply (A7 v L). exact N.
  - intros v [<-|[]]. congruence.
  - intros w L1 L2. assert (w = nv g) by lia. subst w. rewrite A6. cbn [v_del v_asg v_der v_col v_anti].
    split; [reflexivity|]. split; [reflexivity|]. split; [reflexivity|]. split; [reflexivity|].
    exists j. split; [exact Hj|]. split; [left; reflexivity|]. auto.
  - rewrite A2, cnt_S. unfold leafb at 2. rewrite A6. cbn [v_der is_none].
    rewrite (cnt_drop (leafb g) (leafb g') (nv g) j Hj); [lia| | |].
    + unfold leafb. rewrite HD. reflexivity.
    + unfold leafb. rewrite A5. reflexivity.
    + intros v L N. unfold leafb. destruct (A7 v L) as (_ & _ & _ & _ & _ & ->); auto.
  - intros v L. rewrite A8; [repeat split|lia].
Qed.

(** one variable of the loop *)
Lemma dstep0_ok d g j : St g -> d < ne g -> j < nv g ->
  let g' := dstep0 d g j in
  St g' /\ ne g' = ne g /\ Grown [j] g g' /\
  (forall e, e <> d -> ge g' e = ge g e) /\
  (e_der (ge g' d) = e_der (ge g d) /\ e_of (ge g' d) = e_of (ge g d) /\
     e_asg (ge g' d) = e_asg (ge g d) /\ e_col (ge g' d) = e_col (ge g d)) /\
  (forall x, In x (e_orig (ge g' d)) <-> In x (e_orig (ge g d)) \/ v_der (gv g' j) = Some x).
Proof.
  intros HS Hd Hj. cbv zeta. unfold dstep0. destruct (v_der (gv g j)) as [w|] eqn:W.
  - assert (Lw : w < nv g) by (apply (s_lt g HS) in W; lia).
    destruct (add_variable_ok g d w HS Hd Lw) as (B1 & B2 & B3 & B4 & B5 & B6 & B7).
    set (g' := add_variable g d w) in *.
    split; [exact B1|]. split; [exact B3|]. split; [|split; [exact B5|]; split; [exact B6|]].
    + assert (X : Grown [j] g g).
      { constructor; auto; try (intros; lia). intros v [<-|[]]. congruence. }
      eapply Grown_frame; [exact X| | | |]; auto. 
    + intros x. rewrite B7. destruct (B4 j) as (_ & _ & -> & _). rewrite W. intuition congruence.
  - assert (G1 := create_v_Grown g j HS Hj W).
    destruct (create_v_ok g j HS Hj W) as (A1 & A2 & A3 & A4 & A5 & A6 & A7 & A8).
    assert (Sd : snd (create_v g j) = nv g) by (unfold create_v; rewrite W; reflexivity).
    destruct (create_v g j) as [g1 w]. cbn [fst snd] in *. subst w.
    assert (Hd1 : d < ne g1) by lia. assert (Hw : nv g < nv g1) by lia.
    destruct (add_variable_ok g1 d (nv g) A1 Hd1 Hw) as (B1 & B2 & B3 & B4 & B5 & B6 & B7).
    set (g' := add_variable g1 d (nv g)) in *.
    split; [exact B1|]. split; [congruence|]. split; [|split; [|split]].
    + eapply Grown_frame; [exact G1| | | |]; auto.
    + intros e N. rewrite B5, A4; auto.
    + rewrite A4 in B6. exact B6.
    + intros x. rewrite B7, A4. destruct (B4 j) as (_ & _ & -> & _). rewrite A5. intuition congruence.
Qed.

Lemma dirty0_ok d : forall l g, St g -> d < ne g -> (forall v, In v l -> v < nv g) ->
  let g' := fold_left (dstep0 d) l g in
  St g' /\ ne g' = ne g /\ Grown l g g' /\
  (forall e, e <> d -> ge g' e = ge g e) /\
  (e_der (ge g' d) = e_der (ge g d) /\ e_of (ge g' d) = e_of (ge g d) /\
     e_asg (ge g' d) = e_asg (ge g d) /\ e_col (ge g' d) = e_col (ge g d)) /\
  (forall x, In x (e_orig (ge g' d)) <-> In x (e_orig (ge g d)) \/ exists v, In v l /\ v_der (gv g' v) = Some x).
Proof.
  induction l as [|a l IH]; intros g HS Hd Hl; cbv zeta; cbn [fold_left].
  - split; [exact HS|]. split; [reflexivity|]. split; [apply Grown_refl|]. split; [auto|]. split; [auto|].
    intros x. split; [auto|]. intros [I|(v & [] & _)]. exact I.
  - assert (La : a < nv g) by (apply Hl; left; reflexivity).
    destruct (dstep0_ok d g a HS Hd La) as (A1 & A2 & A3 & A4 & A5 & A6). set (g1 := dstep0 d g a) in *.
    assert (N1 := gr_nv _ _ _ A3).
    destruct (IH g1 A1) as (B1 & B2 & B3 & B4 & B5 & B6); [lia| |].
    { intros v I. assert (v < nv g) by (apply Hl; right; exact I). lia. }
    set (g' := fold_left (dstep0 d) l g1) in *.
    split; [exact B1|]. split; [congruence|]. split; [|split; [|split]].
    + apply (Grown_trans [a] l g g1 g'); auto.
      * intros v [<-|[]]. exact La.
      * intros v I. apply Hl. right. exact I.
    + intros e N. rewrite B4, A4; auto.
    + destruct A5 as (? & ? & ? & ?), B5 as (? & ? & ? & ?). repeat split; congruence.
    + intros x. rewrite B6, A6. cbn [In].
      assert (K : forall y, v_der (gv g1 a) = Some y -> v_der (gv g' a) = Some y).
      { intros y. apply (Grown_mono _ _ _ B3). lia. }
      assert (Da : v_der (gv g1 a) <> None) by (apply (gr_has _ _ _ A3); left; reflexivity).
      split.
      * intros [[I|D]|(v & I & D)]; auto.
        -- right. exists a. auto.
        -- right. exists v. auto.
      * intros [I|(v & [<-|I] & D)]; auto.
        -- left. right. destruct (v_der (gv g1 a)) as [y|]; [|congruence]. rewrite <- D. symmetry. apply K. reflexivity.
        -- right. exists v. auto.
Qed.

(** ** One equation *)
Lemma create_e0_ok g i : St g -> i < ne g -> e_der (ge g i) = None ->
  let g' := create_e false g i in
  let d := ne g in
  St g' /\ ne g' = S d /\ Grown (e_orig (ge g i)) g g' /\
  (forall e, e <> d -> e <> i -> ge g' e = ge g e) /\
  (e_orig (ge g' i) = e_orig (ge g i) /\ e_vars (ge g' i) = e_vars (ge g i) /\ e_der (ge g' i) = Some d /\
     e_of (ge g' i) = e_of (ge g i) /\ e_asg (ge g' i) = e_asg (ge g i) /\ e_col (ge g' i) = e_col (ge g i)) /\
  (e_der (ge g' d) = None /\ e_asg (ge g' d) = None /\ e_col (ge g' d) = false) /\
  (forall x, In x (e_orig (ge g' d)) <-> exists v, In v (e_orig (ge g i)) /\ v_der (gv g' v) = Some x).
Proof.
  intros HS Hi HD. cbv zeta. unfold create_e. rewrite HD.
  set (d := ne g). set (g1 := upde g i _). set (g2 := Gr _ _ _ _).
  assert (E : forall e, ge g2 e = if e =? d then EN [] [] None (Some i) None false
     else if e =? i then EN (e_orig (ge g e)) (e_vars (ge g e)) (Some d) (e_of (ge g e)) (e_asg (ge g e)) (e_col (ge g e)) else ge g e) by reflexivity.
  assert (Hdd : i <> d) by (unfold d; lia).
  assert (Eor : forall e, e <> d -> e_orig (ge g2 e) = e_orig (ge g e) /\ e_vars (ge g2 e) = e_vars (ge g e) /\ e_of (ge g2 e) = e_of (ge g e)).
  { intros e N. rewrite E. destruct (Nat.eqb_spec e d); [contradiction|]. destruct (e =? i); repeat split. }
  assert (Ed : ge g2 d = EN [] [] None (Some i) None false) by (rewrite E, Nat.eqb_refl; reflexivity).
  assert (Ei : ge g2 i = EN (e_orig (ge g i)) (e_vars (ge g i)) (Some d) (e_of (ge g i)) (e_asg (ge g i)) (e_col (ge g i))).
  { rewrite E. destruct (Nat.eqb_spec i d); [contradiction|]. rewrite Nat.eqb_refl. reflexivity. }
  assert (Nonew : forall v, ~ In v (e_vars (ge g d)) /\ ~ In v (e_orig (ge g d))).
  { intros v. assert (H : ~ In v (e_orig (ge g d))) by (intros I; apply (s_or g HS) in I; unfold d in *; lia).
    split; [|exact H]. rewrite (s_var g HS). tauto. }
  assert (S2 : St g2).
  { constructor.
    - intros e v I. cbn [g2 nv ne]. destruct (Nat.eq_dec e d) as [->|N].
      + rewrite Ed in I. destruct I.
      + destruct (Eor e N) as (Q & _). rewrite Q in I. apply (s_or g HS) in I. fold d in I. change (nv g1) with (nv g). lia.
    - intros e. destruct (Nat.eq_dec e d) as [->|N].
      + rewrite Ed. split; constructor.
      + destruct (Eor e N) as (-> & -> & _). apply (s_nd g HS).
    - intros e v. change (gv g2 v) with (gv g v). destruct (Nat.eq_dec e d) as [->|N].
      + rewrite Ed. cbn [e_vars e_orig In]. tauto.
      + destruct (Eor e N) as (-> & -> & _). apply (s_var g HS).
    - intros e v. change (gv g2 v) with (gv g v). destruct (Nat.eq_dec e d) as [->|N].
      + rewrite Ed. cbn [e_vars In]. rewrite (s_eqs g HS). split; [|intros []]. apply Nonew.
      + destruct (Eor e N) as (_ & -> & _). apply (s_eqs g HS).
    - apply (s_der g HS).
    - apply (s_lt g HS).
    - intros e e'. change (ne g2) with (S d). destruct (Nat.eq_dec e d) as [->|N]; [rewrite Ed; discriminate|].
      destruct (Nat.eq_dec e i) as [->|Ni].
      + rewrite Ei. cbn [e_der]. intros H. injection H as <-. rewrite Ed. cbn [e_of]. split; [unfold d; lia|]. split; [lia|reflexivity].
      + rewrite E. destruct (Nat.eqb_spec e d); [contradiction|]. destruct (Nat.eqb_spec e i); [contradiction|].
        intros H. apply (s_ede g HS) in H. fold d in H. destruct H as (H1 & H2 & H3). destruct (Eor e') as (_ & _ & ->); [lia|]. split; [exact H1|]. split; [lia|exact H3].
    - apply (s_del g HS). }
  change (dirty_differentiate false g2 i d) with (fold_left (dstep0 d) (e_orig (ge g2 i)) g2).
  rewrite Ei. cbn [e_orig].
  assert (Hd2 : d < ne g2) by (cbn [g2 ne]; lia).
  destruct (dirty0_ok d (e_orig (ge g i)) g2 S2 Hd2) as (A1 & A2 & A3 & A4 & A5 & A6).
  { intros v I. apply (s_or g HS) in I; apply I. }
  split; [exact A1|]. split; [exact A2|]. split; [|split; [|split; [|split]]].
  - eapply Grown_frame; [exact A3| | | |]; auto; intros v; repeat split.
  - intros e N1 N2. rewrite A4; [|exact N1]. rewrite E. destruct (Nat.eqb_spec e d); [contradiction|].
    destruct (Nat.eqb_spec e i); [contradiction|reflexivity].
  - rewrite A4; [|exact Hdd]. rewrite Ei. repeat split.
  - destruct A5 as (-> & _ & -> & ->). rewrite Ed. repeat split.
  - intros x. rewrite A6, Ed. cbn [e_orig In]. tauto.
Qed.

(** equations without derivative *)
Definition topb (g : graph) (e : nat) : bool := is_none (e_der (ge g e)).

(** ** All marked equations *)
Record Diffed (l : list nat) (g g' : graph) : Prop := {
  df_st : St g';
  df_ne : ne g' = ne g + length l;
  df_gr : Grown (flat_map (fun e => e_orig (ge g e)) l) g g';
  df_old : forall e, e < ne g -> e_orig (ge g' e) = e_orig (ge g e) /\ e_vars (ge g' e) = e_vars (ge g e) /\
     e_of (ge g' e) = e_of (ge g e) /\ e_asg (ge g' e) = e_asg (ge g e) /\ e_col (ge g' e) = e_col (ge g e);
  df_der : forall e, e < ne g -> ~ In e l -> e_der (ge g' e) = e_der (ge g e);
  df_in : forall e, In e l -> exists d, ne g <= d /\ d < ne g' /\ e_der (ge g' e) = Some d;
  df_new : forall d, ne g <= d -> d < ne g' -> e_der (ge g' d) = None /\ e_asg (ge g' d) = None /\
     e_col (ge g' d) = false /\ exists e, In e l /\ e_der (ge g' e) = Some d;
  df_up : forall e d, In e l -> e_der (ge g' e) = Some d -> forall x,
     In x (e_orig (ge g' d)) <-> exists v, In v (e_orig (ge g e)) /\ v_der (gv g' v) = Some x;
  df_top : cnt (topb g') (ne g') = cnt (topb g) (ne g);
  df_out : forall e, ne g' <= e -> ge g' e = ge g e }.

Lemma diff_ok : forall l g, St g -> NoDup l -> (forall e, In e l -> e < ne g /\ e_der (ge g e) = None) ->
  Diffed l g (fold_left (create_e false) l g).
Proof.
  induction l as [|a l IH]; intros g HS Nd Hl; cbn [fold_left].
  - constructor; auto; try (intros; lia).
    + apply Grown_refl.
    + intros e [].
    + intros e d [].
  - inversion Nd as [|? ? Na Nl]; subst.
    destruct (Hl a) as [La Da]; [left; reflexivity|].
    destruct (create_e0_ok g a HS La Da) as (A1 & A2 & A3 & A4 & A5 & A6 & A7).
    set (g1 := create_e false g a) in *.
    assert (O1 : forall e, e < ne g -> e_orig (ge g1 e) = e_orig (ge g e) /\ e_vars (ge g1 e) = e_vars (ge g e) /\
       e_of (ge g1 e) = e_of (ge g e) /\ e_asg (ge g1 e) = e_asg (ge g e) /\ e_col (ge g1 e) = e_col (ge g e) /\
       (e <> a -> e_der (ge g1 e) = e_der (ge g e))).
    { intros e L. destruct (Nat.eq_dec e a) as [->|N].
      - destruct A5 as (? & ? & ? & ? & ? & ?). repeat split; auto. intros; contradiction.
      - rewrite A4; [|lia|exact N]. repeat split. }
    destruct (IH g1 A1 Nl) as [B1 B2 B3 B4 B5 B6 B7 B8 B9 B10].
    { intros e I. destruct (Hl e) as [Le De]; [right; exact I|]. split; [lia|].
      destruct (O1 e Le) as (_ & _ & _ & _ & _ & ->); [exact De|]. intros ->. contradiction. }
    set (g' := fold_left (create_e false) l g1) in *.
    assert (Fm : flat_map (fun e => e_orig (ge g1 e)) l = flat_map (fun e => e_orig (ge g e)) l).
    { assert (Hl' : forall e, In e l -> e < ne g) by (intros e I; apply Hl; right; exact I). clear -Hl' O1.
      induction l as [|b l IH]; [reflexivity|]. cbn [flat_map]. rewrite IH.
      - destruct (O1 b) as (-> & _); [apply Hl'; left; reflexivity|]. reflexivity.
      - intros e I. apply Hl'. right. exact I. }
    rewrite Fm in B3.
    assert (Rg1 : forall v, In v (e_orig (ge g a)) -> v < nv g) by (intros v I; apply (s_or g HS) in I; apply I).
    assert (Da' : e_der (ge g' a) = Some (ne g)).
    { rewrite B5; [apply A5|lia|exact Na]. }
    assert (N1 := gr_nv _ _ _ A3).
    constructor.
    + exact B1.
    + rewrite B2, A2. cbn [length]. lia.
    + cbn [flat_map]. apply (Grown_trans _ _ g g1 g'); auto.
      intros v I. apply in_flat_map in I. destruct I as (e & _ & I). apply (s_or g HS) in I. apply I.
    + intros e L. destruct (B4 e) as (? & ? & ? & ? & ?); [lia|]. destruct (O1 e L) as (? & ? & ? & ? & ? & _).
      repeat split; congruence.
    + intros e L N. cbn [In] in N. rewrite B5; [|lia|tauto]. apply (O1 e L). intros ->. tauto.
    + intros e [<-|I].
      * exists (ne g). split; [lia|]. split; [lia|exact Da'].
      * destruct (B6 e I) as (d & ? & ? & ?). exists d. split; [lia|]. auto.
    + intros d L1 L2. destruct (Nat.eq_dec d (ne g)) as [->|N].
      * destruct (B4 (ne g)) as (_ & _ & _ & -> & ->); [lia|].
        rewrite B5; [|lia|].
        -- destruct A6 as (-> & -> & ->). split; [reflexivity|]. split; [reflexivity|]. split; [reflexivity|].
           exists a. split; [left; reflexivity|exact Da'].
        -- intros I. destruct (Hl (ne g)) as [Q _]; [right; exact I|]. lia.
      * destruct (B7 d) as (Q1 & Q2 & Q3 & e & I & De); [lia|exact L2|].
        split; [exact Q1|]. split; [exact Q2|]. split; [exact Q3|]. exists e. split; [right; exact I|exact De].
    + intros e d [<-|I] De x.
      * rewrite Da' in De. injection De as <-. destruct (B4 (ne g)) as (-> & _); [lia|].
        rewrite A7. split; intros (v & Iv & Dv); exists v; (split; [exact Iv|]).
        -- apply (Grown_mono _ _ _ B3); [|exact Dv]. specialize (Rg1 v Iv). lia.
        -- assert (Q := gr_has _ _ _ A3 v Iv). destruct (v_der (gv g1 v)) as [y|] eqn:Y; [|congruence].
           rewrite <- Dv. symmetry. apply (Grown_mono _ _ _ B3); [|exact Y]. specialize (Rg1 v Iv). lia.
      * rewrite (B8 e d I De). destruct (O1 e) as (-> & _); [|tauto]. apply Hl. right. exact I.
    + rewrite B9, A2, cnt_S. unfold topb at 2. destruct A6 as (-> & _). cbn [is_none].
      rewrite (cnt_drop (topb g) (topb g1) (ne g) a La); [lia| | |].
      * unfold topb. rewrite Da. reflexivity.
      * unfold topb. destruct A5 as (_ & _ & -> & _). reflexivity.
      * intros e L N. unfold topb. destruct (O1 e L) as (_ & _ & _ & _ & _ & ->); auto.
    + intros e L. rewrite B10; [|exact L]. apply A4; lia.
Qed.

(** how many variables are added *)
Lemma cnt_split (p q r s t : nat -> bool) n :
  (forall v, v < n -> (if p v then 1 else 0) + (if q v then 1 else 0) =
     (if r v then 1 else 0) + (if s v then 1 else 0) + (if t v then 1 else 0)) ->
  cnt p n + cnt q n = cnt r n + cnt s n + cnt t n.
Proof.
  induction n as [|n IH]; intros H; [reflexivity|]. rewrite !cnt_S.
  specialize (IH (fun v L => H v (Nat.lt_lt_succ_r _ _ L))). specialize (H n (Nat.lt_succ_diag_r n)). lia.
Qed.
Lemma cnt_more p n m : (forall v, n <= v -> v < n + m -> p v = true) -> cnt p (n + m) = cnt p n + m.
Proof.
  induction m as [|m IH]; intros H; [rewrite Nat.add_0_r; lia|].
  rewrite Nat.add_succ_r, cnt_S, IH; [|intros; apply H; lia]. rewrite H; lia.
Qed.
Lemma cnt_none p n m : (forall v, n <= v -> v < n + m -> p v = false) -> cnt p (n + m) = cnt p n.
Proof.
  induction m as [|m IH]; intros H; [rewrite Nat.add_0_r; lia|].
  rewrite Nat.add_succ_r, cnt_S, IH; [|intros; apply H; lia]. rewrite H; lia.
Qed.

(** variables with an antiderivative which got a derivative *)
Definition raisedb (g g' : graph) (v : nat) : bool :=
  leafb g v && negb (leafb g' v) && negb (is_none (v_anti (gv g v))).

Lemma Grown_count l g g' : Grown l g g' ->
  nv g' + cnt (algb g') (nv g') = nv g + cnt (algb g) (nv g) + cnt (raisedb g g') (nv g).
Proof.
  intros H. assert (N := gr_nv _ _ _ H). assert (L := gr_leaf _ _ _ H).
  assert (E : nv g' = nv g + (nv g' - nv g)) by lia. set (m := nv g' - nv g) in *.
  rewrite E, cnt_more in L.
  2: { intros v L1 L2. unfold leafb. destruct (gr_new _ _ _ H v L1) as (_ & _ & -> & _); [lia|reflexivity]. }
  rewrite E, cnt_none.
  2: { intros v L1 L2. unfold algb. destruct (gr_new _ _ _ H v L1) as (_ & _ & _ & _ & u & _ & _ & _ & ->); [lia|]. apply andb_false_r. }
  assert (Q : cnt (leafb g) (nv g) + cnt (algb g') (nv g) = cnt (leafb g') (nv g) + cnt (algb g) (nv g) + cnt (raisedb g g') (nv g)); [|lia].
  apply cnt_split. intros v Lv. unfold algb, raisedb, leafb.
  destruct (gr_old _ _ _ H v Lv) as (_ & _ & -> & _).
  destruct (gr_der _ _ _ H v Lv) as [->|(-> & _ & w & _ & _ & ->)].
  - destruct (v_der (gv g v)), (v_anti (gv g v)); reflexivity.
  - destruct (v_anti (gv g v)); reflexivity.
Qed.

(** * The constructor *)
From Coq Require Import List Arith Bool Lia Sorted ZArith.
From Verif Require Import DaeGen_model DaeGen_spec DaeGen_lists DaeGen_inv.
Import ListNotations.
Local Open Scope nat_scope.

(** ** number *)
Lemma combine_seq_nth {A} (l : list A) a p : nth_error (combine (seq a (List.length l)) l) p = option_map (fun x => (a + p, x)) (nth_error l p).
Proof.
  revert a p; induction l as [|x l IH]; intros a p; [destruct p; reflexivity|]. destruct p; simpl; [now rewrite Nat.add_0_r|].
  rewrite IH. destruct (nth_error l p); simpl; auto. f_equal. f_equal. lia.
Qed.
Lemma number_nth vs j : nth_error (number vs) j =
  option_map (fun v => mkI j (i_anti v) (i_der v) (i_fun v) (i_int v) (Some j) (i_order v) (i_oanti v)) (nth_error vs j).
Proof. unfold number. rewrite nth_error_map, combine_seq_nth. now destruct (nth_error vs j). Qed.
Lemma number_length vs : List.length (number vs) = List.length vs.
Proof. unfold number. now rewrite map_length, combine_length, seq_length, Nat.min_id. Qed.

(** ** Same variables, other derivatives, orders *)
Definition like (vs ws : list vinfo) : Prop :=
  List.length ws = List.length vs /\
  forall j w, nth_error ws j = Some w -> exists v, nth_error vs j = Some v /\ i_id w = i_id v /\ i_anti w = i_anti v /\ i_fun w = i_fun v /\ i_int w = i_int v /\ i_orig w = i_orig v.
Lemma like_refl vs : like vs vs.
Proof. split; auto. intros j w H. exists w. auto 10. Qed.
Lemma like_trans a b c : like a b -> like b c -> like a c.
Proof.
  intros (L1 & A) (L2 & B). split; [congruence|]. intros j w H. destruct (B j w H) as (v & V & B1 & B2 & B3 & B4 & B5).
  destruct (A j v V) as (u & U & A1 & A2 & A3 & A4 & A5). exists u. repeat split; congruence.
Qed.
Lemma like_back vs ws j v : like vs ws -> nth_error vs j = Some v -> exists w, nth_error ws j = Some w /\ i_id w = i_id v /\ i_anti w = i_anti v /\ i_fun w = i_fun v /\ i_int w = i_int v /\ i_orig w = i_orig v.
Proof.
  intros (L & A) H. apply nth_lt in H as H'. rewrite <- L in H'. apply lt_nth in H' as (w & W). exists w. split; auto.
  destruct (A j w W) as (v' & V & X). assert (v' = v) by congruence. now subst v'.
Qed.
Lemma like_upd (f : vinfo -> vinfo) k vs : (forall v, i_id (f v) = i_id v /\ i_anti (f v) = i_anti v /\ i_fun (f v) = i_fun v /\ i_int (f v) = i_int v /\ i_orig (f v) = i_orig v) ->
  like vs (upd f k vs).
Proof.
  intro F. split; [apply upd_length|]. intros j w H. rewrite upd_nth in H. destruct (j =? k); [|exists w; auto 10].
  destruct (nth_error vs j) as [v|]; [|discriminate]. injection H as <-. exists v. split; auto.
Qed.
Lemma history_like vs ws j r k : like vs ws -> history vs j r k -> history ws j r k.
Proof.
  intros L H. induction H as [j v V A|j v a r k V A H IH]; destruct (like_back vs ws j v L V) as (w & W & _ & B & _).
  - eapply H_0; eauto. congruence.
  - eapply H_S; eauto. congruence.
Qed.

(** ** linkDers *)
Lemma linkDers_ok vs : (forall j v, nth_error vs j = Some v -> i_der v = None) ->
  (forall j j' v v' a, nth_error vs j = Some v -> nth_error vs j' = Some v' -> i_anti v = Some a -> i_anti v' = Some a -> j = j') ->
  like vs (linkDers vs) /\
  (forall j w, nth_error (linkDers vs) j = Some w -> (forall d, i_der w = Some d <-> exists u, nth_error vs d = Some u /\ i_anti u = Some j)) /\
  (forall j w v, nth_error (linkDers vs) j = Some w -> nth_error vs j = Some v -> i_order w = i_order v /\ i_oanti w = i_oanti v).
Proof.
  intros F Inj. unfold linkDers.
  set (f := fun acc j => match nth_error vs j with
                          | Some v => match i_anti v with Some a => upd (fun w => setDer w (Some j)) a acc | None => acc end
                          | None => acc end).
  assert (H : forall k, k <= List.length vs -> let acc := fold_left f (seq 0 k) vs in
     like vs acc /\ (forall j w, nth_error acc j = Some w -> (forall d, i_der w = Some d <-> d < k /\ exists u, nth_error vs d = Some u /\ i_anti u = Some j)) /\
     (forall j w v, nth_error acc j = Some w -> nth_error vs j = Some v -> i_order w = i_order v /\ i_oanti w = i_oanti v)).
  { induction k as [|k IH]; intro L.
    - split; [apply like_refl|]. split.
      + intros j w W d. cbn in W. rewrite (F j w W). split; [discriminate|lia].
      + cbn. intros j w v A B. assert (w = v) by congruence. now subst.
    - destruct IH as (I1 & I2 & I3); [lia|]. rewrite seq_S, fold_left_app. cbn [fold_left]. cbn [plus]. set (acc := fold_left f (seq 0 k) vs) in *.
      destruct (lt_nth vs k L) as (v & V).
      assert (FE : f acc k = match i_anti v with Some a => upd (fun w => setDer w (Some k)) a acc | None => acc end) by (unfold f; now rewrite V).
      rewrite FE. clear FE. destruct (i_anti v) as [a|] eqn:A.
      + split; [eapply like_trans; [exact I1|apply like_upd; auto 10]|]. split.
        * intros j w W d. rewrite upd_nth in W. destruct (j =? a) eqn:Q.
          -- apply Nat.eqb_eq in Q. subst a. destruct (nth_error acc j) as [w0|] eqn:W0; [|discriminate]. injection W as <-. cbn.
             split; [intro X; injection X as <-; split; [lia|eauto]|]. intros (Lk & u & U & UA). f_equal. eapply Inj; eauto.
          -- apply Nat.eqb_neq in Q. rewrite (I2 j w W d). split; intros (Lk & u & U & UA); (split; [|eauto]); [lia|].
             destruct (Nat.eq_dec d k) as [->|]; [|lia]. congruence.
        * intros j w v' W V'. rewrite upd_nth in W. destruct (j =? a); [|eapply I3; eauto].
          destruct (nth_error acc j) as [w0|] eqn:W0; [|discriminate]. injection W as <-. cbn. eapply I3; eauto.
      + split; auto. split; auto. intros j w W d. rewrite (I2 j w W d). split; intros (Lk & u & U & UA); (split; [|eauto]); [lia|].
        destruct (Nat.eq_dec d k) as [->|]; [|lia]. congruence. }
  destruct (H (List.length vs) (le_n _)) as (A & B & C). split; auto. split; auto.
  intros j w W d. rewrite (B j w W d). split; [intros (_ & X); auto|]. intros (u & U & X). split; eauto. eapply nth_lt; eauto.
Qed.

(** ** orders *)
Definition ordered (vs : list vinfo) (j : nat) : Prop :=
  forall v, nth_error vs j = Some v -> exists r k, history vs j r k /\ i_order v = Z.of_nat k /\ (k <> 0 -> i_oanti v = Some r).
Definition started (vs : list vinfo) (j : nat) : Prop :=
  forall v, nth_error vs j = Some v -> i_order v = 0%Z /\ i_oanti v = None.
Section Orders.
Variable rank : nat -> nat.
Definition okAntis (vs : list vinfo) : Prop :=
  (forall j v a, nth_error vs j = Some v -> i_anti v = Some a -> rank a < rank j /\ exists w, nth_error vs a = Some w) /\
  (forall j v, nth_error vs j = Some v -> i_orig v = Some j).
Definition sameDer (vs ws : list vinfo) : Prop := forall j v w, nth_error vs j = Some v -> nth_error ws j = Some w -> i_der w = i_der v.
Lemma okAntis_like vs ws : like vs ws -> okAntis vs -> okAntis ws.
Proof.
  intros L (A & B). split.
  - intros j w a W WA. destruct (proj2 L j w W) as (v & V & _ & X & _). destruct (A j v a V) as (R & u & U); [congruence|]. split; auto.
    destruct (like_back _ _ _ _ L U) as (u' & U' & _). eauto.
  - intros j w W. destruct (proj2 L j w W) as (v & V & _ & _ & _ & _ & X). rewrite X. eauto.
Qed.
Lemma ordered_same vs ws j : like vs ws -> nth_error ws j = nth_error vs j -> ordered vs j -> ordered ws j.
Proof.
  intros L E H w W. rewrite E in W. destruct (H w W) as (r & k & A & B & C). exists r, k. split; auto. eapply history_like; eauto.
Qed.
Lemma orderOf_ok fuel : forall j vs vs', okAntis vs -> (forall x, started vs x \/ ordered vs x) -> orderOf fuel j vs = Some vs' ->
  like vs vs' /\ sameDer vs vs' /\ ordered vs' j /\ (forall x, ordered vs x -> ordered vs' x) /\ (forall x, started vs' x \/ ordered vs' x).
Proof.
  induction fuel as [|fuel IH]; intros j vs vs' O P H; [discriminate|]. cbn [orderOf] in H.
  destruct (nth_error vs j) as [v|] eqn:V.
  2:{ injection H as <-. split; [apply like_refl|]. split; [intros ? ? ? X Y; congruence|]. split; [intros x X; congruence|]. auto. }
  destruct (i_anti v) as [a|] eqn:A.
  2:{ injection H as <-. split; [apply like_refl|]. split; [intros ? ? ? X Y; congruence|]. split; [|auto].
      destruct (P j) as [X|X]; auto. intros v' V'. destruct (X v' V') as (X1 & X2). exists j, 0. split; [eapply H_0; eauto; congruence|]. split; auto. tauto. }
  destruct (proj1 O j v a V A) as (R & w & W). rewrite W in H.
  assert (H1 : exists vs1, (match i_oanti w with Some _ => Some vs | None => orderOf fuel a vs end) = Some vs1 /\
     like vs vs1 /\ sameDer vs vs1 /\ ordered vs1 a /\ (forall x, ordered vs x -> ordered vs1 x) /\ (forall x, started vs1 x \/ ordered vs1 x)).
  { destruct (i_oanti w) as [oa|] eqn:OA.
    - exists vs. split; auto. split; [apply like_refl|]. split; [intros ? ? ? X Y; congruence|]. split; auto.
      destruct (P a) as [X|X]; auto. destruct (X w W). congruence.
    - destruct (orderOf fuel a vs) as [vs1|] eqn:R1; [|discriminate]. exists vs1. split; [reflexivity|]. eapply IH; eauto. }
  destruct H1 as (vs1 & E1 & L1 & D1 & A1 & K1 & P1). rewrite E1 in H.
  destruct (like_back _ _ _ _ L1 W) as (w1 & W1 & _). rewrite W1 in H. injection H as <-.
  assert (O1 : okAntis vs1) by (eapply okAntis_like; eauto).
  destruct (like_back _ _ _ _ L1 V) as (v1 & V1 & _ & VA1 & _).
  assert (AJ : a <> j) by (intros ->; lia).
  set (f := fun v0 => setOrder v0 (i_order w1 + 1)%Z (if (i_order w1 + 1 =? 1)%Z then i_orig w1 else i_oanti w1)).
  assert (L2 : like vs1 (upd f j vs1)) by (apply like_upd; intro; unfold f; cbn; auto 10).
  assert (OJ : ordered (upd f j vs1) j).
  { intros v' V'. rewrite upd_same with (x := v1) in V' by auto. injection V' as <-.
    destruct (A1 w1 W1) as (r & k & B1 & B2 & B3). exists r, (S k). split; [|split].
    - eapply history_like; [exact L2|]. eapply H_S; eauto. congruence.
    - unfold f. cbn. lia.
    - intros _. unfold f. cbn. rewrite B2. destruct (Z.eqb_spec (Z.of_nat k + 1) 1).
      + assert (k = 0) by lia. subst k. inversion B1; subst. eapply (proj2 O1); eauto.
      + apply B3. lia. }
  assert (KX : forall x, x <> j -> ordered vs1 x -> ordered (upd f j vs1) x).
  { intros x N X. eapply ordered_same; eauto. now apply upd_other. }
  split; [eapply like_trans; eauto|]. split.
  { intros x y z Y Z. rewrite upd_nth in Z. destruct (x =? j).
    - destruct (nth_error vs1 x) as [y1|] eqn:Y1; [|discriminate]. injection Z as <-. unfold f. cbn. eapply D1; eauto.
    - eapply D1; eauto. }
  split; auto. split.
  - intros x X. destruct (Nat.eq_dec x j) as [->|N]; auto.
  - intros x. destruct (Nat.eq_dec x j) as [->|N]; auto. destruct (P1 x) as [X|X]; auto. left. intros y Y. rewrite upd_other in Y by auto. auto.
Qed.
Lemma orders_ok : forall js vs vs', okAntis vs -> (forall x, started vs x \/ ordered vs x) -> orders js vs = Some vs' ->
  like vs vs' /\ sameDer vs vs' /\ (forall x, In x js \/ ordered vs x -> ordered vs' x).
Proof.
  induction js as [|j js IH]; intros vs vs' O P H.
  { injection H as <-. split; [apply like_refl|]. split; [intros ? ? ? X Y; congruence|]. intros x [[]|X]; auto. }
  cbn [orders] in H. destruct (orderOf _ j vs) as [vs1|] eqn:E; [|discriminate].
  apply orderOf_ok in E as (L1 & D1 & A1 & K1 & P1); auto.
  apply IH in H as (L2 & D2 & K2); auto; [|eapply okAntis_like; eauto]. split; [eapply like_trans; eauto|]. split.
  - intros x y z Y Z. destruct (like_back _ _ _ _ L1 Y) as (y1 & Y1 & _). rewrite (D2 x y1 z Y1 Z). eauto.
  - intros x [[->|X]|X]; auto.
Qed.
End Orders.

(** ** The result *)
Record infos (vs vs1 : list vinfo) : Prop := mkInfos {
  b_len : List.length vs1 = List.length vs;
  b_nth : forall j v1, nth_error vs1 j = Some v1 -> i_id v1 = j /\ i_orig v1 = Some j /\
    exists v, nth_error vs j = Some v /\ i_anti v1 = i_anti v /\ i_fun v1 = i_fun v /\ i_int v1 = i_int v;
  b_der : forall j v1 d, nth_error vs1 j = Some v1 -> (i_der v1 = Some d <-> exists w, nth_error vs1 d = Some w /\ i_anti w = Some j);
  b_ord : forall j, ordered vs1 j
}.
Lemma infos_ok vs vs1 : validInfo vs -> orders (seq 0 (List.length vs)) (linkDers (number vs)) = Some vs1 -> infos vs vs1.
Proof.
  intros (V1 & V2 & V3 & (rank & V4) & V5) H.
  assert (NB : forall j w, nth_error (number vs) j = Some w -> exists v, nth_error vs j = Some v /\ w = mkI j (i_anti v) (i_der v) (i_fun v) (i_int v) (Some j) (i_order v) (i_oanti v)).
  { intros j w W. rewrite number_nth in W. destruct (nth_error vs j) as [v|]; [|discriminate]. injection W as <-. eauto. }
  assert (NF : forall j v, nth_error vs j = Some v -> nth_error (number vs) j = Some (mkI j (i_anti v) (i_der v) (i_fun v) (i_int v) (Some j) (i_order v) (i_oanti v))).
  { intros j v E. now rewrite number_nth, E. }
  destruct (linkDers_ok (number vs)) as (L1 & D1 & O1).
  { intros j w W. destruct (NB j w W) as (v & V & ->). cbn. apply (V1 j v V). }
  { intros j j' w w' a W W' A A'. destruct (NB j w W) as (v & V & ->). destruct (NB j' w' W') as (v' & V' & ->). eapply V3; eauto. }
  assert (OK : okAntis rank (linkDers (number vs))).
  { eapply okAntis_like; [exact L1|]. split.
    - intros j w a W A. destruct (NB j w W) as (v & V & ->). cbn in A. split; eauto.
      destruct (V2 j v a V A) as (_ & u & U & _). eexists. eapply NF; eauto.
    - intros j w W. destruct (NB j w W) as (v & V & ->). reflexivity. }
  apply (orders_ok rank) in H as (L2 & D2 & K2); auto.
  2:{ intros x. left. intros w W. destruct (proj2 L1 x w W) as (u & U & _). destruct (O1 x w u W U) as (X1 & X2). rewrite X1, X2.
      destruct (NB x u U) as (v & V & ->). cbn. destruct (V1 x v V) as (_ & Y). exact Y. }
  constructor.
  - rewrite (proj1 L2), (proj1 L1). apply number_length.
  - intros j v1 E. destruct (proj2 L2 j v1 E) as (w & W & A1 & A2 & A3 & A4 & A5). destruct (proj2 L1 j w W) as (u & U & B1 & B2 & B3 & B4 & B5).
    destruct (NB j u U) as (v & V & ->). cbn in *. split; [congruence|]. split; [congruence|]. exists v. repeat split; congruence.
  - intros j v1 d E. destruct (proj2 L2 j v1 E) as (w & W & _). rewrite (D2 j w v1 W E), (D1 j w W d). split.
    + intros (u & U & UA). destruct (like_back _ _ _ _ L1 U) as (u1 & U1 & _ & X1 & _). destruct (like_back _ _ _ _ L2 U1) as (u2 & U2 & _ & X2 & _).
      exists u2. split; congruence.
    + intros (u2 & U2 & UA). destruct (proj2 L2 d u2 U2) as (u1 & U1 & _ & X2 & _). destruct (proj2 L1 d u1 U1) as (u & U & _ & X1 & _).
      exists u. split; congruence.
  - intros j v1 E. apply K2; auto. left. apply in_seq. apply nth_lt in E. rewrite (proj1 L2), (proj1 L1), number_length in E. lia.
Qed.

(** ** The nodes *)
Lemma chain_lt vs : forall fuel j k, chain fuel vs j = Some k -> k < fuel.
Proof.
  induction fuel as [|fuel IH]; intros j k H; [discriminate|]. cbn [chain] in H.
  destruct (nth_error vs j) as [v|]; [|injection H as <-; lia]. destruct (i_anti v) as [a|]; [|injection H as <-; lia].
  destruct (chain fuel vs a) as [k'|] eqn:E; [|discriminate]. injection H as <-. apply IH in E. lia.
Qed.
Lemma NoDup_concat {A B} (f : A -> list B) l : NoDup l -> (forall a, NoDup (f a)) ->
  (forall a b x, In x (f a) -> In x (f b) -> a = b) -> NoDup (concat (map f l)).
Proof.
  intros N F D. induction N as [|a l Na N IH]; simpl; [constructor|].
  assert (G : forall l1, NoDup l1 -> (forall x, In x l1 -> ~ In x (concat (map f l))) -> NoDup (l1 ++ concat (map f l))).
  { induction l1 as [|x l1 IH1]; simpl; auto. intros N1 H. inversion N1; subst. constructor; auto.
    intro I. apply in_app_or in I as [I|I]; [tauto|]. eapply H; eauto. }
  apply G; auto. intros x X Y. apply in_concat in Y as (lb & Y1 & Y2). apply in_map_iff in Y1 as (b & <- & Y1).
  rewrite (D a b x X Y2) in Na. tauto.
Qed.
Section Nodes.
Variable vs : list vinfo.
Let ts := timeDependent vs.
Hypothesis ends : existsb (fun j => match diffOrder vs j with None => true | _ => false end) (seq 0 (List.length vs)) = false.
Lemma ts_NoDup : NoDup ts.
Proof.
  unfold ts, timeDependent. apply NoDup_concat; [apply seq_NoDup| |].
  - intro o. apply NoDup_filter, seq_NoDup.
  - intros a b x X Y. apply filter_In in X as (_ & X). apply filter_In in Y as (_ & Y).
    destruct (diffOrder vs x) as [[k|]|]; try discriminate. apply Nat.eqb_eq in X, Y. congruence.
Qed.
Lemma ts_In j : In j ts <-> exists v, nth_error vs j = Some v /\ i_fun v = true.
Proof.
  unfold ts, timeDependent. rewrite in_concat. split.
  - intros (l & L & J). apply in_map_iff in L as (o & <- & _). apply filter_In in J as (J & D). unfold diffOrder in D.
    destruct (nth_error vs j) as [v|]; [|discriminate]. exists v. split; auto. destruct (i_fun v); auto; discriminate.
  - intros (v & V & F). assert (L := nth_lt _ _ _ V).
    destruct (diffOrder vs j) as [[k|]|] eqn:D.
    + unfold diffOrder in D. rewrite V, F in D. destruct (chain _ vs j) as [k'|] eqn:C; [|discriminate]. injection D as ->.
      eexists. split; [apply in_map_iff; exists k; split; [reflexivity|apply in_seq; apply chain_lt in C; lia]|].
      apply filter_In. split; [apply in_seq; lia|]. unfold diffOrder. rewrite V, F, C. cbn. apply Nat.eqb_refl.
    + unfold diffOrder in D. rewrite V, F in D. destruct (chain _ vs j); discriminate.
    + exfalso. assert (X : existsb (fun j => match diffOrder vs j with None => true | _ => false end) (seq 0 (List.length vs)) = true); [|congruence].
      apply existsb_exists. exists j. split; [apply in_seq; lia|]. now rewrite D.
Qed.
End Nodes.

Section Initial.
Variables (vs vs1 : list vinfo) (m : nat) (sparsity : nat -> nat -> bool) (g : gr).
Hypothesis V : validInfo vs.
Hypothesis B : build m vs sparsity = Some (vs1, g).
Let ts := timeDependent vs1.
Definition n0Of (vs1 : list vinfo) : nat := List.length (timeDependent vs1).

Lemma build_facts : infos vs vs1 /\ List.length (filter i_int vs1) <= 1 /\ NoDup ts /\
  (forall j, In j ts <-> exists v, nth_error vs1 j = Some v /\ i_fun v = true) /\
  (forall t a, In t ts -> antiOf vs1 t = Some a -> In a ts) /\
  g = mkG (vnodesOf vs1) (seq 0 (List.length ts))
          (map (fun i => mkE (map (fun p => posOf p ts) (filter (fun p => existsb (Nat.eqb p) ts && sparsity i p) (seq 0 (List.length vs1)))) None None) (seq 0 m)) (seq 0 m).
Proof.
  unfold build in B. destruct (orders _ _) as [w|] eqn:O; [|discriminate].
  destruct (1 <? _) eqn:T; [discriminate|]. destruct (existsb _ (seq 0 (List.length w))) eqn:E; [discriminate|].
  destruct (negb (forallb _ _)) eqn:F; [discriminate|]. destruct (negb (unknowns _ =? m)); [discriminate|].
  injection B as -> <-. split; [now apply infos_ok|]. split; [apply Nat.ltb_ge in T; exact T|]. split; [apply ts_NoDup|]. split; [intro j; now apply ts_In|].
  apply negb_false_iff in F. rewrite forallb_forall in F. split.
  - intros t a H A. specialize (F t H). rewrite A in F. now apply existsb_In.
  - unfold vnodesOf. now rewrite map_length.
Qed.
Lemma node_nth k : nth_error (vnodesOf vs1) k = option_map (fun t => mkV t (option_map (fun a => posOf a ts) (antiOf vs1 t))
                      (option_map (fun d => posOf d ts) (find (isAnti vs1 t) (rev ts)))) (nth_error ts k).
Proof. unfold vnodesOf. now rewrite nth_error_map. Qed.
Lemma find_der t a : In t ts -> antiOf vs1 t = Some a -> find (isAnti vs1 a) (rev ts) = Some t.
Proof.
  intros H A. destruct build_facts as (I & _ & ND & TI & _).
  destruct (find (isAnti vs1 a) (rev ts)) as [d|] eqn:F.
  - apply find_some in F as (D & F). apply in_rev in D. unfold isAnti in F. destruct (antiOf vs1 d) as [b|] eqn:AD; [|discriminate].
    apply Nat.eqb_eq in F. subst b. f_equal. unfold antiOf in A, AD.
    destruct (nth_error vs1 t) as [vt|] eqn:ET; [|discriminate]. destruct (nth_error vs1 d) as [vd|] eqn:Ed; [|discriminate].
    destruct (b_nth _ _ I t vt ET) as (_ & _ & v1 & X1 & X2 & _). destruct (b_nth _ _ I d vd Ed) as (_ & _ & v2 & Y1 & Y2 & _).
    destruct V as (_ & _ & Inj & _). apply (Inj d t v2 v1 a Y1 X1); congruence.
  - exfalso. apply in_rev in H. apply (find_none _ _ F) in H. unfold isAnti in H. now rewrite A, Nat.eqb_refl in H.
Qed.

Lemma initial_inv : inv (List.length vs1) (List.length ts) m (g_v g) (g_e g) no3 no3 g.
Proof.
  destruct build_facts as (I & _ & ND & TI & TA & E). rewrite E. cbn [g_v g_va g_e g_ea].
  assert (EN : forall k e, nth_error (map (fun i => mkE (map (fun p => posOf p ts) (filter (fun p => existsb (Nat.eqb p) ts && sparsity i p) (seq 0 (List.length vs1)))) None None) (seq 0 m)) k = Some e ->
     e = mkE (map (fun p => posOf p ts) (filter (fun p => existsb (Nat.eqb p) ts && sparsity k p) (seq 0 (List.length vs1)))) None None).
  { intros k e H. rewrite nth_error_map in H. destruct (nth_error (seq 0 m) k) as [x|] eqn:X; [|discriminate]. injection H as <-.
    assert (L := nth_lt _ _ _ X). rewrite seq_length in L. rewrite nth_error_nth' with (d := 0) in X by (now rewrite seq_length). rewrite seq_nth in X by auto. injection X as <-. reflexivity. }
  constructor; cbn [g_v g_va g_e g_ea].
  - rewrite firstn_all2; auto. now rewrite seq_length.
  - apply sorted_seq.
  - intros k K. apply in_seq in K. unfold vnodesOf. rewrite map_length. fold ts. lia.
  - intros k L. destruct (lt_nth ts k L) as (t & T). rewrite node_nth, T. cbn [v_der v_anti v_tape option_map e_vars e_of e_der]. eexists. eexists. repeat split.
  - intros p k v L H. apply nth_lt in H. rewrite seq_length in H. lia.
  - intros k v d K H D. rewrite node_nth in H. destruct (nth_error ts k) as [t|] eqn:T; [|discriminate]. injection H as <-. cbn [v_der v_anti v_tape option_map e_vars e_of e_der] in D.
    destruct (find _ _) as [d0|] eqn:F; [|discriminate]. injection D as <-. apply find_some in F as (F1 & F2). rewrite <- in_rev in F1.
    split; [apply in_seq; apply posOf_lt in F1; lia|]. rewrite node_nth, (posOf_nth _ _ F1). eexists. split; [reflexivity|]. cbn [v_der v_anti v_tape option_map e_vars e_of e_der].
    unfold isAnti in F2. destruct (antiOf vs1 d0) as [b|]; [|discriminate]. apply Nat.eqb_eq in F2. subst b. cbn [v_der v_anti v_tape option_map e_vars e_of e_der]. f_equal. now apply nth_posOf.
  - intros k v a K H D. rewrite node_nth in H. destruct (nth_error ts k) as [t|] eqn:T; [|discriminate]. injection H as <-. cbn [v_der v_anti v_tape option_map e_vars e_of e_der] in D.
    destruct (antiOf vs1 t) as [a0|] eqn:A; [|discriminate]. injection D as <-. assert (TT : In t ts) by (eapply nth_error_In; eauto).
    assert (F1 := TA t a0 TT A). split; [apply in_seq; apply posOf_lt in F1; lia|]. rewrite node_nth, (posOf_nth _ _ F1). eexists. split; [reflexivity|]. cbn [v_der v_anti v_tape option_map e_vars e_of e_der].
    rewrite (find_der t a0 TT A). cbn [v_der v_anti v_tape option_map e_vars e_of e_der]. f_equal. now apply nth_posOf.
  - rewrite firstn_all2; auto. now rewrite seq_length.
  - apply sorted_seq.
  - intros k K. apply in_seq in K. rewrite map_length, seq_length. lia.
  - intros k L. match goal with |- context [nth_error ?l k] => destruct (lt_nth l k) as (e & H) end; [now rewrite map_length, seq_length|].
    rewrite H. exists e, e. repeat split. apply EN in H. now subst e.
  - intros k e L K. apply in_seq in K. lia.
  - intros k e d K H D. apply EN in H. subst e. discriminate.
  - intros k e d K H D. apply EN in H. subst e. discriminate.
  - intros k e x K H X. apply EN in H. subst e. cbn [v_der v_anti v_tape option_map e_vars e_of e_der] in X. right. apply in_map_iff in X as (p & <- & P). apply filter_In in P as (_ & P).
    apply andb_prop in P as (P & _). apply existsb_In in P. apply in_seq. apply posOf_lt in P. lia.
  - intros k e K H. apply EN in H. subst e. cbn [v_der v_anti v_tape option_map e_vars e_of e_der].
    assert (G : forall l, NoDup l -> NoDup (map (fun p => posOf p ts) (filter (fun p => existsb (Nat.eqb p) ts && sparsity k p) l))); [|apply G, seq_NoDup].
    induction l as [|p l IH]; intro N; simpl; [constructor|]. inversion N; subst. destruct (existsb (Nat.eqb p) ts && sparsity k p) eqn:P; auto. simpl. constructor; auto.
    intro X. apply in_map_iff in X as (q & Q1 & Q2). apply filter_In in Q2 as (Q2 & Q3). apply andb_prop in P as (P & _). apply andb_prop in Q3 as (Q3 & _).
    apply existsb_In in P, Q3. apply posOf_inj in Q1; auto. now subst q.
  - intros k e d e' x K H D. apply EN in H. subst e. discriminate.
  - intros k e o eo x K H D. apply EN in H. subst e. discriminate.
Qed.
Lemma initial_vars q e x : nth_error (g_e g) q = Some e -> (In x (e_vars e) <-> exists t, nth_error ts x = Some t /\ sparsity q t = true).
Proof.
  destruct build_facts as (I & _ & ND & TI & TA & E). rewrite E. cbn [g_e]. intro H. rewrite nth_error_map in H.
  destruct (nth_error (seq 0 m) q) as [y|] eqn:X; [|discriminate]. injection H as <-.
  assert (L := nth_lt _ _ _ X). rewrite seq_length in L. rewrite nth_error_nth' with (d := 0) in X by (now rewrite seq_length). rewrite seq_nth in X by auto. injection X as <-.
  cbn [v_der v_anti v_tape option_map e_vars e_of e_der]. rewrite in_map_iff. split.
  - intros (p & <- & P). apply filter_In in P as (_ & P). apply andb_prop in P as (P & P2). apply existsb_In in P. exists p. split; auto. now apply posOf_nth.
  - intros (t & T & S1). exists t. split; [now apply nth_posOf|]. assert (TT : In t ts) by (eapply nth_error_In; eauto).
    apply filter_In. split; [apply in_seq; apply TI in TT as (v & Vn & _); apply nth_lt in Vn; lia|]. apply existsb_In in TT. now rewrite TT.
Qed.
Lemma initial_userVars q e x : nth_error (g_e g) q = Some e -> In x (e_vars e) -> x < List.length ts.
Proof. intros H X. apply (initial_vars q e x H) in X as (t & T & _). now apply nth_lt in T. Qed.
Lemma initial_userAnti k v a : nth_error (g_v g) k = Some v -> v_anti v = Some a -> a < List.length ts.
Proof.
  destruct build_facts as (I & _ & ND & TI & TA & E). rewrite E. cbn [g_v]. intros H A. rewrite node_nth in H.
  destruct (nth_error ts k) as [t|] eqn:T; [|discriminate]. injection H as <-. cbn [v_der v_anti v_tape option_map e_vars e_of e_der] in A. destruct (antiOf vs1 t) as [a0|] eqn:A0; [|discriminate].
  injection A as <-. apply posOf_lt. eapply TA; eauto. eapply nth_error_In; eauto.
Qed.
Lemma initial_used : allUsed vs m sparsity -> forall k, k < List.length ts -> exists q e, q < m /\ nth_error (g_e g) q = Some e /\ In k (e_vars e).
Proof.
  intros U k L. destruct build_facts as (I & _ & ND & TI & TA & E). destruct (lt_nth ts k L) as (t & T).
  assert (TT : In t ts) by (eapply nth_error_In; eauto). apply TI in TT as (v & Vn & F).
  destruct (b_nth _ _ I t v Vn) as (_ & _ & w & W & _ & W2 & _). destruct (U t w W) as (i & Li & S1); [congruence|].
  assert (Lg : i < List.length (g_e g)) by (rewrite E; cbn [g_e]; now rewrite map_length, seq_length).
  destruct (lt_nth _ _ Lg) as (e & Ee). exists i, e. split; auto. split; auto. apply (initial_vars i e k Ee). eauto.
Qed.
Lemma initial_covered : forall x, List.length ts <= x -> ~ In x (g_va g).
Proof. destruct build_facts as (_ & _ & _ & _ & _ & E). intros x L H. rewrite E in H. cbn [g_va] in H. apply in_seq in H. lia. Qed.
End Initial.

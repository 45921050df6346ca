(** * Patterns, maps and places *)
From Coq Require Import List Arith Bool NArith ZArith Sorting.Sorted Sorting.Permutation Lia.
From Verif Require Import Pool_model Graph_model Codegen_model Index_model Index_spec Index_thm Range_model Range_spec LoopCond_model Assemble_model Assemble_proofs LoopAsm_model LoopAsm_spec.
Import ListNotations.
Local Open Scope nat_scope.

(** ** Patterns *)
Lemma secAt_spec s : forall x best k l,
  (In (k, l) s \/ best = Some (k, l)) -> (k <= x)%Z ->
  (forall k' l', In (k', l') s -> (k' <= x)%Z -> (k' < k)%Z \/ (k', l') = (k, l)) ->
  (forall k' l', best = Some (k', l') -> (k' < k)%Z \/ (k', l') = (k, l)) ->
  secAt s x best = Some (k, l).
Proof.
  induction s as [|[k1 l1] s IH]; intros x best k l H1 H2 H3 H4; cbn [secAt].
  - destruct H1 as [[]| ->]. reflexivity.
  - apply IH; [|exact H2|intros k' l' I; apply H3; right; exact I|].
    + destruct H1 as [[E|I]| ->].
      * injection E as -> ->. right. apply Z.leb_le in H2. rewrite H2. destruct best as [[k0 l0]|]; [|reflexivity].
        destruct (H4 k0 l0 eq_refl) as [L|E].
        -- apply Z.ltb_lt in L. rewrite L. reflexivity.
        -- injection E as -> ->. destruct (k <? k)%Z; reflexivity.
      * left. exact I.
      * right. destruct (Z.leb_spec k1 x); [|reflexivity]. destruct (H3 k1 l1 (or_introl eq_refl) H) as [L|E].
        -- destruct (Z.ltb_spec k k1); [lia|reflexivity].
        -- injection E as -> ->. destruct (k <? k)%Z; reflexivity.
    + intros k' l'. destruct (Z.leb_spec k1 x); [|intros E; exact (H4 _ _ E)].
      destruct best as [[k0 l0]|]; [destruct (k0 <? k1)%Z|]; intros E; try (exact (H4 _ _ E)); injection E as <- <-; exact (H3 _ _ (or_introl eq_refl) H).
Qed.

Lemma find_key_Z (m : list (Z * Z)) x y : NoDup (map fst m) -> In (x, y) m -> find (fun e => (fst e =? x)%Z) m = Some (x, y).
Proof.
  induction m as [|[x0 y0] m IH]; intros N I; [destruct I|]. cbn [find fst]. cbn [map fst] in N. inversion N as [|? ? N1 N2]; subst.
  destruct I as [E|I].
  - injection E as -> ->. rewrite Z.eqb_refl. reflexivity.
  - destruct (Z.eqb_spec x0 x) as [->|Hx]; [|exact (IH N2 I)]. exfalso. apply N1. apply (in_map fst) in I. exact I.
Qed.

Lemma sorted_NoDup_Z (l : list Z) : StronglySorted Z.lt l -> NoDup l.
Proof.
  induction 1 as [|x l H IH F]; constructor; [|exact IH]. intros I. rewrite Forall_forall in F. specialize (F _ I). lia.
Qed.
Lemma sorted_NoDup (l : list nat) : StronglySorted lt l -> NoDup l.
Proof.
  induction 1 as [|x l H IH F]; constructor; [|exact IH]. intros I. rewrite Forall_forall in F. specialize (F _ I). lia.
Qed.

(** a table is one of the points given *)
Lemma patAt_some p i v : (0 <= v)%Z -> value_at p (Z.of_nat i) v -> (forall m, p = PRand1 m -> NoDup (map fst m)) ->
  patAt (Codegen_model.Done p) (Some i) = Some (Z.to_nat v).
Proof.
  intros H0 H N. unfold patAt. inversion H as [l x E1 E2 E3|s x l Hs E1 E2 E3|m x y Hm E1 E2 E3]; subst.
  - destruct (Z.ltb_spec (evalLin l (Z.of_nat i)) 0); [lia|reflexivity].
  - destruct Hs as (k & I & L & U). rewrite (secAt_spec s (Z.of_nat i) None k l (or_introl I) L U); [|intros k' l' X; discriminate X]. cbn [option_map snd].
    destruct (Z.ltb_spec (evalLin l (Z.of_nat i)) 0); [lia|reflexivity].
  - rewrite (find_key_Z m _ v (N m eq_refl) Hm). cbn [option_map snd]. destruct (Z.ltb_spec v 0); [lia|reflexivity].
Qed.

Lemma detectVec_table v fuel m : detectVec fuel v = Codegen_model.Done (PRand1 m) -> m = combine (map vx (seq 0 (length v))) v.
Proof.
  unfold detectVec. destruct v as [|z v]; [discriminate|]. destruct (detectSectionsVec _ _ _) as [s| |]; cbn [obind]; try discriminate.
  destruct s as [|a s]; [intros E; injection E as <-; reflexivity|]. unfold ofSections. destruct s; destruct a; discriminate.
Qed.
Lemma detectMap_table v fuel m : detectMap fuel v = Codegen_model.Done (PRand1 m) -> m = v.
Proof.
  unfold detectMap. destruct v as [|z v]; [discriminate|]. destruct (detectSectionsMap _ _ _) as [s| |]; cbn [obind]; try discriminate.
  destruct s as [|a s]; [intros E; injection E as <-; reflexivity|]. unfold ofSections. destruct s; destruct a; discriminate.
Qed.

Lemma fst_combine {A B} (a : list A) : forall (b : list B), length a = length b -> map fst (combine a b) = a.
Proof. induction a as [|x a IH]; intros [|y b] L; try discriminate; cbn [combine map fst]; [reflexivity|]. rewrite IH; [reflexivity|]. cbn [length] in L. lia. Qed.

Lemma patAt_vec l i v : nth_error l i = Some v -> patAt (detectV l) (Some i) = Some v.
Proof.
  intros H. unfold detectV.
  assert (N : map Z.of_nat l <> []) by (destruct l; [destruct i; discriminate|discriminate]).
  destruct (C15_pattern_of_a_vector _ N) as (p & E & P). specialize (E (length l)). rewrite map_length in E. specialize (E (le_n _)). rewrite E.
  rewrite (patAt_some p i (Z.of_nat v)); [rewrite Nat2Z.id; reflexivity|lia| |].
  - apply (P i (Z.of_nat v)); [rewrite nth_error_map, H; reflexivity|reflexivity].
  - intros m ->. apply detectVec_table in E. subst m. rewrite fst_combine by (rewrite map_length, seq_length; reflexivity).
    unfold vx. apply FinFun.Injective_map_NoDup; [intros a b Hab; lia|apply seq_NoDup].
Qed.

Lemma patAt_map l i v : StronglySorted lt (map fst l) -> In (i, v) l -> patAt (detectM l) (Some i) = Some v.
Proof.
  intros S I. unfold detectM. set (m := map (fun p => (Z.of_nat (fst p), Z.of_nat (snd p))) l).
  assert (I' : In (Z.of_nat i, Z.of_nat v) m) by (apply in_map_iff; exists (i, v); split; [reflexivity|exact I]).
  assert (HS : StronglySorted Z.lt (map fst m)).
  { unfold m. rewrite map_map. cbn [fst]. rewrite <- (map_map fst Z.of_nat). clear -S. induction S as [|x l0 H IH F]; cbn [map]; constructor; [exact IH|].
    rewrite Forall_forall in *. intros z Hz. apply in_map_iff in Hz. destruct Hz as (y & <- & Hy). specialize (F y Hy). lia. }
  assert (Hp : points m).
  { split; [exact HS|]. intros x y Hxy. apply in_map_iff in Hxy. destruct Hxy as ([a b] & E & _). injection E as <- _. lia. }
  destruct (C15_pattern_of_a_map m Hp ltac:(intros X; rewrite X in I'; destruct I')) as (p & E & P).
  specialize (E (length l)). unfold m in E at 1. rewrite map_length in E. specialize (E (le_n _)). rewrite E.
  rewrite (patAt_some p i (Z.of_nat v)); [rewrite Nat2Z.id; reflexivity|lia| |].
  - apply (P _ _ I' (Z.of_nat v)). reflexivity.
  - intros m' ->. apply detectMap_table in E. subst m'. apply sorted_NoDup_Z. exact HS.
Qed.

(** one iteration: the index is not used *)
Lemma patAt_vec1 v : patAt (detectV [v]) None = Some v.
Proof.
  unfold detectV. cbn -[Z.of_nat]. unfold patAt. cbn -[Z.of_nat].
  destruct (Z.ltb_spec (Z.of_nat v) 0); [lia|]. rewrite Nat2Z.id. reflexivity.
Qed.
Lemma patAt_map1 i v : patAt (detectM [(i, v)]) None = Some v.
Proof.
  unfold detectM. cbn -[Z.of_nat]. unfold patAt. cbn -[Z.of_nat].
  destruct (Z.ltb_spec (Z.of_nat v) 0); [lia|]. rewrite Nat2Z.id. reflexivity.
Qed.

(** the index of the iteration number i of n *)
Definition idxOf (n i : nat) : option nat := if 1 <? n then Some i else None.
Lemma patAt_vec_it l i v : nth_error l i = Some v -> patAt (detectV l) (idxOf (length l) i) = Some v.
Proof.
  intros H. unfold idxOf. destruct (Nat.ltb_spec 1 (length l)); [exact (patAt_vec _ _ _ H)|].
  destruct l as [|a [|b l]]; [destruct i; discriminate| |cbn [length] in *; lia].
  destruct i as [|i]; [|destruct i; discriminate]. injection H as ->. apply patAt_vec1.
Qed.
Lemma patAt_map_it l n i v : StronglySorted lt (map fst l) -> In (i, v) l -> length l <= n -> patAt (detectM l) (idxOf n i) = Some v.
Proof.
  intros S I L. unfold idxOf. destruct (Nat.ltb_spec 1 n); [exact (patAt_map _ _ _ S I)|].
  destruct l as [|a [|b l]]; [destruct I| |cbn [length] in *; lia].
  destruct I as [-> |[]]. apply patAt_map1.
Qed.

(** ** Maps *)
Lemma mapO_some {A B} (f : A -> option B) l : (forall a, In a l -> exists b, f a = Some b) -> exists bs, mapO f l = Some bs.
Proof.
  induction l as [|a l IH]; intros H; cbn [mapO]; [exists []; reflexivity|].
  destruct (H a (or_introl eq_refl)) as (b & ->). destruct IH as (bs & ->); [intros x I; apply H; right; exact I|]. exists (b :: bs). reflexivity.
Qed.
Lemma mapO_spec {A B} (f : A -> option B) l : forall bs, mapO f l = Some bs -> length bs = length l /\ forall i a, nth_error l i = Some a -> exists b, nth_error bs i = Some b /\ f a = Some b.
Proof.
  induction l as [|a l IH]; intros bs H; cbn [mapO] in H.
  - injection H as <-. split; [reflexivity|]. intros [|i] a X; discriminate X.
  - destruct (f a) as [b|] eqn:E; [|discriminate]. destruct (mapO f l) as [r|] eqn:E2; [|discriminate]. injection H as <-.
    destruct (IH r eq_refl) as [L P]. split; [cbn [length]; lia|]. intros [|i] x X; cbn [nth_error] in *; [injection X as <-; exists b; split; [reflexivity|exact E]|].
    exact (P i x X).
Qed.
Lemma mapO_map {A B} (f : A -> option B) (g : A -> B) l : (forall a, In a l -> f a = Some (g a)) -> mapO f l = Some (map g l).
Proof.
  induction l as [|a l IH]; intros H; cbn [mapO map]; [reflexivity|]. rewrite (H a (or_introl eq_refl)), IH; [reflexivity|].
  intros x I. apply H. right. exact I.
Qed.

Section Push.
Context {A : Type}.
Implicit Types m : list (nat * list A).
Definition pushAll (qs : list (nat * A)) : list (nat * list A) := fold_left (fun m q => mpush (fst q) (snd q) m) qs [].
Definition ofKey (k : nat) (qs : list (nat * A)) : list A := map snd (filter (fun q => fst q =? k) qs).

Lemma mpush_inc k (v : A) m : forall b, b <= k -> inc b (map fst m) -> inc b (map fst (mpush k v m)).
Proof.
  induction m as [|[k' vs] r IH]; intros b Hb H; cbn [mpush map fst inc] in *; [auto|].
  destruct H as [H1 H2]. destruct (Nat.ltb_spec k k').
  - cbn [map fst inc]. split; [lia|]. split; [lia|exact H2].
  - destruct (Nat.eqb_spec k k') as [->|Hn]; cbn [map fst inc]; [auto|]. split; [lia|]. apply IH; [lia|exact H2].
Qed.

Lemma mpush_In k (v : A) m : forall b, inc b (map fst m) -> forall k' vs',
  In (k', vs') (mpush k v m) <->
  (k' <> k /\ In (k', vs') m) \/ (k' = k /\ ((exists vs, In (k, vs) m /\ vs' = vs ++ [v]) \/ (~ In k (map fst m) /\ vs' = [v]))).
Proof.
  induction m as [|[k0 vs0] r IH]; intros b H k' vs'; cbn [mpush].
  - cbn [In map]. split.
    + intros [E|[]]. injection E as <- <-. right. split; [reflexivity|right; split; [tauto|reflexivity]].
    + intros [[_ []]|[-> [[vs [[] _]]|[_ ->]]]]. left. reflexivity.
  - destruct H as [H1 H2]. cbn [map fst] in *. destruct (Nat.ltb_spec k k0) as [E|E].
    + assert (N : ~ In k (k0 :: map fst r)).
      { intros [E1|I]; [lia|]. pose proof (inc_In _ _ _ H2 I). lia. }
      split.
      * intros [E1|I]; [injection E1 as <- <-; right; split; [reflexivity|]; right; split; [exact N|reflexivity]|].
        left. split; [|exact I]. intros ->. apply N. apply (in_map fst) in I. exact I.
      * intros [[E1 I]|[-> [[vs [I _]]|[_ ->]]]]; [right; exact I| |left; reflexivity].
        exfalso. apply N. apply (in_map fst) in I. exact I.
    + destruct (Nat.eqb_spec k k0) as [E2|E2].
      * subst k0.
        assert (N : ~ In k (map fst r)). { intro I. pose proof (inc_In _ _ _ H2 I). lia. }
        split.
        -- intros [E1|I].
           ++ injection E1 as <- <-. right. split; [reflexivity|]. left. exists vs0. split; [left; reflexivity|reflexivity].
           ++ left. split; [|right; exact I]. intros ->. apply N. apply (in_map fst) in I. exact I.
        -- intros [[E1 [I|I]]|[-> [[vs [[I|I] ->]]|[N2 _]]]].
           ++ injection I as <- <-. congruence.
           ++ right. exact I.
           ++ injection I as <-. left. reflexivity.
           ++ exfalso. apply N. apply (in_map fst) in I. exact I.
           ++ exfalso. apply N2. left. reflexivity.
      * cbn [In]. rewrite (IH _ H2 k' vs').
        split.
        -- intros [E1|[[E1 I]|[-> [[vs [I ->]]|[N ->]]]]].
           ++ injection E1 as <- <-. left. split; [congruence|left; reflexivity].
           ++ left. split; [exact E1|right; exact I].
           ++ right. split; [reflexivity|]. left. exists vs. split; [right; exact I|reflexivity].
           ++ right. split; [reflexivity|]. right. split; [|reflexivity]. intros [E1|I]; [congruence|exact (N I)].
        -- intros [[E1 [I|I]]|[-> [[vs [[I|I] ->]]|[N ->]]]].
           ++ left. exact I.
           ++ right. left. split; [exact E1|exact I].
           ++ injection I as <- <-. congruence.
           ++ right. right. split; [reflexivity|]. left. exists vs. split; [exact I|reflexivity].
           ++ right. right. split; [reflexivity|]. right. split; [intro I; apply N; right; exact I|reflexivity].
Qed.

Lemma pushAll_spec qs : inc 0 (map fst (pushAll qs)) /\ forall k els, In (k, els) (pushAll qs) <-> els = ofKey k qs /\ els <> [].
Proof.
  induction qs as [|[k0 v0] qs IH] using rev_ind.
  - cbn [pushAll fold_left map inc]. split; [exact I|]. intros k els. unfold ofKey. cbn [filter map In]. split; [intros []|intros [-> H]; congruence].
  - unfold pushAll in *. rewrite fold_left_app. cbn [fold_left fst snd]. destruct IH as [S1 S2].
    split; [apply mpush_inc; [lia|exact S1]|].
    intros k els. rewrite (mpush_In _ _ _ _ S1). unfold ofKey at 1. rewrite filter_app, map_app. cbn [filter map snd fst]. fold (ofKey k qs).
    destruct (Nat.eq_dec k k0) as [->|N].
    + rewrite Nat.eqb_refl. cbn [map snd]. split.
      * intros [[X _]|[_ [[vs [I ->]]|[N ->]]]]; [congruence| |].
        -- apply S2 in I. destruct I as [-> _]. split; [reflexivity|]. destruct (ofKey k0 qs); discriminate.
        -- split; [|discriminate]. destruct (ofKey k0 qs) as [|a r] eqn:E; [reflexivity|].
           exfalso. apply N. assert (I : In (k0, a :: r) (fold_left (fun m q => mpush (fst q) (snd q) m) qs [])) by (apply S2; split; [symmetry; exact E|discriminate]).
           apply (in_map fst) in I. exact I.
      * intros [-> _]. right. split; [reflexivity|]. destruct (ofKey k0 qs) as [|a r] eqn:E.
        -- right. split; [|reflexivity]. intro I. apply in_map_iff in I. destruct I as [[k1 e1] [E1 I]]. cbn [fst] in E1. subst k1.
           apply S2 in I. destruct I as [I1 I2]. congruence.
        -- left. exists (a :: r). split; [|reflexivity]. apply S2. split; [symmetry; exact E|discriminate].
    + destruct (Nat.eqb_spec k0 k) as [E|E]; [congruence|]. cbn [map]. rewrite app_nil_r. rewrite S2. split.
      * intros [[_ H]|[X _]]; [exact H|congruence].
      * intros H. left. split; [exact N|exact H].
Qed.

Lemma mpush_perm k (v : A) m : Permutation (flat_map snd (mpush k v m)) (v :: flat_map snd m).
Proof.
  induction m as [|[k' l] m IH]; cbn [mpush flat_map snd]; [reflexivity|].
  destruct (k <? k'); [reflexivity|]. destruct (k =? k'); cbn [flat_map snd].
  - rewrite <- app_assoc. cbn [app]. symmetry. apply Permutation_middle.
  - rewrite IH. symmetry. apply Permutation_middle.
Qed.
Lemma pushAll_perm qs : Permutation (flat_map snd (pushAll qs)) (map snd qs).
Proof.
  induction qs as [|q qs IH] using rev_ind; [reflexivity|]. unfold pushAll in *. rewrite fold_left_app. cbn [fold_left].
  rewrite mpush_perm, IH, map_app. cbn [map]. apply Permutation_cons_append.
Qed.
End Push.

(** ** Places of the elements *)
Lemma nth_filter {A} (f : A -> bool) l : forall e x, nth_error (filter f l) e = Some x <-> exists p, nth_error l p = Some x /\ f x = true /\ length (filter f (firstn p l)) = e.
Proof.
  induction l as [|a l IH]; intros e x; cbn [filter].
  - split; [destruct e; discriminate|]. intros (p & H & _). destruct p; discriminate.
  - split.
    + destruct (f a) eqn:E.
      * destruct e as [|e]; cbn [nth_error]; intros H.
        -- injection H as <-. exists 0. split; [reflexivity|]. split; [exact E|reflexivity].
        -- apply IH in H. destruct H as (p & H1 & H2 & H3). exists (S p). split; [exact H1|]. split; [exact H2|]. cbn [firstn filter]. rewrite E. cbn [length]. lia.
      * intros H. apply IH in H. destruct H as (p & H1 & H2 & H3). exists (S p). split; [exact H1|]. split; [exact H2|]. cbn [firstn filter]. rewrite E. exact H3.
    + intros (p & H1 & H2 & H3). destruct p as [|p]; cbn [nth_error firstn filter] in *.
      * injection H1 as <-. rewrite H2. cbn [length] in H3. subst e. reflexivity.
      * destruct (f a) eqn:E.
        -- cbn [length] in H3. destruct e as [|e]; [lia|]. cbn [nth_error]. apply IH. exists p. split; [exact H1|]. split; [exact H2|lia].
        -- apply IH. exists p. auto.
Qed.

Section Places.
Variables ks vs : list nat.
Hypothesis Hlen : length ks = length vs.
Hypothesis Hnd : NoDup (combine ks vs).

Lemma rank_fst : forall p k, nth_error ks p = Some k -> length (filter (fun q => fst q =? k) (firstn p (combine ks vs))) = rank ks p.
Proof.
  intros p k H. unfold rank. rewrite (nth_error_nth _ _ 0 H). unfold count. rewrite combine_firstn.
  assert (L : length (firstn p ks) = length (firstn p vs)) by (rewrite !firstn_length; lia).
  revert L. generalize (firstn p vs), (firstn p ks). clear. intros l2 l1. revert l2.
  induction l1 as [|a l1 IH]; intros [|b l2] L; try discriminate; cbn [combine filter fst]; [reflexivity|].
  rewrite (Nat.eqb_sym k a). destruct (a =? k); cbn [length]; rewrite IH; auto.
Qed.

(** where the element number e of the direction k goes *)
Definition isPlace (k e p : nat) : Prop := nth_error ks p = Some k /\ rank ks p = e.

Lemma elsOf_place k e v : nth_error (elsOf k (combine ks vs)) e = Some v <-> exists p, isPlace k e p /\ nth_error vs p = Some v.
Proof.
  unfold elsOf. rewrite nth_error_map. split.
  - destruct (nth_error (filter _ _) e) as [[k1 v1]|] eqn:E; [|discriminate]. cbn [option_map snd]. intros X. injection X as <-.
    apply nth_filter in E. destruct E as (p & H1 & H2 & H3). cbn [fst] in H2. apply Nat.eqb_eq in H2. subst k1. apply combine_nth_iff in H1. destruct H1 as [H1 H1'].
    exists p. split; [|exact H1']. split; [exact H1|]. rewrite <- H3. symmetry. apply rank_fst. exact H1.
  - intros (p & [H1 H2] & H3).
    assert (E : nth_error (filter (fun q => fst q =? k) (combine ks vs)) e = Some (k, v)).
    { apply nth_filter. exists p. split; [apply combine_nth_iff; auto|]. split; [cbn [fst]; apply Nat.eqb_refl|]. rewrite <- H2. apply rank_fst. exact H1. }
    rewrite E. reflexivity.
Qed.

Lemma posOf_place k e v p : nth_error (elsOf k (combine ks vs)) e = Some v -> (posOf ks vs k v = p <-> isPlace k e p).
Proof.
  intros H. pose proof (nth_error_In _ _ H) as I. destruct (posOf_spec ks vs k v I) as [(P1 & P2 & _) _].
  apply elsOf_place in H. destruct H as (q & [Q1 Q2] & Q3).
  assert (E : posOf ks vs k v = q).
  { rewrite NoDup_nth_error in Hnd. apply Hnd.
    - apply nth_error_Some. rewrite (proj2 (combine_nth_iff ks vs _ k v) (conj P1 P2)). discriminate.
    - rewrite (proj2 (combine_nth_iff ks vs _ k v) (conj P1 P2)), (proj2 (combine_nth_iff ks vs _ k v) (conj Q1 Q3)). reflexivity. }
  rewrite E. split; [intros <-; split; assumption|]. intros [R1 R2].
  assert (Lr : p < length vs) by (rewrite <- Hlen; apply nth_error_Some; rewrite R1; discriminate).
  destruct (nth_error vs p) as [w|] eqn:Ew; [|apply nth_error_None in Ew; lia].
  assert (X : nth_error (elsOf k (combine ks vs)) e = Some w) by (apply elsOf_place; exists p; split; [split; assumption|exact Ew]).
  assert (Y : nth_error (elsOf k (combine ks vs)) e = Some v) by (apply elsOf_place; exists q; split; [split; assumption|exact Q3]).
  rewrite X in Y. injection Y as ->.
  rewrite NoDup_nth_error in Hnd. apply Hnd.
  - apply nth_error_Some. rewrite (proj2 (combine_nth_iff ks vs _ k v) (conj Q1 Q3)). discriminate.
  - rewrite (proj2 (combine_nth_iff ks vs _ k v) (conj Q1 Q3)), (proj2 (combine_nth_iff ks vs _ k v) (conj R1 Ew)). reflexivity.
Qed.

Lemma elsOf_count k : length (elsOf k (combine ks vs)) = count ks k.
Proof.
  unfold elsOf, count. rewrite map_length. clear Hnd. revert vs Hlen. generalize ks. clear. induction ks as [|a l1 IH]; intros [|b l2] L; try discriminate; cbn [combine filter fst]; [reflexivity|].
  rewrite (Nat.eqb_sym k a). destruct (a =? k); cbn [length]; rewrite IH; auto.
Qed.

Variable is : list info.
Hypothesis Hent : entries ks vs = Some is.

Lemma infoAt_ok k : In k ks -> exists i, infoAt is k = Some i /\ In i is /\ i_key i = k /\ entryOk ks vs i.
Proof.
  intros I. destruct (entries_ok ks vs) as (is' & E & F & N & C). rewrite E in Hent. injection Hent as ->.
  apply In_nth_error in I. destruct I as [p Hp].
  assert (Lp : p < length vs) by (rewrite <- Hlen; apply nth_error_Some; rewrite Hp; discriminate).
  destruct (nth_error vs p) as [v|] eqn:Ev; [|apply nth_error_None in Ev; lia].
  specialize (C p k v Hp Ev). apply in_map_iff in C. destruct C as (i & Ei & Ii).
  unfold infoAt. destruct (find (fun i => i_key i =? k) is) as [j|] eqn:Ef.
  - apply find_some in Ef. destruct Ef as [Ij Ej]. apply Nat.eqb_eq in Ej. exists j. rewrite Forall_forall in F. auto.
  - exfalso. pose proof (find_none _ _ Ef i Ii) as X. cbn beta in X. rewrite Ei, Nat.eqb_refl in X. discriminate.
Qed.

Lemma info_length k i : infoAt is k = Some i -> In k ks -> length (i_idx i) = count ks k.
Proof.
  intros H I. destruct (infoAt_ok k I) as (j & Ej & _ & K & (A & _)). rewrite H in Ej. injection Ej as <-. rewrite A, K. apply elsOf_count.
Qed.
Lemma info_loc k i e : infoAt is k = Some i -> In k ks -> e < count ks k -> exists p, nth_error (i_loc i) e = Some [p] /\ isPlace k e p /\ (forall q, isPlace k e q -> q = p).
Proof.
  intros H I L. destruct (infoAt_ok k I) as (j & Ej & _ & K & (A & _ & B & _)). rewrite H in Ej. injection Ej as <-. rewrite B, K.
  rewrite A, K. rewrite <- elsOf_count in L. apply nth_error_Some in L. destruct (nth_error (elsOf k (combine ks vs)) e) as [v|] eqn:E; [|congruence].
  exists (posOf ks vs k v). rewrite map_map, nth_error_map, E. split; [reflexivity|]. split; [apply (posOf_place k e v _ E); reflexivity|].
  intros q Q. symmetry. apply (posOf_place k e v _ E). exact Q.
Qed.
Lemma locationOf_ok k e : In k ks -> e < count ks k -> exists p, locationOf is k e = Some p /\ isPlace k e p /\ (forall q, isPlace k e q -> q = p).
Proof.
  intros I L. destruct (infoAt_ok k I) as (i & Ei & _). destruct (info_loc k i e Ei I L) as (p & E & P). unfold locationOf. rewrite Ei, E. exists p. auto.
Qed.
Lemma count_pos k : In k ks -> 0 < count ks k.
Proof.
  intros I. unfold count. assert (X : In k (filter (Nat.eqb k) ks)) by (apply filter_In; split; [exact I|apply Nat.eqb_refl]).
  destruct (filter (Nat.eqb k) ks); [destruct X|cbn [length]; lia].
Qed.
(** a direction written directly in the result *)
Lemma direct_loc k i : infoAt is k = Some i -> In k ks -> i_ord i = true ->
  exists s, locationOf is k 0 = Some s /\ forall e, e < count ks k -> isPlace k e (s + e).
Proof.
  intros H I O. destruct (locationOf_ok k 0 I (count_pos k I)) as (s & E & P & _). exists s. split; [exact E|]. intros e Le.
  destruct (infoAt_ok k I) as (j & Ej & _ & K & (A & _ & _ & B)). rewrite H in Ej. injection Ej as <-. apply B in O. rewrite K in O.
  assert (Hp : forall e, e < count ks k -> nth_error (map (posOf ks vs k) (i_idx i)) e = Some (hd 0 (map (posOf ks vs k) (i_idx i)) + e)).
  { intros e0 L0. rewrite O at 1. rewrite (info_length k i H I). clear -L0. generalize (hd 0 (map (posOf ks vs k) (i_idx i))) as st. intros st. revert st e0 L0.
    generalize (count ks k). induction n as [|n IH]; intros st [|e0] L0; try lia; cbn [seq nth_error]; [f_equal; lia|]. rewrite IH by lia. f_equal. lia. }
  assert (Hq : forall e p, e < count ks k -> nth_error (map (posOf ks vs k) (i_idx i)) e = Some p -> isPlace k e p).
  { intros e0 p0 L0 X. rewrite nth_error_map, A, K in X. destruct (nth_error (elsOf k (combine ks vs)) e0) as [v|] eqn:Ev; [|discriminate]. injection X as X.
    apply (posOf_place k e0 v p0 Ev). exact X. }
  pose proof (Hq 0 _ (count_pos k I) (Hp 0 (count_pos k I))) as P0. rewrite Nat.add_0_r in P0.
  assert (Es : hd 0 (map (posOf ks vs k) (i_idx i)) = s).
  { destruct (locationOf_ok k 0 I (count_pos k I)) as (s' & E' & _ & U). rewrite E in E'. injection E' as <-. rewrite (U _ P0). reflexivity. }
  rewrite Es in Hp. exact (Hq e _ Le (Hp e Le)).
Qed.

(** consecutive requests *)
Lemma count_firstn_S l p k : nth_error l p = Some k -> count (firstn (S p) l) k = S (count (firstn p l) k).
Proof.
  revert p. induction l as [|a l IH]; intros [|p] H; try discriminate; cbn [nth_error] in H.
  - injection H as ->. unfold count. cbn [firstn filter]. rewrite Nat.eqb_refl. reflexivity.
  - specialize (IH p H). unfold count in *. cbn [firstn filter]. cbn [firstn filter] in IH. destruct (k =? a); cbn [length]; rewrite IH; reflexivity.
Qed.
Lemma count_firstn_ne l p k : nth_error l p <> Some k -> count (firstn (S p) l) k = count (firstn p l) k.
Proof.
  revert p. induction l as [|a l IH]; intros [|p] H; cbn [nth_error] in H; try reflexivity.
  - unfold count. cbn [firstn filter]. destruct (Nat.eqb_spec k a); [subst; congruence|reflexivity].
  - specialize (IH p H). unfold count in *. cbn [firstn filter]. cbn [firstn filter] in IH. destruct (k =? a); cbn [length]; rewrite IH; reflexivity.
Qed.
Lemma place_lt k e p : isPlace k e p -> p < length ks.
Proof. intros [H _]. apply nth_error_Some. rewrite H. discriminate. Qed.
Lemma count_firstn_le l a k : count (firstn a l) k <= count l k.
Proof. rewrite <- (firstn_skipn a l) at 2. unfold count. rewrite filter_app, app_length. lia. Qed.
Lemma place_bound k e p : isPlace k e p -> In k ks /\ e < count ks k.
Proof.
  intros [H E]. split; [exact (nth_error_In _ _ H)|]. unfold rank in E. rewrite (nth_error_nth _ _ 0 H) in E.
  pose proof (count_firstn_S ks p k H) as X. pose proof (count_firstn_le ks (S p) k). lia.
Qed.

Lemma ordered_together k i : infoAt is k = Some i -> In k ks -> (i_ord i = true <-> together ks k).
Proof.
  intros H I. split.
  - intros O. destruct (direct_loc k i H I O) as (s & _ & D). intros p q r Hq Hp Hr.
    assert (Ip : isPlace k (rank ks p) p) by (split; [exact Hp|reflexivity]). assert (Ir : isPlace k (rank ks r) r) by (split; [exact Hr|reflexivity]).
    assert (Xp : p = s + rank ks p). { destruct (place_bound _ _ _ Ip) as [_ B]. destruct (info_loc k i _ H I B) as (? & _ & _ & U). rewrite (U _ Ip). symmetry. apply U. rewrite <- (U _ Ip). apply D. exact B. }
    assert (Xr : r = s + rank ks r). { destruct (place_bound _ _ _ Ir) as [_ B]. destruct (info_loc k i _ H I B) as (? & _ & _ & U). rewrite (U _ Ir). symmetry. apply U. rewrite <- (U _ Ir). apply D. exact B. }
    destruct (place_bound _ _ _ Ir) as [_ B]. destruct (D (q - s) ltac:(lia)) as [X _]. replace (s + (q - s)) with q in X by lia. exact X.
  - intros T. destruct (infoAt_ok k I) as (j & Ej & _ & K & (A & N & _ & B)). rewrite H in Ej. injection Ej as <-. apply B. rewrite K.
    set (ps := map (posOf ks vs k) (i_idx i)).
    assert (Lp : length ps = count ks k) by (unfold ps; rewrite map_length; exact (info_length k i H I)).
    rewrite (info_length k i H I), <- Lp.
    assert (Hps : forall e p, nth_error ps e = Some p -> isPlace k e p).
    { intros e p X. unfold ps in X. rewrite nth_error_map, A, K in X. destruct (nth_error (elsOf k (combine ks vs)) e) as [v|] eqn:Ev; [|discriminate]. injection X as X.
      apply (posOf_place k e v p Ev). exact X. }
    assert (Hn : forall e, e < length ps -> nth_error ps e = Some (hd 0 ps + e)).
    { induction e as [|e IH]; intros L.
      - destruct ps as [|p0 ps']; [cbn [length] in L; lia|]. cbn [hd nth_error]. f_equal. lia.
      - specialize (IH ltac:(lia)). destruct (nth_error ps (S e)) as [r|] eqn:Er; [|apply nth_error_None in Er; lia]. f_equal.
        destruct (Hps _ _ IH) as [P1 P2]. destruct (Hps _ _ Er) as [R1 R2]. set (p := hd 0 ps + e) in *.
        assert (P2' : count (firstn p ks) k = e) by (unfold rank in P2; rewrite (nth_error_nth _ _ 0 P1) in P2; exact P2).
        assert (R2' : count (firstn r ks) k = S e) by (unfold rank in R2; rewrite (nth_error_nth _ _ 0 R1) in R2; exact R2).
        assert (Mono : forall a b, a <= b -> count (firstn a ks) k <= count (firstn b ks) k).
        { intros a b Hab. replace (firstn a ks) with (firstn a (firstn b ks)) by (rewrite firstn_firstn; f_equal; lia). apply count_firstn_le. }
        pose proof (count_firstn_S ks p k P1) as X1.
        destruct (lt_eq_lt_dec p r) as [[L1|E1]|L1].
        + destruct (Nat.eq_dec r (S p)) as [->|Nr]; [lia|]. exfalso.
          assert (Q : nth_error ks (S p) = Some k) by (apply (T p (S p) r); [lia|exact P1|exact R1]).
          pose proof (count_firstn_S ks (S p) k Q) as X2. pose proof (Mono (S (S p)) r ltac:(lia)). lia.
        + exfalso. rewrite <- E1 in R2'. lia.
        + exfalso. pose proof (Mono r p ltac:(lia)). lia. }
    clear -Hn. assert (E : forall (l : list nat) st, (forall e, e < length l -> nth_error l e = Some (st + e)) -> l = seq st (length l)).
    { induction l as [|a l IH]; intros st H; cbn [length seq]; [reflexivity|]. pose proof (H 0 ltac:(cbn [length]; lia)) as H0. cbn [nth_error] in H0. injection H0 as ->. rewrite Nat.add_0_r. f_equal.
      apply IH. intros e L. specialize (H (S e) ltac:(cbn [length]; lia)). cbn [nth_error] in H. rewrite H. f_equal. lia. }
    apply E. exact Hn.
Qed.

Lemma maxCompressed_ge k i : infoAt is k = Some i -> In k ks -> i_ord i = false -> count ks k <= maxCompressed is.
Proof.
  intros H I O. assert (Ii : In i is) by (unfold infoAt in H; apply find_some in H; apply H). rewrite <- (info_length k i H I).
  unfold maxCompressed. clear -Ii O.
  assert (G : forall l m, m <= fold_left (fun m i => if (m <? length (i_idx i)) && negb (i_ord i) then length (i_idx i) else m) l m).
  { induction l as [|a l IH]; intros m; cbn [fold_left]; [lia|]. destruct (Nat.ltb_spec m (length (i_idx a))); destruct (i_ord a); cbn [andb negb]; try (apply IH).
    eapply Nat.le_trans; [|apply IH]. lia. }
  revert Ii. generalize 0. induction is as [|a l IH]; intros m Ii; [destruct Ii|]. cbn [fold_left]. destruct Ii as [->|Ii]; [|exact (IH _ Ii)].
  rewrite O. cbn [negb]. rewrite andb_true_r. destruct (Nat.ltb_spec m (length (i_idx i))); [apply G|]. eapply Nat.le_trans; [|apply G]. lia.
Qed.
End Places.

(** * Proofs about the sparsity pattern helpers *)
From Coq Require Import List Arith Bool Lia Sorted.
From Verif Require Import Pool_model Pool_proofs Sparsity_model Sparsity_spec.
Import ListNotations.
Local Open Scope nat_scope.

Lemma sins_In x j s : In x (sins j s) <-> x = j \/ In x s.
Proof.
  induction s as [|y s IH]; cbn [sins].
  - cbn. intuition.
  - destruct (Nat.ltb_spec j y); [cbn; intuition|].
    destruct (Nat.eqb_spec j y) as [-> |]; [cbn; intuition|].
    cbn [In]. rewrite IH. intuition.
Qed.

Lemma sins_isset j s : isset s -> isset (sins j s).
Proof.
  unfold isset. induction s as [|y s IH]; cbn [sins]; intros H; [constructor; constructor|].
  inversion H as [|? ? H1 H2]; subst.
  destruct (Nat.ltb_spec j y).
  - constructor; [assumption|]. constructor; [assumption|].
    eapply Forall_impl; [|exact H2]. intros; cbv beta in *; lia.
  - destruct (Nat.eqb_spec j y); [assumption|].
    constructor; [apply IH; assumption|]. apply Forall_forall. intros x Hx.
    apply sins_In in Hx. destruct Hx as [-> | Hx]; [lia|]. rewrite Forall_forall in H2. apply H2; assumption.
Qed.

Lemma sinsAll_In l : forall s x, In x (sinsAll l s) <-> In x l \/ In x s.
Proof.
  induction l as [|y l IH]; intros s x; cbn [sinsAll fold_left]; [cbn; tauto|].
  change (fold_left _ l (sins y s)) with (sinsAll l (sins y s)). rewrite IH, sins_In. cbn [In]. intuition.
Qed.

Lemma sinsAll_isset l : forall s, isset s -> isset (sinsAll l s).
Proof.
  induction l as [|y l IH]; intros s H; cbn [sinsAll fold_left]; [assumption|].
  change (fold_left _ l (sins y s)) with (sinsAll l (sins y s)). apply IH, sins_isset, H.
Qed.

Lemma sdel_In x j s : isset s -> (In x (sdel j s) <-> In x s /\ x <> j).
Proof.
  unfold isset. induction s as [|y s IH]; cbn [sdel]; intros H; [cbn; tauto|].
  inversion H as [|? ? H1 H2]; subst. rewrite Forall_forall in H2.
  destruct (Nat.eqb_spec y j) as [-> |Hn].
  - cbn [In]. split; [|intuition; subst; intuition].
    intros Hx. specialize (H2 x Hx). split; [right; assumption|lia].
  - cbn [In]. rewrite IH by assumption. intuition; subst; intuition.
Qed.

Lemma sdel_isset j s : isset s -> isset (sdel j s).
Proof.
  unfold isset. induction s as [|y s IH]; cbn [sdel]; intros H; [constructor|].
  inversion H as [|? ? H1 H2]; subst. destruct (Nat.eqb_spec y j); [assumption|].
  constructor; [apply IH; assumption|]. rewrite Forall_forall in *. intros x Hx.
  apply (sdel_In x j s) in Hx; [|exact H1]. apply H2, Hx.
Qed.

Lemma sfind_In j s : sfind j s = true <-> In j s.
Proof.
  unfold sfind. rewrite existsb_exists. split.
  - intros [x [H1 H2]]. apply Nat.eqb_eq in H2. subst. assumption.
  - intros H. exists j. rewrite Nat.eqb_refl. auto.
Qed.

Lemma row_some {A} (p : list A) i : i < List.length p -> exists s, nth_error p i = Some s /\ rowAt p i = XOk s.
Proof.
  intros H. destruct (nth_error p i) as [s|] eqn:E.
  - exists s. unfold rowAt. rewrite E. auto.
  - apply nth_error_None in E. lia.
Qed.

Lemma sets_row p i s : sets p -> nth_error p i = Some s -> isset s.
Proof. intros H E. unfold sets in H. rewrite Forall_forall in H. apply H, (nth_error_In _ _ E). Qed.

Lemma sets_set p i s : sets p -> isset s -> sets (setNth p i s).
Proof.
  unfold sets. intros H Hs. revert i. induction H as [|x p H1 H2 IH]; intros [|i]; cbn [setNth]; constructor; auto.
Qed.

Lemma entry_set p i s a b : i < List.length p ->
  (entry (setNth p i s) a b <-> (a = i /\ In b s) \/ (a <> i /\ entry p a b)).
Proof.
  intros H. unfold entry. destruct (Nat.eq_dec a i) as [-> | Hn].
  - rewrite nth_set_eq by assumption. split.
    + intros [s' [E Hb]]. injection E as <-. left. auto.
    + intros [[_ Hb]|[C _]]; [|congruence]. exists s. auto.
  - rewrite nth_set_ne by auto. split; [intros Hx; right; auto|]. intros [[C _]|[_ Hx]]; [congruence|assumption].
Qed.

Lemma entry_nth p i s j : nth_error p i = Some s -> (entry p i j <-> In j s).
Proof.
  intros E. unfold entry. split.
  - intros [s' [E' H]]. rewrite E in E'. injection E' as <-. assumption.
  - intros H. exists s. auto.
Qed.

Lemma entry_lt p i j : entry p i j -> i < List.length p.
Proof. intros [s [E _]]. apply nth_error_Some. congruence. Qed.

(** A step on patterns of [L] rows which adds the elements of [R]. *)
Definition adds (L : nat) (R : nat -> nat -> Prop) (f : pat -> xout pat) : Prop :=
  forall s, List.length s = L -> sets s -> exists s', f s = XOk s' /\ plus s R s'.

Lemma plus_none p : sets p -> plus p (fun _ _ => False) p.
Proof. intros H. split; [reflexivity|]. split; [assumption|]. intros; tauto. Qed.

Lemma plus_iff p R R' p' : plus p R p' -> (forall i j, R i j <-> R' i j) -> plus p R' p'.
Proof. intros [H1 [H2 H3]] H. split; [assumption|]. split; [assumption|]. intros i j. rewrite H3, H. reflexivity. Qed.

Lemma adds_iff L R R' f : adds L R f -> (forall i j, R i j <-> R' i j) -> adds L R' f.
Proof.
  intros H HR s H1 H2. destruct (H s H1 H2) as [s' [E P]]. exists s'. split; [assumption|].
  eapply plus_iff; eassumption.
Qed.

Lemma adds_foreach L (R : nat -> nat -> nat -> Prop) f l :
  (forall k, In k l -> adds L (R k) (f k)) ->
  adds L (fun i j => exists k, In k l /\ R k i j) (foreach l f).
Proof.
  induction l as [|k l IH]; intros H s HL Hs; cbn [foreach].
  - exists s. split; [reflexivity|]. eapply plus_iff; [apply plus_none; assumption|].
    intros i j. split; [tauto|]. intros [k [[] _]].
  - destruct (H k (or_introl eq_refl) s HL Hs) as [s1 [E1 [P1 [P2 P3]]]]. rewrite E1. cbn [xbind].
    destruct (IH (fun k' Hk => H k' (or_intror Hk)) s1) as [s2 [E2 [Q1 [Q2 Q3]]]]; [lia|assumption|].
    exists s2. split; [assumption|]. split; [lia|]. split; [assumption|].
    intros i j. rewrite Q3, P3. cbn [In]. split.
    + intros [[?|?]|[k' [? ?]]]; [left; assumption|right; exists k; auto|right; exists k'; auto].
    + intros [?|[k' [[<-|?] ?]]]; [auto|auto|]. right. exists k'. auto.
Qed.

Lemma adds_nothing L : adds L (fun _ _ => False) (fun s => XOk s).
Proof. intros s _ H. exists s. split; [reflexivity|]. apply plus_none, H. Qed.

Lemma adds_insert L i j : i < L -> adds L (fun a b => a = i /\ b = j) (fun r => insertAt r i j).
Proof.
  intros H s HL Hs. destruct (row_some s i) as [si [E E']]; [lia|]. unfold insertAt. rewrite E'. cbn [xbind].
  eexists. split; [reflexivity|]. split; [apply setNth_length|]. split.
  - apply sets_set; [assumption|]. apply sins_isset. eapply sets_row; eassumption.
  - intros a b. rewrite entry_set by lia. rewrite sins_In. destruct (Nat.eq_dec a i) as [-> |Hn].
    + rewrite (entry_nth s i si b E). tauto.
    + tauto.
Qed.

Lemma adds_seq L R1 R2 f g : adds L R1 f -> adds L R2 g ->
  adds L (fun i j => R1 i j \/ R2 i j) (fun s => xbind (f s) g).
Proof.
  intros H1 H2 s HL Hs. destruct (H1 s HL Hs) as [s1 [E1 [P1 [P2 P3]]]]. rewrite E1. cbn [xbind].
  destruct (H2 s1) as [s2 [E2 [Q1 [Q2 Q3]]]]; [lia|assumption|]. exists s2. split; [assumption|].
  split; [lia|]. split; [assumption|]. intros i j. rewrite Q3, P3. tauto.
Qed.

Lemma in_seq0 k m : In k (seq 0 m) <-> k < m.
Proof. rewrite in_seq. lia. Qed.

(** ** The helpers *)

Lemma isIdentityRows_ok p l : (forall i, In i l -> i < List.length p) ->
  exists b, isIdentityRows p l = XOk b /\ (b = true <-> forall i, In i l -> forall j, entry p i j <-> j = i) \/
            (exists i, In i l /\ exists s, nth_error p i = Some s /\ ~ isset s).
Proof.
  induction l as [|i l IH]; intros H; cbn [isIdentityRows].
  - exists true. left. split; [reflexivity|]. split; [intros _ i []|auto].
  - destruct (row_some p i) as [s [E E']]; [apply H; left; reflexivity|]. rewrite E'. cbn [xbind].
    destruct (IH (fun k Hk => H k (or_intror Hk))) as [b [[Eb Hb]|[k [Hk Hs]]]].
    2:{ exists false. right. exists k. split; [right; assumption|assumption]. }
    destruct s as [|x [|y s]].
    + exists false. left. split; [reflexivity|]. split; [discriminate|]. intros C.
      specialize (C i (or_introl eq_refl) i). rewrite (entry_nth p i [] i E) in C. cbn in C. tauto.
    + destruct (Nat.eqb_spec x i) as [-> |Hn].
      * exists b. left. split; [assumption|]. rewrite Hb. split.
        -- intros C k [<-|Hk] j; [|apply C; assumption]. rewrite (entry_nth p i [i] j E). cbn. intuition.
        -- intros C k Hk. apply C. right. assumption.
      * exists false. left. split; [reflexivity|]. split; [discriminate|]. intros C.
        specialize (C i (or_introl eq_refl) x). rewrite (entry_nth p i [x] x E) in C. cbn in C. intuition.
    + destruct (Nat.eq_dec x y) as [-> |Hn].
      * exists false. right. exists i. split; [left; reflexivity|]. eexists. split; [exact E|].
        intros S. inversion S as [|? ? _ S2]; subst. inversion S2; lia.
      * exists false. left. split; [reflexivity|]. split; [discriminate|]. intros C.
        assert (C1 := C i (or_introl eq_refl) x). assert (C2 := C i (or_introl eq_refl) y).
        rewrite (entry_nth p i _ x E) in C1. rewrite (entry_nth p i _ y E) in C2. cbn in C1, C2.
        exfalso; apply Hn. transitivity i; [apply C1; auto|symmetry; apply C2; auto].
Qed.

Lemma isIdentityPattern_ok dbg p m : sets p -> m <= List.length p ->
  exists b, isIdentityPattern dbg p m = XOk b /\ (b = true <-> forall i, i < m -> forall j, entry p i j <-> j = i).
Proof.
  intros S H. unfold isIdentityPattern, xassert.
  replace (m <=? List.length p) with true by (symmetry; apply Nat.leb_le; assumption). cbn [negb]. rewrite andb_false_r.
  destruct (isIdentityRows_ok p (seq 0 m)) as [b [[E Hb]|[i [_ [s [E Hs]]]]]].
  - intros i Hi. apply in_seq0 in Hi. lia.
  - exists b. split; [assumption|]. rewrite Hb. split; intros C i Hi; apply C; apply in_seq0; assumption.
  - exfalso. apply Hs. eapply sets_row; eassumption.
Qed.

Lemma transLoop_adds L a m : rows_cols a m L -> adds L (transposed (upto m a)) (transLoop a m).
Proof.
  intros [H1 H2]. unfold transLoop.
  eapply adds_iff; [apply adds_foreach with (R := fun i x y => y = i /\ entry a i x)|].
  - intros i Hi. apply in_seq0 in Hi. destruct (row_some a i) as [s [E E']]; [lia|].
    intros r HL Hr. rewrite E'. cbn [xbind].
    assert (A : adds L (fun x y => exists k, In k s /\ (x = k /\ y = i)) (foreach s (fun j r => insertAt r j i))).
    { apply adds_foreach. intros j Hj. apply adds_insert. apply (H2 i j Hi). exists s. auto. }
    destruct (A r HL Hr) as [r' [Er P]]. exists r'. split; [assumption|]. eapply plus_iff; [exact P|].
    intros x y. rewrite (entry_nth a i s x E). split; [intros [k [? [-> ->]]]; auto|intros [-> ?]; exists x; auto].
  - intros x y. unfold transposed, upto. split.
    + intros [k [Hk [-> He]]]. apply in_seq0 in Hk. auto.
    + intros [Hy He]. exists y. rewrite in_seq0. auto.
Qed.

Lemma xassert_true {A} dbg b (k : xout A) : b = true -> xassert dbg b k = k.
Proof. intros ->. unfold xassert. cbn [negb]. rewrite andb_false_r. reflexivity. Qed.

Lemma leb_true a b : a <= b -> (a <=? b) = true.
Proof. apply Nat.leb_le. Qed.

Lemma sets_repeat n : sets (repeat [] n).
Proof. unfold sets. induction n; cbn [repeat]; constructor; [constructor|assumption]. Qed.

Lemma entry_repeat n i j : ~ entry (repeat [] n) i j.
Proof. intros [s [E H]]. apply nth_error_In, repeat_spec in E. subst. destruct H. Qed.

Lemma transposePattern_ok dbg a m n : rows_cols a m n ->
  exists r, transposePattern dbg a m n = XOk r /\ List.length r = n /\ sets r /\
  forall i j, entry r i j <-> j < m /\ entry a j i.
Proof.
  intros H. unfold transposePattern. rewrite xassert_true by (apply leb_true, H).
  destruct (transLoop_adds n a m H (repeat [] n) (repeat_length _ _) (sets_repeat n)) as [r [E [P1 [P2 P3]]]].
  exists r. split; [assumption|]. rewrite repeat_length in P1. split; [assumption|]. split; [assumption|].
  intros i j. rewrite P3. unfold transposed, upto. split; [|tauto]. intros [C|?]; [|assumption].
  destruct (entry_repeat _ _ _ C).
Qed.

Lemma addTransMatrixSparsity_ok dbg L a m : rows_cols a m L ->
  adds L (transposed (upto m a)) (addTransMatrixSparsity dbg a m).
Proof.
  intros H s HL Hs. unfold addTransMatrixSparsity. rewrite xassert_true by (apply leb_true, H).
  apply (transLoop_adds L a m H s HL Hs).
Qed.

Lemma addMatrixSparsity_ok dbg L a m : m <= L -> m <= List.length a -> (dbg = true -> List.length a = m) -> sets a ->
  adds L (upto m a) (addMatrixSparsity dbg a m).
Proof.
  intros HL Ha Hd Sa s Hs Ss. unfold addMatrixSparsity.
  rewrite xassert_true by (apply leb_true; lia).
  assert (E0 : forall X (k : xout X), xassert dbg (List.length a <=? m) k = k).
  { intros X k. unfold xassert. destruct dbg; [|reflexivity]. rewrite (leb_true (List.length a) m) by (rewrite Hd by reflexivity; lia). reflexivity. }
  rewrite E0.
  match goal with |- context [foreach (seq 0 m) ?f s] => assert (A : adds L (upto m a) (foreach (seq 0 m) f)) end;
    [|exact (A s Hs Ss)].
  eapply adds_iff; [apply adds_foreach with (R := fun i x y => x = i /\ entry a i y)|].
  - intros i Hi. apply in_seq0 in Hi. intros r Hr Sr.
    destruct (row_some r i) as [ri [E1 E1']]; [lia|]. destruct (row_some a i) as [ai [E2 E2']]; [lia|].
    cbv beta. rewrite E1', E2'. cbn [xbind].
    exists (setNth r i (sinsAll ai ri)).
    assert (Hp : plus r (fun x y => x = i /\ entry a i y) (setNth r i (sinsAll ai ri))).
    { split; [apply setNth_length|]. split.
      - apply sets_set; [assumption|]. apply sinsAll_isset. eapply sets_row; eassumption.
      - intros x y. rewrite entry_set by lia. rewrite sinsAll_In, (entry_nth a i ai y E2).
        destruct (Nat.eq_dec x i) as [-> |Hn]; [rewrite (entry_nth r i ri y E1); tauto|tauto]. }
    destruct ri as [|z ri]; [|split; [reflexivity|assumption]].
    split; [|assumption].
    (* inserting an increasing range into the empty set gives the range *)
    assert (Heq : sinsAll ai [] = ai).
    { assert (Sai : isset ai) by (eapply sets_row; [exact Sa|exact E2]).
      assert (G : forall l acc, StronglySorted lt (acc ++ l) -> sinsAll l acc = acc ++ l).
      { clear. induction l as [|y l IH]; intros acc H; cbn [sinsAll fold_left]; [rewrite app_nil_r; reflexivity|].
        change (fold_left _ l (sins y acc)) with (sinsAll l (sins y acc)).
        assert (Hy : sins y acc = acc ++ [y]).
        { clear IH. induction acc as [|x acc IHa]; cbn [sins app] in *; [reflexivity|].
          inversion H as [|? ? H1 H2]; subst. rewrite Forall_forall in H2.
          assert (x < y) by (apply H2, in_or_app; right; left; reflexivity).
          destruct (Nat.ltb_spec y x); [lia|]. destruct (Nat.eqb_spec y x); [lia|]. rewrite IHa by assumption. reflexivity. }
        rewrite Hy. rewrite IH; rewrite <- app_assoc; [reflexivity|assumption]. }
      apply (G ai []). exact Sai. }
    rewrite Heq. reflexivity.
  - intros x y. unfold upto. split.
    + intros [k [Hk [-> He]]]. apply in_seq0 in Hk. auto.
    + intros [Hx He]. exists x. rewrite in_seq0. auto.
Qed.

Lemma existsb_common (l s : set) : existsb (fun k => sfind k s) l = true <-> exists k, In k l /\ In k s.
Proof.
  rewrite existsb_exists. split; intros [k [H1 H2]]; exists k; (split; [assumption|]); apply sfind_In; assumption.
Qed.

Lemma adds_if L b R f : adds L R f -> adds L (fun i j => b = true /\ R i j) (fun s => if (b : bool) then f s else XOk s).
Proof.
  intros H. destruct b.
  - eapply adds_iff; [exact H|]. intros; tauto.
  - eapply adds_iff; [apply adds_nothing|]. intros i j. split; [tauto|]. intros [C _]; discriminate.
Qed.

(** ** The products *)

Lemma multMatrixMatrixSparsity_ok dbg a b r m n q :
  sets a -> sets b -> sets r ->
  rows_cols a m n -> rows_cols b n q -> m <= List.length r ->
  (dbg = true -> List.length a = m) ->
  exists r', multMatrixMatrixSparsity dbg a b r m n q = XOk r' /\
    plus r (product (upto m a) (upto n b)) r'.
Proof.
  intros Sa Sb Sr Ha Hb Hr Hd. unfold multMatrixMatrixSparsity.
  rewrite !xassert_true by (apply leb_true; first [apply Ha|apply Hb|assumption]).
  assert (Hid : exists bb, (if n =? q then isIdentityPattern dbg b n else XOk false) = XOk bb /\
     (bb = true -> n = q /\ forall i, i < n -> forall j, entry b i j <-> j = i)).
  { destruct (Nat.eqb_spec n q) as [En|].
    - destruct (isIdentityPattern_ok dbg b n Sb (proj1 Hb)) as [bb [E Hbb]]. exists bb. split; [assumption|].
      intros C. split; [assumption|]. apply Hbb, C.
    - exists false. split; [reflexivity|discriminate]. }
  destruct Hid as [bb [Eb Hbb]]. rewrite Eb. cbn [xbind]. destruct bb.
  - destruct (Hbb eq_refl) as [En Hi].
    destruct (addMatrixSparsity_ok dbg (List.length r) a m Hr (proj1 Ha) Hd Sa r eq_refl Sr) as [r' [E P]].
    exists r'. split; [assumption|]. eapply plus_iff; [exact P|]. intros i j. unfold product, upto. split.
    + intros [H1 H2]. assert (j < n) by (apply (proj2 Ha i j H1 H2)). exists j. split; [auto|]. split; [assumption|].
      apply Hi; [assumption|reflexivity].
    + intros [k [[H1 H2] [H3 H4]]]. split; [assumption|]. apply Hi in H4; [|assumption]. subst. assumption.
  - destruct (transposePattern_ok dbg b n q Hb) as [bt [Et [Lt [St Ht]]]]. rewrite Et. cbn [xbind].
    assert (A : adds (List.length r) (fun i j => exists jj, In jj (seq 0 q) /\
        (exists k, In k (seq 0 m) /\ (existsb (fun z => sfind z (nth k a [])) (nth jj bt []) = true /\ (i = k /\ j = jj))))
      (foreach (seq 0 q)
       (fun jj r =>
          xbind (rowAt bt jj) (fun colB : set =>
          match colB with
          | [] => XOk r
          | _ =>
              foreach (seq 0 m)
                (fun i r =>
                   xbind (rowAt a i) (fun rowA =>
                   if existsb (fun k => sfind k rowA) colB
                   then insertAt r i jj else XOk r)) r
          end)))).
    { apply adds_foreach. intros jj Hjj. apply in_seq0 in Hjj. destruct (row_some bt jj) as [colB [E1 E2]]; [lia|].
      rewrite E2. cbn [xbind]. rewrite (nth_error_nth _ _ _ E1). destruct colB as [|c colB].
      - eapply adds_iff; [apply adds_nothing|]. intros i j. split; [tauto|]. intros [k [_ [C _]]]. discriminate.
      - apply adds_foreach. intros i Hi. apply in_seq0 in Hi. destruct (row_some a i) as [ra [F1 F2]]; [destruct Ha; lia|].
        rewrite F2. cbn [xbind]. rewrite (nth_error_nth _ _ _ F1). apply adds_if. apply adds_insert. lia. }
    destruct (A r eq_refl Sr) as [r' [E P]]. exists r'. split; [exact E|]. eapply plus_iff; [exact P|].
    intros i j. unfold product, upto. split.
    + intros [jj [Hjj [k [Hk [Hx [-> ->]]]]]]. apply in_seq0 in Hjj. apply in_seq0 in Hk.
      apply existsb_common in Hx. destruct Hx as [z [Hz1 Hz2]].
      destruct (row_some bt jj) as [colB [E1 _]]; [lia|]. rewrite (nth_error_nth _ _ _ E1) in Hz1.
      destruct (row_some a k) as [ra [F1 _]]; [destruct Ha; lia|]. rewrite (nth_error_nth _ _ _ F1) in Hz2.
      exists z. rewrite (entry_nth a k ra z F1). assert (He : entry bt jj z) by (exists colB; auto).
      apply Ht in He. tauto.
    + intros [z [[H1 H2] [H3 H4]]]. assert (Hj : j < q) by (apply (proj2 Hb z j H3 H4)).
      exists j. split; [apply in_seq0; assumption|]. exists i. split; [apply in_seq0; assumption|]. split; [|auto].
      apply existsb_common. exists z. assert (He : entry bt j z) by (apply Ht; auto). destruct He as [colB [E1 E2]].
      rewrite (nth_error_nth _ _ _ E1). destruct H2 as [ra [F1 F2]]. rewrite (nth_error_nth _ _ _ F1). auto.
Qed.

Lemma emptyRows_ok p l : (forall i, In i l -> i < List.length p) ->
  exists b, emptyRows p l = XOk b /\ (b = true <-> forall i j, In i l -> ~ entry p i j).
Proof.
  induction l as [|i l IH]; intros H; cbn [emptyRows].
  - exists true. split; [reflexivity|]. split; [intros _ i j []|reflexivity].
  - destruct (row_some p i) as [s [E E']]; [apply H; left; reflexivity|]. rewrite E'. cbn [xbind]. destruct s as [|x s].
    + destruct (IH (fun k Hk => H k (or_intror Hk))) as [b [Eb Hb]]. exists b. split; [assumption|]. rewrite Hb. split.
      * intros C k j [<-|Hk]; [|apply C; assumption]. rewrite (entry_nth p i [] j E). intros [].
      * intros C k j Hk. apply C. right. assumption.
    + exists false. split; [reflexivity|]. split; [discriminate|]. intros C. exfalso.
      apply (C i x (or_introl eq_refl)). exists (x :: s). split; [assumption|left; reflexivity].
Qed.

Lemma multMatrixTransMatrixSparsity_ok dbg a b r m n q :
  sets a -> sets b -> sets r ->
  rows_cols a m n -> rows_cols b m q -> List.length r = n ->
  (dbg = true -> List.length b = m) ->
  exists r', multMatrixTransMatrixSparsity dbg a b r m n q = XOk r' /\
    plus r (product (transposed (upto m a)) (upto m b)) r'.
Proof.
  intros Sa Sb Sr Ha Hb Hr Hd. unfold multMatrixTransMatrixSparsity.
  rewrite !xassert_true by (apply leb_true; first [apply Ha|apply Hb|lia]).
  destruct (emptyRows_ok b (seq 0 m)) as [be [Ee He]]; [intros i Hi; apply in_seq0 in Hi; destruct Hb; lia|].
  rewrite Ee. cbn [xbind]. destruct be.
  { exists r. split; [reflexivity|]. eapply plus_iff; [apply plus_none; assumption|]. intros i j.
    split; [tauto|]. intros [k [_ [H1 H2]]]. apply (proj1 He eq_refl k j); [apply in_seq0; assumption|assumption]. }
  clear Ee He.
  assert (HidA : exists bb, (if m =? n then isIdentityPattern dbg a m else XOk false) = XOk bb /\
     (bb = true -> m = n /\ forall i, i < m -> forall j, entry a i j <-> j = i)).
  { destruct (Nat.eqb_spec m n) as [En|].
    - destruct (isIdentityPattern_ok dbg a m Sa (proj1 Ha)) as [bb [E Hbb]]. exists bb. split; [assumption|].
      intros C. split; [assumption|]. apply Hbb, C.
    - exists false. split; [reflexivity|discriminate]. }
  destruct HidA as [ba [Ea Hba]]. rewrite Ea. cbn [xbind]. destruct ba.
  { destruct (Hba eq_refl) as [En Hi]. subst n.
    destruct (addMatrixSparsity_ok dbg (List.length r) b m ltac:(lia) (proj1 Hb) Hd Sb r eq_refl Sr) as [r' [E P]].
    exists r'. rewrite <- En. split; [exact E|]. eapply plus_iff; [exact P|]. intros i j. unfold product, transposed, upto. split.
    - intros [H1 H2]. exists i. split; [split; [assumption|apply Hi; auto]|auto].
    - intros [k [[H1 H2] [H3 H4]]]. apply Hi in H2; [|assumption]. subst. auto. }
  assert (HidB : exists bb, (if m =? q then isIdentityPattern dbg b m else XOk false) = XOk bb /\
     (bb = true -> m = q /\ forall i, i < m -> forall j, entry b i j <-> j = i)).
  { destruct (Nat.eqb_spec m q) as [En|].
    - destruct (isIdentityPattern_ok dbg b m Sb (proj1 Hb)) as [bb [E Hbb]]. exists bb. split; [assumption|].
      intros C. split; [assumption|]. apply Hbb, C.
    - exists false. split; [reflexivity|discriminate]. }
  destruct HidB as [bb [Eb Hbb]]. rewrite Eb. cbn [xbind]. destruct bb.
  { destruct (Hbb eq_refl) as [En Hi].
    destruct (addTransMatrixSparsity_ok dbg (List.length r) a m ltac:(rewrite Hr; exact Ha) r eq_refl Sr) as [r' [E P]].
    exists r'. split; [exact E|]. eapply plus_iff; [exact P|]. intros i j. unfold product, transposed, upto. split.
    - intros [H1 H2]. exists j. split; [auto|]. split; [assumption|]. apply Hi; auto.
    - intros [k [[H1 H2] [H3 H4]]]. apply Hi in H4; [|assumption]. subst. auto. }
  clear Ea Hba Eb Hbb.
  destruct (transposePattern_ok dbg a m n Ha) as [at_ [Eat [Lat [Sat Hat]]]]. rewrite Eat. cbn [xbind].
  destruct (transposePattern_ok dbg b m q Hb) as [bt [Et [Lt [St Ht]]]]. rewrite Et. cbn [xbind].
  assert (A : adds (List.length r) (fun i j => exists jj, In jj (seq 0 q) /\
      (exists k, In k (seq 0 n) /\ (existsb (fun z => sfind z (nth k at_ [])) (nth jj bt []) = true /\ (i = k /\ j = jj))))
    (foreach (seq 0 q)
     (fun jj r =>
        xbind (rowAt bt jj) (fun colB : set =>
        match colB with
        | [] => XOk r
        | _ =>
            foreach (seq 0 n)
              (fun i r =>
                 xbind (rowAt at_ i) (fun rowAt_ : set =>
                 match rowAt_ with
                 | [] => XOk r
                 | _ => if existsb (fun k => sfind k rowAt_) colB
                        then insertAt r i jj else XOk r
                 end)) r
        end)))).
  { apply adds_foreach. intros jj Hjj. apply in_seq0 in Hjj. destruct (row_some bt jj) as [colB [E1 E2]]; [lia|].
    rewrite E2. cbn [xbind]. rewrite (nth_error_nth _ _ _ E1). destruct colB as [|c colB].
    - eapply adds_iff; [apply adds_nothing|]. intros i j. split; [tauto|]. intros [k [_ [C _]]]. discriminate.
    - apply adds_foreach. intros i Hi. apply in_seq0 in Hi. destruct (row_some at_ i) as [ra [F1 F2]]; [lia|].
      rewrite F2. cbn [xbind]. rewrite (nth_error_nth _ _ _ F1). destruct ra as [|y ra].
      + eapply adds_iff; [apply adds_nothing|]. intros x z. split; [tauto|]. intros [C _].
        apply existsb_common in C. destruct C as [w [_ []]].
      + apply adds_if. apply adds_insert. lia. }
  destruct (A r eq_refl Sr) as [r' [E P]]. exists r'. split; [exact E|]. eapply plus_iff; [exact P|].
  intros i j. unfold product, transposed, upto. split.
  - intros [jj [Hjj [k [Hk [Hx [-> ->]]]]]]. apply in_seq0 in Hjj. apply in_seq0 in Hk.
    apply existsb_common in Hx. destruct Hx as [z [Hz1 Hz2]].
    destruct (row_some bt jj) as [colB [E1 _]]; [lia|]. rewrite (nth_error_nth _ _ _ E1) in Hz1.
    destruct (row_some at_ k) as [ra [F1 _]]; [lia|]. rewrite (nth_error_nth _ _ _ F1) in Hz2.
    exists z. assert (He : entry bt jj z) by (exists colB; auto). assert (He2 : entry at_ k z) by (exists ra; auto).
    apply Ht in He. apply Hat in He2. tauto.
  - intros [z [[H1 H2] [H3 H4]]]. assert (Hj : j < q) by (apply (proj2 Hb z j H3 H4)).
    assert (Hi : i < n) by (apply (proj2 Ha z i H1 H2)).
    exists j. split; [apply in_seq0; assumption|]. exists i. split; [apply in_seq0; assumption|]. split; [|auto].
    apply existsb_common. exists z. assert (He : entry bt j z) by (apply Ht; auto). destruct He as [colB [E1 E2]].
    assert (He2 : entry at_ i z) by (apply Hat; auto). destruct He2 as [ra [F1 F2]].
    rewrite (nth_error_nth _ _ _ E1), (nth_error_nth _ _ _ F1). auto.
Qed.

Lemma multMatrixMatrixSparsityTrans_ok dbg aT b rT m n q :
  sets aT -> sets b -> sets rT ->
  rows_cols aT m q -> rows_cols b m n -> List.length rT = n ->
  exists r', multMatrixMatrixSparsityTrans dbg aT b rT m n q = XOk r' /\
    plus rT (transposed (product (transposed (upto m aT)) (upto m b))) r'.
Proof.
  intros Sa Sb Sr Ha Hb Hr. unfold multMatrixMatrixSparsityTrans.
  rewrite !xassert_true by (apply leb_true; first [apply Ha|apply Hb|lia]).
  destruct (emptyRows_ok b (seq 0 m)) as [be [Ee He]]; [intros i Hi; apply in_seq0 in Hi; destruct Hb; lia|].
  rewrite Ee. cbn [xbind]. destruct be.
  { exists rT. split; [reflexivity|]. eapply plus_iff; [apply plus_none; assumption|]. intros i j.
    split; [tauto|]. intros [k [_ [H1 H2]]]. apply (proj1 He eq_refl k i); [apply in_seq0; assumption|assumption]. }
  clear Ee He.
  assert (HidA : exists bb, (if m =? q then isIdentityPattern dbg aT m else XOk false) = XOk bb /\
     (bb = true -> m = q /\ forall i, i < m -> forall j, entry aT i j <-> j = i)).
  { destruct (Nat.eqb_spec m q) as [En|].
    - destruct (isIdentityPattern_ok dbg aT m Sa (proj1 Ha)) as [bb [E Hbb]]. exists bb. split; [assumption|].
      intros C. split; [assumption|]. apply Hbb, C.
    - exists false. split; [reflexivity|discriminate]. }
  destruct HidA as [ba [Ea Hba]]. rewrite Ea. cbn [xbind]. destruct ba.
  { destruct (Hba eq_refl) as [En Hi].
    destruct (addTransMatrixSparsity_ok dbg (List.length rT) b m ltac:(rewrite Hr; exact Hb) rT eq_refl Sr) as [r' [E P]].
    exists r'. split; [exact E|]. eapply plus_iff; [exact P|]. intros i j. unfold product, transposed, upto. split.
    - intros [H1 H2]. exists j. split; [split; [assumption|apply Hi; auto]|auto].
    - intros [k [[H1 H2] [H3 H4]]]. apply Hi in H2; [|assumption]. subst. auto. }
  clear Ea Hba.
  destruct (transposePattern_ok dbg aT m q Ha) as [a [Eat [Lat [Sat Hat]]]]. rewrite Eat. cbn [xbind].
  destruct (transposePattern_ok dbg b m n Hb) as [bt [Et [Lt [St Ht]]]]. rewrite Et. cbn [xbind].
  assert (A : adds (List.length rT) (fun i j => exists jj, In jj (seq 0 n) /\
      (exists k, In k (seq 0 q) /\ (existsb (fun z => sfind z (nth jj bt [])) (nth k a []) = true /\ (i = jj /\ j = k))))
    (foreach (seq 0 n)
     (fun jj r =>
        foreach (seq 0 q)
          (fun i r =>
             xbind (rowAt a i) (fun ai =>
             xbind (rowAt bt jj) (fun bj =>
             if existsb (fun k => sfind k bj) ai
             then insertAt r jj i else XOk r))) r))).
  { apply adds_foreach. intros jj Hjj. apply in_seq0 in Hjj. apply adds_foreach. intros i Hi. apply in_seq0 in Hi.
    destruct (row_some bt jj) as [colB [E1 E2]]; [lia|]. destruct (row_some a i) as [ra [F1 F2]]; [lia|].
    rewrite F2, E2. cbn [xbind]. rewrite (nth_error_nth _ _ _ E1), (nth_error_nth _ _ _ F1).
    apply adds_if. apply adds_insert. lia. }
  destruct (A rT eq_refl Sr) as [r' [E P]]. exists r'. split; [exact E|]. eapply plus_iff; [exact P|].
  intros i j. unfold product, transposed, upto. split.
  - intros [jj [Hjj [k [Hk [Hx [-> ->]]]]]]. apply in_seq0 in Hjj. apply in_seq0 in Hk.
    apply existsb_common in Hx. destruct Hx as [z [Hz1 Hz2]].
    destruct (row_some bt jj) as [colB [E1 _]]; [lia|]. rewrite (nth_error_nth _ _ _ E1) in Hz2.
    destruct (row_some a k) as [ra [F1 _]]; [lia|]. rewrite (nth_error_nth _ _ _ F1) in Hz1.
    exists z. assert (He : entry bt jj z) by (exists colB; auto). assert (He2 : entry a k z) by (exists ra; auto).
    apply Ht in He. apply Hat in He2. tauto.
  - intros [z [[H1 H2] [H3 H4]]]. assert (Hj : i < n) by (apply (proj2 Hb z i H3 H4)).
    assert (Hi : j < q) by (apply (proj2 Ha z j H1 H2)).
    exists i. split; [apply in_seq0; assumption|]. exists j. split; [apply in_seq0; assumption|]. split; [|auto].
    apply existsb_common. exists z. assert (He : entry bt i z) by (apply Ht; auto). destruct He as [colB [E1 E2]].
    assert (He2 : entry a j z) by (apply Hat; auto). destruct He2 as [ra [F1 F2]].
    rewrite (nth_error_nth _ _ _ E1), (nth_error_nth _ _ _ F1). auto.
Qed.

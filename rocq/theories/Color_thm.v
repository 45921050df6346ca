(** * The joint sparse Jacobian and Hessian: theorems *)
From Coq Require Import List Bool Arith Lia Permutation Sorted.
From Verif Require Import Color_model.
Import ListNotations.

(** ** Patterns *)
Lemma mem_true : forall x l, mem x l = true <-> In x l.
Proof.
  intros x l. unfold mem. rewrite existsb_exists. split.
  - intros [y [A B]]. apply Nat.eqb_eq in B. subst. exact A.
  - intros A. exists x. split; [exact A|apply Nat.eqb_refl].
Qed.

Lemma in_addE : forall p i j a b, In b (addE p i j a) <-> In b (p a) \/ (a = i /\ b = j).
Proof.
  intros p i j a b. unfold addE. destruct (Nat.eqb_spec a i) as [->|N].
  - destruct (mem j (p i)) eqn:M.
    + apply mem_true in M. split; [auto|]. intros [A|[_ ->]]; auto.
    + rewrite in_app_iff. cbn [In]. split; [intros [A|[A|[]]]; auto|intros [A|[_ A]]; auto].
  - split; [auto|]. intros [A|[A _]]; [exact A|congruence].
Qed.

Lemma in_colsOf : forall req r c, In c (colsOf req r) <-> In (r, c) req.
Proof.
  assert (G : forall req p r c, In c (fold_left (fun p rc => addE p (fst rc) (snd rc)) req p r) <-> In c (p r) \/ In (r, c) req).
  { induction req as [|[a b] req IH]; intros p r c; cbn [fold_left In].
    - intuition.
    - rewrite IH, in_addE. cbn [fst snd]. split.
      + intros [[A|[-> ->]]|A]; auto.
      + intros [A|[A|A]]; auto. inversion A; subst; auto. }
  intros. unfold colsOf. rewrite G. unfold emptyP. cbn [In]. intuition.
Qed.

Lemma in_rowsOf : forall req r c, In r (rowsOf req c) <-> In (r, c) req.
Proof.
  assert (G : forall req p r c, In r (fold_left (fun p rc => addE p (snd rc) (fst rc)) req p c) <-> In r (p c) \/ In (r, c) req).
  { induction req as [|[a b] req IH]; intros p r c; cbn [fold_left In].
    - intuition.
    - rewrite IH, in_addE. cbn [fst snd]. split.
      + intros [[A|[-> ->]]|A]; auto.
      + intros [A|[A|A]]; auto. inversion A; subst; auto. }
  intros. unfold rowsOf. rewrite G. unfold emptyP. cbn [In]. intuition.
Qed.

Lemma in_notUsed : forall sp ru n i j,
  In i (computeNotUsed sp ru n j) <-> i < n /\ In j (sp i) /\ ~ In i (ru j).
Proof.
  intros sp ru n i j. unfold computeNotUsed.
  assert (I1 : forall l k nu, In i (fold_left (fun nu j => if mem k (ru j) then nu else addE nu j k) l nu j) <->
                 In i (nu j) \/ (i = k /\ In j l /\ ~ In i (ru j))).
  { induction l as [|a l IH]; intros k nu; cbn [fold_left In].
    - intuition.
    - rewrite IH. destruct (mem k (ru a)) eqn:M.
      + apply mem_true in M. split.
        * intros [A|[A [B C]]]; auto.
        * intros [A|[A [[B|B] C]]]; auto. subst. contradiction.
      + assert (M' : ~ In k (ru a)) by (intros X; apply mem_true in X; congruence).
        rewrite in_addE. split.
        * intros [[A|[A B]]|[A [B C]]]; auto. subst. auto.
        * intros [A|[A [[B|B] C]]]; subst; auto. }
  assert (I2 : forall l nu, In i (fold_left (fun nu i => fold_left (fun nu j => if mem i (ru j) then nu else addE nu j i) (sp i) nu) l nu j) <->
                 In i (nu j) \/ (In i l /\ In j (sp i) /\ ~ In i (ru j))).
  { induction l as [|a l IH]; intros nu; cbn [fold_left In].
    - intuition.
    - rewrite IH, I1. split.
      + intros [[A|[-> [B C]]]|[A B]]; auto.
      + intros [A|[[->|A] B]]; auto. }
  rewrite I2. unfold emptyP. cbn [In]. rewrite in_seq. split; [intros [[]|[A B]]; split; [lia|exact B]|].
  intros [A B]. right. split; [lia|exact B].
Qed.

Lemma in_transpose : forall p rows i j, In i (transpose p rows j) <-> i < rows /\ In j (p i).
Proof. intros. unfold transpose. rewrite filter_In, in_seq, mem_true. intuition lia. Qed.

(** ** Forbidden colours *)
Lemma forbid_true : forall color j1 cols f x,
  forbid color j1 f cols x = true <-> f x = true \/ exists j11, In j11 cols /\ j11 < j1 /\ color j11 = x.
Proof.
  intros color j1. unfold forbid. induction cols as [|a cols IH]; intros f x; cbn [fold_left In].
  - split; [auto|]. intros [A|[j [[] _]]]. exact A.
  - rewrite IH. destruct (Nat.ltb_spec a j1) as [L|L].
    + unfold fupd. destruct (Nat.eqb_spec x (color a)) as [->|N].
      * split; [intros _; right; exists a; auto|auto].
      * split.
        -- intros [A|[j [A B]]]; [auto|right; exists j; auto].
        -- intros [A|[j [[A|A] B]]]; [auto|subst; destruct B; congruence|right; exists j; auto].
    + split.
      * intros [A|[j [A B]]]; [auto|right; exists j; auto].
      * intros [A|[j [[A|A] B]]]; [auto|subst; lia|right; exists j; auto].
Qed.

Lemma forbidVia_true : forall color j1 inner outer f x,
  forbidVia color j1 outer inner f x = true <->
  f x = true \/ exists i j11, In i outer /\ In j11 (inner i) /\ j11 < j1 /\ color j11 = x.
Proof.
  intros color j1 inner. unfold forbidVia. induction outer as [|a outer IH]; intros f x; cbn [fold_left In].
  - split; [auto|]. intros [A|[i [j [[] _]]]]. exact A.
  - rewrite IH, forbid_true. split.
    + intros [[A|[j [A B]]]|[i [j [A B]]]]; [auto|right; exists a, j; auto|right; exists i, j; auto].
    + intros [A|[i [j [[<-|A] B]]]]; [auto|left; right; exists j; auto|right; exists i, j; auto].
Qed.

Lemma pick_spec : forall f n fuel c d, c <= d -> d < n -> f d = false -> d - c < fuel ->
  exists e, pick f n c fuel = Some e /\ c <= e <= d /\ f e = false.
Proof.
  intros f n. induction fuel as [|fuel IH]; intros c d L1 L2 F L; [lia|]. cbn [pick].
  destruct (Nat.ltb_spec c n) as [A|A]; [|lia]. destruct (f c) eqn:E.
  - assert (c <> d) by congruence. destruct (IH (S c) d) as [e [P1 [P2 P3]]]; try lia; try assumption.
    exists e. repeat split; try lia; assumption.
  - exists c. repeat split; try lia; assumption.
Qed.

Section Colouring.
Variable n m : nat.
Variable jac_p hes_p : pattern.
Variable jreq hreq : list (nat * nat).
Hypothesis JIN : forall i j, In (i, j) jreq -> i < m /\ j < n /\ In j (jac_p i).
Hypothesis HIN : forall r c, In (r, c) hreq -> r < n /\ c < n /\ In c (hes_p r).

(** columns of one colour below [b] never share a row with a requested element, rows never share a column *)
Definition apart (color : nat -> nat) (b : nat) : Prop :=
  forall j j', j < b -> j' < b -> j <> j' -> color j = color j' ->
    (forall i, In (i, j) jreq -> ~ In j' (jac_p i)) /\ (forall c, In (j, c) hreq -> ~ In c (hes_p j')).

Lemma step_ok : forall s j1, 1 <= j1 -> j1 < n -> apart (fst s) j1 -> (forall j, j <= j1 -> fst s j <= j) ->
  exists c s', colourStep n m jac_p hes_p jreq hreq s j1 = Some s' /\ fst s' = fupd (fst s) j1 c /\ c <= j1 /\ apart (fst s') (S j1).
Proof.
  intros [color g] j1 L1 L2 AP LE. cbn [fst] in *. unfold colourStep. cbn [fst snd].
  set (f0 := fun c => if Nat.leb c j1 then false else g c).
  set (f1 := forbidVia color j1 (p_transpose m jac_p j1) (jac_c_used jreq) f0).
  set (f2 := forbidVia color j1 (jac_r_used jreq j1) (jac_not_used n m jac_p jreq) f1).
  set (f3 := forbidVia color j1 (hes_p j1) (hes_r_used hreq) f2).
  set (f4 := forbidVia color j1 (hes_c_used hreq j1) (hes_not_used n hes_p hreq) f3).
  assert (UP : forall x, f4 x = true -> x <= j1 -> exists j, j < j1 /\ color j = x).
  { intros x A X. unfold f4 in A. apply forbidVia_true in A. destruct A as [A|[i [j [_ [_ [A B]]]]]]; [|exists j; auto].
    unfold f3 in A. apply forbidVia_true in A. destruct A as [A|[i [j [_ [_ [A B]]]]]]; [|exists j; auto].
    unfold f2 in A. apply forbidVia_true in A. destruct A as [A|[i [j [_ [_ [A B]]]]]]; [|exists j; auto].
    unfold f1 in A. apply forbidVia_true in A. destruct A as [A|[i [j [_ [_ [A B]]]]]]; [|exists j; auto].
    unfold f0 in A. apply Nat.leb_le in X. rewrite X in A. discriminate. }
  assert (EX : exists d, d <= j1 /\ f4 d = false).
  { destruct (existsb (fun d => negb (f4 d)) (seq 0 (S j1))) eqn:E.
    - apply existsb_exists in E. destruct E as [d [A B]]. apply in_seq in A. apply negb_true_iff in B. exists d. split; [lia|exact B].
    - exfalso.
      assert (ALL : forall d, d <= j1 -> f4 d = true).
      { intros d A. destruct (f4 d) eqn:F; [reflexivity|]. exfalso.
        assert (T : existsb (fun d => negb (f4 d)) (seq 0 (S j1)) = true).
        { apply existsb_exists. exists d. split; [apply in_seq; lia|rewrite F; reflexivity]. }
        congruence. }
      assert (LEN : length (seq 0 (S j1)) <= length (map color (seq 0 j1))).
      { apply NoDup_incl_length; [apply seq_NoDup|]. intros x X. apply in_seq in X.
        destruct (UP x) as [j [A B]]; [apply ALL; lia|lia|]. apply in_map_iff. exists j. split; [exact B|apply in_seq; lia]. }
      rewrite map_length, !seq_length in LEN. lia. }
  destruct EX as [d [D1 D2]].
  destruct (pick_spec f4 n (S n) 0 d) as [c [P1 [P2 P3]]]; try lia; try assumption.
  rewrite P1. exists c. eexists. split; [reflexivity|]. cbn [fst]. split; [reflexivity|]. split; [lia|].
  assert (FREE : forall j, j < j1 -> color j = c ->
            (forall i, In (i, j) jreq -> ~ In j1 (jac_p i)) /\ (forall i, In (i, j1) jreq -> ~ In j (jac_p i)) /\
            (forall k, In (j, k) hreq -> ~ In k (hes_p j1)) /\ (forall k, In (j1, k) hreq -> ~ In k (hes_p j))).
  { intros j A B.
    assert (N1 : ~ exists i j11, In i (p_transpose m jac_p j1) /\ In j11 (jac_c_used jreq i) /\ j11 < j1 /\ color j11 = c).
    { intros X. assert (T : f4 c = true); [|congruence].
      unfold f4. apply forbidVia_true. left. unfold f3. apply forbidVia_true. left. unfold f2. apply forbidVia_true. left.
      unfold f1. apply forbidVia_true. right. exact X. }
    assert (N2 : ~ exists i j11, In i (jac_r_used jreq j1) /\ In j11 (jac_not_used n m jac_p jreq i) /\ j11 < j1 /\ color j11 = c).
    { intros X. assert (T : f4 c = true); [|congruence].
      unfold f4. apply forbidVia_true. left. unfold f3. apply forbidVia_true. left. unfold f2. apply forbidVia_true. right. exact X. }
    assert (N3 : ~ exists i j11, In i (hes_p j1) /\ In j11 (hes_r_used hreq i) /\ j11 < j1 /\ color j11 = c).
    { intros X. assert (T : f4 c = true); [|congruence].
      unfold f4. apply forbidVia_true. left. unfold f3. apply forbidVia_true. right. exact X. }
    assert (N4 : ~ exists i j11, In i (hes_c_used hreq j1) /\ In j11 (hes_not_used n hes_p hreq i) /\ j11 < j1 /\ color j11 = c).
    { intros X. assert (T : f4 c = true); [|congruence]. unfold f4. apply forbidVia_true. right. exact X. }
    assert (Q1 : forall i, In (i, j) jreq -> ~ In j1 (jac_p i)).
    { intros i Y Z. apply N1. exists i, j. split; [apply in_transpose; split; [apply (JIN _ _ Y)|exact Z]|].
      split; [apply in_colsOf; exact Y|auto]. }
    assert (Q3 : forall k, In (j, k) hreq -> ~ In k (hes_p j1)).
    { intros k Y Z. apply N3. exists k, j. split; [exact Z|]. split; [apply in_rowsOf; exact Y|auto]. }
    split; [exact Q1|]. split; [|split; [exact Q3|]].
    - intros i Y Z. destruct (JIN _ _ Y) as [Y1 [Y2 Y3]].
      destruct (in_dec Nat.eq_dec j (jac_c_used jreq i)) as [U|U].
      + apply in_colsOf in U. exact (Q1 i U Y3).
      + apply N2. exists i, j. split; [apply in_rowsOf; exact Y|]. split; [|auto].
        apply in_notUsed. split; [lia|]. split; [apply in_transpose; auto|exact U].
    - intros k Y Z. destruct (HIN _ _ Y) as [Y1 [Y2 Y3]].
      destruct (in_dec Nat.eq_dec j (hes_r_used hreq k)) as [U|U].
      + apply in_rowsOf in U. exact (Q3 k U Y3).
      + apply N4. exists k, j. split; [apply in_colsOf; exact Y|]. split; [|auto].
        apply in_notUsed. split; [lia|]. split; [exact Z|exact U]. }
  intros j j' B1 B2 NE EQ. unfold fupd in EQ.
  destruct (Nat.eqb_spec j j1) as [->|Nj]; destruct (Nat.eqb_spec j' j1) as [->|Nj'].
  - congruence.
  - destruct (FREE j') as [_ [F2 [_ F4]]]; [lia|auto|]. split; assumption.
  - destruct (FREE j) as [F1 [_ [F3 _]]]; [lia|auto|]. split; assumption.
  - apply AP; try lia.
Qed.

Lemma colourAll_ok : forall l a s, l = seq a (n - a) -> 1 <= a -> (a <= n \/ n = 0) -> apart (fst s) a -> (forall j, fst s j <= j) ->
  exists color, colourAll n m jac_p hes_p jreq hreq s l = Some color /\ apart color n /\ forall j, color j <= j.
Proof.
  induction l as [|j1 l IH]; intros a s EQ L1 L2 AP LE; cbn [colourAll].
  - exists (fst s). split; [reflexivity|]. split; [|exact LE].
    assert (LEN := f_equal (@length nat) EQ). rewrite seq_length in LEN. cbn [length] in LEN.
    destruct L2 as [L2|L2]; [assert (a = n) by lia; subst; exact AP|]. intros j j' A. lia.
  - assert (LEN := f_equal (@length nat) EQ). rewrite seq_length in LEN. cbn [length] in LEN.
    replace (n - a) with (S (n - S a)) in EQ by lia. cbn [seq] in EQ. injection EQ as <- EQ.
    destruct (step_ok s j1) as [c [s' [S1 [S2 [S3 S4]]]]]; try lia; try assumption; [intros; apply LE|].
    rewrite S1. apply (IH (S j1)); try assumption; [lia|lia|].
    intros j. rewrite S2. unfold fupd. destruct (Nat.eqb_spec j j1); [lia|apply LE].
Qed.

Lemma colours_ok : forall garbage, exists color, colours n m jac_p hes_p jreq hreq garbage = Some color /\ apart color n /\ forall j, color j <= j.
Proof.
  intros garbage. apply (colourAll_ok _ 1); cbn [fst]; try lia; try reflexivity.
  intros j j' A B. lia.
Qed.
End Colouring.

Lemma nColor_bound : forall n color j, j < n -> color j < nColor n color.
Proof.
  intros n color j L. unfold nColor.
  assert (M : forall l k, k <= fold_left (fun k j => Nat.max k (color j + 1)) l k).
  { induction l as [|a l IH]; intros k; cbn [fold_left]; [lia|]. specialize (IH (Nat.max k (color a + 1))). lia. }
  assert (G : forall l k, In j l -> color j < fold_left (fun k j => Nat.max k (color j + 1)) l k).
  { induction l as [|a l IH]; intros k I; [destruct I|]. cbn [fold_left]. destruct I as [->|I]; [|apply IH; exact I].
    specialize (M l (Nat.max k (color j + 1))). lia. }
  apply G. apply in_seq. lia.
Qed.

Lemma nColor_le : forall n color, (forall j, color j <= j) -> nColor n color <= Nat.max 1 n.
Proof.
  intros n color LE. unfold nColor.
  assert (G : forall l k b, (forall j, In j l -> color j + 1 <= b) -> k <= b -> fold_left (fun k j => Nat.max k (color j + 1)) l k <= b).
  { induction l as [|a l IH]; intros k b I K; cbn [fold_left]; [exact K|]. apply IH; [intros; apply I; right; assumption|].
    assert (A := I a (or_introl eq_refl)). lia. }
  apply G; [|lia]. intros j I. apply in_seq in I. specialize (LE j). lia.
Qed.

(** ** The loops over the sorted requests *)
Definition sortedKeys (keys : list nat) : Prop :=
  forall p q x y, p <= q -> nth_error keys p = Some x -> nth_error keys q = Some y -> x <= y.

Lemma advance_ok : forall keys n q j1, nth_error keys q = Some n -> j1 <= n ->
  forall fuel k, k <= q -> q - k < fuel ->
  exists k' x, advance keys j1 k fuel = Some k' /\ k <= k' <= q /\ nth_error keys k' = Some x /\ j1 <= x /\
               (forall p y, k <= p -> p < k' -> nth_error keys p = Some y -> y < j1).
Proof.
  intros keys n q j1 Q L. induction fuel as [|fuel IH]; intros k K F; [lia|]. cbn [advance].
  assert (A : k < length keys) by (assert (q < length keys) by (apply nth_error_Some; congruence); lia).
  destruct (nth_error keys k) as [x|] eqn:E; [|apply nth_error_None in E; lia].
  destruct (Nat.ltb_spec x j1) as [B|B].
  - assert (k <> q) by (intros ->; rewrite Q in E; injection E as ->; lia).
    destruct (IH (S k)) as [k' [y [P1 [P2 [P3 [P4 P5]]]]]]; try lia.
    exists k', y. split; [exact P1|]. split; [lia|]. split; [exact P3|]. split; [exact P4|].
    intros p z G1 G2 G3. destruct (Nat.eq_dec p k) as [->|N]; [|apply (P5 p z); try lia; assumption].
    rewrite E in G3. injection G3 as <-. exact B.
  - exists k, x. split; [reflexivity|]. split; [lia|]. split; [exact E|]. split; [exact B|]. intros; lia.
Qed.

Lemma fuel_pos : forall (keys : list nat) n q k, nth_error keys q = Some n -> k <= q -> q - k < S (length keys).
Proof. intros keys n q k Q K. assert (q < length keys) by (apply nth_error_Some; congruence). lia. Qed.

(** a search that finds nothing shows that no requested element has the colour; otherwise none was skipped *)
Lemma search_ok : forall keys n q color c, sortedKeys keys -> nth_error keys q = Some n ->
  forall l a k, l = seq a (n - a) -> a <= n -> k <= q ->
  (forall p x, nth_error keys p = Some x -> x < a -> color x = c -> False) ->
  (forall p x, p < k -> nth_error keys p = Some x -> x < a) ->
  exists found k', search keys color c k l = Some (found, k') /\ k' <= q /\
    (found = true -> forall p x, p < k' -> nth_error keys p = Some x -> color x = c -> False) /\
    (found = false -> forall p x, nth_error keys p = Some x -> x < n -> color x = c -> False).
Proof.
  intros keys n q color c SK Q. induction l as [|j1 l IH]; intros a k EQ L K NO BEL; cbn [search].
  - assert (LEN := f_equal (@length nat) EQ). rewrite seq_length in LEN. cbn [length] in LEN. assert (a = n) by lia. subst a.
    exists false, k. split; [reflexivity|]. split; [exact K|]. split; [discriminate|]. intros _ p x A B C. exact (NO p x A B C).
  - assert (LEN := f_equal (@length nat) EQ). rewrite seq_length in LEN. cbn [length] in LEN.
    replace (n - a) with (S (n - S a)) in EQ by lia. cbn [seq] in EQ. injection EQ as <- EQ.
    destruct (Nat.eqb_spec (color j1) c) as [C|C].
    + destruct (advance_ok keys n q j1 Q ltac:(lia) (S (length keys)) k K (fuel_pos _ _ _ _ Q K)) as [k' [x [A1 [A2 [A3 [A4 A5]]]]]].
      rewrite A1, A3.
      assert (B2 : forall p y, p < k' -> nth_error keys p = Some y -> y < j1).
      { intros p y P1 P2. destruct (Nat.lt_ge_cases p k) as [G|G]; [exact (BEL p y G P2)|]. exact (A5 p y G P1 P2). }
      destruct (Nat.eqb_spec x j1) as [X|X].
      * exists true, k'. split; [reflexivity|]. split; [lia|]. split; [|discriminate].
        intros _ p y P1 P2 P3. exact (NO p y P2 (B2 p y P1 P2) P3).
      * apply (IH (S j1)); try lia; [exact EQ| |].
        -- intros p y P1 P2 P3. destruct (Nat.eq_dec y j1) as [->|N]; [|apply (NO p y); try assumption; lia].
           destruct (Nat.lt_ge_cases p k') as [G|G]; [specialize (B2 p j1 G P1); lia|].
           assert (x <= j1) by exact (SK k' p x j1 G A3 P1). lia.
        -- intros p y P1 P2. specialize (B2 p y P1 P2). lia.
    + apply (IH (S j1)); try lia; [exact EQ| |].
      * intros p y P1 P2 P3. destruct (Nat.eq_dec y j1) as [->|N]; [congruence|]. apply (NO p y); try assumption; lia.
      * intros p y P1 P2. specialize (BEL p y P1 P2). lia.
Qed.

Section Gather.
Context {V : Type}.
Variable keys pos : list nat.
Variable n q : nat.
Variable val : nat -> option V.
Hypothesis SK : sortedKeys keys.
Hypothesis Q : nth_error keys q = Some n.
(** every element below the sentinel can be read, and is written to its own place *)
Hypothesis POS : forall p x, nth_error keys p = Some x -> x < n -> (exists k, nth_error pos p = Some k) /\ (exists v, val p = Some v).
Hypothesis INJ : forall p p' x x' k, nth_error keys p = Some x -> x < n -> nth_error keys p' = Some x' -> x' < n ->
  nth_error pos p = Some k -> nth_error pos p' = Some k -> p = p'.

(** the values of the elements that satisfy [P] are in place, and the others are as they were *)
Definition placed (P : nat -> Prop) (out : nat -> V) : Prop :=
  forall p x k v, nth_error keys p = Some x -> x < n -> P p -> nth_error pos p = Some k -> val p = Some v -> out k = v.
Definition untouched (P : nat -> Prop) (out0 out : nat -> V) : Prop :=
  forall k, (forall p x, nth_error keys p = Some x -> x < n -> P p -> nth_error pos p <> Some k) -> out k = out0 k.

Lemma extract_ok : forall j1, j1 < n -> forall fuel k out (P R : nat -> Prop) out0, k <= q -> q - k < fuel ->
  placed P out -> untouched R out0 out -> (forall p, P p -> p < k \/ ~ nth_error keys p = Some j1) -> (forall p, nth_error keys p = Some j1 -> R p) ->
  exists k' out' x, extract keys pos val j1 k out fuel = Some (k', out') /\ k <= k' <= q /\
    nth_error keys k' = Some x /\ x <> j1 /\ (forall p, k <= p -> p < k' -> nth_error keys p = Some j1) /\
    placed (fun p => P p \/ (k <= p < k')) out' /\ untouched R out0 out'.
Proof.
  intros j1 LJ. induction fuel as [|fuel IH]; intros k out P R out0 K F PL UN PK RJ; [lia|]. cbn [extract].
  assert (A : k < length keys) by (assert (q < length keys) by (apply nth_error_Some; congruence); lia).
  destruct (nth_error keys k) as [x|] eqn:E; [|apply nth_error_None in E; lia].
  destruct (Nat.eqb_spec x j1) as [->|N].
  - destruct (POS k j1 E LJ) as [[pk EP] [v EV]]. rewrite EP, EV.
    assert (k <> q) by (intros ->; rewrite Q in E; injection E as ->; lia).
    destruct (IH (S k) (fupd out pk v) (fun p => P p \/ p = k) R out0) as [k' [out' [x [E1 [E2 [E3 [E4 [E5 [E6 E7]]]]]]]]]; try lia.
    + intros p x k0 v0 H1 H2 H3 H4 H5. unfold fupd. destruct (Nat.eqb_spec k0 pk) as [->|N].
      * assert (p = k) by exact (INJ p k x j1 pk H1 H2 E LJ H4 EP). subst p. congruence.
      * destruct H3 as [H3| ->]; [exact (PL p x k0 v0 H1 H2 H3 H4 H5)|congruence].
    + intros k0 H0. unfold fupd. destruct (Nat.eqb_spec k0 pk) as [->|N]; [|apply UN; exact H0].
      exfalso. exact (H0 k j1 E LJ (RJ k E) EP).
    + intros p [H0| ->]; [|left; lia]. destruct (PK p H0); [left; lia|right; assumption].
    + exact RJ.
    + exists k', out', x. split; [exact E1|]. split; [lia|]. split; [exact E3|]. split; [exact E4|]. split; [|split].
      * intros p P1 P2. destruct (Nat.eq_dec p k) as [->|N]; [exact E|apply E5; lia].
      * intros p y k0 v0 H1 H2 H3. apply (E6 p y k0 v0 H1 H2). destruct H3 as [H3|H3]; [left; left; exact H3|].
        destruct (Nat.eq_dec p k) as [->|N]; [left; right; reflexivity|right; lia].
      * exact E7.
  - exists k, out, x. split; [reflexivity|]. split; [lia|]. split; [exact E|]. split; [exact N|]. split; [intros; lia|]. split; [|exact UN].
    intros p y k0 v0 H1 H2 [H3|H3]; [exact (PL p y k0 v0 H1 H2 H3)|lia].
Qed.

Variable color : nat -> nat.
Variable c : nat.
Definition ofColour (p : nat) : Prop := exists x, nth_error keys p = Some x /\ color x = c.

Lemma gather_ok : forall l a k out out0, l = seq a (n - a) -> a <= n -> k <= q ->
  placed (fun p => ofColour p /\ (p < k \/ exists x, nth_error keys p = Some x /\ x < a)) out ->
  untouched ofColour out0 out ->
  exists out', gather keys pos val color c k out l = Some out' /\ placed ofColour out' /\ untouched ofColour out0 out'.
Proof.
  induction l as [|j1 l IH]; intros a k out out0 EQ L K PL UN; cbn [gather].
  - assert (LEN := f_equal (@length nat) EQ). rewrite seq_length in LEN. cbn [length] in LEN. assert (a = n) by lia. subst a.
    exists out. split; [reflexivity|]. split; [|exact UN].
    intros p x k0 v0 H1 H2 H3 H4 H5. apply (PL p x k0 v0 H1 H2); try assumption. split; [exact H3|right; exists x; auto].
  - assert (LEN := f_equal (@length nat) EQ). rewrite seq_length in LEN. cbn [length] in LEN.
    replace (n - a) with (S (n - S a)) in EQ by lia. cbn [seq] in EQ. injection EQ as <- EQ.
    destruct (Nat.eqb_spec (color j1) c) as [C|C].
    + destruct (advance_ok keys n q j1 Q ltac:(lia) (S (length keys)) k K (fuel_pos _ _ _ _ Q K)) as [k1 [x [A1 [A2 [A3 [A4 A5]]]]]].
      rewrite A1.
      destruct (extract_ok j1 ltac:(lia) (S (length keys)) k1 out (fun p => ofColour p /\ (p < k \/ exists y, nth_error keys p = Some y /\ y < j1)) ofColour out0
                  ltac:(lia) (fuel_pos keys n q k1 Q ltac:(lia)) PL UN) as [k2 [out' [y [E1 [E2 [E3 [E4 [E5 [E6 E7]]]]]]]]].
      * intros p [_ [H|[z [H1 H2]]]]; [left; lia|right; rewrite H1; intros X; injection X as ->; lia].
      * intros p H. exists j1. auto.
      * rewrite E1. apply (IH (S j1)); try lia; try assumption.
        intros p z k0 v0 H1 H2 [H3 H4] H5 H6. apply (E6 p z k0 v0 H1 H2); try assumption.
        destruct (Nat.lt_ge_cases p k) as [G|G]; [left; split; [exact H3|left; exact G]|].
        destruct (Nat.lt_ge_cases p k1) as [G1|G1].
        { left. split; [exact H3|right]. exists z. split; [exact H1|exact (A5 p z G G1 H1)]. }
        destruct (Nat.lt_ge_cases p k2) as [G2|G2]; [right; lia|].
        exfalso. assert (y <= z) by exact (SK k2 p y z G2 E3 H1).
        assert (x <= y) by exact (SK k1 k2 x y ltac:(lia) A3 E3).
        destruct H4 as [H4|[z' [H4 H7]]]; [lia|]. rewrite H1 in H4. injection H4 as <-. lia.
    + apply (IH (S j1)); try lia; try assumption.
      intros p z k0 v0 H1 H2 [H3 H4] H5 H6. apply (PL p z k0 v0 H1 H2); try assumption. split; [exact H3|].
      destruct H4 as [H4|[z' [H4 H7]]]; [left; exact H4|]. right. exists z'. split; [exact H4|].
      destruct H3 as [z2 [H3 H8]]. assert (z2 = z') by congruence. assert (z' <> j1) by (intros ->; congruence). lia.
Qed.
End Gather.

(** ** Sums over the directions *)
Lemma dot_direction : forall (V : Type) (zero one : V) (add mul : V -> V -> V) n color c a j,
  (forall x, add zero x = x) -> (forall x, add x zero = x) -> (forall x, mul x one = x) -> (forall x, mul x zero = zero) ->
  j < n -> color j = c -> (forall j', j' < n -> j' <> j -> color j' = c -> a j' = zero) ->
  dot n zero add mul a (direction zero one color c) = a j.
Proof.
  intros V zero one add mul n color c a j A0 A1 M1 M0 L C U. unfold dot.
  assert (Z : forall l, (forall x, In x l -> x < n /\ x <> j) ->
            fold_right (fun j s => add (mul (a j) (direction zero one color c j)) s) zero l = zero).
  { induction l as [|x l IH]; intros I; cbn [fold_right]; [reflexivity|].
    rewrite IH by (intros; apply I; right; assumption). rewrite A1. unfold direction.
    destruct (I x (or_introl eq_refl)) as [I1 I2].
    destruct (Nat.eqb_spec (color x) c) as [E|E]; [|apply M0]. rewrite M1. apply U; assumption. }
  assert (G : forall l, NoDup l -> In j l -> (forall x, In x l -> x < n) ->
            fold_right (fun j s => add (mul (a j) (direction zero one color c j)) s) zero l = a j).
  { induction l as [|x l IH]; intros ND I B; [destruct I|]. inversion ND as [|y l' N1 N2]; subst. cbn [fold_right].
    destruct (Nat.eq_dec x j) as [->|N].
    - rewrite Z; [|intros x X; split; [apply B; right; exact X|intros ->; contradiction]].
      rewrite A1. unfold direction. rewrite Nat.eqb_refl. apply M1.
    - destruct I as [I|I]; [congruence|]. rewrite IH; [|assumption|exact I|intros; apply B; right; assumption].
      assert (X : mul (a x) (direction zero one color (color j) x) = zero).
      { unfold direction. destruct (Nat.eqb_spec (color x) (color j)) as [E|E]; [|apply M0]. rewrite M1.
        apply U; [apply B; left; reflexivity|exact N|exact E]. }
      rewrite X. apply A0. }
  apply G; [apply seq_NoDup|apply in_seq; lia|]. intros x X. apply in_seq in X. lia.
Qed.

(** ** The sorted requests *)
Lemma sorted_keys : forall l, StronglySorted le l -> sortedKeys l.
Proof.
  induction l as [|a l IH]; intros S p q x y L P Q.
  - destruct p; discriminate.
  - inversion S as [|b l' S1 S2]; subst. destruct p as [|p]; destruct q as [|q]; cbn [nth_error] in P, Q.
    + injection P as ->. injection Q as ->. lia.
    + injection P as ->. rewrite Forall_forall in S2. apply S2. exact (nth_error_In _ _ Q).
    + lia.
    + exact (IH S1 p q x y ltac:(lia) P Q).
Qed.

(** the contract of CppAD's index_sort(keys, ind): a permutation of the indexes with which the keys never decrease *)
Definition indexSort (keys : list nat) (d : nat) (ind : list nat) : Prop :=
  Permutation ind (seq 0 (length keys)) /\ StronglySorted le (map (fun p => nth p keys d) ind).

Lemma perm_pos_inj : forall (ind : list nat) N p p' k, Permutation ind (seq 0 N) ->
  nth_error ind p = Some k -> nth_error ind p' = Some k -> p = p'.
Proof.
  intros ind N p p' k P A B. apply (NoDup_nth_error ind).
  - apply (Permutation_NoDup (l := seq 0 N)); [apply Permutation_sym; exact P|apply seq_NoDup].
  - apply nth_error_Some. congruence.
  - congruence.
Qed.

Section Sweeps.
Context {V : Type}.
Variable zero one : V.
Variable add mul : V -> V -> V.
Hypothesis A0 : forall x, add zero x = x.
Hypothesis A1 : forall x, add x zero = x.
Hypothesis M1 : forall x, mul x one = x.
Hypothesis M0 : forall x, mul x zero = zero.
Variable n m : nat.
Variable jac_p hes_p : pattern.
Variable jreq hreq : list (nat * nat).
Hypothesis JIN : forall i j, In (i, j) jreq -> i < m /\ j < n /\ In j (jac_p i).
Hypothesis HIN : forall r c, In (r, c) hreq -> r < n /\ c < n /\ In c (hes_p r).
Variable J : nat -> nat -> V.
Hypothesis JZ : forall i j, i < m -> j < n -> ~ In j (jac_p i) -> J i j = zero.
Variable Hs : list (nat -> nat -> V).
Hypothesis HZ : forall H, In H Hs -> forall r c, r < n -> c < n -> ~ In c (hes_p r) -> H r c = zero.
Variable scol ksort : list nat.
Hypothesis JS : indexSort (userCol n jreq) n scol.
Hypothesis KS : indexSort (map fst hreq) n ksort.
Variable color : nat -> nat.
Hypothesis AP : apart jac_p hes_p jreq hreq color n.

Lemma scol_range : forall p k, nth_error scol p = Some k -> k <= length jreq.
Proof.
  intros p k E. destruct JS as [P _]. assert (I := Permutation_in _ P (nth_error_In _ _ E)).
  apply in_seq in I. unfold userCol in I. rewrite app_length, map_length in I. cbn [length] in I. lia.
Qed.

Lemma jkey_at : forall p x, nth_error (jkeys n jreq scol) p = Some x -> x < n ->
  exists k r, nth_error scol p = Some k /\ k < length jreq /\ nth_error jreq k = Some (r, x).
Proof.
  intros p x E L. unfold jkeys in E. rewrite nth_error_map in E. destruct (nth_error scol p) as [k|] eqn:S; [|discriminate].
  cbn [option_map] in E. injection E as E. exists k. assert (K := scol_range p k S). unfold userCol in E.
  destruct (Nat.lt_ge_cases k (length jreq)) as [G|G].
  - rewrite app_nth1 in E by (rewrite map_length; exact G).
    destruct (nth_error jreq k) as [[r c]|] eqn:R; [|apply nth_error_None in R; lia].
    exists r. split; [reflexivity|]. split; [exact G|]. rewrite (nth_error_nth (map snd jreq) k n (x := c)) in E.
    + congruence.
    + rewrite nth_error_map, R. reflexivity.
  - rewrite app_nth2 in E by (rewrite map_length; exact G). rewrite map_length in E. replace (k - length jreq) with 0 in E by lia.
    cbn [nth] in E. lia.
Qed.

Lemma jkey_of : forall k r x, nth_error jreq k = Some (r, x) ->
  exists p, nth_error scol p = Some k /\ nth_error (jkeys n jreq scol) p = Some x.
Proof.
  intros k r x E. assert (L : k < length jreq) by (apply nth_error_Some; congruence).
  destruct JS as [P _].
  assert (I : In k scol).
  { apply (Permutation_in _ (Permutation_sym P)). apply in_seq. unfold userCol. rewrite app_length, map_length. cbn [length]. lia. }
  apply In_nth_error in I. destruct I as [p I]. exists p. split; [exact I|].
  unfold jkeys. rewrite nth_error_map, I. cbn [option_map]. f_equal. unfold userCol.
  rewrite app_nth1 by (rewrite map_length; exact L). apply nth_error_nth. rewrite nth_error_map, E. reflexivity.
Qed.

Lemma jsentinel : exists q, nth_error (jkeys n jreq scol) q = Some n.
Proof.
  destruct JS as [P _].
  assert (I : In (length jreq) scol).
  { apply (Permutation_in _ (Permutation_sym P)). apply in_seq. unfold userCol. rewrite app_length, map_length. cbn [length]. lia. }
  apply In_nth_error in I. destruct I as [p I]. exists p.
  unfold jkeys. rewrite nth_error_map, I. cbn [option_map]. f_equal. unfold userCol.
  rewrite app_nth2 by (rewrite map_length; lia). rewrite map_length, Nat.sub_diag. reflexivity.
Qed.

Lemma jsorted : sortedKeys (jkeys n jreq scol).
Proof. apply sorted_keys. destruct JS as [_ S]. exact S. Qed.

Lemma hkey_at : forall p x, nth_error (hkeys n hreq ksort) p = Some x -> x < n ->
  exists k c, nth_error ksort p = Some k /\ k < length hreq /\ nth_error hreq k = Some (x, c) /\ nth_error (c_sort n hreq ksort) p = Some c.
Proof.
  intros p x E L. unfold hkeys in E.
  destruct (Nat.lt_ge_cases p (length ksort)) as [G|G].
  - rewrite nth_error_app1 in E by (rewrite map_length; exact G). rewrite nth_error_map in E.
    destruct (nth_error ksort p) as [k|] eqn:S; [|discriminate]. cbn [option_map] in E. injection E as E.
    destruct KS as [P _]. assert (I := Permutation_in _ P (nth_error_In _ _ S)). apply in_seq in I. rewrite map_length in I.
    destruct (nth_error hreq k) as [[r c]|] eqn:R; [|apply nth_error_None in R; lia].
    exists k, c. split; [reflexivity|]. split; [lia|].
    rewrite (nth_error_nth (map fst hreq) k n (x := r)) in E by (rewrite nth_error_map, R; reflexivity).
    split; [congruence|]. unfold c_sort. rewrite nth_error_map, S. cbn [option_map]. f_equal.
    apply nth_error_nth. rewrite nth_error_map, R. reflexivity.
  - rewrite nth_error_app2 in E by (rewrite map_length; exact G). rewrite map_length in E.
    destruct (p - length ksort) as [|[|?]]; cbn in E; [injection E as E; lia|discriminate|discriminate].
Qed.

Lemma hkey_of : forall k x c, nth_error hreq k = Some (x, c) ->
  exists p, nth_error ksort p = Some k /\ nth_error (hkeys n hreq ksort) p = Some x.
Proof.
  intros k x c E. assert (L : k < length hreq) by (apply nth_error_Some; congruence).
  destruct KS as [P _].
  assert (I : In k ksort).
  { apply (Permutation_in _ (Permutation_sym P)). apply in_seq. rewrite map_length. lia. }
  apply In_nth_error in I. destruct I as [p I]. exists p. split; [exact I|].
  assert (G : p < length ksort) by (apply nth_error_Some; congruence).
  unfold hkeys. rewrite nth_error_app1 by (rewrite map_length; exact G). rewrite nth_error_map, I. cbn [option_map]. f_equal.
  apply nth_error_nth. rewrite nth_error_map, E. reflexivity.
Qed.

Lemma hsentinel : exists q, nth_error (hkeys n hreq ksort) q = Some n.
Proof.
  exists (length ksort). unfold hkeys. rewrite nth_error_app2 by (rewrite map_length; lia). rewrite map_length, Nat.sub_diag. reflexivity.
Qed.

Lemma hsorted : sortedKeys (hkeys n hreq ksort).
Proof.
  destruct KS as [P S]. assert (T := sorted_keys _ S). unfold hkeys. intros p q x y L A B.
  destruct (Nat.lt_ge_cases q (length ksort)) as [G|G].
  - rewrite nth_error_app1 in A, B by (rewrite map_length; lia). exact (T p q x y L A B).
  - rewrite nth_error_app2 in B by (rewrite map_length; exact G). rewrite map_length in B.
    destruct (q - length ksort) as [|[|?]]; cbn in B; try discriminate. injection B as <-.
    destruct (Nat.lt_ge_cases p (length ksort)) as [G'|G'].
    + assert (NE : nth_error (hkeys n hreq ksort) p = Some x) by exact A.
      rewrite nth_error_app1 in A by (rewrite map_length; exact G'). rewrite nth_error_map in A.
      destruct (nth_error ksort p) as [k|] eqn:K; [|discriminate]. cbn [option_map] in A. injection A as A.
      assert (I := Permutation_in _ P (nth_error_In _ _ K)). apply in_seq in I. rewrite map_length in I.
      destruct (nth_error hreq k) as [[r c]|] eqn:R; [|apply nth_error_None in R; lia].
      rewrite (nth_error_nth (map fst hreq) k n (x := r)) in A by (rewrite nth_error_map, R; reflexivity).
      subst x. apply (Nat.lt_le_incl _ _ (proj1 (HIN r c (nth_error_In _ _ R)))).
    + rewrite nth_error_app2 in A by (rewrite map_length; exact G'). rewrite map_length in A.
      destruct (p - length ksort) as [|[|?]]; cbn in A; try discriminate. injection A as <-. lia.
Qed.

(** what one result vector must hold once the colours of [done] have been swept *)
Definition jdone (done : nat -> Prop) (jac : nat -> V) : Prop :=
  forall k r x, nth_error jreq k = Some (r, x) -> done (color x) -> jac k = J r x.
Definition hdone (done : nat -> Prop) (H : nat -> nat -> V) (h : nat -> V) : Prop :=
  forall k r x, nth_error hreq k = Some (r, x) -> done (color r) -> h k = H r x.

Definition jval (c : nat) : nat -> option V := fun k => match nth_error scol k with
  | Some p => match nth_error (userRow m jreq) p with Some i => Some (forward1 n zero add mul J (direction zero one color c) i) | None => None end
  | None => None end.

Lemma jgather : forall (done : nat -> Prop) c kJac jac q, nth_error (jkeys n jreq scol) q = Some n -> kJac <= q ->
  (forall p x, p < kJac -> nth_error (jkeys n jreq scol) p = Some x -> color x = c -> False) ->
  jdone done jac ->
  exists jac', gather (jkeys n jreq scol) scol (jval c) color c kJac jac (seq 0 n) = Some jac' /\ jdone (fun d => d = c \/ done d) jac'.
Proof.
  intros done c kJac jac q Q K NO D.
  assert (VAL : forall p x k r, nth_error scol p = Some k -> nth_error jreq k = Some (r, x) ->
            jval c p = Some (forward1 n zero add mul J (direction zero one color c) r)).
  { intros p x k r B R. assert (C : k < length jreq) by (apply nth_error_Some; congruence).
    unfold jval. rewrite B. unfold userRow. rewrite nth_error_app1 by (rewrite map_length; exact C).
    rewrite nth_error_map, R. reflexivity. }
  destruct (gather_ok (jkeys n jreq scol) scol n q (jval c)) with (color := color) (c := c) (l := seq 0 n) (a := 0) (k := kJac) (out := jac) (out0 := jac)
    as [jac' [G1 [G2 G3]]].
  - exact jsorted.
  - exact Q.
  - intros p x A L. destruct (jkey_at p x A L) as [k [r [B [C E]]]]. split; [exists k; exact B|]. eexists. exact (VAL p x k r B E).
  - intros p p' x x' k _ _ _ _ E1 E2. destruct JS as [P _]. exact (perm_pos_inj _ _ _ _ _ P E1 E2).
  - rewrite Nat.sub_0_r. reflexivity.
  - lia.
  - exact K.
  - intros p x k v B1 B2 [[y [B3 B4]] [B5|[z [_ B5]]]] _ _; [|lia]. exfalso. exact (NO p y B5 B3 B4).
  - intros k _. reflexivity.
  - exists jac'. split; [exact G1|]. intros k r x R [C|C].
    + destruct (jkey_of k r x R) as [p [P1 P2]]. destruct (JIN r x (nth_error_In _ _ R)) as [L1 [L2 L3]].
      rewrite (G2 p x k (forward1 n zero add mul J (direction zero one color c) r) P2 L2); [|exists x; split; assumption|exact P1|exact (VAL p x k r P1 R)].
      unfold forward1. apply dot_direction; try assumption.
      intros j' L' N' C'. apply JZ; try assumption.
      exact (proj1 (AP x j' L2 L' ltac:(congruence) ltac:(congruence)) r (nth_error_In _ _ R)).
    + destruct (Nat.eq_dec (color x) c) as [E|E].
      * destruct (jkey_of k r x R) as [p [P1 P2]]. destruct (JIN r x (nth_error_In _ _ R)) as [L1 [L2 L3]].
        rewrite (G2 p x k (forward1 n zero add mul J (direction zero one color c) r) P2 L2); [|exists x; split; assumption|exact P1|exact (VAL p x k r P1 R)].
        unfold forward1. apply dot_direction; try assumption.
        intros j' L' N' C'. apply JZ; try assumption.
        exact (proj1 (AP x j' L2 L' ltac:(congruence) ltac:(congruence)) r (nth_error_In _ _ R)).
      * rewrite (G3 k); [exact (D k r x R C)|].
        intros p y Y1 Y2 [z [Z1 Z2]] Y3. destruct (jkey_at p y Y1 Y2) as [k2 [r2 [B1 [B2 B3]]]].
        assert (k2 = k) by congruence. subst k2. rewrite R in B3. injection B3 as -> ->. congruence.
Qed.

Definition hval (H : nat -> nat -> V) (c : nat) : nat -> option V := fun k => match nth_error (c_sort n hreq ksort) k with
  | Some j2 => Some (reverse2 n zero add mul H (direction zero one color c) j2) | None => None end.

Lemma hgather : forall (done : nat -> Prop) H c kH h q, In H Hs -> nth_error (hkeys n hreq ksort) q = Some n -> kH <= q ->
  (forall p x, p < kH -> nth_error (hkeys n hreq ksort) p = Some x -> color x = c -> False) ->
  hdone done H h ->
  exists h', gather (hkeys n hreq ksort) ksort (hval H c) color c kH h (seq 0 n) = Some h' /\ hdone (fun d => d = c \/ done d) H h'.
Proof.
  intros done H c kH h q IH Q K NO D.
  assert (VAL : forall p x k r, nth_error ksort p = Some k -> nth_error hreq k = Some (r, x) ->
            hval H c p = Some (reverse2 n zero add mul H (direction zero one color c) x)).
  { intros p x k r B R. unfold hval, c_sort. rewrite nth_error_map, B. cbn [option_map].
    rewrite (nth_error_nth (map snd hreq) k n (x := x)) by (rewrite nth_error_map, R; reflexivity). reflexivity. }
  destruct (gather_ok (hkeys n hreq ksort) ksort n q (hval H c)) with (color := color) (c := c) (l := seq 0 n) (a := 0) (k := kH) (out := h) (out0 := h)
    as [h' [G1 [G2 G3]]].
  - exact hsorted.
  - exact Q.
  - intros p x A L. destruct (hkey_at p x A L) as [k [y [B [C [E F]]]]]. split; [exists k; exact B|].
    eexists. exact (VAL p y k x B E).
  - intros p p' x x' k _ _ _ _ E1 E2. destruct KS as [P _]. exact (perm_pos_inj _ _ _ _ _ P E1 E2).
  - rewrite Nat.sub_0_r. reflexivity.
  - lia.
  - exact K.
  - intros p x k v B1 B2 [[y [B3 B4]] [B5|[z [_ B5]]]] _ _; [|lia]. exfalso. exact (NO p y B5 B3 B4).
  - intros k _. reflexivity.
  - exists h'. split; [exact G1|].
    assert (NOW : forall k r x, nth_error hreq k = Some (r, x) -> color r = c -> h' k = H r x).
    { intros k r x R C. destruct (hkey_of k r x R) as [p [P1 P2]]. destruct (HIN r x (nth_error_In _ _ R)) as [L1 [L2 L3]].
      rewrite (G2 p r k (reverse2 n zero add mul H (direction zero one color c) x) P2 L1); [|exists r; split; assumption|exact P1|exact (VAL p x k r P1 R)].
      unfold reverse2. apply (dot_direction V zero one add mul n color c (fun j => H j x) r); try assumption.
      intros j' L' N' C'. apply (HZ H IH); try assumption.
      exact (proj2 (AP r j' L1 L' ltac:(congruence) ltac:(congruence)) x (nth_error_In _ _ R)). }
    intros k r x R [C|C]; [exact (NOW k r x R C)|].
    destruct (Nat.eq_dec (color r) c) as [E|E]; [exact (NOW k r x R E)|].
    rewrite (G3 k); [exact (D k r x R C)|].
    intros p y Y1 Y2 [z [Z1 Z2]] Y3. destruct (hkey_at p y Y1 Y2) as [k2 [r2 [B1 [B2 [B3 B4]]]]].
    assert (k2 = k) by congruence. subst k2. rewrite R in B3. injection B3 as -> ->. congruence.
Qed.

(** the results hold what the colours of [done] give *)
Definition alldone (done : nat -> Prop) (r : res) : Prop :=
  jdone done (r_jac r) /\ length (r_hes r) = length Hs /\
  forall i H h, nth_error Hs i = Some H -> nth_error (r_hes r) i = Some h -> hdone done H h.

Lemma omapH_ok : forall (done done' : nat -> Prop) f Ls hs, (forall H, In H Ls -> In H Hs) ->
  (forall H h, In H Hs -> hdone done H h -> exists h', f H h = Some h' /\ hdone done' H h') ->
  length hs = length Ls -> (forall i H h, nth_error Ls i = Some H -> nth_error hs i = Some h -> hdone done H h) ->
  exists hs', omapH f Ls hs = Some hs' /\ length hs' = length Ls /\
    forall i H h, nth_error Ls i = Some H -> nth_error hs' i = Some h -> hdone done' H h.
Proof.
  intros done done' f. induction Ls as [|H Ls IH]; intros hs SUB F LEN D; destruct hs as [|h hs]; try discriminate; cbn [omapH].
  - exists []. split; [reflexivity|]. split; [reflexivity|]. intros i H h A. destruct i; discriminate.
  - destruct (F H h) as [h' [F1 F2]]; [apply SUB; left; reflexivity|exact (D 0 H h eq_refl eq_refl)|].
    destruct (IH hs) as [hs' [I1 [I2 I3]]]; [intros; apply SUB; right; assumption|exact F|cbn [length] in LEN; lia|intros i; exact (D (S i))|].
    rewrite F1, I1. exists (h' :: hs'). split; [reflexivity|]. split; [cbn [length]; lia|].
    intros [|i] H0 h0 B1 B2; cbn [nth_error] in B1, B2; [|exact (I3 i H0 h0 B1 B2)]. injection B1 as <-. injection B2 as <-. exact F2.
Qed.

Lemma jdone_mono : forall (d d' : nat -> Prop) jac, jdone d jac ->
  (forall k r x, nth_error jreq k = Some (r, x) -> d' (color x) -> d (color x)) -> jdone d' jac.
Proof. intros d d' jac D M k r x R C. exact (D k r x R (M k r x R C)). Qed.
Lemma hdone_mono : forall (d d' : nat -> Prop) H h, hdone d H h ->
  (forall k r x, nth_error hreq k = Some (r, x) -> d' (color r) -> d (color r)) -> hdone d' H h.
Proof. intros d d' H h D M k r x R C. exact (D k r x R (M k r x R C)). Qed.

Lemma sweep_ok : forall (done : nat -> Prop) r c, alldone done r ->
  exists r', sweep n m jreq hreq zero one add mul J scol ksort Hs color r c = Some r' /\ alldone (fun d => d = c \/ done d) r' /\
             r_sweep r <= r_sweep r' <= r_sweep r + 2.
Proof.
  intros done r c [D1 [D2 D3]]. unfold sweep.
  destruct jsentinel as [qj QJ]. destruct hsentinel as [qh QH].
  destruct (search_ok (jkeys n jreq scol) n qj color c jsorted QJ (seq 0 n) 0 0) as [fj [kj [SJ [SJ1 [SJ2 SJ3]]]]];
    [rewrite Nat.sub_0_r; reflexivity|lia|lia|intros; lia|intros; lia|].
  destruct (search_ok (hkeys n hreq ksort) n qh color c hsorted QH (seq 0 n) 0 0) as [fh [kh [SH [SH1 [SH2 SH3]]]]];
    [rewrite Nat.sub_0_r; reflexivity|lia|lia|intros; lia|intros; lia|].
  rewrite SJ, SH.
  assert (NJ : fj = false -> jdone (fun d => d = c \/ done d) (r_jac r)).
  { intros E. apply (jdone_mono done _ _ D1). intros k r0 x R [C|C]; [|exact C]. exfalso.
    destruct (jkey_of k r0 x R) as [p [P1 P2]]. exact (SJ3 E p x P2 (proj1 (proj2 (JIN r0 x (nth_error_In _ _ R)))) C). }
  assert (NH : fh = false -> forall i H h, nth_error Hs i = Some H -> nth_error (r_hes r) i = Some h -> hdone (fun d => d = c \/ done d) H h).
  { intros E i H h H1 H2. apply (hdone_mono done _ _ _ (D3 i H h H1 H2)). intros k r0 x R [C|C]; [|exact C]. exfalso.
    destruct (hkey_of k r0 x R) as [p [P1 P2]]. exact (SH3 E p r0 P2 (proj1 (HIN r0 x (nth_error_In _ _ R))) C). }
  destruct (fj || fh) eqn:ANY.
  - assert (X : exists jac', (if fj then gather (jkeys n jreq scol) scol (jval c) color c kj (r_jac r) (seq 0 n) else Some (r_jac r)) = Some jac' /\
                 jdone (fun d => d = c \/ done d) jac').
    { destruct fj.
      - destruct (jgather done c kj (r_jac r) qj QJ SJ1 (SJ2 eq_refl) D1) as [jac' [G1 G2]]. exists jac'. auto.
      - exists (r_jac r). auto. }
    destruct X as [jac' [X1 X2]]. unfold jval in X1. cbv zeta. rewrite X1.
    destruct fh.
    + destruct (omapH_ok done (fun d => d = c \/ done d) (fun H h => gather (hkeys n hreq ksort) ksort (hval H c) color c kh h (seq 0 n)) Hs (r_hes r))
        as [hs' [O1 [O2 O3]]]; [auto| |exact D2|exact D3|].
      * intros H h I D. exact (hgather done H c kh h qh I QH SH1 (SH2 eq_refl) D).
      * unfold hval in O1. rewrite O1. eexists. split; [reflexivity|]. split; [split; [exact X2|split; assumption]|cbn [r_sweep]; lia].
    + eexists. split; [reflexivity|]. split; [split; [exact X2|split; [exact D2|exact (NH eq_refl)]]|cbn [r_sweep]; lia].
  - apply orb_false_iff in ANY. destruct ANY as [E1 E2]. exists r. split; [reflexivity|].
    split; [split; [exact (NJ E1)|split; [exact D2|exact (NH E2)]]|lia].
Qed.

Lemma sweeps_ok : forall l (done : nat -> Prop) r, alldone done r ->
  exists r', sweeps n m jreq hreq zero one add mul J scol ksort Hs color r l = Some r' /\ alldone (fun d => In d l \/ done d) r' /\
             r_sweep r' <= r_sweep r + 2 * length l.
Proof.
  induction l as [|c l IH]; intros done r D; cbn [sweeps].
  - exists r. split; [reflexivity|]. split; [|cbn [length]; lia]. destruct D as [D1 [D2 D3]]. split; [|split; [exact D2|]].
    + apply (jdone_mono done _ _ D1). intros k r0 x _ [[]|C]. exact C.
    + intros i H h H1 H2. apply (hdone_mono done _ _ _ (D3 i H h H1 H2)). intros k r0 x _ [[]|C]. exact C.
  - destruct (sweep_ok done r c D) as [r1 [S1 [S2 S3]]]. rewrite S1.
    destruct (IH _ r1 S2) as [r2 [T1 [T2 T3]]]. exists r2. split; [exact T1|]. split; [|cbn [length]; lia].
    destruct T2 as [D1 [D2 D3]]. split; [|split; [exact D2|]].
    + apply (jdone_mono _ _ _ D1). intros k r0 x _ [[C|C]|C]; auto.
    + intros i H h H1 H2. apply (hdone_mono _ _ _ _ (D3 i H h H1 H2)). intros k r0 x _ [[C|C]|C]; auto.
Qed.
End Sweeps.

(** ** C20: every requested element of the Jacobian and of each Hessian gets its exact value *)
Theorem C20_sparse_jacobian_and_hessians_are_exact :
  forall (V : Type) (zero one : V) (add mul : V -> V -> V) n m (jac_p hes_p : pattern) jreq hreq J Hs scol ksort garbage,
  (forall x, add zero x = x) -> (forall x, add x zero = x) -> (forall x, mul x one = x) -> (forall x, mul x zero = zero) ->
  (* the requested elements are in the patterns *)
  (forall i j, In (i, j) jreq -> i < m /\ j < n /\ In j (jac_p i)) ->
  (forall r c, In (r, c) hreq -> r < n /\ c < n /\ In c (hes_p r)) ->
  (* the patterns contain every nonzero *)
  (forall i j, i < m -> j < n -> ~ In j (jac_p i) -> J i j = zero) ->
  (forall H, In H Hs -> forall r c, r < n -> c < n -> ~ In c (hes_p r) -> H r c = zero) ->
  indexSort (map snd jreq ++ [n]) n scol -> indexSort (map fst hreq) n ksort ->
  exists r, forJacHessian n m jac_p hes_p jreq hreq zero one add mul J scol ksort garbage Hs = Some r /\
    (forall k i j, nth_error jreq k = Some (i, j) -> r_jac r k = J i j) /\
    length (r_hes r) = length Hs /\
    (forall h H v k i j, nth_error Hs h = Some H -> nth_error (r_hes r) h = Some v -> nth_error hreq k = Some (i, j) -> v k = H i j) /\
    r_sweep r <= 2 * Nat.max 1 n.
Proof.
  intros V zero one add mul n m jac_p hes_p jreq hreq J Hs scol ksort garbage A0 A1 M1 M0 JIN HIN JZ HZ JS KS.
  destruct (colours_ok n m jac_p hes_p jreq hreq JIN HIN garbage) as [color [C1 [C2 C3]]].
  unfold forJacHessian. rewrite C1.
  destruct (sweeps_ok zero one add mul A0 A1 M1 M0 n m jac_p hes_p jreq hreq JIN HIN J JZ Hs HZ scol ksort JS KS color C2
              (seq 0 (nColor n color)) (fun _ => False) (mkRes (fun _ => zero) (map (fun _ _ => zero) Hs) 0)) as [r [S1 [S2 S3]]].
  - split; [intros k r x _ []|]. split; [cbn [r_hes]; apply map_length|]. intros i H h _ _ k r x _ [].
  - exists r. split; [exact S1|]. destruct S2 as [D1 [D2 D3]]. split; [|split; [exact D2|split]].
    + intros k i j R. apply (D1 k i j R). left. apply in_seq. split; [lia|]. cbn [plus].
      apply nColor_bound. exact (proj1 (proj2 (JIN i j (nth_error_In _ _ R)))).
    + intros h H v k i j H1 H2 R. apply (D3 h H v H1 H2 k i j R). left. apply in_seq. split; [lia|]. cbn [plus].
      apply nColor_bound. exact (proj1 (HIN i j (nth_error_In _ _ R))).
    + rewrite seq_length in S3. cbn [r_sweep] in S3. assert (B := nColor_le n color C3). lia.
Qed.
Print Assumptions C20_sparse_jacobian_and_hessians_are_exact.

(** the colouring itself: it never runs out of colours, uses at most one per variable, and keeps columns apart that share a requested row *)
Theorem C20_colours_keep_conflicting_columns_apart :
  forall n m (jac_p hes_p : pattern) jreq hreq garbage,
  (forall i j, In (i, j) jreq -> i < m /\ j < n /\ In j (jac_p i)) ->
  (forall r c, In (r, c) hreq -> r < n /\ c < n /\ In c (hes_p r)) ->
  exists color, colours n m jac_p hes_p jreq hreq garbage = Some color /\ (forall j, color j <= j) /\
    forall j j', j < n -> j' < n -> j <> j' -> color j = color j' ->
      (forall i, In (i, j) jreq -> ~ In j' (jac_p i)) /\ (forall c, In (j, c) hreq -> ~ In c (hes_p j')).
Proof.
  intros n m jac_p hes_p jreq hreq garbage JIN HIN.
  destruct (colours_ok n m jac_p hes_p jreq hreq JIN HIN garbage) as [color [C1 [C2 C3]]].
  exists color. split; [exact C1|]. split; [exact C3|]. exact C2.
Qed.
Print Assumptions C20_colours_keep_conflicting_columns_apart.

(** a case: 2 equations of 3 variables; only the lower triangle of the Hessian and three of the Jacobian elements are requested *)
Definition exJp : pattern := fun i => nth i [[0; 1]; [1; 2]] [].
Definition exHp : pattern := fun i => nth i [[0; 1]; [0; 1]; [2]] [].
Definition exJ (i j : nat) : nat := nth j (nth i [[5; 7; 0]; [0; 11; 13]] []) 0.
Definition exH (i j : nat) : nat := nth j (nth i [[2; 3; 0]; [3; 17; 0]; [0; 0; 19]] []) 0.
Definition exJreq : list (nat * nat) := [(1, 2); (0, 1); (0, 0)].
Definition exHreq : list (nat * nat) := [(2, 2); (0, 0); (1, 0)].
Example C20_case :
  match forJacHessian 3 2 exJp exHp exJreq exHreq 0 1 Nat.add Nat.mul exJ [2; 1; 0; 3] [1; 2; 0] (fun _ => true) [exH] with
  | Some r => (map (r_jac r) [0; 1; 2], map (fun v => map v [0; 1; 2]) (r_hes r), r_sweep r) = ([13; 7; 5], [[19; 2; 3]], 4)
  | None => False
  end.
Proof. vm_compute. reflexivity. Qed.
Example C20_case_sorted : indexSort (map snd exJreq ++ [3]) 3 [2; 1; 0; 3] /\ indexSort (map fst exHreq) 3 [1; 2; 0].
Proof.
  split; split.
  - apply Permutation_sym. cbn. apply NoDup_Permutation; [apply (seq_NoDup 4 0)|repeat constructor; cbn; lia|]. intros x. cbn. lia.
  - cbn. repeat constructor; lia.
  - apply Permutation_sym. cbn. apply NoDup_Permutation; [apply (seq_NoDup 3 0)|repeat constructor; cbn; lia|]. intros x. cbn. lia.
  - cbn. repeat constructor; lia.
Qed.
Example C20_case_inside : (forall i j, In (i, j) exJreq -> i < 2 /\ j < 3 /\ In j (exJp i)) /\ (forall r c, In (r, c) exHreq -> r < 3 /\ c < 3 /\ In c (exHp r)).
Proof. split; intros i j H; cbn in H; repeat (destruct H as [H|H]; [inversion H; subst; cbn; lia|]); destruct H. Qed.

(** without the debug checks of CppAD, a requested element outside of the pattern may get the value of another element *)
Theorem C20_element_outside_the_pattern_refuted :
  exists n m (jac_p hes_p : pattern) jreq (J : nat -> nat -> nat) scol r k i j,
    (forall i j, i < m -> j < n -> ~ In j (jac_p i) -> J i j = 0) /\ indexSort (map snd jreq ++ [n]) n scol /\
    (forall i j, In (i, j) jreq -> i < m /\ j < n) /\
    forJacHessian n m jac_p hes_p jreq [] 0 1 Nat.add Nat.mul J scol [] (fun _ => false) [] = Some r /\
    nth_error jreq k = Some (i, j) /\ J i j = 0 /\ r_jac r k = 5.
Proof.
  set (J := fun i j : nat => match i, j with 0, 0 => 5 | _, _ => 0 end).
  exists 2, 1, (fun i => match i with 0 => [0] | _ => [] end), emptyP, [(0, 0); (0, 1)], J, [0; 1; 2].
  eexists. exists 1, 0, 1. split; [|split; [|split; [|split; [|split]]]].
  - intros [|i] [|j] A B N; cbn; try reflexivity. exfalso. apply N. left. reflexivity.
  - split; [apply Permutation_refl|]. cbn. repeat constructor; lia.
  - intros i j H. cbn in H. repeat (destruct H as [H|H]; [inversion H; subst; lia|]). destruct H.
  - vm_compute. reflexivity.
  - reflexivity.
  - split; reflexivity.
Qed.
Print Assumptions C20_element_outside_the_pattern_refuted.

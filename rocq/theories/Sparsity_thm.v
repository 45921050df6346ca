(** * Theorems about sparsity patterns (C18, C19, C38, C48) *)
From Coq Require Import List Arith Bool Lia Sorted.
From Verif Require Import Pool_model Pool_proofs Sparsity_model Sparsity_spec Sparsity_proofs Sparsity_lists.
Import ListNotations.
Local Open Scope nat_scope.

(** ** C18: products, sums and transposes *)

(** R += A * B, with and without assertions.  In builds with assertions [a] must
    have exactly [m] rows (see the refutation below). *)
Theorem C18_product dbg a b r m n q :
  sets a -> sets b -> sets r -> rows_cols a m n -> rows_cols b n q -> m <= List.length r ->
  (dbg = true -> List.length a = m) ->
  exists r', multMatrixMatrixSparsity dbg a b r m n q = XOk r' /\
    plus r (product (upto m a) (upto n b)) r'.
Proof. apply multMatrixMatrixSparsity_ok. Qed.
Print Assumptions C18_product.

(** R += A^T * B. *)
Theorem C18_product_with_transpose dbg a b r m n q :
  sets a -> sets b -> sets r -> rows_cols a m n -> rows_cols b m q -> List.length r = n ->
  (dbg = true -> List.length b = m) ->
  exists r', multMatrixTransMatrixSparsity dbg a b r m n q = XOk r' /\
    plus r (product (transposed (upto m a)) (upto m b)) r'.
Proof. apply multMatrixTransMatrixSparsity_ok. Qed.
Print Assumptions C18_product_with_transpose.

(** (R += A * B)^T from A^T. *)
Theorem C18_transpose_of_product dbg aT b rT m n q :
  sets aT -> sets b -> sets rT -> rows_cols aT m q -> rows_cols b m n -> List.length rT = n ->
  exists r', multMatrixMatrixSparsityTrans dbg aT b rT m n q = XOk r' /\
    plus rT (transposed (product (transposed (upto m aT)) (upto m b))) r'.
Proof. apply multMatrixMatrixSparsityTrans_ok. Qed.
Print Assumptions C18_transpose_of_product.

(** R += A. *)
Theorem C18_sum dbg a m r :
  sets a -> sets r -> m <= List.length r -> m <= List.length a -> (dbg = true -> List.length a = m) ->
  exists r', addMatrixSparsity dbg a m r = XOk r' /\ plus r (upto m a) r'.
Proof. intros Sa Sr H1 H2 H3. apply (addMatrixSparsity_ok dbg (List.length r) a m H1 H2 H3 Sa r eq_refl Sr). Qed.
Print Assumptions C18_sum.

(** R += A^T. *)
Theorem C18_sum_with_transpose dbg a m r :
  sets r -> rows_cols a m (List.length r) ->
  exists r', addTransMatrixSparsity dbg a m r = XOk r' /\ plus r (transposed (upto m a)) r'.
Proof. intros Sr H. apply (addTransMatrixSparsity_ok dbg (List.length r) a m H r eq_refl Sr). Qed.
Print Assumptions C18_sum_with_transpose.

(** The versions without sizes use all rows of the first and of the second matrix. *)
Theorem C18_whole_matrices dbg a b r q :
  sets a -> sets r ->
  (sets b -> rows_cols a (List.length a) (List.length b) -> rows_cols b (List.length b) q -> List.length a <= List.length r ->
   exists r', multMatrixMatrixSparsityAll dbg a b r q = XOk r' /\ plus r (product (entry a) (entry b)) r') /\
  (List.length a <= List.length r -> (dbg = true -> List.length r = List.length a) -> exists r', addMatrixSparsityAll dbg a r = XOk r' /\ plus r (entry a) r') /\
  (rows_cols a (List.length a) (List.length r) -> exists r', addTransMatrixSparsityAll dbg a r = XOk r' /\ plus r (transposed (entry a)) r').
Proof.
  intros Sa Sr.
  assert (U : forall c i j, upto (List.length c) c i j <-> entry c i j) by (intros c i j; unfold upto; split; [tauto|intros H; split; [apply entry_lt in H; exact H|exact H]]).
  split; [|split].
  - intros Sb Ha Hb L. destruct (C18_product dbg a b r _ _ q Sa Sb Sr Ha Hb L (fun _ => eq_refl)) as (r' & E & P). exists r'. split; [exact E|].
    unfold plus, product in *. setoid_rewrite U in P. exact P.
  - intros L D. destruct (C18_sum dbg a (List.length a) r Sa Sr L (le_n _) (fun _ => eq_refl)) as (r' & E & P). exists r'.
    split; [unfold addMatrixSparsityAll; destruct dbg; cbn [xassert]; [rewrite (D eq_refl), Nat.eqb_refl|]; exact E|].
    unfold plus in *. setoid_rewrite U in P. exact P.
  - intros Ha. destruct (C18_sum_with_transpose dbg a (List.length a) r Sr Ha) as (r' & E & P). exists r'. split; [exact E|].
    unfold plus, transposed in *. setoid_rewrite U in P. exact P.
Qed.
Print Assumptions C18_whole_matrices.
Example C18_whole_matrices_case :
  multMatrixMatrixSparsityAll true [[0; 2]] [[1]; [0]; [0]] [[]] 2 = XOk [[0; 1]] /\ addTransMatrixSparsityAll true [[0; 2]] [[]; [0]; []] = XOk [[0]; [0]; [0]].
Proof. split; reflexivity. Qed.

(** A^T; transposing twice gives the pattern back. *)
Theorem C18_transpose dbg a m n : sets a -> List.length a = m -> rows_cols a m n ->
  exists t, transposePattern dbg a m n = XOk t /\ List.length t = n /\ sets t /\
    (forall i j, entry t i j <-> entry a j i) /\
    transposePattern dbg t n m = XOk a.
Proof.
  intros Sa La H. destruct (transposePattern_ok dbg a m n H) as [t [E [L [S Ht]]]].
  assert (Ht' : forall i j, entry t i j <-> entry a j i).
  { intros i j. rewrite Ht. split; [tauto|]. intros He. split; [apply entry_lt in He; lia|assumption]. }
  exists t. split; [assumption|]. split; [assumption|]. split; [assumption|]. split; [assumption|].
  destruct (transposePattern_ok dbg t n m) as [u [E2 [L2 [S2 H2]]]].
  { split; [lia|]. intros i j Hi He. apply Ht in He. apply He. }
  rewrite E2. f_equal. apply pat_ext; [lia|assumption|assumption|]. intros i j. rewrite H2, Ht'. split; [tauto|].
  intros He. split; [|assumption]. apply (proj2 H i j); [apply entry_lt in He; lia|assumption].
Qed.
Print Assumptions C18_transpose.

(** The hypotheses hold for patterns which are not square, and the results of the
    three products are not trivial. *)
Example C18_case :
  let a := [[0; 2]; []; [1]] in let b := [[1]; []; [0; 1]] in
  rows_cols a 3 3 /\ rows_cols b 3 2 /\ sets a /\ sets b /\
  multMatrixMatrixSparsity true a b [[]; [0]; []] 3 3 2 = XOk [[0; 1]; [0]; []] /\
  multMatrixTransMatrixSparsity true a b [[]; []; []] 3 3 2 = XOk [[1]; [0; 1]; [1]] /\
  multMatrixMatrixSparsityTrans true a b [[]; []] 3 2 3 = XOk [[1]; [0; 1; 2]] /\
  multMatrixMatrixSparsity true a [[0]; [1]; [2]] [[1]; []; []] 3 3 3 = XOk [[0; 1; 2]; []; [1]].
Proof.
  assert (F : forall p m n, forallb (forallb (fun j => j <? n)) p = true -> m <= List.length p -> rows_cols p m n).
  { intros p m n H Hm. split; [assumption|]. intros i j _ [s [E Hj]]. rewrite forallb_forall in H.
    specialize (H s (nth_error_In _ _ E)). rewrite forallb_forall in H. apply Nat.ltb_lt, H, Hj. }
  assert (G : forall s, isset s -> isset s) by auto.
  split; [apply F; [reflexivity|cbn; lia]|]. split; [apply F; [reflexivity|cbn; lia]|].
  split; [unfold sets, isset; repeat (constructor; try lia)|]. split; [unfold sets, isset; repeat (constructor; try lia)|].
  split; [reflexivity|]. split; [reflexivity|]. split; reflexivity.
Qed.

(** The sum asserts the opposite of the size it needs: a product whose documented
    requirements hold (at least [m] rows) stops at an assertion, but only when
    the right factor is the identity... *)
Theorem C18_assertion_refuted :
  exists a b r m n q,
    sets a /\ sets b /\ sets r /\ rows_cols a m n /\ rows_cols b n q /\ m <= List.length r /\
    multMatrixMatrixSparsity true a b r m n q = XAssert /\
    multMatrixMatrixSparsity false a b r m n q <> XAssert /\
    multMatrixMatrixSparsity true a [[]] r m n q = XOk r.
Proof.
  exists [[0]; [0]], [[0]], [[]], 1, 1, 1.
  assert (S1 : isset [0]) by (repeat constructor). assert (S0 : isset []) by constructor.
  split; [repeat (constructor; try assumption)|]. split; [repeat (constructor; try assumption)|]. split; [repeat (constructor; try assumption)|].
  split; [split; [cbn; lia|]; intros i j Hi [s [E Hj]]; destruct i; [injection E as <-; destruct Hj as [<-|[]]; lia|lia]|].
  split; [split; [cbn; lia|]; intros i j Hi [s [E Hj]]; destruct i; [injection E as <-; destruct Hj as [<-|[]]; lia|lia]|].
  split; [cbn; lia|]. split; [reflexivity|]. split; [discriminate|reflexivity].
Qed.
Print Assumptions C18_assertion_refuted.

(** ...and it accepts a matrix with too few rows and reads outside it. *)
Theorem C18_sum_accepts_too_few_rows_refuted :
  exists a m r, sets a /\ sets r /\ m <= List.length r /\ addMatrixSparsity true a m r = XRange.
Proof.
  exists [], 1, [[]]. split; [constructor|]. split; [repeat constructor|]. split; [cbn; lia|reflexivity].
Qed.
Print Assumptions C18_sum_accepts_too_few_rows_refuted.

(** ** C19: lists of positions *)

(** Whatever the vectors contained before, they list every element once, row by
    row with increasing columns. *)
Theorem C19_indexes_of_sets p row col : sets p ->
  exists row' col', generateIndexesSet p row col = XOk (row', col') /\ enumerates (entry p) row' col'.
Proof. apply set_indexes. Qed.
Print Assumptions C19_indexes_of_sets.

Theorem C19_indexes_of_dense dbg sp m n row col : List.length sp = m * n ->
  exists row' col', generateIndexesBool dbg sp m n row col = XOk (row', col') /\ enumerates (dense sp m n) row' col'.
Proof. apply bool_indexes. Qed.
Print Assumptions C19_indexes_of_dense.

(** The positions determine the lists: both versions give the same lists for the
    same elements. *)
Theorem C19_order_is_unique R row col row' col' :
  enumerates R row col -> enumerates R row' col' -> row = row' /\ col = col'.
Proof.
  intros [L1 [S1 H1]] [L2 [S2 H2]].
  assert (E : combine row col = combine row' col').
  { assert (H : forall x, In x (combine row col) <-> In x (combine row' col')) by (intros [i j]; rewrite H1, H2; reflexivity).
    clear L1 L2 H1 H2. revert S1 S2 H. generalize (combine row col) (combine row' col'). clear.
    induction l as [|x l IH]; intros [|y l'] A B H.
    - reflexivity.
    - exfalso. apply (proj2 (H y)). left. reflexivity.
    - exfalso. apply (proj1 (H x)). left. reflexivity.
    - inversion A as [|? ? A1 A2]; inversion B as [|? ? B1 B2]; subst. rewrite Forall_forall in A2, B2.
      assert (Irr : forall z, ~ before z z) by (intros z [C|[_ C]]; lia).
      assert (Asy : forall z w, before z w -> before w z -> False) by (intros z w; unfold before; lia).
      assert (x = y).
      { destruct (proj1 (H x) (or_introl eq_refl)) as [->|Hx]; [reflexivity|]. destruct (proj2 (H y) (or_introl eq_refl)) as [->|Hy]; [reflexivity|].
        exfalso. apply (Asy x y); auto. }
      subst y. f_equal. apply IH; [assumption|assumption|]. intros z. split; intros Hz.
      + destruct (proj1 (H z) (or_intror Hz)) as [<-|?]; [|assumption]. destruct (Irr x (A2 x Hz)).
      + destruct (proj2 (H z) (or_intror Hz)) as [<-|?]; [|assumption]. destruct (Irr x (B2 x Hz)). }
  assert (U : forall a b : list nat, List.length a = List.length b -> a = map fst (combine a b) /\ b = map snd (combine a b)).
  { induction a as [|x a IH]; intros [|y b] H; try discriminate; [auto|]. cbn. injection H as H. destruct (IH b H) as [<- <-]. auto. }
  destruct (U row col L1) as [A1 A2]. destruct (U row' col' L2) as [B1 B2].
  split; [rewrite A1, B1, E|rewrite A2, B2, E]; reflexivity.
Qed.
Print Assumptions C19_order_is_unique.

(** Rebuilding the pattern from its lists. *)
Theorem C19_round_trip dbg p row col row' col' : sets p ->
  generateIndexesSet p row col = XOk (row', col') ->
  generateSet dbg row' col' (repeat [] (List.length p)) = XOk p.
Proof. apply round_trip. Qed.
Print Assumptions C19_round_trip.

(** Any lists, with repetitions and in any order, add exactly their positions. *)
Theorem C19_set_of_lists dbg row col p : List.length row = List.length col -> sets p ->
  (forall i, In i row -> i < List.length p) ->
  exists p', generateSet dbg row col p = XOk p' /\ plus p (fun i j => In (i, j) (combine row col)) p'.
Proof. apply generateSet_ok. Qed.
Print Assumptions C19_set_of_lists.

(** Forward mode is chosen exactly when there are at most as many different
    columns as different rows. *)
Theorem C19_mode rows cols :
  estimateForward rows cols = true <->
  List.length (nodup Nat.eq_dec cols) <= List.length (nodup Nat.eq_dec rows).
Proof.
  assert (H : forall l, List.length (sinsAll l []) = List.length (nodup Nat.eq_dec l)).
  { intros l. assert (A : isset (sinsAll l [])) by (apply sinsAll_isset; constructor).
    assert (B : NoDup (sinsAll l [])).
    { revert A. generalize (sinsAll l []). clear. intros l; induction l as [|x l IH]; intros A; [constructor|]. inversion A as [|? ? A1 A2]; subst.
      constructor; [|apply IH, A1]. intros C. rewrite Forall_forall in A2. specialize (A2 x C). lia. }
    apply Nat.le_antisymm; apply NoDup_incl_length; try assumption; try apply NoDup_nodup.
    - intros x Hx. apply nodup_In. apply sinsAll_In in Hx. destruct Hx as [?|[]]. assumption.
    - intros x Hx. apply nodup_In in Hx. apply sinsAll_In. left. assumption. }
  unfold estimateForward. rewrite !H. apply Nat.leb_le.
Qed.
Print Assumptions C19_mode.

Example C19_case :
  generateIndexesSet [[1; 3]; []; [0]] [7; 7; 7; 7; 7] [] = XOk ([0; 0; 2], [1; 3; 0]) /\
  generateIndexesBool true [true; false; true; false; false; true] 2 3 [] [9] = XOk ([0; 0; 1], [0; 2; 2]) /\
  generateSet true [0; 0; 2] [1; 3; 0] [[]; []; []] = XOk [[1; 3]; []; [0]].
Proof. split; [reflexivity|]. split; reflexivity. Qed.

(** ** C38: custom elements *)

Theorem C38_filter_by_indexes dbg m n rows cols p :
  List.length rows = List.length cols -> (forall i j, In (i, j) (combine rows cols) -> i < m /\ j < n) ->
  List.length p <= m -> sets p -> (forall i j, entry p i j -> j < n) ->
  exists c p', positionOfIndexes dbg m n rows cols = XOk c /\ filterPattern c p = XOk p' /\
    List.length p' = List.length p /\ sets p' /\
    (forall i j, entry p' i j <-> entry p i j /\ In (i, j) (combine rows cols)) /\
    exists c', setFullElements c p = XOk c' /\ full c' = Some p'.
Proof.
  intros H1 H2 H3 H4 H5. destruct (positionOfIndexes_ok dbg m n rows cols H1 H2) as [f [E [G F]]].
  destruct (filter_ok f m n None p G H3 H4 H5) as [p' [E2 [L [S P]]]]. exists (mkPos (Some f) None), p'.
  split; [assumption|]. split; [assumption|]. split; [assumption|]. split; [assumption|]. split.
  - intros i j. rewrite P, F. reflexivity.
  - unfold setFullElements. rewrite E2. cbn [xbind]. eexists. split; reflexivity.
Qed.
Print Assumptions C38_filter_by_indexes.

Theorem C38_filter_by_pattern dbg m n els p :
  List.length els <= m -> (forall i j, entry els i j -> j < n) ->
  List.length p <= m -> sets p -> (forall i j, entry p i j -> j < n) ->
  exists c p', positionOfPattern dbg m n els = XOk c /\ filterPattern c p = XOk p' /\
    List.length p' = List.length p /\ sets p' /\
    (forall i j, entry p' i j <-> entry p i j /\ entry els i j) /\
    exists c', setFullElements c p = XOk c' /\ full c' = Some p'.
Proof.
  intros H1 H2 H3 H4 H5. destruct (positionOfPattern_ok dbg m n els H1 H2) as [f [E [G F]]].
  destruct (filter_ok f m n None p G H3 H4 H5) as [p' [E2 [L [S P]]]]. exists (mkPos (Some f) None), p'.
  split; [assumption|]. split; [assumption|]. split; [assumption|]. split; [assumption|]. split.
  - intros i j. rewrite P, F. reflexivity.
  - unfold setFullElements. rewrite E2. cbn [xbind]. eexists. split; reflexivity.
Qed.
Print Assumptions C38_filter_by_pattern.

(** Without custom elements everything is kept. *)
Theorem C38_no_filter p : filterPattern noPosition p = XOk p /\
  exists c, setFullElements noPosition p = XOk c /\ full c = Some p /\ filterPattern c p = XOk p.
Proof. split; [reflexivity|]. eexists. split; [reflexivity|]. split; reflexivity. Qed.
Print Assumptions C38_no_filter.

(** Storing all elements filters them and keeps the filter for what is filtered later. *)
Theorem C38_filter_is_kept c els c' : setFullElements c els = XOk c' ->
  (forall p, filterPattern c' p = filterPattern c p) /\ exists kept, filterPattern c els = XOk kept /\ full c' = Some kept.
Proof.
  unfold setFullElements. destruct (filterPattern c els) as [kept| |] eqn:E; cbn [xbind]; try discriminate. intros [= <-].
  split; [reflexivity|]. exists kept. auto.
Qed.
Print Assumptions C38_filter_is_kept.

Example C38_case :
  exists c, positionOfIndexes true 3 3 [2; 0; 0] [1; 0; 2] = XOk c /\
    filterPattern c [[0; 1]; [2]; [0; 1; 2]] = XOk [[0]; []; [1]].
Proof. eexists. split; [reflexivity|]. reflexivity. Qed.

(** Positions outside the matrix are not rejected: the constructor writes outside
    its table. *)
Theorem C38_outside_positions_refuted :
  exists m n rows cols, List.length rows = List.length cols /\ positionOfIndexes true m n rows cols = XRange.
Proof. exists 1, 1, [1], [0]. split; reflexivity. Qed.
Print Assumptions C38_outside_positions_refuted.

(** ** C48: sparsity answers of atomic functions *)

(** S = f' R, for the atomic function of a compiled model and for the bridge to a
    tape, whatever the output contained. *)
Theorem C48_forward dbg jac r s m n q :
  shape jac m n -> shape r n q -> List.length s = m -> sets s ->
  exists s', genericForSparseJac dbg jac m n q r s = XOk s' /\
    bridgeForSparseJac dbg jac m n q r s = XOk s' /\ List.length s' = m /\
    forall i j, entry s' i j <-> exists k, entry jac i k /\ entry r k j.
Proof.
  intros H1 H2 H3 H4. destruct (forward_ok dbg jac r s m n q H1 H2 H3 H4) as [s' [E [L [_ P]]]]. exists s'.
  split; [assumption|]. split; [rewrite bridge_forward_eq; assumption|]. split; assumption.
Qed.
Print Assumptions C48_forward.

(** S^T = f'^T R^T; both implementations agree. *)
Theorem C48_reverse dbg jac rT sT m n q :
  shape jac m n -> shape rT m q -> List.length sT = n -> sets sT ->
  exists s', genericRevSparseJac dbg jac m n q rT sT = XOk s' /\
    bridgeRevSparseJac dbg jac m n q rT sT = XOk s' /\ List.length s' = n /\
    forall i j, entry s' i j <-> exists k, entry jac k i /\ entry rT k j.
Proof.
  intros H1 H2 H3 H4. destruct (reverse_ok dbg jac rT sT m n q H1 H2 H3 H4) as [s' [E [L [S P]]]].
  destruct (bridge_reverse_ok dbg jac rT sT m n q H1 H2 H3 H4) as [s2 [E2 [L2 [S2 P2]]]].
  exists s'. split; [assumption|]. split; [|split; assumption]. rewrite E2. f_equal. apply pat_ext; [lia|assumption|assumption|].
  intros i j. rewrite P, P2. reflexivity.
Qed.
Print Assumptions C48_reverse.

(** V = f'^T U + (sum of the selected Hessians) R and T = S f', where the
    positions set in T before the call stay set. *)
Theorem C48_hessian dbg jac hessAll hess m n s t q r u v :
  shape jac m n -> shape hessAll n n -> (forall i, i < m -> shape (hess i) n n) ->
  (forall i k, entry hessAll i k <-> exists d, d < m /\ entry (hess d) i k) ->
  List.length s = m -> List.length t = n -> shape r n q -> shape u m q -> List.length v = n -> sets v ->
  exists t' v', genericRevSparseHes dbg jac hessAll hess m n s t q r u v = XOk (t', v') /\
    List.length t' = n /\ List.length v' = n /\
    (forall j, chosen t' j <-> chosen t j \/ exists i, chosen s i /\ entry jac i j) /\
    (forall i j, entry v' i j <->
       (exists k, entry jac k i /\ entry u k j) \/
       (exists k d, chosen s d /\ entry (hess d) i k /\ entry r k j)).
Proof.
  intros H1 H2 H3 HA H4 H5 H6 H7 H8 H9.
  destruct (hessian_ok dbg jac hessAll hess m n s t q r u v H1 H2 H3 H4 H5 H6 H7 H8 H9) as [t' [v' [E [L1 [L2 [S [T V]]]]]]].
  exists t', v'. split; [assumption|]. split; [assumption|]. split; [assumption|]. split; [assumption|].
  assert (B : forall d, chosen s d -> d < m) by (intros d Hd; rewrite <- H4; unfold chosen in Hd; apply nth_error_Some; congruence).
  intros i j. rewrite V. apply or_iff_compat_l. split.
  - intros [k [[[C1 C2]|[_ [d [C1 C2]]]] C3]].
    + apply HA in C2. destruct C2 as [d [D1 D2]]. exists k, d. auto.
    + exists k, d. auto.
  - intros [k [d [C1 [C2 C3]]]]. exists k. split; [|assumption].
    assert (Dec : forall l, (forall x, In x l -> chosen s x) \/ (exists x, In x l /\ ~ chosen s x)).
    { induction l as [|x l IHl]; [left; intros x []|]. destruct IHl as [I|[y [Y1 Y2]]]; [|right; exists y; split; [right; assumption|assumption]].
      destruct (nth_error s x) as [[|]|] eqn:Ex.
      - left. intros y [<-|Hy]; [assumption|apply I, Hy].
      - right. exists x. split; [left; reflexivity|]. unfold chosen. congruence.
      - right. exists x. split; [left; reflexivity|]. unfold chosen. congruence. }
    destruct (Dec (seq 0 m)) as [I|[x [X1 X2]]].
    + left. split; [intros x Hx; apply I, in_seq0, Hx|]. apply HA. exists d. auto.
    + right. apply in_seq0 in X1. split; [exists x; auto|]. exists d. auto.
Qed.
Print Assumptions C48_hessian.

(** The bridge multiplies by the transposes of the Hessian patterns and gives the
    same answer for symmetric patterns. *)
Theorem C48_hessian_bridge dbg jac hessAll hess m n s t q r u v :
  shape jac m n -> shape hessAll n n -> (forall i, i < m -> shape (hess i) n n) ->
  (forall i k, entry hessAll i k -> entry hessAll k i) ->
  (forall d i k, d < m -> entry (hess d) i k -> entry (hess d) k i) ->
  List.length s = m -> List.length t = n -> shape r n q -> shape u m q -> List.length v = n -> sets v ->
  exists t' v', genericRevSparseHes dbg jac hessAll hess m n s t q r u v = XOk (t', v') /\
    bridgeRevSparseHes dbg jac hessAll hess m n s t q r u v = XOk (t', v').
Proof.
  intros H1 H2 H3 SA SH H4 H5 H6 H7 H8 H9.
  destruct (hessian_ok dbg jac hessAll hess m n s t q r u v H1 H2 H3 H4 H5 H6 H7 H8 H9) as [t1 [v1 [E [L1 [L2 [S [T V]]]]]]].
  destruct (bridge_hessian_ok dbg jac hessAll hess m n s t q r u v H1 H2 H3 H4 H5 H6 H7 H8 H9) as [t2 [v2 [E' [L1' [L2' [S' [T' V']]]]]]].
  exists t1, v1. split; [assumption|]. rewrite E'. f_equal. f_equal.
  - apply nth_ext_local. intros i. destruct (Nat.lt_ge_cases i n) as [Hi|Hi].
    + destruct (row_some t1 i) as [x [X _]]; [lia|]. destruct (row_some t2 i) as [y [Y _]]; [lia|]. rewrite X, Y.
      assert (C : chosen t1 i <-> chosen t2 i) by (rewrite T, T'; reflexivity). unfold chosen in C. rewrite X, Y in C.
      destruct x, y; try reflexivity; [destruct (proj1 C eq_refl); reflexivity|].
      assert (D := proj2 C eq_refl). discriminate.
    + rewrite (proj2 (nth_error_None t2 i)) by lia. symmetry. apply nth_error_None. lia.
  - apply pat_ext; [lia|assumption|assumption|]. intros i j. rewrite V, V'. apply or_iff_compat_l.
    assert (B : forall d, chosen s d -> d < m) by (intros d Hd; rewrite <- H4; unfold chosen in Hd; apply nth_error_Some; congruence).
    split; intros [k [[[C1 C2]|[C1 [d [C2 C3]]]] C4]]; exists k; (split; [|assumption]);
      [left; auto|right; split; [assumption|]; exists d; auto|left; auto|right; split; [assumption|]; exists d; auto].
Qed.
Print Assumptions C48_hessian_bridge.

Example C48_case :
  genericForSparseJac true [[0; 1]; [1]] 2 2 2 [[1]; [0]] [[0; 1]; [1]] = XOk [[0; 1]; [0]] /\
  genericRevSparseHes true [[0; 1]; [1]] [[1]; [0; 1]] (fun i => match i with 0 => [[1]; [0]] | _ => [[]; [1]] end) 2 2
    [false; true] [false; false] 2 [[0]; [1]] [[]; [1]] [[0]; [0]] = XOk ([false; true], [[]; [1]]).
Proof. split; reflexivity. Qed.

(** T is an output whose previous content should not matter, but positions which
    were set are never cleared. *)
Theorem C48_output_not_cleared_refuted :
  exists jac hessAll hess m n s t q r u v t' v',
    shape jac m n /\ shape r n q /\ shape u m q /\ List.length t = n /\
    genericRevSparseHes true jac hessAll hess m n s t q r u v = XOk (t', v') /\
    exists j, chosen t' j /\ ~ (exists i, chosen s i /\ entry jac i j).
Proof.
  exists [[]], [[]], (fun _ => [[]]), 1, 1, [true], [true], 0, [[]], [[]], [[]], [true], [[]].
  assert (Sh : forall q, shape [[]] 1 q).
  { intros q. split; [reflexivity|]. split; [repeat constructor|]. intros i j [s [E Hj]].
    destruct i as [|[|i]]; [injection E as <-; destruct Hj|discriminate|discriminate]. }
  split; [apply Sh|]. split; [apply Sh|]. split; [apply Sh|]. split; [reflexivity|]. split; [reflexivity|].
  exists 0. split; [reflexivity|]. intros [i [_ [s [E Hj]]]].
  destruct i as [|[|i]]; [injection E as <-; destruct Hj|discriminate|discriminate].
Qed.
Print Assumptions C48_output_not_cleared_refuted.

(** * C57: reported sparsity patterns and the layouts of sparse results *)
From Coq Require Import List Arith Bool Lia Sorted ZArith.
From Verif Require Import Pool_model Sparsity_model Sparsity_spec Sparsity_proofs Sparsity_lists
  Report_model Report_spec Report_proofs Report_eval Report_calls.
Import ListNotations.
Local Open Scope nat_scope.

Lemma first_in f i j : sound f -> first f i j -> i < rM f /\ j < rN f.
Proof. intros [S _] [Hi I]. split; [exact Hi|]. apply (S i Hi), I. Qed.
Lemma second_in f i j k : sound f -> i < rM f -> second f i j k -> j < rN f /\ k < rN f.
Proof. intros [S1 S2] Hi I. destruct (S2 i j Hi) as [_ B]. destruct (B k I) as [A J]. split; [|exact A]. apply (S1 i Hi), J. Qed.

(** The Jacobian: all elements row by row, or the requested ones in the order of the request; the three forms agree. *)
Theorem C57_jacobian_pattern {V} f custom (g : @loaded V) : sound f ->
  match custom with Some (rows, cols) => inside (rM f) (rN f) rows cols | None => True end ->
  gReady g = true -> gN g = rN f -> gM g = rM f ->
  exists s, determineJacobian f custom noInfo = XOk s /\
    (gJacSp g = Some (sparsity2D s) ->
     match custom with
     | Some (rows, cols) => JacobianSparsity g = XOk (rows, cols)
     | None => exists rows cols, JacobianSparsity g = XOk (rows, cols) /\ enumerates (first f) rows cols
     end /\
     describes (match custom with Some (rows, cols) => listed rows cols | None => first f end) (rM f) (rN f)
       (JacobianSparsity g) (JacobianSparsitySet g) (JacobianSparsityBool g)).
Proof.
  intros S Hc Rg En Em. destruct (determineJacobian_ok f custom noInfo S eq_refl) as [s [E [_ H]]]. exists s. split; [exact E|].
  intros Eg. unfold JacobianSparsity, JacobianSparsitySet, JacobianSparsityBool. rewrite Rg, Eg, En, Em. unfold sparsity2D. cbn [known need].
  destruct custom as [[rows cols]|].
  - destruct H as [-> ->]. split; [apply loadLists_ok, Hc|]. apply describes_ok, Hc.
  - assert (I : inside (rM f) (rN f) (iRows s) (iCols s)) by (apply (enumerates_inside (first f)); [intros i j F; apply first_in; assumption|exact H]).
    split; [exists (iRows s), (iCols s); split; [apply loadLists_ok, I|exact H]|].
    apply (describes_iff (fun i j => In (i, j) (combine (iRows s) (iCols s)))); [apply H|]. apply describes_ok, I.
Qed.
Print Assumptions C57_jacobian_pattern.

(** The Hessian of the sum of the equations. *)
Theorem C57_hessian_pattern {V} f custom byEq (g : @loaded V) : sound f ->
  match custom with Some (rows, cols) => inside (rN f) (rN f) rows cols | None => True end ->
  gReady g = true -> gN g = rN f ->
  exists s eqs, determineHessian f custom byEq (noInfo, []) = XOk (s, eqs) /\
    (gHesSp g = Some (sparsity2D s) ->
     match custom with
     | Some (rows, cols) => HessianSparsity g = XOk (rows, cols)
     | None => exists rows cols, HessianSparsity g = XOk (rows, cols) /\ enumerates (secondAny f) rows cols
     end /\
     describes (match custom with Some (rows, cols) => listed rows cols | None => secondAny f end) (rN f) (rN f)
       (HessianSparsity g) (HessianSparsitySet g) (HessianSparsityBool g)).
Proof.
  intros S Hc Rg En. destruct (determineHessian_ok f custom byEq (noInfo, []) S eq_refl Hc) as [s [eqs [E [_ [H _]]]]].
  exists s, eqs. split; [exact E|].
  intros Eg. unfold HessianSparsity, HessianSparsitySet, HessianSparsityBool. rewrite Rg, Eg, En. unfold sparsity2D. cbn [known need].
  destruct custom as [[rows cols]|].
  - destruct H as [-> ->]. split; [apply loadLists_ok, Hc|]. apply describes_ok, Hc.
  - assert (I : inside (rN f) (rN f) (iRows s) (iCols s)).
    { apply (enumerates_inside (secondAny f)); [intros j k [i [Hi F]]; apply (second_in f i); assumption|exact H]. }
    split; [exists (iRows s), (iCols s); split; [apply loadLists_ok, I|exact H]|].
    apply (describes_iff (fun i j => In (i, j) (combine (iRows s) (iCols s)))); [apply H|]. apply describes_ok, I.
Qed.
Print Assumptions C57_hessian_pattern.

(** The Hessian of each equation, although several equations are treated together (colours): exactly the second derivatives of
    that equation, of those requested, in their order.  No elements for an equation which does not exist. *)
Theorem C57_equation_patterns {V} f custom (g : @loaded V) i : sound f ->
  match custom with Some (rows, cols) => inside (rN f) (rN f) rows cols | None => True end ->
  gReady g = true -> gN g = rN f ->
  exists s eqs, determineHessian f custom true (noInfo, []) = XOk (s, eqs) /\
    (gHes2Sp g = Some (sparsity2D2 eqs) ->
     (i < rM f -> exists rows' cols', EqHessianSparsity g i = XOk (rows', cols') /\
        match custom with
        | Some (rows, cols) => selects (second f i) rows cols rows' cols'
        | None => enumerates (second f i) rows' cols'
        end) /\
     describes (fun j k => i < rM f /\ second f i j k /\ match custom with Some (rows, cols) => listed rows cols j k | None => True end)
       (rN f) (rN f) (EqHessianSparsity g i) (EqHessianSparsitySet g i) (EqHessianSparsityBool g i)).
Proof.
  intros S Hc Rg En. destruct (determineHessian_ok f custom true (noInfo, []) S eq_refl Hc) as [s [eqs [E [_ [_ H]]]]].
  destruct (H eq_refl) as [L Q]. clear H. exists s, eqs. split; [exact E|].
  intros Eg. unfold EqHessianSparsity, EqHessianSparsitySet, EqHessianSparsityBool. rewrite Rg, Eg, En. cbn [known need].
  assert (Len : forall e, In e eqs -> List.length (iRows e) = List.length (iCols e)).
  { intros e I. apply In_nth_error in I. destruct I as [k Ek]. specialize (Q k e Ek). unfold eqSpec in Q. destruct custom as [[rows cols]|].
    - apply (selects_listed _ _ _ _ _ (proj1 Hc) Q).
    - apply Q. }
  rewrite (sparsity2D2_ok eqs i Len). cbn [xbind]. set (e := nth i eqs noInfo).
  destruct (Nat.lt_ge_cases i (rM f)) as [Hi|Hi].
  - assert (Ee : nth_error eqs i = Some e) by (apply ne_nth; lia). specialize (Q i e Ee). unfold eqSpec in Q.
    assert (I : inside (rN f) (rN f) (iRows e) (iCols e) /\
      forall j k, In (j, k) (combine (iRows e) (iCols e)) <-> i < rM f /\ second f i j k /\ match custom with Some (rows, cols) => listed rows cols j k | None => True end).
    { destruct custom as [[rows cols]|].
      - destruct (selects_listed _ _ _ _ _ (proj1 Hc) Q) as [A B]. split; [split; [exact A|]|].
        + intros j k I. apply B in I. apply Hc, I.
        + intros j k. rewrite B. unfold listed. tauto.
      - split; [apply (enumerates_inside (second f i)); [intros j k X; apply (second_in f i j k S Hi X)|exact Q]|].
        intros j k. destruct Q as [_ [_ Q]]. rewrite Q. tauto. }
    destruct I as [I J]. split.
    + intros _. exists (iRows e), (iCols e). split; [apply loadLists_ok, I|exact Q].
    + apply (describes_iff (fun j k => In (j, k) (combine (iRows e) (iCols e)))); [exact J|]. apply describes_ok, I.
  - split; [intros X; lia|]. assert (Ee : e = noInfo) by (apply nth_overflow; lia). rewrite Ee.
    apply (describes_iff (fun j k => In (j, k) (combine (iRows noInfo) (iCols noInfo)))); [intros j k; cbn; split; [tauto|intros [X _]; lia]|].
    apply describes_ok. split; [reflexivity|]. intros a b [].
Qed.
Print Assumptions C57_equation_patterns.

(** The pattern of the sum is the union of the patterns of the equations. *)
Theorem C57_union_of_equations {V} f byEq (g : @loaded V) rows cols : sound f -> gReady g = true -> gN g = rN f -> byEq = true ->
  (forall s eqs, determineHessian f None byEq (noInfo, []) = XOk (s, eqs) -> gHesSp g = Some (sparsity2D s) /\ gHes2Sp g = Some (sparsity2D2 eqs)) ->
  HessianSparsity g = XOk (rows, cols) ->
  forall j k, listed rows cols j k <->
    exists i rows' cols', i < rM f /\ EqHessianSparsity g i = XOk (rows', cols') /\ listed rows' cols' j k.
Proof.
  intros S Rg En -> Hg Er j k.
  destruct (C57_hessian_pattern f None true g S I Rg En) as [s [eqs [E H]]]. destruct (Hg s eqs E) as [G1 G2].
  destruct (H G1) as [[r [c [Er' [_ [_ A]]]]] _]. rewrite Er in Er'. inversion Er'; subst r c. unfold listed at 1. rewrite A.
  assert (B : forall i, i < rM f -> exists rows' cols', EqHessianSparsity g i = XOk (rows', cols') /\ enumerates (second f i) rows' cols').
  { intros i Hi. destruct (C57_equation_patterns f None g i S I Rg En) as [s' [eqs' [E' H']]]. rewrite E in E'. inversion E'; subst s' eqs'.
    apply (H' G2), Hi. }
  split.
  - intros [i [Hi F]]. destruct (B i Hi) as [r' [c' [E1 [_ [_ E2]]]]]. exists i, r', c'. split; [exact Hi|]. split; [exact E1|]. apply E2, F.
  - intros [i [r' [c' [Hi [E1 F]]]]]. destruct (B i Hi) as [r2 [c2 [E1' [_ [_ E2]]]]]. rewrite E1 in E1'. inversion E1'; subst r2 c2.
    exists i. split; [exact Hi|]. apply E2, F.
Qed.
Print Assumptions C57_union_of_equations.

(** ** Results *)

Lemma nonempty_call {V} (F : list (list V) -> list V) sizes ins k before : map (@List.length V) ins = sizes ->
  List.length (F ins) = k -> List.length before = k ->
  (if 0 <? k then call F sizes ins before else XOk before) = XOk (F ins).
Proof.
  intros A <- B. destruct (Nat.ltb_spec 0 (List.length (F ins))); [apply call_ok; assumption|].
  destruct before; [|cbn in B; lia]. destruct (F ins); [reflexivity|cbn in *; lia].
Qed.

(** Sparse Jacobian: [D] are the values the generated function computes for the reported positions.  The dense result has them
    at their places and zero elsewhere, the sparse ones list them with their positions. *)
Theorem C57_sparse_jacobian {V} (zero : V) g F rows cols D x : gReady g = true -> gSJac g = Some F ->
  gJacSp g = Some (rows, cols, List.length rows) -> inside (gM g) (gN g) rows cols -> gIn g = [gN g] -> List.length x = gN g ->
  valuesAt D rows cols (F [x]) ->
  (exists mat, SparseJacobianDense zero g x (gM g * gN g) = XOk mat /\ matrix (gM g) (gN g) (only zero rows cols D) mat) /\
  (exists vals, SparseJacobianVectors zero g x = XOk (vals, rows, cols) /\ valuesAt D rows cols vals) /\
  (forall jac, List.length jac = List.length rows ->
     exists vals, SparseJacobianArrays g x jac = XOk (vals, rows, cols) /\ valuesAt D rows cols vals).
Proof.
  intros Rg EF Es Hin Ei Lx HD. pose proof (proj1 HD) as LF.
  assert (Ls : map (@List.length V) [x] = [gN g]) by (cbn; rewrite Lx; reflexivity).
  split; [|split].
  - unfold SparseJacobianDense, one_array. rewrite Rg, EF, Es, Ei, Lx, !Nat.eqb_refl. cbn [List.length Nat.eqb andb known need].
    assert (E : (if 0 <? List.length rows then call F [gN g] [x] (repeat zero (List.length rows)) else XOk []) = XOk (F [x])).
    { rewrite <- (nonempty_call F [gN g] [x] (List.length rows) (repeat zero (List.length rows)) Ls LF (repeat_length _ _)).
      destruct (Nat.ltb_spec 0 (List.length rows)) as [P|P]; [reflexivity|]. replace (List.length rows) with 0 by lia. reflexivity. }
    rewrite E. cbn [xbind]. apply createDense_ok; assumption.
  - exists (F [x]). split; [|exact HD]. unfold SparseJacobianVectors, one_array. rewrite Rg, EF, Es, Ei. cbn [List.length Nat.eqb andb known need].
    destruct (Nat.ltb_spec 0 (List.length rows)) as [P|P].
    + rewrite call_ok by (rewrite ?repeat_length; auto). cbn [xbind]. rewrite loadLists_ok by apply Hin. reflexivity.
    + destruct Hin as [Hl _]. destruct rows; [|cbn in P; lia]. destruct cols; [|discriminate]. destruct (F [x]); [reflexivity|discriminate].
  - intros jac Lj. exists (F [x]). split; [|exact HD]. unfold SparseJacobianArrays, one_array. rewrite Rg, EF, Es, Ei, Lx, Lj, !Nat.eqb_refl.
    cbn [List.length Nat.eqb andb known need]. pose proof (nonempty_call F [gN g] [x] (List.length rows) jac Ls LF Lj) as E.
    destruct (0 <? List.length rows); [rewrite E; reflexivity|]. inversion E. reflexivity.
Qed.
Print Assumptions C57_sparse_jacobian.

(** Sparse Hessian, with the multipliers [w]. *)
Theorem C57_sparse_hessian {V} (zero : V) g F rows cols D x w : gReady g = true -> gSHes g = Some F ->
  gHesSp g = Some (rows, cols, List.length rows) -> inside (gN g) (gN g) rows cols -> gIn g = [gN g] ->
  List.length x = gN g -> List.length w = gM g ->
  valuesAt D rows cols (F [x; w]) ->
  (exists mat, SparseHessianDense zero g x w (gN g * gN g) = XOk mat /\ matrix (gN g) (gN g) (only zero rows cols D) mat) /\
  (exists vals, SparseHessianVectors zero g x w = XOk (vals, rows, cols) /\ valuesAt D rows cols vals) /\
  (forall hess, List.length hess = List.length rows ->
     exists vals, SparseHessianArrays g x w hess = XOk (vals, rows, cols) /\ valuesAt D rows cols vals).
Proof.
  intros Rg EF Es Hin Ei Lx Lw HD. pose proof (proj1 HD) as LF.
  assert (Ls : map (@List.length V) [x; w] = [gN g; gM g]) by (cbn; rewrite Lx, Lw; reflexivity).
  split; [|split].
  - unfold SparseHessianDense, one_array, hessSizes. rewrite Rg, EF, Es, Ei, Lx, Lw, !Nat.eqb_refl. cbn [List.length Nat.eqb andb known need app].
    assert (E : (if 0 <? List.length rows then call F [gN g; gM g] [x; w] (repeat zero (List.length rows)) else XOk []) = XOk (F [x; w])).
    { rewrite <- (nonempty_call F [gN g; gM g] [x; w] (List.length rows) (repeat zero (List.length rows)) Ls LF (repeat_length _ _)).
      destruct (Nat.ltb_spec 0 (List.length rows)) as [P|P]; [reflexivity|]. replace (List.length rows) with 0 by lia. reflexivity. }
    rewrite E. cbn [xbind]. apply createDense_ok; assumption.
  - exists (F [x; w]). split; [|exact HD]. unfold SparseHessianVectors, one_array, hessSizes. rewrite Rg, EF, Es, Ei, Lx, Lw, !Nat.eqb_refl.
    cbn [List.length Nat.eqb andb known need app].
    destruct (Nat.ltb_spec 0 (List.length rows)) as [P|P].
    + rewrite loadLists_ok by apply Hin. cbn [xbind]. rewrite call_ok by (rewrite ?repeat_length; auto). reflexivity.
    + destruct Hin as [Hl _]. destruct rows; [|cbn in P; lia]. destruct cols; [|discriminate]. destruct (F [x; w]); [reflexivity|discriminate].
  - intros hess Lj. exists (F [x; w]). split; [|exact HD]. unfold SparseHessianArrays, one_array, hessSizes. rewrite Rg, EF, Es, Ei, Lx, Lw, Lj, !Nat.eqb_refl.
    cbn [List.length Nat.eqb andb known need app]. pose proof (nonempty_call F [gN g; gM g] [x; w] (List.length rows) hess Ls LF Lj) as E.
    destruct (0 <? List.length rows); [rewrite E; reflexivity|]. inversion E. reflexivity.
Qed.
Print Assumptions C57_sparse_hessian.

(** Models whose independents come in several arrays: the arrays are given in their order, the multipliers last. *)
Theorem C57_several_arrays {V} g F H jr jc hr hc DJ DH (xs : list (list V)) w jac hess : gReady g = true ->
  gSJac g = Some F -> gJacSp g = Some (jr, jc, List.length jr) -> gSHes g = Some H -> gHesSp g = Some (hr, hc, List.length hr) ->
  map (@List.length V) xs = gIn g -> List.length w = gM g ->
  valuesAt DJ jr jc (F xs) -> valuesAt DH hr hc (H (xs ++ [w])) -> List.length jac = List.length jr -> List.length hess = List.length hr ->
  (exists vals, SparseJacobianMany g xs jac = XOk (vals, jr, jc) /\ valuesAt DJ jr jc vals) /\
  (exists vals, SparseHessianMany g xs w hess = XOk (vals, hr, hc) /\ valuesAt DH hr hc vals).
Proof.
  intros Rg EF Ej EH Eh Ei Lw HJ HH Lj Lh.
  assert (Le : List.length (gIn g) = List.length xs) by (rewrite <- Ei, map_length; reflexivity).
  split.
  - exists (F xs). split; [|exact HJ]. unfold SparseJacobianMany. rewrite Rg, EF, Ej, Le, Lj, !Nat.eqb_refl. cbn [known need].
    pose proof (nonempty_call F (gIn g) xs (List.length jr) jac Ei (proj1 HJ) Lj) as E.
    destruct (0 <? List.length jr); [rewrite E; reflexivity|]. inversion E. reflexivity.
  - exists (H (xs ++ [w])). split; [|exact HH]. unfold SparseHessianMany, hessSizes. rewrite Rg, EH, Eh, Le, Lw, Lh, !Nat.eqb_refl. cbn [known need andb].
    assert (Es : map (@List.length V) (xs ++ [w]) = gIn g ++ [gM g]) by (rewrite map_app, Ei; cbn; rewrite Lw; reflexivity).
    pose proof (nonempty_call H (gIn g ++ [gM g]) (xs ++ [w]) (List.length hr) hess Es (proj1 HH) Lh) as E.
    destruct (0 <? List.length hr); [rewrite E; reflexivity|]. inversion E. reflexivity.
Qed.
Print Assumptions C57_several_arrays.

(** From the recorded function to the dense result: without a request, if the generated function computes the derivatives [D]
    at the reported positions and [D] is zero where the function has no derivative, SparseJacobian returns the whole matrix. *)
Theorem C57_dense_jacobian_complete {V} (zero : V) f g F D x : sound f -> gReady g = true -> gN g = rN f -> gM g = rM f ->
  gIn g = [gN g] -> List.length x = gN g -> gSJac g = Some F ->
  (forall s, determineJacobian f None noInfo = XOk s -> gJacSp g = Some (sparsity2D s) /\ valuesAt D (iRows s) (iCols s) (F [x])) ->
  (forall i j, ~ first f i j -> D i j = zero) ->
  exists mat, SparseJacobianDense zero g x (gM g * gN g) = XOk mat /\ matrix (gM g) (gN g) D mat.
Proof.
  intros S Rg En Em Ei Lx EF Hs Hz. destruct (determineJacobian_ok f None noInfo S eq_refl) as [s [E [_ H]]].
  destruct (Hs s E) as [Es HD].
  assert (I : inside (gM g) (gN g) (iRows s) (iCols s)).
  { rewrite En, Em. apply (enumerates_inside (first f)); [intros i j X; apply first_in; assumption|exact H]. }
  destruct (C57_sparse_jacobian zero g F (iRows s) (iCols s) D x Rg EF Es I Ei Lx HD) as [[mat [E1 [L1 M1]]] _].
  exists mat. split; [exact E1|]. split; [exact L1|]. intros i j Hi Hj. rewrite (M1 i j Hi Hj). f_equal. unfold only.
  destruct (in_dec prod_dec (i, j) (combine (iRows s) (iCols s))) as [J|N]; [reflexivity|]. symmetry. apply Hz.
  intros X. apply N. apply H, X.
Qed.
Print Assumptions C57_dense_jacobian_complete.

(** Wrong sizes are rejected: no method but [SparseJacobianVectors] accesses anything outside of the arrays it was given. *)
Theorem C57_no_access_outside_partial {V} (zero : V) g x w out vx vy size : wellFormed g ->
  SparseJacobianDense zero g x size <> XRange /\ SparseJacobianArrays g x out <> XRange /\
  SparseHessianDense zero g x w size <> XRange /\ SparseHessianVectors zero g x w <> XRange /\ SparseHessianArrays g x w out <> XRange /\
  Hessian g x w out <> XRange /\ ForwardZeroVars g vx vy x out <> XRange.
Proof.
  intros [WZ [WH [WJ [WS [WP [WQ WI]]]]]].
  assert (One : one_array g = true -> gIn g = [gN g]) by (intros H; apply WI, Nat.eqb_eq, H).
  assert (K : forall A b (k : xout A), (b = true -> k <> XRange) -> known b k <> XRange) by (intros A [|] k H; cbn; [apply H; reflexivity|discriminate]).
  assert (N : forall A B (o : option A) (k : A -> xout B), (forall a, o = Some a -> k a <> XRange) -> need o k <> XRange)
    by (intros A B [a|] k H; cbn; [apply H; reflexivity|discriminate]).
  repeat apply conj.
  - unfold SparseJacobianDense. apply K. intros _. apply N. intros F EF. apply K. intros C. rewrite !andb_true_iff, !Nat.eqb_eq in C.
    destruct C as [[C1 C2] C3]. destruct (WJ F EF) as [rows [cols [Es LF]]]. rewrite Es. destruct (WP _ _ _ Es) as [_ Hin].
    assert (Ls : map (@List.length V) [x] = gIn g) by (rewrite (One C1); cbn; rewrite C2; reflexivity).
    destruct (Nat.ltb_spec 0 (List.length rows)) as [P|P].
    + rewrite call_ok by (rewrite ?repeat_length, ?LF; auto). cbn [xbind]. apply createDense_range; [exact Hin|apply LF].
    + cbn [xbind]. apply createDense_range; [exact Hin|]. cbn. lia.
  - unfold SparseJacobianArrays. apply K. intros _. apply N. intros F EF. apply K. intros C. rewrite !andb_true_iff, !Nat.eqb_eq in C.
    destruct C as [C1 C2]. destruct (WJ F EF) as [rows [cols [Es LF]]]. rewrite Es. apply K. intros C3. apply Nat.eqb_eq in C3.
    assert (Ls : map (@List.length V) [x] = gIn g) by (rewrite (One C1); cbn; rewrite C2; reflexivity).
    destruct (0 <? List.length rows); [|discriminate]. rewrite call_ok by (rewrite ?LF; auto). discriminate.
  - unfold SparseHessianDense. apply K. intros _. apply N. intros F EF. apply K. intros C. rewrite !andb_true_iff, !Nat.eqb_eq in C.
    destruct C as [[C2 C3] C1]. destruct (WS F EF) as [rows [cols [Es LF]]]. rewrite Es. destruct (WQ _ _ _ Es) as [_ Hin].
    assert (Ls : map (@List.length V) [x; w] = hessSizes g) by (unfold hessSizes; rewrite (One C1); cbn; rewrite C2, C3; reflexivity).
    destruct (Nat.ltb_spec 0 (List.length rows)) as [P|P].
    + rewrite call_ok by (rewrite ?repeat_length, ?LF; auto). cbn [xbind]. apply createDense_range; [exact Hin|apply LF].
    + cbn [xbind]. apply createDense_range; [exact Hin|]. cbn. lia.
  - unfold SparseHessianVectors. apply K. intros _. apply N. intros F EF. apply K. intros C. rewrite !andb_true_iff, !Nat.eqb_eq in C.
    destruct C as [[C2 C3] C1]. destruct (WS F EF) as [rows [cols [Es LF]]]. rewrite Es. destruct (WQ _ _ _ Es) as [_ Hin].
    assert (Ls : map (@List.length V) [x; w] = hessSizes g) by (unfold hessSizes; rewrite (One C1); cbn; rewrite C2, C3; reflexivity).
    destruct (0 <? List.length rows); [|discriminate]. rewrite loadLists_ok by apply Hin. cbn [xbind].
    rewrite call_ok by (rewrite ?repeat_length, ?LF; auto). discriminate.
  - unfold SparseHessianArrays. apply K. intros _. apply N. intros F EF. apply K. intros C. rewrite !andb_true_iff, !Nat.eqb_eq in C.
    destruct C as [[C1 C2] C3]. destruct (WS F EF) as [rows [cols [Es LF]]]. rewrite Es. apply K. intros C4. apply Nat.eqb_eq in C4.
    assert (Ls : map (@List.length V) [x; w] = hessSizes g) by (unfold hessSizes; rewrite (One C1); cbn; rewrite C2, C3; reflexivity).
    destruct (0 <? List.length rows); [|discriminate]. rewrite call_ok by (rewrite ?LF; auto). discriminate.
  - unfold Hessian. apply K. intros _. apply N. intros F EF. apply K. intros C. rewrite !andb_true_iff, !Nat.eqb_eq in C.
    destruct C as [[[C1 C2] C3] C4].
    assert (Ls : map (@List.length V) [x; w] = hessSizes g) by (unfold hessSizes; rewrite (One C1); cbn; rewrite C2, C3; reflexivity).
    rewrite call_ok by (rewrite ?(WH F _ EF); auto). discriminate.
  - unfold ForwardZeroVars. apply K. intros _. apply N. intros F EF. apply K. intros C. rewrite !andb_true_iff, !Nat.eqb_eq in C.
    destruct C as [[C1 C2] C3].
    assert (Ls : map (@List.length V) [x] = gIn g) by (rewrite (One C1); cbn; rewrite C2; reflexivity).
    rewrite call_ok by (rewrite ?(WZ F _ EF); auto). cbn [xbind]. destruct (0 <? List.length vx); [|discriminate].
    apply K. intros D1. apply Nat.leb_le in D1. apply K. intros D2. apply Nat.leb_le in D2.
    unfold JacobianSparsitySet. destruct (gReady g); [|discriminate]. cbn [known]. destruct (gJacSp g) as [[[rows cols] nnz]|] eqn:Es; [|discriminate].
    cbn [need]. destruct (WP _ _ _ eq_refl) as [-> Hin]. destruct (loadSet_ok _ _ _ _ Hin) as [p [Ep [Lp [Sp Hp]]]]. rewrite Ep. cbn [xbind].
    match goal with |- xbind (foreach ?l ?f ?s) _ <> _ => assert (G : forall l' s', (forall i, In i l' -> i < gM g) -> gM g <= List.length s' -> exists r, foreach l' f s' = XOk r) end.
    { induction l' as [|i l' IH]; intros s' Hl Ls'; [exists s'; reflexivity|]. cbn [foreach].
      pose proof (Hl i (or_introl eq_refl)) as Hi. destruct (row_some p i) as [row [Er Er']]; [lia|]. rewrite Er'. cbn [xbind].
      assert (Hrow : forall j, In j row -> j < gN g). { intros j I. apply (proj2 Hin i j). apply Hp. exists row. auto. }
      clear Er Er'.
      match goal with |- exists r, xbind (?g row) _ = _ => assert (X : exists s2, g row = XOk s2 /\ List.length s2 = List.length s') end.
      { induction row as [|j row IHr]; [exists s'; auto|]. destruct (row_some vx j) as [b [_ Eb]]; [specialize (Hrow j (or_introl eq_refl)); lia|].
        rewrite Eb. cbn [xbind]. destruct b.
        - rewrite (rowAt_nth s' i false) by lia. cbn [xbind]. eexists. split; [reflexivity|]. apply setNth_len.
        - apply IHr. intros j' I. apply Hrow. right. exact I. }
      destruct X as [s2 [E2 L2]]. rewrite E2. cbn [xbind]. apply IH; [intros i' I; apply Hl; right; exact I|lia]. }
    destruct (G (seq 0 (gM g)) vy) as [r Er]; [intros i I; apply in_seq in I; lia|exact D2|]. rewrite Er. discriminate.
Qed.
Print Assumptions C57_no_access_outside_partial.

(** The vector version of SparseJacobian does not look at the size of x (functor_generic_model.hpp 678-706): a vector which is
    too short is read outside of its elements, although the other methods reject it. *)
Theorem C57_vector_size_unchecked_refuted :
  exists (g : @loaded Z) x, wellFormed g /\ gReady g = true /\ List.length x < gN g /\
    SparseJacobianVectors 0%Z g x = XRange /\ SparseJacobianDense 0%Z g x (gM g * gN g) = XAssert.
Proof.
  exists (mkLoaded true 2 1 [2] None None (Some (fun ins => [nth 1 (nth 0 ins []) 0%Z])) None (Some ([0], [0], 1)) None None), [7%Z].
  split; [|split; [reflexivity|split; [cbn; lia|split; reflexivity]]].
  split; [discriminate|]. split; [discriminate|]. split.
  { intros F E. exists [0], [0]. split; [reflexivity|]. intros ins. inversion E. reflexivity. }
  split; [discriminate|]. split.
  { intros rows cols nnz E. cbn in E. inversion E; subst. split; [reflexivity|]. split; [reflexivity|]. intros i j [X|[]]. inversion X; subst. cbn. lia. }
  split; [discriminate|]. reflexivity.
Qed.
Print Assumptions C57_vector_size_unchecked_refuted.

(** Hessian of one equation: right when new vectors of the user's type are filled with zeros. *)
Theorem C57_equation_hessian_partial {V} (zero one : V) g F x i : gReady g = true -> gHes g = Some F -> gIn g = [gN g] ->
  List.length x = gN g -> i < gM g -> (forall w, List.length (F [x; w]) = gN g * gN g) ->
  HessianEquation one (repeat zero) g x i = XOk (F [x; map (fun k => if k =? i then one else zero) (seq 0 (gM g))]).
Proof.
  intros Rg EF Ei Lx Hi LF. unfold HessianEquation. destruct (Nat.ltb_spec i (gM g)); [|lia]. cbn [known].
  assert (E : setNth (repeat zero (gM g)) i one = map (fun k => if k =? i then one else zero) (seq 0 (gM g))).
  { apply (nth_ext _ _ zero zero); [rewrite setNth_len, repeat_length, len_map_seq; reflexivity|].
    intros k Hk. rewrite setNth_len, repeat_length in Hk. rewrite nth_setNth by (rewrite repeat_length; exact Hi).
    rewrite nth_map_seq by exact Hk. destruct (k =? i); [reflexivity|]. apply nth_repeat. }
  rewrite E. set (w := map _ _). assert (Lw : List.length w = gM g) by apply len_map_seq.
  unfold Hessian, one_array. rewrite Rg, EF, Lx, Lw, Ei, repeat_length, !Nat.eqb_refl. cbn [known need List.length Nat.eqb andb].
  apply call_ok.
  - unfold hessSizes. rewrite Ei. cbn. rewrite Lx, Lw. reflexivity.
  - rewrite repeat_length, LF. reflexivity.
Qed.
Print Assumptions C57_equation_hessian_partial.

(** With a vector type whose new elements are not initialised (CppAD::vector<double>) the other multipliers are arbitrary:
    here f0 = x^2, f1 = x^3 at x = 1, and the method returns 2 + 5 * 6 for equation 0. *)
Theorem C57_equation_hessian_refuted :
  exists (g : @loaded Z) (F : list (list Z) -> list Z) fresh x i,
    wellFormed g /\ gReady g = true /\ gHes g = Some F /\ i < gM g /\ (forall k, List.length (fresh k) = k) /\
    HessianEquation 1%Z fresh g x i <> XOk (F [x; map (fun k => if k =? i then 1%Z else 0%Z) (seq 0 (gM g))]).
Proof.
  set (F := fun ins : list (list Z) => match ins with [[x]; [w0; w1]] => [(2 * w0 + 6 * x * w1)%Z] | _ => [0%Z] end).
  exists (mkLoaded true 1 2 [1] None (Some F) None None None None None), F, (fun k => repeat 5%Z k), [1%Z], 0.
  split; [|split; [reflexivity|split; [reflexivity|split; [cbn; lia|split; [intros k; apply repeat_length|]]]]].
  - split; [discriminate|]. split.
    { intros F' ins E. inversion E; subst F'. clear E. unfold F.
      destruct ins as [|[|x [|? ?]] [|[|w0 [|w1 [|? ?]]] [|? ?]]]; reflexivity. }
    split; [discriminate|]. split; [discriminate|]. split; [discriminate|]. split; [discriminate|]. reflexivity.
  - vm_compute. discriminate.
Qed.
Print Assumptions C57_equation_hessian_refuted.

(** ** Which results are variables *)

(** The scan of one row. *)
Lemma scan_ok (vx vy : list bool) i : i < List.length vy -> forall row, (forall j, In j row -> j < List.length vx) ->
  (fix scan (row : set) : xout (list bool) :=
     match row with
     | [] => XOk vy
     | j :: r => xbind (rowAt vx j) (fun b : bool =>
                 if b then xbind (rowAt vy i) (fun _ => XOk (setNth vy i true)) else scan r)
     end) row = XOk (if existsb (fun j => nth j vx false) row then setNth vy i true else vy).
Proof.
  intros Hi. induction row as [|j row IH]; intros H; [reflexivity|]. rewrite (rowAt_nth vx j false) by (apply H; left; reflexivity).
  cbn [xbind existsb]. destruct (nth j vx false); cbn [orb].
  - rewrite (rowAt_nth vy i false) by exact Hi. reflexivity.
  - apply IH. intros j' I. apply H. right. exact I.
Qed.

(** ForwardZero with vx and vy: a result becomes a variable if it depends on a variable; those already marked stay marked. *)
Theorem C57_variables_partial {V} f g (F : list (list V) -> list V) vx vy tx ty s : sound f -> gReady g = true -> gN g = rN f -> gM g = rM f ->
  gIn g = [gN g] -> gZero g = Some F -> List.length (F [tx]) = gM g ->
  determineJacobian f None noInfo = XOk s -> gJacSp g = Some (sparsity2D s) ->
  List.length tx = gN g -> List.length ty = gM g -> List.length vx = gN g -> 0 < gN g -> List.length vy = gM g ->
  exists vy', ForwardZeroVars g vx vy tx ty = XOk (F [tx], vy') /\ List.length vy' = gM g /\
    forall i, i < gM g ->
      (nth_error vy' i = Some true <-> nth_error vy i = Some true \/ exists j, first f i j /\ nth_error vx j = Some true).
Proof.
  intros S Rg En Em Ei EF LF Ed Es Lx Ly Lvx Pn Lvy.
  destruct (determineJacobian_ok f None noInfo S eq_refl) as [s' [E' [_ H]]]. rewrite Ed in E'. inversion E'; subst s'. clear E'.
  assert (Hin : inside (gM g) (gN g) (iRows s) (iCols s)).
  { rewrite En, Em. apply (enumerates_inside (first f)); [intros i j X; apply first_in; assumption|exact H]. }
  destruct (loadSet_ok _ _ _ _ Hin) as [p [Ep [Lp [Sp Hp]]]].
  unfold ForwardZeroVars, one_array. rewrite Rg, EF, Ei, Lx, Ly, !Nat.eqb_refl. cbn [known need List.length Nat.eqb andb].
  rewrite call_ok; [|cbn; rewrite Lx; reflexivity|rewrite Ly, LF; reflexivity]. cbn [xbind].
  rewrite Lvx, Lvy, !Nat.leb_refl. destruct (Nat.ltb_spec 0 (gN g)); [|lia]. cbn [known].
  unfold JacobianSparsitySet. rewrite Rg, Es. cbn [known need]. unfold sparsity2D. rewrite Ep. cbn [xbind].
  match goal with |- context [foreach _ ?f _] => set (step := f) end.
  assert (G : forall k, k <= gM g -> exists r, foreach (seq 0 k) step vy = XOk r /\ List.length r = gM g /\
     forall i, i < gM g -> (nth_error r i = Some true <-> nth_error vy i = Some true \/ (i < k /\ exists j, first f i j /\ nth_error vx j = Some true))).
  { induction k as [|k IH]; intros Hk.
    - exists vy. split; [reflexivity|]. split; [exact Lvy|]. intros i Hi. split; [tauto|]. intros [X|[X _]]; [exact X|lia].
    - destruct (IH ltac:(lia)) as [r [Er [Lr Hr]]]. replace (Datatypes.S k) with (k + 1) by lia. rewrite seq_app, Nat.add_0_l. cbn [seq].
      assert (FA : forall (l1 l2 : list nat) (f : nat -> list bool -> xout (list bool)) st, foreach (l1 ++ l2) f st = xbind (foreach l1 f st) (foreach l2 f)).
      { clear. induction l1 as [|x l1 IH]; intros l2 f st; [reflexivity|]. cbn. destruct (f x st); cbn; [apply IH|reflexivity|reflexivity]. }
      rewrite FA, Er. cbn [xbind foreach]. unfold step at 1. destruct (row_some p k) as [row [Ek Ek']]; [lia|]. rewrite Ek'. cbn [xbind].
      assert (Hrow : forall j, In j row <-> first f k j).
      { intros j. rewrite <- (entry_nth p k row j Ek), Hp. apply H. }
      rewrite scan_ok; [|lia|intros j I; rewrite Lvx, En; apply (first_in f k j S), Hrow, I]. cbn [xbind].
      eexists. split; [reflexivity|].
      assert (X : existsb (fun j => nth j vx false) row = true <-> exists j, first f k j /\ nth_error vx j = Some true).
      { rewrite existsb_exists. split; intros [j [I J]]; exists j.
        - apply Hrow in I as I'. split; [exact I'|]. rewrite <- J. apply ne_nth. rewrite Lvx, En. apply (first_in f k j S I').
        - split; [apply Hrow, I|]. apply nth_ne, J. }
      destruct (existsb (fun j => nth j vx false) row).
      + rewrite setNth_len. split; [exact Lr|]. intros i Hi. destruct (Nat.eq_dec i k) as [->|N].
        * rewrite setNth_same by lia. split; [|reflexivity]. intros _. right. split; [lia|]. apply X. reflexivity.
        * rewrite setNth_diff by exact N. rewrite Hr by exact Hi. split; (intros [Y|[Y Z]]; [left; exact Y|right; split; [lia|exact Z]]).
      + split; [exact Lr|]. intros i Hi. rewrite Hr by exact Hi. split; (intros [Y|[Y Z]]; [left; exact Y|]); [right; split; [lia|exact Z]|].
        destruct (Nat.eq_dec i k) as [->|N]; [apply X in Z; discriminate|]. right. split; [lia|exact Z]. }
  destruct (G (gM g) (Nat.le_refl _)) as [r [Er [Lr Hr]]]. rewrite Er. cbn [xbind]. exists r. split; [reflexivity|]. split; [exact Lr|].
  intros i Hi. rewrite (Hr i Hi). split; (intros [Y|Y]; [left; exact Y|right]); tauto.
Qed.
Print Assumptions C57_variables_partial.

(** y0 = x0 + x1, but only the element (0, 0) of the Jacobian was requested: y0 is not marked although x1 is a variable. *)
Theorem C57_variables_with_request_refuted :
  exists f custom s (g : @loaded Z) vx, sound f /\ inside (rM f) (rN f) (fst custom) (snd custom) /\
    determineJacobian f (Some custom) noInfo = XOk s /\ gReady g = true /\ gJacSp g = Some (sparsity2D s) /\
    (exists j, first f 0 j /\ nth_error vx j = Some true) /\
    ForwardZeroVars g vx [false] [3%Z; 4%Z] [0%Z] = XOk ([7%Z], [false]).
Proof.
  exists (mkRec 2 1 (fun _ => [0; 1]) (fun _ _ => [])), ([0], [0]). eexists.
  exists (mkLoaded true 2 1 [2] (Some (fun ins => [(nth 0 (nth 0 ins []) 0 + nth 1 (nth 0 ins []) 0)%Z])) None None None (Some ([0], [0], 1)) None None), [false; true].
  split; [|split; [|split; [reflexivity|split; [reflexivity|split; [reflexivity|split; [|reflexivity]]]]]].
  - split.
    + intros i _. cbn. split; [repeat constructor|]. intros j [<-|[<-|[]]]; lia.
    + intros i j _. cbn. split; [constructor|]. intros k [].
  - split; [reflexivity|]. intros i j [X|[]]. inversion X; subst. cbn. lia.
  - exists 1. split; [split; [cbn; lia|right; left; reflexivity]|reflexivity].
Qed.
Print Assumptions C57_variables_with_request_refuted.

(** A mark from before is not removed: y0 = 5 depends on nothing. *)
Theorem C57_marks_not_cleared_refuted :
  exists f s (g : @loaded Z) vx vy, sound f /\ determineJacobian f None noInfo = XOk s /\ gReady g = true /\
    gJacSp g = Some (sparsity2D s) /\ (forall j, ~ first f 0 j) /\
    ForwardZeroVars g vx vy [3%Z] [0%Z] = XOk ([5%Z], [true]).
Proof.
  exists (mkRec 1 1 (fun _ => []) (fun _ _ => [])). eexists.
  exists (mkLoaded true 1 1 [1] (Some (fun _ => [5%Z])) None None None (Some ([], [], 0)) None None), [true], [true].
  split; [|split; [reflexivity|split; [reflexivity|split; [reflexivity|split; [|reflexivity]]]]].
  - split; intros; cbn; (split; [constructor|intros k []]).
  - intros j [_ []].
Qed.
Print Assumptions C57_marks_not_cleared_refuted.

(** The patterns are determined once: the generation of any other source finds the same lists, in any order of requests. *)
Theorem C57_patterns_once f custom custom' byEq byEq' : rM f <> 0 -> rN f <> 0 ->
  (forall s, determineJacobian f custom noInfo = XOk s -> determineJacobian f custom' s = XOk s) /\
  (forall s, determineHessian f custom byEq (noInfo, []) = XOk s -> determineHessian f custom' byEq' s = XOk s).
Proof.
  intros Hm Hn. split.
  - intros s E. assert (N : iSparsity s <> []).
    { unfold determineJacobian in E. cbn [iSparsity noInfo] in E. destruct custom as [[rows cols]|].
      - injection E as <-. cbn [iSparsity]. destruct (rM f); [congruence|discriminate].
      - destruct (generateIndexesSet _ _ _) as [rc| |]; cbn [xbind] in E; try discriminate. injection E as <-. cbn [iSparsity].
        destruct (rM f); [congruence|discriminate]. }
    unfold determineJacobian. destruct (iSparsity s); [congruence|reflexivity].
  - intros s E. assert (N : iSparsity (fst s) <> []).
    { unfold determineHessian in E. cbn [iSparsity noInfo fst snd] in E.
      destruct (diagonal (rN f) (seq 0 (rN f))) as [r| |]; cbn [xbind] in E; try discriminate.
      destruct (if byEq then _ else _) as [eqs| |]; cbn [xbind] in E; try discriminate.
      destruct custom as [[rows cols]|].
      - injection E as <-. cbn [iSparsity fst]. unfold revSparseHes. destruct (rN f); [congruence|discriminate].
      - destruct (generateIndexesSet _ _ _) as [rc| |]; cbn [xbind] in E; try discriminate. injection E as <-. cbn [iSparsity fst].
        unfold revSparseHes. destruct (rN f); [congruence|discriminate]. }
    unfold determineHessian. destruct (iSparsity (fst s)); [congruence|reflexivity].
Qed.
Print Assumptions C57_patterns_once.

(** ** Cases: f0 = x0 x1, f1 = x2^2, f2 = x1 x2 *)
Definition caseRec : recorded :=
  mkRec 3 3 (fun i => nth i [[0; 1]; [2]; [1; 2]] [])
            (fun i j => nth j (nth i [[[1]; [0]; []]; [[]; []; [2]]; [[]; [2]; [1]]] []) []).
Example C57_case_sound : sound caseRec.
Proof.
  split.
  - intros i Hi. cbn in Hi. destruct i as [|[|[|i]]]; [| | |lia]; cbn; (split; [repeat constructor|intros j X; lia]).
  - intros i j Hi. cbn in Hi. destruct i as [|[|[|i]]]; [| | |lia]; destruct j as [|[|[|[|j]]]]; cbn;
      (split; [repeat constructor|intros k X; intuition lia]).
Qed.
(** equations 0 and 1 share a colour, equation 2 has its own *)
Example C57_case_colours : map cRows (colorByRow None (forSparseJac caseRec [[0]; [1]; [2]])) = [[0; 1]; [2]].
Proof. reflexivity. Qed.
Example C57_case_lists : determineHessian caseRec None true (noInfo, []) = XOk
  (mkInfo [[1]; [0; 2]; [1; 2]] [0; 1; 1; 2; 2] [1; 0; 2; 1; 2],
   [mkInfo [[1]; [0]; []] [0; 1] [1; 0]; mkInfo [[]; []; [2]] [2] [2]; mkInfo [[]; [2]; [1]] [1; 2] [2; 1]]).
Proof. reflexivity. Qed.
Example C57_case_request : exists s eqs, determineHessian caseRec (Some ([2; 1; 0], [1; 2; 0])) true (noInfo, []) = XOk (s, eqs) /\
  sparsity2D2 eqs 2 = XOk ([2; 1], [1; 2], 2) /\ sparsity2D2 eqs 0 = XOk ([], [], 0) /\ sparsity2D2 eqs 7 = XOk ([], [], 0).
Proof. do 2 eexists. split; [reflexivity|]. split; [reflexivity|]. split; reflexivity. Qed.
Example C57_case_dense : exists (g : @loaded Z), gReady g = true /\
  SparseJacobianDense 0%Z g [2%Z; 5%Z; 7%Z] 9 = XOk [5; 2; 0; 0; 0; 14; 0; 7; 5]%Z.
Proof.
  exists (mkLoaded true 3 3 [3] None None
    (Some (fun ins => match ins with [[a; b; c]] => [b; a; (2 * c)%Z; c; b] | _ => repeat 0%Z 5 end)) None
    (Some ([0; 0; 1; 2; 2], [0; 1; 2; 1; 2], 5)) None None).
  split; reflexivity.
Qed.

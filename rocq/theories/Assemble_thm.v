(** * Sparse Jacobians and Hessians assembled from directional functions: the theorems (C52) *)
From Coq Require Import List Arith Bool Lia ZArith.
From Verif Require Import Pool_model Pool_proofs Assemble_model Assemble_proofs.
Import ListNotations.
Local Open Scope nat_scope.

(** ** Specification *)

(** The element at the position p of the request is (i, j). *)
Definition requested (rows cols : list nat) (p i j : nat) : Prop := nth_error rows p = Some i /\ nth_error cols p = Some j.

(** The element at the position p was already requested at an earlier position. *)
Definition repeated (rows cols : list nat) (p : nat) : Prop :=
  exists q i j, q < p /\ requested rows cols q i j /\ requested rows cols p i j.

(** The result of a sparse evaluation: each element is the derivative, except for the repetitions of an element, which
    keep what the array had before the call. *)
Definition filled {V} (J : nat -> nat -> V) (rows cols : list nat) (res res' : list V) : Prop :=
  length res' = length res /\
  forall p i j, requested rows cols p i j ->
    (~ repeated rows cols p -> nth_error res' p = Some (J i j)) /\
    (repeated rows cols p -> nth_error res' p = nth_error res p).

(** No two jobs access the same element of the result. *)
Definition raceFree {V} (ts : list (list (nat * V))) : Prop :=
  forall a b ta tb p v w, nth_error ts a = Some ta -> nth_error ts b = Some tb -> In (p, v) ta -> In (p, w) tb -> a = b.

(** ** Proofs *)
Lemma isPos_requested ks vs k v p : isPos ks vs k v p <-> requested ks vs p k v /\ ~ repeated ks vs p.
Proof.
  split.
  - intros [A [B C]]. split; [split; assumption|]. intros [q [i [j [Hq [[Q1 Q2] [P1 P2]]]]]]. rewrite A in P1. injection P1 as <-. rewrite B in P2. injection P2 as <-.
    exact (C q Hq (conj Q1 Q2)).
  - intros [[A B] N]. split; [exact A|]. split; [exact B|]. intros q Hq [Q1 Q2]. apply N. exists q, k, v. repeat split; assumption.
Qed.

Lemma assembled_filled {V} (D : nat -> nat -> V) ks vs res res' : assembled D ks vs res res' -> filled D ks vs res res'.
Proof.
  intros [L [A B]]. split; [exact L|]. intros p i j R. split.
  - intros N. apply A. apply isPos_requested. split; assumption.
  - intros Rp. destruct R as [R1 R2]. apply (B i j p R1 R2). intros X. apply isPos_requested in X. exact (proj2 X Rp).
Qed.

Lemma requested_flip rows cols p i j : requested rows cols p i j <-> requested cols rows p j i.
Proof. unfold requested. tauto. Qed.
Lemma repeated_flip rows cols p : repeated rows cols p <-> repeated cols rows p.
Proof.
  split; intros [q [i [j [Hq [A B]]]]]; exists q, j, i; (split; [exact Hq|split; apply requested_flip; assumption]).
Qed.
Lemma filled_flip {V} (J : nat -> nat -> V) rows cols res res' : filled (fun k v => J v k) cols rows res res' -> filled J rows cols res res'.
Proof.
  intros [L A]. split; [exact L|]. intros p i j R. apply requested_flip in R. destruct (A p j i R) as [B C]. split; intros H; [apply B|apply C].
  - intros X. apply H. apply repeated_flip. exact X.
  - apply repeated_flip. exact H.
Qed.

Lemma idx_le ks vs i : entryOk ks vs i -> length (i_idx i) <= length ks.
Proof.
  intros [A _]. rewrite A. unfold elsOf. rewrite map_length. pose proof (combine_length ks vs) as Lcb.
  assert (length (filter (fun p => fst p =? i_key i) (combine ks vs)) <= length (combine ks vs)); [|lia].
  clear. induction (combine ks vs) as [|a l IH]; cbn [filter length]; [lia|]. destruct (fst a =? i_key i); cbn [length]; lia.
Qed.
Lemma maxCompressed_le n l : forall m0, m0 <= n -> (forall i, In i l -> length (i_idx i) <= n) ->
  fold_left (fun m i => if (m <? length (i_idx i)) && negb (i_ord i) then length (i_idx i) else m) l m0 <= n.
Proof.
  induction l as [|a l IH]; intros m0 H0 H; cbn [fold_left]; [exact H0|]. apply IH; [|intros i Hi; apply H; right; exact Hi].
  destruct ((m0 <? length (i_idx a)) && negb (i_ord a)); [apply H; left; reflexivity|exact H0].
Qed.

Lemma assembleCall_ok {V} (zero : V) hessian atomics D ks vs garbage res :
  length ks = length res -> length vs = length res -> (forall k, length res <= length (garbage k)) ->
  exists res', assembleCall V zero hessian atomics (Some D) ks vs garbage res = Some res' /\ filled D ks vs res res'.
Proof.
  intros L1 L2 Lg. unfold assembleCall, functionsAt. destruct (entries_ok ks vs) as [is [E [F [N A]]]]. rewrite E.
  assert (Hfn : forall i, In i is -> exists out, functions V zero D atomics ks vs (i_key i) = Some out /\ goodOut D (i_key i) (i_idx i) out).
  { intros i Hi. apply functions_ok. rewrite Forall_forall in F. exact (F i Hi). }
  destruct (single_ok D ks vs _ is F N A Hfn hessian (garbage 0) res L1 L2) as [res' [E2 R]].
  - unfold singleThread, maxCompressed. cbn [pr_size]. specialize (Lg 0). etransitivity; [|exact Lg]. rewrite <- L1. apply maxCompressed_le; [lia|]. intros i Hi.
    apply (idx_le ks vs). rewrite Forall_forall in F. exact (F i Hi).
  - exists res'. split; [exact E2|]. apply assembled_filled. exact R.
Qed.

(** The functions called by the jobs: those without "_wrap" for the keys in order. *)
Lemma jobWrites_ext {V} (f g h : nat -> option (list V)) garbage is : (forall i, In i is -> h (i_key i) = if i_ord i then f (i_key i) else g (i_key i)) ->
  allWrites V f g garbage (multiThread is) = allWrites V h h garbage (multiThread is).
Proof.
  induction is as [|i is IH]; intros H; [reflexivity|]. cbn [multiThread map allWrites].
  assert (E : jobWrites V f g garbage (jobOf i) = jobWrites V h h garbage (jobOf i)).
  { specialize (H i (or_introl eq_refl)). unfold jobOf. destruct (i_ord i); unfold jobWrites; cbn [fst snd]; rewrite H; reflexivity. }
  rewrite E. unfold multiThread in IH. rewrite IH by (intros j Hj; apply H; right; exact Hj). reflexivity.
Qed.

Lemma organise_ext {V} (D D' : nat -> nat -> V) k els : (forall v, D k v = D' k v) -> forall ks vs col, organise V D k els ks vs col = organise V D' k els ks vs col.
Proof.
  intros H. induction ks as [|k' ks IH]; intros [|v' vs] col; cbn [organise]; try reflexivity. destruct (k' =? k); [|apply IH].
  destruct (lastPos v' els 0); [|reflexivity]. rewrite H. apply IH.
Qed.
Lemma functions_ext {V} (zero : V) (D D' : nat -> nat -> V) atomics ks vs k : (forall v, D k v = D' k v) -> functions V zero D atomics ks vs k = functions V zero D' atomics ks vs k.
Proof.
  intros H. unfold functions. destruct (find _ _) as [g|]; [|reflexivity]. destruct atomics.
  - unfold outAtomics. f_equal. apply map_ext. exact H.
  - unfold outNoAtomics. apply organise_ext. exact H.
Qed.

(** The key is in order: its elements are at consecutive positions of the request. *)
Definition inOrderKey (is : list info) (k : nat) : bool := existsb (fun i => (i_key i =? k) && i_ord i) is.
Lemma inOrderKey_In is i : NoDup (map i_key is) -> In i is -> inOrderKey is (i_key i) = i_ord i.
Proof.
  intros N Hi. unfold inOrderKey. destruct (i_ord i) eqn:E.
  - apply existsb_exists. exists i. split; [exact Hi|]. rewrite Nat.eqb_refl, E. reflexivity.
  - destruct (existsb _ is) eqn:X; [|reflexivity]. apply existsb_exists in X. destruct X as [j [Hj X]]. apply andb_true_iff in X. destruct X as [X1 X2]. apply Nat.eqb_eq in X1.
    assert (j = i); [|congruence]. clear E X2. revert N Hi Hj. induction is as [|a is IH]; intros N Hi Hj; [destruct Hi|]. cbn [map] in N. inversion N as [|y ys N1 N2]. subst y ys.
    destruct Hi as [->|Hi]; destruct Hj as [->|Hj]; [reflexivity| | |apply IH; assumption].
    + exfalso. apply N1. rewrite <- X1. apply in_map. exact Hj.
    + exfalso. apply N1. rewrite X1. apply in_map. exact Hi.
Qed.

(** The jobs give the values of [D] for the keys in order and those of [DW] for the others. *)
Definition mixed {V} (is : list info) (D DW : nat -> nat -> V) (k v : nat) : V := if inOrderKey is k then D k v else DW k v.

Lemma assembleJobs_ok {V} (zero : V) atomics D DW ks vs garbage n is :
  entries ks vs = Some is ->
  length ks = n -> length vs = n -> (forall k, n <= length (garbage k)) ->
  exists ts, assembleJobs V zero atomics (Some D) (Some DW) ks vs garbage = Some ts /\ raceFree ts /\
    forall l res, length res = n -> interleaving ts l -> exists res', applyWrites V l res = Some res' /\ filled (mixed is D DW) ks vs res res'.
Proof.
  intros Eis L1 L2 Lg. unfold assembleJobs, functionsAt. destruct (entries_ok ks vs) as [is' [E [F [N A]]]]. rewrite Eis in E. injection E as <-. rewrite Eis.
  rewrite (jobWrites_ext _ _ (functions V zero (mixed is D DW) atomics ks vs)).
  2: { intros i Hi. pose proof (inOrderKey_In is i N Hi) as O. destruct (i_ord i); apply functions_ext; intros v; unfold mixed; rewrite O; reflexivity. }
  assert (Hfn : forall i, In i is -> exists out, functions V zero (mixed is D DW) atomics ks vs (i_key i) = Some out /\ goodOut (mixed is D DW) (i_key i) (i_idx i) out).
  { intros i Hi. apply functions_ok. rewrite Forall_forall in F. exact (F i Hi). }
  exists (traces (functions V zero (mixed is D DW) atomics ks vs) ks vs is). split; [|split].
  - eapply jobs_ok; [exact F|exact Hfn|auto|]. rewrite L1. exact Lg.
  - intros a b ta tb p v w. apply (traces_disjoint ks vs _ is F N).
  - intros l res Lr I. destruct (interleaving_result (mixed is D DW) ks vs _ is F N A Hfn l res) as [res' [E2 R]]; [congruence|congruence|exact I|].
    exists res'. split; [exact E2|]. apply assembled_filled. exact R.
Qed.

Lemma filled_ext {V} (D D' : nat -> nat -> V) ks vs res res' : (forall p k v, requested ks vs p k v -> D k v = D' k v) -> filled D ks vs res res' -> filled D' ks vs res res'.
Proof. intros H [L F]. split; [exact L|]. intros p i j R. rewrite <- (H p i j R). exact (F p i j R). Qed.

Lemma assembleJobs_same {V} (zero : V) atomics D ks vs garbage n :
  length ks = n -> length vs = n -> (forall k, n <= length (garbage k)) ->
  exists ts, assembleJobs V zero atomics (Some D) (Some D) ks vs garbage = Some ts /\ raceFree ts /\
    forall l res, length res = n -> interleaving ts l -> exists res', applyWrites V l res = Some res' /\ filled D ks vs res res'.
Proof.
  intros L1 L2 Lg. destruct (entries_ok ks vs) as [is [E _]]. destruct (assembleJobs_ok zero atomics D D ks vs garbage n is E L1 L2 Lg) as [ts [E1 [R P]]].
  exists ts. split; [exact E1|]. split; [exact R|]. intros l res Lr I. destruct (P l res Lr I) as [res' [E2 F]]. exists res'. split; [exact E2|].
  eapply filled_ext; [|exact F]. intros p k v _. unfold mixed. destruct (inOrderKey is k); reflexivity.
Qed.

(** All the keys are in order. *)
Lemma assembleJobs_direct {V} (zero : V) atomics D oDW ks vs garbage n is : entries ks vs = Some is -> (forall i, In i is -> i_ord i = true) ->
  length ks = n -> length vs = n -> (forall k, n <= length (garbage k)) ->
  exists ts, assembleJobs V zero atomics (Some D) oDW ks vs garbage = Some ts /\ raceFree ts /\
    forall l res, length res = n -> interleaving ts l -> exists res', applyWrites V l res = Some res' /\ filled D ks vs res res'.
Proof.
  intros E O L1 L2 Lg. destruct (assembleJobs_same zero atomics D ks vs garbage n L1 L2 Lg) as [ts [E1 Q]]. exists ts. split; [|exact Q].
  unfold assembleJobs in *. rewrite E in *. rewrite <- E1. etransitivity; [apply (jobWrites_ext _ _ (functionsAt V zero atomics (Some D) ks vs)); intros i Hi; rewrite (O i Hi); reflexivity|reflexivity].
Qed.

(** ** Requests with the elements of each key together *)
Definition rowsAt (ks : list nat) (k a : nat) (n : nat) : list nat := filter (fun p => match nth_error ks (p - a) with Some k' => k' =? k | None => false end) (seq a n).

Lemma elsOf_rowsAt k : forall ks vs a, length ks = length vs -> map (fun p => nth (p - a) vs 0) (rowsAt ks k a (length ks)) = elsOf k (combine ks vs).
Proof.
  induction ks as [|k0 ks IH]; intros [|v0 vs] a L; try discriminate; [reflexivity|]. injection L as L.
  unfold rowsAt. cbn [length seq filter]. rewrite Nat.sub_diag. cbn [nth_error]. unfold elsOf. cbn [combine filter fst].
  assert (X : map (fun p => nth (p - a) (v0 :: vs) 0) (filter (fun p => match nth_error (k0 :: ks) (p - a) with Some k' => k' =? k | None => false end) (seq (S a) (length ks))) = map snd (filter (fun p => fst p =? k) (combine ks vs))).
  { change (map snd (filter (fun p => fst p =? k) (combine ks vs))) with (elsOf k (combine ks vs)). rewrite <- (IH vs (S a) L). unfold rowsAt.
    assert (Y : forall p, In p (seq (S a) (length ks)) -> p - a = S (p - S a)) by (intros p Hp; apply in_seq in Hp; lia).
    rewrite (filter_ext_in _ (fun p => match nth_error ks (p - S a) with Some k' => k' =? k | None => false end)).
    2: { intros p Hp. rewrite (Y p Hp). reflexivity. }
    apply map_ext_in. intros p Hp. apply filter_In in Hp. destruct Hp as [Hp _]. rewrite (Y p Hp). reflexivity. }
  destruct (k0 =? k); cbn [map snd]; [rewrite Nat.sub_diag; cbn [nth]; f_equal|]; exact X.
Qed.

Lemma convex_filter (f : nat -> bool) : (forall p q r, p < q -> q < r -> f p = true -> f r = true -> f q = true) ->
  forall n a, f a = true -> exists l, filter f (seq a n) = seq a l.
Proof.
  intros C. induction n as [|n IH]; intros a Ha; [exists 0; reflexivity|]. cbn [seq filter]. rewrite Ha. destruct (f (S a)) eqn:E.
  - destruct (IH (S a) E) as [l Hl]. exists (S l). rewrite Hl. reflexivity.
  - exists 1. cbn [seq]. f_equal. assert (X : forall p, In p (seq (S a) n) -> f p = false).
    { intros p Hp. apply in_seq in Hp. destruct (f p) eqn:Fp; [|reflexivity]. destruct (Nat.eq_dec p (S a)) as [->|Np]; [congruence|]. rewrite (C a (S a) p) in E; [discriminate|lia|lia|exact Ha|exact Fp]. }
    revert X. generalize (seq (S a) n). intros l X. induction l as [|b l IHl]; [reflexivity|]. cbn [filter]. rewrite (X b (or_introl eq_refl)). apply IHl. intros p Hp. apply X. right. exact Hp.
Qed.
Lemma convex_filter_seq (f : nat -> bool) : (forall p q r, p < q -> q < r -> f p = true -> f r = true -> f q = true) ->
  forall n a, filter f (seq a n) = seq (hd 0 (filter f (seq a n))) (length (filter f (seq a n))).
Proof.
  intros C. induction n as [|n IH]; intros a; [reflexivity|]. destruct (f a) eqn:E.
  - destruct (convex_filter f C (S n) a E) as [l Hl]. rewrite Hl, seq_length. destruct l; [reflexivity|]. cbn [seq hd]. reflexivity.
  - cbn [seq filter]. rewrite E. apply IH.
Qed.

(** The elements of each key are one after the other in the request. *)
Definition together (ks : list nat) : Prop :=
  forall p q r k, p < q -> q < r -> nth_error ks p = Some k -> nth_error ks r = Some k -> nth_error ks q = Some k.

Lemma together_ordered ks vs is : length ks = length vs -> together ks -> (forall p, ~ repeated ks vs p) -> entries ks vs = Some is -> forall i, In i is -> i_ord i = true.
Proof.
  intros L T NR E i Hi. destruct (entries_ok ks vs) as [is' [E' [F _]]]. rewrite E in E'. injection E' as <-. rewrite Forall_forall in F. destruct (F i Hi) as [A [B [_ O]]].
  apply O. set (k := i_key i) in *.
  assert (P : map (posOf ks vs k) (i_idx i) = rowsAt ks k 0 (length ks)).
  { rewrite A, <- (elsOf_rowsAt k ks vs 0 L), map_map. rewrite <- (map_id (rowsAt ks k 0 (length ks))) at 2. apply map_ext_in. intros p Hp.
    apply filter_In in Hp. destruct Hp as [Hp Hk]. apply in_seq in Hp. rewrite Nat.sub_0_r in *. destruct (nth_error ks p) as [k'|] eqn:Ek; [|discriminate]. apply Nat.eqb_eq in Hk. subst k'.
    assert (Ev : nth_error vs p = Some (nth p vs 0)) by (apply nth_error_nth'; lia).
    assert (I : In (nth p vs 0) (elsOf k (combine ks vs))) by (apply elsOf_In; exists p; split; assumption).
    destruct (posOf_spec ks vs k (nth p vs 0) I) as [Q _]. eapply isPos_fun; [exact Q|]. apply isPos_requested. split; [split; assumption|apply NR]. }
  assert (Lp : length (i_idx i) = length (rowsAt ks k 0 (length ks))) by (rewrite <- P, map_length; reflexivity).
  rewrite Lp, P. unfold rowsAt. apply convex_filter_seq. intros p q r H1 H2 Hp Hr. rewrite Nat.sub_0_r in *.
  destruct (nth_error ks p) as [kp|] eqn:Ep; [|discriminate]. destruct (nth_error ks r) as [kr|] eqn:Er; [|discriminate]. apply Nat.eqb_eq in Hp, Hr. subst kp kr.
  rewrite (T p q r k H1 H2 Ep Er). apply Nat.eqb_refl.
Qed.

(** ** The theorems *)

(** The single-thread sparse Jacobian made from the forward or the reverse functions, for any list of requested
    elements, in any order, whatever the arrays had before: no access is out of bounds and each element of the result
    is the requested derivative, except for the repetitions of elements. *)
Theorem C52_sparse_jacobian_elements_partial : forall V (zero one : V) n m x w forward atomics G rows cols garbage res,
  length x = n -> length rows = length cols -> length res = length rows -> (forall k, length rows <= length (garbage k)) ->
  exists res', sparseJacobian V zero one n m x w forward atomics G rows cols garbage res = Some res' /\ filled (G x one []) rows cols res res'.
Proof.
  intros V zero one n m x w forward atomics G rows cols garbage res Ln L1 L2 Lg. unfold sparseJacobian, derivative, directIn, userIn, localIn, contents. rewrite Ln, Nat.ltb_irrefl, <- Ln, firstn_all.
  destruct forward; cbn [keys vals].
  - destruct (assembleCall_ok zero false atomics (byKey V true (G x one [])) cols rows garbage res) as [res' [E F]]; [congruence|congruence|rewrite L2; exact Lg|].
    exists res'. split; [exact E|]. apply filled_flip. exact F.
  - apply assembleCall_ok; [congruence|congruence|rewrite L2; exact Lg].
Qed.
Print Assumptions C52_sparse_jacobian_elements_partial.

(** The same with OpenMP or the thread pool, for every schedule: no two jobs write in the same place and any order of
    the writes gives the same elements. *)
Theorem C52_sparse_jacobian_any_schedule_partial : forall V (zero one : V) n m x w forward atomics G rows cols garbage,
  length x = n -> length rows = length cols -> (forall k, length rows <= length (garbage k)) ->
  exists ts, sparseJacobianJobs V zero one n m x w forward atomics G rows cols garbage = Some ts /\ raceFree ts /\
    forall l res, length res = length rows -> interleaving ts l ->
      exists res', applyWrites V l res = Some res' /\ filled (G x one []) rows cols res res'.
Proof.
  intros V zero one n m x w forward atomics G rows cols garbage Ln L1 Lg. unfold sparseJacobianJobs, derivative, wrapIn, directIn, userIn, localIn, contents. cbn zeta. rewrite Ln, Nat.ltb_irrefl, <- Ln, firstn_all.
  destruct forward; cbn [keys vals].
  - destruct (assembleJobs_same zero atomics (byKey V true (G x one [])) cols rows garbage (length rows)) as [ts [E [R P]]]; [congruence|reflexivity|exact Lg|].
    exists ts. split; [exact E|]. split; [exact R|]. intros l res Lr I. destruct (P l res Lr I) as [res' [E2 F]]. exists res'. split; [exact E2|]. apply filled_flip. exact F.
  - destruct (assembleJobs_same zero atomics (byKey V false (G x one [])) rows cols garbage (length rows)) as [ts [E [R P]]]; [reflexivity|congruence|exact Lg|].
    exists ts. split; [exact E|]. split; [exact R|]. intros l res Lr I. destruct (P l res Lr I) as [res' [E2 F]]. exists res'. split; [exact E2|exact F].
Qed.
Print Assumptions C52_sparse_jacobian_any_schedule_partial.

(** Elements in an order which needs the array compressed for one column, (2, 0) (0, 0) (1, 1) (2, 1), and all the
    values of the result. *)
Example C52_case :
  sparseJacobian Z 0%Z 1%Z 2 1 [1%Z; 2%Z] [7%Z] true false (fun x s _ i j => nth j x 0%Z * s * Z.of_nat (10 * i + j))%Z [2; 0; 1; 2] [0; 0; 1; 1] (fun _ => repeat (-1)%Z 4) (repeat (-7)%Z 4)
    = Some [20; 0; 22; 42]%Z /\
  entries [0; 0; 1; 1] [2; 0; 1; 2] = Some [mkInfo 0 [2; 0] [[0]; [1]] true; mkInfo 1 [1; 2] [[2]; [3]] true] /\
  entries [0; 1; 0; 1] [2; 1; 0; 2] = Some [mkInfo 0 [2; 0] [[0]; [2]] false; mkInfo 1 [1; 2] [[1]; [3]] false] /\
  sparseJacobian Z 0%Z 1%Z 2 1 [1%Z; 2%Z] [7%Z] true false (fun x s _ i j => nth j x 0%Z * s * Z.of_nat (10 * i + j))%Z [2; 1; 0; 2] [0; 1; 0; 1] (fun _ => repeat (-1)%Z 4) (repeat (-7)%Z 4)
    = Some [20; 22; 0; 42]%Z /\
  sparseJacobianJobs Z 0%Z 1%Z 2 1 [1%Z; 2%Z] [7%Z] true false (fun x s _ i j => nth j x 0%Z * s * Z.of_nat (10 * i + j))%Z [2; 1; 0; 2] [0; 1; 0; 1] (fun _ => repeat (-1)%Z 4)
    = Some [[(0, 20%Z); (2, 0%Z)]; [(1, 22%Z); (3, 42%Z)]].
Proof. vm_compute. repeat split; reflexivity. Qed.

(** The property does not hold for a list which repeats an element: the second position is never written. *)
Theorem C52_repeated_element_not_computed_refuted :
  exists (G : list Z -> Z -> list Z -> nat -> nat -> Z) rows cols garbage p i j,
    length rows = length cols /\ requested rows cols p i j /\
    forall forward atomics x res, length res = length rows ->
      exists res', sparseJacobian Z 0%Z 1%Z (length x) 1 x [] forward atomics G rows cols garbage res = Some res' /\ nth_error res' p = nth_error res p.
Proof.
  exists (fun _ _ _ i j => 5%Z), [0; 0], [0; 0], (fun _ => [0%Z; 0%Z]), 1, 0, 0. split; [reflexivity|]. split; [split; reflexivity|].
  intros forward atomics x res L.
  destruct (C52_sparse_jacobian_elements_partial Z 0%Z 1%Z (length x) 1 x [] forward atomics (fun _ _ _ _ _ => 5%Z) [0; 0] [0; 0] (fun _ => [0%Z; 0%Z]) res eq_refl eq_refl L ltac:(intros; cbn; lia)) as [res' [E [_ F]]].
  exists res'. split; [exact E|]. apply (F 1 0 0); [split; reflexivity|]. exists 0, 0, 0. repeat split; lia || reflexivity.
Qed.
Print Assumptions C52_repeated_element_not_computed_refuted.

(** ** The Hessian *)

(** The element which is evaluated for a request of (i, j): the symmetric one when only it is in the pattern. *)
Definition inPattern (sp : list (list nat)) (i j : nat) : Prop := exists r, nth_error sp i = Some r /\ In j r.

Definition evaluatedAs (sp : list (list nat)) (i j i' j' : nat) : Prop :=
  (i' = i /\ j' = j /\ (inPattern sp i j \/ ~ inPattern sp j i)) \/ (i' = j /\ j' = i /\ ~ inPattern sp i j /\ inPattern sp j i).

(** An earlier request is evaluated as the same element. *)
Definition sameAsEarlier (sp : list (list nat)) (rows cols : list nat) (p : nat) : Prop :=
  exists q i j i' j' a b, q < p /\ requested rows cols q i j /\ requested rows cols p i' j' /\
    evaluatedAs sp i j a b /\ evaluatedAs sp i' j' a b.

Lemma existsb_In j (r : list nat) : existsb (Nat.eqb j) r = true <-> In j r.
Proof.
  rewrite existsb_exists. split; [intros [x [I E]]; apply Nat.eqb_eq in E; subst x; exact I|]. intros I. exists j. split; [exact I|apply Nat.eqb_refl].
Qed.

Lemma evaluatedAs_fun sp i j a b a' b' : evaluatedAs sp i j a b -> evaluatedAs sp i j a' b' -> a = a' /\ b = b'.
Proof. intros [[-> [-> A]]|[-> [-> [A B]]]] [[-> [-> C]]|[-> [-> [C E]]]]; try (split; reflexivity); exfalso; tauto. Qed.

Lemma evalElements_ok sp rows : forall cols, length rows = length cols -> (forall i, In i rows -> i < length sp) -> (forall j, In j cols -> j < length sp) ->
  exists rs cs, evalElements sp rows cols = Some (rs, cs) /\ length rs = length rows /\ length cs = length cols /\
  forall p i j, requested rows cols p i j -> exists a b, requested rs cs p a b /\ evaluatedAs sp i j a b.
Proof.
  induction rows as [|i rows IH]; intros [|j cols] L H1 H2; try discriminate; cbn [evalElements].
  - exists [], []. split; [reflexivity|]. split; [reflexivity|]. split; [reflexivity|]. intros [|p] i j [X _]; discriminate.
  - destruct (nth_error sp i) as [ri|] eqn:Ei; [|exfalso; apply nth_error_None in Ei; specialize (H1 i (or_introl eq_refl)); lia].
    destruct (nth_error sp j) as [rj|] eqn:Ej; [|exfalso; apply nth_error_None in Ej; specialize (H2 j (or_introl eq_refl)); lia].
    injection L as L. destruct (IH cols L (fun k Hk => H1 k (or_intror Hk)) (fun k Hk => H2 k (or_intror Hk))) as [rs [cs [E [L1 [L2 P]]]]]. rewrite E.
    assert (Pi : inPattern sp i j <-> existsb (Nat.eqb j) ri = true).
    { rewrite existsb_In. split; [intros [r [Er I]]; rewrite Ei in Er; injection Er as <-; exact I|]. intros I. exists ri. split; assumption. }
    assert (Pj : inPattern sp j i <-> existsb (Nat.eqb i) rj = true).
    { rewrite existsb_In. split; [intros [r [Er I]]; rewrite Ej in Er; injection Er as <-; exact I|]. intros I. exists rj. split; assumption. }
    destruct (existsb (Nat.eqb j) ri) eqn:X; [|destruct (existsb (Nat.eqb i) rj) eqn:Y].
    + exists (i :: rs), (j :: cs). split; [reflexivity|]. cbn [length]. split; [congruence|]. split; [congruence|].
      intros [|p] i' j' [R1 R2]; cbn [nth_error] in R1, R2; [|apply (P p i' j'); split; assumption].
      injection R1 as <-. injection R2 as <-. exists i, j. split; [split; reflexivity|]. left. split; [reflexivity|]. split; [reflexivity|]. left. tauto.
    + exists (j :: rs), (i :: cs). split; [reflexivity|]. cbn [length]. split; [congruence|]. split; [congruence|].
      intros [|p] i' j' [R1 R2]; cbn [nth_error] in R1, R2; [|apply (P p i' j'); split; assumption].
      injection R1 as <-. injection R2 as <-. exists j, i. split; [split; reflexivity|]. right. split; [reflexivity|]. split; [reflexivity|].
      split; [intros Z; apply Pi in Z; discriminate|tauto].
    + exists (i :: rs), (j :: cs). split; [reflexivity|]. cbn [length]. split; [congruence|]. split; [congruence|].
      intros [|p] i' j' [R1 R2]; cbn [nth_error] in R1, R2; [|apply (P p i' j'); split; assumption].
      injection R1 as <-. injection R2 as <-. exists i, j. split; [split; reflexivity|]. left. split; [reflexivity|]. split; [reflexivity|]. right.
      intros Z. apply Pj in Z. discriminate.
Qed.

Lemma requested_fun rows cols p i j i' j' : requested rows cols p i j -> requested rows cols p i' j' -> i = i' /\ j = j'.
Proof. intros [A B] [C E]. rewrite A in C. rewrite B in E. injection C as ->. injection E as ->. auto. Qed.

Lemma repeated_same sp rows cols rs cs p : length rs = length rows -> length cs = length cols -> length rows = length cols ->
  (forall p i j, requested rows cols p i j -> exists a b, requested rs cs p a b /\ evaluatedAs sp i j a b) ->
  (repeated rs cs p <-> sameAsEarlier sp rows cols p).
Proof.
  intros L1 L2 L3 H. split.
  - intros [q [a [b [Hq [Rq Rp]]]]].
    assert (X : forall p a b, requested rs cs p a b -> exists i j, requested rows cols p i j).
    { intros p0 a0 b0 [A B]. assert (p0 < length rows) by (rewrite <- L1; apply nth_error_Some; rewrite A; discriminate).
      destruct (nth_error rows p0) as [i|] eqn:E1; [|apply nth_error_None in E1; lia]. destruct (nth_error cols p0) as [j|] eqn:E2; [|apply nth_error_None in E2; lia].
      exists i, j. split; assumption. }
    destruct (X _ _ _ Rq) as [i [j Q]]. destruct (X _ _ _ Rp) as [i' [j' P]]. destruct (H _ _ _ Q) as [a1 [b1 [Q1 Q2]]]. destruct (H _ _ _ P) as [a2 [b2 [P1 P2]]].
    destruct (requested_fun _ _ _ _ _ _ _ Rq Q1) as [<- <-]. destruct (requested_fun _ _ _ _ _ _ _ Rp P1) as [<- <-].
    exists q, i, j, i', j', a, b. repeat split; try assumption; try apply Q; try apply P.
  - intros [q [i [j [i' [j' [a [b [Hq [Q [P [E1 E2]]]]]]]]]]]. destruct (H _ _ _ Q) as [a1 [b1 [Q1 Q2]]]. destruct (H _ _ _ P) as [a2 [b2 [P1 P2]]].
    destruct (evaluatedAs_fun _ _ _ _ _ _ _ E1 Q2) as [<- <-]. destruct (evaluatedAs_fun _ _ _ _ _ _ _ E2 P2) as [<- <-]. exists q, a, b. auto.
Qed.

Lemma evaluated_value {V} (H : nat -> nat -> V) sp i j a b : (forall i j, H i j = H j i) -> evaluatedAs sp i j a b -> H a b = H i j.
Proof. intros S [[-> [-> _]]|[-> [-> _]]]; [reflexivity|apply S]. Qed.

(** What the sparse Hessian has to be. *)
Definition hfilled {V} (sp : list (list nat)) (H : nat -> nat -> V) (rows cols : list nat) (res res' : list V) : Prop :=
  length res' = length res /\
  forall p i j, requested rows cols p i j ->
    (~ sameAsEarlier sp rows cols p -> nth_error res' p = Some (H i j)) /\
    (sameAsEarlier sp rows cols p -> nth_error res' p = nth_error res p).

Lemma filled_hfilled {V} (H : nat -> nat -> V) sp rows cols rs cs res res' : (forall i j, H i j = H j i) ->
  length rs = length rows -> length cs = length cols -> length rows = length cols ->
  (forall p i j, requested rows cols p i j -> exists a b, requested rs cs p a b /\ evaluatedAs sp i j a b) ->
  filled H rs cs res res' -> hfilled sp H rows cols res res'.
Proof.
  intros S L1 L2 L3 P [L F]. split; [exact L|]. intros p i j R. destruct (P p i j R) as [a [b [R1 Ev]]]. destruct (F p a b R1) as [A B].
  pose proof (repeated_same sp rows cols rs cs p L1 L2 L3 P) as Q. split; intros X.
  - rewrite A by tauto. f_equal. eapply evaluated_value; [exact S|exact Ev].
  - apply B. tauto.
Qed.

(** The sparse Hessian made from the second-order reverse functions: all the elements are those of the symmetric matrix
    H, except for the ones which repeat the evaluation of an earlier one. *)
Theorem C52_sparse_hessian_elements_partial : forall V (zero one : V) n m x w atomics G sp rows cols garbage res,
  length x = n -> length w = m ->
  (forall i j, G x one w i j = G x one w j i) -> length rows = length cols -> length res = length rows ->
  (forall i, In i rows -> i < length sp) -> (forall j, In j cols -> j < length sp) -> (forall k, length rows <= length (garbage k)) ->
  exists res', sparseHessianRev2 V zero one n m x w atomics G sp rows cols garbage res = Some res' /\ hfilled sp (G x one w) rows cols res res'.
Proof.
  intros V zero one n m x w atomics G sp rows cols garbage res Ln Lm S L1 L2 B1 B2 Lg. unfold sparseHessianRev2, derivative, directIn, userIn, localIn, contents.
  rewrite Ln, Lm, !Nat.ltb_irrefl, <- Ln, <- Lm, !firstn_all.
  destruct (evalElements_ok sp rows cols L1 B1 B2) as [rs [cs [E [E1 [E2 P]]]]]. rewrite E.
  destruct (assembleCall_ok zero true atomics (G x one w) rs cs garbage res) as [res' [X F]]; [congruence|congruence|rewrite L2; exact Lg|].
  exists res'. split; [exact X|]. eapply filled_hfilled; [exact S|exact E1|exact E2|exact L1|exact P|exact F].
Qed.
Print Assumptions C52_sparse_hessian_elements_partial.

(** The row of the Hessian which is evaluated for the request at position p. *)
Definition evaluatedRow (sp : list (list nat)) (rows cols : list nat) (p k : nat) : Prop :=
  exists i j j', requested rows cols p i j /\ evaluatedAs sp i j k j'.
(** The requests evaluated in each row of the Hessian are one after the other. *)
Definition rowsTogether (sp : list (list nat)) (rows cols : list nat) : Prop :=
  forall p q r k, p < q -> q < r -> evaluatedRow sp rows cols p k -> evaluatedRow sp rows cols r k -> evaluatedRow sp rows cols q k.

(** With several threads, for every schedule: only when the elements of each row were requested one after the other (as
    in the default order, row by row); see below what is computed otherwise. *)
Theorem C52_sparse_hessian_any_schedule_partial : forall V (zero one : V) n m x w atomics G sp rows cols garbage,
  length x = n -> length w = m ->
  (forall i j, G x one w i j = G x one w j i) -> length rows = length cols ->
  (forall i, In i rows -> i < length sp) -> (forall j, In j cols -> j < length sp) -> (forall k, length rows <= length (garbage k)) ->
  rowsTogether sp rows cols -> (forall p, ~ sameAsEarlier sp rows cols p) ->
  exists ts, sparseHessianRev2Jobs V zero one n m x w atomics G sp rows cols garbage = Some ts /\ raceFree ts /\
    forall l res, length res = length rows -> interleaving ts l ->
      exists res', applyWrites V l res = Some res' /\ length res' = length rows /\
        forall p i j, requested rows cols p i j -> nth_error res' p = Some (G x one w i j).
Proof.
  intros V zero one n m x w atomics G sp rows cols garbage Ln Lm S L1 B1 B2 Lg T NR. unfold sparseHessianRev2Jobs.
  assert (ED : derivative V one n m x w true G (directIn true) = Some (G x one w)).
  { unfold derivative, directIn, userIn, localIn, contents. rewrite Ln, Lm, !Nat.ltb_irrefl, <- Ln, <- Lm, !firstn_all. reflexivity. }
  rewrite ED. destruct (evalElements_ok sp rows cols L1 B1 B2) as [rs [cs [E [E1 [E2 P]]]]]. rewrite E.
  pose proof (fun p => repeated_same sp rows cols rs cs p E1 E2 L1 P) as RS. destruct (entries_ok rs cs) as [is [Ei _]].
  assert (Row : forall p k, nth_error rs p = Some k <-> evaluatedRow sp rows cols p k).
  { intros p k. split.
    - intros Hk. destruct (nth_error rows p) as [i|] eqn:Ep; [|apply nth_error_None in Ep; assert (nth_error rs p = None) by (apply nth_error_None; lia); congruence].
      destruct (nth_error cols p) as [j|] eqn:Ej; [|apply nth_error_None in Ej; assert (nth_error rs p = None) by (apply nth_error_None; lia); congruence].
      destruct (P p i j (conj Ep Ej)) as [a [b [[Ra Rb] Ev]]]. assert (a = k) by congruence. subst a. exists i, j, b. split; [split; assumption|exact Ev].
    - intros [i [j [j' [R Ev]]]]. destruct (P p i j R) as [a [b [[Ra _] Ev']]]. destruct (evaluatedAs_fun _ _ _ _ _ _ _ Ev Ev') as [-> _]. exact Ra. }
  destruct (assembleJobs_direct zero atomics (G x one w) (derivative V one n m x w true G (wrapIn true)) rs cs garbage (length rows) is Ei) as [ts [X [R Q]]];
    [|congruence|congruence|exact Lg|].
  { apply (together_ordered rs cs); [congruence| |intros p Hp; apply (NR p); apply RS; exact Hp|exact Ei].
    intros p q r k H1 H2 H3 H4. apply Row. apply (T p q r k H1 H2); apply Row; assumption. }
  exists ts. split; [exact X|]. split; [exact R|]. intros l res Lr I. destruct (Q l res Lr I) as [res' [Y F]]. exists res'. split; [exact Y|].
  apply (filled_hfilled (G x one w) sp rows cols rs cs res res' S E1 E2 L1 P) in F. destruct F as [Fl F]. split; [congruence|].
  intros p i j Rq. apply (F p i j Rq). apply NR.
Qed.
Print Assumptions C52_sparse_hessian_any_schedule_partial.

(** The default order, row by row, with a symmetric pair, and two multipliers. *)
Example C52_hessian_schedule_case :
  let G := fun (x : list Z) (s : Z) (w : list Z) (i j : nat) => (s * (nth 0 w 0 * Z.of_nat (i + j) + nth 1 w 0 * nth 0 x 0))%Z in
  rowsTogether [[0; 1]; [0; 1]] [0; 0; 1; 1] [0; 1; 0; 1] /\ (forall p, ~ sameAsEarlier [[0; 1]; [0; 1]] [0; 0; 1; 1] [0; 1; 0; 1] p) /\
  sparseHessianRev2Jobs Z 0%Z 1%Z 2 2 [3; 4]%Z [5; 7]%Z false G [[0; 1]; [0; 1]] [0; 0; 1; 1] [0; 1; 0; 1] (fun _ => repeat 9%Z 4)
    = Some [[(0, 21%Z); (1, 26%Z)]; [(2, 26%Z); (3, 31%Z)]].
Proof.
  cbn zeta.
  assert (Hb : forall p i j, requested [0; 0; 1; 1] [0; 1; 0; 1] p i j -> p < 4 /\ i = p / 2 /\ j = p mod 2).
  { intros [|[|[|[|[|p]]]]] i j [X Y]; cbn in X, Y; try discriminate; injection X as <-; injection Y as <-; cbn; lia. }
  assert (Ev : forall p i j k j', requested [0; 0; 1; 1] [0; 1; 0; 1] p i j -> evaluatedAs [[0; 1]; [0; 1]] i j k j' -> k = i /\ j' = j).
  { intros p i j k j' R [[-> [-> _]]|[-> [-> [N _]]]]; [split; reflexivity|]. exfalso. apply N. destruct (Hb p i j R) as [H [-> ->]].
    destruct p as [|[|[|[|p]]]]; [| | | |lia]; eexists; (split; [reflexivity|cbn; tauto]). }
  split; [|split; [|reflexivity]].
  - intros p q r k H1 H2 [i [j [j' [Rp Ep]]]] [i2 [j2 [j2' [Rr Er]]]]. destruct (Ev _ _ _ _ _ Rp Ep) as [-> ->]. destruct (Ev _ _ _ _ _ Rr Er) as [X _].
    destruct (Hb _ _ _ Rp) as [A1 [A2 _]]. destruct (Hb _ _ _ Rr) as [B1 [B2 _]]. exfalso. rewrite A2, B2 in X. pose proof (Nat.div_mod p 2 ltac:(lia)). pose proof (Nat.div_mod r 2 ltac:(lia)).
    pose proof (Nat.mod_upper_bound p 2 ltac:(lia)). pose proof (Nat.mod_upper_bound r 2 ltac:(lia)). lia.
  - intros p [q [i [j [i2 [j2 [a [b [Hq [R1 [R2 [E1 E2]]]]]]]]]]]. destruct (Ev _ _ _ _ _ R1 E1) as [-> ->]. destruct (Ev _ _ _ _ _ R2 E2) as [X Y].
    destruct (Hb _ _ _ R1) as [A1 [A2 A3]]. destruct (Hb _ _ _ R2) as [B1 [B2 B3]]. pose proof (Nat.div_mod p 2 ltac:(lia)). pose proof (Nat.div_mod q 2 ltac:(lia)). lia.
Qed.

(** The functions "_wrap" of the multi-thread sparse Hessian read the multipliers from in[1], which is inLocal[1] of the
    function which calls them: the value 1 instead of the multipliers.  When the elements of a row are not together, the
    elements of that row are those of the Hessian with the multiplier 1 when there is only one equation... *)
Theorem C52_threads_ignore_multiplier_refuted :
  exists (G : list Z -> Z -> list Z -> nat -> nat -> Z) sp rows cols garbage,
    (forall x w i j, G x 1%Z w i j = G x 1%Z w j i) /\ length rows = length cols /\
    (forall p, ~ sameAsEarlier sp rows cols p) /\ requested rows cols 0 0 0 /\
    forall atomics x w0, length x = 2 ->
      G x 1%Z [w0] 0 0 = (2 * w0)%Z /\
      exists ts, sparseHessianRev2Jobs Z 0%Z 1%Z 2 1 x [w0] atomics G sp rows cols garbage = Some ts /\
        forall l res, length res = length rows -> interleaving ts l ->
          exists res', applyWrites Z l res = Some res' /\ nth_error res' 0 = Some 2%Z.
Proof.
  exists (fun x s w i j => (s * nth 0 w 0 * (2 + Z.of_nat (i + j)))%Z), [[0; 1]; [0; 1]], [0; 1; 0; 1], [0; 0; 1; 1], (fun _ => repeat 0%Z 4).
  split; [intros x w i j; rewrite (Nat.add_comm i j); reflexivity|]. split; [reflexivity|]. split.
  { intros p [q [i [j [i2 [j2 [a [b [Hq [[A1 A2] [[A3 A4] [E1 E2]]]]]]]]]]].
    assert (In01 : forall i j, i < 2 -> j < 2 -> inPattern [[0; 1]; [0; 1]] i j) by (intros [|[|i']] [|[|j']] Hi Hj; try lia; eexists; (split; [reflexivity|cbn; tauto])).
    assert (Hb : forall p i j, nth_error [0; 1; 0; 1] p = Some i -> nth_error [0; 0; 1; 1] p = Some j -> i < 2 /\ j < 2) by (intros [|[|[|[|[|p']]]]] i' j' X Y; cbn in X, Y; try discriminate; injection X as <-; injection Y as <-; lia).
    destruct (Hb _ _ _ A1 A2) as [Hi Hj]. destruct (Hb _ _ _ A3 A4) as [Hi2 Hj2].
    destruct E1 as [[-> [-> _]]|[_ [_ [N _]]]]; [|exfalso; apply N; apply In01; assumption]. destruct E2 as [[<- [<- _]]|[_ [_ [N _]]]]; [|exfalso; apply N; apply In01; assumption].
    destruct p as [|[|[|[|p]]]]; [lia| | | |destruct p; discriminate]; destruct q as [|[|[|q]]]; try lia; cbn in *; congruence. }
  split; [split; reflexivity|]. intros atomics x w0 Lx. split; [cbn [nth Nat.add]; change (Z.of_nat 0) with 0%Z; lia|].
  set (G := fun (x : list Z) (s : Z) (w : list Z) (i j : nat) => (s * nth 0 w 0 * (2 + Z.of_nat (i + j)))%Z).
  assert (Ei : entries [0; 1; 0; 1] [0; 0; 1; 1] = Some [mkInfo 0 [0; 1] [[0]; [2]] false; mkInfo 1 [0; 1] [[1]; [3]] false]) by reflexivity.
  destruct (assembleJobs_ok 0%Z atomics (G x 1 [w0])%Z (G x 1 [1])%Z [0; 1; 0; 1] [0; 0; 1; 1] (fun _ => repeat 0%Z 4) 4 _ Ei eq_refl eq_refl ltac:(intros; cbn; lia)) as [ts [X [_ Q]]].
  exists ts. split.
  { unfold sparseHessianRev2Jobs, derivative, wrapIn, directIn, userIn, localIn, contents. rewrite Lx. cbn [Nat.ltb Nat.leb length]. rewrite firstn_all2 by lia. exact X. }
  intros l res Lr I. destruct (Q l res Lr I) as [res' [Y [_ F]]]. exists res'. split; [exact Y|].
  destruct (F 0 0 0) as [A _]; [split; reflexivity|]. rewrite A; [reflexivity|]. intros [q [i [j [Hq _]]]]. lia.
Qed.
Print Assumptions C52_threads_ignore_multiplier_refuted.

(** ... and with more equations they read past the end of that variable, for every model. *)
Theorem C52_threads_read_out_of_bounds_refuted :
  exists sp rows cols, length rows = length cols /\ (forall i, In i rows -> i < length sp) /\ (forall j, In j cols -> j < length sp) /\
    forall V (zero one : V) n m x w atomics G garbage, length x = n -> length w = m -> 2 <= m ->
      sparseHessianRev2Jobs V zero one n m x w atomics G sp rows cols garbage = None.
Proof.
  exists [[0; 1]; [0; 1]], [0; 1; 0; 1], [0; 0; 1; 1]. split; [reflexivity|]. split; [intros i [<-|[<-|[<-|[<-|[]]]]]; cbn; lia|]. split; [intros i [<-|[<-|[<-|[<-|[]]]]]; cbn; lia|].
  intros V zero one n m x w atomics G garbage Ln Lm Hm. unfold sparseHessianRev2Jobs, derivative, wrapIn, directIn, userIn, localIn, contents.
  rewrite Ln, Lm, !Nat.ltb_irrefl. replace (length [one] <? m) with true by (symmetry; apply Nat.ltb_lt; cbn; lia). reflexivity.
Qed.
Print Assumptions C52_threads_read_out_of_bounds_refuted.

(** ** The Hessian generated directly *)
Lemma noRepeated_spec rows : forall cols seen, noRepeated seen rows cols = true <->
  (forall p, ~ repeated rows cols p) /\ (forall p i j, requested rows cols p i j -> ~ In (i, j) seen).
Proof.
  induction rows as [|i rows IH]; intros cols seen.
  { split; [intros _; split; [intros p [q [a [b [_ [[X _] _]]]]]; destruct q; discriminate|intros p a b [X _]; destruct p; discriminate]|intros _; reflexivity]. }
  destruct cols as [|j cols].
  { split; [intros _; split; [intros p [q [a [b [_ [[_ X] _]]]]]; destruct q; discriminate|intros p a b [_ X]; destruct p; discriminate]|intros _; reflexivity]. }
  cbn [noRepeated]. destruct (existsb (fun p => (fst p =? i) && (snd p =? j)) seen) eqn:E.
  - split; [discriminate|]. intros [_ H]. exfalso. apply (H 0 i j); [split; reflexivity|]. apply existsb_exists in E. destruct E as [[a b] [I E]].
    cbn [fst snd] in E. apply andb_true_iff in E. destruct E as [E1 E2]. apply Nat.eqb_eq in E1, E2. subst. exact I.
  - assert (N : ~ In (i, j) seen).
    { intros I. assert (X : existsb (fun p => (fst p =? i) && (snd p =? j)) seen = true); [|congruence]. apply existsb_exists. exists (i, j). split; [exact I|]. cbn [fst snd]. rewrite !Nat.eqb_refl. reflexivity. }
    rewrite IH. split.
    + intros [A B]. split.
      * intros p [q [a [b [Hq [Rq Rp]]]]]. destruct p as [|p]; [lia|]. destruct q as [|q].
        -- destruct Rq as [R1 R2]. cbn [nth_error] in R1, R2. injection R1 as <-. injection R2 as <-. apply (B p i j Rp). left. reflexivity.
        -- apply (A p). exists q, a, b. split; [lia|]. split; assumption.
      * intros [|p] a b [R1 R2]; cbn [nth_error] in R1, R2.
        -- injection R1 as <-. injection R2 as <-. exact N.
        -- intros I. apply (B p a b); [split; assumption|right; exact I].
    + intros [A B]. split.
      * intros p [q [a [b [Hq [Rq Rp]]]]]. apply (A (S p)). exists (S q), a, b. split; [lia|]. split; assumption.
      * intros p a b R [X|I].
        -- injection X as <- <-. apply (A (S p)). exists 0, i, j. split; [lia|]. split; [split; reflexivity|exact R].
        -- apply (B (S p) a b R I).
Qed.

Lemma lowerValues_ok {V} (H : nat -> nat -> V) all rows : forall cols e hess, length rows = length cols -> e + length rows <= length hess ->
  length (lowerValues H rows cols all e hess) = length hess /\
  (forall q, q < e -> nth_error (lowerValues H rows cols all e hess) q = nth_error hess q) /\
  (forall p i j, requested rows cols p i j -> duplicateOf (fst all) (snd all) i j = None -> nth_error (lowerValues H rows cols all e hess) (e + p) = Some (H i j)).
Proof.
  induction rows as [|i rows IH]; intros [|j cols] e hess L Le; try discriminate; cbn [lowerValues].
  - split; [reflexivity|]. split; [reflexivity|]. intros p i j [X _]. destruct p; discriminate.
  - injection L as L. cbn [length] in Le. set (h' := match duplicateOf (fst all) (snd all) i j with None => setNth hess e (H i j) | Some _ => hess end).
    assert (Lh : length h' = length hess) by (unfold h'; destruct (duplicateOf _ _ i j); [reflexivity|apply setNth_length]).
    destruct (IH cols (S e) h' L ltac:(lia)) as [A [B C]]. split; [congruence|]. split.
    + intros q Hq. rewrite B by lia. unfold h'. destruct (duplicateOf _ _ i j); [reflexivity|]. apply nth_set_ne. lia.
    + intros [|p] a b [R1 R2] N; cbn [nth_error] in R1, R2.
      * injection R1 as <-. injection R2 as <-. rewrite Nat.add_0_r, B by lia. unfold h'. rewrite N. apply nth_set_eq. lia.
      * replace (e + S p) with (S e + p) by lia. apply C; [split; assumption|exact N].
Qed.

Lemma copyDuplicates_ok {V} (all : list nat * list nat) rows : forall cols e (hess : list V), length rows = length cols -> e + length rows <= length hess ->
  (forall p i j s, requested rows cols p i j -> duplicateOf (fst all) (snd all) i j = Some s -> s < length hess /\
     (forall q a b, e + q = s -> requested rows cols q a b -> duplicateOf (fst all) (snd all) a b = None)) ->
  exists h', copyDuplicates rows cols all e hess = Some h' /\ length h' = length hess /\
    (forall q, q < e -> nth_error h' q = nth_error hess q) /\
    (forall p i j, requested rows cols p i j -> duplicateOf (fst all) (snd all) i j = None -> nth_error h' (e + p) = nth_error hess (e + p)) /\
    (forall p i j s, requested rows cols p i j -> duplicateOf (fst all) (snd all) i j = Some s -> nth_error h' (e + p) = nth_error hess s).
Proof.
  induction rows as [|i rows IH]; intros [|j cols] e hess L Le Hd; try discriminate; cbn [copyDuplicates].
  - exists hess. split; [reflexivity|]. split; [reflexivity|]. split; [reflexivity|]. split; intros p a b; [intros [X _] _|intros s [X _] _]; destruct p; discriminate.
  - injection L as L. cbn [length] in Le. destruct (duplicateOf (fst all) (snd all) i j) as [s|] eqn:E.
    + destruct (Hd 0 i j s ltac:(split; reflexivity) E) as [Hs Hs2]. destruct (nth_error hess s) as [v|] eqn:Ev; [|apply nth_error_None in Ev; lia].
      assert (Nse : s <> e).
      { intros ->. specialize (Hs2 0 i j ltac:(lia) ltac:(split; reflexivity)). congruence. }
      destruct (IH cols (S e) (setNth hess e v) L ltac:(rewrite setNth_length; lia)) as [h' [E1 [L1 [Q1 [Q2 Q3]]]]].
      { intros p a b t R Dp. rewrite setNth_length. destruct (Hd (S p) a b t R Dp) as [A B]. split; [exact A|]. intros q a' b' Hq R'. apply (B (S q) a' b'); [lia|exact R']. }
      rewrite setNth_length in L1. exists h'. split; [exact E1|]. split; [exact L1|]. split; [|split].
      * intros q Hq. rewrite Q1 by lia. apply nth_set_ne. lia.
      * intros [|p] a b R Dp; [destruct R as [R1 R2]; cbn [nth_error] in R1, R2; injection R1 as <-; injection R2 as <-; congruence|].
        replace (e + S p) with (S e + p) by lia. rewrite (Q2 p a b R Dp). apply nth_set_ne. lia.
      * intros [|p] a b t R Dp.
        -- destruct R as [R1 R2]; cbn [nth_error] in R1, R2; injection R1 as <-; injection R2 as <-. rewrite E in Dp. injection Dp as <-.
           rewrite Nat.add_0_r, Q1 by lia. rewrite nth_set_eq by lia. symmetry. exact Ev.
        -- replace (e + S p) with (S e + p) by lia. rewrite (Q3 p a b t R Dp). apply nth_set_ne. intros <-.
           destruct (Hd (S p) a b e R Dp) as [_ Z]. specialize (Z 0 i j ltac:(lia) ltac:(split; reflexivity)). congruence.
    + destruct (IH cols (S e) hess L ltac:(lia)) as [h' [E1 [L1 [Q1 [Q2 Q3]]]]].
      { intros p a b t R Dp. destruct (Hd (S p) a b t R Dp) as [A B]. split; [exact A|]. intros q a' b' Hq R'. apply (B (S q) a' b'); [lia|exact R']. }
      exists h'. split; [exact E1|]. split; [exact L1|]. split; [|split].
      * intros q Hq. apply Q1. lia.
      * intros [|p] a b R Dp; [rewrite Nat.add_0_r; apply Q1; lia|]. replace (e + S p) with (S e + p) by lia. apply (Q2 p a b R Dp).
      * intros [|p] a b t R Dp; [destruct R as [R1 R2]; cbn [nth_error] in R1, R2; injection R1 as <-; injection R2 as <-; congruence|].
        replace (e + S p) with (S e + p) by lia. apply (Q3 p a b t R Dp).
Qed.

Lemma duplicateOf_some rows cols i j s : duplicateOf rows cols i j = Some s -> i < j /\ requested rows cols s j i.
Proof.
  unfold duplicateOf. destruct (i <? j) eqn:E; [|discriminate]. apply Nat.ltb_lt in E. intros H. apply firstAt_some in H. destruct H as [d [-> [A [B _]]]].
  split; [exact E|]. split; assumption.
Qed.

(** The sparse Hessian generated without the reverse functions throws exactly when two requests are evaluated as the
    same element, and otherwise all the elements are right. *)
Theorem C52_sparse_hessian_directly : forall V (zero : V) H sp rows cols,
  (forall i j, H i j = H j i) -> length rows = length cols ->
  (forall i, In i rows -> i < length sp) -> (forall j, In j cols -> j < length sp) ->
  ((exists p, sameAsEarlier sp rows cols p) /\ hessianDirectly zero H sp rows cols = HThrow) \/
  ((forall p, ~ sameAsEarlier sp rows cols p) /\
   exists hess, hessianDirectly zero H sp rows cols = HDone hess /\ length hess = length rows /\
     forall p i j, requested rows cols p i j -> nth_error hess p = Some (H i j)).
Proof.
  intros V zero H sp rows cols S L1 B1 B2. unfold hessianDirectly.
  destruct (evalElements_ok sp rows cols L1 B1 B2) as [rs [cs [E [E1 [E2 P]]]]]. rewrite E.
  pose proof (fun p => repeated_same sp rows cols rs cs p E1 E2 L1 P) as RS.
  destruct (noRepeated [] rs cs) eqn:N.
  - right. apply noRepeated_spec in N. destruct N as [N _]. split; [intros p X; apply (N p); apply RS; exact X|].
    assert (Lr : length rs = length cs) by congruence.
    set (h0 := repeat zero (length rows)). assert (L0 : length h0 = length rs) by (unfold h0; rewrite repeat_length; congruence).
    destruct (lowerValues_ok H (rs, cs) rs cs 0 h0 Lr ltac:(lia)) as [A [_ C]].
    destruct (copyDuplicates_ok (rs, cs) rs cs 0 (lowerValues H rs cs (rs, cs) 0 h0) Lr ltac:(lia)) as [h' [X [Lh [_ [Q2 Q3]]]]].
    { intros p i j s R Dp. cbn [fst snd] in *. apply duplicateOf_some in Dp. destruct Dp as [Hij Rs]. split.
      - rewrite A, L0. apply nth_error_Some. destruct Rs as [Rs _]. rewrite Rs. discriminate.
      - intros q a b Hq R'. cbn [Nat.add] in Hq. subst q. destruct (requested_fun _ _ _ _ _ _ _ Rs R') as [<- <-]. unfold duplicateOf.
        destruct (j <? i) eqn:Y; [apply Nat.ltb_lt in Y; lia|reflexivity]. }
    rewrite X. exists h'. split; [reflexivity|]. split; [rewrite Lh, A, L0; congruence|].
    intros p i j R. destruct (P p i j R) as [a [b [R1 Ev]]]. rewrite <- (evaluated_value H sp i j a b S Ev).
    destruct (duplicateOf rs cs a b) as [s|] eqn:Dp.
    + specialize (Q3 p a b s R1 Dp). cbn [Nat.add] in Q3. rewrite Q3. destruct (duplicateOf_some _ _ _ _ _ Dp) as [Hab Rs].
      specialize (C s b a Rs). cbn [Nat.add fst snd] in C. rewrite C; [f_equal; apply S|]. unfold duplicateOf. destruct (b <? a) eqn:Y; [apply Nat.ltb_lt in Y; lia|reflexivity].
    + specialize (Q2 p a b R1 Dp). cbn [Nat.add] in Q2. rewrite Q2. apply (C p a b R1 Dp).
  - left. split; [|reflexivity].
    assert (X : ~ forall p, ~ repeated rs cs p).
    { intros X. assert (Y : noRepeated [] rs cs = true); [|congruence]. apply noRepeated_spec. split; [exact X|]. intros p i j _ []. }
    (* the first repetition is found by search *)
    assert (Dec : forall n, (exists p, p < n /\ repeated rs cs p) \/ forall p, p < n -> ~ repeated rs cs p).
    { assert (One : forall p, repeated rs cs p \/ ~ repeated rs cs p).
      { intros p. destruct (nth_error rs p) as [i|] eqn:Ei; [|right; intros [q [a [b [_ [_ [Z _]]]]]]; congruence].
        destruct (nth_error cs p) as [j|] eqn:Ej; [|right; intros [q [a [b [_ [_ [_ Z]]]]]]; congruence].
        destruct (firstAt i j rs cs 0) as [q|] eqn:Eq.
        - apply firstAt_some in Eq. destruct Eq as [d [-> HP]]. destruct (lt_dec d p) as [Hd|Hd].
          + left. exists d, i, j. split; [exact Hd|]. split; [apply isPos_requested in HP; exact (proj1 HP)|split; assumption].
          + right. intros [q [a [b [Hq [Rq [Z1 Z2]]]]]]. rewrite Ei in Z1. injection Z1 as <-. rewrite Ej in Z2. injection Z2 as <-. destruct HP as [_ [_ HP]].
            apply (HP q); [lia|exact Rq].
        - exfalso. exact (firstAt_none _ _ _ _ _ Eq p (conj Ei Ej)). }
      induction n as [|n IH]; [right; intros p Hp; lia|]. destruct IH as [[p [Hp Rp]]|IH]; [left; exists p; split; [lia|exact Rp]|].
      destruct (One n) as [R|R]; [left; exists n; split; [lia|exact R]|]. right. intros p Hp. destruct (Nat.eq_dec p n) as [->|Np]; [exact R|apply IH; lia]. }
    destruct (Dec (length rs)) as [[p [_ Rp]]|Dn]; [exists p; apply RS; exact Rp|].
    exfalso. apply X. intros p Rp. pose proof Rp as Rp'. destruct Rp' as [q [a [b [_ [_ [Z _]]]]]]. apply (Dn p); [|exact Rp]. apply nth_error_Some. rewrite Z. discriminate.
Qed.
Print Assumptions C52_sparse_hessian_directly.

(** Both elements of a symmetric pair of which only one is in the pattern (a partial Hessian given by an atomic function),
    the upper element being taken from the lower one. *)
Example C52_hessian_case :
  let H := fun i j : nat => Z.of_nat (10 * (i + j) + i * j) in
  evalElements [[0]; [0; 1]] [0; 0; 1] [0; 1; 1] = Some ([0; 1; 1], [0; 0; 1]) /\
  sparseHessianRev2 Z 0%Z 1%Z 2 1 [3; 4]%Z [1%Z] false (fun _ s w i j => s * nth 0 w 0 * H i j)%Z [[0]; [0; 1]] [0; 0; 1] [0; 1; 1] (fun _ => repeat 9%Z 3) (repeat 9%Z 3) = Some [0; 10; 21]%Z /\
  hessianDirectly 0%Z H [[0]; [0; 1]] [0; 0; 1] [0; 1; 1] = HDone [0; 10; 21]%Z /\
  hessianDirectly 0%Z H [[0; 1]; [0; 1]] [0; 0; 1; 1] [0; 1; 0; 1] = HDone [0; 10; 10; 21]%Z.
Proof. vm_compute. repeat split; reflexivity. Qed.

(** Distinct elements of the Hessian whose request is not answered: when only one element of a symmetric pair is in the
    pattern and both are requested, the direct generation throws and the version made from the reverse functions does
    not write the second one. *)
Theorem C52_symmetric_pair_not_computed_refuted :
  exists (H : nat -> nat -> Z) sp rows cols garbage p i j,
    (forall i j, H i j = H j i) /\ length rows = length cols /\ requested rows cols p i j /\ ~ repeated rows cols p /\
    hessianDirectly 0%Z H sp rows cols = HThrow /\
    forall atomics x w res, length res = length rows ->
      exists res', sparseHessianRev2 Z 0%Z 1%Z (length x) (length w) x w atomics (fun _ _ _ => H) sp rows cols garbage res = Some res' /\ nth_error res' p = nth_error res p.
Proof.
  exists (fun i j => Z.of_nat (i + j)), [[]; [0]], [1; 0], [0; 1], (fun _ => [0%Z; 0%Z]), 1, 0, 1.
  split; [intros i j; f_equal; lia|]. split; [reflexivity|]. split; [split; reflexivity|]. split.
  { intros [q [i [j [Hq [[Q1 Q2] [P1 P2]]]]]]. assert (q = 0) by lia. subst q. cbn in *. congruence. }
  split; [reflexivity|]. intros atomics x w res L.
  destruct (C52_sparse_hessian_elements_partial Z 0%Z 1%Z (length x) (length w) x w atomics (fun _ _ _ i j => Z.of_nat (i + j)) [[]; [0]] [1; 0] [0; 1] (fun _ => [0%Z; 0%Z]) res eq_refl eq_refl) as [res' [E [_ F]]].
  - intros i j. f_equal. lia.
  - reflexivity.
  - exact L.
  - intros i [<-|[<-|[]]]; cbn; lia.
  - intros i [<-|[<-|[]]]; cbn; lia.
  - intros k. cbn. lia.
  - exists res'. split; [exact E|]. apply (F 1 0 1); [split; reflexivity|]. exists 0, 1, 0, 0, 1, 1, 0. split; [lia|].
    split; [split; reflexivity|]. split; [split; reflexivity|].
    assert (P10 : inPattern [[]; [0]] 1 0) by (exists [0]; split; [reflexivity|left; reflexivity]).
    assert (N01 : ~ inPattern [[]; [0]] 0 1) by (intros [r [Er I]]; cbn in Er; injection Er as <-; exact I).
    split; [left; split; [reflexivity|]; split; [reflexivity|]; left; exact P10|].
    right. split; [reflexivity|]. split; [reflexivity|]. split; [exact N01|exact P10].
Qed.
Print Assumptions C52_symmetric_pair_not_computed_refuted.

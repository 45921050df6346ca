(** * C37: array views access exactly their window *)
From Coq Require Import List NArith Bool Lia Arith.
From Verif Require Import View_model.
Import ListNotations.
Local Open Scope N_scope.

(** ** Specification *)

Section Spec.
  Context {A : Type}.
  (** The view is within the memory. *)
  Definition valid (m : list A) (v : view) : Prop := v_data v + v_length v <= N.of_nat (length m) /\ N.of_nat (length m) < size_max.
  (** The elements of a view. *)
  Definition elements (m : list A) (v : view) : list A := firstn (N.to_nat (v_length v)) (skipn (N.to_nat (v_data v)) m).
  (** [m'] is [m] with the elements of the view replaced by [l]. *)
  Definition written (m m' : list A) (v : view) (l : list A) : Prop :=
    m' = firstn (N.to_nat (v_data v)) m ++ l ++ skipn (N.to_nat (v_data v + v_length v)) m.
End Spec.

(** ** Proofs *)

Section Proofs.
  Context {A : Type}.
  Implicit Types (m : list A) (v : view).

  Lemma skipn_skipn : forall x y (l : list A), skipn x (skipn y l) = skipn (x + y) l.
  Proof.
    intros x y. revert x. induction y as [|y IH]; intros x l; [rewrite Nat.add_0_r; reflexivity|].
    rewrite Nat.add_succ_r. destruct l as [|a l]; cbn [skipn]; [destruct x; reflexivity|apply IH].
  Qed.

  Lemma put_split : forall m i (x : A), (i < length m)%nat -> put m i x = firstn i m ++ x :: skipn (S i) m.
  Proof. induction m as [|y m IH]; intros [|i] x H; cbn in *; try lia; [reflexivity|]. rewrite IH by lia. reflexivity. Qed.

  Lemma put_length : forall m i (x : A), length (put m i x) = length m.
  Proof. induction m as [|y m IH]; intros [|i] x; cbn; auto. Qed.

  Lemma copyList_spec : forall l m d, d + N.of_nat (length l) <= N.of_nat (length m) ->
    copyList m d l = VOk (firstn (N.to_nat d) m ++ l ++ skipn (N.to_nat d + length l) m).
  Proof.
    induction l as [|x l IH]; intros m d H; cbn [copyList length].
    - rewrite Nat.add_0_r. cbn [app]. rewrite firstn_skipn. reflexivity.
    - cbn [length] in H. unfold store. rewrite (proj2 (N.ltb_lt _ _)) by lia. rewrite IH by (rewrite put_length; lia).
      f_equal. rewrite put_split by lia. set (k := N.to_nat d). replace (N.to_nat (d + 1)) with (k + 1)%nat by lia.
      assert (Hk : length (firstn k m) = k) by (rewrite firstn_length; lia).
      rewrite firstn_app, skipn_app, Hk. rewrite (firstn_all2 (firstn k m)) by lia. rewrite (skipn_all2 (firstn k m)) by lia.
      replace (k + 1 - k)%nat with 1%nat by lia. replace (k + 1 + length l - k)%nat with (S (length l)) by lia. cbn [firstn].
      change (skipn (S (length l)) (x :: skipn (S k) m)) with (skipn (length l) (skipn (S k) m)).
      rewrite <- app_assoc. cbn [app]. rewrite skipn_skipn. replace (length l + S k)%nat with (k + S (length l))%nat by lia. reflexivity.
  Qed.

  Lemma fillFrom_copy x : forall n m d, fillFrom m d n x = copyList m d (repeat x n).
  Proof. induction n as [|n IH]; intros m d; cbn; [reflexivity|]. destruct (store m d x); auto. Qed.

  (** Copying from memory is copying the elements when what is read is never
      written before. *)
  Lemma skipn_put : forall k m i (x : A), (i < k)%nat -> skipn k (put m i x) = skipn k m.
  Proof. induction k as [|k IH]; intros [|y m] [|i] x H; cbn in *; try lia; try reflexivity. apply IH. lia. Qed.

  Lemma firstn_put : forall n m i (x : A), (n <= i)%nat -> firstn n (put m i x) = firstn n m.
  Proof. induction n as [|n IH]; intros [|y m] [|i] x H; cbn in *; try lia; try reflexivity. rewrite IH by lia. reflexivity. Qed.

  Lemma window_put : forall k n m i (x : A), (k + n <= i)%nat -> firstn n (skipn k (put m i x)) = firstn n (skipn k m).
  Proof.
    induction k as [|k IH]; intros n m i x H.
    - cbn [skipn]. apply firstn_put. lia.
    - destruct m as [|y m], i as [|i]; cbn [put skipn]; try lia; try reflexivity. apply IH. lia.
  Qed.

  Lemma copyFrom_list : forall n m d s, s + N.of_nat n <= N.of_nat (length m) -> d + N.of_nat n <= N.of_nat (length m) ->
    (d <= s \/ s + N.of_nat n <= d) ->
    copyFrom m d s n = copyList m d (firstn n (skipn (N.to_nat s) m)).
  Proof.
    induction n as [|n IH]; intros m d s H1 H2 H3; cbn [copyFrom]; [reflexivity|].
    unfold load. destruct (nth_error m (N.to_nat s)) as [x|] eqn:E.
    2:{ apply nth_error_None in E. lia. }
    assert (Es : skipn (N.to_nat s) m = x :: skipn (N.to_nat (s + 1)) m).
    { replace (N.to_nat (s + 1)) with (S (N.to_nat s)) by lia. clear -E. revert E. generalize (N.to_nat s) as k. induction m as [|y m IHm]; intros [|k] E; cbn in *; try discriminate; [congruence|]. apply IHm. assumption. }
    rewrite Es. cbn [firstn copyList]. unfold store. rewrite (proj2 (N.ltb_lt _ _)) by lia.
    rewrite IH by (rewrite ?put_length; lia). f_equal. destruct H3 as [H3|H3].
    - rewrite skipn_put by lia. reflexivity.
    - rewrite window_put by lia. reflexivity.
  Qed.

  Lemma elements_length m v : valid m v -> length (elements m v) = N.to_nat (v_length v).
  Proof. intros [H _]. unfold elements. rewrite firstn_length, skipn_length. lia. Qed.

  Lemma nth_firstn : forall n (l : list A) i, (i < n)%nat -> nth_error (firstn n l) i = nth_error l i.
  Proof. induction n as [|n IH]; intros [|x l] [|i] H; cbn; try lia; try reflexivity. apply IH. lia. Qed.

  Lemma nth_skipn : forall n (l : list A) i, nth_error (skipn n l) i = nth_error l (n + i).
  Proof. induction n as [|n IH]; intros [|x l] i; cbn; try reflexivity; [destruct i; reflexivity|apply IH]. Qed.

  Lemma elements_nth m v i : i < v_length v -> nth_error (elements m v) (N.to_nat i) = nth_error m (N.to_nat (v_data v + i)).
  Proof. intros H. unfold elements. rewrite nth_firstn by lia. rewrite nth_skipn. f_equal. lia. Qed.
End Proofs.

(** ** Theorems *)

(** head and tail: the first and the last elements; anything longer is an
    error. *)
Theorem C37_head_tail {A : Type} (m : list A) (v : view) n : valid m v ->
  match head v n with
  | VOk w => n <= v_length v /\ valid m w /\ elements m w = firstn (N.to_nat n) (elements m v)
  | VError => v_length v < n
  | _ => False
  end /\
  match tail v n with
  | VOk w => n <= v_length v /\ valid m w /\ elements m w = skipn (N.to_nat (v_length v - n)) (elements m v)
  | VError => v_length v < n
  | _ => False
  end.
Proof.
  intros [H1 H2]. unfold head, tail, vcheck. destruct (N.leb_spec n (v_length v)) as [H|H]; [|split; exact H]. split; (split; [assumption|]); unfold valid, elements; cbn [v_data v_length].
  - split; [lia|]. rewrite firstn_firstn. f_equal. lia.
  - split; [lia|]. rewrite skipn_firstn_comm, skipn_skipn. f_equal; [lia|]. f_equal. lia.
Qed.

(** segment: the elements from start, unless start is after the last element or
    the segment would end after the view, when the sum of its arguments can be
    represented. *)
Theorem C37_segment {A : Type} (m : list A) (v : view) start n : valid m v -> start + n < size_max ->
  match segment v start n with
  | VOk w => start + n <= v_length v /\ valid m w /\ elements m w = firstn (N.to_nat n) (skipn (N.to_nat start) (elements m v))
  | VError => v_length v <= start \/ v_length v < start + n
  | _ => False
  end.
Proof.
  intros [H1 H2] Hn. unfold segment, vcheck, wrap. rewrite N.mod_small by exact Hn.
  destruct (N.ltb_spec start (v_length v)) as [H|H]; [|left; exact H]. destruct (N.leb_spec (start + n) (v_length v)) as [H'|H']; [|right; exact H'].
  split; [assumption|]. unfold valid, elements. cbn [v_data v_length]. split; [lia|].
  rewrite skipn_firstn_comm, skipn_skipn, firstn_firstn. f_equal; [lia|]. f_equal. lia.
Qed.

(** Reading: every index of the view reads its element and every other index is
    rejected; memory outside is never read. *)
Theorem C37_reading {A : Type} (m : list A) (v : view) i : valid m v ->
  match index m v i with
  | VOk x => i < v_length v /\ nth_error (elements m v) (N.to_nat i) = Some x
  | VError => v_length v <= i
  | _ => False
  end /\
  match at_ m v i with
  | VOk x => i < v_length v /\ nth_error (elements m v) (N.to_nat i) = Some x
  | VThrow => v_length v <= i
  | _ => False
  end.
Proof.
  intros Hv. assert (E : i < v_length v -> exists x, nth_error m (N.to_nat (v_data v + i)) = Some x).
  { intros H. destruct (nth_error m (N.to_nat (v_data v + i))) as [x|] eqn:E; [exists x; reflexivity|]. apply nth_error_None in E. destruct Hv. lia. }
  unfold index, at_, vcheck, load. split.
  - destruct (N.ltb_spec i (v_length v)) as [H|H]; [|exact H]. destruct (E H) as [x Ex]. rewrite Ex. split; [assumption|]. rewrite elements_nth; assumption.
  - destruct (N.leb_spec (v_length v) i) as [H|H]; [exact H|]. destruct (E H) as [x Ex]. rewrite Ex. split; [assumption|]. rewrite elements_nth; assumption.
Qed.

(** front and back. *)
Theorem C37_ends {A : Type} (m : list A) (v : view) : valid m v ->
  (forall x l, elements m v = x :: l -> front m v = VOk x) /\
  (forall x l, elements m v = l ++ [x] -> back m v = VOk x) /\
  (elements m v = [] -> front m v = VError /\ back m v = VError).
Proof.
  intros Hv. assert (L := elements_length m v Hv). unfold front, back, vcheck. split; [|split].
  - intros x l E. rewrite E in L. cbn [length] in L. destruct (N.eqb_spec (v_length v) 0); [lia|]. cbn [negb]. unfold load.
    replace (v_data v) with (v_data v + 0) by lia. rewrite <- (elements_nth m v 0) by lia. rewrite E. reflexivity.
  - intros x l E. rewrite E in L. rewrite app_length in L. cbn [length] in L. destruct (N.eqb_spec (v_length v) 0); [lia|]. cbn [negb]. unfold load.
    replace (v_data v + v_length v - 1) with (v_data v + (v_length v - 1)) by lia. rewrite <- (elements_nth m v) by lia. rewrite E.
    rewrite nth_error_app2 by lia. replace (N.to_nat (v_length v - 1) - length l)%nat with O by lia. reflexivity.
  - intros E. rewrite E in L. cbn [length] in L. destruct (N.eqb_spec (v_length v) 0); [|lia]. split; reflexivity.
Qed.

(** Writing one element, all of them, or those of a vector changes the window
    only. *)
Theorem C37_writing {A : Type} (m : list A) (v : view) i (x : A) (l : list A) : valid m v ->
  match assign m v i x with
  | VOk m' => i < v_length v /\ written m m' (mkView (v_data v + i) 1) [x]
  | VError => v_length v <= i
  | _ => False
  end /\
  (exists m', fill m v x = VOk m' /\ written m m' v (repeat x (N.to_nat (v_length v)))) /\
  match assignVector m v l with
  | VOk m' => N.of_nat (length l) = v_length v /\ written m m' v l
  | VThrow => N.of_nat (length l) <> v_length v
  | _ => False
  end.
Proof.
  intros [H1 H2]. split; [|split].
  - unfold assign, vcheck, store. destruct (N.ltb_spec i (v_length v)) as [H|H]; [|exact H]. rewrite (proj2 (N.ltb_lt _ _)) by lia.
    split; [assumption|]. unfold written. cbn [v_data v_length]. rewrite put_split by lia. cbn [app]. do 2 f_equal. f_equal. lia.
  - unfold fill. rewrite fillFrom_copy. rewrite copyList_spec by (rewrite repeat_length; lia). eexists. split; [reflexivity|].
    unfold written. rewrite repeat_length. do 2 f_equal. f_equal. lia.
  - unfold assignVector. destruct (N.eqb_spec (N.of_nat (length l)) (v_length v)) as [H|H]; cbn [negb]; [|exact H].
    rewrite copyList_spec by lia. split; [assumption|]. unfold written. do 2 f_equal. f_equal. lia.
Qed.

(** Assigning views copies the elements as they were before, when the
    destination does not start within the source after its first element;
    otherwise sizes which differ are rejected. *)
Theorem C37_assignment {A : Type} (m : list A) (v : view) x : valid m v -> valid m x ->
  (v_data v <= v_data x \/ v_data x + v_length x <= v_data v) ->
  match assignView m v x false with
  | VOk m' => v_length x = v_length v /\ written m m' v (elements m x)
  | VThrow => v_length x <> v_length v
  | _ => False
  end.
Proof.
  intros [Hv _] Hx' Hd. assert (L := elements_length m x Hx'). destruct Hx' as [Hx _]. unfold assignView.
  destruct (N.eqb_spec (v_length x) (v_length v)) as [H|H]; cbn [negb]; [|exact H].
  rewrite copyFrom_list by lia. rewrite <- H. change (firstn (N.to_nat (v_length x)) (skipn (N.to_nat (v_data x)) m)) with (elements m x).
  rewrite copyList_spec by lia. split; [reflexivity|]. unfold written. do 2 f_equal. f_equal. lia.
Qed.
(** Assigning a view to itself changes nothing, whether or not it is noticed that both are the same object. *)
Theorem C37_self_assignment {A : Type} (m : list A) (v : view) same : valid m v -> assignView m v v same = VOk m.
Proof.
  intros Hv. destruct same; [reflexivity|]. assert (H := C37_assignment m v v Hv Hv (or_introl (N.le_refl _))).
  destruct (assignView m v v false) as [m'| | |]; [|destruct H|congruence|destruct H]. destruct H as [_ W]. f_equal. unfold written in W. rewrite W.
  unfold elements. rewrite <- (firstn_skipn (N.to_nat (v_data v)) m) at 4. f_equal.
  rewrite <- (firstn_skipn (N.to_nat (v_length v)) (skipn (N.to_nat (v_data v)) m)) at 2. f_equal. rewrite skipn_skipn. f_equal. lia.
Qed.
Print Assumptions C37_self_assignment.
Print Assumptions C37_head_tail.
Print Assumptions C37_segment.
Print Assumptions C37_reading.
Print Assumptions C37_ends.
Print Assumptions C37_writing.
Print Assumptions C37_assignment.

(** When the destination starts within the source, elements are overwritten before
    they are copied. *)
Theorem C37_overlapping_refuted :
  exists (m m' : list nat) v x, valid m v /\ valid m x /\ v_length x = v_length v /\
    assignView m v x false = VOk m' /\ elements m' v <> elements m x.
Proof.
  exists [1; 2; 3; 4]%nat, [1; 1; 1; 1]%nat, (mkView 1 3), (mkView 0 3).
  split; [split; vm_compute; [discriminate|reflexivity]|]. split; [split; vm_compute; [discriminate|reflexivity]|]. split; [reflexivity|].
  split; [vm_compute; reflexivity|]. vm_compute. discriminate.
Qed.
Print Assumptions C37_overlapping_refuted.

(** The check of segment is passed when start + n exceeds the range of size_t, and
    the segment then reads memory which is not there. *)
Theorem C37_segment_wrap_refuted :
  exists (m : list nat) v start n w, valid m v /\ segment v start n = VOk w /\ ~ valid m w /\ index m w 1 = VUndefined.
Proof.
  exists [7; 8]%nat, (mkView 0 2), 1, (size_max - 1), (mkView 1 (size_max - 1)).
  split; [split; vm_compute; [discriminate|reflexivity]|]. split; [vm_compute; reflexivity|]. split; [|vm_compute; reflexivity].
  intros [H _]. vm_compute in H. apply H. reflexivity.
Qed.
Print Assumptions C37_segment_wrap_refuted.

(** An empty segment at the end is rejected although the empty head and tail are
    not. *)
Theorem C37_empty_segment_refuted v :
  segment v (v_length v) 0 = VError /\ head v 0 = VOk (mkView (v_data v) 0) /\ tail v 0 = VOk (mkView (v_data v + v_length v) 0).
Proof.
  unfold segment, head, tail, vcheck. rewrite N.ltb_irrefl. split; [reflexivity|]. rewrite (proj2 (N.leb_le 0 _)) by lia. split; [reflexivity|].
  rewrite N.sub_0_r. reflexivity.
Qed.
Print Assumptions C37_empty_segment_refuted.

Example C37_case :
  let m := [10; 11; 12; 13; 14; 15]%nat in let v := mkView 1 4 in
  valid m v /\ elements m v = [11; 12; 13; 14]%nat /\ segment v 1 2 = VOk (mkView 2 2) /\ elements m (mkView 2 2) = [12; 13]%nat /\
  at_ m v 4 = VThrow /\ assignView m (mkView 0 3) (mkView 1 3) false = VOk [11; 12; 13; 13; 14; 15]%nat.
Proof. cbv zeta. split; [split; vm_compute; [discriminate|reflexivity]|]. vm_compute. repeat split; reflexivity. Qed.

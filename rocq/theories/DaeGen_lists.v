(** * Lists *)
From Coq Require Import List Arith Bool Lia Sorted.
From Verif Require Import DaeGen_model.
Import ListNotations.
Local Open Scope nat_scope.

Lemma upd_length {A} (f : A -> A) k l : List.length (upd f k l) = List.length l.
Proof. revert k; induction l; destruct k; simpl; auto. Qed.
Lemma upd_nth {A} (f : A -> A) k l p :
  nth_error (upd f k l) p = if p =? k then option_map f (nth_error l p) else nth_error l p.
Proof.
  revert k p; induction l as [|x l IH]; intros k p; [destruct p, k; simpl; try reflexivity; destruct (p =? k); reflexivity|].
  destruct k, p; simpl; try reflexivity. apply IH.
Qed.
Lemma upd_same {A} (f : A -> A) k l x : nth_error l k = Some x -> nth_error (upd f k l) k = Some (f x).
Proof. intro H. now rewrite upd_nth, Nat.eqb_refl, H. Qed.
Lemma upd_other {A} (f : A -> A) k l p : p <> k -> nth_error (upd f k l) p = nth_error l p.
Proof. intro H. rewrite upd_nth. apply Nat.eqb_neq in H. now rewrite H. Qed.
Lemma nth_app_last {A} (l : list A) x p y : nth_error (l ++ [x]) p = Some y ->
  (p < List.length l /\ nth_error l p = Some y) \/ (p = List.length l /\ y = x).
Proof.
  intro H. destruct (Nat.lt_ge_cases p (List.length l)).
  - left. split; auto. now rewrite nth_error_app1 in H.
  - right. rewrite nth_error_app2 in H by auto. destruct (p - List.length l) as [|q] eqn:E; simpl in H.
    + injection H as <-. split; auto; lia.
    + destruct q; discriminate.
Qed.
Lemma nth_lt {A} (l : list A) p x : nth_error l p = Some x -> p < List.length l.
Proof. intro H. apply nth_error_Some. now rewrite H. Qed.
Lemma lt_nth {A} (l : list A) p : p < List.length l -> exists x, nth_error l p = Some x.
Proof. intro H. destruct (nth_error l p) eqn:E; eauto. apply nth_error_None in E. lia. Qed.

Lemma removeAt_nth {A} k (l : list A) p : nth_error (removeAt k l) p = if p <? k then nth_error l p else nth_error l (S p).
Proof.
  revert k p; induction l as [|x l IH]; intros k p; [destruct k, p; simpl; try destruct (_ <? _); reflexivity|].
  destruct k; simpl; [reflexivity|]. destruct p; simpl; [reflexivity|]. rewrite IH. reflexivity.
Qed.
Lemma posOf_nth x l : In x l -> nth_error l (posOf x l) = Some x.
Proof.
  induction l as [|y l IH]; [intros []|]. simpl. intro H. destruct (y =? x) eqn:E.
  - apply Nat.eqb_eq in E. now subst.
  - simpl. apply IH. destruct H; auto. subst. now rewrite Nat.eqb_refl in E.
Qed.
Lemma nth_posOf x l p : NoDup l -> nth_error l p = Some x -> posOf x l = p.
Proof.
  intros N H. assert (I : In x l) by (eapply nth_error_In; eauto).
  apply posOf_nth in I as I'. apply NoDup_nth_error with (l := l); auto.
  - apply nth_error_Some. now rewrite I'.
  - now rewrite I', H.
Qed.
Lemma posOf_lt x l : In x l -> posOf x l < List.length l.
Proof. intro H. apply posOf_nth in H. now apply nth_lt in H. Qed.
Lemma posOf_app1 x l r : In x l -> posOf x (l ++ r) = posOf x l.
Proof.
  induction l as [|y l IH]; [intros []|]. simpl. intro H. destruct (y =? x) eqn:E; auto.
  f_equal. apply IH. destruct H; auto. subst. now rewrite Nat.eqb_refl in E.
Qed.
Lemma posOf_app2 x l r : ~ In x l -> posOf x (l ++ r) = List.length l + posOf x r.
Proof.
  induction l as [|y l IH]; [reflexivity|]. simpl. intro H. destruct (y =? x) eqn:E.
  - apply Nat.eqb_eq in E. subst. tauto.
  - f_equal. apply IH. tauto.
Qed.
Lemma posOf_seq a k x : a <= x < a + k -> posOf x (seq a k) = x - a.
Proof.
  intro H. apply nth_posOf; [apply seq_NoDup|].
  rewrite nth_error_nth' with (d := 0) by (rewrite seq_length; lia). rewrite seq_nth by lia. f_equal. lia.
Qed.
Lemma posOf_inj x y l : In x l -> In y l -> posOf x l = posOf y l -> x = y.
Proof. intros A B E. apply posOf_nth in A, B. congruence. Qed.

Lemma removeAt_In {A} k (l : list A) x : In x (removeAt k l) -> In x l.
Proof. revert k; induction l as [|y l IH]; destruct k; simpl; auto. intros [->|H]; auto. right. eapply IH; eauto. Qed.
Lemma removeAt_pos x l y : NoDup l -> In x l -> (In y (removeAt (posOf x l) l) <-> In y l /\ y <> x).
Proof.
  induction l as [|z l IH]; [intros _ []|]. intros N H. inversion N as [|? ? N1 N2]; subst. simpl.
  destruct (z =? x) eqn:E.
  - apply Nat.eqb_eq in E. subst z. split; [intro I; split; auto; intros ->; tauto|]. intros [[->|I] B]; tauto.
  - apply Nat.eqb_neq in E. destruct H as [->|H]; [tauto|]. simpl. rewrite IH by auto. intuition congruence.
Qed.
Lemma removeAt_NoDup {A} k (l : list A) : NoDup l -> NoDup (removeAt k l).
Proof.
  revert k; induction l as [|y l IH]; destruct k; simpl; auto; intro N; inversion N; subst; auto.
  constructor; auto. intro I. apply removeAt_In in I. tauto.
Qed.
Lemma removeAt_sorted k l : StronglySorted lt l -> StronglySorted lt (removeAt k l).
Proof.
  revert k; induction l as [|y l IH]; destruct k; simpl; auto; intro N; inversion N as [|? ? S1 F]; subst; auto.
  constructor; auto. rewrite Forall_forall in *. intros x I. apply F. eapply removeAt_In; eauto.
Qed.
Lemma removeAt_app2 {A} k (l r : list A) : List.length l <= k -> removeAt k (l ++ r) = l ++ removeAt (k - List.length l) r.
Proof.
  revert k; induction l as [|y l IH]; simpl; intros k H; [now rewrite Nat.sub_0_r|].
  destruct k; [lia|]. simpl. f_equal. apply IH. lia.
Qed.
Lemma sorted_snoc l x : StronglySorted lt l -> (forall y, In y l -> y < x) -> StronglySorted lt (l ++ [x]).
Proof.
  induction l as [|y l IH]; simpl; intros N H; [repeat constructor|]. inversion N as [|? ? S1 F]; subst.
  constructor; auto. rewrite Forall_forall in *. intros z I. apply in_app_or in I as [I|[<-|[]]]; auto.
Qed.
Lemma sorted_NoDup l : StronglySorted lt l -> NoDup l.
Proof.
  induction 1 as [|x l S1 IH F]; constructor; auto. intro I. rewrite Forall_forall in F. apply F in I. lia.
Qed.
Lemma sorted_pos l p q x y : StronglySorted lt l -> nth_error l p = Some x -> nth_error l q = Some y -> x < y -> p < q.
Proof.
  intros Hs. revert p q; induction Hs as [|z l S1 IH F]; intros p q A B L; [destruct p; discriminate|].
  rewrite Forall_forall in F. destruct p, q; simpl in *; try lia.
  - injection A as <-. injection B as <-. lia.
  - injection B as <-. apply nth_error_In, F in A. lia.
  - cut (p < q); [lia|]. eapply IH; eauto.
Qed.
Lemma sorted_seq a k : StronglySorted lt (seq a k).
Proof.
  revert a; induction k; simpl; intro a; constructor; auto. apply Forall_forall. intros x I. apply in_seq in I. lia.
Qed.
Lemma sorted_app l r : StronglySorted lt l -> StronglySorted lt r -> (forall x y, In x l -> In y r -> x < y) -> StronglySorted lt (l ++ r).
Proof.
  induction 1 as [|x l S1 IH F]; simpl; auto. intros Sr H. rewrite Forall_forall in F. constructor.
  - apply IH; auto.
  - apply Forall_forall. intros y I. apply in_app_or in I as [I|I]; auto.
Qed.

(** The elements of a list changed one after the other. *)
Lemma fold_upd_length {A} (f : A -> A) ks l : List.length (fold_left (fun vs k => upd f k vs) ks l) = List.length l.
Proof. revert l; induction ks as [|k ks IH]; simpl; intro l; auto. rewrite IH. apply upd_length. Qed.
Lemma fold_upd_nth {A} (f : A -> A) ks l p : NoDup ks ->
  nth_error (fold_left (fun vs k => upd f k vs) ks l) p =
  if existsb (Nat.eqb p) ks then option_map f (nth_error l p) else nth_error l p.
Proof.
  revert l; induction ks as [|k ks IH]; simpl; intros l N; [reflexivity|]. inversion N; subst. rewrite IH by auto.
  rewrite upd_nth. destruct (p =? k) eqn:E; simpl; [|reflexivity].
  apply Nat.eqb_eq in E. subst p. destruct (existsb (Nat.eqb k) ks) eqn:X; auto.
  apply existsb_exists in X as (z & I & E'). apply Nat.eqb_eq in E'. subst z. tauto.
Qed.
Lemma existsb_In x l : existsb (Nat.eqb x) l = true <-> In x l.
Proof.
  rewrite existsb_exists. split; [intros (y & I & E); apply Nat.eqb_eq in E; now subst|].
  intro I. exists x. split; auto. apply Nat.eqb_refl.
Qed.
Lemma existsb_nIn x l : existsb (Nat.eqb x) l = false <-> ~ In x l.
Proof. rewrite <- existsb_In. destruct (existsb _ _); split; intuition congruence. Qed.
Lemma skipn_In {A} k (l : list A) x p : nth_error l p = Some x -> k <= p -> In x (skipn k l).
Proof.
  revert l p; induction k; intros l p H L; simpl; [eapply nth_error_In; eauto|].
  destruct l; [destruct p; discriminate|]. destruct p; [lia|]. simpl in H. eapply IHk; eauto. lia.
Qed.
Lemma In_skipn {A} k (l : list A) x : In x (skipn k l) -> exists p, k <= p /\ nth_error l p = Some x.
Proof.
  revert l; induction k; intros l H; simpl in H.
  - apply In_nth_error in H as (p & H). exists p. split; auto. lia.
  - destruct l; [destruct H|]. apply IHk in H as (p & L & H). exists (S p). split; auto. lia.
Qed.
Lemma skipn_NoDup {A} k (l : list A) : NoDup l -> NoDup (skipn k l).
Proof. revert l; induction k; intros l N; simpl; auto. destruct l; auto. inversion N; auto. Qed.

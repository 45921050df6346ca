(** * Equations which are removed *)
From Coq Require Import List Arith Bool Lia Sorted.
From Verif Require Import DaeGen_model DaeGen_lists DaeGen_inv.
Import ListNotations.
Local Open Scope nat_scope.

Section Remove.
Variables n n0 m : nat.
Variable u0 : list vnode.
Variable e0 : list enode.
Hypothesis usedUser : forall k, k < n0 -> exists q e, q < m /\ nth_error e0 q = Some e /\ In k (e_vars e).
Notation inv := (inv n n0 m u0 e0).

Definition erased (j a : nat) (g : gr) : gr :=
  let g := eraseVar j g in mkG (upd (setVDer None) a (g_v g)) (g_va g) (g_e g) (g_ea g).
Lemma erased_nth j a g x : NoDup (g_va g) ->
  nth_error (g_v (erased j a g)) x =
  option_map (fun v => mkV (if existsb (Nat.eqb x) (skipn (posOf j (g_va g)) (removeAt (posOf j (g_va g)) (g_va g))) then v_tape v - 1 else v_tape v)
                           (v_anti v) (if x =? a then None else v_der v)) (nth_error (g_v g) x).
Proof.
  intro N. unfold erased, eraseVar. cbn [g_v g_va]. rewrite upd_nth, fold_upd_nth by (apply skipn_NoDup, removeAt_NoDup, N).
  destruct (nth_error (g_v g) x) as [v|]; destruct (existsb _ _); destruct (x =? a); cbn; try reflexivity; destruct v; reflexivity.
Qed.
Lemma erased_length j a g : List.length (g_v (erased j a g)) = List.length (g_v g).
Proof. unfold erased, eraseVar. cbn [g_v g_va]. now rewrite upd_length, fold_upd_length. Qed.

Lemma erase_inv x3 x4 g j v a : inv x3 x4 g -> In j (g_va g) -> n0 <= j -> nth_error (g_v g) j = Some v -> v_der v = None -> v_anti v = Some a ->
  (forall k e, In k (g_ea g) -> nth_error (g_e g) k = Some e -> In j (e_vars e) -> x3 k j) ->
  (forall k e d, In k (g_ea g) -> nth_error (g_e g) k = Some e -> e_der e = Some d -> x3 d j -> forall x, x4 k x) ->
  inv x3 x4 (erased j a g).
Proof.
  intros I JA JN E D A U X.
  assert (ND : NoDup (g_va g)) by (apply sorted_NoDup, I).
  set (p := posOf j (g_va g)). assert (P : nth_error (g_va g) p = Some j) by (now apply posOf_nth).
  assert (Pn : n0 <= p) by (apply (va_pos _ _ _ _ (iv_va _ _ _ _ _ _ _ _ I) (iv_sorted _ _ _ _ _ _ _ _ I) P); exact JN).
  assert (VA : g_va (erased j a g) = removeAt p (g_va g)) by reflexivity.
  assert (IN : forall x, In x (g_va (erased j a g)) <-> In x (g_va g) /\ x <> j) by (intro x; rewrite VA; now apply removeAt_pos).
  destruct (iv_anti _ _ _ _ _ _ _ _ I j v a JA E A) as (AA & va & AE & AD).
  assert (FWD : forall x w, nth_error (g_v g) x = Some w -> exists w', nth_error (g_v (erased j a g)) x = Some w' /\ v_anti w' = v_anti w /\ (x <> a -> v_der w' = v_der w)).
  { intros x w H. rewrite erased_nth, H by auto. cbn. eexists. split; [reflexivity|]. cbn. split; auto.
    intro Q. apply Nat.eqb_neq in Q. now rewrite Q. }
  assert (BWD : forall x w', nth_error (g_v (erased j a g)) x = Some w' -> exists w, nth_error (g_v g) x = Some w /\ v_anti w' = v_anti w /\ (v_der w' = if x =? a then None else v_der w) /\
     v_tape w' = if existsb (Nat.eqb x) (skipn p (removeAt p (g_va g))) then v_tape w - 1 else v_tape w).
  { intros x w' H. rewrite erased_nth in H by auto. destruct (nth_error (g_v g) x) as [w|]; [|discriminate]. injection H as <-. exists w. cbn. auto. }
  assert (NDr : NoDup (removeAt p (g_va g))) by (now apply removeAt_NoDup).
  destruct I as [V1 V2 V3 V4 V5 V6 V7 E1 E2 E3 E4 E5 E6 E7 E8 E9 E10 E11]. constructor; auto.
  - rewrite VA. now apply va_removeAt.
  - rewrite VA. now apply removeAt_sorted.
  - intros k K. rewrite erased_length. apply IN in K as (K & _). auto.
  - intros k L. destruct (V4 k L) as (w & w0 & W1 & W2 & W3 & W4). destruct (nth_error (g_v (erased j a g)) k) as [w'|] eqn:W'.
    + apply BWD in W' as (w2 & W' & B1 & B2 & B3). exists w', w0. assert (w2 = w) by congruence. subst w2. repeat split; auto; try congruence.
      rewrite B3. assert (N : ~ In k (skipn p (removeAt p (g_va g)))); [|apply existsb_nIn in N; rewrite N; auto].
      intro H. apply In_skipn in H as (q & Q & H). rewrite removeAt_nth in H. destruct (q <? p) eqn:L'; [apply Nat.ltb_lt in L'; lia|].
      apply (va_pos _ _ _ _ V1 V2) in H. lia.
    + apply FWD in W1 as (w' & W1 & _). congruence.
  - intros q k w L K W. apply BWD in W as (w2 & W & B1 & B2 & B3). rewrite VA in K. rewrite B1.
    assert (K' := K). rewrite removeAt_nth in K'. destruct (q <? p) eqn:Q.
    + apply Nat.ltb_lt in Q. destruct (V5 q k w2 L K' W) as (T & Z). split; auto. rewrite B3, T.
      assert (N : ~ In k (skipn p (removeAt p (g_va g)))); [|apply existsb_nIn in N; rewrite N; auto].
      intro H. apply In_skipn in H as (r & R & H). assert (r = q); [|lia].
      apply (NoDup_nth_error (removeAt p (g_va g))); [auto|now apply nth_lt in H|congruence].
    + apply Nat.ltb_ge in Q. assert (L2 : n0 <= S q) by lia. destruct (V5 (S q) k w2 L2 K' W) as (T & Z). split; auto. rewrite B3, T.
      assert (N : In k (skipn p (removeAt p (g_va g)))) by (eapply skipn_In; eauto). apply existsb_In in N. rewrite N. lia.
  - intros k w d K W DW. apply BWD in W as (w2 & W & B1 & B2 & _). apply IN in K as (K & KJ). rewrite B2 in DW.
    destruct (k =? a) eqn:Q; [discriminate|]. apply Nat.eqb_neq in Q. destruct (V6 k w2 d K W DW) as (DA & w3 & W3 & W4).
    split. { apply IN. split; auto. intros ->. congruence. }
    apply FWD in W3 as (w4 & W3 & W5 & _). exists w4. split; congruence.
  - intros k w b K W DW. apply BWD in W as (w2 & W & B1 & B2 & _). apply IN in K as (K & KJ). rewrite B1 in DW.
    destruct (V7 k w2 b K W DW) as (DA & w3 & W3 & W4). split. { apply IN. split; auto. intros ->. congruence. }
    assert (BA : b <> a) by (intros ->; congruence). apply FWD in W3 as (w4 & W3' & W5 & W6). exists w4. split; auto. rewrite W6; auto.
  - intros k e x K KE X1. destruct (E8 k e x K KE X1) as [Y|Y]; auto. destruct (Nat.eq_dec x j) as [->|Q]; [left; eapply U; eauto|].
    right. apply IN. auto.
  - intros k e d e' x K KE KD DE X1. destruct (E10 k e d e' x K KE KD DE X1) as [Y|(w & d' & W1 & W2 & W3)]; auto.
    destruct (Nat.eq_dec x a) as [->|Q].
    + left. assert (d' = j) by congruence. subst d'. destruct (E6 k e d K KE KD) as (DA & _). eapply X; eauto.
    + right. apply FWD in W1 as (w' & W1 & W4 & W5). exists w', d'. rewrite W5; auto.
  - intros k e o eo x K KE KO OE X1 XA. apply IN in XA as (XA & XJ).
    destruct (E11 k e o eo x K KE KO OE X1 XA) as [Y|(w & v' & Y1 & Y2 & Y3)]; auto. right.
    assert (BA : w <> a) by (intros ->; congruence). apply FWD in Y2 as (w' & Y2' & Y4 & Y5). exists w, w'. rewrite Y5; auto.
Qed.

Definition r3 (i : nat) (done : list nat) (k x : nat) : Prop := k = i /\ In x done.
Definition r4 (o : nat) (k x : nat) : Prop := k = o.

Lemma used_false g i done j : used g i done j = false <->
  (forall k e, In k (g_ea g) -> nth_error (g_e g) k = Some e -> In j (e_vars e) -> k = i /\ In j done).
Proof.
  unfold used. split.
  - intros H k e K E J.
    assert (B : forall q, In q (g_ea g) -> match nth_error (g_e g) q with
                    | Some e => existsb (Nat.eqb j) (e_vars e) && negb ((q =? i) && existsb (Nat.eqb j) done)
                    | None => false end = false).
    { intros q Q. match type of H with existsb ?f ?l = false => destruct (f q) eqn:F end; [|reflexivity].
      assert (X : exists x, In x (g_ea g) /\ (fun k => match nth_error (g_e g) k with
                    | Some e => existsb (Nat.eqb j) (e_vars e) && negb ((k =? i) && existsb (Nat.eqb j) done)
                    | None => false end) x = true) by (exists q; split; [exact Q|exact F]).
      apply existsb_exists in X. congruence. }
    specialize (B k K). rewrite E in B. apply existsb_In in J. rewrite J in B. cbn [andb] in B.
    apply negb_false_iff in B. apply andb_prop in B as (B1 & B2). apply Nat.eqb_eq in B1. apply existsb_In in B2. auto.
  - intro H. destruct (existsb _ (g_ea g)) eqn:X; auto. apply existsb_exists in X as (k & K & X).
    destruct (nth_error (g_e g) k) as [e|] eqn:E; [|discriminate]. apply andb_prop in X as (X & Y). apply existsb_In in X.
    destruct (H k e K E X) as (-> & J). apply existsb_In in J. rewrite J, Nat.eqb_refl in Y. discriminate.
Qed.
Lemma used_true g i done j : used g i done j = true ->
  exists k e, In k (g_ea g) /\ nth_error (g_e g) k = Some e /\ In j (e_vars e) /\ (k = i -> ~ In j done).
Proof.
  unfold used. intro X. apply existsb_exists in X as (k & K & X).
  destruct (nth_error (g_e g) k) as [e|] eqn:E; [|discriminate]. apply andb_prop in X as (X & Y). apply existsb_In in X.
  exists k, e. repeat split; auto. intros -> J. apply existsb_In in J. rewrite J, Nat.eqb_refl in Y. discriminate.
Qed.

Section One.
Variables (i o : nat) (e : enode).
Hypothesis ED : e_der e = None.
Hypothesis EO : e_of e = Some o.
Definition live (done : list nat) (g : gr) : Prop := inv (r3 i done) (r4 o) g /\ In i (g_ea g) /\ nth_error (g_e g) i = Some e.

Lemma notUser done g : live done g -> m <= i.
Proof.
  intros (I & A & E). destruct (Nat.lt_ge_cases i m) as [L|]; auto.
  destruct (ie_user _ _ _ _ _ _ _ _ I i L) as (e1 & e2 & X & _ & _ & Y). congruence.
Qed.
Lemma unused_new done g j : live done g -> used g i done j = false -> n0 <= j.
Proof.
  intros Lv U. destruct (Nat.lt_ge_cases j n0) as [L|]; auto. exfalso.
  destruct (usedUser j L) as (q & eq & Q & QE & QI). apply notUser in Lv as M. destruct Lv as (I & A & E).
  destruct (ie_user _ _ _ _ _ _ _ _ I q Q) as (e1 & e2 & X1 & X2 & X3 & X4).
  assert (e2 = eq) by congruence. subst e2. rewrite <- X3 in QI.
  assert (QA : In q (g_ea g)) by (eapply va_In; [apply I|auto]).
  destruct (proj1 (used_false g i done j) U q e1 QA X1 QI). lia.
Qed.
Lemma erase_live done g j v a : live done g -> In j (g_va g) -> used g i done j = false -> nth_error (g_v g) j = Some v ->
  v_der v = None -> v_anti v = Some a -> live done (erased j a g).
Proof.
  intros Lv J U E D A. apply unused_new with (j := j) in Lv as N; auto. destruct Lv as (I & IA & IE). split; [|split; auto].
  eapply erase_inv; eauto.
  - intros k e' K KE KJ. exact (proj1 (used_false g i done j) U k e' K KE KJ).
  - intros k e' d K KE KD (-> & _) x. unfold r4. destruct (ie_der _ _ _ _ _ _ _ _ I k e' i K KE KD) as (_ & w & W1 & W2). congruence.
Qed.
Lemma eraseUnused_live fuel done : forall j g g', live done g -> In j (g_va g) -> eraseUnused fuel i done j g = Some g' ->
  live done g' /\ g_e g' = g_e g /\ g_ea g' = g_ea g.
Proof.
  induction fuel as [|fuel IH]; intros j g g' Lv J H; [discriminate|]. cbn [eraseUnused] in H.
  destruct (used g i done j) eqn:U; [injection H as <-; auto|].
  destruct (nth_error (g_v g) j) as [v|] eqn:E; [|discriminate].
  destruct (v_der v) eqn:D; [discriminate|]. destruct (v_anti v) as [a|] eqn:A; [|discriminate].
  fold (erased j a g) in H. assert (Lv' := erase_live done g j v a Lv J U E D A).
  apply IH in H; [tauto|exact Lv'|].
  destruct Lv as (I & _). apply (removeAt_pos j (g_va g) a); [apply sorted_NoDup, I|auto|].
  split; [apply (iv_anti _ _ _ _ _ _ _ _ I j v a J E A)|].
  intros ->. destruct (iv_anti _ _ _ _ _ _ _ _ I j v j J E A) as (_ & w & W1 & W2). congruence.
Qed.
Lemma live_done done done' g : incl done done' -> live done g -> live done' g.
Proof.
  intros S1 (I & A). split; auto. eapply inv_weaken; [| |exact I]; auto. intros k x (-> & H). split; auto.
Qed.
Lemma removeVars_live : forall js done g g', live done g -> incl js (e_vars e) -> NoDup js -> (forall x, In x js -> ~ In x done) ->
  removeVars i done js g = Some g' -> live (rev js ++ done) g' /\ g_e g' = g_e g /\ g_ea g' = g_ea g.
Proof.
  induction js as [|j js IH]; intros done g g' Lv S1 ND DJ H; [injection H as <-; auto|]. cbn [removeVars] in H.
  destruct (eraseUnused _ i (j :: done) j g) as [g1|] eqn:E; [|discriminate].
  assert (J : In j (g_va g)).
  { destruct Lv as (I & IA & IE). destruct (ie_vars _ _ _ _ _ _ _ _ I i e j IA IE) as [(_ & X)|X]; auto; [apply S1; simpl; auto|].
    exfalso. apply (DJ j); simpl; auto. }
  apply eraseUnused_live in E as (Lv1 & G1 & G2); [|apply live_done with done; [intros x X; simpl; auto|auto]|auto].
  inversion ND as [|? ? N1 N2]; subst.
  apply IH in H as (Lv2 & G3 & G4); auto; [| |].
  - split; [|split; congruence]. simpl. rewrite <- app_assoc. exact Lv2.
  - intros x X. apply S1. simpl; auto.
  - intros x X [->|Y]; [tauto|]. apply (DJ x); simpl; auto.
Qed.

(** The equation itself *)
Definition dropped (g : gr) : gr := mkG (g_v g) (g_va g) (upd (setEDer None) o (g_e g)) (removeAt (posOf i (g_ea g)) (g_ea g)).
Lemma drop_inv done g : live done g -> inv no3 no3 (dropped g).
Proof.
  intros Lv. apply notUser in Lv as M. destruct Lv as (I & IA & IE).
  destruct (ie_of _ _ _ _ _ _ _ _ I i e o IA IE EO) as (OA & w0 & OE & OD).
  assert (OI : o <> i) by congruence.
  assert (ND : NoDup (g_ea g)) by (apply sorted_NoDup, I).
  assert (IN : forall x, In x (g_ea (dropped g)) <-> In x (g_ea g) /\ x <> i) by (intro x; now apply removeAt_pos).
  assert (P : nth_error (g_ea g) (posOf i (g_ea g)) = Some i) by (now apply posOf_nth).
  assert (FWD : forall x w, nth_error (g_e g) x = Some w -> exists w', nth_error (g_e (dropped g)) x = Some w' /\ e_of w' = e_of w /\ e_vars w' = e_vars w /\ (x <> o -> e_der w' = e_der w)).
  { intros x w H. cbn. rewrite upd_nth, H. destruct (x =? o) eqn:Q; cbn.
    - apply Nat.eqb_eq in Q. eexists. split; [reflexivity|]. cbn. repeat split; auto. tauto.
    - eexists. split; [reflexivity|]. auto. }
  assert (BWD : forall x w', nth_error (g_e (dropped g)) x = Some w' -> exists w, nth_error (g_e g) x = Some w /\ e_of w' = e_of w /\ e_vars w' = e_vars w /\ e_der w' = if x =? o then None else e_der w).
  { intros x w' H. cbn in H. rewrite upd_nth in H. destruct (nth_error (g_e g) x) as [w|]; destruct (x =? o); try discriminate; injection H as <-; exists w; cbn; auto. }
  destruct I as [V1 V2 V3 V4 V5 V6 V7 E1 E2 E3 E4 E5 E6 E7 E8 E9 E10 E11]. constructor; auto.
  - apply va_removeAt; auto. apply (va_pos _ _ _ _ E1 E2 P). exact M.
  - now apply removeAt_sorted.
  - intros k K. apply IN in K as (K & _). cbn. rewrite upd_length. auto.
  - intros k L. destruct (E4 k L) as (a & b & A & B & C & D). apply FWD in A as (a' & A & A1 & A2 & _). exists a', b. repeat split; congruence.
  - intros k w L K W. apply IN in K as (K & KI). apply BWD in W as (w' & W & B1 & _). rewrite B1. eapply E5; eauto.
  - intros k w d K W D. apply IN in K as (K & KI). apply BWD in W as (w' & W & B1 & B2 & B3). rewrite B3 in D.
    destruct (k =? o) eqn:Q; [discriminate|]. apply Nat.eqb_neq in Q. destruct (E6 k w' d K W D) as (DA & w2 & W2 & W3). split.
    + apply IN. split; auto. intros ->. congruence.
    + apply FWD in W2 as (w3 & W2 & W4 & _). exists w3. split; congruence.
  - intros k w b K W D. apply IN in K as (K & KI). apply BWD in W as (w' & W & B1 & B2 & B3). rewrite B1 in D.
    destruct (E7 k w' b K W D) as (DA & w2 & W2 & W3). split.
    + apply IN. split; auto. intros ->. congruence.
    + assert (BA : b <> o) by (intros ->; congruence). apply FWD in W2 as (w3 & W2' & W4 & W5 & W6). exists w3. split; auto. rewrite W6; auto.
  - intros k w x K W X. apply IN in K as (K & KI). apply BWD in W as (w' & W & B1 & B2 & B3). rewrite B2 in X.
    destruct (E8 k w' x K W X) as [(-> & _)|Y]; auto. tauto.
  - intros k w K W. apply IN in K as (K & KI). apply BWD in W as (w' & W & B1 & B2 & B3). rewrite B2. eapply E9; eauto.
  - intros k w d e' x K W D W' X. apply IN in K as (K & KI). apply BWD in W as (w1 & W & B1 & B2 & B3). apply BWD in W' as (w2 & W' & _ & C2 & _).
    rewrite B3 in D. rewrite B2 in X. rewrite C2. destruct (k =? o) eqn:Q; [discriminate|]. apply Nat.eqb_neq in Q. right.
    destruct (E10 k w1 d w2 x K W D W' X) as [Y|Y]; auto. unfold r4 in Y. tauto.
  - intros k w b eo x K W D W' X XA. apply IN in K as (K & KI). apply BWD in W as (w1 & W & B1 & B2 & B3). apply BWD in W' as (w2 & W' & _ & C2 & _).
    rewrite B1 in D. rewrite B2 in X. rewrite C2. exact (E11 k w1 b w2 x K W D W' X XA).
Qed.
End One.

Lemma removeEq_inv i e g g' : inv no3 no3 g -> In i (g_ea g) -> nth_error (g_e g) i = Some e -> e_der e = None -> e_of e <> None ->
  removeEq i g = Some g' -> inv no3 no3 g'.
Proof.
  intros I IA IE ID IO H. unfold removeEq in H. rewrite IE in H. destruct (e_of e) as [o|] eqn:EO; [|tauto].
  destruct (removeVars i [] (e_vars e) g) as [g1|] eqn:R; [|discriminate]. injection H as <-.
  apply removeVars_live with (o := o) (e := e) in R as (Lv & G1 & G2); auto.
  - exact (drop_inv i o e ID EO _ _ Lv).
  - split; auto. eapply inv_weaken; [| |exact I]; intros k x [].
  - apply incl_refl.
  - eapply ie_nodup; eauto.
Qed.

(** ** The removal ends: every new variable is in an equation *)
Hypothesis userVars : forall q e x, nth_error e0 q = Some e -> In x (e_vars e) -> x < n0.
Hypothesis userAnti : forall k v a, nth_error u0 k = Some v -> v_anti v = Some a -> a < n0.

Lemma source x3 x4 g : inv x3 x4 g -> forall k e x, In k (g_ea g) -> nth_error (g_e g) k = Some e -> In x (e_vars e) -> In x (g_va g) -> n0 <= x ->
  exists k3 e3 w v, In k3 (g_ea g) /\ nth_error (g_e g) k3 = Some e3 /\ e_der e3 <> None /\ In w (e_vars e3) /\ nth_error (g_v g) w = Some v /\ v_der v = Some x.
Proof.
  intros I k. induction k as [k IH] using lt_wf_ind. intros e x K E X XA L.
  destruct (Nat.lt_ge_cases k m) as [M|M].
  { destruct (ie_user _ _ _ _ _ _ _ _ I k M) as (e1 & e2 & A & B & C & _). assert (e1 = e) by congruence. subst e1. rewrite C in X. eapply userVars in X; eauto. lia. }
  destruct (ie_new _ _ _ _ _ _ _ _ I k e M K E) as (o & O & Lo). destruct (ie_of _ _ _ _ _ _ _ _ I k e o K E O) as (OA & eo & OE & OD).
  destruct (ie_from _ _ _ _ _ _ _ _ I k e o eo x K E O OE X XA) as [Y|(w & v & Y1 & Y2 & Y3)].
  - eapply IH; eauto.
  - exists o, eo, w, v. repeat split; auto. congruence.
Qed.

Definition coveredBut (i : nat) (done : list nat) (but : nat -> Prop) (g : gr) : Prop :=
  forall x, n0 <= x -> In x (g_va g) -> ~ but x -> exists k e, In k (g_ea g) /\ nth_error (g_e g) k = Some e /\ In x (e_vars e) /\ (k = i -> ~ In x done).
Definition covered (g : gr) : Prop :=
  forall x, n0 <= x -> In x (g_va g) -> exists k e, In k (g_ea g) /\ nth_error (g_e g) k = Some e /\ In x (e_vars e).

Section Progress.
Variables (i o : nat) (e : enode).
Hypothesis ED : e_der e = None.
Hypothesis EO : e_of e = Some o.
Lemma eraseUnused_ends done : forall fuel j g, live i o e done g -> In j (g_va g) -> j < fuel -> coveredBut i done (eq j) g ->
  exists g', eraseUnused fuel i done j g = Some g' /\ coveredBut i done (fun _ => False) g' /\ List.length (g_v g') = List.length (g_v g).
Proof.
  induction fuel as [|fuel IH]; intros j g Lv J L C; [lia|]. cbn [eraseUnused].
  destruct (used g i done j) eqn:U.
  { exists g. split; [reflexivity|]. split; [|reflexivity]. intros x X1 X2 _. destruct (Nat.eq_dec j x) as [<-|N]; [now apply used_true|]. apply C; auto. }
  assert (N := unused_new i o e ED EO _ _ _ Lv U). destruct Lv as (I & IA & IE).
  destruct (alive_v _ _ _ _ _ I j J) as (v & E). rewrite E.
  destruct (new_anti _ _ _ _ _ I j v N J E) as (a & A & LA).
  destruct (v_der v) as [d|] eqn:D.
  { exfalso. destruct (iv_der _ _ _ _ _ _ _ _ I j v d J E D) as (DA & w & W1 & W2).
    assert (Nd : n0 <= d).
    { destruct (Nat.lt_ge_cases d n0) as [X|]; auto. destruct (iv_user _ _ _ _ _ _ _ _ I d X) as (w1 & w2 & Y1 & Y2 & Y3 & Y4).
      assert (w1 = w) by congruence. subst w1. rewrite W2 in Y4. symmetry in Y4. eapply userAnti in Y4; eauto. lia. }
    assert (jd : j <> d).
    { intros <-. destruct (new_anti _ _ _ _ _ I j w N J W1) as (a' & A' & LA'). assert (a' = j) by congruence. lia. }
    destruct (C d Nd DA jd) as (k & ek & K & KE & KX & _).
    destruct (source _ _ _ I k ek d K KE KX DA Nd) as (k3 & e3 & w' & v' & K3 & K3E & K3D & K3X & V1 & V2).
    assert (WA : In w' (g_va g)).
    { destruct (ie_vars _ _ _ _ _ _ _ _ I k3 e3 w' K3 K3E K3X) as [(-> & _)|Z]; auto. congruence. }
    destruct (iv_der _ _ _ _ _ _ _ _ I w' v' d WA V1 V2) as (_ & w2 & Z1 & Z2). assert (w' = j) by congruence. subst w'.
    destruct (proj1 (used_false g i done j) U k3 e3 K3 K3E K3X) as (-> & _). congruence. }
  rewrite A. fold (erased j a g).
  assert (Lv' := erase_live i o e ED EO done g j v a (conj I (conj IA IE)) J U E D A).
  destruct (IH a (erased j a g)) as (g' & R & C' & Ln); auto; try lia.
  - apply (removeAt_pos j (g_va g) a); [apply sorted_NoDup, I|auto|].
    split; [apply (iv_anti _ _ _ _ _ _ _ _ I j v a J E A)|lia].
  - intros x X1 X2 X3. apply removeAt_pos in X2 as (X2 & X4); [|apply sorted_NoDup, I|auto]. apply C; auto.
  - exists g'. rewrite Ln, erased_length. auto.
Qed.
Lemma removeVars_ends : forall js done g, live i o e done g -> incl js (e_vars e) -> NoDup js -> (forall x, In x js -> ~ In x done) ->
  coveredBut i done (fun _ => False) g -> exists g', removeVars i done js g = Some g' /\ coveredBut i (rev js ++ done) (fun _ => False) g'.
Proof.
  induction js as [|j js IH]; intros done g Lv S1 ND DJ C; [exists g; auto|]. cbn [removeVars].
  assert (J : In j (g_va g)).
  { destruct Lv as (I & IA & IE). destruct (ie_vars _ _ _ _ _ _ _ _ I i e j IA IE) as [(_ & X)|X]; auto; [apply S1; simpl; auto|].
    exfalso. apply (DJ j); simpl; auto. }
  assert (Lv1 : live i o e (j :: done) g) by (apply live_done with done; [intros x X; simpl; auto|auto]).
  assert (JL : j < List.length (g_v g)) by (destruct Lv as (I & _); apply (iv_lt _ _ _ _ _ _ _ _ I); auto).
  destruct (eraseUnused_ends (j :: done) (S (List.length (g_v g))) j g Lv1 J) as (g1 & R & C1 & _); [lia| |].
  { intros x X1 X2 X3. destruct (C x X1 X2) as (k & ek & K1 & K2 & K3 & K4); auto. exists k, ek. repeat split; auto.
    intros -> [->|Y]; [tauto|]. apply K4; auto. }
  rewrite R. inversion ND as [|? ? N1 N2]; subst.
  destruct (eraseUnused_live i o e ED EO _ _ _ _ _ Lv1 J R) as (Lv2 & _).
  destruct (IH (j :: done) g1) as (g' & R' & C'); auto.
  - intros x X. apply S1. simpl; auto.
  - intros x X [->|Y]; [tauto|]. apply (DJ x); simpl; auto.
  - exists g'. split; auto. simpl. rewrite <- app_assoc. exact C'.
Qed.
End Progress.
Lemma removeEq_ends i e g : inv no3 no3 g -> In i (g_ea g) -> nth_error (g_e g) i = Some e -> e_der e = None -> e_of e <> None ->
  covered g -> exists g', removeEq i g = Some g' /\ covered g'.
Proof.
  intros I IA IE ID IO C. unfold removeEq. rewrite IE. destruct (e_of e) as [o|] eqn:EO; [|tauto].
  assert (Lv : live i o e [] g).
  { split; auto. eapply inv_weaken; [| |exact I]; intros k x []. }
  assert (ND : NoDup (e_vars e)) by (eapply ie_nodup; eauto).
  destruct (removeVars_ends i o e ID EO (e_vars e) [] g) as (g1 & R & C1); auto.
  - apply incl_refl.
  - intros x X1 X2 _. destruct (C x X1 X2) as (k & ek & K1 & K2 & K3). exists k, ek. auto.
  - rewrite R. eexists. split; [reflexivity|].
    apply removeVars_live with (o := o) (e := e) in R as (Lv' & G1 & G2); auto; [|apply incl_refl].
    destruct Lv' as (I' & IA' & IE').
    intros x X1 X2. cbn [g_va g_ea g_e] in *. destruct (C1 x X1 X2) as (k & ek & K1 & K2 & K3 & K4); auto.
    assert (KI : k <> i).
    { intros ->. assert (ek = e) by congruence. subst ek. apply K4; auto. rewrite app_nil_r. now apply -> in_rev. }
    exists k, (if k =? o then setEDer None ek else ek). repeat split.
    + apply removeAt_pos; auto. apply sorted_NoDup, I'.
    + rewrite upd_nth, K2. now destruct (k =? o).
    + now destruct (k =? o).
Qed.

(** New equations keep it. *)
Lemma dirty_covered b i k : forall js g e ei, inv no3 (fun q x => q = i /\ In x js) g ->
  In k (g_ea g) -> nth_error (g_e g) k = Some e -> e_der e = None -> e_of e = Some i ->
  In i (g_ea g) -> nth_error (g_e g) i = Some ei -> e_der ei = Some k -> incl js (e_vars ei) -> covered g -> covered (dirty n n0 b k js g).
Proof.
  induction js as [|j js IH]; intros g e ei I KA KE KD KO IA IE ID S1 C; [exact C|].
  cbn [dirty].
  assert (NI : i <> k) by congruence.
  set (g1 := if b then mkG (g_v g) (g_va g) (upd (addVar j) k (g_e g)) (g_ea g) else g).
  assert (JA : In j (g_va g)).
  { destruct (ie_vars _ _ _ _ _ _ _ _ I i ei j IA IE) as [[]|X]; auto. apply S1. simpl; auto. }
  assert (I1 : inv no3 (fun q x => q = i /\ In x (j :: js)) g1 /\ g_va g1 = g_va g /\ g_v g1 = g_v g /\ g_ea g1 = g_ea g /\
     nth_error (g_e g1) i = Some ei /\ (exists e1, nth_error (g_e g1) k = Some e1 /\ e_der e1 = None /\ e_of e1 = Some i) /\ covered g1).
  { unfold g1. destruct b; [|split; [exact I|]; split; [auto|]; split; [auto|]; split; [auto|]; split; [auto|]; split; [exists e; auto|auto]]. split.
    - eapply addVar_inv; eauto. left. apply S1. simpl; auto.
    - cbn. split; [auto|]. split; [auto|]. split; [auto|]. split; [rewrite upd_other; auto|].
      split; [exists (addVar j e); split; [now apply upd_same|]; split; [exact KD|exact KO]|].
      intros x X1 X2. cbn in X2. destruct (C x X1 X2) as (q & eq & Q1 & Q2 & Q3). cbn. destruct (Nat.eq_dec q k) as [->|N].
      + exists k, (addVar j eq). repeat split; auto; [now apply upd_same|]. apply addVar_vars. auto.
      + exists q, eq. rewrite upd_other; auto. }
  destruct I1 as (I1 & A1 & A2 & A3 & IE1 & (e1 & KE1 & KD1 & KO1) & C1).
  destruct (createVar n n0 j g1) as [d g2] eqn:CV.
  destruct (createVar_inv _ _ _ _ _ _ _ _ _ _ I1 (eq_ind_r (fun l => In j l) JA A1) CV) as (I2 & DA & (v & JV & JD) & B1 & B2 & B3 & B4).
  apply IH with (e := addVar d e1) (ei := ei); cbn [g_ea g_e g_v g_va].
  - assert (I3 : inv no3 (fun q x => q = i /\ In x (j :: js)) (mkG (g_v g2) (g_va g2) (upd (addVar d) k (g_e g2)) (g_ea g2))).
    { apply addVar_inv with (e := e1) (i := i) (ei := ei); auto; try congruence.
      right. exists j, v. split; [apply S1; simpl; auto|]. auto. }
    eapply shrink4; [exact I3|]. cbn [g_ea g_e g_v g_va]. intros q w d' e' x Q W D W' X (-> & [<-|H]); [|left; auto].
    right. exists v, d. repeat split; auto.
    assert (w = ei). { rewrite upd_other in W by auto. congruence. } subst w.
    assert (d' = k) by congruence. subst d'. rewrite upd_same with (x := e1) in W' by congruence. injection W' as <-.
    apply addVar_vars. auto.
  - now rewrite B2, A3.
  - apply upd_same. congruence.
  - cbn. auto.
  - cbn. auto.
  - now rewrite B2, A3.
  - rewrite upd_other by auto. congruence.
  - auto.
  - intros x H. apply S1. simpl; auto.
  - assert (K2 : nth_error (g_e g2) k = Some e1) by congruence.
    intros x X1 X2. cbn [g_va g_ea g_e] in *. apply B4 in X2 as [X2| ->].
    + destruct (C1 x X1 X2) as (q & eq & Q1 & Q2 & Q3). rewrite B2. rewrite <- B1 in Q2. destruct (Nat.eq_dec q k) as [->|N].
      * exists k, (addVar d eq). repeat split; auto; [now apply upd_same|]. apply addVar_vars. auto.
      * exists q, eq. rewrite upd_other; auto.
    + exists k, (addVar d e1). repeat split; [now rewrite B2, A3|now apply upd_same|]. apply addVar_vars. auto.
Qed.
Lemma createEq_covered b i g : inv no3 no3 g -> In i (g_ea g) -> covered g -> covered (createEq n n0 b i g).
Proof.
  intros I IA C. unfold createEq. destruct (alive_e _ _ _ _ _ I i IA) as (e & E). rewrite E. destruct (e_der e) eqn:D; auto.
  assert (Ik : i < List.length (g_e g)) by (apply (ie_lt _ _ _ _ _ _ _ _ I) in IA; exact IA).
  eapply dirty_covered with (i := i) (ei := setEDer (Some (List.length (g_e g))) e) (e := mkE [] (Some i) None); cbn [g_ea g_e g_v g_va].
  - eapply shrink4; [exact (newEq_inv _ _ _ _ _ g i e I IA E D)|]. cbn [g_ea g_e g_v g_va]. intros q w d' e' x Q W D' W' X ->. left. split; auto.
    rewrite nth_error_app1 in W by (rewrite upd_length; lia). rewrite upd_nth, Nat.eqb_refl, E in W. injection W as <-. exact X.
  - apply in_or_app. simpl; auto.
  - rewrite nth_error_app2 by (rewrite upd_length; lia). rewrite upd_length, Nat.sub_diag. reflexivity.
  - reflexivity.
  - reflexivity.
  - apply in_or_app. auto.
  - rewrite nth_error_app1 by (rewrite upd_length; lia). now apply upd_same.
  - reflexivity.
  - cbn. apply incl_refl.
  - intros x X1 X2. cbn [g_va g_ea g_e] in *. destruct (C x X1 X2) as (q & eq & Q1 & Q2 & Q3).
    exists q, (if q =? i then setEDer (Some (List.length (g_e g))) eq else eq). repeat split; [apply in_or_app; auto| |now destruct (q =? i)].
    rewrite nth_error_app1 by (rewrite upd_length; eapply nth_lt; eauto). rewrite upd_nth, Q2. now destruct (q =? i).
Qed.
End Remove.

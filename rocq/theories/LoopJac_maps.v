(** * Maps, lookups and positions of the model of loops *)
From Coq Require Import List Bool Arith NArith Reals Sorted Lia.
From Verif Require Import Graph_model Codegen_model CSyntax Range_model LoopCond_model LoopCond_spec LoopJac_model LoopJac_spec.
Import ListNotations.
Local Open Scope nat_scope.

Lemma mem_In : forall n l, mem n l = true <-> In n l.
Proof. intros. unfold mem. rewrite existsb_exists. split; [intros (x & Hx & E); apply Nat.eqb_eq in E; subst; auto|intro H; exists n; split; [auto|apply Nat.eqb_refl]]. Qed.
Lemma mem_nIn : forall n l, mem n l = false <-> ~ In n l.
Proof. intros. rewrite <- mem_In. destruct (mem n l); split; congruence. Qed.
Lemma sins_In : forall k x l, In x (sins k l) <-> x = k \/ In x l.
Proof.
  induction l as [|y l IH]; cbn [sins]; [cbn; intuition|]. destruct (k <? y) eqn:E; [cbn; intuition|]. destruct (k =? y) eqn:E2; [apply Nat.eqb_eq in E2; subst; cbn; intuition|].
  cbn [In]. rewrite IH. intuition.
Qed.
Lemma sins_sorted : forall k l, StronglySorted lt l -> StronglySorted lt (sins k l).
Proof.
  induction l as [|y l IH]; intro H; cbn [sins]; [repeat constructor|]. inversion H as [|? ? S1 S2]; subst.
  destruct (k <? y) eqn:E.
  - apply Nat.ltb_lt in E. constructor; [exact H|]. constructor; [exact E|]. eapply Forall_impl; [|exact S2]. cbn. intros; lia.
  - destruct (k =? y) eqn:E2; [exact H|]. apply Nat.ltb_ge in E. apply Nat.eqb_neq in E2. constructor; [apply IH, S1|].
    apply Forall_forall. intros z Hz. apply sins_In in Hz. destruct Hz as [->|Hz]; [lia|]. rewrite Forall_forall in S2. auto.
Qed.
Lemma sorted_NoDup : forall l, StronglySorted lt l -> NoDup l.
Proof.
  induction 1 as [|a l S1 IH S2]; constructor; auto. rewrite Forall_forall in S2. intro H. specialize (S2 _ H). lia.
Qed.

Section Maps.
Context {A : Type}.
Definition keyed (m : list (nat * A)) : Prop := StronglySorted lt (map fst m).
Lemma mput_keys : forall k (a : A) m k', In k' (map fst (mput k a m)) <-> k' = k \/ In k' (map fst m).
Proof.
  induction m as [|[k1 a1] m IH]; intro k'; cbn [mput map fst In]; [intuition|].
  destruct (k <? k1) eqn:E; [cbn [map fst In]; intuition|]. destruct (k =? k1) eqn:E2.
  - apply Nat.eqb_eq in E2. subst. cbn [map fst In]. intuition.
  - cbn [map fst In]. rewrite IH. intuition.
Qed.
Lemma mput_keyed : forall k (a : A) m, keyed m -> keyed (mput k a m).
Proof.
  unfold keyed. induction m as [|[k1 a1] m IH]; intro H; cbn [mput]; [repeat constructor|]. cbn [map fst] in H. inversion H as [|? ? S1 S2]; subst.
  destruct (k <? k1) eqn:E; [|destruct (k =? k1) eqn:E2].
  - apply Nat.ltb_lt in E. cbn [map fst]. constructor; [exact H|]. constructor; [exact E|]. eapply Forall_impl; [|exact S2]. cbn. intros; lia.
  - apply Nat.eqb_eq in E2. subst. exact H.
  - apply Nat.ltb_ge in E. apply Nat.eqb_neq in E2. cbn [map fst]. constructor; [apply IH, S1|]. apply Forall_forall. intros z Hz. apply mput_keys in Hz.
    destruct Hz as [->|Hz]; [lia|]. rewrite Forall_forall in S2. auto.
Qed.
Lemma mget_None : forall k (m : list (nat * A)), mget k m = None <-> ~ In k (map fst m).
Proof.
  induction m as [|[k1 a1] m IH]; cbn [mget map fst In]; [intuition|]. destruct (k =? k1) eqn:E.
  - apply Nat.eqb_eq in E. subst. split; [discriminate|intuition].
  - apply Nat.eqb_neq in E. rewrite IH. intuition.
Qed.
Lemma mget_put : forall k (a : A) m k', keyed m -> mget k' (mput k a m) = if k' =? k then Some a else mget k' m.
Proof.
  unfold keyed. induction m as [|[k1 a1] m IH]; intros k' H; cbn [mput mget]; [reflexivity|]. cbn [map fst] in H. inversion H as [|? ? S1 S2]; subst.
  destruct (k <? k1) eqn:E; [|destruct (k =? k1) eqn:E2]; cbn [mget].
  - reflexivity.
  - apply Nat.eqb_eq in E2. subst. destruct (k' =? k1); reflexivity.
  - apply Nat.eqb_neq in E2. destruct (k' =? k1) eqn:E3.
    + apply Nat.eqb_eq in E3. subst. destruct (k1 =? k) eqn:E4; [apply Nat.eqb_eq in E4; congruence|reflexivity].
    + apply IH, S1.
Qed.
Lemma mget_In : forall k (a : A) m, keyed m -> (In (k, a) m <-> mget k m = Some a).
Proof.
  unfold keyed. induction m as [|[k1 a1] m IH]; intro H; cbn [mget In]; [split; [tauto|discriminate]|]. cbn [map fst] in H. inversion H as [|? ? S1 S2]; subst.
  destruct (k =? k1) eqn:E.
  - apply Nat.eqb_eq in E. subst. split; [intros [E|Hi]; [congruence|]|intro E; left; congruence].
    rewrite Forall_forall in S2. specialize (S2 k1 (in_map fst _ _ Hi)). lia.
  - apply Nat.eqb_neq in E. rewrite <- IH by exact S1. split; [intros [E'|]; [congruence|auto]|auto].
Qed.
End Maps.

(** ** Lists *)
Lemma set_nth_length : forall {A} n (a : A) l, length (set_nth n a l) = length l.
Proof. intros A n a l. revert n. induction l as [|x l IH]; intros [|n]; cbn [set_nth length]; auto. Qed.
Lemma nth_set_nth : forall {A} n (a : A) l n', n < length l -> nth_error (set_nth n a l) n' = if n' =? n then Some a else nth_error l n'.
Proof.
  intros A n a l. revert n. induction l as [|x l IH]; intros n n' H; cbn [length] in H; [lia|].
  destruct n as [|n], n' as [|n']; cbn [set_nth nth_error Nat.eqb]; auto. apply IH. lia.
Qed.
Lemma nth_repeat_None : forall {A} n k, nth_error (repeat (@None A) n) k = if k <? n then Some None else None.
Proof. induction n as [|n IH]; intros [|k]; cbn [repeat nth_error]; auto. rewrite IH. reflexivity. Qed.

(** ** indexOf *)
Lemma indexOf_Some : forall {A} (p : A -> bool) l n, indexOf p l = Some n -> exists a, nth_error l n = Some a /\ p a = true.
Proof.
  induction l as [|x l IH]; intros n H; cbn [indexOf] in H; [discriminate|]. destruct (p x) eqn:E.
  - inversion H; subst. exists x. auto.
  - destruct (indexOf p l) as [n1|]; [|discriminate]. inversion H; subst. destruct (IH n1 eq_refl) as (a & Ha & Hp). exists a. auto.
Qed.
Lemma indexOf_None : forall {A} (p : A -> bool) l, indexOf p l = None -> forall a, In a l -> p a = false.
Proof.
  induction l as [|x l IH]; intros H a Ha; cbn [indexOf] in H; [destruct Ha|]. destruct (p x) eqn:E; [discriminate|].
  destruct (indexOf p l); [discriminate|]. destruct Ha as [<-|Ha]; auto.
Qed.
Lemma indexOf_eqb : forall j l n, NoDup l -> (indexOf (Nat.eqb j) l = Some n <-> nth_error l n = Some j).
Proof.
  induction l as [|x l IH]; intros n H; cbn [indexOf]; [destruct n; split; discriminate|]. inversion H as [|? ? Hx Hl]; subst. destruct (j =? x) eqn:E.
  - apply Nat.eqb_eq in E. subst. destruct n as [|n]; cbn [nth_error]; [intuition|]. split; [discriminate|]. intro E. apply nth_error_In in E. contradiction.
  - apply Nat.eqb_neq in E. destruct n as [|n]; cbn [nth_error].
    + split; [destruct (indexOf (Nat.eqb j) l); discriminate|congruence].
    + rewrite <- (IH n Hl). destruct (indexOf (Nat.eqb j) l); cbn; split; congruence.
Qed.
Lemma isEq_iff : forall i o, isEq i o = true <-> o = Some i.
Proof. intros i [i'|]; cbn [isEq]; [rewrite Nat.eqb_eq; split; congruence|split; discriminate]. Qed.
Lemma findDep_Some : forall i deps tapeI it, findDep i deps = Some (tapeI, it) -> exists r, nth_error deps tapeI = Some r /\ nth_error r it = Some (Some i).
Proof.
  induction deps as [|r deps IH]; intros tapeI it H; cbn [findDep] in H; [discriminate|]. destruct (indexOf (isEq i) r) as [n|] eqn:E.
  - inversion H; subst. destruct (indexOf_Some _ _ _ E) as (a & Ha & Hp). apply isEq_iff in Hp. subst. exists r. auto.
  - destruct (findDep i deps) as [[a b]|]; [|discriminate]. cbn in H. inversion H; subst. destruct (IH a it eq_refl) as (r' & H1 & H2). exists r'. auto.
Qed.
Lemma findDep_None : forall i deps, findDep i deps = None -> forall tapeI r it, nth_error deps tapeI = Some r -> nth_error r it = Some (Some i) -> False.
Proof.
  induction deps as [|r deps IH]; intros H tapeI r' it H1 H2; cbn [findDep] in H; [destruct tapeI; discriminate|]. destruct (indexOf (isEq i) r) as [n|] eqn:E; [discriminate|].
  destruct (findDep i deps) as [p|]; [discriminate|]. destruct tapeI as [|tapeI]; cbn [nth_error] in H1.
  - inversion H1; subst. pose proof (indexOf_None _ _ E _ (nth_error_In _ _ H2)) as E'. cbn in E'. rewrite Nat.eqb_refl in E'. discriminate.
  - eapply IH; eauto.
Qed.
Lemma findLoop_Some : forall i ls n tapeI it, findLoop i ls = Some (n, (tapeI, it)) ->
  exists l r, nth_error ls n = Some l /\ nth_error (l_deps l) tapeI = Some r /\ nth_error r it = Some (Some i).
Proof.
  induction ls as [|l ls IH]; intros n tapeI it H; cbn [findLoop] in H; [discriminate|]. destruct (findDep i (l_deps l)) as [[a b]|] eqn:E.
  - inversion H; subst. destruct (findDep_Some _ _ _ _ E) as (r & H1 & H2). exists l, r. auto.
  - destruct (findLoop i ls) as [[n1 [a b]]|]; [|discriminate]. cbn in H. inversion H; subst. destruct (IH n1 tapeI it eq_refl) as (l' & r & H1 & H2). exists l', r. auto.
Qed.
Lemma findLoop_None : forall i ls, findLoop i ls = None -> forall n l tapeI r it, nth_error ls n = Some l -> nth_error (l_deps l) tapeI = Some r -> nth_error r it = Some (Some i) -> False.
Proof.
  induction ls as [|l ls IH]; intros H n l' tapeI r it H1 H2 H3; cbn [findLoop] in H; [destruct n; discriminate|]. destruct (findDep i (l_deps l)) as [p|] eqn:E; [discriminate|].
  destruct (findLoop i ls) as [q|] eqn:E2; [discriminate|]. destruct n as [|n]; cbn [nth_error] in H1.
  - inversion H1; subst. exact (findDep_None _ _ E _ _ _ H2 H3).
  - exact (IH eq_refl _ _ _ _ _ H1 H2 H3).
Qed.
Lemma findLoop_iff : forall md i n tapeI it, good md -> (findLoop i (m_loops md) = Some (n, (tapeI, it)) <-> place_of md i (Some (n, (tapeI, it)))).
Proof.
  intros md i n tapeI it Hg. split; intro H.
  - destruct (findLoop_Some _ _ _ _ _ H) as (l & r & H1 & H2 & H3). exact (P_loop md i n l tapeI r it H1 H2 H3).
  - destruct (findLoop i (m_loops md)) as [[n' [a b]]|] eqn:E.
    + destruct (findLoop_Some _ _ _ _ _ E) as (l & r & H1 & H2 & H3). f_equal. pose proof (g_one md Hg i _ _ (P_loop md i n' l a r b H1 H2 H3) H). congruence.
    + exfalso. inversion H; subst. eapply findLoop_None; eauto.
Qed.
Lemma findLoop_free : forall md i f, good md -> m_free md = Some f -> In i (f_eqs f) -> findLoop i (m_loops md) = None.
Proof.
  intros md i f Hg Hf Hi. destruct (findLoop i (m_loops md)) as [[n' [a b]]|] eqn:E; [|reflexivity].
  destruct (findLoop_Some _ _ _ _ _ E) as (l & r & H1 & H2 & H3). pose proof (g_one md Hg i _ _ (P_loop md i n' l a r b H1 H2 H3) (P_free md i f Hf Hi)). discriminate.
Qed.

(** ** Positions *)
Definition pget (m : list (nat * positions)) (k it : nat) : option nat :=
  match mget k m with Some p => match nth_error p it with Some (Some e) => Some e | _ => None end | None => None end.
Definition wfpos (iters : nat) (m : list (nat * positions)) : Prop :=
  keyed m /\ forall k p, mget k m = Some p -> length p = iters /\ exists it e, nth_error p it = Some (Some e).

Lemma place_spec : forall iters it key e m, wfpos iters m -> it < iters ->
  match pget m key it with
  | Some _ => place iters it key e m = Throw
  | None => exists m', place iters it key e m = Ok m' /\ wfpos iters m' /\
              (forall k' it', pget m' k' it' = if (k' =? key) && (it' =? it) then Some e else pget m k' it') /\
              (forall k', In k' (map fst m') <-> k' = key \/ In k' (map fst m))
  end.
Proof.
  intros iters it key e m [K W] Hit.
  assert (D : forall p, (match mget key m with Some p => p | None => repeat None iters end) = p -> length p = iters -> nth_error p it = Some None -> pget m key it = None ->
    exists m', place iters it key e m = Ok m' /\ wfpos iters m' /\
      (forall k' it', pget m' k' it' = if (k' =? key) && (it' =? it) then Some e else pget m k' it') /\ (forall k', In k' (map fst m') <-> k' = key \/ In k' (map fst m))).
  { intros p Ep Hl Hp Hn. exists (mput key (set_nth it (Some e) p) m). unfold place. rewrite Ep, Hp. split; [reflexivity|]. split.
    { split; [apply mput_keyed, K|]. intros k q Hq. rewrite mget_put in Hq by exact K. destruct (k =? key); [|exact (W k q Hq)].
      assert (q = set_nth it (Some e) p) as -> by congruence. split; [rewrite set_nth_length; exact Hl|]. exists it, e. rewrite nth_set_nth by (rewrite ?Hl; lia). rewrite Nat.eqb_refl. reflexivity. }
    split; [|intros; apply mput_keys]. intros k' it'. unfold pget at 1. rewrite mget_put by exact K. destruct (k' =? key) eqn:E; cbn [andb]; [|reflexivity].
    apply Nat.eqb_eq in E. subst k'. rewrite nth_set_nth by lia. destruct (it' =? it) eqn:E2; [reflexivity|]. unfold pget.
    destruct (mget key m) as [q|]; [subst q; reflexivity|]. subst p. rewrite nth_repeat_None. destruct (it' <? iters); reflexivity. }
  destruct (pget m key it) as [e'|] eqn:Hp.
  - unfold pget in Hp. unfold place. destruct (mget key m) as [p|]; [|discriminate]. destruct (nth_error p it) as [[e1|]|]; try discriminate. reflexivity.
  - destruct (mget key m) as [p|] eqn:E.
    + destruct (W key p E) as [Hl _]. apply (D p); auto. unfold pget in Hp. rewrite E in Hp. destruct (nth_error p it) as [[e1|]|] eqn:E1; try congruence.
      apply nth_error_None in E1. lia.
    + apply (D (repeat None iters)); auto; [apply repeat_length|]. rewrite nth_repeat_None. destruct (it <? iters) eqn:E1; [reflexivity|]. apply Nat.ltb_ge in E1. lia.
Qed.

(** ** The tables of a loop *)
Section Loop.
Variable md : model.
Variable l : loopM.
Hypothesis Hl : good_loop md l.
Let nI := length (l_indexed l).
Let nN := length (l_non l).
Let nT := length (l_tmp l).

Lemma entry_Some : forall t a b v, entry t a b = Some v <-> exists r, nth_error t a = Some r /\ nth_error r b = Some (Some v).
Proof.
  intros. unfold entry. destruct (nth_error t a) as [r|]; [|split; [discriminate|intros (r & ? & _); discriminate]].
  destruct (nth_error r b) as [[v'|]|] eqn:E; split; intro H; try discriminate; try (destruct H as (r' & H1 & H2); inversion H1; subst; congruence).
  inversion H; subst. exists r. auto.
Qed.
Lemma sources_indexed : forall it t j, t < nI -> (nth_error (sources l it) t = Some (Some (XVar j)) <-> entry (l_indexed l) t it = Some j).
Proof.
  intros it t j Ht. unfold sources. rewrite nth_error_app1 by (rewrite map_length; exact Ht). rewrite nth_error_map. rewrite entry_Some.
  destruct (nth_error (l_indexed l) t) as [r|] eqn:E; cbn [option_map]; [|split; [discriminate|intros (r & ? & _); discriminate]].
  split.
  - intro H. exists r. split; [reflexivity|]. destruct (nth_error r it) as [[v'|]|]; congruence.
  - intros (r' & H1 & H2). inversion H1; subst. rewrite H2. reflexivity.
Qed.
Lemma sources_indexed_None : forall it t, t < nI -> nth_error (sources l it) t <> Some None -> exists j, entry (l_indexed l) t it = Some j.
Proof.
  intros it t Ht H. unfold sources in H. rewrite nth_error_app1 in H by (rewrite map_length; exact Ht). rewrite nth_error_map in H.
  destruct (nth_error (l_indexed l) t) as [r|] eqn:E; [|apply nth_error_None in E; unfold nI in Ht; lia]. cbn [option_map] in H.
  destruct (nth_error r it) as [[j|]|] eqn:E2; try congruence. exists j. apply entry_Some. exists r. auto.
Qed.
Lemma sources_non : forall it q, q < nN -> nth_error (sources l it) (nI + q) = option_map (fun j => Some (XVar j)) (nth_error (l_non l) q).
Proof.
  intros it q Hq. unfold sources. rewrite nth_error_app2 by (rewrite map_length; unfold nI; lia). rewrite map_length.
  replace (nI + q - length (l_indexed l)) with q by (unfold nI; lia). rewrite nth_error_app1 by (rewrite map_length; exact Hq). apply nth_error_map.
Qed.
Lemma sources_tmp : forall it q, nth_error (sources l it) (nI + nN + q) = option_map (fun k => Some (ZTmp k)) (nth_error (l_tmp l) q).
Proof.
  intros it q. unfold sources. rewrite nth_error_app2 by (rewrite map_length; unfold nI; lia). rewrite map_length.
  rewrite nth_error_app2 by (rewrite map_length; unfold nI, nN; lia). rewrite map_length. replace (nI + nN + q - length (l_indexed l) - length (l_non l)) with q by (unfold nI, nN; lia).
  apply nth_error_map.
Qed.
Lemma getIndexed_In : forall it j t, In t (getIndexedTapeIndexes l it j) <-> entry (l_indexed l) t it = Some j.
Proof.
  intros. unfold getIndexedTapeIndexes. rewrite filter_In, in_seq, isEq_iff. split; [intuition|]. intro H. split; [|exact H].
  apply entry_Some in H. destruct H as (r & H1 & _). assert (nth_error (l_indexed l) t <> None) by congruence. apply nth_error_Some in H. lia.
Qed.
Lemma getIndexed_NoDup : forall it j, NoDup (getIndexedTapeIndexes l it j).
Proof. intros. apply NoDup_filter, seq_NoDup. Qed.
Lemma getNonIndexed_iff : forall j t, getNonIndexed l j = Some t <-> nI <= t < nI + nN /\ nth_error (l_non l) (t - nI) = Some j.
Proof.
  intros j t. unfold getNonIndexed. split.
  - intro H. destruct (indexOf (Nat.eqb j) (l_non l)) as [q|] eqn:E; [|discriminate]. cbn in H. inversion H; subst. apply indexOf_eqb in E; [|apply (g_non md l Hl)].
    assert (nth_error (l_non l) q <> None) by congruence. apply nth_error_Some in H0. unfold nI, nN. split; [lia|]. replace (length (l_indexed l) + q - length (l_indexed l)) with q by lia. exact E.
  - intros [H1 H2]. apply (indexOf_eqb j (l_non l) (t - nI) (g_non md l Hl)) in H2. rewrite H2. cbn. f_equal. unfold nI in *. lia.
Qed.
Lemma getTemp_iff : forall k t, getTemp l k = Some t <-> nI + nN <= t /\ nth_error (l_tmp l) (t - nI - nN) = Some k.
Proof.
  intros k t. unfold getTemp. split.
  - intro H. destruct (indexOf (Nat.eqb k) (l_tmp l)) as [q|] eqn:E; [|discriminate]. cbn in H. inversion H; subst. apply indexOf_eqb in E; [|apply (g_tmp md l Hl)].
    unfold nI, nN. split; [lia|]. replace (length (l_indexed l) + length (l_non l) + q - length (l_indexed l) - length (l_non l)) with q by lia. exact E.
  - intros [H1 H2]. apply (indexOf_eqb k (l_tmp l) _ (g_tmp md l Hl)) in H2. rewrite H2. cbn. f_equal. unfold nI, nN in *. lia.
Qed.
End Loop.

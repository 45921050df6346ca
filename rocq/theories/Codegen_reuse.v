(** * reduceTemporaryVariables: two temporaries with the same identifier are never needed at the same time
    (code_handler_impl.hpp 1636-1713) *)
From Coq Require Import List Bool Arith Lia Permutation.
From Verif Require Import Graph_model Graph_spec Codegen_model Codegen_spec Codegen_dfs Codegen_use Codegen_create Codegen_order.
Import ListNotations.

Lemma filter_split {A} (f a b : A -> bool) l : (forall x, f x = a x || b x) -> (forall x, a x = true -> b x = false) ->
  Permutation (filter f l) (filter a l ++ filter b l).
Proof.
  intros H1 H2. induction l as [|x l IH]; [constructor|]. cbn [filter]. rewrite H1.
  destruct (a x) eqn:Ea; cbn [orb].
  - rewrite (H2 _ Ea). cbn [app]. constructor. exact IH.
  - destruct (b x); [|exact IH]. eapply Permutation_trans; [apply perm_skip, IH|]. apply Permutation_middle.
Qed.

Lemma filter_none {A} (f : A -> bool) l : (forall x, In x l -> f x = false) -> filter f l = [].
Proof.
  induction l as [|x l IH]; intros H; [reflexivity|]. cbn [filter]. rewrite (H x (or_introl eq_refl)).
  apply IH. intros; apply H; right; assumption.
Qed.

Lemma firstn_S_nth {A} (l : list A) i v : nth_error l i = Some v -> firstn (S i) l = firstn i l ++ [v].
Proof.
  revert i. induction l as [|a l IH]; intros [|i] H; try discriminate.
  - injection H as ->. reflexivity.
  - cbn [firstn app]. f_equal. apply IH, H.
Qed.

Lemma nth_in_firstn {A} (l : list A) k i v : nth_error l k = Some v -> k < i -> In v (firstn i l).
Proof.
  revert k i. induction l as [|a l IH]; intros [|k] [|i] H Hk; try discriminate; try lia.
  - injection H as ->. left; reflexivity.
  - right. eapply IH; [exact H|lia].
Qed.

Lemma in_firstn_nth {A} (l : list A) i v : In v (firstn i l) -> exists k, k < i /\ nth_error l k = Some v.
Proof.
  revert i. induction l as [|a l IH]; intros [|i] H; try destruct H as [H|H]; try contradiction.
  - exists 0. split; [lia|cbn; congruence].
  - apply IH in H. destruct H as (k & Hk & E). exists (S k). split; [lia|exact E].
Qed.

Lemma nodup_nth {A} (l : list A) i j v : NoDup l -> nth_error l i = Some v -> nth_error l j = Some v -> i = j.
Proof.
  intros Hn H1 H2. eapply (proj1 (NoDup_nth_error l) Hn); [apply nth_error_Some; congruence|congruence].
Qed.

(** re-use never needs more identifiers than there are temporaries *)
Lemma redefine_size minTmp last vo : forall todo i vid freed next vid' freed' next',
  redefine minTmp last vo todo i (vid, freed, next) = (vid', freed', next') -> minTmp <= next ->
  NoDup todo ->
  next' <= next + length (filter (fun v => isTemporary minTmp vid v) todo).
Proof.
  induction todo as [|v todo IH]; intros i vid freed next vid' freed' next' E Hn Hd; cbn [redefine] in E.
  - injection E as <- <- <-. lia.
  - inversion Hd as [|? ? Hv Hd']; subst. cbn [filter].
    assert (X : forall x, length (filter (fun u => isTemporary minTmp (upd vid v x) u) todo) = length (filter (fun u => isTemporary minTmp vid u) todo)).
    { intros x. f_equal. apply filter_ext_in. intros u Hu. unfold isTemporary, upd. destruct (Nat.eqb u v) eqn:E1; [|reflexivity].
      apply Nat.eqb_eq in E1. subst. contradiction. }
    destruct (isTemporary minTmp vid v) eqn:Et; cbn [length].
    + destruct (rev (map vid (releasedAt minTmp vid last vo i)) ++ freed) as [|id fr].
      * apply IH in E; [|lia|exact Hd']. rewrite X in E. lia.
      * apply IH in E; [|lia|exact Hd']. rewrite X in E. lia.
    + apply IH in E; [|lia|exact Hd']. lia.
Qed.

Section Reuse.
Variable minTmp : nat.
Variable last : nat -> nat.
Variable vo : list nat.
Variable vid1 : nat -> nat.
Hypothesis Hnd : NoDup vo.
Hypothesis Hlast : forall k v, nth_error vo k = Some v -> minTmp <= vid1 v -> S (S k) <= last v.

Notation temp1 := (isTemporary minTmp vid1).
Definition live (i : nat) : list nat := filter (fun v => temp1 v && Nat.ltb i (last v)) (firstn i vo).
Definition live' (i : nat) : list nat := filter (fun v => temp1 v && Nat.ltb (S i) (last v)) (firstn i vo).

Record RI (i : nat) (vid : nat -> nat) (freed : list nat) (next : nat) : Prop := {
  ri_old : forall k v, nth_error vo k = Some v -> i <= k -> vid v = vid1 v;
  ri_nt : forall v, temp1 v = false \/ ~ In v vo -> vid v = vid1 v;
  ri_t : forall v, minTmp <= vid1 v -> minTmp <= vid v;
  ri_next : minTmp <= next;
  ri_nodup : NoDup (freed ++ map vid (live i));
  ri_lt : forall x, In x (freed ++ map vid (live i)) -> minTmp <= x /\ x < next;
  ri_bound : forall k v, nth_error vo k = Some v -> k < i -> temp1 v = true -> vid v < next;
  ri_clash : forall k k' v v', k < k' -> k' < i -> nth_error vo k = Some v -> nth_error vo k' = Some v' ->
     temp1 v = true -> temp1 v' = true -> vid v = vid v' -> last v <= S k'
}.

Lemma temp_same i vid freed next : RI i vid freed next -> forall v, isTemporary minTmp vid v = temp1 v.
Proof.
  intros H v. destruct (temp1 v) eqn:E.
  - unfold isTemporary in *. apply Nat.leb_le in E. apply Nat.leb_le. apply (ri_t _ _ _ _ H), E.
  - unfold isTemporary in *. rewrite (ri_nt _ _ _ _ H); auto.
Qed.

Lemma released_eq i vid freed next : RI i vid freed next ->
  releasedAt minTmp vid last vo i = filter (fun v => temp1 v && Nat.eqb (last v) (S i)) (firstn i vo).
Proof.
  intros H. unfold releasedAt.
  rewrite (filter_ext _ (fun v => temp1 v && Nat.eqb (last v) (S i))) by (intros v; rewrite (temp_same _ _ _ _ H); reflexivity).
  rewrite <- (firstn_skipn i vo) at 1. rewrite filter_app, (filter_none _ (skipn i vo)), app_nil_r; [reflexivity|].
  intros v Hv. apply In_nth_error in Hv. destruct Hv as [k Hk].
  assert (E : nth_error vo (i + k) = Some v).
  { rewrite <- (firstn_skipn i vo). destruct (Nat.le_gt_cases i (length vo)) as [Hle|Hgt].
    - rewrite nth_error_app2; rewrite firstn_length_le by exact Hle; [|lia].
      replace (i + k - i) with k by lia. exact Hk.
    - rewrite skipn_all2 in Hk by lia. destruct k; discriminate. }
  destruct (temp1 v) eqn:Et; [|reflexivity]. cbn [andb]. apply Nat.eqb_neq. unfold isTemporary in Et. apply Nat.leb_le in Et.
  specialize (Hlast _ _ E Et). lia.
Qed.

Lemma live_split i : Permutation (live i) (filter (fun v => temp1 v && Nat.eqb (last v) (S i)) (firstn i vo) ++ live' i).
Proof.
  apply filter_split.
  - intros x. destruct (temp1 x); cbn [andb orb]; [|reflexivity].
    destruct (Nat.ltb_spec i (last x)), (Nat.eqb_spec (last x) (S i)), (Nat.ltb_spec (S i) (last x)); auto; lia.
  - intros x H. apply andb_true_iff in H. destruct H as [-> H]. apply Nat.eqb_eq in H. cbn [andb]. apply Nat.ltb_ge. lia.
Qed.

Lemma live_S i v : nth_error vo i = Some v -> live (S i) = live' i ++ (if temp1 v then [v] else []).
Proof.
  intros E. unfold live, live'. rewrite (firstn_S_nth _ _ _ E), filter_app. f_equal. cbn [filter].
  destruct (temp1 v) eqn:Et; [|reflexivity]. cbn [andb]. unfold isTemporary in Et. apply Nat.leb_le in Et.
  specialize (Hlast _ _ E Et). assert (Nat.ltb (S i) (last v) = true) as -> by (apply Nat.ltb_lt; lia). reflexivity.
Qed.

Lemma not_in_firstn i v : nth_error vo i = Some v -> ~ In v (firstn i vo).
Proof. intros E H. apply in_firstn_nth in H. destruct H as (k & Hk & Ek). pose proof (nodup_nth _ _ _ _ Hnd E Ek). lia. Qed.

Lemma map_upd_other (vid : nat -> nat) v x l : ~ In v l -> map (upd vid v x) l = map vid l.
Proof. intros H. apply map_ext_in. intros a Ha. apply upd_neq. intros ->; auto. Qed.

Lemma live'_firstn i v : In v (live' i) -> In v (firstn i vo).
Proof. intros H. apply filter_In in H. apply H. Qed.

(** allocation of one identifier *)
Lemma ri_alloc i v vid freed1 next id freed2 next2 : nth_error vo i = Some v -> temp1 v = true ->
  (forall k u, nth_error vo k = Some u -> i <= k -> vid u = vid1 u) ->
  (forall u, temp1 u = false \/ ~ In u vo -> vid u = vid1 u) ->
  (forall u, minTmp <= vid1 u -> minTmp <= vid u) ->
  minTmp <= next -> NoDup (freed1 ++ map vid (live' i)) ->
  (forall x, In x (freed1 ++ map vid (live' i)) -> minTmp <= x /\ x < next) ->
  (forall k u, nth_error vo k = Some u -> k < i -> temp1 u = true -> vid u < next) ->
  (forall k k' u u', k < k' -> k' < i -> nth_error vo k = Some u -> nth_error vo k' = Some u' ->
     temp1 u = true -> temp1 u' = true -> vid u = vid u' -> last u <= S k') ->
  (freed1 = [] /\ id = next /\ freed2 = [] /\ next2 = S next) \/ (freed1 = id :: freed2 /\ next2 = next) ->
  RI (S i) (upd vid v id) freed2 next2.
Proof.
  intros E Et H1 H2 H3 H4 H5 H6 H7 H8 Hc.
  assert (Hid : minTmp <= id /\ id < next2 /\ next <= next2).
  { destruct Hc as [(-> & -> & -> & ->)|(-> & ->)]; [lia|]. specialize (H6 id (or_introl eq_refl)). lia. }
  assert (Hnew : ~ In id (map vid (live' i))).
  { destruct Hc as [(-> & -> & -> & ->)|(-> & ->)].
    - intros Hi. apply (H6 _ Hi : minTmp <= next /\ next < next) in Hi || (specialize (H6 next Hi); lia).
    - intros Hi. cbn [app] in H5. apply NoDup_cons_iff in H5. apply (proj1 H5), in_or_app. right; exact Hi. }
  assert (Hl : map (upd vid v id) (live (S i)) = map vid (live' i) ++ [id]).
  { rewrite (live_S _ _ E), Et, map_app. cbn [map]. rewrite upd_eq, map_upd_other; [reflexivity|].
    intros Hi. apply live'_firstn in Hi. revert Hi. apply not_in_firstn, E. }
  constructor.
  - intros k u Ek Hk. rewrite upd_neq; [apply (H1 _ _ Ek); lia|]. intros ->. pose proof (nodup_nth _ _ _ _ Hnd E Ek). lia.
  - intros u Hu. rewrite upd_neq; [apply H2, Hu|]. intros ->. destruct Hu as [Hu|Hu]; [congruence|].
    apply Hu. eapply nth_error_In; exact E.
  - intros u Hu. destruct (Nat.eq_dec u v) as [->|Hn]; [rewrite upd_eq; apply Hid|rewrite upd_neq by exact Hn; apply H3, Hu].
  - lia.
  - rewrite Hl. destruct Hc as [(-> & -> & -> & ->)|(-> & ->)].
    + cbn [app] in *. eapply Permutation_NoDup; [apply Permutation_cons_append|]. constructor; assumption.
    + rewrite app_assoc. eapply Permutation_NoDup; [apply Permutation_cons_append|]. exact H5.
  - rewrite Hl. intros x Hx. apply in_app_or in Hx. destruct Hx as [Hx|Hx].
    + destruct Hc as [(-> & -> & -> & ->)|(-> & ->)]; [destruct Hx|]. apply H6. right. apply in_or_app; left; exact Hx.
    + apply in_app_or in Hx. destruct Hx as [Hx|[<-|[]]]; [|lia].
      specialize (H6 x (in_or_app _ _ _ (or_intror Hx))). lia.
  - intros k u Ek Hk Hu. destruct (Nat.eq_dec u v) as [->|Hn]; [rewrite upd_eq; apply Hid|].
    rewrite upd_neq by exact Hn. assert (k <> i) by (intros ->; congruence).
    specialize (H7 k u Ek ltac:(lia) Hu). lia.
  - intros k k' u u' Hk Hk' Eu Eu' Tu Tu' Hv.
    assert (Hu : u <> v) by (intros ->; pose proof (nodup_nth _ _ _ _ Hnd E Eu); lia).
    rewrite (upd_neq _ _ _ _ Hu) in Hv.
    destruct (Nat.eq_dec k' i) as [->|Hn].
    + assert (u' = v) as -> by congruence. rewrite upd_eq in Hv.
      destruct (Nat.le_gt_cases (last u) (S i)) as [|Hgt]; [assumption|exfalso].
      apply Hnew. rewrite <- Hv. apply in_map. apply filter_In. split; [eapply nth_in_firstn; eassumption|].
      rewrite Tu. cbn [andb]. apply Nat.ltb_lt. lia.
    + assert (u' <> v) by (intros ->; pose proof (nodup_nth _ _ _ _ Hnd E Eu'); lia).
      rewrite upd_neq in Hv by assumption. eapply H8; try eassumption. lia.
Qed.

Lemma ri_step i v vid freed next : nth_error vo i = Some v -> RI i vid freed next ->
  let freed1 := rev (map vid (releasedAt minTmp vid last vo i)) ++ freed in
  let '(vid2, freed2, next2) := if isTemporary minTmp vid v
              then match freed1 with
                   | [] => (upd vid v next, [], S next)
                   | id :: freed' => (upd vid v id, freed', next)
                   end
              else (vid, freed1, next) in
  RI (S i) vid2 freed2 next2.
Proof.
  intros E H. cbv zeta. rewrite (temp_same _ _ _ _ H v), (released_eq _ _ _ _ H).
  set (freed1 := rev (map vid (filter (fun v => temp1 v && Nat.eqb (last v) (S i)) (firstn i vo))) ++ freed).
  assert (HP : Permutation (freed ++ map vid (live i)) (freed1 ++ map vid (live' i))).
  { unfold freed1. eapply Permutation_trans; [apply Permutation_app_head, Permutation_map, live_split|].
    rewrite map_app, app_assoc. apply Permutation_app_tail.
    eapply Permutation_trans; [apply Permutation_app_comm|]. apply Permutation_app_tail, Permutation_rev. }
  pose proof (Permutation_NoDup HP (ri_nodup _ _ _ _ H)) as Hd.
  assert (Hlt : forall x, In x (freed1 ++ map vid (live' i)) -> minTmp <= x /\ x < next).
  { intros x Hx. apply (ri_lt _ _ _ _ H). eapply Permutation_in; [apply Permutation_sym, HP|exact Hx]. }
  destruct H as [h1 h2 h3 h4 _ _ h7 h8].
  destruct (temp1 v) eqn:Et.
  - clearbody freed1. destruct freed1 as [|id freed2].
    + eapply ri_alloc; try eassumption. left; auto.
    + eapply ri_alloc; try eassumption. right; auto.
  - assert (Hl : live (S i) = live' i) by (rewrite (live_S _ _ E), Et; apply app_nil_r).
    constructor; auto.
    + intros k u Ek Hk. apply (h1 _ _ Ek). lia.
    + rewrite Hl. exact Hd.
    + rewrite Hl. exact Hlt.
    + intros k u Ek Hk Hu. assert (k <> i) by (intros ->; congruence). apply (h7 k); auto; lia.
    + intros k k' u u' Hk Hk' Eu Eu' Tu Tu' Hv. assert (k' <> i) by (intros ->; congruence).
      eapply (h8 k k'); try eassumption. lia.
Qed.

Lemma redefine_inv : forall todo done vid freed next vid' freed' next', vo = done ++ todo ->
  RI (length done) vid freed next ->
  redefine minTmp last vo todo (length done) (vid, freed, next) = (vid', freed', next') ->
  RI (length vo) vid' freed' next'.
Proof.
  induction todo as [|v todo IH]; intros done vid freed next vid' freed' next' E H Hr; cbn [redefine] in Hr.
  - injection Hr as <- <- <-. rewrite app_nil_r in E. rewrite E. exact H.
  - assert (Ev : nth_error vo (length done) = Some v) by (rewrite E, nth_error_app2, Nat.sub_diag by lia; reflexivity).
    pose proof (ri_step _ _ _ _ _ Ev H) as HS. cbv zeta in HS.
    destruct (if isTemporary minTmp vid v then _ else _) as [[vid2 freed2] next2].
    eapply (IH (done ++ [v])); [rewrite <- app_assoc; exact E| |].
    + rewrite app_length. cbn [length]. rewrite Nat.add_1_r. exact HS.
    + rewrite app_length. cbn [length]. rewrite Nat.add_1_r. exact Hr.
Qed.

Lemma redefine_ok vid' freed' next' : redefine minTmp last vo vo 0 (vid1, [], minTmp) = (vid', freed', next') ->
  RI (length vo) vid' freed' next'.
Proof.
  intros E. eapply (redefine_inv vo []); [reflexivity| |exact E].
  constructor; auto; try (intros; cbn [length] in *; lia).
  - constructor.
  - intros x [].
Qed.
End Reuse.

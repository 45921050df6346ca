(** * Proofs about the assembly of sparse Jacobians and Hessians *)
From Coq Require Import List Arith Bool Lia.
From Verif Require Import Pool_model Pool_proofs Assemble_model.
Import ListNotations.

(** ** The groups *)
Definition elsOf (k : nat) (ps : list (nat * nat)) : list nat := map snd (filter (fun p => fst p =? k) ps).

Fixpoint inc (b : nat) (l : list nat) : Prop := match l with [] => True | k :: r => b <= k /\ inc (S k) r end.

Lemma inc_le l : forall b b', b' <= b -> inc b l -> inc b' l.
Proof. destruct l as [|k r]; intros b b' H; cbn [inc]; [auto|]. intros [A B]. split; [lia|exact B]. Qed.
Lemma inc_In l : forall b k, inc b l -> In k l -> b <= k.
Proof.
  induction l as [|x r IH]; intros b k H [].
  - subst x. exact (proj1 H).
  - destruct H as [A B]. specialize (IH _ _ B H0). lia.
Qed.
Lemma inc_NoDup l : forall b, inc b l -> NoDup l.
Proof.
  induction l as [|x r IH]; intros b H; [constructor|]. destruct H as [A B]. constructor; [|eapply IH; exact B].
  intro I. pose proof (inc_In _ _ _ B I). lia.
Qed.

Lemma push_inc k v m : forall b, b <= k -> inc b (map fst m) -> inc b (map fst (push k v m)).
Proof.
  induction m as [|[k' vs] r IH]; intros b Hb H; cbn [push map fst inc] in *; [auto|].
  destruct H as [A B]. destruct (k <? k') eqn:E.
  - apply Nat.ltb_lt in E. cbn [map fst inc]. split; [lia|]. split; [lia|exact B].
  - apply Nat.ltb_ge in E. destruct (k =? k') eqn:E2.
    + apply Nat.eqb_eq in E2. subst k'. cbn [map fst inc]. auto.
    + apply Nat.eqb_neq in E2. cbn [map fst inc]. split; [lia|]. apply IH; [lia|exact B].
Qed.

Lemma push_In k v m : forall b, inc b (map fst m) -> forall k' vs',
  In (k', vs') (push k v m) <->
  (k' <> k /\ In (k', vs') m) \/ (k' = k /\ ((exists vs, In (k, vs) m /\ vs' = vs ++ [v]) \/ (~ In k (map fst m) /\ vs' = [v]))).
Proof.
  induction m as [|[k0 vs0] r IH]; intros b H k' vs'; cbn [push].
  - cbn [In map]. split.
    + intros [E|[]]. injection E as <- <-. right. split; [reflexivity|right; split; [tauto|reflexivity]].
    + intros [[_ []]|[-> [[vs [[] _]]|[_ ->]]]]. left. reflexivity.
  - destruct H as [A B]. cbn [map fst] in *. destruct (k <? k0) eqn:E.
    + apply Nat.ltb_lt in E.
      assert (N : ~ In k (k0 :: map fst r)).
      { intros [E1|I]; [lia|]. pose proof (inc_In _ _ _ B I). lia. }
      split.
      * intros [E1|I]; [injection E1 as <- <-; right; split; [reflexivity|]; right; split; [exact N|reflexivity]|].
        left. split; [|exact I]. intros ->. apply N. apply (in_map fst) in I. exact I.
      * intros [[E1 I]|[-> [[vs [I _]]|[_ ->]]]]; [right; exact I| |left; reflexivity].
        exfalso. apply N. apply (in_map fst) in I. exact I.
    + apply Nat.ltb_ge in E. destruct (k =? k0) eqn:E2.
      * apply Nat.eqb_eq in E2. subst k0.
        assert (N : ~ In k (map fst r)). { intro I. pose proof (inc_In _ _ _ B I). lia. }
        split.
        -- intros [E1|I].
           ++ injection E1 as <- <-. right. split; [reflexivity|]. left. exists vs0. split; [left; reflexivity|reflexivity].
           ++ left. split; [|right; exact I]. intros ->. apply N. apply (in_map fst) in I. exact I.
        -- intros [[E1 [I|I]]|[-> [[vs [[I|I] ->]]|[N2 _]]]].
           ++ injection I as <- <-. congruence.
           ++ right. exact I.
           ++ injection I as <-. left. reflexivity.
           ++ exfalso. apply N. apply (in_map fst) in I. exact I.
           ++ exfalso. apply N2. left. reflexivity.
      * apply Nat.eqb_neq in E2. cbn [In]. rewrite (IH _ B k' vs').
        split.
        -- intros [E1|[[E1 I]|[-> [[vs [I ->]]|[N ->]]]]].
           ++ injection E1 as <- <-. left. split; [congruence|left; reflexivity].
           ++ left. split; [exact E1|right; exact I].
           ++ right. split; [reflexivity|]. left. exists vs. split; [right; exact I|reflexivity].
           ++ right. split; [reflexivity|]. right. split; [|reflexivity]. intros [E1|I]; [congruence|exact (N I)].
        -- intros [[E1 [I|I]]|[-> [[vs [[I|I] ->]]|[N ->]]]].
           ++ left. exact I.
           ++ right. left. split; [exact E1|exact I].
           ++ injection I as <- <-. congruence.
           ++ right. right. split; [reflexivity|]. left. exists vs. split; [exact I|reflexivity].
           ++ right. right. split; [reflexivity|]. right. split; [intro I; apply N; right; exact I|reflexivity].
Qed.

Definition groupOf (ps : list (nat * nat)) : list (nat * list nat) := fold_left (fun m p => push (fst p) (snd p) m) ps [].

Lemma elsOf_app k a b : elsOf k (a ++ b) = elsOf k a ++ elsOf k b.
Proof. unfold elsOf. rewrite filter_app, map_app. reflexivity. Qed.

Lemma groupOf_spec ps : inc 0 (map fst (groupOf ps)) /\
  forall k els, In (k, els) (groupOf ps) <-> els = elsOf k ps /\ els <> [].
Proof.
  induction ps as [|[k0 v0] ps IH] using rev_ind.
  - cbn [groupOf fold_left map inc]. split; [exact I|]. intros k els. unfold elsOf. cbn [filter map In]. split; [intros []|intros [-> H]; congruence].
  - unfold groupOf in *. rewrite fold_left_app. cbn [fold_left fst snd]. destruct IH as [S1 S2].
    split; [apply push_inc; [lia|exact S1]|].
    intros k els. rewrite (push_In _ _ _ _ S1). rewrite elsOf_app. unfold elsOf at 2. cbn [filter map snd fst].
    destruct (Nat.eq_dec k k0) as [->|N].
    + rewrite Nat.eqb_refl. cbn [map snd]. split.
      * intros [[X _]|[_ [[vs [I ->]]|[N ->]]]]; [congruence| |].
        -- apply S2 in I. destruct I as [-> _]. split; [reflexivity|]. destruct (elsOf k0 ps); discriminate.
        -- split; [|discriminate]. destruct (elsOf k0 ps) as [|a r] eqn:E; [reflexivity|].
           exfalso. apply N. assert (I : In (k0, a :: r) (fold_left (fun m p => push (fst p) (snd p) m) ps [])) by (apply S2; split; [symmetry; exact E|discriminate]).
           apply (in_map fst) in I. exact I.
      * intros [-> _]. right. split; [reflexivity|]. destruct (elsOf k0 ps) as [|a r] eqn:E.
        -- right. split; [|reflexivity]. intro I. apply in_map_iff in I. destruct I as [[k1 e1] [E1 I]]. cbn [fst] in E1. subst k1.
           apply S2 in I. destruct I as [I1 I2]. congruence.
        -- left. exists (a :: r). split; [|reflexivity]. apply S2. split; [symmetry; exact E|discriminate].
    + destruct (k0 =? k) eqn:E; [apply Nat.eqb_eq in E; congruence|]. cbn [map]. rewrite app_nil_r. rewrite S2. split.
      * intros [[_ H]|[X _]]; [exact H|congruence].
      * intros H. left. split; [exact N|exact H].
Qed.

Lemma group_groupOf ks vs : group ks vs = groupOf (combine ks vs).
Proof. reflexivity. Qed.

Lemma combine_nth_iff (ks : list nat) : forall (vs : list nat) e k v, nth_error (combine ks vs) e = Some (k, v) <-> nth_error ks e = Some k /\ nth_error vs e = Some v.
Proof.
  induction ks as [|k0 ks IH]; intros [|v0 vs] [|e] k v; cbn [combine nth_error]; split; try (intros H; discriminate); try (intros [H1 H2]; discriminate).
  - intros H. injection H as <- <-. auto.
  - intros [H1 H2]. injection H1 as <-. injection H2 as <-. reflexivity.
  - intros H. apply IH. exact H.
  - intros H. apply IH. exact H.
Qed.

Lemma elsOf_In ks vs k v : In v (elsOf k (combine ks vs)) <-> exists e, nth_error ks e = Some k /\ nth_error vs e = Some v.
Proof.
  unfold elsOf. rewrite in_map_iff. split.
  - intros [[k1 v1] [E I]]. cbn [snd] in E. subst v1. apply filter_In in I. destruct I as [I E]. cbn [fst] in E. apply Nat.eqb_eq in E. subst k1.
    apply In_nth_error in I. destruct I as [e He]. exists e. apply combine_nth_iff. exact He.
  - intros [e He]. exists (k, v). split; [reflexivity|]. apply filter_In. split; [|cbn [fst]; apply Nat.eqb_refl].
    apply combine_nth_iff in He. eapply nth_error_In. exact He.
Qed.

(** ** The first position *)
Definition isPos (ks vs : list nat) (k v p : nat) : Prop :=
  nth_error ks p = Some k /\ nth_error vs p = Some v /\ forall q, q < p -> ~ (nth_error ks q = Some k /\ nth_error vs q = Some v).

Lemma firstAt_some ks : forall vs k v e0 p, firstAt k v ks vs e0 = Some p -> exists d, p = e0 + d /\ isPos ks vs k v d.
Proof.
  induction ks as [|k0 ks IH]; intros [|v0 vs] k v e0 p H; cbn [firstAt] in H; try discriminate.
  destruct ((v0 =? v) && (k0 =? k)) eqn:E.
  - injection H as <-. apply andb_true_iff in E. destruct E as [E1 E2]. apply Nat.eqb_eq in E1, E2. subst.
    exists 0. split; [lia|]. split; [reflexivity|]. split; [reflexivity|]. intros q Hq. lia.
  - apply IH in H. destruct H as [d [-> [H1 [H2 H3]]]]. exists (S d). split; [lia|]. split; [exact H1|]. split; [exact H2|].
    intros [|q] Hq [A B]; cbn [nth_error] in *.
    + injection A as ->. injection B as ->. rewrite !Nat.eqb_refl in E. discriminate.
    + apply (H3 q); [lia|]. split; assumption.
Qed.
Lemma firstAt_none ks : forall vs k v e0, firstAt k v ks vs e0 = None -> forall q, ~ (nth_error ks q = Some k /\ nth_error vs q = Some v).
Proof.
  induction ks as [|k0 ks IH]; intros [|v0 vs] k v e0 H [|q] [A B]; cbn [nth_error firstAt] in *; try discriminate.
  - injection A as ->. injection B as ->. rewrite !Nat.eqb_refl in H. discriminate.
  - destruct ((v0 =? v) && (k0 =? k)); [discriminate|]. apply (IH _ _ _ _ H q). split; assumption.
Qed.
Lemma isPos_fun ks vs k v p q : isPos ks vs k v p -> isPos ks vs k v q -> p = q.
Proof.
  intros [A1 [A2 A3]] [B1 [B2 B3]]. destruct (lt_eq_lt_dec p q) as [[H| ->]|H]; [|reflexivity|]; exfalso.
  - apply (B3 p H). split; assumption.
  - apply (A3 q H). split; assumption.
Qed.

(** The positions of the elements of a group. *)
Definition posOf (ks vs : list nat) (k v : nat) : nat := match firstAt k v ks vs 0 with Some e => e | None => 0 end.

Lemma posOf_spec ks vs k v : In v (elsOf k (combine ks vs)) -> isPos ks vs k v (posOf ks vs k v) /\ firstAt k v ks vs 0 = Some (posOf ks vs k v).
Proof.
  intros I. apply elsOf_In in I. destruct I as [e He]. unfold posOf. destruct (firstAt k v ks vs 0) as [p|] eqn:E.
  - apply firstAt_some in E. destruct E as [d [-> H]]. split; [exact H|reflexivity].
  - exfalso. exact (firstAt_none _ _ _ _ _ E e He).
Qed.

Lemma locate_pos ks vs k els : (forall v, In v els -> In v (elsOf k (combine ks vs))) ->
  locate k els ks vs = map (fun p => [p]) (map (posOf ks vs k) els).
Proof.
  intros H. unfold locate. rewrite map_map. apply map_ext_in. intros v Hv. destruct (posOf_spec _ _ _ _ (H v Hv)) as [_ E]. rewrite E. reflexivity.
Qed.

Lemma inOrder_spec ps : forall s e, exists b, inOrder s e (map (fun p => [p]) ps) = Some b /\ (b = true <-> ps = seq (s + e) (length ps)).
Proof.
  induction ps as [|p ps IH]; intros s e; cbn [map inOrder length seq]; [exists true; split; [reflexivity|split; reflexivity]|].
  destruct (p =? s + e) eqn:E.
  - apply Nat.eqb_eq in E. destruct (IH s (S e)) as [b [E1 E2]]. exists b. split; [exact E1|]. rewrite E2. replace (S (s + e)) with (s + S e) by lia. split.
    + intros Hb. rewrite E. f_equal. exact Hb.
    + intros Hb. injection Hb as _ Hb. exact Hb.
  - exists false. split; [reflexivity|]. split; [discriminate|]. intros Hb. injection Hb as Hb _. apply Nat.eqb_neq in E. congruence.
Qed.
Lemma ordered_spec ps : ps <> [] -> exists b, ordered (map (fun p => [p]) ps) = Some b /\ (b = true <-> ps = seq (hd 0 ps) (length ps)).
Proof.
  destruct ps as [|p ps]; intros H; [congruence|]. unfold ordered.
  change (exists b, inOrder p 0 (map (fun p => [p]) (p :: ps)) = Some b /\ (b = true <-> p :: ps = seq p (length (p :: ps)))).
  destruct (inOrder_spec (p :: ps) p 0) as [b [E1 E2]]. exists b. split; [exact E1|]. rewrite Nat.add_0_r in E2. exact E2.
Qed.

(** ** The entries *)
Definition entryOk (ks vs : list nat) (i : info) : Prop :=
  i_idx i = elsOf (i_key i) (combine ks vs) /\ i_idx i <> [] /\
  i_loc i = map (fun p => [p]) (map (posOf ks vs (i_key i)) (i_idx i)) /\
  (i_ord i = true <-> map (posOf ks vs (i_key i)) (i_idx i) = seq (hd 0 (map (posOf ks vs (i_key i)) (i_idx i))) (length (i_idx i))).

Lemma mkEntry_ok ks vs k els : els = elsOf k (combine ks vs) -> els <> [] -> exists i, mkEntry ks vs (k, els) = Some i /\ entryOk ks vs i /\ i_key i = k.
Proof.
  intros E N. unfold mkEntry. cbn [fst snd]. rewrite locate_pos by (intros v Hv; rewrite <- E; exact Hv).
  destruct (ordered_spec (map (posOf ks vs k) els)) as [b [E1 E2]]; [destruct els; [congruence|discriminate]|].
  rewrite E1. eexists. split; [reflexivity|]. split; [|reflexivity]. cbn [i_idx i_key i_loc i_ord]. split; [exact E|]. split; [exact N|]. split; [reflexivity|].
  cbn [i_key i_idx i_ord]. rewrite map_length in E2. exact E2.
Qed.

Lemma mkEntries_ok ks vs gs : (forall k els, In (k, els) gs -> els = elsOf k (combine ks vs) /\ els <> []) ->
  exists is, mkEntries ks vs gs = Some is /\ Forall (entryOk ks vs) is /\ map i_key is = map fst gs.
Proof.
  induction gs as [|[k els] gs IH]; intros H; cbn [mkEntries map]; [exists []; repeat split; constructor|].
  destruct (H k els (or_introl eq_refl)) as [E N]. destruct (mkEntry_ok ks vs k els E N) as [i [E1 [O K]]]. rewrite E1.
  destruct IH as [is [E2 [F M]]]; [intros k' els' I; apply H; right; exact I|]. rewrite E2.
  exists (i :: is). split; [reflexivity|]. split; [constructor; assumption|]. cbn [map fst]. rewrite K, M. reflexivity.
Qed.

Lemma entries_ok ks vs : exists is, entries ks vs = Some is /\ Forall (entryOk ks vs) is /\ NoDup (map i_key is) /\
  (forall e k v, nth_error ks e = Some k -> nth_error vs e = Some v -> In k (map i_key is)).
Proof.
  destruct (groupOf_spec (combine ks vs)) as [S1 S2]. destruct (mkEntries_ok ks vs (group ks vs)) as [is [E [F M]]].
  { intros k els I. apply S2. exact I. }
  exists is. split; [exact E|]. split; [exact F|]. rewrite M. split; [eapply inc_NoDup; exact S1|].
  intros e k v H1 H2. assert (I : In v (elsOf k (combine ks vs))) by (apply elsOf_In; exists e; split; assumption).
  assert (G : In (k, elsOf k (combine ks vs)) (groupOf (combine ks vs))).
  { apply S2. split; [reflexivity|]. intros X. rewrite X in I. exact I. }
  apply (in_map fst) in G. exact G.
Qed.

(** ** The directional functions *)
Definition goodOut {V} (D : nat -> nat -> V) (k : nat) (els : list nat) (out : list V) : Prop :=
  length out = length els /\
  forall e v, nth_error els e = Some v -> (forall e', e < e' -> nth_error els e' <> Some v) -> nth_error out e = Some (D k v).

Lemma lastPos_some v els : forall e0 p, lastPos v els e0 = Some p ->
  exists d, p = e0 + d /\ nth_error els d = Some v /\ forall d', d < d' -> nth_error els d' <> Some v.
Proof.
  induction els as [|v0 els IH]; intros e0 p H; cbn [lastPos] in H; [discriminate|].
  destruct (lastPos v els (S e0)) as [q|] eqn:E.
  - injection H as <-. destruct (IH _ _ E) as [d [-> [A B]]]. exists (S d). split; [lia|]. split; [exact A|].
    intros [|d'] Hd; [lia|]. cbn [nth_error]. apply B. lia.
  - destruct (v0 =? v) eqn:E1; [|discriminate]. apply Nat.eqb_eq in E1. subst v0. injection H as <-. exists 0. split; [lia|]. split; [reflexivity|].
    intros [|d'] Hd; [lia|]. cbn [nth_error]. intros X. clear IH Hd. revert e0 E d' X. induction els as [|v1 els IH2]; intros e0 E d' X; [destruct d'; discriminate|].
    cbn [lastPos] in E. destruct (lastPos v els (S (S e0))) as [q|] eqn:E2; [discriminate|]. destruct (v1 =? v) eqn:E3; [discriminate|].
    destruct d' as [|d']; cbn [nth_error] in X; [injection X as ->; rewrite Nat.eqb_refl in E3; discriminate|]. apply (IH2 (S e0) E2 d' X).
Qed.
Lemma lastPos_none v els : forall e0, lastPos v els e0 = None -> ~ In v els.
Proof.
  induction els as [|v0 els IH]; intros e0 H; cbn [lastPos] in H; [intros []|].
  destruct (lastPos v els (S e0)) eqn:E; [discriminate|]. destruct (v0 =? v) eqn:E1; [discriminate|]. apply Nat.eqb_neq in E1.
  intros [X|X]; [congruence|]. exact (IH _ E X).
Qed.

Lemma organise_ok {V} (D : nat -> nat -> V) k els ks : forall vs col,
  (forall v, In v (elsOf k (combine ks vs)) -> In v els) -> length col = length els ->
  exists col', organise V D k els ks vs col = Some col' /\ length col' = length els /\
    forall e v, nth_error els e = Some v -> (forall e', e < e' -> nth_error els e' <> Some v) ->
      nth_error col' e = if existsb (Nat.eqb v) (elsOf k (combine ks vs)) then Some (D k v) else nth_error col e.
Proof.
  induction ks as [|k0 ks IH]; intros vs col H L; cbn [organise].
  - exists col. split; [reflexivity|]. split; [exact L|]. intros e v _ _. reflexivity.
  - destruct vs as [|v0 vs]; [exists col; split; [reflexivity|]; split; [exact L|]; intros e v _ _; reflexivity|].
    cbn [combine] in H. unfold elsOf in H. cbn [filter fst] in H. unfold elsOf. cbn [combine filter fst].
    destruct (k0 =? k) eqn:E.
    + cbn [map snd] in *. destruct (lastPos v0 els 0) as [q|] eqn:E1.
      * destruct (IH vs (setNth col q (D k v0))) as [col' [E2 [L2 P]]]; [intros v Hv; apply H; right; exact Hv|rewrite setNth_length; exact L|].
        exists col'. split; [exact E2|]. split; [exact L2|]. intros e v H1 H2. rewrite (P e v H1 H2). cbn [existsb].
        apply lastPos_some in E1. destruct E1 as [d [-> [A B]]]. rewrite Nat.add_0_l.
        fold (elsOf k (combine ks vs)). destruct (existsb (Nat.eqb v) (elsOf k (combine ks vs))) eqn:X; [rewrite orb_true_r; reflexivity|].
        rewrite orb_false_r. destruct (v =? v0) eqn:E3.
        -- apply Nat.eqb_eq in E3. subst v0. assert (d = e).
           { destruct (lt_eq_lt_dec d e) as [[Y|Y]|Y]; [|exact Y|]; exfalso; [exact (B e Y H1)|exact (H2 d Y A)]. }
           subst d. apply nth_set_eq. rewrite L. apply nth_error_Some. rewrite A. discriminate.
        -- apply Nat.eqb_neq in E3. apply nth_set_ne. intros ->. congruence.
      * exfalso. apply (lastPos_none _ _ _ E1). apply H. left. reflexivity.
    + destruct (IH vs col H L) as [col' [E2 [L2 P]]]. exists col'. split; [exact E2|]. split; [exact L2|]. exact P.
Qed.

Lemma functions_ok {V} (zero : V) D atomics ks vs i : entryOk ks vs i ->
  exists out, functions V zero D atomics ks vs (i_key i) = Some out /\ goodOut D (i_key i) (i_idx i) out.
Proof.
  intros [A [B [_ _]]]. destruct (groupOf_spec (combine ks vs)) as [S1 S2]. unfold functions. rewrite group_groupOf.
  assert (G : In (i_key i, i_idx i) (groupOf (combine ks vs))) by (apply S2; split; assumption).
  destruct (find (fun g => fst g =? i_key i) (groupOf (combine ks vs))) as [[k els]|] eqn:E.
  - apply find_some in E. destruct E as [I E]. cbn [fst] in E. apply Nat.eqb_eq in E. subst k. apply S2 in I. destruct I as [I _]. rewrite <- A in I. subst els.
    cbn [snd]. destruct atomics.
    + exists (map (D (i_key i)) (i_idx i)). split; [reflexivity|]. split; [apply map_length|]. intros e v H _. apply map_nth_error. exact H.
    + unfold outNoAtomics. destruct (organise_ok D (i_key i) (i_idx i) ks vs (repeat zero (length (i_idx i)))) as [out [E [L P]]].
      * intros v Hv. rewrite A. exact Hv.
      * apply repeat_length.
      * exists out. split; [exact E|]. split; [exact L|]. intros e v H1 H2. rewrite (P e v H1 H2).
        replace (existsb (Nat.eqb v) (elsOf (i_key i) (combine ks vs))) with true; [reflexivity|]. symmetry. apply existsb_exists. exists v.
        split; [|apply Nat.eqb_refl]. rewrite <- A. eapply nth_error_In. exact H1.
  - exfalso. pose proof (find_none _ _ E _ G) as X. cbn [fst] in X. rewrite Nat.eqb_refl in X. discriminate.
Qed.

(** ** Writes *)
Lemma writeAll_apply {V} (vs : list V) : forall a p, writeAll V a p vs = applyWrites V (combine (seq p (length vs)) vs) a.
Proof.
  induction vs as [|v vs IH]; intros a p; cbn [writeAll length seq combine applyWrites]; [reflexivity|].
  destruct (p <? length a); [apply IH|reflexivity].
Qed.

Definition lastWrite {V} (p : nat) (ws : list (nat * V)) : option V :=
  fold_left (fun o w => if fst w =? p then Some (snd w) else o) ws None.

Lemma lastWrite_acc {V} (ws : list (nat * V)) p : forall o,
  fold_left (fun o w => if fst w =? p then Some (snd w) else o) ws o = match lastWrite p ws with Some v => Some v | None => o end.
Proof.
  unfold lastWrite. induction ws as [|[q v] ws IH]; intros o; cbn [fold_left fst snd]; [reflexivity|].
  rewrite IH. rewrite (IH (if q =? p then Some v else None)). destruct (fold_left _ ws None); [reflexivity|]. destruct (q =? p); reflexivity.
Qed.

Lemma lastWrite_cons {V} p (w : nat * V) ws : lastWrite p (w :: ws) = match lastWrite p ws with Some v => Some v | None => if fst w =? p then Some (snd w) else None end.
Proof. unfold lastWrite at 1. cbn [fold_left]. apply lastWrite_acc. Qed.

Lemma applyWrites_spec {V} (ws : list (nat * V)) : forall a, (forall p v, In (p, v) ws -> p < length a) ->
  exists a', applyWrites V ws a = Some a' /\ length a' = length a /\
  forall p, p < length a -> nth_error a' p = match lastWrite p ws with Some v => Some v | None => nth_error a p end.
Proof.
  induction ws as [|[q v] ws IH]; intros a H; cbn [applyWrites].
  - exists a. split; [reflexivity|]. split; [reflexivity|]. intros p _. reflexivity.
  - pose proof (H q v (or_introl eq_refl)) as Hq. pose proof Hq as Hq'. apply Nat.ltb_lt in Hq'. rewrite Hq'.
    destruct (IH (setNth a q v)) as [a' [E [L P]]]; [intros p w I; rewrite setNth_length; apply (H p w); right; exact I|].
    exists a'. split; [exact E|]. rewrite setNth_length in L, P. split; [exact L|]. intros p Hp. rewrite (P p Hp). rewrite lastWrite_cons. cbn [fst snd].
    destruct (lastWrite p ws); [reflexivity|]. destruct (q =? p) eqn:X.
    + apply Nat.eqb_eq in X. subst q. apply nth_set_eq. exact Hp.
    + apply Nat.eqb_neq in X. apply nth_set_ne. exact X.
Qed.

Lemma applyWrites_app {V} (w1 w2 : list (nat * V)) : forall a, applyWrites V (w1 ++ w2) a = match applyWrites V w1 a with Some a' => applyWrites V w2 a' | None => None end.
Proof. induction w1 as [|[q v] w1 IH]; intros a; cbn [applyWrites app]; [reflexivity|]. destruct (q <? length a); [apply IH|reflexivity]. Qed.

(** The filtered writes. *)
Definition at_ {V} (p : nat) (ws : list (nat * V)) := filter (fun w => fst w =? p) ws.
Lemma lastWrite_at {V} p (ws : list (nat * V)) : lastWrite p ws = lastWrite p (at_ p ws).
Proof.
  induction ws as [|w ws IH]; [reflexivity|]. unfold at_ in *. cbn [filter]. rewrite lastWrite_cons. destruct (fst w =? p) eqn:E.
  - rewrite lastWrite_cons, E, IH. reflexivity.
  - rewrite IH. destruct (lastWrite p (filter (fun w => fst w =? p) ws)); reflexivity.
Qed.

Lemma interleaving_at {V} p (ts : list (list (nat * V))) l : interleaving ts l -> forall i0 t0, nth_error ts i0 = Some t0 ->
  (forall i t, i <> i0 -> nth_error ts i = Some t -> at_ p t = []) -> at_ p l = at_ p t0.
Proof.
  induction 1 as [ts H|ts i a t l H I IH]; intros i0 t0 H0 Z.
  - rewrite (H t0); [reflexivity|]. eapply nth_error_In. exact H0.
  - assert (Li : i < length ts) by (apply nth_error_Some; rewrite H; discriminate).
    destruct (Nat.eq_dec i i0) as [->|N].
    + rewrite H in H0. injection H0 as <-. unfold at_ in *. cbn [filter]. rewrite (IH i0 t).
      * reflexivity.
      * apply nth_set_eq. exact Li.
      * intros j u Nj Hj. apply (Z j u Nj). rewrite nth_set_ne in Hj by congruence. exact Hj.
    + pose proof (Z i _ N H) as Za. unfold at_ in Za |- *. cbn [filter] in *. destruct (fst a =? p); [discriminate|].
      apply (IH i0 t0).
      * rewrite nth_set_ne by congruence. exact H0.
      * intros j u Nj Hj. destruct (Nat.eq_dec j i) as [->|Nji].
        -- rewrite nth_set_eq in Hj by exact Li. injection Hj as <-. exact Za.
        -- rewrite nth_set_ne in Hj by congruence. apply (Z j u Nj Hj).
Qed.
Lemma interleaving_none {V} p (ts : list (list (nat * V))) l : interleaving ts l -> (forall t, In t ts -> at_ p t = []) -> at_ p l = [].
Proof.
  induction 1 as [ts H|ts i a t l H I IH]; intros Z; [reflexivity|].
  pose proof (Z _ (nth_error_In _ _ H)) as Za. unfold at_ in Za |- *. cbn [filter] in *. destruct (fst a =? p); [discriminate|].
  apply IH. intros u Hu. apply In_nth_error in Hu. destruct Hu as [j Hj]. destruct (Nat.eq_dec j i) as [->|N].
  - rewrite nth_set_eq in Hj by (apply nth_error_Some; rewrite H; discriminate). injection Hj as <-. exact Za.
  - rewrite nth_set_ne in Hj by congruence. apply Z. eapply nth_error_In. exact Hj.
Qed.
Lemma interleaving_In {A} (ts : list (list A)) l : interleaving ts l -> forall a, In a l -> exists t, In t ts /\ In a t.
Proof.
  induction 1 as [ts H|ts i a t l H I IH]; intros b Hb; [destruct Hb|].
  destruct Hb as [->|Hb]; [exists (b :: t); split; [eapply nth_error_In; exact H|left; reflexivity]|].
  destruct (IH b Hb) as [u [Hu Hbu]]. apply In_nth_error in Hu. destruct Hu as [j Hj]. destruct (Nat.eq_dec j i) as [->|N].
  - rewrite nth_set_eq in Hj by (apply nth_error_Some; rewrite H; discriminate). injection Hj as <-. exists (a :: t).
    split; [eapply nth_error_In; exact H|right; exact Hbu].
  - rewrite nth_set_ne in Hj by congruence. exists u. split; [eapply nth_error_In; exact Hj|exact Hbu].
Qed.

Lemma interleaving_nil_cons {A} (ts : list (list A)) l : interleaving ts l -> interleaving ([] :: ts) l.
Proof.
  induction 1 as [ts H|ts i a t l H I IH].
  - constructor. intros t [<-|Ht]; [reflexivity|exact (H t Ht)].
  - eapply (ilCons _ (S i)); [exact H|]. cbn [setNth]. exact IH.
Qed.
Lemma interleaving_concat {A} (ts : list (list A)) : interleaving ts (concat ts).
Proof.
  induction ts as [|t ts IH]; cbn [concat]; [constructor; intros t []|].
  induction t as [|a t IHt]; cbn [app]; [apply interleaving_nil_cons; exact IH|].
  eapply (ilCons _ 0); [reflexivity|]. cbn [setNth]. exact IHt.
Qed.

(** ** The writes of each entry *)
Definition traceOf {V} (ks vs : list nat) (i : info) (out : list V) : list (nat * V) := combine (map (posOf ks vs (i_key i)) (i_idx i)) out.

Lemma lastWrite_combine {V} (ps : list nat) : forall (out : list V) p, length out = length ps ->
  match lastWrite p (combine ps out) with
  | None => ~ In p ps
  | Some v => exists e, nth_error ps e = Some p /\ nth_error out e = Some v /\ forall e', e < e' -> nth_error ps e' <> Some p
  end.
Proof.
  induction ps as [|q ps IH]; intros [|v out] p L; try discriminate; cbn [combine]; [intros []|].
  rewrite lastWrite_cons. cbn [fst snd]. injection L as L. specialize (IH out p L). destruct (lastWrite p (combine ps out)) as [w|].
  - destruct IH as [e [A [B C]]]. exists (S e). split; [exact A|]. split; [exact B|]. intros [|e'] He; [lia|]. cbn [nth_error]. apply C. lia.
  - destruct (q =? p) eqn:E.
    + apply Nat.eqb_eq in E. subst q. exists 0. split; [reflexivity|]. split; [reflexivity|]. intros [|e'] He; [lia|]. cbn [nth_error].
      intros X. apply IH. eapply nth_error_In. exact X.
    + apply Nat.eqb_neq in E. intros [X|X]; [congruence|exact (IH X)].
Qed.

Lemma traceOf_lastWrite {V} (D : nat -> nat -> V) ks vs i out p : entryOk ks vs i -> goodOut D (i_key i) (i_idx i) out ->
  (forall v, isPos ks vs (i_key i) v p -> lastWrite p (traceOf ks vs i out) = Some (D (i_key i) v)) /\
  ((forall v, ~ isPos ks vs (i_key i) v p) -> at_ p (traceOf ks vs i out) = []).
Proof.
  intros [A [B _]] [L G]. set (k := i_key i) in *. unfold traceOf. fold k.
  assert (Pin : forall e v, nth_error (i_idx i) e = Some v -> isPos ks vs k v (posOf ks vs k v)).
  { intros e v H. apply posOf_spec. rewrite <- A. eapply nth_error_In. exact H. }
  split.
  - intros v [P1 [P2 P3]]. pose proof (lastWrite_combine (map (posOf ks vs k) (i_idx i)) out p ltac:(rewrite map_length; exact L)) as W.
    destruct (lastWrite p (combine (map (posOf ks vs k) (i_idx i)) out)) as [w|].
    + destruct W as [e [W1 [W2 W3]]]. rewrite nth_error_map in W1. destruct (nth_error (i_idx i) e) as [v'|] eqn:E; [|discriminate].
      cbn [option_map] in W1. injection W1 as W1. destruct (Pin _ _ E) as [Q1 [Q2 _]]. rewrite W1 in Q1, Q2. rewrite P2 in Q2. injection Q2 as <-.
      rewrite <- W2. apply G; [exact E|]. intros e' He X. apply (W3 e' He). rewrite nth_error_map, X. cbn [option_map]. rewrite W1. reflexivity.
    + exfalso. apply W. assert (I : In v (i_idx i)) by (rewrite A; apply elsOf_In; exists p; split; assumption).
      apply in_map_iff. exists v. split; [|exact I]. rewrite A in I. destruct (posOf_spec _ _ _ _ I) as [Q _].
      exact (isPos_fun _ _ _ _ _ _ Q (conj P1 (conj P2 P3))).
  - intros N. unfold at_. destruct (filter _ (combine (map (posOf ks vs k) (i_idx i)) out)) as [|[q w] r] eqn:E; [reflexivity|exfalso].
    assert (I : In (q, w) (filter (fun w => fst w =? p) (combine (map (posOf ks vs k) (i_idx i)) out))) by (rewrite E; left; reflexivity).
    apply filter_In in I. destruct I as [I X]. cbn [fst] in X. apply Nat.eqb_eq in X. subst q. apply in_combine_l in I. apply in_map_iff in I.
    destruct I as [v [E1 I]]. apply In_nth_error in I. destruct I as [e He]. apply (N v). rewrite <- E1. eapply Pin. exact He.
Qed.

Lemma traceOf_bound {V} ks vs i (out : list V) p v : entryOk ks vs i -> In (p, v) (traceOf ks vs i out) -> p < length ks /\ p < length vs /\ nth_error ks p = Some (i_key i).
Proof.
  intros [A _] I. apply in_combine_l in I. apply in_map_iff in I. destruct I as [w [E I]]. rewrite A in I. destruct (posOf_spec _ _ _ _ I) as [[P1 [P2 _]] _].
  rewrite E in P1, P2. split; [apply nth_error_Some; rewrite P1; discriminate|]. split; [apply nth_error_Some; rewrite P2; discriminate|exact P1].
Qed.

(** ** The result of any interleaving *)
Definition outOf {V} (fn : nat -> option (list V)) (i : info) : list V := match fn (i_key i) with Some o => o | None => [] end.

Definition traces {V} (fn : nat -> option (list V)) ks vs (is : list info) := map (fun i => traceOf ks vs i (outOf fn i)) is.

(** What the result has to be: the elements at their first position are set, the others are not touched. *)
Definition assembled {V} (D : nat -> nat -> V) (ks vs : list nat) (res res' : list V) : Prop :=
  length res' = length res /\
  (forall k v p, isPos ks vs k v p -> nth_error res' p = Some (D k v)) /\
  (forall k v p, nth_error ks p = Some k -> nth_error vs p = Some v -> ~ isPos ks vs k v p -> nth_error res' p = nth_error res p).

Section Result.
Context {V : Type}.
Variable D : nat -> nat -> V.
Variables ks vs : list nat.
Variable fn : nat -> option (list V).
Variable is : list info.
Hypothesis Hok : Forall (entryOk ks vs) is.
Hypothesis Hnd : NoDup (map i_key is).
Hypothesis Hall : forall e k v, nth_error ks e = Some k -> nth_error vs e = Some v -> In k (map i_key is).
Hypothesis Hfn : forall i, In i is -> exists out, fn (i_key i) = Some out /\ goodOut D (i_key i) (i_idx i) out.

Lemma outOf_good i : In i is -> goodOut D (i_key i) (i_idx i) (outOf fn i).
Proof. intros I. destruct (Hfn i I) as [out [E G]]. unfold outOf. rewrite E. exact G. Qed.

Lemma traces_bound p w t : In t (traces fn ks vs is) -> In (p, w) t -> p < length ks /\ p < length vs.
Proof.
  intros I1 I2. apply in_map_iff in I1. destruct I1 as [i [<- I]]. rewrite Forall_forall in Hok. destruct (traceOf_bound _ _ _ _ _ _ (Hok i I) I2) as [A [B _]]. auto.
Qed.

(** Different jobs write in different places. *)
Lemma traces_disjoint i j ti tj p w w' : nth_error (traces fn ks vs is) i = Some ti -> nth_error (traces fn ks vs is) j = Some tj ->
  In (p, w) ti -> In (p, w') tj -> i = j.
Proof.
  intros Hi Hj Ii Ij. unfold traces in Hi, Hj. rewrite nth_error_map in Hi, Hj.
  destruct (nth_error is i) as [a|] eqn:Ea; [|discriminate]. destruct (nth_error is j) as [b|] eqn:Eb; [|discriminate].
  cbn [option_map] in Hi, Hj. injection Hi as <-. injection Hj as <-. rewrite Forall_forall in Hok.
  destruct (traceOf_bound _ _ _ _ _ _ (Hok a (nth_error_In _ _ Ea)) Ii) as [_ [_ K1]].
  destruct (traceOf_bound _ _ _ _ _ _ (Hok b (nth_error_In _ _ Eb)) Ij) as [_ [_ K2]].
  rewrite K1 in K2. injection K2 as K2. apply (proj1 (NoDup_nth_error (map i_key is)) Hnd).
  - rewrite map_length. apply nth_error_Some. rewrite Ea. discriminate.
  - rewrite !nth_error_map, Ea, Eb. cbn [option_map]. rewrite K2. reflexivity.
Qed.

Lemma interleaving_result l res : length ks = length res -> length vs = length res -> interleaving (traces fn ks vs is) l ->
  exists res', applyWrites V l res = Some res' /\ assembled D ks vs res res'.
Proof.
  intros L1 L2 I.
  destruct (applyWrites_spec l res) as [res' [E [L P]]].
  { intros p w Hp. destruct (interleaving_In _ _ I _ Hp) as [t [Ht Hw]]. destruct (traces_bound _ _ _ Ht Hw). lia. }
  exists res'. split; [exact E|]. split; [exact L|]. split.
  - intros k v p HP. destruct HP as [P1 [P2 P3]]. assert (Hp : p < length res) by (rewrite <- L1; apply nth_error_Some; rewrite P1; discriminate).
    rewrite (P p Hp). pose proof (Hall _ _ _ P1 P2) as Hk. apply in_map_iff in Hk. destruct Hk as [i [Ek Hi]]. subst k.
    pose proof Hi as Hi'. apply In_nth_error in Hi'. destruct Hi' as [i0 Ei0].
    assert (T0 : nth_error (traces fn ks vs is) i0 = Some (traceOf ks vs i (outOf fn i))).
    { unfold traces. rewrite nth_error_map, Ei0. reflexivity. }
    rewrite (lastWrite_at p l). rewrite (interleaving_at p _ _ I i0 _ T0).
    + rewrite <- lastWrite_at. rewrite Forall_forall in Hok.
      destruct (traceOf_lastWrite D ks vs i (outOf fn i) p (Hok i Hi) (outOf_good i Hi)) as [W _]. rewrite (W v); [reflexivity|]. split; [exact P1|]. split; assumption.
    + intros j t Nj Hj. unfold traces in Hj. rewrite nth_error_map in Hj. destruct (nth_error is j) as [b|] eqn:Eb; [|discriminate].
      cbn [option_map] in Hj. injection Hj as <-. rewrite Forall_forall in Hok.
      pose proof (nth_error_In _ _ Eb) as Ib. destruct (traceOf_lastWrite D ks vs b (outOf fn b) p (Hok b Ib) (outOf_good b Ib)) as [_ W].
      apply W. intros v' [Q1 _]. apply Nj. apply (proj1 (NoDup_nth_error (map i_key is)) Hnd).
      * rewrite map_length. apply nth_error_Some. rewrite Eb. discriminate.
      * rewrite !nth_error_map, Ei0, Eb. cbn [option_map]. rewrite P1 in Q1. congruence.
  - intros k v p H1 H2 N. assert (Hp : p < length res) by (rewrite <- L1; apply nth_error_Some; rewrite H1; discriminate).
    rewrite (P p Hp), (lastWrite_at p l), (interleaving_none p _ _ I); [reflexivity|].
    intros t Ht. apply in_map_iff in Ht. destruct Ht as [i [<- Hi]]. rewrite Forall_forall in Hok.
    destruct (traceOf_lastWrite D ks vs i (outOf fn i) p (Hok i Hi) (outOf_good i Hi)) as [_ W]. apply W.
    intros v' Q. pose proof Q as Q'. destruct Q' as [Q1 [Q2 _]]. rewrite H1 in Q1. injection Q1 as ->. rewrite H2 in Q2. injection Q2 as ->. exact (N Q).
Qed.

(** ** The single-thread program *)
Lemma assignAll_one (a : list V) p v : assignAll V a [p] v = applyWrites V [(p, v)] a.
Proof. cbn [assignAll applyWrites]. reflexivity. Qed.

Lemma run_app b1 b2 m : run V fn (b1 ++ b2) m = match run V fn b1 m with Some m' => run V fn b2 m' | None => None end.
Proof. revert m. induction b1 as [|s b1 IH]; intros m; cbn [run app]; [reflexivity|]. destruct (step V fn s m); [apply IH|reflexivity]. Qed.

Lemma run_copies ps : forall e out pre comp res o, comp = pre ++ out -> length pre = e -> length ps <= length out ->
  run V fn (copies e (map (fun p => [p]) ps)) (mkMem V res comp o) =
  match applyWrites V (combine ps out) res with Some a => Some (mkMem V a comp o) | None => None end.
Proof.
  induction ps as [|p ps IH]; intros e out pre comp res o E L1 L2; cbn [map copies run combine applyWrites]; [reflexivity|].
  destruct out as [|v out]; [cbn [length] in L2; lia|]. cbn [step m_comp m_res m_out].
  subst comp. rewrite nth_error_app2 by lia. replace (e - length pre) with 0 by lia. cbn [nth_error].
  cbn [assignAll combine applyWrites]. destruct (p <? length res); [|reflexivity].
  rewrite (IH (S e) out (pre ++ [v])); [reflexivity|rewrite <- app_assoc; reflexivity| |cbn [length] in L2; lia].
  rewrite app_length. cbn [length]. lia.
Qed.

(** Writing the whole of an array from its start. *)
Lemma writeAll_prefix (out : list V) : forall pre comp, length out <= length comp ->
  writeAll V (pre ++ comp) (length pre) out = Some (pre ++ out ++ skipn (length out) comp).
Proof.
  induction out as [|v out IH]; intros pre comp L; cbn [writeAll length skipn app]; [reflexivity|].
  destruct comp as [|c comp]; [cbn [length] in L; lia|].
  assert (X : length pre <? length (pre ++ c :: comp) = true) by (apply Nat.ltb_lt; rewrite app_length; cbn [length]; lia).
  rewrite X. replace (setNth (pre ++ c :: comp) (length pre) v) with ((pre ++ [v]) ++ comp).
  - replace (S (length pre)) with (length (pre ++ [v])) by (rewrite app_length; cbn [length]; lia).
    rewrite IH by (cbn [length] in L; lia). rewrite <- app_assoc. reflexivity.
  - rewrite <- app_assoc. cbn [app]. clear. induction pre as [|a pre IH]; cbn [app length setNth]; [reflexivity|]. f_equal. exact IH.
Qed.

Lemma run_emit is' : (forall i, In i is' -> In i is) -> forall prev res comp o,
  (forall i, In i is' -> i_ord i = false -> length (i_idx i) <= length comp) ->
  (prev = true -> o = InCompressed \/ forall i, In i is' -> i_ord i = true) ->
  forall res', applyWrites V (concat (traces fn ks vs is')) res = Some res' ->
  exists m', run V fn (emit prev is') (mkMem V res comp o) = Some m' /\ m_res V m' = res'.
Proof.
  induction is' as [|i is' IH]; intros Hin prev res comp o Hc Ho res' E; cbn [emit].
  - cbn in E. injection E as <-. eexists. split; [reflexivity|reflexivity].
  - cbn [traces map concat] in E. rewrite applyWrites_app in E.
    destruct (applyWrites V (traceOf ks vs i (outOf fn i)) res) as [res1|] eqn:E1; [|discriminate].
    pose proof (Hin i (or_introl eq_refl)) as Ii. pose proof Hok as Hok'. rewrite Forall_forall in Hok'. destruct (Hok' i Ii) as [A [B [C O]]].
    destruct (Hfn i Ii) as [out [Ef [L G]]]. assert (Eo : outOf fn i = out) by (unfold outOf; rewrite Ef; reflexivity). rewrite Eo in E1.
    destruct (i_ord i) eqn:Eord; cbn [negb app].
    + (* direct *)
      cbn [run step m_res m_comp m_out]. rewrite Ef.
      apply proj1 in O. specialize (O eq_refl). unfold traceOf in E1. rewrite O in E1. rewrite <- L in E1. rewrite <- writeAll_apply in E1.
      replace (hd 0 (hd [] (i_loc i))) with (hd 0 (map (posOf ks vs (i_key i)) (i_idx i))) by (rewrite C; destruct (i_idx i); [congruence|reflexivity]).
      rewrite E1. cbn [m_res m_comp m_out].
      apply (IH (fun j Hj => Hin j (or_intror Hj)) false res1 comp (InResult _)); [intros j Hj Hoj; apply Hc; [right; exact Hj|exact Hoj]|discriminate|exact E].
    + (* compressed *)
      assert (Lc : length (i_idx i) <= length comp) by (apply Hc; [left; reflexivity|exact Eord]).
      assert (X : exists o', run V fn (if negb prev then [OutCompressed] else []) (mkMem V res comp o) = Some (mkMem V res comp InCompressed) /\ o' = o).
      { exists o. split; [|reflexivity]. destruct prev; cbn [negb run step]; [|reflexivity].
        destruct (Ho eq_refl) as [->|Hall']; [reflexivity|]. exfalso. rewrite (Hall' i (or_introl eq_refl)) in Eord. discriminate. }
      destruct X as [_ [X _]]. rewrite run_app, X. cbn [run step m_out m_comp m_res]. rewrite Ef.
      pose proof (writeAll_prefix out [] comp ltac:(lia)) as W. cbn [app length] in W. rewrite W.
      rewrite run_app. rewrite C. rewrite (run_copies _ 0 (out ++ skipn (length out) comp) []); [|reflexivity|reflexivity|rewrite app_length, map_length; lia].
      assert (X2 : combine (map (posOf ks vs (i_key i)) (i_idx i)) (out ++ skipn (length out) comp) = traceOf ks vs i out).
      { unfold traceOf. assert (Lm : length out = length (map (posOf ks vs (i_key i)) (i_idx i))) by (rewrite map_length; exact L). revert Lm. generalize (map (posOf ks vs (i_key i)) (i_idx i)). generalize (skipn (length out) comp).
        clear. intros l. induction out as [|v out IH]; intros [|q ps] Lm; try discriminate; [reflexivity|]. cbn [app combine]. f_equal. apply IH. injection Lm as Lm. exact Lm. }
      rewrite X2, E1. cbn [m_res m_comp m_out].
      apply (IH (fun j Hj => Hin j (or_intror Hj)) true res1 _ InCompressed); [|intros _; left; reflexivity|exact E].
      intros j Hj Hoj. rewrite app_length, skipn_length. pose proof (Hc j (or_intror Hj) Hoj). lia.
Qed.

Lemma maxCompressed_ge l : forall m0, m0 <= fold_left (fun m i => if (m <? length (i_idx i)) && negb (i_ord i) then length (i_idx i) else m) l m0 /\
  forall i, In i l -> i_ord i = false -> length (i_idx i) <= fold_left (fun m i => if (m <? length (i_idx i)) && negb (i_ord i) then length (i_idx i) else m) l m0.
Proof.
  induction l as [|a l IH]; intros m0; cbn [fold_left]; [split; [lia|intros i []]|].
  set (m1 := if (m0 <? length (i_idx a)) && negb (i_ord a) then length (i_idx a) else m0).
  destruct (IH m1) as [H1 H2]. assert (H0 : m0 <= m1 /\ (i_ord a = false -> length (i_idx a) <= m1)).
  { unfold m1. destruct (m0 <? length (i_idx a)) eqn:E; [apply Nat.ltb_lt in E|apply Nat.ltb_ge in E]; destruct (i_ord a); cbn [negb andb]; split; try lia; try discriminate; intros _; lia. }
  split; [lia|]. intros i [->|Hi] Ho; [|apply H2; assumption]. destruct H0 as [_ H0]. specialize (H0 Ho). lia.
Qed.

Lemma single_ok hessian garbage res : length ks = length res -> length vs = length res ->
  let p := singleThread hessian is in pr_size p <= length garbage ->
  exists res', runProgram V fn p (firstn (pr_size p) garbage) res = Some res' /\ assembled D ks vs res res'.
Proof.
  intros L1 L2 p Hg. destruct (interleaving_result (concat (traces fn ks vs is)) res L1 L2 (interleaving_concat _)) as [res' [E A]].
  unfold runProgram. destruct (run_emit is (fun i H => H) true res (firstn (pr_size p) garbage) (if pr_start p then InCompressed else Nowhere)) with (res' := res') as [m' [E2 R]].
  - intros i Hi Ho. rewrite firstn_length_le by exact Hg. apply maxCompressed_ge; assumption.
  - intros _. unfold p, singleThread. cbn [pr_start]. destruct hessian; [|left; reflexivity].
    destruct (0 <? maxCompressed is) eqn:X; [left; reflexivity|]. right. apply Nat.ltb_ge in X. intros i Hi. destruct (i_ord i) eqn:Y; [reflexivity|exfalso].
    pose proof (proj2 (maxCompressed_ge is 0) i Hi Y) as Z. fold (maxCompressed is) in Z. rewrite Forall_forall in Hok. destruct (Hok i Hi) as [_ [N _]]. destruct (i_idx i); [congruence|]. cbn [length] in Z. lia.
  - exact E.
  - exists res'. split; [|exact A]. change (pr_body p) with (emit true is). rewrite E2, R. reflexivity.
Qed.

(** ** The multi-thread program *)
Lemma directWrites_combine (out : list V) : forall p, directWrites V p out = combine (seq p (length out)) out.
Proof. induction out as [|v out IH]; intros p; cbn [directWrites length seq combine]; [reflexivity|]. rewrite IH. reflexivity. Qed.

Lemma copyWrites_ok ps : forall e out pre, length pre = e -> length ps = length out ->
  copyWrites V 0 (pre ++ out) (copies e (map (fun p => [p]) ps)) = Some (combine ps out).
Proof.
  induction ps as [|p ps IH]; intros e [|v out] pre L1 L2; try discriminate; cbn [map copies copyWrites combine]; [reflexivity|].
  rewrite nth_error_app2 by lia. replace (e - length pre) with 0 by lia. cbn [nth_error].
  injection L2 as L2. specialize (IH (S e) out (pre ++ [v])). rewrite <- app_assoc in IH. cbn [app] in IH. rewrite IH; [reflexivity|rewrite app_length; cbn [length]; lia|exact L2].
Qed.

Lemma jobs_ok garbage is' : (forall i, In i is' -> In i is) -> (forall k, length ks <= length (garbage k)) ->
  allWrites V fn fn garbage (multiThread is') = Some (traces fn ks vs is').
Proof.
  intros Hin Hg. induction is' as [|i is' IH]; [reflexivity|]. cbn [multiThread map allWrites traces].
  pose proof (Hin i (or_introl eq_refl)) as Ii. pose proof Hok as Hok'. rewrite Forall_forall in Hok'. destruct (Hok' i Ii) as [A [B [C O]]].
  destruct (Hfn i Ii) as [out [Ef [L G]]]. assert (Eo : outOf fn i = out) by (unfold outOf; rewrite Ef; reflexivity). rewrite Eo.
  assert (J : jobWrites V fn fn garbage (jobOf i) = Some (traceOf ks vs i out)).
  { unfold jobOf. destruct (i_ord i) eqn:Eord; unfold jobWrites; cbn [fst snd]; rewrite Ef.
    - f_equal. rewrite directWrites_combine. unfold traceOf. rewrite (proj1 O eq_refl), <- L. f_equal. f_equal. rewrite C. destruct (i_idx i); [congruence|reflexivity].
    - assert (Lg : length (i_idx i) <= length (garbage (i_key i))).
      { rewrite A. unfold elsOf. rewrite map_length. specialize (Hg (i_key i)).
        assert (length (filter (fun p => fst p =? i_key i) (combine ks vs)) <= length ks); [|lia].
        pose proof (combine_length ks vs) as Lcb. assert (length (filter (fun p => fst p =? i_key i) (combine ks vs)) <= length (combine ks vs)); [|lia].
        clear. induction (combine ks vs) as [|a l IH]; cbn [filter length]; [lia|]. destruct (fst a =? i_key i); cbn [length]; lia. }
      pose proof (writeAll_prefix out [] (firstn (length (i_idx i)) (garbage (i_key i)))) as W. cbn [app length] in W.
      rewrite firstn_length_le in W by exact Lg. rewrite W by lia. rewrite skipn_all2 by (rewrite firstn_length_le by exact Lg; lia). rewrite app_nil_r.
      rewrite C. apply (copyWrites_ok _ 0 out []); [reflexivity|rewrite map_length; symmetry; exact L]. }
  rewrite J. unfold multiThread, traces in IH. rewrite IH; [reflexivity|]. intros j Hj. apply Hin. right. exact Hj.
Qed.

End Result.

(** * The groups of columns of a loop *)
From Coq Require Import List Bool Arith NArith ZArith Reals Sorted Lia Permutation Lra.
From Verif Require Import Pool_model Graph_model Codegen_model CSyntax Index_model Range_model LoopCond_model LoopCond_spec Assemble_model Assemble_proofs Assemble_thm
  LoopAsm_model LoopAsm_spec LoopJac_model LoopJac_spec LoopJac_maps LoopJac_row LoopJac_state LoopJac_analysis LoopJac_run LoopJac_main LoopDir_proofs LoopRev1_model LoopRev1_analysis
  LoopFor1_model LoopFor1_iters.
Import ListNotations.
Local Open Scope nat_scope.

(** ** Elements collected by key *)
Section GroupBy.
Context {K A : Type}.
Variable dec : forall a b : K, {a = b} + {a <> b}.
Definition ofKey (k : K) (l : list (K * A)) : list A := map snd (filter (fun p => if dec k (fst p) then true else false) l).
Lemma collect_keys k (v : A) m : forall k', In k' (map fst (collect dec k v m)) <-> k' = k \/ In k' (map fst m).
Proof.
  induction m as [|[k0 vs] m IH]; intros k'; cbn [collect map fst In]; [intuition|]. destruct (dec k k0) as [->|N]; cbn [map fst In]; [intuition|]. rewrite IH. intuition.
Qed.
Lemma collect_NoDup k (v : A) m : NoDup (map fst m) -> NoDup (map fst (collect dec k v m)).
Proof.
  induction m as [|[k0 vs] m IH]; intros H; cbn [collect map fst]; [constructor; [intros []|constructor]|]. inversion H as [|? ? N H']; subst. destruct (dec k k0) as [->|Ne]; cbn [map fst]; constructor; auto.
  rewrite collect_keys. intros [->|I]; contradiction.
Qed.
Lemma collect_In k (v : A) m : NoDup (map fst m) -> forall k' vs, In (k', vs) (collect dec k v m) <->
  (k' <> k /\ In (k', vs) m) \/ (k' = k /\ exists ws, vs = ws ++ [v] /\ (In (k, ws) m \/ ws = [] /\ ~ In k (map fst m))).
Proof.
  induction m as [|[k0 ws0] m IH]; intros H k' vs; cbn [collect].
  - cbn [In map]. split.
    + intros [X|[]]. injection X as <- <-. right. split; [reflexivity|]. exists []. auto.
    + intros [(_ & [])|(-> & ws & -> & [[]|[-> _]])]. left. reflexivity.
  - inversion H as [|? ? N H']; subst. destruct (dec k k0) as [->|Ne]; cbn [In map fst].
    + split.
      * intros [X|I]; [injection X as <- <-; right; split; [reflexivity|]; exists ws0; auto|]. left. split; [|right; exact I]. intros ->. apply N. exact (in_map fst _ _ I).
      * intros [(Ne & [X|I])|(-> & ws & -> & [[X|I]|[-> Z]])]; [injection X as -> _; congruence|right; exact I|injection X as ->; left; reflexivity| |].
        -- exfalso. apply N. exact (in_map fst _ _ I).
        -- exfalso. apply Z. left. reflexivity.
    + rewrite (IH H'). split.
      * intros [X|[(N' & I)|(-> & ws & -> & Z)]]; [injection X as <- <-; left; split; [congruence|left; reflexivity]|left; auto|]. right. split; [reflexivity|]. exists ws. split; [reflexivity|].
        destruct Z as [Z|[-> Z]]; [left; right; exact Z|]. right. split; [reflexivity|]. intros [X|X]; [congruence|contradiction].
      * intros [(N' & [X|I])|(-> & ws & -> & [[X|I]|[-> Z]])]; [left; exact X|right; left; auto|injection X as <- _; congruence| |]; right; right; (split; [reflexivity|]).
        -- exists ws. auto.
        -- exists []. split; [reflexivity|]. right. split; [reflexivity|]. intros X. apply Z. right. exact X.
Qed.
Lemma ofKey_app k l l' : ofKey k (l ++ l') = ofKey k l ++ ofKey k l'.
Proof. unfold ofKey. rewrite filter_app, map_app. reflexivity. Qed.
Lemma ofKey_nil k l : ~ In k (map fst l) -> ofKey k l = [].
Proof.
  unfold ofKey. induction l as [|[k0 v] l IH]; intros H; cbn [filter map fst]; [reflexivity|]. destruct (dec k k0) as [->|N]; [exfalso; apply H; left; reflexivity|]. apply IH. intros I. apply H. right. exact I.
Qed.
Lemma groupBy_spec (l : list (K * A)) : NoDup (map fst (groupBy dec l)) /\ (forall k, In k (map fst (groupBy dec l)) <-> In k (map fst l)) /\
  forall k vs, In (k, vs) (groupBy dec l) <-> In k (map fst l) /\ vs = ofKey k l.
Proof.
  unfold groupBy. induction l as [|[k0 v] l (N & J & I)] using rev_ind; [split; [constructor|split; [tauto|]]; intros k vs; cbn; tauto|].
  rewrite fold_left_app. cbn [fold_left fst snd]. set (m := fold_left _ l []) in *. split; [apply collect_NoDup, N|]. split.
  - intros k. rewrite collect_keys, J, map_app, in_app_iff. cbn. intuition.
  - intros k vs. rewrite (collect_In k0 v m N), ofKey_app, map_app, in_app_iff. cbn [map In fst]. split.
    + intros [(Ne & X)|(-> & ws & -> & Z)].
      * apply I in X. destruct X as [X ->]. split; [left; exact X|]. unfold ofKey at 3. cbn [filter fst]. destruct (dec k k0); [contradiction|]. rewrite app_nil_r. reflexivity.
      * split; [right; left; reflexivity|]. unfold ofKey at 2. cbn [filter fst]. destruct (dec k0 k0); [|contradiction]. cbn [map snd]. f_equal. destruct Z as [Z|[-> Z]]; [apply I in Z; tauto|]. symmetry. apply ofKey_nil. rewrite <- J. exact Z.
    + intros [X ->]. destruct (dec k k0) as [->|Ne].
      * right. split; [reflexivity|]. exists (ofKey k0 l). split; [unfold ofKey at 2; cbn [filter fst]; destruct (dec k0 k0); [reflexivity|contradiction]|].
        destruct (in_dec dec k0 (map fst l)) as [Y|Y]; [left; apply I; auto|right]. split; [apply ofKey_nil, Y|rewrite J; exact Y].
      * left. split; [exact Ne|]. apply I. split; [destruct X as [X|[X|[]]]; [exact X|congruence]|]. unfold ofKey at 2. cbn [filter fst]. destruct (dec k k0); [contradiction|]. apply app_nil_r.
Qed.
Lemma collect_sum (f : K -> A -> R) k v m : sumL (fun kv => sumL (f (fst kv)) (snd kv)) (collect dec k v m) = (sumL (fun kv => sumL (f (fst kv)) (snd kv)) m + f k v)%R.
Proof.
  induction m as [|[k0 vs] m IH]; cbn [collect sumL fst snd]; [lra|]. destruct (dec k k0) as [->|N]; cbn [sumL fst snd]; [|rewrite IH; lra]. rewrite sumL_app. cbn [sumL]. lra.
Qed.
Lemma groupBy_sum (f : K -> A -> R) l : sumL (fun kv => sumL (f (fst kv)) (snd kv)) (groupBy dec l) = sumL (fun p => f (fst p) (snd p)) l.
Proof.
  unfold groupBy. induction l as [|[k v] l IH] using rev_ind; [reflexivity|]. rewrite fold_left_app. cbn [fold_left fst snd]. rewrite collect_sum, IH, sumL_app. cbn [sumL fst snd]. lra.
Qed.
Lemma ofKey_In k v l : In v (ofKey k l) <-> In (k, v) l.
Proof.
  unfold ofKey. rewrite in_map_iff. split.
  - intros ([k' v'] & X & I). cbn [snd] in X. subst v'. apply filter_In in I. destruct I as [I E]. cbn [fst] in E. destruct (dec k k') as [->|]; [exact I|discriminate].
  - intros I. exists (k, v). split; [reflexivity|]. apply filter_In. split; [exact I|]. cbn [fst]. destruct (dec k k); [reflexivity|contradiction].
Qed.
End GroupBy.

Section Groups.
Variable s : state.
Variable n : nat.
Variable l : loopM.
Let pos (q : nat * term) (it : nat) : option nat := posAt (termPos (infos s n (fst q)) (snd q)) it.

Lemma termIters_In j a it : In it (termIters s n l j a) <-> it < l_iters l /\ (exists t e, In t (tapeRows l) /\ pos (t, a) it = Some e) /\ termCol l a it = Some j.
Proof.
  unfold termIters. rewrite filter_In, in_seq, andb_true_iff, existsb_exists, isEq_iff. unfold pos. cbn [fst snd]. split.
  - intros (L & (t & It & E) & C). split; [lia|]. split; [|exact C]. destruct (posAt (termPos (infos s n t) a) it) as [e|] eqn:X; [|discriminate]. exists t, e. auto.
  - intros (L & (t & e & It & E) & C). split; [lia|]. split; [|exact C]. exists t. split; [exact It|]. rewrite E. reflexivity.
Qed.
Lemma filter_sorted (f : nat -> bool) q : StronglySorted lt q -> StronglySorted lt (filter f q).
Proof.
  induction 1 as [|a q S IH F]; cbn [filter]; [constructor|]. destruct (f a); [|exact IH]. constructor; [exact IH|]. rewrite Forall_forall in *. intros b Ib. apply filter_In in Ib. apply F, Ib.
Qed.
Lemma seq_sorted c : forall b, StronglySorted lt (seq b c).
Proof. induction c as [|c IH]; intros b; cbn [seq]; constructor; [apply IH|]. apply Forall_forall. intros k I. apply in_seq in I. lia. Qed.
Lemma termIters_NoDup j a : NoDup (termIters s n l j a).
Proof. apply NoDup_filter, seq_NoDup. Qed.

Definition candidates (j : nat) : list term := map Idx (seq 0 (length (l_indexed l))) ++ [Non j].
Lemma candidates_NoDup j : NoDup (candidates j).
Proof.
  apply NoDup_app_iff_lemma.
  - apply FinFun.Injective_map_NoDup; [intros a b H; congruence|apply seq_NoDup].
  - constructor; [intros []|constructor].
  - intros a I [<-|[]]. apply in_map_iff in I. destruct I as (t & X & _). discriminate.
Qed.
Lemma columnTerms_In j its a : In (its, a) (columnTerms s n l j) <-> its = termIters s n l j a /\ its <> [] /\ In a (candidates j).
Proof.
  unfold columnTerms. rewrite in_flat_map. split.
  - intros (b & I & J). destruct (termIters s n l j b) as [|i0 r] eqn:E; [destruct J|]. destruct J as [X|[]]. injection X as <- <-. rewrite E. split; [reflexivity|]. split; [discriminate|exact I].
  - intros (-> & N & I). exists a. split; [exact I|]. destruct (termIters s n l j a) as [|i0 r]; [congruence|]. left. reflexivity.
Qed.
Lemma columnTerms_sum (f : list nat -> term -> R) j : (forall a, f [] a = 0%R) -> sumL (fun c => f (fst c) (snd c)) (columnTerms s n l j) = sumL (fun a => f (termIters s n l j a) a) (candidates j).
Proof.
  intros H. unfold columnTerms. rewrite sumL_flat_map. apply sumL_ext. intros a _. destruct (termIters s n l j a) as [|i0 r]; cbn [sumL fst snd]; [rewrite H|]; lra.
Qed.

Lemma contribs_keys j : NoDup (map fst (contribs s n l j)).
Proof. apply groupBy_spec. Qed.
Lemma contribs_In j its ts : In (its, ts) (contribs s n l j) -> its <> [] /\ ts <> [] /\ forall a, In a ts -> In a (candidates j) /\ termIters s n l j a = its.
Proof.
  intros I. apply (groupBy_spec (list_eq_dec Nat.eq_dec)) in I. destruct I as [I ->]. apply in_map_iff in I. destruct I as ([its' a] & X & I). cbn [fst] in X. subst its'. pose proof (proj1 (columnTerms_In j its a) I) as (_ & N & _).
  split; [exact N|]. split; [intros Z; apply (ofKey_In (list_eq_dec Nat.eq_dec)) in I; rewrite Z in I; destruct I|]. intros b Ib. apply ofKey_In, columnTerms_In in Ib. destruct Ib as (E & _ & J). auto.
Qed.
Definition flatGroups (nx : nat) : list (list term * (nat * list nat)) := flat_map (fun j => map (fun c => (snd c, (j, fst c))) (contribs s n l j)) (seq 0 nx).
Lemma flat_In nx ts j its : In (ts, (j, its)) (flatGroups nx) <-> j < nx /\ In (its, ts) (contribs s n l j).
Proof.
  unfold flatGroups. rewrite in_flat_map. split.
  - intros (j' & I & J). apply in_map_iff in J. destruct J as ([its' ts'] & X & J). cbn [fst snd] in X. injection X as <- <- <-. apply in_seq in I. split; [lia|exact J].
  - intros (L & I). exists j. split; [apply in_seq; lia|]. apply in_map_iff. exists (its, ts). auto.
Qed.
Lemma group_sorted ts nx : StronglySorted lt (map fst (ofKey (list_eq_dec term_dec) ts (flatGroups nx))).
Proof.
  unfold flatGroups. pose proof (seq_sorted nx 0) as S. induction (seq 0 nx) as [|j js IH]; cbn [flat_map]; [constructor|]. inversion S as [|? ? S' F]; subst. rewrite ofKey_app, map_app.
  set (tl := ofKey _ ts (flat_map _ js)) in *.
  assert (T : forall k, In k (map fst tl) -> j < k).
  { intros k I. apply in_map_iff in I. destruct I as ([k' its] & X & I). cbn [fst] in X. subst k'. apply ofKey_In, in_flat_map in I. destruct I as (j' & I & J). apply in_map_iff in J. destruct J as (c & X & _). injection X as _ <- _.
    rewrite Forall_forall in F. exact (F j' I). }
  assert (O : exists h, map fst (ofKey (list_eq_dec term_dec) ts (map (fun c => (snd c, (j, fst c))) (contribs s n l j))) = h /\ (h = [] \/ h = [j])).
  { eexists. split; [reflexivity|]. pose proof (contribs_keys j) as N. assert (Q : forall its ts', In (its, ts') (contribs s n l j) -> ts' <> [] /\ forall a, In a ts' -> termIters s n l j a = its).
    { intros its ts' I. destruct (contribs_In j its ts' I) as (_ & Z & H). split; [exact Z|]. intros a Ia. apply H, Ia. }
    induction (contribs s n l j) as [|[its ts'] cs IHc]; [left; reflexivity|]. cbn [map fst snd] in *. inversion N as [|? ? N1 N2]; subst. specialize (IHc N2 (fun a b I => Q a b (or_intror I))).
    unfold ofKey in *. cbn [filter fst] in *. destruct (list_eq_dec term_dec ts ts') as [->|Ne]; [|exact IHc]. cbn [map snd fst]. right. f_equal.
    destruct (Q its ts' (or_introl eq_refl)) as [Z H]. destruct ts' as [|a0 r]; [congruence|].
    set (rest := filter _ (map _ cs)) in *. destruct rest as [|[ts2 [j2 its2]] rr] eqn:Er; [reflexivity|]. exfalso. assert (I : In (ts2, (j2, its2)) rest) by (rewrite Er; left; reflexivity). unfold rest in I.
    apply filter_In in I. destruct I as [I E]. cbn [fst] in E. destruct (list_eq_dec term_dec (a0 :: r) ts2) as [<-|]; [|discriminate]. apply in_map_iff in I. destruct I as ([its3 ts3] & X & I). cbn [fst snd] in X. injection X as -> _ _.
    destruct (Q its3 (a0 :: r) (or_intror I)) as [_ H3]. rewrite <- (H a0 (or_introl eq_refl)), (H3 a0 (or_introl eq_refl)) in N1. apply N1. exact (in_map fst _ _ I). }
  destruct O as (h & -> & [->| ->]); cbn [app]; [exact (IH S')|]. constructor; [exact (IH S')|]. apply Forall_forall. exact T.
Qed.
Lemma group_In nx g : In g (columnGroups s n l nx) -> wellGrouped g /\ fst g <> [] /\
  forall j its, In (j, its) (snd g) -> j < nx /\ forall a, In a (fst g) -> In a (candidates j) /\ termIters s n l j a = its.
Proof.
  destruct g as [ts cs]. unfold columnGroups. fold (flatGroups nx). intros I. apply (groupBy_spec (list_eq_dec term_dec)) in I. destruct I as [I ->]. cbn [fst snd].
  assert (Q : forall j its, In (j, its) (ofKey (list_eq_dec term_dec) ts (flatGroups nx)) -> j < nx /\ In (its, ts) (contribs s n l j)) by (intros j its J; apply ofKey_In, flat_In in J; exact J).
  apply in_map_iff in I. destruct I as ([ts' [j0 its0]] & X & I). cbn [fst] in X. subst ts'. pose proof (proj1 (flat_In nx ts j0 its0) I) as (_ & I2). destruct (contribs_In j0 its0 ts I2) as (_ & Z & _).
  split; [|split; [exact Z|]].
  - split; [apply group_sorted|]. cbn [snd]. split.
    + intros E. apply (ofKey_In (list_eq_dec term_dec)) in I. rewrite E in I. destruct I.
    + intros j its J. apply Q in J. exact (proj1 (contribs_In j its ts (proj2 J))).
  - intros j its J. destruct (Q j its J) as [L J2]. split; [exact L|]. intros a Ia. apply (contribs_In j its ts J2), Ia.
Qed.
(** a sum over the columns of all groups is a sum over the contributions of all columns *)
Lemma groups_sum (h : nat -> list nat -> term -> R) nx : (forall j a, h j [] a = 0%R) ->
  sumL (fun g : cgroup => sumL (fun c => sumL (h (fst c) (snd c)) (fst g)) (snd g)) (columnGroups s n l nx) = sumL (fun j => sumL (fun a => h j (termIters s n l j a) a) (candidates j)) (seq 0 nx).
Proof.
  intros H. unfold columnGroups. fold (flatGroups nx). rewrite (groupBy_sum (list_eq_dec term_dec) (fun ts c => sumL (h (fst c) (snd c)) ts)). unfold flatGroups. rewrite sumL_flat_map. apply sumL_ext. intros j _.
  rewrite sumL_map. cbn [fst snd]. unfold contribs. rewrite (groupBy_sum (list_eq_dec Nat.eq_dec) (fun its a => h j its a)). apply columnTerms_sum. intros a. apply H.
Qed.

(** ** The iterations and the elements of a group *)
Lemma groupIters_In nx g it a : In g (columnGroups s n l nx) -> In a (fst g) -> (In it (groupIters l g) <-> exists j its, In (j, its) (snd g) /\ In it its /\ termCol l a it = Some j).
Proof.
  intros Ig Ia. destruct (group_In nx g Ig) as (_ & _ & H). unfold groupIters. rewrite filter_In, existsb_exists, in_seq. split.
  - intros (_ & [j its] & I & E). cbn [snd] in E. apply mem_In in E. exists j, its. split; [exact I|]. split; [exact E|]. destruct (H j its I) as [_ H2]. destruct (H2 a Ia) as [_ <-]. apply termIters_In in E. apply E.
  - intros (j & its & I & E & _). destruct (H j its I) as [_ H2]. destruct (H2 a Ia) as [_ X]. split.
    + rewrite <- X in E. apply termIters_In in E. lia.
    + exists (j, its). split; [exact I|]. apply mem_In. exact E.
Qed.
Lemma events_In nx g j e : In g (columnGroups s n l nx) -> (In (j, e) (groupEvents s n l g) <->
  exists its t a it, In (j, its) (snd g) /\ In t (tapeRows l) /\ In a (fst g) /\ In it its /\ pos (t, a) it = Some e).
Proof.
  intros Ig. destruct (group_In nx g Ig) as (_ & _ & H). unfold groupEvents. rewrite in_flat_map. split.
  - intros ([t a] & I & J). apply in_prod_iff in I. destruct I as [It Ia]. apply in_flat_map in J. destruct J as (it & Ii & J). cbn [fst snd] in J. destruct (posAt (termPos (infos s n t) a) it) as [e'|] eqn:E1; [|destruct J].
    destruct (termCol l a it) as [j'|] eqn:E2; [|destruct J]. destruct J as [X|[]]. injection X as -> ->. apply (groupIters_In nx g it a Ig Ia) in Ii. destruct Ii as (j1 & its & I1 & I2 & E3). assert (j1 = j) by congruence. subst j1.
    exists its, t, a, it. split; [exact I1|]. split; [exact It|]. split; [exact Ia|]. split; [exact I2|exact E1].
  - intros (its & t & a & it & I1 & It & Ia & I2 & E). exists (t, a). split; [apply in_prod_iff; auto|]. apply in_flat_map. exists it. cbn [fst snd].
    destruct (H j its I1) as [_ H2]. destruct (H2 a Ia) as [_ X]. pose proof I2 as I3. rewrite <- X in I3. apply termIters_In in I3. destruct I3 as (_ & _ & C).
    split; [apply (groupIters_In nx g it a Ig Ia); exists j, its; auto|]. unfold pos in E. cbn [fst snd] in E. rewrite E, C. left. reflexivity.
Qed.
Lemma putEvents evs : let m := fold_left putEvent evs [] in keyed m /\ (forall j es, In (j, es) m -> es <> [] /\ StronglySorted lt es /\ forall e, In e es <-> In (j, e) evs) /\
  (forall j e, In (j, e) evs -> In j (map fst m)).
Proof.
  induction evs as [|[j0 e0] evs IH] using rev_ind; cbn zeta; [split; [constructor|split; [intros ? ? []|intros ? ? []]]|]. rewrite fold_left_app. cbn [fold_left]. cbn zeta in IH. set (m := fold_left putEvent evs []) in *.
  destruct IH as (K & H & T). unfold putEvent. cbn [fst snd]. set (old := match mget j0 m with Some es => es | None => [] end).
  assert (Ho : StronglySorted lt old /\ forall e, In e old <-> In (j0, e) evs).
  { unfold old. destruct (mget j0 m) as [es|] eqn:E.
    - apply mget_In in E; [|exact K]. destruct (H j0 es E) as (_ & S & X). auto.
    - split; [constructor|]. intros e. split; [intros []|]. intros I. apply T in I. apply in_map_iff in I. destruct I as ([j' es] & X & I). cbn [fst] in X. subst j'. apply mget_In in I; [congruence|exact K]. }
  split; [apply mput_keyed, K|]. split.
  - intros j es I. apply mget_In in I; [|apply mput_keyed, K]. rewrite (mget_put _ _ _ _ K) in I. destruct (Nat.eqb_spec j j0) as [->|Ne].
    + injection I as <-. split; [apply sins_ne|]. split; [apply sins_sorted, Ho|]. intros e. rewrite sins_In, (proj2 Ho e), in_app_iff. cbn [In]. split; [intros [->|X]; auto|intros [X|[X|[]]]; [auto|left; congruence]].
    + apply mget_In in I; [|exact K]. destruct (H j es I) as (A & B & C). split; [exact A|]. split; [exact B|]. intros e. rewrite C, in_app_iff. cbn [In]. split; [auto|]. intros [X|[X|[]]]; [exact X|congruence].
  - intros j e I. apply in_app_iff in I. set (old' := sins e0 old). destruct (mget j (mput j0 old' m)) as [es|] eqn:E.
    + apply mget_In in E; [|apply mput_keyed, K]. exact (in_map fst _ _ E).
    + exfalso. rewrite (mget_put _ _ _ _ K) in E. destruct (Nat.eqb_spec j j0) as [->|Ne]; [discriminate|]. destruct I as [I|[X|[]]]; [|congruence]. apply T in I. apply in_map_iff in I. destruct I as ([j' es] & X & I).
      cbn [fst] in X. subst j'. apply mget_In in I; [congruence|exact K].
Qed.
Lemma keys_In nx g : In g (columnGroups s n l nx) -> keyed (groupKeys s n l g) /\
  (forall j es, In (j, es) (groupKeys s n l g) -> es <> [] /\ StronglySorted lt es /\ exists its, In (j, its) (snd g) /\ forall e, In e es <-> exists t a it, In t (tapeRows l) /\ In a (fst g) /\ In it its /\ pos (t, a) it = Some e) /\
  (forall j its, In (j, its) (snd g) -> In j (map fst (groupKeys s n l g))).
Proof.
  intros Ig. unfold groupKeys. destruct (putEvents (groupEvents s n l g)) as (K & H & T). destruct (group_In nx g Ig) as ((S & Z1 & Z2) & Z & Hc). split; [exact K|]. split.
  - intros j es I. destruct (H j es I) as (A & B & C). split; [exact A|]. split; [exact B|]. destruct es as [|e0 r]; [congruence|]. pose proof (proj1 (C e0) (or_introl eq_refl)) as X. apply (events_In nx g j e0 Ig) in X.
    destruct X as (its & _ & _ & _ & Ij & _). exists its. split; [exact Ij|]. intros e. rewrite C, (events_In nx g j e Ig). split.
    + intros (its' & t & a & it & I1 & I2 & I3 & I4 & E). assert (its' = its); [|subst its'; exists t, a, it; auto]. destruct (Hc j its Ij) as [_ H1]. destruct (Hc j its' I1) as [_ H2]. destruct (H1 a I3) as [_ <-]. destruct (H2 a I3) as [_ <-]. reflexivity.
    + intros (t & a & it & I2 & I3 & I4 & E). exists its, t, a, it. auto.
  - intros j its I. destruct (fst g) as [|a r] eqn:Eg; [congruence|]. destruct its as [|it its'] eqn:Ei; [destruct (Z2 j [] I eq_refl)|]. rewrite <- Ei in I. destruct (Hc j its I) as [_ H1]. destruct (H1 a (or_introl eq_refl)) as [_ X].
    assert (Hit : In it its) by (rewrite Ei; left; reflexivity). pose proof Hit as Hit2. rewrite <- X in Hit2. apply termIters_In in Hit2. destruct Hit2 as (_ & (t & e & It & E) & _). apply (T j e), (events_In nx g j e Ig).
    exists its, t, a, it. split; [exact I|]. split; [exact It|]. split; [rewrite Eg; left; reflexivity|]. auto.
Qed.
End Groups.

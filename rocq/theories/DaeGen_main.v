(** * The equations of the new model *)
From Coq Require Import List Arith Bool Lia Sorted ZArith Reals.
From Verif Require Import DaeGen_model DaeGen_spec DaeGen_lists DaeGen_inv DaeGen_remove DaeGen_build DaeGen_info DaeGen_diff.
Import ListNotations.
Local Open Scope nat_scope.

Section Main.
Context {K : Type}.
Variables k0 k1 : K.
Variables (vs vs1 : list vinfo) (m : nat) (sparsity : nat -> nat -> bool) (g0 : gr).
Hypothesis V : validInfo vs.
Hypothesis B : build m vs sparsity = Some (vs1, g0).
Variable g : gr.
Hypothesis I : inv (n vs1) (n0 vs1) m (g_v g0) (g_e g0) no3 no3 g.
Variable fun_ : list (ex K).
Hypothesis Vm : validModel (List.length vs) fun_ sparsity.
Hypothesis Lm : List.length fun_ = m.

Notation vs'_ := (vs' vs1 g).
Definition timeVar := find (fun j => match nth_error vs1 j with Some v => i_int v | None => false end) (seq 0 (List.length vs1)).
Definition t := match timeVar with Some t => t | None => List.length vs'_ end.

Notation der_ := (der k0 k1 vs'_ t).
(** The equation of a node *)
Inductive isE : nat -> ex K -> Prop :=
  | isE_0 k f : k < m -> nth_error fun_ k = Some f -> isE k f
  | isE_1 k e o f : In k (g_ea g) -> nth_error (g_e g) k = Some e -> e_of e = Some o -> isE o f -> isE k (der_ f).
Inductive anc : nat -> nat -> Prop :=
  | anc_0 k : anc k k
  | anc_1 k e o k' : nth_error (g_e g) k = Some e -> e_of e = Some o -> anc o k' -> anc k k'.

Lemma eaND : NoDup (g_ea g). Proof. apply sorted_NoDup, I. Qed.
Lemma user_alive k : k < m -> In k (g_ea g). Proof. intro L. eapply va_In; [apply I|auto]. Qed.
Lemma user_pos k : k < m -> posOf k (g_ea g) = k. Proof. intro L. apply nth_posOf; [apply eaND|]. eapply va_nth; [apply I|auto]. Qed.
Lemma of_new k e o : nth_error (g_e g) k = Some e -> e_of e = Some o -> m <= k.
Proof.
  intros E O. destruct (Nat.lt_ge_cases k m) as [L|]; auto. destruct (ie_user _ _ _ _ _ _ _ _ I k L) as (e1 & e2 & X & _ & _ & Y). congruence.
Qed.
Lemma isE_noTime k f : isE k f -> noTime f.
Proof. destruct 1 as [k f L E|]; [apply (Vm k f E)|apply der_noTime]. Qed.
Lemma isE_fun k f : isE k f -> forall f', isE k f' -> f = f'.
Proof.
  induction 1 as [k f L E|k e o f KA E O H IH]; intros f' H'.
  - inversion H' as [k' f1 L' E'|k' e' o' f1 KA' E' O' H1]; subst; [congruence|]. assert (X := of_new _ _ _ E' O'). lia.
  - inversion H' as [k' f1 L' E'|k' e' o' f1 KA' E' O' H1]; subst; [assert (X := of_new _ _ _ E O); lia|].
    assert (e' = e) by congruence. subst e'. assert (o' = o) by congruence. subst o'. now rewrite (IH f1 H1).
Qed.
Lemma isE_ex k : In k (g_ea g) -> exists f, isE k f.
Proof.
  induction k as [k IH] using lt_wf_ind. intro A. destruct (Nat.lt_ge_cases k m) as [L|L].
  - rewrite <- Lm in L. destruct (lt_nth _ _ L) as (f & F). exists f. apply isE_0; auto. now rewrite <- Lm.
  - destruct (alive_e _ _ _ _ _ I k A) as (e & E). destruct (ie_new _ _ _ _ _ _ _ _ I k e L A E) as (o & O & Lo).
    destruct (ie_of _ _ _ _ _ _ _ _ I k e o A E O) as (OA & _). destruct (IH o Lo OA) as (f & F). exists (der_ f). eapply isE_1; eauto.
Qed.
Lemma anc_alive k k' : anc k k' -> In k (g_ea g) -> In k' (g_ea g) /\ (k' = k \/ exists e, nth_error (g_e g) k' = Some e /\ e_der e <> None).
Proof.
  induction 1 as [k|k e o k' E O H IH]; intro A; [auto|]. destruct (ie_of _ _ _ _ _ _ _ _ I k e o A E O) as (OA & eo & OE & OD).
  destruct (IH OA) as (X & [->|Y]); split; auto. right. exists eo. split; auto. congruence.
Qed.
Lemma anc_child k e o k' : In k (g_ea g) -> nth_error (g_e g) k = Some e -> e_of e = Some o -> anc o k' ->
  forall e' d, nth_error (g_e g) k' = Some e' -> e_der e' = Some d -> anc k d.
Proof.
  intros A E O H. revert k e A E O. induction H as [o|o eo o2 k' Eo Oo H IH]; intros k e A E O e' d E' D.
  - destruct (ie_of _ _ _ _ _ _ _ _ I k e o A E O) as (OA & eo & OE & OD). assert (d = k) by congruence. subst. apply anc_0.
  - destruct (ie_of _ _ _ _ _ _ _ _ I k e o A E O) as (OA & _). eapply anc_1; eauto.
Qed.

Lemma occ k f : isE k f -> In k (g_ea g) -> forall j, occurs j f ->
  (j < n vs1 /\ ~ In j (ts vs1)) \/
  exists k' e' x v, anc k k' /\ nth_error (g_e g) k' = Some e' /\ In x (e_vars e') /\ nth_error (g_v g) x = Some v /\ v_tape v = j.
Proof.
  induction 1 as [k f L E|k e o f KA E O H IH]; intros A j J.
  - destruct (Vm k f E) as (_ & X). destruct (X j J) as (Lj & S). assert (Lj' : j < n vs1) by (unfold n; rewrite (b_len _ _ (inf vs vs1 m sparsity g0 V B)); exact Lj).
    destruct (in_dec Nat.eq_dec j (ts vs1)) as [JT|JT]; [right|left; auto].
    destruct (ie_user _ _ _ _ _ _ _ _ I k L) as (e1 & e2 & X1 & X2 & X3 & _). assert (PL := posOf_lt _ _ JT).
    destruct (iv_user _ _ _ _ _ _ _ _ I (posOf j (ts vs1)) PL) as (v & _ & Hv & _).
    exists k, e1, (posOf j (ts vs1)), v. split; [apply anc_0|]. split; auto. split; [|split; auto].
    + rewrite X3. apply (initial_vars vs vs1 m sparsity g0 V B k e2 _ X2). exists j. split; auto. now apply posOf_nth.
    + destruct (user_node vs vs1 m sparsity g0 V B g I _ v PL Hv) as (t' & T1 & T2 & _). rewrite (posOf_nth _ _ JT) in T1. congruence.
  - destruct (ie_of _ _ _ _ _ _ _ _ I k e o KA E O) as (OA & eo & OE & OD). apply der_occurs in J as [J|(i & w & J & W & D)]; [| |exact (isE_noTime _ _ H)].
    + destruct (IH OA j J) as [|(k' & e' & x & v & X1 & X2)]; auto. right. exists k', e', x, v. split; auto. eapply anc_1; eauto.
    + destruct (IH OA i J) as [(Li & NI)|(k' & e' & x & v & X1 & X2 & X3 & X4 & X5)].
      * destruct (not_node vs vs1 m sparsity g0 V B g I i Li NI) as (w' & _ & W' & _ & _ & DN). congruence.
      * destruct (anc_alive _ _ X1 OA) as (KA' & KD). assert (ED : exists d, e_der e' = Some d).
        { destruct KD as [->|(e2 & Q1 & Q2)]; [exists k; congruence|]. assert (e2 = e') by congruence. subst e2. destruct (e_der e') as [d|]; [eauto|tauto]. }
        destruct ED as (d & ED). destruct (ie_der _ _ _ _ _ _ _ _ I k' e' d KA' X2 ED) as (DA & ed & DE & DO).
        destruct (ie_diff _ _ _ _ _ _ _ _ I k' e' d ed x KA' X2 ED DE X3) as [[]|(v2 & d' & Y1 & Y2 & Y3)].
        assert (v2 = v) by congruence. subst v2. destruct (ie_vars _ _ _ _ _ _ _ _ I k' e' x KA' X2 X3) as [[]|XA].
        destruct (der_of_node vs vs1 m sparsity g0 V B g I x v XA X4) as (w' & W' & DW). rewrite X5 in W'. assert (w' = w) by congruence. subst w'.
        rewrite Y2 in DW. rewrite D in DW. unfold tapeOf in DW. destruct (nth_error (g_v g) d') as [vd|] eqn:Vd; [|discriminate]. injection DW as DW.
        right. exists d, ed, d', vd. split; [eapply anc_child; eauto|]. auto.
Qed.

(** The time variable *)
Lemma find_int : match timeVar with
  | Some t => exists v, nth_error vs1 t = Some v /\ i_int v = true /\ forall j w, nth_error vs1 j = Some w -> i_int w = true -> j = t
  | None => forall j w, nth_error vs1 j = Some w -> i_int w = false end.
Proof.
  unfold timeVar. destruct (find _ _) as [tv|] eqn:F.
  - apply find_some in F as (_ & F). destruct (nth_error vs1 tv) as [v|] eqn:E; [|discriminate]. exists v. split; auto. split; auto. intros j w W WI.
    destruct (build_facts _ _ _ _ _ V B) as (_ & L & _).
    destruct (Nat.eq_dec j tv) as [|N]; auto. exfalso.
    assert (X : forall l : list vinfo, forall p q a b, p < q -> nth_error l p = Some a -> nth_error l q = Some b -> i_int a = true -> i_int b = true -> 2 <= List.length (filter i_int l)).
    { clear. assert (Y : forall (l : list vinfo) q b, nth_error l q = Some b -> i_int b = true -> 1 <= List.length (filter i_int l)).
      { induction l as [|x l IH]; intros [|q] b H Hb; try discriminate; cbn in *.
        - injection H as ->. rewrite Hb. cbn. lia.
        - specialize (IH q b H Hb). destruct (i_int x); cbn; lia. }
      induction l as [|x l IH]; intros p q a b L P Q A Bb; [destruct p; discriminate|]. destruct p as [|p], q as [|q]; try lia; cbn in *.
      - injection P as ->. rewrite A. cbn. specialize (Y l q b Q Bb). lia.
      - specialize (IH p q a b). destruct (i_int x); cbn; lapply IH; try lia; intro Z; specialize (Z P Q A Bb); lia. }
    destruct (Nat.lt_gt_cases j tv) as (Y & _). destruct (Y N) as [Q|Q].
    + specialize (X vs1 j tv w v Q W E WI F). lia.
    + specialize (X vs1 tv j v w Q E W F WI). lia.
  - intros j w W. assert (X := find_none _ _ F j). cbn beta in X. rewrite W in X. apply X. apply in_seq. apply nth_lt in W. lia.
Qed.
Lemma vs'_flags j w : nth_error vs'_ j = Some w -> (exists v1, nth_error vs1 j = Some v1 /\ i_fun w = i_fun v1 /\ i_int w = i_int v1) \/
  (n vs1 <= j /\ i_fun w = true /\ i_int w = false).
Proof.
  intro W. assert (L := nth_lt _ _ _ W). rewrite (vs'_len vs vs1 m sparsity g0 V B g I) in L.
  destruct (Nat.lt_ge_cases j (n vs1)) as [Lj|Lj].
  - left. destruct (s_user _ _ _ _ (st_N vs vs1 m sparsity g0 V B g I) j Lj) as (v1 & w' & X1 & X2 & X3). exists v1. assert (w' = w) by congruence. subst w'.
    rewrite X3. auto.
  - right. split; auto. destruct (node_or_not vs vs1 m sparsity g0 V B g I j L) as [(k & v & Ka & H & T)|(X & _)]; [|lia].
    assert (Lk : n0 vs1 <= k). { destruct (Nat.lt_ge_cases k (n0 vs1)) as [Lk|]; auto. assert (X := user_tape vs vs1 m sparsity g0 V B g I k v Lk H). lia. }
    destruct (s_new _ _ _ _ (st_N vs vs1 m sparsity g0 V B g I) k v (present_N vs1 m g0 g I k Ka) Lk H) as (a & at_ & w' & wa & Y1 & Y2 & Y3 & Y4 & Y5 & Y6 & Y7 & Y8 & Y9 & Y10 & Y11).
    rewrite T in *. assert (w' = w) by congruence. subst w'. tauto.
Qed.
Lemma int_not_fun j v1 : nth_error vs1 j = Some v1 -> i_int v1 = true -> i_fun v1 = false.
Proof.
  intros H HI. destruct (b_nth _ _ (inf vs vs1 m sparsity g0 V B) j v1 H) as (_ & _ & v & Hv & _ & F & Q).
  destruct V as (_ & _ & _ & _ & X). rewrite F. apply (X j v Hv). congruence.
Qed.
Lemma vs'_time j w : nth_error vs'_ j = Some w -> (i_fun w = false -> i_int w = (j =? t)) /\ (i_fun w = true -> j <> t).
Proof.
  intro W. assert (L := nth_lt _ _ _ W). assert (F := find_int). unfold t. assert (Q := vs'_flags j w W).
  destruct timeVar as [tv|].
  - destruct F as (v & E & HI & U). assert (NF := int_not_fun tv v E HI). destruct Q as [(v1 & H & F1 & F2)|(Lj & F1 & F2)]; split.
    + intros _. rewrite F2. destruct (Nat.eqb_spec j tv) as [->|N]; [congruence|]. destruct (i_int v1) eqn:Q; auto. exfalso. apply N. eapply U; eauto.
    + intros Fw ->. congruence.
    + congruence.
    + intros _ ->. apply nth_lt in E. unfold n in Lj. lia.
  - destruct Q as [(v1 & H & F1 & F2)|(Lj & F1 & F2)]; split.
    + intros _. rewrite F2, (F j v1 H). symmetry. apply Nat.eqb_neq. lia.
    + intros _. lia.
    + congruence.
    + intros _. lia.
Qed.
Lemma tape_lt k x e v : In k (g_ea g) -> nth_error (g_e g) k = Some e -> In x (e_vars e) -> nth_error (g_v g) x = Some v ->
  In x (g_va g).
Proof. intros A E X _. destruct (ie_vars _ _ _ _ _ _ _ _ I k e x A E X) as [[]|]; auto. Qed.
(** Equations which have a derivative: all the variables have what is needed. *)
Lemma isE_ready k e f : isE k f -> In k (g_ea g) -> nth_error (g_e g) k = Some e -> e_der e <> None -> ready vs'_ t f.
Proof.
  intros H A E D j J. destruct (occ k f H A j J) as [(L & NJ)|(k' & e' & x & v & X1 & X2 & X3 & X4 & X5)].
  - destruct (not_node vs vs1 m sparsity g0 V B g I j L NJ) as (w & _ & W & F & _ & DN). exists w. split; auto. destruct (vs'_time j w W) as (Q1 & Q2).
    split; [congruence|]. split; auto.
  - destruct (anc_alive _ _ X1 A) as (KA' & KD). assert (ED : exists d, e_der e' = Some d).
    { assert (Z : e_der e' <> None) by (destruct KD as [->|(e2 & Q1 & Q2)]; congruence). destruct (e_der e') as [d|]; [eauto|tauto]. }
    destruct ED as (d & ED). destruct (ie_der _ _ _ _ _ _ _ _ I k' e' d KA' X2 ED) as (DA & ed & DE & DO).
    destruct (ie_diff _ _ _ _ _ _ _ _ I k' e' d ed x KA' X2 ED DE X3) as [[]|(v2 & d' & Y1 & Y2 & Y3)]. assert (v2 = v) by congruence. subst v2.
    assert (XA := tape_lt _ _ _ _ KA' X2 X3 X4).
    destruct (der_of_node vs vs1 m sparsity g0 V B g I x v XA X4) as (w & W & DW). rewrite X5 in W. exists w. split; auto.
    rewrite Y2 in DW. destruct (iv_der _ _ _ _ _ _ _ _ I x v d' XA X4 Y2) as (_ & vd & Vd & _). unfold tapeOf in DW. rewrite Vd in DW. cbn [option_map] in DW.
    destruct (vs'_time j w W) as (Q1 & Q2). split; [congruence|]. split; auto.
    intro F. exfalso. (* the nodes are functions of time *)
    destruct (Nat.lt_ge_cases x (n0 vs1)) as [Lx|Lx].
    + destruct (user_node vs vs1 m sparsity g0 V B g I x v Lx X4) as (t' & T1 & T2 & _). assert (TI : In t' (ts vs1)) by (eapply nth_error_In; eauto).
      apply (ts_iff vs vs1 m sparsity g0 V B) in TI as (v1 & V1 & VF). destruct (vs'_flags j w W) as [(v3 & H3 & F3 & _)|(_ & F3 & _)]; [|congruence].
      assert (j = t') by congruence. subst. congruence.
    + destruct (new_node vs1 m g0 g I x v Lx XA X4) as (P1 & P2 & _).
      destruct (vs'_flags j w W) as [(v3 & H3 & F3 & _)|(_ & F3 & _)]; [|congruence]. apply nth_lt in H3. unfold n in *. lia.
Qed.
Lemma isE_lt k f : isE k f -> In k (g_ea g) -> forall j, occurs j f -> j < List.length vs'_.
Proof.
  intros H A j J. destruct (occ k f H A j J) as [(L & NJ)|(k' & e' & x & v & X1 & X2 & X3 & X4 & X5)].
  - rewrite (vs'_len vs vs1 m sparsity g0 V B g I). lia.
  - destruct (anc_alive _ _ X1 A) as (KA' & _). assert (XA := tape_lt _ _ _ _ KA' X2 X3 X4).
    destruct (der_of_node vs vs1 m sparsity g0 V B g I x v XA X4) as (w & W & DW). apply nth_lt in W. now rewrite X5 in W.
Qed.

(** ** The levels *)
Lemma dersOf_In ks d : In d (dersOf g ks) <-> exists k e, In k ks /\ nth_error (g_e g) k = Some e /\ e_der e = Some d.
Proof.
  unfold dersOf. rewrite in_concat. split.
  - intros (l & L & D). apply in_map_iff in L as (k & <- & Ki). destruct (nth_error (g_e g) k) as [e|] eqn:E; [|destruct D].
    destruct (e_der e) as [d'|] eqn:De; [|destruct D]. destruct D as [<-|[]]. eauto.
  - intros (k & e & Ki & E & D). exists [d]. split; [|cbn; auto]. apply in_map_iff. exists k. rewrite E, D. auto.
Qed.
Lemma der_gt k e d : In k (g_ea g) -> nth_error (g_e g) k = Some e -> e_der e = Some d -> In d (g_ea g) /\ k < d /\ m <= d.
Proof.
  intros A E D. destruct (ie_der _ _ _ _ _ _ _ _ I k e d A E D) as (DA & w & W & O). split; auto.
  assert (M := of_new _ _ _ W O). destruct (ie_new _ _ _ _ _ _ _ _ I d w M DA W) as (o & O' & L). split; auto. congruence.
Qed.
Lemma levels_end : forall fuel a ks, (forall k, In k ks -> a <= k /\ In k (g_ea g)) -> List.length (g_e g) <= fuel + a -> levels (S fuel) g ks <> None.
Proof.
  induction fuel as [|fuel IH]; intros a ks H L.
  - cbn [levels]. destruct (dersOf g ks) as [|d l] eqn:E; [discriminate|]. exfalso. assert (X : In d (dersOf g ks)) by (rewrite E; cbn; auto).
    apply dersOf_In in X as (k & e & Ki & Ek & _). destruct (H k Ki) as (X & _). apply nth_lt in Ek. lia.
  - change (levels (S (S fuel)) g ks) with (match dersOf g ks with [] => Some [] | l => option_map (cons l) (levels (S fuel) g l) end).
    assert (X : levels (S fuel) g (dersOf g ks) <> None).
    { apply (IH (S a)); [|lia]. intros d D. apply dersOf_In in D as (k & e & Ki & Ek & D). destruct (H k Ki) as (X & Y). destruct (der_gt k e d Y Ek D). lia || (split; [lia|auto]). }
    revert X. generalize (levels (S fuel) g). intro fl. destruct (dersOf g ks) as [|d l]; [intros; discriminate|]. cbv beta iota zeta. intros X Y. destruct (fl (d :: l)) as [l9|]; [discriminate Y|apply X; reflexivity].
Qed.
Lemma levels_closed : forall fuel ks ls, levels fuel g ks = Some ls -> forall k e d, In k (ks ++ concat ls) -> nth_error (g_e g) k = Some e -> e_der e = Some d ->
  In d (concat ls).
Proof.
  induction fuel as [|fuel IH]; intros ks ls H k e d Ki E D; [discriminate|]. cbn [levels] in H.
  destruct (dersOf g ks) as [|x l] eqn:Ed.
  - injection H as <-. cbn [concat] in *. rewrite app_nil_r in Ki. assert (X : In d (dersOf g ks)) by (apply dersOf_In; eauto). rewrite Ed in X. destruct X.
  - destruct (levels fuel g (x :: l)) as [ls'|] eqn:L; [|discriminate]. cbn [option_map] in H. injection H as <-. change (concat ((x :: l) :: ls')) with ((x :: l) ++ concat ls') in *.
    apply in_app_or in Ki as [Ki|Ki].
    + apply in_or_app. left. rewrite <- Ed. apply dersOf_In. eauto.
    + apply in_or_app. right. exact (IH _ _ L k e d Ki E D).
Qed.
(** Every level is made of derivatives of what comes before it. *)
Fixpoint stacked (P : nat -> Prop) (ls : list (list nat)) : Prop :=
  match ls with
  | [] => True
  | ks :: r => (forall k, In k ks -> exists e o, In k (g_ea g) /\ nth_error (g_e g) k = Some e /\ e_of e = Some o /\ P o) /\ stacked (fun k => P k \/ In k ks) r
  end.
Lemma stacked_mono ls : forall P Q : nat -> Prop, (forall k, P k -> Q k) -> stacked P ls -> stacked Q ls.
Proof.
  induction ls as [|ks r IH]; intros P Q H S; cbn [stacked] in *; auto. destruct S as (S1 & S2). split.
  - intros k Ki. destruct (S1 k Ki) as (e & o & A & E & O & X). exists e, o. auto.
  - eapply IH; [|exact S2]. intros k [X|X]; auto.
Qed.
Lemma levels_stacked : forall fuel ks ls (P : nat -> Prop), (forall k, In k ks -> In k (g_ea g) /\ P k) -> levels fuel g ks = Some ls -> stacked P ls.
Proof.
  induction fuel as [|fuel IH]; intros ks ls P H L; [discriminate|]. cbn [levels] in L.
  assert (Dd : forall d, In d (dersOf g ks) -> exists e o, In d (g_ea g) /\ nth_error (g_e g) d = Some e /\ e_of e = Some o /\ P o).
  { intros d D. apply dersOf_In in D as (k & e & Ki & E & D). destruct (H k Ki) as (A & Pk). destruct (ie_der _ _ _ _ _ _ _ _ I k e d A E D) as (DA & w & W & O).
    exists w, k. auto. }
  destruct (dersOf g ks) as [|x l]; [injection L as <-; exact Logic.I|]. destruct (levels fuel g (x :: l)) as [ls'|] eqn:L'; [|discriminate]. injection L as <-.
  cbn [stacked]. split; auto. eapply IH; [|exact L']. intros k Ki. destruct (Dd k Ki) as (e & o & A & _). auto.
Qed.
Lemma all_in ls fuel : levels fuel g (seq 0 m) = Some ls -> forall k, In k (g_ea g) -> In k (seq 0 m ++ concat ls).
Proof.
  intros L k. induction k as [k IH] using lt_wf_ind. intro A. destruct (Nat.lt_ge_cases k m) as [Lk|Lk].
  - apply in_or_app. left. apply in_seq. lia.
  - destruct (alive_e _ _ _ _ _ I k A) as (e & E). destruct (ie_new _ _ _ _ _ _ _ _ I k e Lk A E) as (o & O & Lo).
    destruct (ie_of _ _ _ _ _ _ _ _ I k e o A E O) as (OA & eo & OE & OD). apply in_or_app. right. eapply levels_closed; eauto.
Qed.

(** ** The loop *)
Lemma timeDiff_ok (P : nat -> Prop) (fs : list (ex K)) :
  (forall k f, P k -> isE k f -> nth_error fs (posOf k (g_ea g)) = Some (subst (prepare vs'_ t) f)) ->
  (forall k, P k -> In k (g_ea g)) ->
  forall ks dep (Q : nat -> Prop), List.length dep = List.length (g_ea g) -> (forall k, Q k -> In k (g_ea g)) ->
  (forall k f, Q k -> isE k f -> nth_error dep (posOf k (g_ea g)) = Some f) ->
  (forall k, In k ks -> exists e o, In k (g_ea g) /\ nth_error (g_e g) k = Some e /\ e_of e = Some o /\ P o) ->
  List.length (timeDiff k0 k1 t g fs ks dep) = List.length (g_ea g) /\
  forall k f, Q k \/ In k ks -> isE k f -> nth_error (timeDiff k0 k1 t g fs ks dep) (posOf k (g_ea g)) = Some f.
Proof.
  intros HP PA. induction ks as [|k ks IH]; intros dep Q L QA H S; [split; [exact L|]; intros k f [X|[]]; auto|].
  unfold timeDiff. cbn [fold_left]. destruct (S k (or_introl eq_refl)) as (e & o & A & E & O & Po). rewrite E, O.
  destruct (isE_ex o (PA o Po)) as (fo & Fo). rewrite (HP o fo Po Fo).
  match goal with |- context [upd ?u ?p ?d] => set (dep' := upd u p d) end.
  destruct (IH dep' (fun q => Q q \/ q = k)) as (L' & X).
  - unfold dep'. now rewrite upd_length.
  - intros q [Hq| ->]; auto.
  - intros q f Hq Fq. assert (QAq : In q (g_ea g)) by (destruct Hq as [Hq| ->]; auto). unfold dep'. destruct (Nat.eq_dec q k) as [->|N].
    + assert (PL := posOf_lt _ _ A). rewrite <- L in PL. destruct (lt_nth _ _ PL) as (y & Y). rewrite (upd_same _ _ _ y Y). f_equal.
      eapply isE_fun; [|exact Fq]. eapply isE_1; eauto.
    + rewrite upd_other; [|intro Z; apply posOf_inj in Z; auto]. apply H; auto. destruct Hq; tauto.
  - intros q Hq. apply S. cbn. auto.
  - unfold timeDiff in L', X. split; auto. intros q f [Hq|[<-|Hq]] Fq; apply X; auto.
Qed.
Lemma regenerate_ok : forall ls fs (P : nat -> Prop), ls <> [] -> List.length fs = List.length (g_ea g) -> (forall k, P k -> In k (g_ea g)) ->
  (forall k f, P k -> isE k f -> nth_error fs (posOf k (g_ea g)) = Some (subst (prepare vs'_ t) f)) ->
  stacked P ls ->
  let r := regenerate k0 k1 vs'_ t (match timeVar with Some _ => true | None => false end) g ls fs in
  List.length r = List.length (g_ea g) /\ forall k f, P k \/ In k (concat ls) -> isE k f -> nth_error r (posOf k (g_ea g)) = Some f.
Proof.
  induction ls as [|ks ls IH]; intros fs P NE L PA HP S; [tauto|]. cbn [stacked] in S. destruct S as (S1 & S2). cbn [regenerate].
  destruct (timeDiff_ok P fs HP PA ks (map strip fs) P) as (L1 & D1); [now rewrite map_length|auto| |auto|].
  { intros k f Pk Fk. rewrite nth_error_map, (HP k f Pk Fk). cbn [option_map]. now rewrite strip_prepare by (eapply isE_noTime; eauto). }
  assert (A1 : forall k, P k \/ In k ks -> In k (g_ea g)). { intros k [X|X]; auto. destruct (S1 k X) as (e & o & A & _). exact A. }
  destruct ls as [|ks2 ls].
  - cbn [regenerate]. split; [now rewrite map_length|]. intros k f X Fk. rewrite nth_error_map. cbn [concat] in X. rewrite app_nil_r in X.
    rewrite (D1 k f X Fk). cbn [option_map]. f_equal. apply subst_id. intros j J. assert (Lj := isE_lt k f Fk (A1 k X) j J). unfold t.
    destruct timeVar; cbn [negb andb]; auto. destruct (Nat.eqb_spec j (List.length vs'_)); [lia|auto].
  - cbn zeta. destruct (IH (map (subst (prepare vs'_ t)) (timeDiff k0 k1 t g fs ks (map strip fs))) (fun k => P k \/ In k ks)) as (L2 & D2); auto.
    + discriminate.
    + now rewrite map_length.
    + intros k f X Fk. rewrite nth_error_map, (D1 k f X Fk). reflexivity.
    + split; [exact L2|]. intros k f X Fk. apply D2; auto. destruct X as [X|X]; auto.
      change (concat (ks :: ks2 :: ls)) with (ks ++ concat (ks2 :: ls)) in X. apply in_app_or in X. tauto.
Qed.

Lemma generate_ok : match generate k0 k1 (n0 vs1) vs1 g fun_ with
  | Some (w, qs, res) => w = vs'_ /\ qs = eqInfo g /\ List.length res = List.length (g_ea g) /\
      m < List.length (g_ea g) /\
      forall k f, In k (g_ea g) -> isE k f -> nth_error res (posOf k (g_ea g)) = Some f
  | None => g_ea g = seq 0 m end.
Proof.
  unfold generate. rewrite Lm. rewrite (ie_ea _ _ _ _ _ _ _ _ I).
  destruct (levels (S (List.length (g_e g))) g (seq 0 m)) as [ls|] eqn:E.
  2:{ exfalso. revert E. apply levels_end with (a := 0); [|lia]. intros k Ki. apply in_seq in Ki. split; [lia|]. apply user_alive. lia. }
  assert (AI := all_in ls _ E). destruct ls as [|l0 ls].
  - cbn [concat] in AI. rewrite app_nil_r in AI.
    assert (N := eaND). assert (LE : List.length (g_ea g) <= m). { rewrite <- (seq_length m 0). apply NoDup_incl_length; auto. }
    rewrite <- (firstn_all2 (n := m) (g_ea g) LE). apply I.
  - split; [reflexivity|]. split; [reflexivity|].
    fold timeVar. fold (vs' vs1 g). fold t.
    assert (ST : stacked (fun k => k < m) (l0 :: ls)).
    { eapply levels_stacked; [|exact E]. intros k Ki. apply in_seq in Ki. split; [apply user_alive|]; lia. }
    assert (LG := va_n0 _ _ (ie_ea _ _ _ _ _ _ _ _ I)).
    match goal with |- context [regenerate k0 k1 vs'_ t ?u g ?a ?b] => destruct (regenerate_ok a b (fun k => k < m)) as (R1 & R2) end.
    + discriminate.
    + rewrite app_length, !map_length, repeat_length, Lm. lia.
    + apply user_alive.
    + intros k f Lk Fk. rewrite user_pos by auto. rewrite nth_error_app1 by (rewrite !map_length; lia).
      rewrite !nth_error_map. inversion Fk as [k' f1 L' E'|k' e' o' f1 KA' E' O' H1]; subst; [|assert (X := of_new _ _ _ E' O'); lia].
      rewrite E'. cbn [option_map]. rewrite strip_noTime; auto. apply (Vm k f E').
    + exact ST.
    + split; [exact R1|]. split.
      * cbn [levels] in E. destruct (dersOf g (seq 0 m)) as [|d l] eqn:Dd; [discriminate|].
        assert (X : In d (dersOf g (seq 0 m))) by (rewrite Dd; cbn; auto). apply dersOf_In in X as (k & e & Ki & Ek & D). apply in_seq in Ki.
        destruct (der_gt k e d) as (DA & _ & DM); auto; [apply user_alive; lia|].
        destruct (Nat.lt_ge_cases m (List.length (g_ea g))) as [|LL]; auto. exfalso. assert (HH := ie_ea _ _ _ _ _ _ _ _ I). rewrite firstn_all2 in HH by lia.
        rewrite HH in DA. apply in_seq in DA. lia.
      * intros k f A Fk. apply R2; auto. specialize (AI k A). apply in_app_or in AI as [AI|AI]; auto. left. apply in_seq in AI. lia.
Qed.

(** The information of equations *)
Lemma eqInfo_nth p : nth_error (eqInfo g) p = match nth_error (g_ea g) p with
  | Some k => Some match nth_error (g_e g) k with
      | Some e => match e_of e with Some o => mkEI p None (Some (posOf o (g_ea g))) | None => mkEI p (Some p) None end
      | None => mkEI p None None end
  | None => None end.
Proof.
  unfold eqInfo. rewrite nth_error_map.
  assert (X : forall (l : list nat) a, nth_error (combine (seq a (List.length l)) l) p = match nth_error l p with Some k => Some (a + p, k) | None => None end).
  { intro l. generalize p. induction l as [|x l IH]; intros [|p1] a; cbn; auto. - now rewrite Nat.add_0_r. - rewrite IH. now rewrite Nat.add_succ_r. }
  rewrite X. destruct (nth_error (g_ea g) p); reflexivity.
Qed.
Lemma good_eqInfo : goodEqs m (eqInfo g).
Proof.
  clear k0 k1 Vm Lm fun_.
  assert (SV := ie_sorted _ _ _ _ _ _ _ _ I). assert (FV := ie_ea _ _ _ _ _ _ _ _ I).
  split; [|split].
  - intros p q H. rewrite eqInfo_nth in H. destruct (nth_error (g_ea g) p) as [k|] eqn:Kp; [|discriminate].
    assert (A : In k (g_ea g)) by (eapply nth_error_In; eauto). destruct (alive_e _ _ _ _ _ I k A) as (e & E). rewrite E in H.
    destruct (Nat.lt_ge_cases p m) as [L|L].
    + assert (X := va_nth _ _ p FV L). assert (k = p) by congruence. subst k. destruct (ie_user _ _ _ _ _ _ _ _ I p L) as (e1 & _ & X1 & _ & _ & X4).
      assert (e1 = e) by congruence. subst e1. rewrite X4 in H. injection H as <-. cbn [q_id q_orig q_anti]. split; [reflexivity|]. split; [auto|lia].
    + assert (Lk : m <= k) by (apply (va_pos _ _ _ _ FV SV Kp); exact L). destruct (ie_new _ _ _ _ _ _ _ _ I k e Lk A E) as (o & O & Lo). rewrite O in H. injection H as <-. cbn.
      split; auto. split; [lia|]. intros _. split; auto. exists (posOf o (g_ea g)). split; auto.
      destruct (ie_of _ _ _ _ _ _ _ _ I k e o A E O) as (OA & _). eapply sorted_pos; eauto. now apply posOf_nth.
  - intros p p' q q' a H H' QA QA'. rewrite eqInfo_nth in H, H'. destruct (nth_error (g_ea g) p) as [k|] eqn:Kp; [|discriminate].
    destruct (nth_error (g_ea g) p') as [k'|] eqn:Kp'; [|discriminate].
    assert (A : In k (g_ea g)) by (eapply nth_error_In; eauto). destruct (alive_e _ _ _ _ _ I k A) as (e & E). rewrite E in H.
    assert (A' : In k' (g_ea g)) by (eapply nth_error_In; eauto). destruct (alive_e _ _ _ _ _ I k' A') as (e' & E'). rewrite E' in H'.
    destruct (e_of e) as [o|] eqn:O; injection H as <-; [|discriminate]. destruct (e_of e') as [o'|] eqn:O'; injection H' as <-; [|discriminate].
    cbn in QA, QA'. assert (PO : posOf o (g_ea g) = posOf o' (g_ea g)) by congruence.
    destruct (ie_of _ _ _ _ _ _ _ _ I k e o A E O) as (OA & eo & OE & OD). destruct (ie_of _ _ _ _ _ _ _ _ I k' e' o' A' E' O') as (OA' & eo' & OE' & OD').
    apply posOf_inj in PO; auto. subst o'. assert (k = k') by congruence. subst k'. rewrite <- (nth_posOf k (g_ea g) p), <- (nth_posOf k (g_ea g) p'); auto using eaND.
  - unfold eqInfo. rewrite map_length, combine_length, seq_length, Nat.min_id. apply va_n0, I.
Qed.

Variable cst : K -> R.
Variable F1 : nat -> nat -> R -> R.
Variable F2 : nat -> nat -> nat -> R -> R -> R.
Hypothesis c0 : cst k0 = 0%R.
Hypothesis c1 : cst k1 = 1%R.
Lemma derived_ok res : (forall k f, In k (g_ea g) -> isE k f -> nth_error res (posOf k (g_ea g)) = Some f) ->
  forall p q a e f x s, nth_error (eqInfo g) p = Some q -> q_anti q = Some a -> nth_error res p = Some e -> nth_error res a = Some f ->
  follows vs'_ x s -> regular cst F1 F2 (at_ x s) f ->
  derivable_pt_lim (fun s => ev cst F1 F2 (at_ x s) f) s (ev cst F1 F2 (at_ x s) e).
Proof.
  intros HR p q a e f x s Q QA E F Fo Rg. rewrite eqInfo_nth in Q. destruct (nth_error (g_ea g) p) as [k|] eqn:Kp; [|discriminate].
  assert (A : In k (g_ea g)) by (eapply nth_error_In; eauto). destruct (alive_e _ _ _ _ _ I k A) as (w & W). rewrite W in Q.
  destruct (e_of w) as [o|] eqn:O; injection Q as <-; [|discriminate]. cbn in QA. injection QA as <-.
  destruct (ie_of _ _ _ _ _ _ _ _ I k w o A W O) as (OA & eo & OE & OD). destruct (isE_ex o OA) as (fo & Ho). rewrite (HR o fo OA Ho) in F. injection F as <-.
  rewrite <- (nth_posOf k (g_ea g) p eaND Kp) in E. rewrite (HR k (der_ fo) A (isE_1 k w o fo A W O Ho)) in E. injection E as <-.
  apply der_ok; auto; [eapply isE_noTime; eauto|]. eapply isE_ready; eauto. congruence.
Qed.
End Main.

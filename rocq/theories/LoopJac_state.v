(** * The analysis of all the elements of a Jacobian with loops *)
From Coq Require Import List Bool Arith NArith Reals Sorted Lia Classical_Prop.
From Verif Require Import Graph_model Codegen_model CSyntax Range_model LoopCond_model LoopCond_spec LoopJac_model LoopJac_spec LoopJac_maps LoopJac_row.
Import ListNotations.
Local Open Scope nat_scope.

Lemma RInv_ext : forall md l row (Q Q' : reqs) r, (forall it j e, Q it j e <-> Q' it j e) -> RInv md l row Q r -> RInv md l row Q' r.
Proof.
  intros md l row Q Q' r E [W1 W2 A B C D E1 E2 E3]. split; auto.
  - intros. rewrite A. split; intros (j & H1 & H2); exists j; (split; [apply E, H1|exact H2]).
  - intros. rewrite B, E. tauto.
  - intros. rewrite C. split; intros (H1 & it & e & H2); (split; [exact H1|]); exists it, e; apply E, H2.
  - intros j t it e H1 H2 H3. apply E in H3. eapply E2; eauto.
Qed.

Lemma RInv0 : forall md l row, RInv md l row (fun _ _ _ => False) row0.
Proof.
  intros md l row. assert (W : wfpos (l_iters l) []) by (split; [constructor|discriminate]).
  split; cbn [row0 indexedPositions nonIndexedPositions tmpEvals loopEvalRow tks mget map]; auto.
  - intros. unfold pget. cbn [mget]. split; [discriminate|]. intros (j & [] & _).
  - intros. unfold pget. cbn [mget]. split; [discriminate|]. intros ([] & _).
  - intros j k. cbn. split; [tauto|]. intros (_ & it & e & []).
  - split; constructor.
Qed.

Section Step.
Variable md : model.
Variable l : loopM.
Hypothesis Hl : good_loop md l.
Variable tapeI : nat.
Variable row : list nat.
Hypothesis Hrow : nth_error (l_row l) tapeI = Some row.

Definition touched (it j : nat) : Prop := (exists t, In t row /\ entry (l_indexed l) t it = Some j) \/ direct l row j \/ exists k, via md l row j k.

Lemma row_good : NoDup row /\ forall t, In t row -> t < length (l_indexed l) + length (l_non l) + length (l_tmp l).
Proof. pose proof (g_sparsity md l Hl) as H. rewrite Forall_forall in H. exact (H row (nth_error_In _ _ Hrow)). Qed.

Lemma loopElement_spec : forall Q it j e r ev, RInv md l row Q r -> it < l_iters l ->
  (touched it j -> (exists e', Q it j e') -> loopElement md l tapeI it j e r ev = Throw) /\
  ((touched it j -> ~ exists e', Q it j e') ->
   exists r' ev', loopElement md l tapeI it j e r ev = Ok (r', ev') /\ RInv md l row (fun it' j' e' => Q it' j' e' \/ (it' = it /\ j' = j /\ e' = e)) r' /\
     (forall il j', In j' (ev il) -> In j' (ev' il)) /\
     (forall f k, m_free md = Some f -> via md l row j k -> In j (ev' (length (f_eqs f) + k))) /\
     (forall j' k, In k (tks r' j') -> (j' = j /\ via md l row j k) \/ In k (tks r j'))).
Proof.
  intros Q it j e r ev [W1 W2 A B C D E1 E2 E3] Hit. unfold loopElement. rewrite Hrow.
  set (nI := length (l_indexed l)) in *. set (nN := length (l_non l)) in *.
  destruct (indexed_fold l row it e (getIndexedTapeIndexes l it j) r (getIndexed_NoDup l it j) Hit W1) as [P1t P1o].
  assert (Hset : forall t, entry (l_indexed l) t it = Some j -> In t row -> (pget (indexedPositions r) t it <> None <-> exists e', Q it j e')).
  { intros t Ht Hr. destruct (pget (indexedPositions r) t it) as [e0|] eqn:E.
    - apply A in E. destruct E as (j' & Hq & He & _). split; [|discriminate]. intros _. exists e0. congruence.
    - split; [congruence|]. intros (e' & Hq). assert (pget (indexedPositions r) t it = Some e') by (apply A; exists j; auto). congruence. }
  assert (Nset : direct l row j \/ (exists k, via md l row j k) -> (pget (nonIndexedPositions r) j it <> None <-> exists e', Q it j e')).
  { intro Hd. destruct (pget (nonIndexedPositions r) j it) as [e0|] eqn:E.
    - apply B in E. split; [|discriminate]. intros _. exists e0. tauto.
    - split; [congruence|]. intros (e' & Hq). assert (pget (nonIndexedPositions r) j it = Some e') by (apply B; auto). congruence. }
  destruct (classic (exists t, In t (getIndexedTapeIndexes l it j) /\ In t row /\ pget (indexedPositions r) t it <> None)) as [Hb|Hb].
  { rewrite (P1t Hb). cbn [rbind]. split; [auto|]. intro H. exfalso. destruct Hb as (t & H1 & H2 & H3). apply getIndexed_In in H1. apply (Hset t H1 H2) in H3.
    apply H; [|exact H3]. left. exists t. auto. }
  destruct P1o as (r1 & R1 & R2 & R3 & R4 & R5 & R6 & R7).
  { intros t H1 H2. destruct (pget (indexedPositions r) t it) eqn:E; [|reflexivity]. exfalso. apply Hb. exists t. rewrite E. split; [exact H1|]. split; [exact H2|discriminate]. }
  rewrite R1. cbn [rbind]. assert (W2' : wfpos (l_iters l) (nonIndexedPositions r1)) by (rewrite R3; exact W2).
  destruct (nonIndexed_step l row it j e r1 Hit W2') as (S1 & S2 & S3). rewrite R3 in S1, S2.
  (* all temporaries of the row *)
  assert (Htmp : forall f, m_free md = Some f -> forall r2 jIn, wfpos (l_iters l) (nonIndexedPositions r2) -> tmpEvals r2 = tmpEvals r ->
    ((jIn = false -> (exists k, via md l row j k) -> pget (nonIndexedPositions r2) j it <> None -> rfold (temporary1 l f it j e) (filter (fun t => nI + nN <=? t) row) (r2, ev, jIn) = Throw) /\
     ((jIn = false -> (exists k, via md l row j k) -> pget (nonIndexedPositions r2) j it = None) ->
   exists r' ev' jIn', rfold (temporary1 l f it j e) (filter (fun t => nI + nN <=? t) row) (r2, ev, jIn) = Ok (r', ev', jIn') /\ wfpos (l_iters l) (nonIndexedPositions r') /\
     (keyed (tmpEvals r') /\ (forall j, StronglySorted lt (tks r' j))) /\
     indexedPositions r' = indexedPositions r2 /\
     (forall j' it' e', pget (nonIndexedPositions r') j' it' = Some e' <-> (j' = j /\ it' = it /\ e' = e /\ jIn = false /\ exists k, via md l row j k) \/ pget (nonIndexedPositions r2) j' it' = Some e') /\
     (forall j' k, In k (tks r' j') <-> (j' = j /\ via md l row j k) \/ In k (tks r j')) /\
     (forall t, In t (loopEvalRow r') <-> (exists k, viaT md l row j k t) \/ In t (loopEvalRow r2)) /\
     (forall il j', In j' (ev' il) <-> (j' = j /\ exists k, via md l row j k /\ il = length (f_eqs f) + k) \/ In j' (ev il))))).
  { intros f Hf r2 jIn Wr Et.
    assert (Hin : forall k t, viaT md l row j k t -> In t (filter (fun t => nI + nN <=? t) row)).
    { intros k t (H1 & H2 & _). apply filter_In. split; [exact H1|]. apply Nat.leb_le. exact H2. }
    assert (Es : (exists t k, In t (filter (fun t => nI + nN <=? t) row) /\ viaT md l row j k t) <-> (exists k, via md l row j k)).
    { split; [intros (t & k & _ & H); exists k, t; exact H|intros (k & t & H); exists t, k; split; [exact (Hin k t H)|exact H]]. }
    assert (Etk : forall j', tks r2 j' = tks r j') by (intro j'; unfold tks; rewrite Et; reflexivity).
    assert (D2 : keyed (tmpEvals r2) /\ (forall j, StronglySorted lt (tks r2 j))) by (split; [rewrite Et; apply D|intro j'; rewrite Etk; apply D]).
    destruct (temporary_fold md l Hl row f Hf it j e (filter (fun t => nI + nN <=? t) row) r2 ev jIn Hit Wr D2) as [T1 T2].
    { intros t Ht. apply filter_In in Ht. destruct Ht as [Ht1 Ht2]. apply Nat.leb_le in Ht2. split; [exact Ht1|]. split; [exact Ht2|]. apply row_good, Ht1. }
    cbv zeta in T1, T2. split; [intros H1 H2 H3; apply T1; auto; apply Es, H2|]. intro H. destruct T2 as (r' & ev' & j2 & Q1 & Q2 & Q3 & Q4 & Q5 & Q6 & Q7 & Q8).
    { destruct (classic (exists k, via md l row j k)) as [Hv|Hv]; [left; intro; apply H; assumption|right; rewrite Es; exact Hv]. }
    exists r', ev', j2. split; [exact Q1|]. split; [exact Q2|]. split; [exact Q3|]. split; [exact Q4|]. split; [|split; [|split]].
    - intros. rewrite Q5, Es. reflexivity.
    - intros j' k. rewrite Q6, Etk. split; (intros [(-> & t & H1)|H1]; [left; split; [reflexivity|]|auto]); [exists t; tauto|exists t; split; [exact (Hin _ _ H1)|exact H1]].
    - intro t. rewrite Q7. split; (intros [H1|H1]; [left|auto]); [tauto|destruct H1 as (k & H1); split; [exact (Hin _ _ H1)|exists k; exact H1]].
    - intros il j'. rewrite Q8. split; (intros [(-> & H1)|H1]; [left; split; [reflexivity|]|auto]).
      + destruct H1 as (t & k & _ & H1 & H2). exists k. split; [exists t; exact H1|exact H2].
      + destruct H1 as (k & (t & H1) & H2). exists t, k. split; [exact (Hin _ _ H1)|auto]. }
  (* the row at the end *)
  assert (Fin : forall r', wfpos (l_iters l) (nonIndexedPositions r') -> (keyed (tmpEvals r') /\ (forall j, StronglySorted lt (tks r' j))) -> indexedPositions r' = indexedPositions r1 ->
    (forall j' it' e', pget (nonIndexedPositions r') j' it' = Some e' <-> (j' = j /\ it' = it /\ e' = e /\ (direct l row j \/ exists k, via md l row j k)) \/ pget (nonIndexedPositions r) j' it' = Some e') ->
    (forall j' k, In k (tks r' j') <-> (j' = j /\ via md l row j k) \/ In k (tks r j')) ->
    (forall t, In t (loopEvalRow r1) -> In t (loopEvalRow r')) ->
    (direct l row j -> forall t, getNonIndexed l j = Some t -> In t (loopEvalRow r')) ->
    (forall k t, viaT md l row j k t -> In t (loopEvalRow r')) ->
    RInv md l row (fun it' j' e' => Q it' j' e' \/ (it' = it /\ j' = j /\ e' = e)) r').
  { intros r' F1 F2 F3 F4 F5 F6 F7 F8. split.
    - rewrite F3. exact R2.
    - exact F1.
    - intros t it' e'. rewrite F3, R5, A, getIndexed_In. split.
      + intros [(H1 & H2 & -> & ->)|(j' & H1 & H2)]; [exists j; auto|exists j'; auto].
      + intros (j' & [H1|(-> & -> & ->)] & H2 & H3); [right; exists j'; auto|left; auto].
    - intros j' it' e'. rewrite F4, B. split.
      + intros [(-> & -> & -> & H)|(H1 & H2)]; auto.
      + intros ([H1|(-> & -> & ->)] & H2); auto.
    - intros j' k. rewrite F5, C. split.
      + intros [(-> & H1)|(H1 & it' & e' & H2)]; (split; [exact H1|]); [exists it, e; auto|exists it', e'; auto].
      + intros (H1 & it' & e' & [H2|(-> & -> & ->)]); [right; split; [exact H1|exists it', e'; exact H2]|left; auto].
    - exact F2.
    - intros t Ht. rewrite F3 in Ht. apply R6 in Ht. apply F6, R7. destruct Ht as [Ht|Ht]; [auto|right; apply E1, Ht].
    - intros j' t it' e' H1 H2 [H3|(-> & -> & ->)]; [apply F6, R7; right; exact (E2 _ _ _ _ H1 H2 H3)|]. apply F7; [exists t; auto|exact H1].
    - intros j' k t H1 H2. apply F5 in H1. destruct H1 as [(-> & H1)|H1]; [exact (F8 k t H2)|]. apply F6, R7. right. exact (E3 _ _ _ H1 H2). }
  assert (Clean : (touched it j -> ~ exists e', Q it j e') -> direct l row j \/ (exists k, via md l row j k) -> pget (nonIndexedPositions r) j it = None).
  { intros H Hd. destruct (pget (nonIndexedPositions r) j it) as [e0|] eqn:E; [|reflexivity]. exfalso. assert (Hn : Some e0 <> None) by discriminate.
    apply (Nset Hd) in Hn. apply H; [|exact Hn]. right. exact Hd. }
  destruct (classic (direct l row j)) as [Hd|Hd].
  - destruct (pget (nonIndexedPositions r) j it) as [e0|] eqn:E0.
    + rewrite (S1 Hd) by discriminate. cbn [rbind]. split; [auto|]. intro H. discriminate (Clean H (or_introl Hd)).
    + clear S1. destruct (S2 Hd eq_refl) as (r2 & U1 & U2 & U3 & U4 & U5 & U6). rewrite U1. cbn [rbind fst snd]. split.
      { intros _ H. apply Nset in H; [contradiction|auto]. }
      intro Hc. assert (Hn : forall j' it' e', pget (nonIndexedPositions r2) j' it' = Some e' <-> (j' = j /\ it' = it /\ e' = e /\ (direct l row j \/ exists k, via md l row j k)) \/ pget (nonIndexedPositions r) j' it' = Some e').
      { intros j' it' e'. rewrite U5. destruct ((j' =? j) && (it' =? it)) eqn:E.
        - apply andb_prop in E. destruct E as [Ea Eb]. apply Nat.eqb_eq in Ea, Eb. subst. split; [intro H; inversion H; subst; left; auto|intros [(_ & _ & -> & _)|H]; [reflexivity|congruence]].
        - split; [auto|]. intros [(-> & -> & _)|H]; [|exact H]. rewrite !Nat.eqb_refl in E. discriminate. }
      destruct (m_free md) as [f|] eqn:Ef.
      * destruct (Htmp f eq_refl r2 true U2 ltac:(congruence)) as [_ T2]. destruct T2 as (r' & ev' & j2 & Q1 & Q2 & Q3 & Q4 & Q5 & Q6 & Q7 & Q8); [discriminate|].
        rewrite Q1. cbn [rbind fst snd]. exists r', ev'. split; [reflexivity|]. split; [|split; [|split]].
        { apply Fin; auto.
          - congruence.
          - intros. rewrite Q5, Hn. split; [intros [(_ & _ & _ & H & _)|H]; [discriminate|exact H]|auto].
          - intros t Ht. apply Q7. right. apply U6. auto.
          - intros _ t Ht. apply Q7. right. apply U6. auto.
          - intros k t Ht. apply Q7. left. exists k. exact Ht. }
        { intros. apply Q8. auto. }
        { intros f' k Ef' Hv. inversion Ef'; subst. apply Q8. left. split; [reflexivity|]. exists k. auto. }
        { intros j' k Hk. apply Q6, Hk. }
      * exists r2, ev. split; [reflexivity|]. assert (Nv : forall j k t, ~ viaT md l row j k t).
        { intros j' k t (_ & _ & _ & f & sp & Ev & _). congruence. }
        assert (Etk : forall j', tks r2 j' = tks r j') by (intro j'; unfold tks; rewrite U4, R4; reflexivity). split; [|split; [|split]].
        { apply Fin; auto.
          - split; [rewrite U4, R4; apply D|]. intro. rewrite Etk. apply D.
          - intros j' k. rewrite Etk. split; [auto|]. intros [(_ & t & H)|H]; [destruct (Nv _ _ _ H)|exact H].
          - intros t Ht. apply U6. auto.
          - intros _ t Ht. apply U6. auto.
          - intros k t Ht. destruct (Nv _ _ _ Ht). }
        { auto. }
        { discriminate. }
        { intros j' k Hk. rewrite Etk in Hk. auto. }
  - rewrite (S3 Hd). cbn [rbind fst snd]. destruct (m_free md) as [f|] eqn:Ef.
    + destruct (Htmp f eq_refl r1 false W2' R4) as [T1 T2]. rewrite R3 in T1, T2. destruct (classic ((exists k, via md l row j k) /\ pget (nonIndexedPositions r) j it <> None)) as [[Hv Hp]|Hx].
      * rewrite (T1 eq_refl Hv Hp). cbn [rbind]. split; [auto|]. intro H. destruct (Hp (Clean H (or_intror Hv))).
      * split.
        { intros Ht Hq. exfalso. destruct Ht as [(t & H1 & H2)|[H|H]]; [|contradiction|].
          - apply Hb. exists t. split; [apply getIndexed_In; exact H2|]. split; [exact H1|]. apply Hset; auto.
          - apply Hx. split; [exact H|]. apply Nset; auto. }
        intro Hc. destruct T2 as (r' & ev' & j2 & Q1 & Q2 & Q3 & Q4 & Q5 & Q6 & Q7 & Q8).
        { intros _ Hv. destruct (pget (nonIndexedPositions r) j it) eqn:E; [|reflexivity]. exfalso. apply Hx. split; [exact Hv|discriminate]. }
        rewrite Q1. cbn [rbind fst snd]. exists r', ev'. split; [reflexivity|]. split; [|split; [|split]].
        { apply Fin; auto.
          - intros. rewrite Q5. tauto.
          - intros t Ht. apply Q7. auto.
          - contradiction.
          - intros k t Ht. apply Q7. left. exists k. exact Ht. }
        { intros. apply Q8. auto. }
        { intros f' k Ef' Hv. inversion Ef'; subst. apply Q8. left. split; [reflexivity|]. exists k. auto. }
        { intros j' k Hk. apply Q6, Hk. }
    + assert (Nv : forall j k t, ~ viaT md l row j k t).
      { intros j' k t (_ & _ & _ & f & sp & Ev & _). congruence. }
      split.
      { intros Ht Hq. exfalso. destruct Ht as [(t & H1 & H2)|[H|(k & t & H)]]; [|contradiction|exact (Nv _ _ _ H)].
        apply Hb. exists t. split; [apply getIndexed_In; exact H2|]. split; [exact H1|]. apply Hset; auto. }
      intros _. exists r1, ev. split; [reflexivity|]. assert (Etk : forall j', tks r1 j' = tks r j') by (intro j'; unfold tks; rewrite R4; reflexivity).
      split; [|split; [|split]].
      { apply Fin; auto.
        - split; [rewrite R4; apply D|]. intro. rewrite Etk. apply D.
        - intros. rewrite R3. split; [auto|]. intros [(_ & _ & _ & [H|(k & t & H)])|H]; [contradiction|destruct (Nv _ _ _ H)|exact H].
        - intros j' k. rewrite Etk. split; [auto|]. intros [(_ & t & H)|H]; [destruct (Nv _ _ _ H)|exact H].
        - contradiction.
        - intros k t Ht. destruct (Nv _ _ _ Ht). }
      { auto. }
      { discriminate. }
      { intros j' k Hk. rewrite Etk in Hk. auto. }
Qed.
End Step.

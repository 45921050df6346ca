(** * What the analysis of one Jacobian element of a loop changes *)
From Coq Require Import List Bool Arith NArith Reals Sorted Lia.
From Verif Require Import Graph_model Codegen_model CSyntax Range_model LoopCond_model LoopCond_spec LoopJac_model LoopJac_spec LoopJac_maps.
Import ListNotations.
Local Open Scope nat_scope.

Definition tks (r : rowInfo) (j : nat) : list nat := match mget j (tmpEvals r) with Some ks => ks | None => [] end.

Section Row.
Variable md : model.
Variable l : loopM.
Hypothesis Hl : good_loop md l.
Let nI := length (l_indexed l).
Let nN := length (l_non l).
Variable row : list nat.

(** the equation pattern uses [j] as a non-indexed variable; by means of the temporary [k] *)
Definition direct (j : nat) : Prop := exists t, getNonIndexed l j = Some t /\ In t row.
Definition viaT (j k t : nat) : Prop :=
  In t row /\ nI + nN <= t /\ nth_error (l_tmp l) (t - nI - nN) = Some k /\
  exists f sp, m_free md = Some f /\ nth_error (f_row f) (length (f_eqs f) + k) = Some sp /\ In j sp.
Definition via (j k : nat) : Prop := exists t, viaT j k t.

(** [Q it j e]: the element of this equation in iteration [it] by [j] was requested, at [e] *)
Definition reqs : Type := nat -> nat -> nat -> Prop.
Record RInv (Q : reqs) (r : rowInfo) : Prop := {
  r_wi : wfpos (l_iters l) (indexedPositions r);
  r_wn : wfpos (l_iters l) (nonIndexedPositions r);
  r_i : forall t it e, pget (indexedPositions r) t it = Some e <-> exists j, Q it j e /\ entry (l_indexed l) t it = Some j /\ In t row;
  r_n : forall j it e, pget (nonIndexedPositions r) j it = Some e <-> Q it j e /\ (direct j \/ exists k, via j k);
  r_t : forall j k, In k (tks r j) <-> via j k /\ exists it e, Q it j e;
  r_ts : keyed (tmpEvals r) /\ forall j, StronglySorted lt (tks r j);
  r_e1 : forall t, In t (map fst (indexedPositions r)) -> In t (loopEvalRow r);
  r_e2 : forall j t it e, getNonIndexed l j = Some t -> In t row -> Q it j e -> In t (loopEvalRow r);
  r_e3 : forall j k t, In k (tks r j) -> viaT j k t -> In t (loopEvalRow r) }.

(** ** Indexed variables *)
Lemma indexed_fold : forall it e ts r, NoDup ts -> it < l_iters l -> wfpos (l_iters l) (indexedPositions r) ->
  ((exists t, In t ts /\ In t row /\ pget (indexedPositions r) t it <> None) -> rfold (indexed1 l row it e) ts r = Throw) /\
  ((forall t, In t ts -> In t row -> pget (indexedPositions r) t it = None) ->
   exists r', rfold (indexed1 l row it e) ts r = Ok r' /\ wfpos (l_iters l) (indexedPositions r') /\
     nonIndexedPositions r' = nonIndexedPositions r /\ tmpEvals r' = tmpEvals r /\
     (forall t it' e', pget (indexedPositions r') t it' = Some e' <-> (In t ts /\ In t row /\ it' = it /\ e' = e) \/ pget (indexedPositions r) t it' = Some e') /\
     (forall t, In t (map fst (indexedPositions r')) <-> (In t ts /\ In t row) \/ In t (map fst (indexedPositions r))) /\
     (forall t, In t (loopEvalRow r') <-> (In t ts /\ In t row) \/ In t (loopEvalRow r))).
Proof.
  intros it e. induction ts as [|t ts IH]; intros r Nd Hit W; cbn [rfold].
  - split; [intros (t & [] & _)|]. intros _. exists r. split; [reflexivity|]. cbn [In]. intuition.
  - inversion Nd as [|? ? Nt Nd']; subst. unfold indexed1 at 1 3. destruct (mem t row) eqn:Em.
    + apply mem_In in Em. pose proof (place_spec (l_iters l) it t e (indexedPositions r) W Hit) as P. destruct (pget (indexedPositions r) t it) as [e0|] eqn:Ep.
      * rewrite P. cbn [rbind]. split; [auto|]. intro H. specialize (H t (or_introl eq_refl) Em). congruence.
      * destruct P as (m' & P1 & P2 & P3 & P4). rewrite P1. cbn [rbind].
        destruct (IH (mkRow m' (nonIndexedPositions r) (tmpEvals r) (sins t (loopEvalRow r))) Nd' Hit P2) as [I1 I2]. cbn [indexedPositions nonIndexedPositions tmpEvals loopEvalRow] in I1, I2.
        assert (Ho : forall t', t' <> t -> forall it', pget m' t' it' = pget (indexedPositions r) t' it').
        { intros t' Ht it'. rewrite P3. apply Nat.eqb_neq in Ht. rewrite Ht. reflexivity. }
        split.
        { intros (t' & Ht' & Hr & Hp). apply I1. destruct Ht' as [->|Ht']; [congruence|]. exists t'. split; [exact Ht'|]. split; [exact Hr|]. rewrite Ho; [exact Hp|]. intros ->. contradiction. }
        intro H. destruct I2 as (r' & R1 & R2 & R3 & R4 & R5 & R6 & R7).
        { intros t' Ht' Hr. rewrite Ho; [apply H; [right; exact Ht'|exact Hr]|]. intros ->. contradiction. }
        exists r'. split; [exact R1|]. split; [exact R2|]. split; [exact R3|]. split; [exact R4|]. split; [|split].
        { intros t' it' e'. rewrite R5, P3. cbn [In]. destruct ((t' =? t) && (it' =? it)) eqn:E.
          - apply andb_prop in E. destruct E as [E1 E2]. apply Nat.eqb_eq in E1, E2. subst. split.
            + intros [(H1 & _)|H1]; [contradiction|]. left. inversion H1; subst. auto.
            + intros [(H1 & H2 & H3 & H4)|H1]; [subst; auto|congruence].
          - split.
            + intros [(H1 & H2)|H1]; [left; tauto|auto].
            + intros [([H1|H1] & H2 & H3 & H4)|H1]; auto. subst. rewrite !Nat.eqb_refl in E. discriminate. }
        { intro t'. rewrite R6, P4. cbn [In]. split; [intros [(H1 & H2)|[->|H1]]; auto; left; auto|intros [([->|H1] & H2)|H1]; auto]. }
        { intro t'. rewrite R7, sins_In. cbn [In]. split; [intros [(H1 & H2)|[->|H1]]; auto; left; auto|intros [([->|H1] & H2)|H1]; auto]. }
    + apply mem_nIn in Em. cbn [rbind]. destruct (IH r Nd' Hit W) as [I1 I2]. split.
      * intros (t' & [->|Ht'] & Hr & Hp); [contradiction|]. apply I1. exists t'. auto.
      * intro H. destruct I2 as (r' & R1 & R2 & R3 & R4 & R5 & R6 & R7). { intros t' Ht'. apply H. right. exact Ht'. }
        exists r'. split; [exact R1|]. split; [exact R2|]. split; [exact R3|]. split; [exact R4|].
        assert (Ei : forall t', (In t' (t :: ts) /\ In t' row) <-> (In t' ts /\ In t' row)) by (intro t'; cbn [In]; split; [intros ([->|H1] & H2); [contradiction|auto]|tauto]).
        split; [|split].
        { intros t' it' e'. rewrite R5. specialize (Ei t'). tauto. }
        { intro t'. rewrite R6, Ei. tauto. }
        { intro t'. rewrite R7, Ei. tauto. }
Qed.

(** ** Non-indexed variables *)
Lemma nonIndexed_step : forall it j e r, it < l_iters l -> wfpos (l_iters l) (nonIndexedPositions r) ->
  (direct j -> pget (nonIndexedPositions r) j it <> None -> nonIndexed1 l row it j e r = Throw) /\
  (direct j -> pget (nonIndexedPositions r) j it = None ->
   exists r', nonIndexed1 l row it j e r = Ok (r', true) /\ wfpos (l_iters l) (nonIndexedPositions r') /\
     indexedPositions r' = indexedPositions r /\ tmpEvals r' = tmpEvals r /\
     (forall j' it', pget (nonIndexedPositions r') j' it' = if (j' =? j) && (it' =? it) then Some e else pget (nonIndexedPositions r) j' it') /\
     (forall t, In t (loopEvalRow r') <-> getNonIndexed l j = Some t \/ In t (loopEvalRow r))) /\
  (~ direct j -> nonIndexed1 l row it j e r = Ok (r, false)).
Proof.
  intros it j e r Hit W. unfold nonIndexed1, direct. destruct (getNonIndexed l j) as [t|] eqn:Eg.
  - destruct (mem t row) eqn:Em.
    + apply mem_In in Em. pose proof (place_spec (l_iters l) it j e (nonIndexedPositions r) W Hit) as P. destruct (pget (nonIndexedPositions r) j it) as [e0|] eqn:Ep.
      * rewrite P. cbn [rbind]. split; [auto|]. split; [discriminate|]. intro H. exfalso. apply H. exists t. auto.
      * destruct P as (m' & P1 & P2 & P3 & P4). rewrite P1. cbn [rbind]. split; [congruence|]. split; [|intro H; exfalso; apply H; exists t; auto].
        intros _ _. eexists. split; [reflexivity|]. cbn [indexedPositions nonIndexedPositions tmpEvals loopEvalRow]. split; [exact P2|]. split; [reflexivity|]. split; [reflexivity|]. split; [exact P3|].
        intro t'. rewrite sins_In. intuition congruence.
    + apply mem_nIn in Em. assert (Hn : ~ exists t0, Some t = Some t0 /\ In t0 row) by (intros (t0 & E & Hi); inversion E; subst; contradiction).
      split; [intro H; contradiction|]. split; [intro H; contradiction|reflexivity].
  - assert (Hn : ~ exists t0 : nat, @None nat = Some t0 /\ In t0 row) by (intros (t0 & E & _); discriminate).
    split; [intro H; contradiction|]. split; [intro H; contradiction|reflexivity].
Qed.

(** ** Temporaries *)
Variable f : freeM.
Hypothesis Hf : m_free md = Some f.
(** [t] is a temporary of the row which depends on [j] *)
Lemma via_mem : forall j k t sp, nI + nN <= t -> nth_error (l_tmp l) (t - nI - nN) = Some k -> nth_error (f_row f) (length (f_eqs f) + k) = Some sp -> In t row -> (viaT j k t <-> In j sp).
Proof.
  intros j k t sp H0 H1 H2 H3. unfold viaT. split.
  - intros (_ & _ & _ & f' & sp' & E1 & E2 & E3). rewrite Hf in E1. inversion E1; subst. congruence.
  - intro H. split; [exact H3|]. split; [exact H0|]. split; [exact H1|]. exists f, sp. auto.
Qed.
Lemma viaT_k : forall j k k' t, viaT j k t -> viaT j k' t -> k = k'.
Proof. intros j k k' t (_ & _ & H & _) (_ & _ & H' & _). congruence. Qed.
Lemma viaT_t : forall j j' k t t', viaT j k t -> viaT j' k t' -> t = t'.
Proof.
  intros j j' k t t' (_ & H0 & H & _) (_ & H0' & H' & _).
  assert (t - nI - nN = t' - nI - nN); [|lia]. eapply NoDup_nth_error; [exact (g_tmp md l Hl)| |congruence]. apply nth_error_Some. congruence.
Qed.

Lemma temporary_fold : forall it j e ts r ev jIn, it < l_iters l -> wfpos (l_iters l) (nonIndexedPositions r) ->
  keyed (tmpEvals r) /\ (forall j, StronglySorted lt (tks r j)) ->
  (forall t, In t ts -> In t row /\ nI + nN <= t /\ t < nI + nN + length (l_tmp l)) ->
  let some := exists t k, In t ts /\ viaT j k t in
  (jIn = false -> some -> pget (nonIndexedPositions r) j it <> None -> rfold (temporary1 l f it j e) ts (r, ev, jIn) = Throw) /\
  ((jIn = false -> pget (nonIndexedPositions r) j it = None) \/ ~ some ->
   exists r' ev' jIn', rfold (temporary1 l f it j e) ts (r, ev, jIn) = Ok (r', ev', jIn') /\ wfpos (l_iters l) (nonIndexedPositions r') /\
     (keyed (tmpEvals r') /\ (forall j, StronglySorted lt (tks r' j))) /\
     indexedPositions r' = indexedPositions r /\
     (forall j' it' e', pget (nonIndexedPositions r') j' it' = Some e' <-> (j' = j /\ it' = it /\ e' = e /\ jIn = false /\ some) \/ pget (nonIndexedPositions r) j' it' = Some e') /\
     (forall j' k, In k (tks r' j') <-> (j' = j /\ exists t, In t ts /\ viaT j k t) \/ In k (tks r j')) /\
     (forall t, In t (loopEvalRow r') <-> (In t ts /\ exists k, viaT j k t) \/ In t (loopEvalRow r)) /\
     (forall il j', In j' (ev' il) <-> (j' = j /\ exists t k, In t ts /\ viaT j k t /\ il = length (f_eqs f) + k) \/ In j' (ev il))).
Proof.
  intros it j e. induction ts as [|t ts IH]; intros r ev jIn Hit W K Hts; cbv zeta; cbn [rfold].
  - split; [intros _ (t & k & [] & _)|]. intros _. exists r, ev, jIn. split; [reflexivity|]. split; [exact W|]. split; [exact K|]. split; [reflexivity|]. split; [|split; [|split]].
    + intros. split; [auto|]. intros [(_ & _ & _ & _ & t & k & [] & _)|H]; exact H.
    + intros. split; [auto|]. intros [(_ & t & [] & _)|H]; exact H.
    + intros. cbn [In]. tauto.
    + intros. split; [auto|]. intros [(_ & t & k & [] & _)|H]; exact H.
  - destruct (Hts t (or_introl eq_refl)) as (T1 & T2 & T3). assert (Hts' : forall t, In t ts -> In t row /\ nI + nN <= t /\ t < nI + nN + length (l_tmp l)) by (intros; apply Hts; right; assumption).
    unfold temporary1 at 1 3. fold nI nN. destruct (nth_error (l_tmp l) (t - nI - nN)) as [k|] eqn:Ek; [|apply nth_error_None in Ek; lia].
    destruct (g_temps md l Hl k (nth_error_In _ _ Ek)) as (f' & Ef & Hk). rewrite Hf in Ef. inversion Ef; subst f'.
    destruct (nth_error (f_row f) (length (f_eqs f) + k)) as [sp|] eqn:Es; [|apply nth_error_None in Es; lia].
    pose proof (via_mem j k t sp T2 Ek Es T1) as Hv. destruct (mem j sp) eqn:Em.
    + apply mem_In in Em. apply Hv in Em. clear Hv.
      assert (Hu : forall k', viaT j k' t -> k' = k) by (intros k' H; exact (viaT_k _ _ _ _ H Em)).
      set (r1 := fun m => mkRow (indexedPositions r) m (mput j (sins k (match mget j (tmpEvals r) with Some ks => ks | None => [] end)) (tmpEvals r)) (sins t (loopEvalRow r))).
      set (ev1 := upd (length (f_eqs f) + k) (sins j (ev (length (f_eqs f) + k))) ev).
      assert (Ht1 : forall m j', tks (r1 m) j' = if j' =? j then sins k (tks r j) else tks r j').
      { intros m j'. unfold tks, r1. cbn [tmpEvals]. rewrite mget_put by apply K. destruct (j' =? j); reflexivity. }
      assert (K1 : forall m, keyed (tmpEvals (r1 m)) /\ (forall j, StronglySorted lt (tks (r1 m) j))).
      { intro m. split; [apply mput_keyed, K|]. intro j'. rewrite Ht1. destruct (j' =? j); [apply sins_sorted, K|apply K]. }
      assert (Hev : forall il j', In j' (ev1 il) <-> (j' = j /\ il = length (f_eqs f) + k) \/ In j' (ev il)).
      { intros il j'. unfold ev1, upd. destruct (il =? length (f_eqs f) + k) eqn:E.
        - apply Nat.eqb_eq in E. subst il. rewrite sins_In. intuition.
        - apply Nat.eqb_neq in E. intuition. }
      (* what follows once the position is set *)
      assert (Go : forall m, wfpos (l_iters l) m -> (forall j' it' e', pget m j' it' = Some e' <-> (j' = j /\ it' = it /\ e' = e /\ jIn = false) \/ pget (nonIndexedPositions r) j' it' = Some e') ->
        exists r' ev' jIn', rfold (temporary1 l f it j e) ts (r1 m, ev1, true) = Ok (r', ev', jIn') /\ wfpos (l_iters l) (nonIndexedPositions r') /\
     (keyed (tmpEvals r') /\ (forall j, StronglySorted lt (tks r' j))) /\
     indexedPositions r' = indexedPositions r /\
     (forall j' it' e', pget (nonIndexedPositions r') j' it' = Some e' <-> (j' = j /\ it' = it /\ e' = e /\ jIn = false /\ exists t0 k, In t0 (t :: ts) /\ viaT j k t0) \/ pget (nonIndexedPositions r) j' it' = Some e') /\
     (forall j' k, In k (tks r' j') <-> (j' = j /\ exists t0, In t0 (t :: ts) /\ viaT j k t0) \/ In k (tks r j')) /\
     (forall t0, In t0 (loopEvalRow r') <-> (In t0 (t :: ts) /\ exists k, viaT j k t0) \/ In t0 (loopEvalRow r)) /\
     (forall il j', In j' (ev' il) <-> (j' = j /\ exists t0 k, In t0 (t :: ts) /\ viaT j k t0 /\ il = length (f_eqs f) + k) \/ In j' (ev il))).
      { intros m Wm Hm. destruct (IH (r1 m) ev1 true Hit Wm (K1 m) Hts') as [_ I2]. destruct I2 as (r' & ev' & j2 & R1 & R2 & R3 & R4 & R5 & R6 & R7 & R8); [left; discriminate|].
        exists r', ev', j2. split; [exact R1|]. split; [exact R2|]. split; [exact R3|]. split; [exact R4|]. split; [|split; [|split]].
        - intros j' it' e'. rewrite R5. unfold r1. cbn [nonIndexedPositions]. rewrite Hm. split.
          + intros [(_ & _ & _ & H & _)|[(-> & -> & -> & ->)|H]]; [discriminate| |auto]. left. repeat split; auto. exists t, k. split; [left; reflexivity|exact Em].
          + intros [(-> & -> & -> & -> & _)|H]; auto. right. left. auto.
        - intros j' k'. rewrite R6, Ht1. destruct (j' =? j) eqn:E.
          + apply Nat.eqb_eq in E. subst j'. rewrite sins_In. split.
            * intros [(_ & t' & H1 & H2)|[->|H]]; auto; left; (split; [reflexivity|]); [exists t'; split; [right; exact H1|exact H2]|exists t; split; [left; reflexivity|exact Em]].
            * intros [(_ & t' & [<-|H1] & H2)|H]; [right; left; exact (Hu k' H2)|left; split; [reflexivity|exists t'; auto]|auto].
          + apply Nat.eqb_neq in E. tauto.
        - intro t'. rewrite R7. unfold r1. cbn [loopEvalRow]. rewrite sins_In. cbn [In]. split.
          + intros [(H1 & H2)|[->|H]]; auto. left. split; [auto|]. exists k. exact Em.
          + intros [([->|H1] & H2)|H]; auto.
        - intros il j'. rewrite R8, Hev. split.
          + intros [(-> & t' & k' & H1 & H2 & H3)|[(-> & ->)|H]]; auto; left; (split; [reflexivity|]); [exists t', k'; split; [right; exact H1|auto]|exists t, k; split; [left; reflexivity|auto]].
          + intros [(-> & t' & k' & [<-|H1] & H2 & H3)|H]; auto.
            * rewrite (Hu k' H2) in H3. auto.
            * left. split; [reflexivity|]. exists t', k'. auto. }
      destruct jIn.
      * cbn [rbind]. fold ev1. change (mkRow _ (nonIndexedPositions r) _ _) with (r1 (nonIndexedPositions r)). split; [discriminate|]. intros _. apply Go; [exact W|]. intros. intuition discriminate.
      * pose proof (place_spec (l_iters l) it j e (nonIndexedPositions r) W Hit) as P. destruct (pget (nonIndexedPositions r) j it) as [e0|] eqn:Ep.
        { rewrite P. cbn [rbind]. split; [auto|]. intros [H|H]; [specialize (H eq_refl); congruence|]. exfalso. apply H. exists t, k. split; [left; reflexivity|exact Em]. }
        destruct P as (m' & P1 & P2 & P3 & P4). rewrite P1. cbn [rbind]. fold ev1. change (mkRow _ m' _ _) with (r1 m'). split; [congruence|]. intros _. apply Go; [exact P2|].
        intros j' it' e'. rewrite P3. destruct ((j' =? j) && (it' =? it)) eqn:E.
        { apply andb_prop in E. destruct E as [E1 E2]. apply Nat.eqb_eq in E1, E2. subst. split; [intro H; inversion H; subst; auto|intros [(_ & _ & -> & _)|H]; congruence]. }
        split; [auto|]. intros [(-> & -> & _)|H]; [|exact H]. rewrite !Nat.eqb_refl in E. discriminate.
    + apply mem_nIn in Em. cbn [rbind]. destruct (IH r ev jIn Hit W K Hts') as [I1 I2]. cbv zeta in I1, I2.
      assert (Hno : forall k', ~ viaT j k' t). { intros k' H. apply Em, Hv. destruct H as (H1 & H2 & H3 & H4). assert (k' = k) by (fold nI nN in H3; congruence). subst k'. split; auto. }
      assert (Es1 : (exists t0 k0, In t0 (t :: ts) /\ viaT j k0 t0) <-> (exists t0 k0, In t0 ts /\ viaT j k0 t0)).
      { split; intros (t0 & k0 & H1 & H2); exists t0, k0; [destruct H1 as [<-|H1]; [destruct (Hno k0 H2)|auto]|split; [right; exact H1|exact H2]]. }
      split; [intros H1 H2 H3; apply I1; auto; apply Es1, H2|]. intro H. destruct I2 as (r' & ev' & j2 & R1 & R2 & R3 & R4 & R5 & R6 & R7 & R8); [rewrite <- Es1; exact H|].
      exists r', ev', j2. split; [exact R1|]. split; [exact R2|]. split; [exact R3|]. split; [exact R4|]. split; [|split; [|split]].
      * intros j' it' e'. rewrite R5, Es1. tauto.
      * intros j' k'. rewrite R6. split; (intros [(-> & t' & H1 & H2)|H']; [|auto]); left; (split; [reflexivity|]); exists t'; [split; [right; exact H1|exact H2]|].
        destruct H1 as [<-|H1]; [destruct (Hno k' H2)|auto].
      * intro t'. rewrite R7. split; (intros [(H1 & k' & H2)|H']; [|auto]); left; [split; [right; exact H1|exists k'; exact H2]|].
        destruct H1 as [<-|H1]; [destruct (Hno k' H2)|split; [exact H1|exists k'; exact H2]].
      * intros il j'. rewrite R8. split; (intros [(-> & t' & k' & H1 & H2)|H']; [|auto]); left; (split; [reflexivity|]); exists t', k'; [split; [right; exact H1|exact H2]|].
        destruct H1 as [<-|H1]; [destruct (Hno k' (proj1 H2))|auto].
Qed.
End Row.

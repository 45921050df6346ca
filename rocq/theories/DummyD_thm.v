(** * Dummy derivatives: theorems *)
From Coq Require Import List Arith Bool ZArith Permutation Sorted Lia.
From Verif Require Import DaeGen_model DaeGen_spec DaeGen_lists DaeGen_inv DaeGen_build DaeGen_info DaeGen_thm.
From Verif Require Import Compare_model DummyD_model DummyD_spec DummyD_select DummyD_info DummyD_regen.
Import ListNotations.
Local Open Scope nat_scope.

(** ** The graph *)
(** The graphs which the index reduction makes have the links that the selection needs. *)
Theorem C60_graph : forall vs m sparsity vs1 g0 os g,
  validInfo vs -> allUsed vs m sparsity -> build m vs sparsity = Some (vs1, g0) ->
  allowedAll (List.length vs1) (List.length (timeDependent vs1)) os g0 ->
  run (List.length vs1) (List.length (timeDependent vs1)) os g0 = Some g -> linked g.
Proof.
  intros vs m sparsity vs1 g0 os g V U B AL R.
  assert (I : inv (n vs1) (n0 vs1) m (g_v g0) (g_e g0) no3 no3 g) by (eapply run_inv; eauto; exact (initial_inv vs vs1 m sparsity g0 V B)).
  destruct (build_facts vs vs1 m sparsity g0 V B) as (Inf & _ & ND & TI & TA & G0).
  split; [|split].
  - split; [apply sorted_NoDup, (iv_sorted _ _ _ _ _ _ _ _ I)|]. split; [|split].
    + intros k a Ik E. unfold vAnti in E. destruct (nth_error (g_v g) k) as [v|] eqn:Ev; [|discriminate].
      destruct (iv_anti _ _ _ _ _ _ _ _ I k v a Ik Ev E) as (Ia & w & Ew & D). split; [exact Ia|]. unfold vDer. now rewrite Ew.
    + intros k d Ik E. unfold vDer in E. destruct (nth_error (g_v g) k) as [v|] eqn:Ev; [|discriminate].
      destruct (iv_der _ _ _ _ _ _ _ _ I k v d Ik Ev E) as (Ia & w & Ew & D). split; [exact Ia|]. unfold vAnti. now rewrite Ew.
    + destruct V as (_ & _ & _ & (rank & RK) & _).
      set (M := S (list_max (map rank (timeDependent vs1)))).
      exists (fun k => match nth_error (timeDependent vs1) k with Some t => rank t | None => M + k end).
      intros k a Ik E. unfold vAnti in E. destruct (nth_error (g_v g) k) as [v|] eqn:Ev; [|discriminate].
      destruct (lt_dec k (n0 vs1)) as [L|GE].
      * destruct (iv_user _ _ _ _ _ _ _ _ I k L) as (v' & v0 & E1 & E2 & T & A). assert (v' = v) by congruence. subst v'.
        rewrite G0 in E2. cbn [g_v] in E2. rewrite node_nth in E2. destruct (nth_error (timeDependent vs1) k) as [t|] eqn:Et; [|discriminate].
        injection E2 as <-. cbn [v_anti] in A. rewrite A in E. destruct (antiOf vs1 t) as [b|] eqn:Eb; [|discriminate]. cbn [option_map] in E.
        injection E as <-. assert (It : In t (timeDependent vs1)) by (eapply nth_error_In; eauto). rewrite (posOf_nth _ _ (TA t b It Eb)).
        unfold antiOf in Eb. destruct (nth_error vs1 t) as [w|] eqn:Ew; [|discriminate].
        destruct (b_nth _ _ Inf t w Ew) as (_ & _ & u & Eu & Au & _). apply (RK t u b Eu). congruence.
      * assert (NT : nth_error (timeDependent vs1) k = None) by (apply nth_error_None; unfold n0, ts in GE; lia). rewrite NT.
        apply In_nth_error in Ik as (p & Ep). assert (LP : n0 vs1 <= p).
        { destruct (le_lt_dec (n0 vs1) p) as [|Lp]; [easy|]. assert (X := va_nth _ _ p (iv_va _ _ _ _ _ _ _ _ I) Lp). assert (p = k) by congruence. lia. }
        destruct (iv_new _ _ _ _ _ _ _ _ I p k v LP Ep Ev) as (_ & b & Eb & Lb). assert (b = a) by congruence. subst b.
        destruct (nth_error (timeDependent vs1) a) as [t|] eqn:Et; [|lia].
        assert (IM : In (rank t) (map rank (timeDependent vs1))) by (apply in_map; eapply nth_error_In; eauto).
        assert (X := proj1 (list_max_le (map rank (timeDependent vs1)) _) (le_n _)). rewrite Forall_forall in X. specialize (X _ IM). unfold M. lia.
  - split; [apply sorted_NoDup, (ie_sorted _ _ _ _ _ _ _ _ I)|]. split; [|split].
    + intros k a Ik E. unfold eOf in E. destruct (nth_error (g_e g) k) as [v|] eqn:Ev; [|discriminate].
      destruct (ie_of _ _ _ _ _ _ _ _ I k v a Ik Ev E) as (Ia & w & Ew & D). split; [exact Ia|]. unfold eDer. now rewrite Ew.
    + intros k d Ik E. unfold eDer in E. destruct (nth_error (g_e g) k) as [v|] eqn:Ev; [|discriminate].
      destruct (ie_der _ _ _ _ _ _ _ _ I k v d Ik Ev E) as (Ia & w & Ew & D). split; [exact Ia|]. unfold eOf. now rewrite Ew.
    + exists (fun k => k). intros k a Ik E. unfold eOf in E. destruct (nth_error (g_e g) k) as [v|] eqn:Ev; [|discriminate].
      destruct (lt_dec k m) as [L|GE].
      * destruct (ie_user _ _ _ _ _ _ _ _ I k L) as (e & _ & E1 & _ & _ & E2). congruence.
      * destruct (ie_new _ _ _ _ _ _ _ _ I k v ltac:(lia) Ik Ev) as (o & Eo & Lo). congruence.
  - exact (ie_lt _ _ _ _ _ _ _ _ I).
Qed.
Print Assumptions C60_graph.

(** ** The selection *)
(** If nothing is thrown, there are as many dummy derivatives as equations which were made by differentiation, all of them
    different, and all of them derivatives of other variables: the new model has as many equations as unknowns. *)
Theorem C60_selection : forall debug nz avoid avoidAlg algebraic qr srt g ds,
  linked g -> qrOk qr -> sortOk srt ->
  addDummies debug nz avoid avoidAlg algebraic qr g srt = Some (ROk ds) ->
  NoDup ds /\ (forall d, In d ds -> In d (g_va g) /\ vAnti g d <> None) /\
  List.length ds = List.length (filter (fun i => some (eOf g i)) (g_ea g)).
Proof.
  intros debug nz avoid avoidAlg algebraic qr srt g ds LK Q SO H. unfold addDummies in H.
  assert (RE : isRound (g_ea g) (eOf g) (eDer g) 0 (eqs0 g)) by (apply round0; [apply LK|reflexivity]).
  assert (RV : isRound (g_va g) (vAnti g) (vDer g) 0 (vars0 g srt)) by (apply round0; [apply LK|apply SO]).
  destruct (rounds_ok debug nz avoid avoidAlg algebraic qr Q g LK (S (List.length (g_e g))) 0 _ _ [] ds RE RV) as (new & E & ND & DS & rest & L & NR & C); [constructor|easy|exact H|].
  split; [exact ND|]. split; [exact DS|]. cbn [app] in E. subst new. rewrite L, <- app_length. apply Permutation_length, NoDup_Permutation.
  - assert (DJ : forall x, In x (eqs0 g) -> ~ In x rest).
    { intros x Ix Iy. apply (proj2 RE) in Ix as (_ & _ & Lv). apply C in Iy as (_ & _ & k' & Lk & Lv').
      assert (k' = 0) by (eapply level_uniq; eauto). lia. }
    assert (NE := proj1 RE). revert NE DJ. generalize (eqs0 g). intro l. induction l as [|x l IH]; intros NE DJ; [exact NR|]. inversion NE; subst.
    cbn [app]. constructor.
    + intro I. apply in_app_or in I as [I|I]; [easy|]. now apply (DJ x (or_introl eq_refl)).
    + apply IH; [easy|]. intros y I. apply DJ. now right.
  - apply NoDup_filter. apply LK.
  - intro i. rewrite in_app_iff, filter_In, C, (proj2 RE i). split.
    + intros [(A & B & _)|(A & B & _)]; (split; [exact A|]); now destruct (eOf g i).
    + intros (A & B). assert (N : eOf g i <> None) by (now destruct (eOf g i)).
      destruct (has_level _ _ _ (proj1 (proj2 LK)) i A) as (k & _ & Lv). destruct k as [|k]; [now left|right].
      split; [easy|]. split; [easy|]. exists (S k). split; [lia|easy].
Qed.
Print Assumptions C60_selection.

(** The rounds end and no index is past the end of the pivots. *)
Theorem C60_selection_ends : forall debug nz avoid avoidAlg algebraic qr srt g,
  linked g -> qrOk qr ->
  addDummies debug nz avoid avoidAlg algebraic qr g srt <> None /\ addDummies debug nz avoid avoidAlg algebraic qr g srt <> Some RBad.
Proof.
  intros debug nz avoid avoidAlg algebraic qr srt g LK Q. split; [|now apply rounds_good]. unfold addDummies.
  apply (rounds_end debug nz avoid avoidAlg algebraic qr g LK _ 0); [apply round0; [apply LK|reflexivity]| |discriminate].
  destruct LK as (_ & (ND & _) & LT). assert (List.length (g_ea g) <= List.length (seq 0 (List.length (g_e g)))); [|rewrite seq_length in *; lia].
  apply NoDup_incl_length; [exact ND|]. intros i I. apply in_seq. specialize (LT i I). lia.
Qed.
Print Assumptions C60_selection_ends.

(** One round: as many variables as equations; if there is a choice then all of them are in one of the equations, and a variable which the
    user wants to avoid is only used if there are too few others or the others alone make a singular system. *)
Theorem C60_round : forall debug nz avoid avoidAlg algebraic qr eqs vars ds l,
  qrOk qr -> NoDup vars -> select debug nz avoid avoidAlg algebraic qr eqs vars ds = ROk l ->
  NoDup l /\ List.length l = List.length eqs /\ incl l vars /\
  (List.length eqs <> List.length vars -> forall v, In v l ->
     (exists i, In i eqs /\ nz i v = true) /\
     (avoid v = true ->
        let others := filter (fun v => existsb (fun i => nz i v) eqs && negb (avoid v)) vars in
        List.length others < List.length eqs \/ qr eqs others = None)).
Proof. intros debug nz avoid avoidAlg algebraic qr eqs vars ds l Q ND H. eapply select_ok; eauto. Qed.
Print Assumptions C60_round.

(** setAvoidConvertAlg2DifVars has no effect: the same dummy derivatives are selected. *)
Theorem C60_preference_no_effect : forall debug nz avoid algebraic qr srt g,
  qrOk qr ->
  match addDummies debug nz avoid true algebraic qr g srt, addDummies debug nz avoid false algebraic qr g srt with
  | Some (ROk ds), Some (ROk ds') => Permutation ds ds'
  | Some RThrow, Some RThrow | Some RAssert, Some RAssert | Some RBad, Some RBad => True
  | None, None => True
  | _, _ => False
  end.
Proof.
  intros debug nz avoid algebraic qr srt g Q. unfold addDummies.
  assert (H := rounds_same debug nz avoid algebraic qr Q g (S (List.length (g_e g))) (eqs0 g) (vars0 g srt) [] [] (Permutation_refl _)).
  destruct (rounds debug nz avoid true _ _ _ _ _ _ _) as [a|], (rounds debug nz avoid false _ _ _ _ _ _ _) as [b|]; try easy.
  destruct H; easy.
Qed.
Print Assumptions C60_preference_no_effect.

(** *** An example: a point on a curve; x y dx dy ddx ddy; the constraint and its two derivatives *)
Definition gP : gr :=
  mkG [mkV 0 None (Some 2); mkV 1 None (Some 3); mkV 2 (Some 0) (Some 4); mkV 3 (Some 1) (Some 5); mkV 4 (Some 2) None; mkV 5 (Some 3) None]
      [0; 1; 2; 3; 4; 5]
      [mkE [0; 1] None (Some 1); mkE [0; 1; 2; 3] (Some 0) (Some 2); mkE [0; 1; 2; 3; 4; 5] (Some 1) None] [0; 1; 2].
Definition qrFirst (rows cols : list nat) : option (list nat) :=
  if List.length rows <=? List.length cols then Some (seq 0 (List.length cols)) else None.
Lemma qrFirst_ok : qrOk qrFirst.
Proof.
  intros rows cols piv H. unfold qrFirst in H. destruct (Nat.leb_spec (List.length rows) (List.length cols)); [|discriminate].
  injection H as <-. split; [reflexivity|easy].
Qed.
Lemma sort_id : sortOk (fun l => l). Proof. intro l. reflexivity. Qed.
Lemma linked_gP : linked gP.
Proof.
  split; [|split].
  - split; [cbn; repeat constructor; cbn; intuition congruence|]. split; [|split].
    + intros k a I E. cbn in I. repeat (destruct I as [<-|I]; [cbn in E; try discriminate; injection E as <-; cbn; intuition congruence|]). easy.
    + intros k a I E. cbn in I. repeat (destruct I as [<-|I]; [cbn in E; try discriminate; injection E as <-; cbn; intuition congruence|]). easy.
    + exists (fun k => k). intros k a I E. cbn in I. repeat (destruct I as [<-|I]; [cbn in E; try discriminate; injection E as <-; lia|]). easy.
  - split; [cbn; repeat constructor; cbn; intuition congruence|]. split; [|split].
    + intros k a I E. cbn in I. repeat (destruct I as [<-|I]; [cbn in E; try discriminate; injection E as <-; cbn; intuition congruence|]). easy.
    + intros k a I E. cbn in I. repeat (destruct I as [<-|I]; [cbn in E; try discriminate; injection E as <-; cbn; intuition congruence|]). easy.
    + exists (fun k => k). intros k a I E. cbn in I. repeat (destruct I as [<-|I]; [cbn in E; try discriminate; injection E as <-; lia|]). easy.
  - intros i I. cbn in I. cbn. intuition lia.
Qed.
Example selection_P : addDummies true (fun _ _ => true) (fun v => v =? 5) true (fun _ => false) qrFirst gP (fun l => l) = Some (ROk [4; 3]).
Proof. reflexivity. Qed.

(** The documented preference does not hold: a derivative of a variable which was algebraic could be the dummy derivative, but a
    derivative of a variable which was differential is.  One equation, the coefficients of the variables are 10 and 1, hence the
    order of the columns. *)
Theorem C60_preference_refuted : exists nz algebraic qr eqs vars v,
  qrOk qr /\ select true nz (fun _ => false) true algebraic qr eqs vars [] = ROk [v] /\ algebraic v = false /\
  (exists w, In w vars /\ algebraic w = true /\ nz 2 w = true /\ eqs = [2] /\ qr eqs [w] <> None).
Proof.
  exists (fun _ _ => true), (fun v => v =? 4), qrFirst, [2], [5; 4], 5.
  split; [apply qrFirst_ok|]. split; [reflexivity|]. split; [reflexivity|]. exists 4. split; [cbn; auto|]. repeat split; try reflexivity. discriminate.
Qed.
Print Assumptions C60_preference_refuted.

(** With assertions, a round with as many variables as equations always fails. *)
Theorem C60_equal_sizes_refuted : forall nz avoid avoidAlg algebraic qr eqs vars ds,
  vars <> [] -> List.length eqs = List.length vars ->
  select true nz avoid avoidAlg algebraic qr eqs vars ds = RAssert /\ select false nz avoid avoidAlg algebraic qr eqs vars ds = ROk vars.
Proof.
  intros nz avoid avoidAlg algebraic qr eqs vars ds NE L. unfold select. rewrite L, Nat.eqb_refl. cbn [andb]. split; [|reflexivity].
  destruct vars as [|v r]; [easy|]. cbn [existsb]. replace (existsb (Nat.eqb v) (ds ++ v :: r)) with true; [reflexivity|].
  symmetry. apply existsb_In. apply in_or_app. right. now left.
Qed.
Print Assumptions C60_equal_sizes_refuted.

(** ** The information *)
(** A dummy derivative is not a derivative any more, and its antiderivative has no derivative; nothing else changes. *)
Theorem C60_marked : forall ds vs p v,
  nth_error vs p = Some v ->
  exists w, nth_error (markDummies ds vs) p = Some w /\
    i_anti w = (if existsb (fun d => fst d =? p) ds then None else i_anti v) /\
    i_der w = (if existsb (fun d => snd d =? p) ds then None else i_der v) /\
    i_id w = i_id v /\ i_fun w = i_fun v /\ i_int w = i_int v /\ i_orig w = i_orig v /\ i_order w = i_order v /\ i_oanti w = i_oanti v.
Proof.
  intros ds vs p v E. rewrite mark_nth, E. cbn [option_map]. eexists. split; [reflexivity|]. unfold mark1.
  destruct (existsb (fun d => fst d =? p) ds), (existsb (fun d => snd d =? p) ds); cbn; repeat split; reflexivity.
Qed.
Print Assumptions C60_marked.

(** Variables and equations which are removed: every other one is still there once, in the same order, and its links are to the same
    variables and equations unless these were removed. *)
Theorem C60_removed : forall remV remE vs qs vs' bad qs',
  linksIn vs -> eqLinksIn (List.length vs) qs -> reduceInfo remV remE vs qs = (vs', bad, qs') ->
  (forall j v, nth_error vs j = Some v -> remV j = false -> exists w, nth_error vs' (keptBefore remV j) = Some w /\
     i_id w = i_id v /\ i_fun w = i_fun v /\ i_int w = i_int v /\ i_orig w = i_orig v /\
     idAt vs' (i_anti w) = idAt vs (only (fun k => negb (remV k)) (i_anti v)) /\
     idAt vs' (i_der w) = idAt vs (only (fun k => negb (remV k)) (i_der v))) /\
  (forall i q, nth_error qs i = Some q -> remE i = false -> exists r, nth_error qs' (keptBefore remE i) = Some r /\
     d_id r = d_id q /\ d_orig r = d_orig q /\ d_expl r = d_expl q /\
     idAt vs' (d_var r) = idAt vs (only (fun k => negb (remV k)) (d_var q)) /\
     eqIdAt qs' (d_anti r) = eqIdAt qs (only (fun k => negb (remE k)) (d_anti q))) /\
  (forall p w, nth_error vs' p = Some w -> exists j, j < List.length vs /\ remV j = false /\ keptBefore remV j = p) /\
  (forall p r, nth_error qs' p = Some r -> exists i, i < List.length qs /\ remE i = false /\ keptBefore remE i = p).
Proof.
  intros remV remE vs qs vs' bad qs' LI LE H. unfold reduceInfo in H.
  destruct (eraseVars_ok remV vs LI) as (LV & CV).
  destruct (eraseEqs_ok remE (shorten remV (List.length vs)) (shorten remE (List.length qs)) qs) as (LQ & CQ). cbv zeta in CQ.
  assert (FV : vs' = fst (eraseVars remV vs)) by (destruct (eraseVars remV vs); cbn in *; congruence).
  assert (FQ : qs' = eraseEqs remE (shorten remV (List.length vs)) (shorten remE (List.length qs)) qs) by congruence.
  clear H. rewrite <- FV in LV, CV. rewrite <- FQ in LQ, CQ. clear FV FQ.
  assert (IV : forall a, (forall x, a = Some x -> x < List.length vs) ->
     idAt vs' (option_map (keptBefore remV) (only (fun k => negb (remV k)) a)) = idAt vs (only (fun k => negb (remV k)) a)).
  { intros [a|] L; [|reflexivity]. specialize (L a eq_refl). cbn [only]. destruct (remV a) eqn:R; [reflexivity|]. cbn [negb option_map idAt].
    destruct (lt_nth vs a L) as (u & E). rewrite (CV a u E R), E. reflexivity. }
  assert (IE : forall a, (forall x, a = Some x -> x < List.length qs) ->
     eqIdAt qs' (option_map (keptBefore remE) (only (fun k => negb (remE k)) a)) = eqIdAt qs (only (fun k => negb (remE k)) a)).
  { intros [a|] L; [|reflexivity]. specialize (L a eq_refl). cbn [only]. destruct (remE a) eqn:R; [reflexivity|]. cbn [negb option_map eqIdAt].
    destruct (lt_nth qs a L) as (u & E). rewrite (CQ a u E R), E. reflexivity. }
  split; [|split; [|split]].
  - intros j v E R. eexists. split; [apply (CV j v E R)|]. cbn.
    split; [reflexivity|]. split; [reflexivity|]. split; [reflexivity|]. split; [reflexivity|]. split; apply IV; intros x X; apply (LI j v x E); auto.
  - intros i q E R. eexists. split; [apply (CQ i q E R)|]. cbn. destruct (LE i q E) as (LA & LB).
    split; [reflexivity|]. split; [reflexivity|]. split; [reflexivity|]. split.
    + rewrite short_ok by exact LB. now apply IV.
    + rewrite short_ok by exact LA. now apply IE.
  - intros p w E. apply nth_lt in E. apply kept_onto. lia.
  - intros p w E. apply nth_lt in E. apply kept_onto. lia.
Qed.
Print Assumptions C60_removed.

(** The information of three variables; the derivative and the equation it is solved for are removed. *)
Definition vsX : list vinfo := [mkI 10 None (Some 1) true false (Some 0) 0 None; mkI 11 (Some 0) None true false (Some 1) 1 (Some 0); mkI 12 None None true false (Some 2) 0 None].
Definition qsX : list dinfo := [mkD 20 (Some 0) None (Some 1) false; mkD 21 (Some 1) None (Some 2) false; mkD 22 None (Some 1) (Some 0) false].
Example removed_X : linksIn vsX /\ eqLinksIn 3 qsX /\
  reduceInfo (fun j => j =? 1) (fun i => i =? 0) vsX qsX =
    ([mkI 10 None None true false (Some 0) 0 None; mkI 12 None None true false (Some 2) 0 None], true,
     [mkD 21 (Some 1) None (Some 1) false; mkD 22 None (Some 0) (Some 0) false]).
Proof.
  split; [|split; [|reflexivity]].
  - intros j v a E H. destruct j as [|[|[|j]]]; [..|now destruct j]; injection E as <-; cbn in *; intuition (congruence || (match goal with H : Some _ = Some _ |- _ => injection H as <- end; lia)).
  - intros i q E. destruct i as [|[|[|i]]]; [..|now destruct i]; injection E as <-; cbn; split; intros a H; try discriminate; injection H as <-; lia.
Qed.

(** The loop of the code runs past the end of the information of the variables whenever a variable is removed. *)
Theorem C60_removal_overrun_refuted : forall remV remE vs qs p,
  p < List.length vs -> remV p = true -> snd (fst (reduceInfo remV remE vs qs)) = true.
Proof.
  intros remV remE vs qs p L R. unfold reduceInfo. cbn [fst]. rewrite eraseVars_overrun. apply existsb_exists. exists p. split; [apply in_seq; lia|exact R].
Qed.
Print Assumptions C60_removal_overrun_refuted.

(** ** Another order *)
(** With any order of the variables and the equations: the variables, and the assigned variables of the equations, are the same ones
    with the same links. *)
Theorem C60_reordered_partial : forall vo eo vs qs,
  Permutation vo (seq 0 (List.length vs)) -> Permutation eo (seq 0 (List.length qs)) -> linksIn vs -> eqLinksIn (List.length vs) qs ->
  let vs' := reorderVars vo vs in let qs' := reorderEqs vo eo qs in
  List.length vs' = List.length vs /\ List.length qs' = List.length qs /\
  (forall p o v, nth_error vo p = Some o -> nth_error vs o = Some v -> exists w, nth_error vs' p = Some w /\
     i_id w = i_id v /\ i_fun w = i_fun v /\ i_int w = i_int v /\ i_orig w = i_orig v /\
     idAt vs' (i_anti w) = idAt vs (i_anti v) /\ idAt vs' (i_der w) = idAt vs (i_der v)) /\
  (forall p o q, nth_error eo p = Some o -> nth_error qs o = Some q -> exists r, nth_error qs' p = Some r /\
     d_id r = d_id q /\ d_orig r = d_orig q /\ d_expl r = d_expl q /\ idAt vs' (d_var r) = idAt vs (d_var q)).
Proof.
  intros vo eo vs qs PV PE LI LE. cbv zeta.
  assert (IV : forall a, (forall x, a = Some x -> x < List.length vs) -> idAt (reorderVars vo vs) (option_map (fun a => posOf a vo) a) = idAt vs a).
  { intros [a|] L; [|reflexivity]. specialize (L a eq_refl). cbn [option_map idAt]. destruct (lt_nth vs a L) as (u & E).
    assert (Ia : In a vo) by (apply (Permutation_in _ (Permutation_sym PV)), in_seq; lia).
    rewrite (reorderVars_nth vo vs (posOf a vo) a u (posOf_nth _ _ Ia) E), E. reflexivity. }
  split; [unfold reorderVars; rewrite map_length, (Permutation_length PV); apply seq_length|].
  split; [unfold reorderEqs; rewrite map_length, (Permutation_length PE); apply seq_length|]. split.
  - intros p o v Ep E. eexists. split; [apply (reorderVars_nth vo vs p o v Ep E)|]. cbn.
    split; [reflexivity|]. split; [reflexivity|]. split; [reflexivity|]. split; [reflexivity|]. split; apply IV; intros x X; apply (LI o v x E); auto.
  - intros p o q Ep E. eexists. split; [apply (reorderEqs_nth vo eo qs p o q Ep E)|]. cbn. destruct (LE o q E) as (_ & LB).
    split; [reflexivity|]. split; [reflexivity|]. split; [reflexivity|]. now apply IV.
Qed.
Print Assumptions C60_reordered_partial.

(** What is missing above: the equation of which an equation is the derivative.  It is not updated: with the order of the code, an equation
    is reported as the derivative of itself.  x, dx; the equation 20 is algebraic, 21 is its derivative. *)
Definition vsY : list vinfo := [mkI 10 None (Some 1) true false (Some 0) 0 None; mkI 11 (Some 0) None true false (Some 1) 1 (Some 0)].
Definition qsY : list dinfo := [mkD 20 (Some 0) None (Some 0) false; mkD 21 None (Some 0) (Some 1) false].
Definition voY : list nat := [1; 0].
Theorem C60_reordered_refuted : exists vo eo vs qs r,
  linksIn vs /\ eqLinksIn (List.length vs) qs /\
  Permutation vo (seq 0 (List.length vs)) /\ sortedBy (varBefore vs qs) vo /\
  Permutation eo (seq 0 (List.length qs)) /\ sortedBy (eqBefore vo vs qs) eo /\
  nth_error (reorderEqs vo eo qs) 0 = Some r /\ d_id r = 21 /\ eqIdAt qs (Some 0) = Some 20 /\
  d_anti r = Some 0 /\ eqIdAt (reorderEqs vo eo qs) (d_anti r) = Some 21.
Proof.
  exists voY, [1; 0], vsY, qsY. eexists.
  split; [|split; [|split; [|split; [|split; [|split; [|split; [reflexivity|]]]]]]].
  - intros j v a E H. destruct j as [|[|j]]; [..|now destruct j]; injection E as <-; cbn in *; intuition (congruence || (match goal with H : Some _ = Some _ |- _ => injection H as <- end; lia)).
  - intros i q E. destruct i as [|[|i]]; [..|now destruct i]; injection E as <-; cbn; split; intros a H; try discriminate; injection H as <-; lia.
  - apply perm_swap.
  - intros p q i j L A B. destruct p as [|[|p]], q as [|[|q]]; try lia; [|now destruct q|now destruct q|now destruct q].
    injection A as <-. injection B as <-. reflexivity.
  - apply perm_swap.
  - intros p q i j L A B. destruct p as [|[|p]], q as [|[|q]]; try lia; [|now destruct q|now destruct q|now destruct q].
    injection A as <-. injection B as <-. reflexivity.
  - repeat split; reflexivity.
Qed.
Print Assumptions C60_reordered_refuted.

(** The documented order of the variables (setReorder) is not the one of the code: derivatives come first. *)
Theorem C60_documented_order_refuted : exists vs qs, linksIn vs /\ eqLinksIn (List.length vs) qs /\
  forall vo, Permutation vo (seq 0 (List.length vs)) -> sortedBy (varBefore vs qs) vo ->
  exists p q i j, p < q /\ nth_error vo p = Some i /\ nth_error vo q = Some j /\ documentedClass vs j < documentedClass vs i.
Proof.
  exists vsY, qsY. split; [|split].
  - intros j v a E H. destruct j as [|[|j]]; [..|now destruct j]; injection E as <-; cbn in *; intuition (congruence || (match goal with H : Some _ = Some _ |- _ => injection H as <- end; lia)).
  - intros i q E. destruct i as [|[|i]]; [..|now destruct i]; injection E as <-; cbn; split; intros a H; try discriminate; injection H as <-; lia.
  - intros vo P S. cbn in P. exists 0, 1, 1, 0.
    destruct vo as [|a [|b [|c r]]]; try (apply Permutation_length in P; discriminate).
    assert (Ia : In a [0; 1]) by (apply (Permutation_in _ P); now left). assert (Ib : In b [0; 1]) by (apply (Permutation_in _ P); right; now left).
    assert (NE : a <> b).
    { assert (ND : NoDup [a; b]) by (apply (Permutation_NoDup (Permutation_sym P)); repeat constructor; cbn; intuition congruence). inversion ND as [|? ? NI _]; subst. intros ->. apply NI. now left. }
    assert (X := S 0 1 a b ltac:(lia) eq_refl eq_refl).
    destruct Ia as [<-|[<-|[]]], Ib as [<-|[<-|[]]]; try congruence; [vm_compute in X; discriminate|].
    split; [lia|]. split; [reflexivity|]. split; [reflexivity|]. vm_compute. lia.
Qed.
Print Assumptions C60_documented_order_refuted.

(** ** The residuals *)
(** Whatever was removed or moved: with the values [val] of the variables, every equation of the new model has the residual of the
    old equation with the same identifier for these values. *)
Theorem C60_same_residuals : forall (V : Type) (f : nat -> list (option V) -> V) vs vs' qs qs' (val : nat -> V) (y : list V),
  NoDup (map i_id vs) -> NoDup (map d_id qs) ->
  (forall p w, nth_error vs' p = Some w -> In (i_id w) (map i_id vs) /\ nth_error y p = Some (val (i_id w))) ->
  List.length (regenerateModel f vs vs' qs qs' y) = List.length qs' /\
  forall k r i q, nth_error qs' k = Some r -> nth_error qs i = Some q -> d_id q = d_id r ->
  nth_error (regenerateModel f vs vs' qs qs' y) k = Some (f i (oldOrder vs vs' val)).
Proof.
  intros V f vs vs' qs qs' val y NV NQ H. unfold regenerateModel. split; [now rewrite map_length|]. intros k r i q Ek Ei E.
  rewrite nth_error_map, Ek. cbn [option_map]. rewrite <- E, (oldEq_ok qs i q Ei NQ). f_equal. f_equal.
  apply handlerOrder_ok; [exact NV|intros p w X; now apply (H p)|intros p w X; now apply (H p)].
Qed.
Print Assumptions C60_same_residuals.
Example residuals_X : forall f : nat -> list (option nat) -> nat,
  regenerateModel f vsX (reorderVars [2; 0; 1] vsX) qsX (reorderEqs [2; 0; 1] [2; 0; 1] qsX) [112; 110; 111] =
  [f 2 [Some 110; Some 111; Some 112]; f 0 [Some 110; Some 111; Some 112]; f 1 [Some 110; Some 111; Some 112]].
Proof. reflexivity. Qed.

(** ** The solutions *)
(** Variables replaced by what equations are solved for (each equation when it is its turn, after the earlier substitutions): the
    solutions of the model are the solutions of the remaining equations with the replaced variables equal to their expressions, and the remaining
    equations do not have the replaced variables. *)
Theorem C60_same_solutions : forall (V : Type) (zero : V) (res : nat -> (nat -> V) -> V) (m : nat) steps,
  (forall k, proper (res k)) -> (forall s, In s steps -> proper (snd s) /\ fst (fst s) < m) ->
  NoDup (map (fun s => fst (fst s)) steps) -> NoDup (map (fun s => snd (fst s)) steps) -> Eliminated zero res steps ->
  (forall x, (forall k, k < m -> res k x = zero) <->
     ((forall e d sol, In (e, d, sol) steps -> x d = sol x) /\
      (forall k, k < m -> ~ In k (map (fun s => fst (fst s)) steps) -> after res steps k x = zero))) /\
  (forall k d v x, In d (map (fun s => snd (fst s)) steps) -> after res steps k (setv x d v) = after res steps k x).
Proof.
  intros V zero res m steps P S N1 N2 EL. split.
  - intro x. rewrite (eliminated_ok zero steps res (fun k => k < m) P (fun s I => proj1 (S s I)) (fun s I => proj2 (S s I)) N1 EL x).
    split; intros (A & B); (split; [|exact B]).
    + intros e d sol I. apply (A _ I).
    + intros ((e, d), sol) I. cbn. now apply (A e d sol).
  - intros k d v x I. apply (proj2 (after_indep zero steps res P (fun s J => proj1 (S s J)) N2 EL) d I k).
Qed.
Print Assumptions C60_same_solutions.
(** x0 - x1 = 0 and x1 - 5 = 0 in Z *)
Example solutions_Z : Eliminated 0%Z (fun k x => if k =? 0 then (x 0%nat - x 1%nat)%Z else (x 1%nat - 5)%Z) [(0, 0, fun x => x 1); (1, 1, fun _ => 5%Z)].
Proof.
  cbn. split; [|split; [|exact I]]; split.
  - reflexivity.
  - intro x. split; intro; lia.
  - reflexivity.
  - intro x. unfold substituted, setv. cbn. split; intro; lia.
Qed.

(** ** Semi-explicit models *)
(** If no derivative is the derivative of a derivative: every derivative is replaced, the equation that was assigned to it is explicit
    and is now assigned to the variable it is the derivative of; other equations are still assigned to the same variables. *)
Theorem C60_semi_explicit_partial : forall vs qs vs' qs',
  semiExplicit vs qs = Some (vs', qs') ->
  (forall j v a, nth_error vs j = Some v -> i_anti v = Some a -> exists w, nth_error vs a = Some w /\ i_anti w = None) ->
  map i_id vs' = map i_id (filter (fun v => negb (some (i_anti v))) vs) /\
  (forall w, In w vs' -> i_anti w = None /\ i_der w = None) /\
  List.length qs' = List.length qs /\
  (forall j v a, nth_error vs j = Some v -> i_anti v = Some a ->
     exists i q r, nth_error qs i = Some q /\ d_var q = Some j /\ nth_error qs' i = Some r /\
       d_id r = d_id q /\ d_expl r = true /\ idAt vs' (d_var r) = idAt vs (Some a)) /\
  (forall i q, nth_error qs i = Some q -> (forall j v, d_var q = Some j -> nth_error vs j = Some v -> i_anti v = None) ->
     exists r, nth_error qs' i = Some r /\ d_id r = d_id q /\ d_expl r = d_expl q /\ idAt vs' (d_var r) = idAt vs (d_var q)).
Proof.
  intros vs qs vs' qs' H O1. unfold semiExplicit in H. destruct (solveDers _ _ _ _) as [rs|] eqn:SD; [|discriminate].
  injection H as <- <-.
  assert (NX : forall a, (forall j v, a = Some j -> nth_error vs j = Some v -> i_anti v = None) ->
     forall q, d_var q = a -> idAt (map (fun v => setDer v None) (filter isState vs)) (d_var (match d_var q with Some j => setVar q (newIndex vs j) | None => q end)) = idAt vs a).
  { intros [a|] N q E; rewrite E; [|now rewrite E]. cbn [setVar d_var]. destruct (nth_error vs a) as [v|] eqn:Ev.
    - rewrite (newIndex_state vs a v Ev (N a v eq_refl Ev)). cbn [idAt]. now rewrite Ev.
    - unfold newIndex. rewrite Ev. cbn [idAt]. now rewrite Ev. }
  split; [now rewrite map_map|]. split.
  { intros w I. apply in_map_iff in I as (v & <- & I). apply filter_In in I as (_ & I). unfold isState in I. cbn. now destruct (i_anti v). }
  split; [rewrite map_length; eapply solve_length; eauto|]. split.
  - intros j v a Ev Ea. assert (Ij : In j (seq 0 (List.length vs))) by (apply in_seq; apply nth_lt in Ev; lia).
    destruct (assignedEq qs j) as [i|] eqn:Ei; [|exfalso; eapply solve_defined; eauto].
    destruct (assignedEq_some _ _ _ Ei) as (q & Eq & Vq).
    assert (ER := solve_this vs (assignedEq qs) (assignedEq_inj qs) _ _ _ j v a i q (seq_NoDup _ _) SD Ij Ev Ea Ei Eq).
    exists i, q. eexists. split; [exact Eq|]. split; [exact Vq|]. split; [rewrite nth_error_map, ER; reflexivity|]. cbn [d_var setVar].
    split; [reflexivity|]. split; [reflexivity|].
    destruct (O1 j v a Ev Ea) as (w & Ew & Aw).
    exact (NX (Some a) (fun j' v' E1 E2 => ltac:(injection E1 as <-; congruence)) (setVar (setExpl q) (Some a)) eq_refl).
  - intros i q Eq N. assert (ER : nth_error rs i = Some q).
    { rewrite <- Eq. eapply solve_other; [exact SD|]. intros j v a _ Ev Ea Ei. destruct (assignedEq_some _ _ _ Ei) as (q' & Eq' & Vq').
      assert (q' = q) by congruence. subst q'. specialize (N j v Vq' Ev). congruence. }
    eexists. split; [rewrite nth_error_map, ER; reflexivity|].
    split; [now destruct (d_var q)|]. split; [now destruct (d_var q)|]. now apply (NX (d_var q)).
Qed.
Print Assumptions C60_semi_explicit_partial.
Example semi_explicit_X : semiExplicit vsX qsX =
  Some ([mkI 10 None None true false (Some 0) 0 None; mkI 12 None None true false (Some 2) 0 None],
        [mkD 20 (Some 0) None (Some 0) true; mkD 21 (Some 1) None (Some 1) false; mkD 22 None (Some 1) (Some 0) false]) /\
  forall j v a, nth_error vsX j = Some v -> i_anti v = Some a -> exists w, nth_error vsX a = Some w /\ i_anti w = None.
Proof.
  split; [reflexivity|]. intros j v a E A. destruct j as [|[|[|j]]]; [..|now destruct j]; injection E as <-; try discriminate.
  injection A as <-. eexists. split; reflexivity.
Qed.

(** With a derivative of a derivative: the first derivative is a differential variable of the model (its derivative has an explicit
    equation) but it is not in the model any more, and the explicit equation has no variable. *)
Theorem C60_semi_explicit_refuted : exists vs qs vs' qs' r,
  linksIn vs /\ eqLinksIn (List.length vs) qs /\ semiExplicit vs qs = Some (vs', qs') /\
  (exists v, nth_error vs 2 = Some v /\ i_anti v = Some 1 /\ idAt vs (Some 1) = Some 11 /\ ~ In 11 (map i_id vs')) /\
  nth_error qs' 1 = Some r /\ d_expl r = true /\ d_var r = None.
Proof.
  exists [mkI 10 None (Some 1) true false (Some 0) 0 None; mkI 11 (Some 0) (Some 2) true false (Some 1) 1 (Some 0); mkI 12 (Some 1) None true false None 2 (Some 0)],
         [mkD 20 (Some 0) None (Some 1) false; mkD 21 (Some 1) None (Some 2) false].
  eexists. eexists. eexists. split; [|split; [|split; [reflexivity|split; [|split; [reflexivity|split; reflexivity]]]]].
  - intros j v a E H. destruct j as [|[|[|j]]]; [..|now destruct j]; injection E as <-; cbn in *; intuition (congruence || (match goal with H : Some _ = Some _ |- _ => injection H as <- end; lia)).
  - intros i q E. destruct i as [|[|i]]; [..|now destruct i]; injection E as <-; cbn; split; intros a H; try discriminate; injection H as <-; lia.
  - eexists. split; [reflexivity|]. split; [reflexivity|]. split; [reflexivity|]. cbn. intuition congruence.
Qed.
Print Assumptions C60_semi_explicit_refuted.

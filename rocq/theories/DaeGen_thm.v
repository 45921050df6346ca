(** * C59: the model made by the index reduction is the user's model with time derivatives of its equations *)
From Coq Require Import List Arith Bool Lia ZArith Reals Lra.
From Verif Require Import DaeGen_model DaeGen_spec DaeGen_lists DaeGen_inv DaeGen_remove DaeGen_build DaeGen_info DaeGen_diff DaeGen_main.
Import ListNotations.
Local Open Scope nat_scope.

(** The new model [vs', qs, res] of the user's model: the graph was made, any allowed calls were made on it, and the model generated. *)
Definition reduced {K} (k0 k1 : K) (vs : list vinfo) (m : nat) (sparsity : nat -> nat -> bool) (fun_ : list (ex K)) (os : list op)
    (res : option (list vinfo * list einfo * list (ex K))) : Prop :=
  exists vs1 g0 g, build m vs sparsity = Some (vs1, g0) /\
    allowedAll (List.length vs1) (List.length (timeDependent vs1)) os g0 /\
    run (List.length vs1) (List.length (timeDependent vs1)) os g0 = Some g /\
    generate k0 k1 (List.length (timeDependent vs1)) vs1 g fun_ = res.

Lemma run_inv vs vs1 m sparsity g0 : validInfo vs -> build m vs sparsity = Some (vs1, g0) -> allUsed vs m sparsity ->
  forall os g g', inv (n vs1) (n0 vs1) m (g_v g0) (g_e g0) no3 no3 g -> allowedAll (n vs1) (n0 vs1) os g -> run (n vs1) (n0 vs1) os g = Some g' ->
  inv (n vs1) (n0 vs1) m (g_v g0) (g_e g0) no3 no3 g'.
Proof.
  intros V B U os. induction os as [|o os IH]; intros g g' I A R; [injection R as <-; exact I|].
  cbn [allowedAll run] in A, R. destruct A as (A1 & A2). destruct (step (n vs1) (n0 vs1) o g) as [g1|] eqn:S; [|discriminate].
  apply (IH g1); auto. destruct o as [j|b i|i]; cbn [step allowed] in *.
  - injection S as <-. destruct (createVar (n vs1) (n0 vs1) j g) as [d g2] eqn:C. apply (createVar_inv _ _ _ _ _ _ _ _ _ _ I A1 C).
  - injection S as <-. now apply createEq_inv.
  - destruct A1 as (A1 & e & E & D & O). eapply removeEq_inv; eauto. exact (initial_used vs vs1 m sparsity g0 V B U).
Qed.
Lemma reduced_facts {K} (k0 k1 : K) vs m sparsity fun_ os res : validInfo vs -> allUsed vs m sparsity -> reduced k0 k1 vs m sparsity fun_ os res ->
  exists vs1 g0 g, build m vs sparsity = Some (vs1, g0) /\ inv (n vs1) (n0 vs1) m (g_v g0) (g_e g0) no3 no3 g /\ generate k0 k1 (n0 vs1) vs1 g fun_ = res.
Proof.
  intros V U (vs1 & g0 & g & B & A & R & G). exists vs1, g0, g. split; auto. split; auto.
  eapply run_inv; eauto. exact (initial_inv vs vs1 m sparsity g0 V B).
Qed.

(** Along every trajectory, the residual of every new equation is the time derivative of the residual of the equation it is
    reported to be the derivative of. *)
Theorem C59_derived_equations : forall (K : Type) (k0 k1 : K) (cst : K -> R) (F1 : nat -> nat -> R -> R) (F2 : nat -> nat -> nat -> R -> R -> R)
    vs m sparsity fun_ os vs' qs res,
  cst k0 = 0%R -> cst k1 = 1%R ->
  validInfo vs -> allUsed vs m sparsity -> validModel (List.length vs) fun_ sparsity -> List.length fun_ = m ->
  reduced k0 k1 vs m sparsity fun_ os (Some (vs', qs, res)) ->
  forall p q a e f (x : nat -> R -> R) (s : R),
  nth_error qs p = Some q -> q_anti q = Some a -> nth_error res p = Some e -> nth_error res a = Some f ->
  follows vs' x s -> regular cst F1 F2 (at_ x s) f ->
  derivable_pt_lim (fun s => ev cst F1 F2 (at_ x s) f) s (ev cst F1 F2 (at_ x s) e).
Proof.
  intros K k0 k1 cst F1 F2 vs m sparsity fun_ os vs' qs res c0 c1 V U Vm Lm Rd. destruct (reduced_facts _ _ _ _ _ _ _ _ V U Rd) as (vs1 & g0 & g & B & I & G).
  assert (X := generate_ok k0 k1 vs vs1 m sparsity g0 V B g I fun_ Vm Lm). rewrite G in X. destruct X as (-> & -> & L & _ & HR).
  intros p q a e f x s. eapply derived_ok; eauto.
Qed.
Print Assumptions C59_derived_equations.

(** The user's equations come first and are not changed; there are derivatives after them; the reported information of the
    equations is right. *)
Theorem C59_equations : forall (K : Type) (k0 k1 : K) vs m sparsity (fun_ : list (ex K)) os vs' qs res,
  validInfo vs -> allUsed vs m sparsity -> validModel (List.length vs) fun_ sparsity -> List.length fun_ = m ->
  reduced k0 k1 vs m sparsity fun_ os (Some (vs', qs, res)) ->
  firstn m res = fun_ /\ List.length res = List.length qs /\ m < List.length res /\ goodEqs m qs.
Proof.
  intros K k0 k1 vs m sparsity fun_ os vs' qs res V U Vm Lm Rd. destruct (reduced_facts _ _ _ _ _ _ _ _ V U Rd) as (vs1 & g0 & g & B & I & G).
  assert (X := generate_ok k0 k1 vs vs1 m sparsity g0 V B g I fun_ Vm Lm). rewrite G in X. destruct X as (-> & -> & L & LM & HR).
  split; [|split; [|split; [lia|]]].
  - assert (P : forall k, k < m -> nth_error res k = nth_error fun_ k).
    { intros k Lk. assert (Lk' := Lk). rewrite <- Lm in Lk'. destruct (lt_nth _ _ Lk') as (f & F).
      assert (Z := HR k f). rewrite (user_pos vs1 m g0 g I k Lk) in Z. rewrite F. apply Z; [apply (user_alive vs1 m g0 g I k Lk)|]. now apply isE_0. }
    clear - P Lm LM L. assert (LR : m <= List.length res) by lia. clear LM L. revert res m P Lm LR. induction fun_ as [|f r IH]; intros res m P Lm LR; subst m; [reflexivity|].
    destruct res as [|y res]; [cbn in LR; lia|]. assert (Q := P 0). cbn in Q. assert (Some y = Some f) as [= ->] by (apply Q; lia). cbn [List.length firstn]. f_equal.
    apply IH; auto; [|cbn in LR; lia]. intros k Lk. apply (P (S k)). cbn. lia.
  - rewrite L. unfold eqInfo. now rewrite map_length, combine_length, seq_length, Nat.min_id.
  - exact (good_eqInfo vs1 m g0 g I).
Qed.
Print Assumptions C59_equations.

(** The reported information of the variables is right: the derivative of a variable and the antiderivative of its derivative
    are each other, and the order and the original antiderivative are those of the chain of antiderivatives.  The user's
    variables come first; the others are derivatives. *)
Theorem C59_variables : forall (K : Type) (k0 k1 : K) vs m sparsity (fun_ : list (ex K)) os vs' qs res,
  validInfo vs -> allUsed vs m sparsity -> validModel (List.length vs) fun_ sparsity -> List.length fun_ = m ->
  reduced k0 k1 vs m sparsity fun_ os (Some (vs', qs, res)) ->
  goodInfo vs' /\
  (forall j v, nth_error vs j = Some v -> exists w, nth_error vs' j = Some w /\ i_anti w = i_anti v /\ i_fun w = i_fun v /\ i_int w = i_int v /\ i_orig w = Some j) /\
  (forall j w, nth_error vs' j = Some w -> List.length vs <= j -> i_anti w <> None /\ i_fun w = true /\ i_int w = false /\ i_orig w = None) /\
  (forall p e j, nth_error res p = Some e -> occurs j e -> j < List.length vs').
Proof.
  intros K k0 k1 vs m sparsity fun_ os vs' qs res V U Vm Lm Rd. destruct (reduced_facts _ _ _ _ _ _ _ _ V U Rd) as (vs1 & g0 & g & B & I & G).
  assert (X := generate_ok k0 k1 vs vs1 m sparsity g0 V B g I fun_ Vm Lm). rewrite G in X. destruct X as (-> & -> & L & LM & HR).
  assert (Inf := inf vs vs1 m sparsity g0 V B). assert (LN : List.length vs = n vs1) by (unfold n; now rewrite (b_len _ _ Inf)).
  split; [exact (good_vs' vs vs1 m sparsity g0 V B g I)|]. split; [|split].
  - intros j v H. assert (Lj : j < n vs1) by (rewrite <- LN; now apply nth_lt in H).
    destruct (s_user _ _ _ _ (st_N vs vs1 m sparsity g0 V B g I) j Lj) as (v1 & w & X1 & X2 & X3). exists w. split; auto. rewrite X3. cbn.
    destruct (b_nth _ _ Inf j v1 X1) as (_ & O & v2 & Hv & A1 & A2 & A3). assert (v2 = v) by congruence. subst v2. auto.
  - intros j w W Lj. assert (L2 := nth_lt _ _ _ W). rewrite (vs'_len vs vs1 m sparsity g0 V B g I) in L2. rewrite LN in Lj.
    destruct (node_or_not vs vs1 m sparsity g0 V B g I j L2) as [(k & v & Ka & H & T)|(X & _)]; [|lia].
    assert (Lk : n0 vs1 <= k). { destruct (Nat.lt_ge_cases k (n0 vs1)) as [Lk|]; auto. assert (X := user_tape vs vs1 m sparsity g0 V B g I k v Lk H). lia. }
    destruct (s_new _ _ _ _ (st_N vs vs1 m sparsity g0 V B g I) k v (present_N vs1 m g0 g I k Ka) Lk H) as (a & at_ & w' & wa & Y1 & Y2 & Y3 & Y4 & Y5 & Y6 & Y7 & Y8 & Y9 & Y10 & Y11).
    rewrite T in *. assert (w' = w) by congruence. subst w'. split; [congruence|auto].
  - intros p e j E J. assert (Lp := nth_lt _ _ _ E). rewrite L in Lp. destruct (lt_nth _ _ Lp) as (k & Kp). assert (A : In k (g_ea g)) by (eapply nth_error_In; eauto).
    destruct (isE_ex k0 k1 vs1 m g0 g I fun_ Lm k A) as (f & F).
    assert (Z := HR k f A F). rewrite (nth_posOf k (g_ea g) p (eaND vs1 m g0 g I) Kp) in Z. assert (f = e) by congruence. subst f.
    exact (isE_lt k0 k1 vs vs1 m sparsity g0 V B g I fun_ Vm Lm k _ F A j J).
Qed.
Print Assumptions C59_variables.

Lemma zero_derivative (f : R -> R) (a b s l : R) : (a < s < b)%R -> (forall r, (a < r < b)%R -> f r = 0%R) -> derivable_pt_lim f s l -> l = 0%R.
Proof.
  intros Hs Z D. apply (uniqueness_limite f s); auto. intros eps Eps.
  assert (P : (0 < Rmin (s - a) (b - s))%R) by (apply Rmin_pos; lra). exists (mkposreal _ P). intros h H0 H. cbn in H.
  assert (H1 := Rmin_l (s - a) (b - s)). assert (H2 := Rmin_r (s - a) (b - s)). apply Rabs_def2 in H as (H & H').
  rewrite (Z (s + h)%R) by lra. rewrite (Z s Hs). replace ((0 - 0) / h - 0)%R with 0%R by (field; auto). now rewrite Rabs_R0.
Qed.
(** Every solution of the user's model on an open interval is a solution of the new model (the converse is C59_equations). *)
Theorem C59_solutions : forall (K : Type) (k0 k1 : K) (cst : K -> R) (F1 : nat -> nat -> R -> R) (F2 : nat -> nat -> nat -> R -> R -> R)
    vs m sparsity fun_ os vs' qs res,
  cst k0 = 0%R -> cst k1 = 1%R ->
  validInfo vs -> allUsed vs m sparsity -> validModel (List.length vs) fun_ sparsity -> List.length fun_ = m ->
  reduced k0 k1 vs m sparsity fun_ os (Some (vs', qs, res)) ->
  forall (x : nat -> R -> R) (a b : R),
  (forall s, (a < s < b)%R -> follows vs' x s /\ forall p f, nth_error res p = Some f -> regular cst F1 F2 (at_ x s) f) ->
  (forall i f s, nth_error fun_ i = Some f -> (a < s < b)%R -> ev cst F1 F2 (at_ x s) f = 0%R) ->
  forall p e s, nth_error res p = Some e -> (a < s < b)%R -> ev cst F1 F2 (at_ x s) e = 0%R.
Proof.
  intros K k0 k1 cst F1 F2 vs m sparsity fun_ os vs' qs res c0 c1 V U Vm Lm Rd x a b Fo S p.
  destruct (C59_equations _ _ _ _ _ _ _ _ _ _ _ V U Vm Lm Rd) as (E1 & E2 & E3 & (E4 & _)).
  induction p as [p IH] using lt_wf_ind. intros e s E Hs. destruct (Nat.lt_ge_cases p m) as [L|L].
  - apply (S p e s); auto. rewrite <- E1. clear - E L. revert p res E L. induction m as [|m IH]; intros p res E L; [lia|].
    destruct p as [|p], res as [|y res]; cbn in *; try discriminate; auto. apply IH; auto. lia.
  - assert (Lp := nth_lt _ _ _ E). rewrite E2 in Lp. destruct (lt_nth _ _ Lp) as (q & Q). destruct (E4 p q Q) as (_ & _ & X). destruct (X L) as (_ & o & O & Lo).
    assert (Lo' : o < List.length res) by lia. destruct (lt_nth _ _ Lo') as (f & F). destruct (Fo s Hs) as (Fs & Rs).
    assert (D := C59_derived_equations K k0 k1 cst F1 F2 _ _ _ _ _ _ _ _ c0 c1 V U Vm Lm Rd p q o e f x s Q O E F Fs (Rs o f F)).
    apply (zero_derivative (fun s => ev cst F1 F2 (at_ x s) f) a b s); auto. intros r Hr. now apply (IH o Lo f r).
Qed.
Print Assumptions C59_solutions.

(** There is no new model exactly if no equation was differentiated. *)
Theorem C59_nothing_to_do : forall (K : Type) (k0 k1 : K) vs m sparsity (fun_ : list (ex K)) vs1 g0 g os,
  validInfo vs -> allUsed vs m sparsity -> validModel (List.length vs) fun_ sparsity -> List.length fun_ = m ->
  build m vs sparsity = Some (vs1, g0) ->
  allowedAll (List.length vs1) (List.length (timeDependent vs1)) os g0 ->
  run (List.length vs1) (List.length (timeDependent vs1)) os g0 = Some g ->
  (generate k0 k1 (List.length (timeDependent vs1)) vs1 g fun_ = None <-> List.length (g_ea g) = m).
Proof.
  intros K k0 k1 vs m sparsity fun_ vs1 g0 g os V U Vm Lm B A R.
  assert (I : inv (n vs1) (n0 vs1) m (g_v g0) (g_e g0) no3 no3 g) by (eapply run_inv; eauto; exact (initial_inv vs vs1 m sparsity g0 V B)).
  assert (X := generate_ok k0 k1 vs vs1 m sparsity g0 V B g I fun_ Vm Lm). change (List.length (timeDependent vs1)) with (n0 vs1).
  destruct (generate k0 k1 (n0 vs1) vs1 g fun_) as [((w & qs) & res)|]; split; intro H; try discriminate; auto.
  - destruct X as (_ & _ & _ & L & _). lia.
  - rewrite X. apply seq_length.
Qed.
Print Assumptions C59_nothing_to_do.

(** Calls without [CreateVar] (the method of Soares and Secchi) always end. *)
Theorem C59_removal_ends : forall vs m sparsity vs1 g0 os,
  validInfo vs -> allUsed vs m sparsity -> build m vs sparsity = Some (vs1, g0) ->
  (forall o, In o os -> isCreateVar o = false) ->
  allowedAll (List.length vs1) (List.length (timeDependent vs1)) os g0 ->
  exists g, run (List.length vs1) (List.length (timeDependent vs1)) os g0 = Some g.
Proof.
  intros vs m sparsity vs1 g0 os V U B. fold (n vs1). change (List.length (timeDependent vs1)) with (n0 vs1).
  assert (UU := initial_used vs vs1 m sparsity g0 V B U). assert (UV := initial_userVars vs vs1 m sparsity g0 V B). assert (UA := initial_userAnti vs vs1 m sparsity g0 V B).
  assert (C : covered (n0 vs1) g0). { intros x L H. exfalso. exact (initial_covered vs vs1 m sparsity g0 V B x L H). }
  assert (I : inv (n vs1) (n0 vs1) m (g_v g0) (g_e g0) no3 no3 g0) by exact (initial_inv vs vs1 m sparsity g0 V B).
  revert C I. generalize g0 at 1 4 5 6. induction os as [|o os IH]; intros g C I NV A; [eexists; reflexivity|].
  cbn [allowedAll run] in *. destruct A as (A1 & A2). assert (NV' : forall o, In o os -> isCreateVar o = false) by (intros; apply NV; cbn; auto).
  destruct o as [j|b i|i]; cbn [step allowed] in *.
  - specialize (NV (CreateVar j) (or_introl eq_refl)). discriminate.
  - apply IH; auto; [|now apply createEq_inv]. eapply createEq_covered; eauto.
  - destruct A1 as (A1 & e & E & D & O). destruct (removeEq_ends _ _ _ _ _ UU UV UA i e g I A1 E D O C) as (g1 & R & C1). rewrite R in *.
    apply IH; auto. eapply removeEq_inv; eauto.
Qed.
Print Assumptions C59_removal_ends.

(** ** Models which meet the hypotheses *)
(** dx/dt = y, x = t^2: variables x, y, t, dx/dt.  The second equation is differentiated twice, the first one once, and the
    derivative of the first one is removed again. *)
Definition user_ (a : option nat) := mkI 0 a None true false None 0 None.
Definition time_ := mkI 0 None None false true None 0 None.
Definition vsE := [user_ None; user_ None; time_; user_ (Some 0)].
Definition funE : list (ex Z) := [ESub (EVar 3) (EVar 1); ESub (EVar 0) (EMul (EVar 2) (EVar 2))].
Definition spE (i j : nat) : bool := match i, j with 0, 1 | 0, 3 | 1, 0 | 1, 2 => true | _, _ => false end.
Definition osE := [CreateEq true 1; CreateEq true 2; CreateEq true 0; Remove 4].
(** a decision of [allowedAll] *)
Definition allowedB (o : op) (g : gr) : bool :=
  match o with
  | CreateVar j => existsb (Nat.eqb j) (g_va g)
  | CreateEq _ i => existsb (Nat.eqb i) (g_ea g)
  | Remove i => existsb (Nat.eqb i) (g_ea g) && match nth_error (g_e g) i with Some (mkE _ (Some _) None) => true | _ => false end
  end.
Fixpoint allowedAllB (n n0 : nat) (os : list op) (g : gr) : bool :=
  match os with [] => true | o :: r => allowedB o g && match step n n0 o g with Some g => allowedAllB n n0 r g | None => true end end.
Lemma allowedAllB_ok n n0 : forall os g, allowedAllB n n0 os g = true -> allowedAll n n0 os g.
Proof.
  induction os as [|o os IH]; intros g H; cbn [allowedAll allowedAllB] in *; auto. apply andb_prop in H as (H1 & H2). split.
  - destruct o; cbn [allowed allowedB] in *; try now apply existsb_In. apply andb_prop in H1 as (H0 & H1). split; [now apply existsb_In|].
    destruct (nth_error (g_e g) i) as [[vs_ [o|] [d|]]|]; try discriminate. eexists. split; [reflexivity|]. split; [reflexivity|discriminate].
  - destruct (step n n0 o g); auto.
Qed.
Definition reduceB {K} (k0 k1 : K) vs m sparsity fun_ os : option (option (list vinfo * list einfo * list (ex K))) :=
  match build m vs sparsity with
  | Some (vs1, g0) =>
      let n := List.length vs1 in let n0 := List.length (timeDependent vs1) in
      if allowedAllB n n0 os g0 then match run n n0 os g0 with Some g => Some (generate k0 k1 n0 vs1 g fun_) | None => None end else None
  | None => None end.
Lemma reduceB_ok {K} (k0 k1 : K) vs m sparsity fun_ os r : reduceB k0 k1 vs m sparsity fun_ os = Some r -> reduced k0 k1 vs m sparsity fun_ os r.
Proof.
  unfold reduceB, reduced. destruct (build m vs sparsity) as [(vs1 & g0)|]; [|discriminate]. cbn zeta. intro H. exists vs1, g0.
  destruct (allowedAllB _ _ os g0) eqn:A; [|discriminate]. destruct (run _ _ os g0) as [g|]; [|discriminate]. exists g. injection H as H.
  split; auto. split; [now apply allowedAllB_ok|auto].
Qed.
(** The new model: d/dt x = 2 t, d2/dt2 x = 2, with the new variable d2/dt2 x. *)
Definition resE : list vinfo * list einfo * list (ex Z) := match reduceB 0%Z 1%Z vsE 2 spE funE osE with Some (Some r) => r | _ => ([], [], []) end.
Example model_E : reduced 0%Z 1%Z vsE 2 spE funE osE (Some resE) /\
  map i_anti (fst (fst resE)) = [None; None; None; Some 0; Some 3] /\ map i_order (fst (fst resE)) = [0; 0; 0; 1; 2]%Z /\
  map q_anti (snd (fst resE)) = [None; None; Some 1; Some 2] /\
  (forall x, ev IZR (fun _ _ y => y) (fun _ _ _ y _ => y) x (nth 2 (snd resE) (ECst 0%Z)) = x 3%nat - 2 * x 2%nat)%R /\
  (forall x, ev IZR (fun _ _ y => y) (fun _ _ _ y _ => y) x (nth 3 (snd resE) (ECst 0%Z)) = x 4%nat - 2)%R.
Proof.
  split; [apply reduceB_ok; vm_compute; reflexivity|]. split; [vm_compute; reflexivity|]. split; [vm_compute; reflexivity|]. split; [vm_compute; reflexivity|].
  split; intro x; (let e := eval vm_compute in resE in change resE with e); cbn [snd nth ev]; ring.
Qed.
Ltac four j H := destruct j as [|[|[|[|j]]]]; cbn in H; [injection H as <-|injection H as <-|injection H as <-|injection H as <-|destruct j; discriminate H].
Example valid_E : validInfo vsE /\ allUsed vsE 2 spE /\ validModel (List.length vsE) funE spE /\ List.length funE = 2.
Proof.
  split; [|split; [|split; [|reflexivity]]].
  - split; [|split; [|split; [|split]]].
    + intros j v H. four j H; repeat split.
    + intros j v a H A. four j H; try discriminate A. injection A as <-. split; [reflexivity|]. exists (user_ None). split; reflexivity.
    + intros j j' v v' a H H' A A'. four j H; try discriminate A. four j' H'; try discriminate A'. reflexivity.
    + exists (fun j => j). intros j v a H A. four j H; try discriminate A. injection A as <-. lia.
    + intros j v H A. four j H; try discriminate A. reflexivity.
  - intros j v H A. four j H; try discriminate A; [exists 1|exists 0|exists 0]; split; auto.
  - intros i e H. destruct i as [|[|i]]; cbn in H; [injection H as <-|injection H as <-|destruct i; discriminate H]; (split; [cbn; auto|]);
      intros j J; cbn in J; repeat destruct J as [J|J]; subst j; cbn; split; auto; lia.
Qed.
(** A solution: x = s^2, y = 2 s, t = s, dx/dt = 2 s, d2/dt2 x = 2. *)
Definition trajE (j : nat) (s : R) : R := match j with 0 => s * s | 1 => 2 * s | 2 => s | 3 => 2 * s | _ => 2 end%R.
Example solution_E : forall s, follows (fst (fst resE)) trajE s /\
  (forall p f, nth_error (snd resE) p = Some f -> regular IZR (fun _ _ y => y) (fun _ _ _ y _ => y) (at_ trajE s) f) /\
  forall i f, nth_error funE i = Some f -> ev IZR (fun _ _ y => y) (fun _ _ _ y _ => y) (at_ trajE s) f = 0%R.
Proof.
  intro s. split; [|split].
  - assert (D1 : derivable_pt_lim (trajE 0) s (2 * s)%R).
    { replace (2 * s)%R with (1 * s + s * 1)%R by ring. apply (derivable_pt_lim_mult id id); apply derivable_pt_lim_id. }
    assert (D2 : derivable_pt_lim (fun s => 2 * s)%R s 2%R).
    { assert (X := derivable_pt_lim_scal id 2 s 1 (derivable_pt_lim_id s)). rewrite Rmult_1_r in X. exact X. }
    intros j v H. (let e := eval vm_compute in (fst (fst resE)) in change (fst (fst resE)) with e in H).
    destruct j as [|[|[|[|[|j]]]]]; cbn in H; try (injection H as <-; cbn [i_der i_fun i_int]; split; [intros d D; try discriminate D; injection D as <-|intro F; try discriminate F]; auto; fail).
    + injection H as <-. cbn [i_der i_fun i_int]. split; [intros d D; discriminate D|]. intros _. apply derivable_pt_lim_id.
    + destruct j; discriminate H.
  - intros p f H. (let e := eval vm_compute in (snd resE) in change (snd resE) with e in H).
    destruct p as [|[|[|[|p]]]]; cbn in H; [injection H as <-|injection H as <-|injection H as <-|injection H as <-|destruct p; discriminate H]; cbn; auto 12.
  - intros i f H. destruct i as [|[|i]]; cbn in H; [injection H as <-|injection H as <-|destruct i; discriminate H]; cbn; unfold at_, trajE; ring.
Qed.

(** The pendulum: x, y, vx, vy, T, dx/dt, dy/dt, dvx/dt, dvy/dt; no time variable.  The calls of the method of Pantelides:
    the equation of the length is differentiated twice and the first two once; a new variable is made for each derivative. *)
Definition vsP := [user_ None; user_ None; user_ None; user_ None; user_ None; user_ (Some 0); user_ (Some 1); user_ (Some 2); user_ (Some 3)].
Definition V_ := @EVar Z.
Definition funP : list (ex Z) := [ESub (V_ 5) (V_ 2); ESub (V_ 6) (V_ 3); ESub (V_ 7) (EMul (V_ 4) (V_ 0));
  ESub (V_ 8) (ESub (EMul (V_ 4) (V_ 1)) (ECst 10%Z)); ESub (EAdd (EMul (V_ 0) (V_ 0)) (EMul (V_ 1) (V_ 1))) (ECst 1%Z)].
Definition spP (i j : nat) : bool :=
  match i, j with 0, 5 | 0, 2 | 1, 6 | 1, 3 | 2, 7 | 2, 4 | 2, 0 | 3, 8 | 3, 4 | 3, 1 | 4, 0 | 4, 1 => true | _, _ => false end.
Definition osP := [CreateEq true 4; CreateVar 5; CreateVar 6; CreateVar 2; CreateVar 3; CreateEq true 0; CreateEq true 1; CreateEq true 5].
Definition resP := match reduceB 0%Z 1%Z vsP 5 spP funP osP with Some (Some r) => r | _ => ([], [], []) end.
Example pendulum_P : reduced 0%Z 1%Z vsP 5 spP funP osP (Some resP) /\ List.length (fst (fst resP)) = 11 /\
  map q_anti (snd (fst resP)) = [None; None; None; None; None; Some 4; Some 0; Some 1; Some 5] /\
  map i_order (fst (fst resP)) = [0; 0; 0; 0; 0; 1; 1; 1; 1; 2; 2]%Z /\ map i_oanti (fst (fst resP)) = [None; None; None; None; None; Some 0; Some 1; Some 2; Some 3; Some 0; Some 1].
Proof. split; [apply reduceB_ok; vm_compute; reflexivity|]. repeat split; vm_compute; reflexivity. Qed.
(** The hypothesis of C59_removal_ends is needed: a derivative of a variable of the removed equation which is in no equation. *)
Example create_then_remove : exists vs1 g0, build 2 vsE spE = Some (vs1, g0) /\
  allowedAllB 4 3 [CreateEq true 1; CreateEq true 2; CreateVar 3; Remove 3] g0 = true /\
  run 4 3 [CreateEq true 1; CreateEq true 2; CreateVar 3; Remove 3] g0 = None.
Proof. eexists. eexists. split; [vm_compute; reflexivity|]. split; vm_compute; reflexivity. Qed.

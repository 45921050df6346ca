(** * The graph of a model as built by the constructor is a structure of the index reductions (C44, C45, C62) *)
From Coq Require Import List Arith Bool Lia ZArith.
From Verif Require Import Match_model Match_spec Match_struct Match_init Match_examples Soares_model Soares_spec Soares_thm.
From Verif Require Import DaeGen_model DaeGen_spec DaeGen_lists DaeGen_build DaeGen_thm.
Import ListNotations.
Local Open Scope nat_scope.

Lemma chain_mono vs : forall fuel j k, chain fuel vs j = Some k -> chain (S fuel) vs j = Some k.
Proof.
  induction fuel as [|fuel IH]; intros j k H; [discriminate|].
  cbn [chain] in H. remember (S fuel) as f eqn:E. cbn [chain]. destruct (nth_error vs j) as [v|]; [|exact H].
  destruct (i_anti v) as [a|]; [|exact H]. destruct (chain fuel vs a) as [k'|] eqn:C; [|discriminate].
  apply IH in C. rewrite C. exact H.
Qed.
Lemma diffOrder_anti vs t v a w k : nth_error vs t = Some v -> i_anti v = Some a -> nth_error vs a = Some w -> i_fun w = true ->
  diffOrder vs t = Some (Some k) -> exists k', k = S k' /\ diffOrder vs a = Some (Some k').
Proof.
  intros T A W F D. unfold diffOrder in *. rewrite T in D. destruct (i_fun v); [|discriminate]. rewrite W, F.
  destruct (chain (S (List.length vs)) vs t) as [k0|] eqn:C; [|discriminate]. injection D as ->.
  cbn [chain] in C. rewrite T, A in C. destruct (chain (List.length vs) vs a) as [k'|] eqn:Ca; [|discriminate]. injection C as <-.
  exists k'. split; [reflexivity|]. apply chain_mono in Ca. rewrite Ca. reflexivity.
Qed.
Lemma posOf_levels (f : nat -> list nat) : forall l x y o p,
  NoDup l -> In x (f o) -> In y (f p) -> (forall a b z, In z (f a) -> In z (f b) -> a = b) ->
  (exists l1 l2, l = l1 ++ o :: l2 /\ In p l2) -> posOf x (concat (map f l)) < posOf y (concat (map f l)).
Proof.
  intros l x y o p N X Y U (l1 & l2 & -> & P). induction l1 as [|a l1 IH]; cbn [app map concat].
  - cbn [app] in N. inversion N as [|? ? Na Nl]; subst. rewrite posOf_app1 by exact X. rewrite posOf_app2.
    + apply posOf_lt in X. lia.
    + intros Z. assert (o = p) by (eapply U; eauto). congruence.
  - cbn [app] in N. inversion N as [|? ? Na Nl]; subst. rewrite !posOf_app2.
    + apply Nat.add_lt_mono_l. apply IH. exact Nl.
    + intros Z. assert (E : a = p) by (eapply U; eauto). subst a. apply Na. apply in_or_app. right. right. exact P.
    + intros Z. assert (E : a = o) by (eapply U; eauto). subst a. apply Na. apply in_or_app. right. left. reflexivity.
Qed.
Lemma seq_split o p n : o < p -> p < n -> exists l1 l2, seq 0 n = l1 ++ o :: l2 /\ In p l2.
Proof.
  intros L M. exists (seq 0 o), (seq (S o) (n - S o)). split.
  - replace n with (o + S (n - S o)) at 1 by lia. rewrite seq_app. reflexivity.
  - apply in_seq. lia.
Qed.
(** An antiderivative is before its derivatives. *)
Lemma anti_before vs t v a w : nth_error vs t = Some v -> i_fun v = true -> i_anti v = Some a ->
  nth_error vs a = Some w -> i_fun w = true ->
  (forall j, j < List.length vs -> diffOrder vs j <> None) ->
  posOf a (timeDependent vs) < posOf t (timeDependent vs).
Proof.
  intros T F A W Fw Fin. assert (Lt := nth_lt _ _ _ T). assert (La := nth_lt _ _ _ W).
  destruct (diffOrder vs t) as [[k|]|] eqn:D.
  2: { unfold diffOrder in D. rewrite T, F in D. destruct (chain _ vs t); discriminate. }
  2: { exfalso. exact (Fin t Lt D). }
  destruct (diffOrder_anti vs t v a w k T A W Fw D) as (k' & -> & Da).
  assert (B : S k' < S (List.length vs)).
  { unfold diffOrder in D. rewrite T, F in D. destruct (chain _ vs t) as [k0|] eqn:C; [|discriminate]. injection D as ->. apply chain_lt in C. exact C. }
  unfold timeDependent. apply (posOf_levels (fun o => filter (fun j => match diffOrder vs j with Some (Some k) => k =? o | _ => false end) (seq 0 (List.length vs))) _ a t k' (S k')).
  - apply seq_NoDup.
  - apply filter_In. split; [apply in_seq; lia|]. rewrite Da. apply Nat.eqb_refl.
  - apply filter_In. split; [apply in_seq; lia|]. rewrite D. apply Nat.eqb_refl.
  - intros b c z Z Z'. apply filter_In in Z. apply filter_In in Z'. destruct Z as [_ Z]. destruct Z' as [_ Z'].
    destruct (diffOrder vs z) as [[q|]|]; try discriminate. apply Nat.eqb_eq in Z. apply Nat.eqb_eq in Z'. congruence.
  - apply seq_split; lia.
Qed.

Section Structure.
Variables (vs vs1 : list vinfo) (m : nat) (sparsity : nat -> nat -> bool) (g : gr).
Hypothesis V : validInfo vs.
Hypothesis B : build m vs sparsity = Some (vs1, g).
Let ts := timeDependent vs1.

Lemma build_finite : forall j, j < List.length vs1 -> diffOrder vs1 j <> None.
Proof.
  intros j L D. unfold build in B. destruct (orders _ _) as [w|] eqn:O; [|discriminate].
  destruct (1 <? _) eqn:T; [discriminate|]. destruct (existsb _ (seq 0 (List.length w))) eqn:E; [discriminate|].
  destruct (negb (forallb _ _)) eqn:F; [discriminate|]. destruct (negb (unknowns _ =? m)); [discriminate|].
  injection B as -> _. assert (X : existsb (fun j => match diffOrder vs1 j with None => true | _ => false end) (seq 0 (List.length vs1)) = true); [|congruence].
  apply existsb_exists. exists j. split; [apply in_seq; lia|]. now rewrite D.
Qed.
Lemma build_unknowns : unknowns (vnodesOf vs1) = m.
Proof.
  unfold build in B. destruct (orders _ _) as [w|] eqn:O; [|discriminate].
  destruct (1 <? _) eqn:T; [discriminate|]. destruct (existsb _ (seq 0 (List.length w))) eqn:E; [discriminate|].
  destruct (negb (forallb _ _)) eqn:F; [discriminate|]. destruct (negb (unknowns _ =? m)) eqn:U; [discriminate|].
  injection B as -> _. apply negb_false_iff in U. now apply Nat.eqb_eq.
Qed.

Lemma nodes_numbered : well_numbered (map DaeGen_model.v_anti (g_v g)).
Proof.
  destruct (build_facts vs vs1 m sparsity g V B) as (I & _ & ND & TI & TA & E). fold ts in ND, TI, TA, E.
  assert (A1 : forall k a, nth k (map DaeGen_model.v_anti (g_v g)) None = Some a ->
    exists t b, nth_error ts k = Some t /\ antiOf vs1 t = Some b /\ a = posOf b ts).
  { intros k a H. rewrite E in H. cbn [g_v] in H. assert (L : k < List.length ts).
    { apply nth_Some_lt in H. unfold vnodesOf in H. rewrite !map_length in H. exact H. }
    destruct (lt_nth ts k L) as (t & T).
    assert (N : nth_error (map DaeGen_model.v_anti (vnodesOf vs1)) k = Some (option_map (fun a => posOf a ts) (antiOf vs1 t))).
    { rewrite nth_error_map. rewrite (node_nth vs1). fold ts. rewrite T. reflexivity. }
    rewrite (nth_error_nth _ _ None N) in H. destruct (antiOf vs1 t) as [b|] eqn:Q; [|discriminate]. injection H as <-. eauto. }
  split.
  - intros k a H. destruct (A1 k a H) as (t & b & T & Q & ->).
    assert (It : In t ts) by (eapply nth_error_In; eauto). assert (Ib := TA t b It Q).
    apply TI in It as Ht. destruct Ht as (v & Hv & Fv). apply TI in Ib as Hb. destruct Hb as (w & Hw & Fw).
    rewrite <- (nth_posOf t ts k ND T) at 1. unfold antiOf in Q. rewrite Hv in Q.
    exact (anti_before vs1 t v b w Hv Fv Q Hw Fw build_finite).
  - intros k k' a H H'. destruct (A1 k a H) as (t & b & T & Q & Ea). destruct (A1 k' a H') as (t' & b' & T' & Q' & Ea').
    assert (It : In t ts) by (eapply nth_error_In; eauto). assert (It' : In t' ts) by (eapply nth_error_In; eauto).
    assert (Eb : b = b'). { apply (posOf_inj b b' ts); [exact (TA t b It Q)|exact (TA t' b' It' Q')|congruence]. } subst b'.
    assert (F := find_der vs vs1 m sparsity g V B t b It Q). assert (F' := find_der vs vs1 m sparsity g V B t' b It' Q').
    rewrite F in F'. injection F' as <-. rewrite <- (nth_posOf t ts k ND T). apply nth_posOf; auto.
Qed.
Lemma rows_in : forall r, In r (map DaeGen_model.e_vars (g_e g)) -> forall j, In j r -> j < List.length (map DaeGen_model.v_anti (g_v g)).
Proof.
  destruct (build_facts vs vs1 m sparsity g V B) as (_ & _ & ND & _ & _ & E). fold ts in ND, E.
  intros r R j J. rewrite E in R |- *. cbn [g_e g_v] in R |- *. unfold vnodesOf. rewrite !map_length. fold ts.
  rewrite map_map in R. apply in_map_iff in R as (i & <- & _). cbn [DaeGen_model.e_vars] in J. apply in_map_iff in J as (p & <- & P).
  apply filter_In in P as (_ & P). apply andb_true_iff in P as (P & _). apply posOf_lt. now apply existsb_In.
Qed.
End Structure.

(** ** The variables and equations of [init_graph] *)
Lemma add_links g i j v : Match_model.v_anti (gv (add_variable g i j) v) = Match_model.v_anti (gv g v) /\
  Match_model.v_der (gv (add_variable g i j) v) = Match_model.v_der (gv g v).
Proof.
  unfold add_variable. destruct (existsb _ _); [auto|]. cbv zeta. destruct (v_del _); cbn [updv upde gv]; [auto|].
  destruct (v =? j) eqn:E; [apply Nat.eqb_eq in E; subst v; auto|auto].
Qed.
Lemma init_links anti rows v : Match_model.v_anti (gv (init_graph anti rows) v) = nth v anti None.
Proof.
  unfold init_graph. set (g0 := Gr _ _ _ _). change (nth v anti None) with (Match_model.v_anti (gv g0 v)). clearbody g0.
  generalize (seq 0 (length rows)). intros l. revert g0. induction l as [|i l IH]; intros g0; cbn [fold_left]; [reflexivity|].
  rewrite IH. generalize (nth i rows []). intros r. revert g0. induction r as [|j r IHr]; intros g0; cbn [fold_left]; [reflexivity|].
  rewrite IHr. apply add_links.
Qed.
Lemma add_row g i : forall r, MG g -> i < ne g -> (forall j, In j r -> j < nv g) ->
  let g' := fold_left (fun g j => add_variable g i j) r g in
  MG g' /\ nv g' = nv g /\ ne g' = ne g /\ (forall e, e <> i -> ge g' e = ge g e) /\
  (forall x, In x (e_orig (ge g' i)) <-> In x (e_orig (ge g i)) \/ In x r).
Proof.
  intros r. revert g. induction r as [|j r IH]; intros g HM Hi Hr; cbv zeta; cbn [fold_left].
  - split; [exact HM|]. split; [reflexivity|]. split; [reflexivity|]. split; [reflexivity|]. intros x. cbn [In]. tauto.
  - assert (Hj : j < nv g) by (apply Hr; left; reflexivity).
    destruct (add_MG g i j HM Hi Hj) as (A & N1 & N2). destruct (add_variable_ok g i j (proj1 HM) Hi Hj) as (_ & _ & _ & _ & E & _ & X).
    destruct (IH (add_variable g i j) A) as (A' & N1' & N2' & E' & X'); [lia|intros k Hk; rewrite N1; apply Hr; right; exact Hk|].
    split; [exact A'|]. split; [lia|]. split; [lia|]. split.
    + intros e Ne. rewrite (E' e Ne). apply E. exact Ne.
    + intros x. rewrite X', X. cbn [In]. intuition auto.
Qed.
Lemma init_rows anti rows : well_numbered anti ->
  (forall r, In r rows -> forall j, In j r -> j < length anti) ->
  forall i x, i < length rows -> (In x (e_orig (ge (init_graph anti rows) i)) <-> In x (nth i rows [])).
Proof.
  intros W HR. unfold init_graph. set (g0 := Gr _ _ _ _).
  assert (H0 : MG g0).
  { destruct (init_MG anti [] W) as (M0 & _); [intros r []|]. apply MG_model in M0. destruct M0 as (S0 & E0 & V0). split; [|split].
    - destruct S0 as [s1 s2 s3 s4 s5 s6 s7 s8]. constructor; auto; cbn; try (intros; contradiction); try (intros; discriminate).
    - intros e. cbn. auto.
    - intros v. cbn. auto. }
  assert (N1 : nv g0 = length anti) by reflexivity. assert (N2 : ne g0 = length rows) by reflexivity.
  assert (O0 : forall e, e_orig (ge g0 e) = []) by reflexivity. clearbody g0.
  assert (Gen : forall l g, NoDup l -> (forall i, In i l -> i < length rows) -> MG g -> nv g = length anti -> ne g = length rows ->
    let g' := fold_left (fun g i => fold_left (fun g j => add_variable g i j) (nth i rows []) g) l g in
    (forall e, ~ In e l -> ge g' e = ge g e) /\
    forall i x, In i l -> (In x (e_orig (ge g' i)) <-> In x (e_orig (ge g i)) \/ In x (nth i rows []))).
  { induction l as [|i l IH]; intros g ND Hl HM Hn Hm; cbv zeta; cbn [fold_left]; [split; [reflexivity|intros i x []]|].
    inversion ND as [|? ? Ni Nl]; subst. assert (Hi : i < length rows) by (apply Hl; left; reflexivity).
    destruct (add_row g i (nth i rows []) HM) as (A & B & C & D & X); [lia|rewrite Hn; apply HR, nth_In; exact Hi|].
    destruct (IH (fold_left (fun g j => add_variable g i j) (nth i rows []) g) Nl) as (P & Q); [intros k Hk; apply Hl; right; exact Hk|exact A|lia|lia|].
    split.
    - intros e Ne. rewrite P by (intros Z; apply Ne; right; exact Z). apply D. intros ->. apply Ne. left. reflexivity.
    - intros k x [<-|Hk]; [rewrite P by exact Ni; apply X|]. rewrite (Q k x Hk). rewrite D by (intros ->; contradiction). tauto. }
  intros i x Hi. destruct (Gen (seq 0 (length rows)) g0 (seq_NoDup _ _)) as (_ & Q); auto.
  { intros k Hk. apply in_seq in Hk. lia. }
  rewrite (Q i x) by (apply in_seq; lia). rewrite O0. cbn [In]. tauto.
Qed.

Lemma filter_map_len {A B} (f : A -> B) (p : B -> bool) l : List.length (filter p (map f l)) = List.length (filter (fun a => p (f a)) l).
Proof. induction l as [|a l IH]; [reflexivity|]. cbn [map filter]. destruct (p (f a)); cbn [List.length]; rewrite IH; reflexivity. Qed.
Lemma filter_nth_len {A} (p : A -> bool) (l : list A) (q : nat -> bool) :
  (forall k a, nth_error l k = Some a -> p a = q k) -> List.length (filter p l) = List.length (filter q (seq 0 (List.length l))).
Proof.
  intros H. revert q H. induction l as [|a l IH]; intros q H; [reflexivity|]. cbn [List.length seq filter].
  rewrite (H 0 a eq_refl). rewrite <- seq_shift.
  assert (E := IH (fun k => q (S k)) (fun k b Hb => H (S k) b Hb)). destruct (q 0); cbn [List.length]; rewrite filter_map_len, E; reflexivity.
Qed.

(** What the constructor of the graph makes of a model is a structure as the theorems about the methods of Pantelides (C45) and
    of Soares and Secchi (C62) need it: the variables are numbered by their order of derivation, so that derivatives come
    after their antiderivatives, the links are those of the nodes, the equations have the variables of the pattern, and the
    number of equations is the one that was checked. *)
Theorem C59_structure : forall vs m sparsity vs1 g,
  validInfo vs -> build m vs sparsity = Some (vs1, g) ->
  let G := init_graph (map DaeGen_model.v_anti (g_v g)) (map DaeGen_model.e_vars (g_e g)) in
  model_graph G /\ well_determined G /\ nv G = List.length (g_v g) /\ ne G = m /\
  (forall k v, nth_error (g_v g) k = Some v ->
     Match_model.v_anti (gv G k) = DaeGen_model.v_anti v /\ Match_model.v_der (gv G k) = DaeGen_model.v_der v) /\
  (forall i v k, nth_error (g_v g) k = Some v -> i < m -> (In k (e_orig (ge G i)) <-> sparsity i (v_tape v) = true)) /\
  (forall j v, nth_error vs j = Some v -> i_fun v = true -> exists k w, nth_error (g_v g) k = Some w /\ v_tape w = j).
Proof.
  intros vs m sparsity vs1 g V B G.
  destruct (build_facts vs vs1 m sparsity g V B) as (I & _ & ND & TI & TA & E).
  set (ts := timeDependent vs1) in *.
  assert (W := nodes_numbered vs vs1 m sparsity g V B). assert (R := rows_in vs vs1 m sparsity g V B).
  destruct (init_MG _ _ W R) as (M & NV & NE). fold G in M, NV, NE. rewrite map_length in NV, NE.
  assert (LE : List.length (g_e g) = m) by (rewrite E; cbn [g_e]; rewrite map_length, seq_length; reflexivity).
  rewrite LE in NE.
  assert (Inv := initial_inv vs vs1 m sparsity g V B).
  assert (LV : List.length (g_v g) = List.length ts) by (rewrite E; cbn [g_v]; unfold vnodesOf; now rewrite map_length).
  assert (Node : forall k v, nth_error (g_v g) k = Some v -> exists t, nth_error ts k = Some t /\
     v = mkV t (option_map (fun a => posOf a ts) (antiOf vs1 t)) (option_map (fun d => posOf d ts) (find (isAnti vs1 t) (rev ts)))).
  { intros k v H. rewrite E in H. cbn [g_v] in H. rewrite (node_nth vs1) in H. fold ts in H. destruct (nth_error ts k) as [t|] eqn:T; [|discriminate].
    injection H as <-. eauto. }
  assert (An : forall k v, nth_error (g_v g) k = Some v -> Match_model.v_anti (gv G k) = DaeGen_model.v_anti v).
  { intros k v H. unfold G. rewrite init_links. apply nth_error_nth. rewrite nth_error_map, H. reflexivity. }
  assert (De : forall k v, nth_error (g_v g) k = Some v -> Match_model.v_der (gv G k) = DaeGen_model.v_der v).
  { intros k v H. destruct (Node k v H) as (t & T & Ev).
    assert (It : In t ts) by (eapply nth_error_In; eauto).
    assert (Pk : posOf t ts = k) by (apply nth_posOf; auto).
    destruct (DaeGen_model.v_der v) as [d|] eqn:D.
    - apply (mg_der G M). rewrite Ev in D. cbn [DaeGen_model.v_der] in D. destruct (find _ _) as [d0|] eqn:F; [|discriminate]. injection D as <-.
      apply find_some in F as (F1 & F2). apply in_rev in F1. unfold isAnti in F2. destruct (antiOf vs1 d0) as [b|] eqn:Q; [|discriminate]. apply Nat.eqb_eq in F2. subst b.
      assert (L := posOf_lt _ _ F1). rewrite <- LV in L. destruct (lt_nth (g_v g) _ L) as (w & Hw). rewrite (An _ _ Hw).
      destruct (Node _ _ Hw) as (t' & T' & ->). cbn [DaeGen_model.v_anti]. rewrite (posOf_nth _ _ F1) in T'. injection T' as <-.
      rewrite Q. cbn [option_map]. rewrite Pk. reflexivity.
    - destruct (Match_model.v_der (gv G k)) as [w|] eqn:Dw; [|reflexivity]. exfalso.
      assert (Lw : w < List.length (g_v g)) by (rewrite <- NV; apply (mg_lt G M) in Dw; lia).
      apply (mg_der G M) in Dw. destruct (lt_nth _ _ Lw) as (u & Hu). rewrite (An _ _ Hu) in Dw. destruct (Node _ _ Hu) as (t' & T' & Eu).
      rewrite Eu in Dw. cbn [DaeGen_model.v_anti] in Dw. destruct (antiOf vs1 t') as [b|] eqn:Q; [|discriminate]. injection Dw as Pb.
      assert (It' : In t' ts) by (eapply nth_error_In; eauto). assert (Ib := TA t' b It' Q).
      assert (b = t) by (apply (posOf_inj b t ts); auto; congruence). subst b.
      rewrite Ev in D. cbn [DaeGen_model.v_der] in D. pose proof (find_der vs vs1 m sparsity g V B t' t It' Q) as Fd. fold ts in Fd. rewrite Fd in D. discriminate. }
  split; [exact M|]. split; [|split; [exact NV|split; [exact NE|split; [|split]]]].
  - unfold well_determined. rewrite NV, NE. rewrite <- (build_unknowns vs vs1 m sparsity g B). unfold unknowns. rewrite <- (filter_nth_len (fun w => match DaeGen_model.v_anti w, DaeGen_model.v_der w with None, Some _ => false | _, _ => true end)).
    + rewrite E. reflexivity.
    + intros k v H. rewrite (An _ _ H), (De _ _ H). destruct (DaeGen_model.v_anti v), (DaeGen_model.v_der v); reflexivity.
  - intros k v H. split; [apply (An _ _ H)|apply (De _ _ H)].
  - intros i v k H L. unfold G. rewrite (init_rows _ _ W R) by (rewrite map_length, LE; exact L).
    destruct (Node k v H) as (t & T & ->). cbn [v_tape].
    assert (It : In t ts) by (eapply nth_error_In; eauto).
    assert (Q : nth i (map DaeGen_model.e_vars (g_e g)) [] = map (fun p => posOf p ts) (filter (fun p => existsb (Nat.eqb p) ts && sparsity i p) (seq 0 (List.length vs1)))).
    { apply nth_error_nth. rewrite E. cbn [g_e]. rewrite map_map, nth_error_map. rewrite nth_error_nth' with (d := 0) by (rewrite seq_length; exact L).
      rewrite seq_nth by exact L. reflexivity. }
    rewrite Q, in_map_iff. split.
    + intros (p & P & F). apply filter_In in F as (_ & F). apply andb_true_iff in F as (F1 & F2). apply existsb_In in F1.
      assert (p = t); [|congruence]. apply (posOf_inj p t ts); auto. rewrite P. symmetry. apply nth_posOf; auto.
    + intros S. exists t. split; [apply nth_posOf; auto|]. apply filter_In. split.
      * apply TI in It as (w & Hw & _). apply nth_lt in Hw. apply in_seq. lia.
      * apply andb_true_iff. split; [|exact S]. apply existsb_exists. exists t. split; [exact It|apply Nat.eqb_refl].
  - intros j v H F. assert (Lj := nth_lt _ _ _ H). rewrite <- (b_len _ _ I) in Lj. destruct (lt_nth vs1 j Lj) as (v1 & H1).
    destruct (b_nth _ _ I j v1 H1) as (_ & _ & v2 & Hv & _ & Ff & _). assert (v2 = v) by congruence. subst v2.
    assert (Ij : In j ts) by (apply TI; exists v1; split; [exact H1|congruence]).
    assert (L := posOf_lt _ _ Ij). rewrite <- LV in L. destruct (lt_nth (g_v g) _ L) as (w & Hw). exists (posOf j ts), w. split; [exact Hw|].
    destruct (Node _ _ Hw) as (t & T & ->). cbn [v_tape]. rewrite (posOf_nth _ _ Ij) in T. congruence.
Qed.
Print Assumptions C59_structure.

(** So for the information and the pattern of any model, the method of Soares and Secchi ends: it refuses the model or returns
    a structure of ordinary differential equations. *)
Theorem C62_models : forall vs m sparsity vs1 g ord fuel,
  validInfo vs -> build m vs sparsity = Some (vs1, g) -> Soares_spec.orders ord ->
  2 * List.length (g_v g) + 1 < fuel ->
  let G := init_graph (map DaeGen_model.v_anti (g_v g)) (map DaeGen_model.e_vars (g_e g)) in
  (exists G', soares fuel ord G = SThrow G') \/
  exists G' last, soares fuel ord G = SDone G' last /\ ode_structure G' /\ total_derivatives G' /\ keeps_original G G' /\
    removable G' (last_added G' last) /\ exists t, transversal G t.
Proof.
  intros vs m sparsity vs1 g ord fuel V B O L G.
  destruct (C59_structure vs m sparsity vs1 g V B) as (M & _ & NV & _). fold G in M, NV.
  assert (U : uncoloured G) by apply init_uncoloured.
  destruct (soares fuel ord G) as [G' last|G'| | |] eqn:E.
  - right. exists G', last. split; [reflexivity|]. destruct (C62_result fuel ord G G' last O M U E) as (A & A2 & A3 & A4 & _).
    split; [exact A|]. split; [exact A2|]. split; [exact A3|]. split; [exact A4|]. exact (C62_success_means_regular fuel ord G G' last O M U E).
  - left. eauto.
  - exfalso. exact (proj1 (C62_defined fuel ord G O M U) E).
  - exfalso. rewrite <- NV in L. exact (C62_ends fuel ord G O M U L E).
  - exfalso. exact (proj2 (C62_defined fuel ord G O M U) E).
Qed.
Print Assumptions C62_models.

(** A model in which a derivative is given before its antiderivative: variables dx/dt, x, d2/dt2 x, z. *)
Definition vsB := [user_ (Some 1); user_ None; user_ (Some 0); user_ None].
Definition spB (i j : nat) : bool := match i, j with 0, 2 | 0, 1 | 1, 0 | 1, 3 | 2, 3 => true | _, _ => false end.
Example structure_B : validInfo vsB /\ exists vs1 g, build 3 vsB spB = Some (vs1, g) /\
  map v_tape (g_v g) = [1; 3; 0; 2] /\ map DaeGen_model.v_anti (g_v g) = [None; None; Some 0; Some 2] /\
  map DaeGen_model.e_vars (g_e g) = [[0; 3]; [2; 1]; [1]].
Proof.
  split.
  - split; [|split; [|split; [|split]]].
    + intros j v H. do 4 (destruct j as [|j]; [injection H as <-; repeat split|]). destruct j; discriminate H.
    + intros j v a H A. do 4 (destruct j as [|j]; [injection H as <-; try discriminate A; injection A as <-; (split; [reflexivity|eexists; split; reflexivity])|]). destruct j; discriminate H.
    + intros j j' v v' a H H' A A'.
      do 4 (destruct j as [|j]; [injection H as <-; try discriminate A; injection A as <-;
        do 4 (destruct j' as [|j']; [injection H' as <-; try discriminate A'; reflexivity|]); destruct j'; discriminate H'|]). destruct j; discriminate H.
    + exists (fun j => match j with 1 => 0 | 0 => 1 | _ => 2 end). intros j v a H A.
      do 4 (destruct j as [|j]; [injection H as <-; try discriminate A; injection A as <-; lia|]). destruct j; discriminate H.
    + intros j v H A. do 4 (destruct j as [|j]; [injection H as <-; discriminate A|]). destruct j; discriminate H.
  - eexists. eexists. split; [vm_compute; reflexivity|]. repeat split; vm_compute; reflexivity.
Qed.

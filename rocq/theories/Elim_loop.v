(** * Proofs: assignments, passes and loops *)
From Coq Require Import List Bool Arith Lia.
From Verif Require Import Match_model Match_spec Match_thm Elim_model Elim_spec Elim_graph.
Import ListNotations.

Section Loops.
Variable X : Type.
Variable solvable : X -> nat -> nat -> bool.
Variable subst : X -> nat -> nat -> option X.
Variable vs : list nat.        (* the variables to eliminate *)
Variable free : list nat.
Variable m : nat.
Variable x0 : X.
Hypothesis Hfree : forall v, In v free -> In v vs.
Notation est := (est X).
Notation eg := (eg X).
Notation ex := (ex X).
Notation assign := (assign X solvable subst free).

Record inv (s : est) : Prop := {
  i_g : gok vs m (eg s);
  i_m : matching (eg s);
  i_d : forall v, v_asg (gv (eg s) v) <> None -> v_del (gv (eg s) v) = true;
  i_e : forall v, v_del (gv (eg s) v) = true -> v_asg (gv (eg s) v) <> None;
  i_v : forall v e, v_asg (gv (eg s) v) = Some e -> In v vs /\ e < m;
  i_p : exists l, eliminations subst x0 l = Some (ex s) /\ one_to_one l /\ forall i j, In (i, j) l <-> v_asg (gv (eg s) j) = Some i }.
Definition mu (s : est) : nat := open (eg s) m.

Lemma eliminations_app x l i j : eliminations subst x (l ++ [(i, j)]) = match eliminations subst x l with Some x1 => subst x1 i j | None => None end.
Proof.
  revert x. induction l as [|[a b] l IH]; intros x; cbn [app eliminations]; [destruct (subst x i j); reflexivity|].
  destruct (subst x a b); [apply IH|reflexivity].
Qed.
Lemma NoDup_snoc {A} (l : list A) a : NoDup l -> ~ In a l -> NoDup (l ++ [a]).
Proof.
  induction l as [|b l IH]; cbn; intros N H; [constructor; [tauto|constructor]|]. inversion N; subst.
  constructor; [rewrite in_app_iff; cbn [In]; intros [B|[B|[]]]; [tauto|subst; tauto]|apply IH; tauto].
Qed.
Lemma affected_lt s i j a : ne (eg s) = m -> In a (affected X s i j) -> a < m.
Proof. unfold affected. intros E H. apply filter_In in H. destruct H as [H _]. apply in_seq in H. lia. Qed.
Lemma changes_ok s x1 i j : gok vs m (eg s) -> gok vs m (changes X solvable free s x1 i j) /\ same_asg (eg s) (changes X solvable free s x1 i j).
Proof.
  intros G. unfold changes. apply (fold_ok vs m _ (fun a => a < m)); [|exact G|intros a Ha; exact (affected_lt s i j a (o_ne _ _ _ G) Ha)].
  intros g a Gg Ha. apply (fold_ok vs m _ (fun v => In v vs)); [|exact Gg|exact Hfree].
  intros g1 v G1 Hv. unfold change. destruct (newJac _ _ _ _ _ _ _); [|split; [exact G1|apply same_asg_refl]].
  destruct (solv _ _ _ _ _ _ _ _ _); [apply add_ok; assumption|apply del_ok; assumption].
Qed.
(** the assignment of [j] to [i] from a graph with the assignments of [s] *)
Lemma assigned_inv s g1 x1 jac i j : inv s -> gok vs m g1 -> same_asg (eg s) g1 -> subst (ex s) i j = Some x1 ->
  i < m -> e_asg (ge (eg s) i) = None -> v_del (gv (eg s) j) = false -> In j vs ->
  inv (mkE X (delete_node (set_assign g1 j i) j) x1 jac) /\ mu (mkE X (delete_node (set_assign g1 j i) j) x1 jac) < mu s.
Proof.
  intros I G1 [SV SE] HS Hi He Hd Hj.
  assert (Vj : v_asg (gv (eg s) j) = None) by (destruct (v_asg (gv (eg s) j)) eqn:V; [assert (v_del (gv (eg s) j) = true) by (apply (i_d _ I); congruence); congruence|reflexivity]).
  destruct (delete_ok vs m (set_assign g1 j i) j (set_assign_ok vs m g1 j i G1)) as (D1 & D2 & D3 & D4).
  assert (V : forall v, v_asg (gv (delete_node (set_assign g1 j i) j) v) = if v =? j then Some i else v_asg (gv (eg s) v))
    by (intros v; rewrite D2, set_assign_v; destruct (SV v) as [-> _]; reflexivity).
  assert (E : forall e, e_asg (ge (delete_node (set_assign g1 j i) j) e) = if e =? i then Some j else e_asg (ge (eg s) e))
    by (intros e; rewrite D3, set_assign_e, SE; reflexivity).
  split; [split; cbn [Elim_model.eg Elim_model.ex]|].
  - exact D1.
  - intros v e. rewrite V, E. pose proof (i_m _ I v e) as M. at_node v j; at_node e i; split; intros H; try congruence.
    + apply (i_m _ I j e) in H. congruence.
    + apply (i_m _ I v i) in H. congruence.
    + apply M; exact H.
    + apply M; exact H.
  - intros v. rewrite V, D4, set_assign_del. destruct (SV v) as [_ ->]. at_node v j; [reflexivity|]. apply (i_d _ I).
  - intros v. rewrite V, D4, set_assign_del. destruct (SV v) as [_ ->]. at_node v j; [discriminate|]. apply (i_e _ I).
  - intros v e. rewrite V. at_node v j; [intros [= <-]; auto|apply (i_v _ I)].
  - destruct (i_p _ I) as (l & L1 & [L2 L3] & L4). exists (l ++ [(i, j)]). split; [rewrite eliminations_app, L1; exact HS|]. split; [split|].
    + rewrite map_app. apply NoDup_snoc; [exact L2|]. intros B. apply in_map_iff in B. destruct B as ([a b] & B1 & B2). cbn in B1. subst a.
      apply L4 in B2. apply (i_m _ I) in B2. congruence.
    + rewrite map_app. apply NoDup_snoc; [exact L3|]. intros B. apply in_map_iff in B. destruct B as ([a b] & B1 & B2). cbn in B1. subst b.
      apply L4 in B2. congruence.
    + intros a b. rewrite V, in_app_iff, L4. cbn [In]. at_node b j; split; intros H.
      * destruct H as [H|[H|[]]]; congruence.
      * right. left. congruence.
      * destruct H as [H|[H|[]]]; congruence.
      * left. exact H.
  - apply (open_lt _ _ m i Hi He); cbn [Elim_model.eg]; [rewrite E, Nat.eqb_refl; discriminate|].
    intros e Q. rewrite E. destruct (e =? i) eqn:Q'; [apply Nat.eqb_eq in Q'; congruence|reflexivity].
Qed.

(** outcome of a step which says whether something was assigned; [b] what is known before *)
Definition good (s : est) (b : bool) (r : eout (bool * est)) : Prop :=
  match r with
  | EOk (c, s') => inv s' /\ mu s' <= mu s /\ (c = true -> b = true \/ mu s' < mu s)
  | EThrow => True | ENull => False | EFuel => False
  end.
Lemma assign_good s i j : inv s -> i < m -> e_asg (ge (eg s) i) = None -> v_del (gv (eg s) j) = false -> In j vs -> good s false (assign s i j).
Proof.
  intros I Hi He Hd Hj. unfold Elim_model.assign. destruct (subst (ex s) i j) as [x1|] eqn:S; [|exact Logic.I].
  destruct (affected X s i j) as [|a l].
  - destruct (assigned_inv s (eg s) x1 (newJac X free s i j) i j I (i_g _ I) (same_asg_refl _) S Hi He Hd Hj) as [A B].
    cbn [good]. split; [exact A|]. split; [lia|]. intros _. right. exact B.
  - destruct (stays _ _ _ _ _ _ _).
    + destruct (changes_ok s x1 i j (i_g _ I)) as [G1 S1].
      destruct (assigned_inv s _ x1 (newJac X free s i j) i j I G1 S1 S Hi He Hd Hj) as [A B].
      cbn [good]. split; [exact A|]. split; [lia|]. intros _. right. exact B.
    + cbn [good]. split; [exact I|]. split; [lia|discriminate].
Qed.
Lemma good_weaken s s' b b' r : mu s' <= mu s -> (b' = true -> b = true \/ mu s' < mu s) -> good s' b' r -> good s b r.
Proof.
  intros L H G. destruct r as [[c t]| | |]; cbn [good] in *; try exact G. destruct G as (A & B & C). split; [exact A|]. split; [lia|].
  intros E. specialize (C E). destruct C as [C|C]; [specialize (H C); destruct H; [left; assumption|right; lia]|right; lia].
Qed.
Lemma passVars_good must js : (forall j, In j js -> In j vs) -> forall s b, inv s -> good s b (passVars X solvable subst free must js s b).
Proof.
  induction js as [|j js IH]; intros L s b I; cbn [passVars].
  - cbn [good]. split; [exact I|]. split; [lia|]. intros H. left. exact H.
  - assert (L' : forall k, In k js -> In k vs) by (intros k K; apply L; right; exact K). specialize (IH L').
    destruct (v_del (gv (eg s) j)) eqn:D; [apply IH; exact I|].
    destruct (v_eqs (gv (eg s) j)) as [|i [|i' t]] eqn:Q; try (apply IH; exact I).
    destruct (is_none (e_asg (ge (eg s) i))) eqn:N; [|apply IH; exact I]. apply is_none_true in N.
    assert (Hi : i < m) by (apply (o_rng _ _ _ (i_g _ I) j); rewrite Q; left; reflexivity).
    pose proof (assign_good s i j I Hi N D (L j (or_introl eq_refl))) as G.
    destruct (assign s i j) as [[c s']| | |]; cbn [good ebind fst snd] in G |- *; try exact G.
    destruct G as (G1 & G2 & G3). destruct c.
    + apply (good_weaken s s' b true); [exact G2| |apply IH; exact G1]. intros _. destruct (G3 eq_refl) as [G|G]; [discriminate|right; exact G].
    + destruct must; [exact Logic.I|]. apply (good_weaken s s' b b); [exact G2|tauto|apply IH; exact G1].
Qed.
Lemma passEqs_good is_ : (forall i, In i is_ -> i < m) -> forall s b, inv s -> good s b (passEqs X solvable subst free is_ s b).
Proof.
  induction is_ as [|i is_ IH]; intros L s b I; cbn [passEqs].
  - cbn [good]. split; [exact I|]. split; [lia|]. intros H. left. exact H.
  - assert (L' : forall k, In k is_ -> k < m) by (intros k K; apply L; right; exact K). specialize (IH L').
    destruct (is_none (e_asg (ge (eg s) i))) eqn:N; [|apply IH; exact I]. apply is_none_true in N.
    destruct (e_vars (ge (eg s) i)) as [|j [|j' t]] eqn:Q; try (apply IH; exact I).
    assert (O : In j (e_vars (ge (eg s) i))) by (rewrite Q; left; reflexivity).
    destruct (o_in _ _ _ (i_g _ I) j i O) as (_ & D & Hj & _).
    pose proof (assign_good s i j I (L i (or_introl eq_refl)) N D Hj) as G.
    destruct (assign s i j) as [[c s']| | |]; cbn [good ebind fst snd] in G |- *; try exact G.
    destruct G as (G1 & G2 & G3). apply (good_weaken s s' b (b || c)); [exact G2| |apply IH; exact G1].
    intros H. apply orb_true_iff in H. destruct H as [H|H]; [left; exact H|]. destruct (G3 H) as [G|G]; [discriminate|right; exact G].
Qed.
Lemma tearEqs_good j is_ : In j vs -> forall s, (forall i, In i is_ -> i < m) -> inv s -> v_del (gv (eg s) j) = false ->
  good s false (tearEqs X solvable subst free j is_ s).
Proof.
  intros Hj. induction is_ as [|i is_ IH]; intros s L I D; cbn [tearEqs].
  - cbn [good]. split; [exact I|]. split; [lia|discriminate].
  - assert (L' : forall k, In k is_ -> k < m) by (intros k K; apply L; right; exact K).
    destruct (is_none (e_asg (ge (eg s) i))) eqn:N; [|apply IH; assumption]. apply is_none_true in N.
    pose proof (assign_good s i j I (L i (or_introl eq_refl)) N D Hj) as G.
    destruct (assign s i j) as [[c s']| | |] eqn:A; cbn [good ebind fst snd] in G |- *; try exact G.
    destruct c; [exact G|]. assert (s' = s) as ->; [|apply IH; assumption].
    revert A. unfold Elim_model.assign. destruct (subst (ex s) i j); [|discriminate]. destruct (affected X s i j); [discriminate|].
    destruct (stays _ _ _ _ _ _ _); [discriminate|]. intros [= <-]. reflexivity.
Qed.
Lemma tear_good js : (forall j, In j js -> In j vs) -> forall s, inv s -> good s false (tear X solvable subst free js s).
Proof.
  induction js as [|j js IH]; intros L s I; cbn [tear].
  - cbn [good]. split; [exact I|]. split; [lia|discriminate].
  - assert (L' : forall k, In k js -> In k vs) by (intros k K; apply L; right; exact K). specialize (IH L').
    destruct (v_del (gv (eg s) j)) eqn:D; [apply IH; exact I|].
    assert (R : forall i, In i (v_eqs (gv (eg s) j)) -> i < m) by (intros i; apply (o_rng _ _ _ (i_g _ I))).
    pose proof (tearEqs_good j (v_eqs (gv (eg s) j)) (L j (or_introl eq_refl)) s R I D) as G.
    destruct (tearEqs _ _ _ _ j _ s) as [[c s']| | |]; cbn [good ebind fst snd] in G |- *; try exact G.
    destruct G as (G1 & G2 & G3). destruct c; [cbn [good]; auto|].
    apply (good_weaken s s' false false); [exact G2|tauto|apply IH; exact G1].
Qed.

Definition goodL (s : est) (r : eout est) : Prop := match r with EOk s' => inv s' /\ mu s' <= mu s | EThrow => True | ENull => False | EFuel => False end.
Lemma loop_good pass : (forall s, inv s -> good s false (pass s)) -> forall fuel s, inv s -> mu s < fuel -> goodL s (loop X pass fuel s).
Proof.
  intros H. induction fuel as [|f IH]; intros s I L; [lia|]. cbn [loop]. pose proof (H s I) as G.
  destruct (pass s) as [[c s']| | |]; cbn [good ebind fst snd] in G |- *; try exact G. destruct G as (G1 & G2 & G3). destruct c; [|split; assumption].
  destruct (G3 eq_refl) as [G|G]; [discriminate|]. assert (L' : mu s' < f) by lia. pose proof (IH s' G1 L') as R.
  destruct (loop X pass f s'); cbn [goodL] in R |- *; try exact R. destruct R. split; [assumption|lia].
Qed.
Lemma then_good (l : est -> eout est) pass : (forall s, inv s -> goodL s (l s)) -> (forall s, inv s -> good s false (pass s)) ->
  forall s, inv s -> good s false (ebind (l s) pass).
Proof.
  intros H1 H2 s I. pose proof (H1 s I) as G. destruct (l s) as [s'| | |]; cbn [goodL ebind] in G |- *; try exact G.
  destruct G as [G1 G2]. apply (good_weaken s s' false false); [exact G2|tauto|apply H2; exact G1].
Qed.
Lemma matchLoops_good diff dummy s : (forall j, In j (diff ++ dummy) -> In j vs) -> inv s -> goodL s (matchLoops X solvable subst free diff dummy s).
Proof.
  intros L I. unfold matchLoops. rewrite (o_ne _ _ _ (i_g _ I)).
  assert (F : forall t, mu t < S m) by (intros t; pose proof (open_le (eg t) m); unfold mu; lia).
  assert (L1 : forall t, inv t -> goodL t (loop X (fun s => passVars X solvable subst free true diff s false) (S m) t)).
  { intros t It. apply loop_good; [|exact It|apply F]. intros u Iu. apply passVars_good; [|exact Iu]. intros j J. apply L, in_app_iff. left. exact J. }
  assert (L2 : forall t, inv t -> goodL t (loop X (fun s => ebind (loop X (fun s => passVars X solvable subst free true diff s false) (S m) s)
     (fun s => passVars X solvable subst free false dummy s false)) (S m) t)).
  { intros t It. apply loop_good; [|exact It|apply F]. intros u Iu. apply (then_good _ (fun s => passVars X solvable subst free false dummy s false)); [exact L1| |exact Iu].
    intros w Iw. apply passVars_good; [|exact Iw]. intros j J. apply L, in_app_iff. right. exact J. }
  apply loop_good; [|exact I|apply F]. intros t It.
  apply (then_good _ (fun s => tear X solvable subst free (diff ++ dummy) s)); [|intros u Iu; apply tear_good; [exact L|exact Iu]|exact It].
  intros u Iu. apply loop_good; [|exact Iu|apply F]. intros w Iw.
  apply (then_good _ (fun s => passEqs X solvable subst free (seq 0 m) s false)); [exact L2| |exact Iw].
  intros z Iz. apply passEqs_good; [|exact Iz]. intros i Q. apply in_seq in Q. lia.
Qed.
End Loops.

(** ** The graph at the start *)
Lemma start_inv X solvable subst n m diff dummy rows jac (x : X) :
  inv X subst (diff ++ dummy) m x (start X solvable n m diff dummy rows jac x).
Proof.
  assert (G : gok (diff ++ dummy) m (eg X (start X solvable n m diff dummy rows jac x)) /\
              same_asg (Gr n m (fun _ => VN false [] None None None false) (fun _ => EN [] [] None None None false)) (eg X (start X solvable n m diff dummy rows jac x))).
  { unfold start. cbn [eg]. apply (fold_ok _ m _ (fun a => a < m)).
    - intros g a G Ha. apply (fold_ok _ m _ (fun _ => True)); [|exact G|auto]. intros g1 v G1 _.
      destruct (mem v (diff ++ dummy) && jac a v && solvable x a v) eqn:Q; [|split; [exact G1|apply same_asg_refl]].
      apply andb_true_iff in Q. destruct Q as [Q _]. apply andb_true_iff in Q. destruct Q as [Q _]. apply mem_In in Q. apply add_ok; assumption.
    - split; cbn; [reflexivity|intros v e []|intros e; constructor|intros v e []].
    - intros a Ha. apply in_seq in Ha. lia. }
  destruct G as [G [SV SE]]. split.
  - exact G.
  - intros v e. destruct (SV v) as [-> _]. rewrite SE. cbn. split; discriminate.
  - intros v. destruct (SV v) as [-> _]. cbn. congruence.
  - intros v. destruct (SV v) as [_ ->]. cbn. discriminate.
  - intros v e. destruct (SV v) as [-> _]. discriminate.
  - exists []. split; [reflexivity|]. split; [split; constructor|]. intros i j. destruct (SV j) as [-> _]. cbn. split; [tauto|discriminate].
Qed.

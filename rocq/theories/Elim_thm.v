(** * C70: the choice of the equations which eliminate derivatives and dummy derivatives *)
From Coq Require Import List Bool Arith Lia.
From Verif Require Import Match_model Match_spec Elim_model Elim_spec Elim_graph Elim_loop Elim_end.
Import ListNotations.

Lemma choose_parts X solvable subst semi n diff dummy rows jac (x : X) old :
  let r := choose X solvable subst semi n diff dummy rows jac x old in
  r = EThrow \/
  exists s g,
    matchLoops X solvable subst (freeOf n diff dummy) diff dummy (start X solvable n (length old) diff dummy rows jac x) = EOk s /\
    inv X subst (diff ++ dummy) (length old) x s /\
    last (diff ++ dummy) (length old) (fun i j => v_asg (gv (eg X s) j) = Some i) g /\
    r = (if semi && existsb (fun j => is_none (v_asg (gv g j))) diff then EThrow else EOk (save (diff ++ dummy) g old, s, g)).
Proof.
  cbv zeta. unfold choose.
  assert (HF : forall v, In v (freeOf n diff dummy) -> In v (diff ++ dummy)) by
    (intros v H; unfold freeOf in H; apply filter_In in H; destruct H as [_ H]; apply mem_In; exact H).
  pose proof (matchLoops_good X solvable subst (diff ++ dummy) (freeOf n diff dummy) (length old) x HF diff dummy _ (fun j H => H)
    (start_inv X solvable subst n (length old) diff dummy rows jac x)) as G.
  destruct (matchLoops _ _ _ _ _ _ _) as [s| | |] eqn:M; cbn [goodL ebind] in G |- *; [|left; reflexivity|destruct G|destruct G].
  destruct G as [I _].
  assert (L : last (diff ++ dummy) (length old) (fun i j => v_asg (gv (eg X s) j) = Some i) (eg X s)).
  { split; [exact (i_g _ _ _ _ _ _ I)|exact (i_m _ _ _ _ _ _ I)|exact (i_v _ _ _ _ _ _ I)|].
    intros i j H. split; [exact H|]. apply (i_d _ _ _ _ _ _ I). congruence. }
  destruct (forInformation_last _ _ _ (diff ++ dummy) (eg X s) L) as (g & E & Lg). rewrite E. cbn [ebind].
  right. exists s, g. auto.
Qed.

(** The choice ends, with a result or an exception, whatever can be solved and whatever the substitutions do; no null pointer is used. *)
Theorem C70_choice_ends : forall X solvable subst semi n diff dummy rows jac (x : X) old,
  let r := choose X solvable subst semi n diff dummy rows jac x old in
  r = EThrow \/ exists new s g, r = EOk (new, s, g).
Proof.
  intros. subst r. destruct (choose_parts X solvable subst semi n diff dummy rows jac x old) as [H|(s & g & _ & _ & _ & H)]; [left; exact H|].
  rewrite H. destruct (semi && _); [left; reflexivity|right; eauto].
Qed.
Print Assumptions C70_choice_ends.

(** What is chosen: [elim], equations solved for variables one after the other, each of which can be solved in what the substitutions before
    left and none of which is used twice; the assignments [chosen] made here contain them, and are one to one between equations and variables to
    eliminate. Every chosen equation gets its variable, the others keep what they had; with a semi-explicit model every derivative is chosen. *)
Theorem C70_chosen_can_be_eliminated : forall X solvable subst semi n diff dummy rows jac (x : X) old new s g,
  choose X solvable subst semi n diff dummy rows jac x old = EOk (new, s, g) ->
  exists elim chosen,
    eliminations subst x elim = Some (ex X s) /\ one_to_one elim /\
    (forall p, In p elim -> In p chosen) /\ one_to_one chosen /\
    (forall i v, In (i, v) chosen -> i < length old /\ In v (diff ++ dummy)) /\
    length new = length old /\
    (forall i v, In (i, v) chosen -> nth i new None = Some v) /\
    (forall i, (forall v, ~ In (i, v) chosen) -> nth i new None = nth i old None) /\
    (semi = true -> forall v, In v diff -> exists i, In (i, v) chosen).
Proof.
  intros X solvable subst semi n diff dummy rows jac x old new s g H.
  destruct (choose_parts X solvable subst semi n diff dummy rows jac x old) as [H1|(s' & g' & _ & I & L & H1)]; [congruence|].
  rewrite H in H1. destruct (semi && existsb (fun j => is_none (v_asg (gv g' j))) diff) eqn:V; [discriminate|]. injection H1 as -> -> ->.
  destruct (i_p _ _ _ _ _ _ I) as (l & L1 & L2 & L3). pose proof (l_m _ _ _ _ L) as M.
  assert (C : forall i v, In (i, v) (pairs_of g' (length old)) <-> v_asg (gv g' v) = Some i).
  { intros i v. rewrite pairs_of_In. split; [intros [_ A]; apply M; exact A|]. intros A. split; [apply (l_v _ _ _ _ L v i A)|apply M; exact A]. }
  exists l, (pairs_of g' (length old)). split; [exact L1|]. split; [exact L2|]. split; [|split; [|split; [|split; [|split; [|split]]]]].
  - intros [i v] P. apply C. apply L3 in P. apply (l_f _ _ _ _ L i v P).
  - apply pairs_of_one. exact M.
  - intros i v P. apply C in P. destruct (l_v _ _ _ _ L v i P). auto.
  - apply save_length.
  - intros i v P. pose proof P as P'. apply pairs_of_In in P'. destruct P' as [P1 P2]. rewrite (save_nth _ _ M) by exact P1. rewrite P2.
    assert (Q : mem v (diff ++ dummy) = true) by (apply mem_In; apply C in P; apply (l_v _ _ _ _ L v i P)). rewrite Q. reflexivity.
  - intros i P. destruct (Nat.lt_ge_cases i (length old)) as [Q|Q].
    + rewrite (save_nth _ _ M) by exact Q. destruct (e_asg (ge g' i)) as [v|] eqn:E; [|reflexivity]. exfalso. apply (P v). apply pairs_of_In. auto.
    + rewrite !nth_overflow; [reflexivity|exact Q|rewrite save_length; exact Q].
  - intros -> v Hv. cbn [andb] in V. destruct (v_asg (gv g' v)) as [i|] eqn:E; [exists i; apply C; exact E|].
    exfalso. assert (B : existsb (fun j => is_none (v_asg (gv g' j))) diff = true) by (apply existsb_exists; exists v; rewrite E; auto). congruence.
Qed.
Print Assumptions C70_chosen_can_be_eliminated.

Lemma forallb_false {A} (f : A -> bool) l : forallb f l = false -> exists w, In w l /\ f w = false.
Proof.
  induction l as [|a l IH]; cbn [forallb]; [discriminate|]. intros H. apply andb_false_iff in H. destruct H as [H|H].
  - exists a. split; [left; reflexivity|exact H].
  - destruct (IH H) as (w & A1 & B). exists w. split; [right; exact A1|exact B].
Qed.
(** The eliminations stop only when each variable and equation left, if the equation is known to be solvable for the variable, was refused: the
    substitution can be done, but another variable [w] would be lost, either because its own equation [e] contains the variable and could no longer
    be solved for it, or because no other equation could. *)
Theorem C70_stops_when_all_are_refused : forall X solvable subst semi n diff dummy rows jac (x : X) old new s g,
  choose X solvable subst semi n diff dummy rows jac x old = EOk (new, s, g) ->
  let lost x1 i w e := (ej X s e w || ej X s i w) && solvable x1 e w = false in
  exists elim, eliminations subst x elim = Some (ex X s) /\ one_to_one elim /\
  forall i v, In v (diff ++ dummy) -> ~ In v (map snd elim) -> ~ In i (map fst elim) -> occurs (eg X s) v i ->
  exists x1 w, subst (ex X s) i v = Some x1 /\ In w (diff ++ dummy) /\ w <> v /\
    ((exists e, In (e, w) elim /\ e <> i /\ ej X s e v = true /\ lost x1 i w e) \/
     (~ In w (map snd elim) /\
      forall e, e < length old -> e <> i -> (ej X s e v = true -> lost x1 i w e) /\ (ej X s e v = false -> ~ occurs (eg X s) w e))).
Proof.
  intros X solvable subst semi n diff dummy rows jac x old new s g H lost.
  destruct (choose_parts X solvable subst semi n diff dummy rows jac x old) as [H1|(s' & g' & ML & I & L & H1)]; [congruence|].
  rewrite H in H1. destruct (semi && existsb (fun j => is_none (v_asg (gv g' j))) diff) eqn:V; [discriminate|]. injection H1 as -> -> ->.
  destruct (i_p _ _ _ _ _ _ I) as (l & L1 & L2 & L3). exists l. split; [exact L1|]. split; [exact L2|].
  assert (Sn : forall w, ~ In w (map snd l) <-> v_asg (gv (eg X s') w) = None).
  { intros w. split.
    - intros Q. destruct (v_asg (gv (eg X s') w)) as [e|] eqn:E; [|reflexivity]. exfalso. apply Q. apply L3 in E. apply in_map_iff. exists (e, w). auto.
    - intros Q B. apply in_map_iff in B. destruct B as ([e w'] & B1 & B2). cbn in B1. subst w'. apply L3 in B2. congruence. }
  intros i v Hv Nv Ni O.
  destruct (o_in _ _ _ (i_g _ _ _ _ _ _ I) v i O) as (O1 & O2 & _ & _).
  assert (Ei : e_asg (ge (eg X s') i) = None).
  { destruct (e_asg (ge (eg X s') i)) as [w|] eqn:E; [|reflexivity]. exfalso. apply Ni. apply (i_m _ _ _ _ _ _ I) in E. apply L3 in E. apply in_map_iff. exists (i, w). auto. }
  destruct (matchLoops_last _ _ _ _ _ _ _ _ ML v i Hv O2 O1 Ei) as (x1 & S1 & S2). exists x1.
  unfold stays in S2.
  assert (NE : ne (eg X s') = length old) by exact (o_ne _ _ _ (i_g _ _ _ _ _ _ I)).
  assert (W : exists w, In w (freeOf n diff dummy) /\ (w =? v) || match v_asg (gv (eg X s') w) with
     | Some e => negb (mem e (affected X s' i v)) || solv X solvable (freeOf n diff dummy) s' x1 i v w e
     | None => existsb (solv X solvable (freeOf n diff dummy) s' x1 i v w) (seq 0 (ne (eg X s'))) end = false).
  { apply forallb_false in S2. exact S2. }
  clear S2. destruct W as (w & Wf & W). apply orb_false_iff in W. destruct W as [Wv W]. apply Nat.eqb_neq in Wv.
  assert (Hw : In w (diff ++ dummy)) by (unfold freeOf in Wf; apply filter_In in Wf; destruct Wf as [_ Wf]; apply mem_In; exact Wf).
  assert (Aff : forall e, e < length old -> e <> i -> mem e (affected X s' i v) = ej X s' e v).
  { intros e He Hi. destruct (ej X s' e v) eqn:J.
    - apply mem_In. unfold affected. apply filter_In. rewrite NE, in_seq, J, andb_true_r. split; [lia|]. apply negb_true_iff, Nat.eqb_neq. exact Hi.
    - destruct (mem e (affected X s' i v)) eqn:Q; [|reflexivity]. apply mem_In in Q. unfold affected in Q. apply filter_In in Q. destruct Q as [_ Q].
      apply andb_true_iff in Q. destruct Q. congruence. }
  assert (Los : forall e, e < length old -> e <> i -> ej X s' e v = true -> solv X solvable (freeOf n diff dummy) s' x1 i v w e = false -> lost x1 i w e).
  { intros e He Hi J Q. unfold solv, newJac in Q. rewrite (Aff e He Hi), J in Q. unfold lost.
    assert (NZ : mem w (nonZeros X (freeOf n diff dummy) s' i v) = ej X s' i w).
    { destruct (ej X s' i w) eqn:K.
      - apply mem_In. unfold nonZeros. apply filter_In. split; [exact Wf|]. rewrite K. cbn [andb]. apply negb_true_iff, Nat.eqb_neq. exact Wv.
      - destruct (mem w (nonZeros X (freeOf n diff dummy) s' i v)) eqn:Z; [|reflexivity]. apply mem_In in Z. unfold nonZeros in Z. apply filter_In in Z.
        destruct Z as [_ Z]. rewrite K in Z. discriminate. }
    rewrite NZ in Q. apply Nat.eqb_neq in Wv. rewrite Wv in Q. cbn [negb andb] in Q. rewrite orb_comm. exact Q. }
  exists w. split; [exact S1|]. split; [exact Hw|]. split; [exact Wv|].
  destruct (v_asg (gv (eg X s') w)) as [e|] eqn:E.
  - left. exists e. apply orb_false_iff in W. destruct W as [W1 W2]. apply negb_false_iff in W1.
    destruct (i_v _ _ _ _ _ _ I w e E) as [_ He]. assert (Hi : e <> i) by (intros ->; apply (i_m _ _ _ _ _ _ I) in E; congruence).
    rewrite (Aff e He Hi) in W1. split; [apply L3; exact E|]. split; [exact Hi|]. split; [exact W1|]. exact (Los e He Hi W1 W2).
  - right. split; [apply Sn; exact E|]. intros e He Hi.
    assert (Q : solv X solvable (freeOf n diff dummy) s' x1 i v w e = false).
    { destruct (solv X solvable (freeOf n diff dummy) s' x1 i v w e) eqn:Q; [|reflexivity]. exfalso.
      assert (B : existsb (solv X solvable (freeOf n diff dummy) s' x1 i v w) (seq 0 (ne (eg X s'))) = true) by
        (apply existsb_exists; exists e; rewrite NE, in_seq; split; [lia|exact Q]). congruence. }
    split; [intros J; exact (Los e He Hi J Q)|]. intros J Oc. unfold solv in Q. rewrite (Aff e He Hi), J in Q.
    apply Nat.eqb_neq in Hi. rewrite Hi in Q. cbn [negb andb] in Q. apply mem_In in Oc. congruence.
Qed.
Print Assumptions C70_stops_when_all_are_refused.

(** ** Models of sums and sines *)
Definition s_choose (semi : bool) (n : nat) (diff dummy : list nat) (x : list sine_eq) (old : list (option nat)) :=
  choose _ s_solvable s_subst semi n diff dummy (fun i => filter (s_jac x i) (seq 0 n)) (s_jac x) x old.
Definition summary (r : eout (list (option nat) * est (list sine_eq) * graph)) : option (list (option nat) * list sine_eq * list (list nat)) :=
  match r with EOk (new, s, g) => Some (new, ex _ s, map (fun e => e_vars (ge (eg _ s) e)) (seq 0 (length new))) | _ => None end.
Lemma summary_ok r new x vars : summary r = Some (new, x, vars) -> exists s g, r = EOk (new, s, g) /\ ex _ s = x /\ map (fun e => e_vars (ge (eg _ s) e)) (seq 0 (length new)) = vars.
Proof. destruct r as [[[new' s] g]| | |]; cbn [summary]; try discriminate. intros [= <- <- <-]. exists s, g. auto. Qed.

(** The model [x' + w = 0, sin(x') = 0] (variables 0: x', 1: w), with the assignments of the index reduction (w to the first equation, x' to the
    second): x' is eliminated with the first equation, but the second keeps x' as well. *)
Definition kept_model : list sine_eq := [([0; 1], []); ([], [0])].
Theorem C70_one_equation_each_refuted : exists new s g,
  s_choose true 2 [0] [] kept_model [Some 1; Some 0] = EOk (new, s, g) /\
  injective_assignment [Some 1; Some 0] /\ ~ injective_assignment new /\ new = [Some 0; Some 0].
Proof.
  destruct (summary_ok (s_choose true 2 [0] [] kept_model [Some 1; Some 0]) [Some 0; Some 0] [([0; 1], []); ([], [1])] [[]; []] ltac:(vm_compute; reflexivity)) as (s & g & E & _).
  exists [Some 0; Some 0], s, g. split; [exact E|]. split; [|split; [|reflexivity]].
  - intros [|[|[|i]]] [|[|[|i']]] v; cbn; congruence.
  - intros H. specialize (H 0 1 0 eq_refl eq_refl). discriminate.
Qed.
Print Assumptions C70_one_equation_each_refuted.

(** Dummy derivatives 0, 1 and 2 and another variable 3 in
      [a0 + sin(a1) = 0, a0 + a1 + a3 = 0, a1 + a2 = 0, a1 + 2 a2 = 0] (each equation was assigned a variable of its own).
    Once 0 is eliminated with the first equation, the second can no longer be solved for 1. It stays in the list of equations of that
    variable, and the first attempt to use it is an exception, although 1 and 2 can be eliminated with the other two equations; with the same
    variables in another order the choice succeeds. *)
Definition stale_model : list sine_eq := [([0], [1]); ([0; 1; 3], []); ([1; 2], []); ([1; 2], [])].
Theorem C70_finds_what_can_be_eliminated_refuted :
  s_choose false 4 [] [0; 1; 2] stale_model [Some 0; Some 3; Some 1; Some 2] = EThrow /\
  (exists elim x, eliminations s_subst stale_model elim = Some x /\ one_to_one elim /\ map snd elim = [0; 1; 2]) /\
  (exists s g, s_choose false 4 [] [0; 2; 1] stale_model [Some 0; Some 3; Some 1; Some 2] = EOk ([Some 0; Some 3; Some 2; Some 1], s, g)).
Proof.
  split; [vm_compute; reflexivity|]. split.
  - exists [(0, 0); (2, 1); (3, 2)]. eexists. split; [vm_compute; reflexivity|]. split; [|reflexivity].
    split; cbn; repeat constructor; cbn; intuition discriminate.
  - destruct (summary_ok (s_choose false 4 [] [0; 2; 1] stale_model [Some 0; Some 3; Some 1; Some 2]) [Some 0; Some 3; Some 2; Some 1]
      [([0], []); ([3], []); ([2], []); ([1], [])] [[]; []; []; []] ltac:(vm_compute; reflexivity)) as (s & g & E & _). exists s, g. exact E.
Qed.
Print Assumptions C70_finds_what_can_be_eliminated_refuted.

(** Dummy derivatives 0, 1 and 2 in [a0 + a2 = 0, a0 + a1 + 2 a2 + sin(a3) = 0, a0 + a1 = 0]: they are assigned the three equations in this order,
    and can be eliminated in the order of the choice. The third equation does not contain its variable, so that variable cannot be the first.
    (reduceEquations, dummy_deriv.hpp 489-510, eliminates them in the order in which the dummy derivatives were selected.) *)
Definition order_model : list sine_eq := [([0; 2], []); ([0; 1; 2], [3]); ([0; 1], [])].
Theorem C70_any_order_refuted : exists s g,
  s_choose false 4 [] [0; 1; 2] order_model [Some 0; Some 1; Some 2] = EOk ([Some 0; Some 1; Some 2], s, g) /\
  eliminations s_subst order_model [(0, 0); (1, 1); (2, 2)] = Some (ex _ s) /\
  s_subst order_model 2 2 = None /\ s_jac order_model 2 2 = false.
Proof.
  destruct (summary_ok (s_choose false 4 [] [0; 1; 2] order_model [Some 0; Some 1; Some 2]) [Some 0; Some 1; Some 2]
    match eliminations s_subst order_model [(0, 0); (1, 1); (2, 2)] with Some x => x | None => [] end [[]; []; []] ltac:(vm_compute; reflexivity)) as (s & g & E & F & _).
  exists s, g. split; [exact E|]. split; [rewrite F; vm_compute; reflexivity|]. split; vm_compute; reflexivity.
Qed.
Print Assumptions C70_any_order_refuted.

(** ** A case in which something is refused: [a0 + a1 = 0] and [sin(a0 + a1) = 0]; eliminating one variable leaves no equation for the other.
    Nothing is eliminated, and the first equation is assigned a variable for information. *)
Definition refused_model : list sine_eq := [([0; 1], []); ([], [0; 1])].
Example C70_case :
  exists s g, s_choose false 2 [] [0; 1] refused_model [None; None] = EOk ([Some 0; None], s, g) /\
    ex _ s = refused_model /\ occurs (eg _ s) 0 0 /\ occurs (eg _ s) 1 0.
Proof.
  destruct (summary_ok (s_choose false 2 [] [0; 1] refused_model [None; None]) [Some 0; None] refused_model [[0; 1]; []] ltac:(vm_compute; reflexivity)) as (s & g & E & F & G).
  exists s, g. split; [exact E|]. split; [exact F|]. cbn [length seq map] in G. injection G as G _. unfold occurs. rewrite G. cbn. auto.
Qed.

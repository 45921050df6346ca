(** * C24: found paths are paths; the path graph contains exactly the nodes on paths *)
From Coq Require Import List Bool Arith Lia Sorted.
From Verif Require Import Graph_model Path_model Path_spec Path_proofs Path_graph.
Import ListNotations.

(** The graph returned by findPathGraph, for every limit: only nodes between the root and the target; the recorded
    arguments and usages are argument links between them.  When the limit was not reached it holds all these nodes and
    all these links.  The number of bifurcations is zero exactly when no node has two recorded arguments. *)
Theorem C24_path_graph_is_exact : forall {B} (g : heap B) root target, no_cycle g ->
  exists N, forall fuel max, N <= fuel -> exists G b, findPathGraph g fuel root target 0 max = Got (G, b) /\
    (forall n, pg_contains G n = true -> between g root target n) /\
    (forall n e i, pg_find G n = Some e -> In i (ed_args e) -> exists j, link g n i j /\ occurs g j target) /\
    (forall n e p i, pg_find G n = Some e -> In (p, i) (ed_usage e) -> link g p i n /\ between g root target p) /\
    (match max with Some m => b < m | None => True end ->
      (forall n, between g root target n -> pg_contains G n = true) /\
      (forall n e i j, pg_find G n = Some e -> link g n i j -> occurs g j target -> In i (ed_args e)) /\
      (forall n e p i, pg_find G n = Some e -> link g p i n -> occurs g root p -> In (p, i) (ed_usage e)) /\
      (forall n e, pg_find G n = Some e -> NoDup (ed_args e))) /\
    (b = 0 <-> forall n e, pg_find G n = Some e -> length (ed_args e) <= 1).
Proof.
  intros B g root target [r RK]. exists (S (r root)). intros fuel max HF.
  destruct (findPathGraph_ok g r RK root target fuel max HF) as [G [b [E [P [C BF]]]]].
  exists G, b. split; [auto|]. split; [apply (PG_between _ _ _ _ P)|].
  assert (IN : forall n e, pg_find G n = Some e -> between g root target n).
  { intros n e H. apply (PG_between _ _ _ _ P). apply contains_find. eauto. }
  split.
  { intros n e i H Hi. destruct (PG_args _ _ _ _ P _ _ _ H Hi) as [j [ej [L [Ej _]]]]. exists j. split; auto.
    apply (IN _ _ Ej). }
  split.
  { intros n e p i H Hi. destruct (PG_usage _ _ _ _ P _ _ _ _ H Hi) as [L [ep [Ep _]]]. split; eauto. }
  split; [|auto].
  intros LM. assert (LR : limit_reached max b = false).
  { unfold limit_reached. destruct max as [m|]; auto. apply Nat.leb_gt. exact LM. }
  specialize (C LR). split; [apply (CG_between _ _ _ _ C)|]. split; [apply (CG_args _ _ _ _ C)|]. split.
  - intros n e p i H L O. assert (On : occurs g n target) by apply (IN _ _ H).
    assert (Hp : pg_contains G p = true).
    { apply (CG_between _ _ _ _ C). split; auto. eapply occurs_trans; [eapply occurs_link; eauto|auto]. }
    apply contains_find in Hp. destruct Hp as [ep Ep].
    pose proof (CG_args _ _ _ _ C _ _ _ _ Ep L On) as Hi.
    destruct (PG_args _ _ _ _ P _ _ _ Ep Hi) as [j [ej [L' [Ej Ij]]]].
    assert (j = n) as -> by (eapply link_fun; eauto). congruence.
  - intros n e H. pose proof (PG_sorted _ _ _ _ P _ _ H) as S. clear -S. induction S as [|x l S IH F]; constructor; auto.
    rewrite Forall_forall in F. intros Hx. apply F in Hx. lia.
Qed.
Print Assumptions C24_path_graph_is_exact.

(** Every path returned by findPaths starts at the root, follows argument links and ends at the target; the search
    always ends. *)
Theorem C24_found_paths_are_paths : forall {B} (g : heap B) root target, no_cycle g ->
  exists N, forall fuel max, N <= fuel -> exists ps, findPaths g fuel root target max = Got ps /\
    forall p, In p ps -> found_path g root target p.
Proof.
  intros B g root target [r RK]. exists (S (r root)). intros fuel max HF.
  destruct (findPaths_ends g r RK root target max fuel HF) as [ps E]. exists ps. split; auto.
  rewrite <- Forall_forall. eapply findPaths_ok; eauto.
Qed.
Print Assumptions C24_found_paths_are_paths.

(** findSingleBifurcation on the complete path graph: nothing when the target does not occur; one path, at every node
    of which there is no other way to the target; or two paths, equal up to the element it reports, which leave the node
    there by different arguments, the first path by the earlier one, and no other way to the target at any node below. *)
Theorem C24_single_bifurcation : forall {B} (g : heap B) root target, no_cycle g ->
  exists N, forall fuel, N <= fuel -> exists G b ps k,
    findPathGraph g fuel root target 0 None = Got (G, b) /\
    findSingleBifurcation g fuel G root target = Got (ps, k) /\
    ((~ occurs g root target /\ ps = [] /\ k = None) \/
     (k = None /\ exists p, ps = [p] /\ down_path g root p target /\ straight g target p) \/
     (b > 0 /\ exists c m i1 i2 p1 p2, k = Some (length c) /\
        ps = [c ++ (m, Some i1) :: p1; c ++ (m, Some i2) :: p2] /\
        down_path g root (c ++ (m, Some i1) :: p1) target /\ down_path g root (c ++ (m, Some i2) :: p2) target /\
        i1 < i2 /\ straight g target p1 /\ straight g target p2)).
Proof.
  intros B g root target [r RK]. exists (S (r root)). intros fuel HF.
  destruct (findPathGraph_ok g r RK root target fuel None HF) as [G [b [E [P [C BF]]]]]. specialize (C eq_refl).
  destruct (findSingle_ok g r RK root target G P C fuel HF) as [ps [k [E2 H]]].
  exists G, b, ps, k. split; auto. split; auto. destruct H as [H|[H|H]]; auto. right. right.
  destruct H as (c & m & i1 & i2 & j1 & j2 & p1 & p2 & K & EP & D1 & D2 & N & L1 & L2 & T1 & T2 & S1 & S2).
  split; [|exists c, m, i1, i2, p1, p2; auto 10].
  destruct b; [|lia]. exfalso. destruct BF as [BF _]. specialize (BF eq_refl).
  assert (Om : occurs g root m).
  { clear -D1. revert D1. generalize root. induction c as [|[n i] c IH]; intros n0 D; cbn in D.
    - inversion D; subst. apply occurs_refl.
    - inversion D; subst; [destruct c; discriminate|]. eapply occurs_trans; [eapply occurs_link; eauto|auto]. }
  pose proof (down_path_occurs g _ _ _ T1) as O1. pose proof (down_path_occurs g _ _ _ T2) as O2.
  assert (Hm : pg_contains G m = true).
  { apply (CG_between _ _ _ _ C). split; auto. eapply occurs_trans; [eapply occurs_link; eauto|auto]. }
  apply contains_find in Hm. destruct Hm as [e He]. specialize (BF _ _ He).
  pose proof (CG_args _ _ _ _ C _ _ _ _ He L1 O1) as I1. pose proof (CG_args _ _ _ _ C _ _ _ _ He L2 O2) as I2.
  destruct (ed_args e) as [|x [|y l]]; cbn in BF, I1, I2; intuition (try lia; congruence).
Qed.
Print Assumptions C24_single_bifurcation.

(** ** Cases *)
Section Cases.
(* x; x + x; -(x + x); y; -(x + x) + -(x + x); -x; (x + x) + -x; (x + x) + (x + x) *)
Let g : heap nat := [
  mkNode 0 (GInv 0) [];
  mkNode 0 GAdd [ANode 0; ANode 0];
  mkNode 0 GUnMinus [ANode 1];
  mkNode 0 (GInv 1) [];
  mkNode 0 GAdd [ANode 2; ANode 2];
  mkNode 0 GUnMinus [ANode 0];
  mkNode 0 GAdd [ANode 1; ANode 5];
  mkNode 0 GAdd [ANode 1; ANode 1]].

Example C24_case_no_cycle : no_cycle g.
Proof.
  exists (fun n => n). intros n i j [d [E H]].
  do 8 (destruct n as [|n]; [cbn in E; injection E as <-; destruct i as [|[|[|i]]]; cbn in H; try discriminate;
    injection H as <-; lia|]). destruct n; discriminate.
Qed.
Example C24_case_graph : findPathGraph g 9 4 0 0 None = Got (
  [(4, mkEdges [0; 1] []); (2, mkEdges [0] [(4, 0); (4, 1)]); (1, mkEdges [0; 1] [(2, 0)]); (0, mkEdges [] [(1, 0); (1, 1)])], 2).
Proof. vm_compute. reflexivity. Qed.
Example C24_case_absent : findPathGraph g 9 4 3 0 None = Got ([], 0).
Proof. vm_compute. reflexivity. Qed.
Example C24_case_bifurcation : exists G b, findPathGraph g 9 4 0 0 None = Got (G, b) /\
  findSingleBifurcation g 9 G 4 0 =
    Got ([[(4, Some 0); (2, Some 0); (1, Some 0); (0, None)]; [(4, Some 0); (2, Some 0); (1, Some 1); (0, None)]], Some 2).
Proof. eexists _, _. split; [apply C24_case_graph|vm_compute; reflexivity]. Qed.

(** A limit which is reached leaves nodes out. *)
Theorem C24_all_nodes_for_any_limit_refuted : exists (h : heap nat) root target n, no_cycle h /\
  between h root target n /\ forall fuel, 9 <= fuel ->
  exists G b, findPathGraph h fuel root target 0 (Some 1) = Got (G, b) /\ pg_contains G n = false.
Proof.
  exists g, 6, 0, 5. split; [apply C24_case_no_cycle|]. split.
  { split; [exists [1]|exists [0]]; (econstructor; [eexists; split; reflexivity|constructor]). }
  intros fuel HF. do 9 (destruct fuel as [|fuel]; [lia|]). eexists _, _. split; vm_compute; reflexivity.
Qed.

(** findPaths may return more paths than the maximum it was given (operation_path.hpp 177 only stops when the number is
    exactly the maximum, and 159-164 adds several at once). *)
Theorem C24_maximum_is_respected_refuted : exists (h : heap nat) root target max, no_cycle h /\ forall fuel, 9 <= fuel ->
  exists ps, findPaths h fuel root target max = Got ps /\ max < length ps.
Proof.
  exists g, 7, 0, 3. split; [apply C24_case_no_cycle|]. intros fuel HF. do 9 (destruct fuel as [|fuel]; [lia|]).
  eexists. split; [vm_compute; reflexivity|]. cbn. lia.
Qed.

(** findPaths may miss paths although the maximum was not reached (findPathsFromNode keeps one path per argument of the
    node, operation_path.hpp 197-200). *)
Theorem C24_all_paths_are_found_refuted : exists (h : heap nat) root target max, no_cycle h /\ forall fuel, 9 <= fuel ->
  exists ps, findPaths h fuel root target max = Got ps /\ length ps < max /\
    exists p, found_path h root target p /\ ~ In p ps.
Proof.
  exists g, 4, 0, 100. split; [apply C24_case_no_cycle|]. intros fuel HF. do 9 (destruct fuel as [|fuel]; [lia|]).
  eexists. split; [vm_compute; reflexivity|]. split; [cbn; lia|].
  exists [(4, 0); (2, 1); (1, 0); (0, 1)]. split.
  - eexists. split; [reflexivity|]. repeat (econstructor; [eexists; split; reflexivity|]). constructor.
  - cbn. intuition discriminate.
Qed.
End Cases.
Print Assumptions C24_all_nodes_for_any_limit_refuted.
Print Assumptions C24_maximum_is_respected_refuted.
Print Assumptions C24_all_paths_are_found_refuted.

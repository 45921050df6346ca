(** * C13, C14: iteration ranges and printed index conditions *)
From Coq Require Import List NArith Lia Bool.
From Verif Require Import CSyntax CSyntax_proofs Range_model Range_spec Range_proofs.
Import ListNotations.
Local Open Scope N_scope.

(** C13: combineOverlapingIterationRanges computes exactly the union (it never fails on ordered, valid inputs,
    and keeps ordered non-overlapping inputs ordered and non-overlapping). *)
Theorem C13_combine_overlapping_is_union : forall l1 l2,
  valid_ranges l1 -> ordered_ranges l1 -> valid_ranges l2 -> ordered_ranges l2 ->
  exists r, combineOverlapingIterationRanges l1 l2 = Some r /\ valid_ranges r /\
    (forall k, k <= SIZE_MAX -> (In_ranges k r <-> In_ranges k l1 \/ In_ranges k l2)) /\
    (disjoint_ranges l1 -> disjoint_ranges l2 -> disjoint_ranges r).
Proof. exact combineOverlap_correct. Qed.
Print Assumptions C13_combine_overlapping_is_union.
Example C13_ex1 : valid_ranges [1; 4; 3; 9; 20; SIZE_MAX] /\ ordered_ranges [1; 4; 3; 9; 20; SIZE_MAX] /\
  combineOverlapingIterationRanges [1; 4; 3; 9; 20; SIZE_MAX] [0; 0; 10; 11; 15; 15] = Some [0; 11; 15; 15; 20; SIZE_MAX].
Proof. split; [|split; [|vm_compute; reflexivity]]; cbn; unfold SIZE_MAX; lia. Qed.

(** C13: invertIterationRanges computes exactly the complement. *)
Theorem C13_invert_is_complement : forall l, valid_ranges l -> disjoint_ranges l ->
  exists r, invertIterationRanges l = Some r /\
    (forall k, k <= SIZE_MAX -> (In_ranges k r <-> ~ In_ranges k l)).
Proof. exact invert_correct. Qed.
Print Assumptions C13_invert_is_complement.
Example C13_ex2 : valid_ranges [1; 4; 7; 7] /\ disjoint_ranges [1; 4; 7; 7] /\
  invertIterationRanges [1; 4; 7; 7] = Some [0; 0; 5; 6; 8; SIZE_MAX].
Proof. split; [|split; [|vm_compute; reflexivity]]; cbn; unfold SIZE_MAX; lia. Qed.

(** C13 is false for combineNonOverlapingIterationRanges: a single-iteration range inserted in a gap is lost. *)
Theorem C13_combine_nonoverlapping_is_union_refuted : exists l1 l2 k,
  valid_ranges l1 /\ disjoint_ranges l1 /\ valid_ranges l2 /\ disjoint_ranges l2 /\
  (forall k, ~ (In_ranges k l1 /\ In_ranges k l2)) /\
  In_ranges k l2 /\ ~ In_ranges k (combineNonOverlapingIterationRanges l1 l2).
Proof.
  exists [0; 1; 5; 6], [3; 3], 3. cbn. unfold SIZE_MAX. repeat split; lia.
Qed.
Print Assumptions C13_combine_nonoverlapping_is_union_refuted.

(** C13: the iterations attributed to an else branch: exact after a lone [if] ... *)
Theorem C13_else_after_if_exact : forall c, wf_chain (Else (StartIf c)) ->
  exists r, ifBranchIterationRanges (Else (StartIf c)) = Some r /\
   forall k, k <= SIZE_MAX -> (In_ranges k r <-> taken (Else (StartIf c)) k).
Proof. exact ifBranch_if_else_exact. Qed.
Print Assumptions C13_else_after_if_exact.
Example C13_ex3 : wf_chain (Else (StartIf [2; 3; 8; 8])).
Proof. cbn; unfold SIZE_MAX; repeat split; try lia; discriminate. Qed.

(** ... always a superset of the iterations in which it runs (for any chain) ... *)
Theorem C13_else_ranges_upper_bound : forall p, wf_chain (Else p) ->
  exists r, ifBranchIterationRanges (Else p) = Some r /\
   forall k, k <= SIZE_MAX -> taken (Else p) k -> In_ranges k r.
Proof. exact ifBranch_else_upper. Qed.
Print Assumptions C13_else_ranges_upper_bound.
Example C13_ex4 : wf_chain (Else (ElseIf (ElseIf (StartIf [2; 3]) [5; 5]) [7; 9])).
Proof. cbn; unfold SIZE_MAX; repeat split; try lia; discriminate. Qed.

(** ... but not exact after an [else if]: the iterations of the leading [if] are wrongly included. *)
Theorem C13_else_ranges_exact_refuted : exists p k, wf_chain (Else p) /\ k <= SIZE_MAX /\
  (exists r, ifBranchIterationRanges (Else p) = Some r /\ In_ranges k r) /\ ~ taken (Else p) k.
Proof.
  exists (ElseIf (StartIf [0; 2]) [3; 5]), 1. unfold SIZE_MAX.
  split; [simpl; unfold SIZE_MAX; repeat split; try lia; discriminate|]. split; [lia|]. split.
  - eexists. split; [vm_compute; reflexivity|]. simpl. lia.
  - simpl. intros H. apply H. lia.
Qed.
Print Assumptions C13_else_ranges_exact_refuted.

(** C14: the printed condition, read as C, is true exactly for the iterations in the ranges. *)
Theorem C14_index_condition_exact : forall info, info <> [] -> valid_ranges info ->
  exists t e, printIndexCondExpr info = Some t /\ c_reads t e /\ (forall e', c_reads t e' -> e' = e) /\
    forall i, i <= SIZE_MAX -> exists v, evalC i e = Some v /\ (v <> 0 <-> In_ranges i info).
Proof.
  intros info H1 H2. destruct (printIndexCond_correct info H1 H2) as [t [e [E [R C]]]].
  exists t, e. repeat split; auto.
  - intros e' R'. exact (c_reads_unique _ _ _ R' R).
  - intros i Hi. specialize (C i Hi). unfold cond_true in C. destruct (evalC i e) as [v|]; [|discriminate].
    exists v. split; [reflexivity|]. injection C as C. rewrite <- in_rangesb_spec, <- C.
    destruct (N.eqb_spec v 0); simpl; split; congruence.
Qed.
Print Assumptions C14_index_condition_exact.
Example C14_ex : valid_ranges [0; 3; 5; 6; 8; 8; 10; 14; 20; SIZE_MAX] /\
  exists t, printIndexCondExpr [0; 3; 5; 6; 8; 8; 10; 14; 20; SIZE_MAX] = Some t.
Proof. split; [cbn; unfold SIZE_MAX; lia|]. eexists. vm_compute. reflexivity. Qed.

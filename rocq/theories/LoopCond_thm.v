(** * C63: each iteration of a generated loop has the results which belong to it *)
From Coq Require Import List Bool Arith NArith ZArith Sorted Lia Permutation.
From Verif Require Import Graph_model Codegen_model CSyntax Index_model Index_spec Range_model Range_spec Range_thm LoopCond_model LoopCond_spec LoopCond_cond LoopCond_proofs LoopCond_main.
Import ListNotations.
Local Open Scope N_scope.

(** For every sequence of results asked for in a loop which runs the iterations [L]: no undefined behaviour, and in each iteration the
    generated if/else structures and unconditional results have one list of effects, those asked for this iteration (in some order). *)
Theorem C63_every_iteration : forall V isZero vadd vmul (L : list N) (rs : list (request V)),
  StronglySorted N.lt L -> Forall (valid V isZero L) rs ->
  exists s, requests V isZero vadd vmul rs (mkLoop V [] []) = Done s /\
    forall k, In k L -> exists fs, Permutation fs (flat_map (fun r => asked V isZero vadd vmul r k) rs) /\ forall fs', iteration V k s fs' <-> fs' = fs.
Proof.
  intros V isZero vadd vmul L rs HS Hv. destruct (requests_served V isZero vadd vmul L rs (mkLoop V [] []) HS (Forall_nil _) Hv) as (s & E & H).
  exists s. split; [exact E|]. intros k Hk. exact (served_iteration V L s _ k Hk H).
Qed.
Print Assumptions C63_every_iteration.

(** The condition made for a set of iterations, after branches for the iterations [used], read as C: true exactly for these iterations,
    among all the iterations of the loop for which an earlier branch is not taken. *)
Theorem C63_condition : forall its used maxIter, its <> [] -> maxIter < SIZE_MAX -> (forall k, In k its \/ In k used -> k <= maxIter) ->
  let info := createIndexConditionExpression its used maxIter in
  exists t e, printIndexCondExpr info = Some t /\ c_reads t e /\ (forall e', c_reads t e' -> e' = e) /\
    forall k, k <= maxIter -> ~ In k used -> exists v, evalC k e = Some v /\ (v <> 0 <-> In k its).
Proof.
  intros its used mx Hne Hm Hb. destruct (cond_spec its used mx Hne Hm Hb) as (C1 & C2 & _ & C4). cbv zeta.
  destruct (C14_index_condition_exact _ C1 C2) as (t & e & E & R & U & Hv). exists t, e. split; [exact E|]. split; [exact R|]. split; [exact U|].
  intros k Hk Hu. destruct (Hv k ltac:(lia)) as (v & Ev & Hvv). exists v. split; [exact Ev|]. rewrite Hvv. apply C4; auto.
Qed.
Print Assumptions C63_condition.

(** a structure used twice: iterations 0..5 of which 0, 1 get one addition, 3 two, and 2, 4, 5 none; then a result of iterations 0 and 1 only *)
Definition exReqs : list (request Z) :=
  [RHessian Z [(1, 10); (1, 11); (0, 0); (2, 12); (0, 0); (0, 0)] 7%Z;
   RResult Z [(0, 3); (1, 5)] 6 9%Z 1;
   RHessian Z [(1, 20); (1, 20); (0, 0); (2, 21); (0, 0); (0, 0)] 8%Z;
   RReverse2 Z [0; 1; 2; 3; 4; 5] [(2, 1); (2, 2); (2, 3); (1, 4); (1, 5); (1, 6)] 3%Z 100%Z;
   RConstant Z 50 [0; 1] 5 2%Z;
   RHessian Z [(1, 0); (1, 1); (1, 2); (1, 3); (1, 4); (1, 5)] 4%Z].
Example C63_ex_valid : Forall (valid Z (Z.eqb 0) [0; 1; 2; 3; 4; 5]) exReqs /\ StronglySorted N.lt [0; 1; 2; 3; 4; 5].
Proof.
  assert (HS : forall l : list N, Sorted N.lt l -> StronglySorted N.lt l) by (intros; apply Sorted_StronglySorted; [intros x y z; lia|assumption]).
  assert (HL : forall its : list N, its <> [] -> incl its [0; 1; 2; 3; 4; 5] -> Sorted N.lt its -> iterations [0; 1; 2; 3; 4; 5] its) by (intros; split; [auto|split; auto]).
  assert (HB : below [0; 1; 2; 3; 4; 5] 5) by (split; [unfold SIZE_MAX; lia|cbn [In]; intros k Hk; lia]).
  split; [|apply HS; repeat constructor; lia].
  assert (HI : incl [0; 1] [0; 1; 2; 3; 4; 5]) by (intros x [<-|[<-|[]]]; cbn [In]; auto).
  unfold exReqs. repeat (apply Forall_cons || apply Forall_nil).
  - split; [reflexivity|]. split; [unfold SIZE_MAX; cbn; lia|]. intros _. exists 1, 10. split; [left; reflexivity|lia].
  - split; [apply HL; [discriminate|exact HI|repeat constructor]|]. split; [lia|exact HB].
  - split; [reflexivity|]. split; [unfold SIZE_MAX; cbn; lia|]. intros _. exists 1, 20. split; [left; reflexivity|lia].
  - split; [reflexivity|]. split; [unfold SIZE_MAX; cbn; lia|]. intros k Hk. cbn [length N.of_nat Pos.of_succ_nat Pos.succ]. specialize (proj2 HB k Hk). lia.
  - split; [apply HL; [discriminate|exact HI|repeat constructor]|exact HB].
  - split; [reflexivity|]. split; [unfold SIZE_MAX; cbn; lia|]. intros _. exists 1, 0. split; [left; reflexivity|lia].
Qed.
(** three structures: {3} {0, 1} used twice, {0, 1} used twice, and one with an else branch *)
Example C63_ex_structures : match requests Z (Z.eqb 0) Z.add Z.mul exReqs (mkLoop Z [] []) with
  | Done s => (map (fun e => map (fun b => (b_iters Z b, b_hdr Z b, length (b_pre Z b))) (e_brs Z e)) (ifElses Z s), map (fun e => length (e_end Z e)) (ifElses Z s), length (always Z s))
  | _ => ([], [], 0%nat) end =
  ([[([3], HIf [3; 3], 0%nat); ([0; 1], HElseIf [0; 1], 2%nat)]; [([0; 1], HIf [0; 1], 0%nat)]; [([0; 1; 2], HIf [0; 2], 0%nat); ([3; 4; 5], HElse, 1%nat)]], [2; 2; 1]%nat, 1%nat).
Proof. vm_compute. reflexivity. Qed.

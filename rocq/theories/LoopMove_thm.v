(** * Expressions which do not depend on the index of a loop are computed once, before the loop *)
From Coq Require Import List Bool Arith Lia.
From Verif Require Import LoopMove_model LoopMove_spec LoopMove_graph LoopMove_search LoopMove_values.
Import ListNotations.

(** the start of the loop declares its index: it has it among its arguments *)
Definition loopAt (g : graph) (loopIndex loopStart : nat) (endArgs : list nat) : Prop :=
  loopGraph g loopIndex /\ child g loopStart loopIndex /\ forall e, In e endArgs -> e < length g.

Lemma run g L start es : loopAt g L start es -> exists fuel0, forall fuel, fuel0 <= fuel -> exists s,
  search L fuel g es = Ok (gr s, mv s) /\ moveOutside L fuel g start es = Ok (addArgs start (mv s) (gr s)) /\ Inv g L None (adjust s) /\ (forall e, In e es -> exists v, nth_error (mk s) e = Some (S v)) /\
  acyclic (addArgs start (mv s) (gr s)) /\ closed (addArgs start (mv s) (gr s)).
Proof.
  intros (HG & Hs & He). destruct (search_inv g L es HG He) as (f0 & H). exists f0. intros fuel Lf. destruct (H fuel Lf) as (s & E & I & M). exists s. split; [exact E|]. split; [unfold moveOutside; rewrite E; reflexivity|]. split; [exact I|]. split; [exact M|].
  pose proof (i_ac _ _ _ _ I) as A. pose proof (i_cl _ _ _ _ I) as C. pose proof (i_len _ _ _ _ I) as [L1 L2]. pose proof (i_mv _ _ _ _ I) as V. unfold adjust in A, C, L1, L2, V. cbn [gr mk mv] in A, C, L1, L2, V.
  assert (Ls : start < length g) by (destruct Hs as (nd & X & _); apply nth_error_Some; congruence). split.
  - apply (addArgs_acyclic (gr s) L); [exact A|exact C|lia| |intros m J; exact (proj2 (V m J))]. apply (i_dep _ _ _ _ I start Ls). exact (R_arg g start L L Hs (R_here g L)).
  - apply addArgs_closed; [exact C|intros m J; exact (proj1 (V m J))].
Qed.

(** ** The search ends, every access is inside of its vector, nothing moved depends on the index, there is still no cycle, and nothing is left *)
Theorem C69_moved_before_loop : forall g loopIndex loopStart endArgs, loopAt g loopIndex loopStart endArgs -> exists fuel0, forall fuel, fuel0 <= fuel -> exists g' moved,
  search loopIndex fuel g endArgs = Ok (g', moved) /\ moveOutside loopIndex fuel g loopStart endArgs = Ok (addArgs loopStart moved g') /\
  acyclic (addArgs loopStart moved g') /\ closed (addArgs loopStart moved g') /\
  NoDup moved /\ (forall m, In m moved -> m < length g' /\ ~ reaches g' m loopIndex) /\
  (forall n, n < length g -> (reaches g' n loopIndex <-> reaches g n loopIndex)) /\
  (forall e p nd m, In e endArgs -> reaches g' e p -> reaches g' p loopIndex -> nth_error g' p = Some nd -> nkind nd <> KArrayElement -> nkind nd <> KAtomic ->
     In (Ref m) (nargs nd) -> ~ reaches g' m loopIndex -> available g' moved m).
Proof.
  intros g L start es H. destruct (run g L start es H) as (f0 & R). exists f0. intros fuel Lf. destruct (R fuel Lf) as (s & E1 & E2 & I & M & A & C). exists (gr s), (mv s). destruct H as (HG & Hs & He).
  split; [exact E1|]. split; [exact E2|]. split; [exact A|]. split; [exact C|]. split; [exact (i_nd _ _ _ _ I)|]. split; [exact (i_mv _ _ _ _ I)|]. split; [exact (i_dep _ _ _ _ I)|].
  intros e p nd m Ie Rp Dp En K1 K2 Im Dm. assert (Ex : exempt (nkind nd) = false) by (destruct (nkind nd); try reflexivity; congruence).
  assert (Mk : forall n q, reaches (gr s) n q -> reaches (gr s) q L -> (exists v, nth_error (mk (adjust s)) n = Some (S v)) -> exists v, nth_error (mk (adjust s)) q = Some (S v)).
  { intros n q Rn Dq. induction Rn as [n|n k l Ck Rk IH]; intros Hn; [exact Hn|]. apply (IH Dq). destruct Hn as (v & Hn).
    assert (Dk : reaches (gr s) k L) by exact (reaches_trans _ _ _ _ Rk Dq). pose proof (i_len _ _ _ _ I) as [L1 L2]. assert (Lk : k < length (gr s)) by exact (i_cl _ _ _ _ I n k Ck).
    assert (Lg : k < length g). { destruct (Nat.lt_ge_cases k (length g)) as [X|X]; [exact X|]. exfalso. exact (i_new _ _ _ _ I k X Lk Dk). }
    destruct Ck as (nn & Enn & Ik). pose proof (i_next _ _ _ _ I n nn k v Hn Enn Ik Lg) as NZ. destruct (nth_error (mk (adjust s)) k) as [[|u]|] eqn:X; [congruence|eauto|]. apply nth_error_None in X. lia. }
  destruct (Mk e p Rp Dp) as (v & Mp). { destruct (M e Ie) as (v & X). exists v. unfold adjust. cbn [mk]. rewrite nth_error_app1; [exact X|apply nth_error_Some; congruence]. }
  destruct (i_mk _ _ _ _ I p _ Mp) as [X|(_ & [[_ X]|[X _]])]; [discriminate|contradiction|]. rewrite X in Mp. exact (i_done _ _ _ _ I p nd m ltac:(discriminate) Mp En Ex Im Dm).
Qed.
Print Assumptions C69_moved_before_loop.

(** ** Results: operations moved are computed once, before the loop, whatever the index then is; every iteration uses those values and has the values of the original *)
Theorem C69_results_unchanged : forall g loopIndex loopStart endArgs, loopAt g loopIndex loopStart endArgs -> exists fuel0, forall fuel, fuel0 <= fuel -> exists g' moved,
  search loopIndex fuel g endArgs = Ok (g', moved) /\ moveOutside loopIndex fuel g loopStart endArgs = Ok (addArgs loopStart moved g') /\
  forall (W : Type) (cst : nat -> W) (op : nat -> kind -> list W -> W), (forall n v, op n KAssign [v] = v) -> (forall k vs vs', op loopStart k (vs ++ vs') = op loopStart k vs) ->
  forall before : nat -> W,
  (exists stored, forall m, In m moved -> plain W cst op (addArgs loopStart moved g') before m (stored m)) /\
  forall stored, (forall m, In m moved -> plain W cst op (addArgs loopStart moved g') before m (stored m)) ->
  forall env, (forall m, m <> loopIndex -> env m = before m) ->
  forall n v, n < length g -> (value W cst op (addArgs loopStart moved g') (fun m => In m moved) stored env n v <-> plain W cst op g env n v).
Proof.
  intros g L start es H. destruct (run g L start es H) as (f0 & R). exists f0. intros fuel Lf. destruct (R fuel Lf) as (s & E1 & E2 & I & M & A & C). exists (gr s), (mv s). split; [exact E1|]. split; [exact E2|].
  intros W cst op Hassign Hstart before. pose proof (i_mv _ _ _ _ I) as V. pose proof (i_len _ _ _ _ I) as [L1 L2]. unfold adjust in V, L1, L2. cbn [gr mk mv] in V, L1, L2.
  assert (El : length (addArgs start (mv s) (gr s)) = length (gr s)) by (unfold addArgs; destruct (nth_error (gr s) start); [apply put_length|reflexivity]). split.
  - apply stored_exists; [exact A|exact C|]. intros m J. rewrite El. exact (proj1 (V m J)).
  - intros stored Hst env He n v Ln. assert (Lg : n < length (gr s)) by lia.
    rewrite (start_value W cst op (gr s) start (mv s) Hstart (fun m => In m (mv s)) stored env n v (fun m => match in_dec Nat.eq_dec m (mv s) with left h => or_introl h | right h => or_intror h end) A C Lg).
    rewrite value_kept; [exact (i_val _ _ _ _ I W cst op Hassign env n v Ln)|]. intros m J. destruct (V m J) as [Lm Nm]. apply (value_env W cst op (gr s) L before env m); [exact He|exact Nm|].
    apply (start_value W cst op (gr s) start (mv s) Hstart (fun _ => False) before before m (stored m)); [intros _; right; exact (fun x => x)|exact A|exact C|exact Lm|exact (Hst m J)].
Qed.
Print Assumptions C69_results_unchanged.

(** ** An example: one expression and the value of a temporary are moved; the argument of the array element is not *)
Definition exGraph : graph :=
  [ mkNode KIndexDcl [];                         (* 0: the index *)
    mkNode (KOther 1) [Ref 0];                   (* 1: the start of the loop *)
    mkNode (KOther 2) [Ref 0; Ref 1];            (* 2: the index in an iteration *)
    mkNode KInv [];                              (* 3: x0 *)
    mkNode (KOther 3) [Ref 3; Cst 0];            (* 4: x0 * c *)
    mkNode KTmpDcl [];                           (* 5: a temporary *)
    mkNode (KOther 4) [Ref 3];                   (* 6: sin(x0) *)
    mkNode KLoopTmp [Ref 5; Ref 6];              (* 7: the temporary has the value sin(x0) *)
    mkNode (KOther 5) [Ref 4; Ref 2; Ref 3];     (* 8: x0 * c, the index and x0 *)
    mkNode (KOther 6) [Ref 8; Ref 7];            (* 9 *)
    mkNode (KOther 7) [Ref 3];                   (* 10: cos(x0) *)
    mkNode KArrayElement [Ref 10; Ref 2];        (* 11 *)
    mkNode (KOther 8) [Ref 9; Ref 11] ].         (* 12: the argument of the end *)
Definition exOut : graph := put 7 (mkNode KLoopTmp [Ref 5; Ref 13]) exGraph ++ [mkNode KAssign [Ref 6]].
Example ex_run : search 0 13 exGraph [12] = Ok (exOut, [4; 13]). Proof. reflexivity. Qed.
Example ex_start : moveOutside 0 13 exGraph 1 [12] = Ok (put 1 (mkNode (KOther 1) [Ref 0; Ref 4; Ref 13]) exOut). Proof. reflexivity. Qed.
Lemma ex_child n m : child exGraph n m -> (m < n).
Proof.
  intros (nd & E & I). do 13 (destruct n as [|n]; [injection E as <-; cbn [nargs In] in I; repeat destruct I as [I|I]; try discriminate I; try (injection I as <-; lia); destruct I|]). destruct n; discriminate E.
Qed.
Lemma ex_loopAt : loopAt exGraph 0 1 [12].
Proof.
  split; [split; [|split; [|split]]|split].
  - exists (fun n => n). exact ex_child.
  - intros n m C. pose proof (ex_child n m C). destruct C as (nd & E & _). assert (n < length exGraph) by (apply nth_error_Some; congruence). lia.
  - exists (mkNode KIndexDcl []). repeat split.
  - intros nd I K. cbn [exGraph In] in I. repeat destruct I as [<-|I]; try discriminate K; [cbn; lia|destruct I].
  - exists (mkNode (KOther 1) [Ref 0]). split; [reflexivity|left; reflexivity].
  - intros e [<-|[]]. cbn. lia.
Qed.

(** ** Not every expression which does not depend on the index is computed before the loop: arguments of array elements and of atomic functions are left in it *)
Theorem C69_all_computed_before_refuted : exists g loopIndex loopStart endArgs fuel g' moved p nd m,
  loopAt g loopIndex loopStart endArgs /\ search loopIndex fuel g endArgs = Ok (g', moved) /\ (exists e, In e endArgs /\ reaches g' e p) /\ reaches g' p loopIndex /\ nth_error g' p = Some nd /\ In (Ref m) (nargs nd) /\
  ~ reaches g' m loopIndex /\ ~ available g' moved m.
Proof.
  exists exGraph, 0, 1, [12], 13, exOut, [4; 13], 11, (mkNode KArrayElement [Ref 10; Ref 2]), 10. split; [exact ex_loopAt|]. split; [reflexivity|]. split; [|split; [|split; [|split; [|split]]]].
  - exists 12. split; [left; reflexivity|]. apply (R_arg _ 12 11); [exists (mkNode (KOther 8) [Ref 9; Ref 11]); split; [reflexivity|right; left; reflexivity]|apply R_here].
  - apply (R_arg _ 11 2); [exists (mkNode KArrayElement [Ref 10; Ref 2]); split; [reflexivity|right; left; reflexivity]|]. apply (R_arg _ 2 0); [exists (mkNode (KOther 2) [Ref 0; Ref 1]); split; [reflexivity|left; reflexivity]|apply R_here].
  - reflexivity.
  - left. reflexivity.
  - intros R. apply reaches_inv in R. destruct R as [X|(k & (nd & E & I) & R)]; [discriminate|]. cbv in E. injection E as <-. destruct I as [I|[]]. injection I as <-. apply reaches_inv in R. destruct R as [X|(k & (nd & E & I) & R)]; [discriminate|]. cbv in E. injection E as <-. destruct I.
  - intros [[X|[X|[]]]|(nd & E & H)]; [discriminate|discriminate|]. cbv in E. injection E as <-. cbn [nkind] in H. destruct H as [H|[H|[H _]]]; discriminate.
Qed.
Print Assumptions C69_all_computed_before_refuted.

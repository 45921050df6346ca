(** * Solving an expression for a variable which occurs once (C21, C22) *)
From Coq Require Import List Bool Arith Lia Reals Lra Qcanon.
From Verif Require Import Graph_model Graph_spec CGArith_model CGArith_spec CGArith_proofs Codegen_spec
  Path_model Path_spec Path_proofs Path_graph Solve_model Solve_spec Solve_proofs Solve_total Solve_once Graph_R Graph_Qc.
Import ListNotations.
Local Open Scope nat_scope.

(** ** Reachable states *)

(** The nodes recorded by any program on CG objects of one handler satisfy the hypotheses of the theorems below. *)
Lemma recorded_handler_nodes {B} {O : BaseOps B} (p : list (instr B)) s h :
  run init p = Ok s -> owned_by h (s_heap s) -> handler_nodes h (s_heap s).
Proof.
  intros R HO.
  assert (S0 : SI false (@init B O)).
  { split; [intros i n H; destruct i; discriminate|]. split; [intros k; exact I|]. split; [constructor|discriminate]. }
  destruct (run_SI false p init s) as [[W [V [A _]]] _]; auto; [discriminate|].
  constructor; auto.
  - intros n d j Hn Hj. specialize (W n d Hn). rewrite Forall_forall in W. specialize (W _ Hj). cbn in W.
    assert (n < length (s_heap s)) by (apply nth_error_Some; congruence). lia.
  - exists (fun n => n). intros n i j [d [Hn Ha]]. specialize (W n d Hn). rewrite Forall_forall in W.
    apply (W (ANode j)). eapply nth_error_In; eauto.
Qed.

Section Thm.
Context {B : Type} {O : BaseOps B}.

Lemma solveFor_once half g root var : no_cycle g -> once g root var -> root <> var ->
  exists N, forall fuel loops max ord inds, N <= fuel -> 1 <= loops -> max <> Some 0 -> exists p,
    down_path g root p var /\ straight g var p /\
    solveFor half max loops fuel ord inds g root var = solvePath half g p.
Proof.
  intros [r RK] HO NE. exists (S (r root)). intros fuel loops max ord inds HF HL MX.
  unfold solveFor. destruct (Nat.eqb_spec root var) as [Q|_]; [contradiction|].
  destruct loops as [|loops]; [lia|]. cbn [solveLoop].
  destruct (findPathGraph_ok g r RK root var fuel max HF) as [G [b [E [P [C BF]]]]]. rewrite E. cbn [ofpath sbind].
  assert (B0 : b = 0) by (apply BF; intros n e; now apply (once_no_bifurcation g root var)).
  assert (LR : limit_reached max b = false) by (subst b; destruct max as [[|]|]; cbn; congruence). specialize (C LR).
  destruct HO as [p [D U]]. pose proof (down_path_occurs g _ _ _ D) as Oc.
  assert (CV : pg_contains G var = true) by (apply (CG_between _ _ _ _ C); split; auto; apply occurs_refl).
  rewrite CV. cbn [negb].
  destruct (findSingle_ok g r RK root var G P C fuel HF) as [ps [k [E2 H]]]. rewrite E2. cbn [ofpath sbind].
  destruct H as [[H _]|[[-> [q [-> [Dq Sq]]]]|H]]; [contradiction|exists q; auto|].
  exfalso. destruct H as (c & m & i1 & i2 & j1 & j2 & p1 & p2 & K & EP & D1 & D2 & N & _).
  rewrite <- (U _ D2) in U. specialize (U _ D1). apply app_inv_head in U. assert (i1 = i2) by congruence. lia.
Qed.

End Thm.
Ltac dec := (split; (split; [intros DH | intros DH]));
  repeat match goal with H : exists _, _ |- _ => destruct H end; try discriminate; eauto.

(** ** C21 *)

(** When solveFor succeeds for a variable with exactly one occurrence in the expression: let [sol] give every recorded
    node its value for some values of the independent variables, and let the functions inverted along the way be used
    within their domains ([back]).  Then the returned expression has the value [x] found by inverting the operations one
    after the other, and whenever the variable is given the value [x], all other independent variables being the same,
    the original expression is zero.  [max] is the limit of bifurcations (50000 in the code), [ord] the evaluation order of operands. *)
Theorem C21_solution_makes_expression_zero : forall {B} {O : BaseOps B} half (L : BaseLaws B), is_field B -> inverse_laws B half ->
  forall g root var, no_cycle g -> closed g -> once g root var -> root <> var ->
  exists N, forall fuel loops max ord inds g' rhs, N <= fuel -> 1 <= loops -> max <> Some 0 ->
    solveFor half max loops fuel ord inds g root var = SOk (g', rhs) ->
    forall p env sol env' sol' x, down_path g root p var ->
      solves env g' sol -> solves env' g sol' -> same_others g var sol sol' -> back half sol g p b0 x ->
      sv sol rhs = Some x /\ (sol' var = Some x -> sol' root = Some b0).
Proof.
  intros B O half L FL IL g root var NC C HO NE.
  destruct (solveFor_once half g root var NC HO NE) as [N HN]. exists N.
  intros fuel loops max ord inds g' rhs HF HL MX H p env sol env' sol' x D S S' SO Bk.
  destruct (HN fuel loops max ord inds HF HL MX) as [q [Dq [Sq E]]]. rewrite E in H.
  assert (p = q) as -> by (destruct HO as [u [_ U]]; rewrite (U _ D), (U _ Dq); auto).
  eapply (solvePath_value g var L half FL IL); eauto.
Qed.
Print Assumptions C21_solution_makes_expression_zero.

(** The variable does not occur in the result: it is really solved for it.  The graph only grows. *)
Theorem C21_solution_without_the_variable : forall {B} {O : BaseOps B} half h g root var,
  handler_nodes h g -> once g root var -> root <> var ->
  exists N, forall fuel loops max ord inds g' rhs, N <= fuel -> 1 <= loops -> max <> Some 0 ->
    solveFor half max loops fuel ord inds g root var = SOk (g', rhs) ->
    free_of g' var rhs /\ handler_nodes h g' /\ exists added, g' = g ++ added.
Proof.
  intros B O half h g root var HG HO NE.
  destruct (solveFor_once half g root var (Hn_cycle _ _ HG) HO NE) as [N HN]. exists N.
  intros fuel loops max ord inds g' rhs HF HL MX H.
  destruct (HN fuel loops max ord inds HF HL MX) as [q [D [ST E]]]. rewrite E in H. clear E HN.
  assert (LV : var < length g).
  { destruct (down_path_head g _ _ _ D) as [i [q' Eq]]. clear -D NE HG. induction D as [n|n i j p m Lk D IH]; [congruence|].
    destruct (Nat.eq_dec j m) as [->|]; auto. now apply (link_closed g n i m (Hn_closed _ _ HG)). }
  pose proof (@invariant_free B h var) as K.
  destruct (solveSteps_as h _ _ K half g (conj HG LV) (Hn_arity _ _ HG) q g (Par b0) root var (ext_refl _) D) as [[_ [g1 [x [E [X [[HG1 _] [_ F]]]]]]]|[_ E]].
  - intros n i d k a Hi Hn Hk Hka. split.
    + destruct a as [j|b]; cbn; auto. eapply (Hn_closed _ _ HG); eauto. eapply nth_error_In; eauto.
    + destruct a as [j|b]; cbn; auto. intros Oc. apply Hk. eapply ST; eauto. exists d. auto.
  - auto.
  - cbn. auto.
  - unfold solvePath in H. rewrite H in E. injection E as <- <-. auto.
  - unfold solvePath in H. rewrite H in E. discriminate.
Qed.
Print Assumptions C21_solution_without_the_variable.

(** ** C22 *)

(** isSolvable for a path answers true exactly when solveFor for that path returns, and false exactly when it throws. *)
Theorem C22_isSolvable_decides_paths : forall {B} {O : BaseOps B} half h g root p var,
  handler_nodes h g -> down_path g root p var ->
  (isSolvablePath g p = SOk true /\ exists r, solvePath half g p = SOk r) \/
  (isSolvablePath g p = SOk false /\ solvePath half g p = SThrow).
Proof.
  intros B O half h g root p var HG D.
  destruct (solveSteps_as h _ _ (@invariant_sane B h) half g HG (Hn_arity _ _ HG) p g (Par b0) root var (ext_refl _) D) as [[E [g1 [x [E1 _]]]]|H]; cbn; auto.
  - intros n i d k a Hi Hn Hk Hka. destruct a as [j|b]; cbn; auto. eapply (Hn_closed _ _ HG); eauto. eapply nth_error_In; eauto.
  - left. split; auto. eexists. exact E1.
Qed.
Print Assumptions C22_isSolvable_decides_paths.

(** isSolvable for an expression predicts what solveFor does: it answers true exactly when solveFor returns a solution and
    false exactly when solveFor throws, whatever the limit of bifurcations. *)
Theorem C22_isSolvable_predicts_solveFor : forall {B} {O : BaseOps B} half h g root var, handler_nodes h g ->
  exists N, forall fuel loops max ord inds, N <= fuel -> 1 <= loops -> max <> Some 0 ->
    (isSolvable half max loops fuel ord inds g root var = SOk true <->
       exists r, solveFor half max loops fuel ord inds g root var = SOk r) /\
    (isSolvable half max loops fuel ord inds g root var = SOk false <->
       solveFor half max loops fuel ord inds g root var = SThrow).
Proof.
  intros B O half h g root var HG. destruct (Hn_cycle _ _ HG) as [r RK]. exists (S (r root)).
  intros fuel loops max ord inds HF HL MX. unfold isSolvable.
  destruct (findPathGraph_ok g r RK root var fuel None HF) as [G [b [E [P [C BF]]]]]. rewrite E. cbn [ofpath sbind].
  specialize (C eq_refl).
  destruct (Nat.eqb_spec b 0) as [->|NB].
  2:{ destruct (solveFor half max loops fuel ord inds g root var) as [x| | |]; dec. }
  destruct BF as [BF _]. specialize (BF eq_refl).
  destruct (findSingle_ok g r RK root var G P C fuel HF) as [ps [k [E2 H]]]. rewrite E2. cbn [ofpath sbind].
  unfold solveFor. destruct (Nat.eqb_spec root var) as [->|NE].
  { destruct H as [[H _]|[[-> [q [-> [Dq Sq]]]]|H]].
    - exfalso. apply H, occurs_refl.
    - assert (q = [(var, None)]) as ->.
      { inversion Dq as [|n i j q' m Lk D E3]; subst; auto. exfalso. apply down_path_occurs in D.
        apply (occurs_rank g r RK) in D. apply RK in Lk. lia. }
      cbn. dec.
    - exfalso. destruct H as (c & m & i1 & i2 & j1 & j2 & p1 & p2 & K & EP & D1 & D2 & N & _).
      assert (U : forall q, down_path g var q var -> q = [(var, None)]).
      { intros q Dq. inversion Dq as [|n i j q' m' Lk D E3]; subst; auto. exfalso. apply down_path_occurs in D.
        apply (occurs_rank g r RK) in D. apply RK in Lk. lia. }
      apply U in D1. destruct c; cbn in D1; [discriminate|]. injection D1 as _ D1. destruct c; discriminate. }
  destruct loops as [|loops]; [lia|]. cbn [solveLoop].
  destruct (findPathGraph_ok g r RK root var fuel max HF) as [G' [b' [E' [P' [C' BF']]]]]. rewrite E'. cbn [ofpath sbind].
  assert (B0 : b' = 0) by (apply BF'; apply (single_no_bifurcation g root var G); auto). subst b'.
  assert (LR : limit_reached max 0 = false) by (destruct max as [[|]|]; cbn; congruence). specialize (C' LR).
  destruct (findSingle_ok g r RK root var G' P' C' fuel HF) as [ps' [k' [E2' H']]].
  assert (NF : forall c m i1 i2 j1 j2 p1 p2, down_path g root (c ++ (m, Some i1) :: p1) var -> i1 < i2 ->
    link g m i1 j1 -> link g m i2 j2 -> down_path g j1 p1 var -> down_path g j2 p2 var -> False).
  { intros c m i1 i2 j1 j2 p1 p2 D1 N L1 L2 T1 T2.
    destruct (down_split g root _ var m i1 D1) as [c' [q' [j' [Eq [Pc [Lj _]]]]]]; [apply in_or_app; right; now left|].
    assert (Om : occurs g root m).
    { clear -Pc. induction Pc; [apply occurs_refl|]. eapply occurs_trans; [eapply occurs_link; eauto|auto]. }
    pose proof (down_path_occurs g _ _ _ T1) as O1. pose proof (down_path_occurs g _ _ _ T2) as O2.
    assert (Hm : pg_contains G m = true).
    { apply (CG_between _ _ _ _ C). split; auto. exact (occurs_trans g _ _ _ (occurs_link g _ _ _ L1) O1). }
    apply contains_find in Hm. destruct Hm as [e He]. specialize (BF _ _ He).
    pose proof (CG_args _ _ _ _ C m e i1 j1 He L1 O1) as I1. pose proof (CG_args _ _ _ _ C m e i2 j2 He L2 O2) as I2.
    destruct (ed_args e) as [|u [|v w]]; cbn in *; try lia. }
  destruct H as [[H [-> ->]]|[[-> [q [-> [Dq Sq]]]]|H]].
  - assert (CV : pg_contains G' var = false).
    { destruct (pg_contains G' var) eqn:CV; auto. apply (PG_between _ _ _ _ P') in CV. destruct CV. contradiction. }
    rewrite CV. cbn [negb]. dec.
  - pose proof (down_path_occurs g _ _ _ Dq) as Oc.
    assert (CV : pg_contains G' var = true) by (apply (CG_between _ _ _ _ C'); split; auto; apply occurs_refl).
    rewrite CV, E2'. cbn [negb ofpath sbind].
    destruct H' as [[H' _]|[[-> [q' [-> [Dq' Sq']]]]|H']]; [contradiction| |].
    + assert (q' = q) as ->.
      { clear -Dq Dq' Sq RK. revert q' Dq'. induction Dq as [n|n i j p m Lk D IH]; intros q' D'.
        - inversion D' as [|n' i j q'' m Lk D E3]; subst; auto. exfalso. apply down_path_occurs in D.
          apply (occurs_rank g r RK) in D. apply RK in Lk. lia.
        - inversion D' as [|n' i' j' q'' m' Lk' D'' E3]; subst.
          + exfalso. apply down_path_occurs in D. apply (occurs_rank g r RK) in D. apply RK in Lk. lia.
          + assert (i' = i) as -> by (eapply Sq; eauto; [now left|eapply down_path_occurs; eauto]).
            assert (j' = j) as -> by (eapply link_fun; eauto). f_equal. apply IH; auto.
            intros n0 i0 Hi. apply Sq. now right. }
      assert (NN : q <> []) by (destruct q; [inversion Dq|discriminate]). destruct q as [|e q]; [contradiction|].
      destruct (C22_isSolvable_decides_paths half h g root (e :: q) var HG Dq) as [[-> [x ->]]|[-> ->]];dec.
    + exfalso. destruct H' as (c & m & i1 & i2 & j1 & j2 & p1 & p2 & K & EP & D1 & D2 & N & L1 & L2 & T1 & T2 & _). exact (NF c m i1 i2 j1 j2 p1 p2 D1 N L1 L2 T1 T2).
  - exfalso. destruct H as (c & m & i1 & i2 & j1 & j2 & p1 & p2 & K & EP & D1 & D2 & N & L1 & L2 & T1 & T2 & _). exact (NF c m i1 i2 j1 j2 p1 p2 D1 N L1 L2 T1 T2).
Qed.
Print Assumptions C22_isSolvable_predicts_solveFor.

(** ** A case which meets the hypotheses: exp(2 x) - y = 0, over the reals *)
Section Case.
Local Open Scope R_scope.
Definition case_graph : heap R :=
  [ mkNode 0 (GInv 0) []; mkNode 0 (GInv 1) []; mkNode 0 GMul [APar 2; ANode 0]; mkNode 0 (GFun Exp) [ANode 2];
    mkNode 0 GSub [ANode 3; ANode 1] ].
Definition case_path : spath := [(4, Some 0); (3, Some 0); (2, Some 1); (0, None)]%nat.
(** the nodes recorded by solveFor: log(y), log(y) / 2 *)
Definition case_result : heap R :=
  case_graph ++ [ mkNode 0 (GFun Log) [ANode 1]; mkNode 0 GDiv [ANode 5; APar 2] ].

Local Close Scope R_scope.
Lemma case_links n i j : link case_graph n i j ->
  (n = 2 /\ i = 1 /\ j = 0) \/ (n = 3 /\ i = 0 /\ j = 2) \/ (n = 4 /\ i = 0 /\ j = 3) \/ (n = 4 /\ i = 1 /\ j = 1).
Proof.
  intros [d [Hn Ha]]. destruct n as [|[|[|[|[|n]]]]]; cbn in Hn; [injection Hn as <-; cbn in Ha..|].
  - destruct i; discriminate.
  - destruct i; discriminate.
  - destruct i as [|[|i]]; cbn in Ha; [discriminate|injection Ha as <-; auto 10|destruct i; discriminate].
  - destruct i as [|i]; cbn in Ha; [injection Ha as <-; auto 10|destruct i; discriminate].
  - destruct i as [|[|i]]; cbn in Ha; [injection Ha as <-; auto 10|injection Ha as <-; auto 10|destruct i; discriminate].
  - destruct n; discriminate.
Qed.
Lemma case_nodes : handler_nodes 0 case_graph.
Proof.
  constructor.
  - repeat constructor.
  - intros n d j Hn Ha. apply In_nth_error in Ha. destruct Ha as [i Ha].
    assert (L : link case_graph n i j) by (exists d; auto). apply case_links in L. cbn. lia.
  - exists (fun n => n). intros n i j L. apply case_links in L. lia.
  - repeat constructor.
Qed.
Lemma case_once : once case_graph 4 0.
Proof.
  exists case_path. split.
  - unfold case_path. repeat (econstructor; [eexists; split; reflexivity|]). constructor.
  - intros q D.
    repeat match goal with
    | H : link case_graph _ _ _ |- _ =>
        apply case_links in H; destruct H as [(? & ? & ?)|[(? & ? & ?)|[(? & ? & ?)|(? & ? & ?)]]]; subst; try discriminate
    | H : down_path case_graph _ _ _ |- _ => inversion H; clear H; subst
    end; reflexivity.
Qed.
(** the search does not look at the parameters *)
Lemma case_search {B} {O : BaseOps B} (c : B) half m ord inds loops :
  let g := [ mkNode 0 (GInv 0) []; mkNode 0 (GInv 1) []; mkNode 0 GMul [APar c; ANode 0]; mkNode 0 (GFun Exp) [ANode 2];
    mkNode 0 GSub [ANode 3; ANode 1] ] in
  solveFor half (Some (S m)) (S loops) 10 ord inds g 4 0 = solvePath half g case_path /\
  solveFor half None (S loops) 10 ord inds g 4 0 = solvePath half g case_path.
Proof. split; reflexivity. Qed.
Lemma case_solved : forall max loops ord inds, max <> Some 0 ->
  solveFor (/ 2)%R max (S loops) 10 ord inds case_graph 4 0 = SOk (case_result, Var 6 None).
Proof.
  intros max loops ord inds MX.
  assert (E0 : Rcmp CEq 0 0 = true) by (now apply Reqb).
  assert (E2 : Rcmp CEq 2 1 = false) by (destruct (Rcmp CEq 2 1) eqn:E; auto; apply Reqb in E; lra).
  assert (SP : solvePath (/ 2)%R case_graph case_path = SOk (case_result, Var 6 None)).
  { unfold solvePath, case_path.
    repeat (cbn [solveSteps case_graph nth_error invert n_op n_args isFirst argCG sbind ofres toCG casg bisz biso b0 b1 ROps
      mkAsg asgHandler newnode makeNode nodeHandler option_map cfun mkUn getCodeHandler app length n_handler argument
      value2 cvalue bopcode]; rewrite ?E0, ?E2). reflexivity. }
  rewrite <- SP. destruct max as [[|m]|]; [congruence|apply (proj1 (case_search 2%R (/ 2)%R m ord inds loops))|apply (proj2 (case_search 2%R (/ 2)%R 0 ord inds loops))].
Qed.
(** for y > 0 the domain conditions hold and x = log(y) / 2 *)
Lemma case_back sol y : (0 < y)%R -> sol 1 = Some y -> back (/ 2)%R sol case_graph case_path b0 (ln y / 2)%R.
Proof.
  intros Hy Hs. unfold case_path.
  assert (E : (ln y / 2 = bdiv (bfun Log (badd b0 y)) 2)%R) by (cbn; now rewrite Rplus_0_l).
  rewrite E.
  econstructor; [reflexivity| |]; [apply inv_sub_l; exact Hs|].
  econstructor; [reflexivity| |]; [apply inv_exp; apply Rltb; cbn; lra|].
  econstructor; [reflexivity| |]; [apply inv_mul_r; [reflexivity|cbn; lra]|]. constructor.
Qed.
Definition case_values (x y : R) (n : nat) : option R :=
  match n with
  | 0 => Some x | 1 => Some y | 2 => Some (2 * x)%R | 3 => Some (exp (2 * x)) | 4 => Some (exp (2 * x) - y)%R
  | 5 => Some (ln y) | 6 => Some (ln y / 2)%R | _ => None
  end.
Lemma case_solves x y : solves (fun _ k => if Nat.eqb k 0 then x else y) case_result (case_values x y).
Proof.
  intros n d H. destruct n as [|[|[|[|[|[|[|n]]]]]]]; cbn in H; [injection H as <-; try reflexivity..|].
  - cbn. destruct (Req_EM_T 2 0); [lra|reflexivity].
  - destruct n; discriminate.
Qed.

Example C21_case : forall x y, (0 < y)%R ->
  handler_nodes 0 case_graph /\ once case_graph 4 0 /\
  (forall max loops ord inds, max <> Some 0 ->
     solveFor (/ 2)%R max (S loops) 10 ord inds case_graph 4 0 = SOk (case_result, Var 6 None)) /\
  solves (fun _ k => if Nat.eqb k 0 then x else y) case_result (case_values x y) /\
  solves (fun _ k => if Nat.eqb k 0 then (ln y / 2)%R else y) case_graph (case_values (ln y / 2) y) /\
  same_others case_graph 0 (case_values x y) (case_values (ln y / 2) y) /\
  back (/ 2)%R (case_values x y) case_graph case_path b0 (ln y / 2)%R.
Proof.
  intros x y Hy. split; [apply case_nodes|]. split; [apply case_once|]. split; [apply case_solved|].
  split; [apply case_solves|]. split; [|split].
  - apply (solves_ext _ _ case_result); [eexists; reflexivity|apply case_solves].
  - intros n d k Hn Ho N. destruct n as [|[|[|[|[|n]]]]]; cbn in Hn; [injection Hn as <-; cbn in Ho; try discriminate; try congruence; auto..|].
    destruct n; discriminate.
  - now apply case_back.
Qed.
End Case.

(** ** The expression which is the variable itself

    solveFor(x, x) returns x, and not 0: the equation x = 0 is not solved (solver.hpp 30-31). *)
Theorem C21_expression_is_the_variable_refuted : exists (g : heap Qc) var g' rhs env sol,
  handler_nodes 0 g /\ once g var var /\
  (forall half max loops fuel ord inds, solveFor half max loops fuel ord inds g var var = SOk (g', rhs)) /\
  solves env g' sol /\ sol var = sv sol rhs /\ sol var <> Some b0 /\ sol var <> None.
Proof.
  exists [mkNode 0 (GInv 0) []], 0, [mkNode 0 (GInv 0) []], (Var 0 None), (fun _ _ => b1), (fun _ => Some b1).
  assert (NL : forall n i j, ~ link [mkNode 0 (GInv 0) [] : node Qc] n i j).
  { intros n i j [d [Hn Ha]]. destruct n as [|n]; [cbn in Hn; injection Hn as <-; destruct i; discriminate|destruct n; discriminate]. }
  split; [constructor|split;[|split;[reflexivity|split;[|split;[reflexivity|split]]]]].
  - repeat constructor.
  - intros n d j Hn Ha. apply In_nth_error in Ha. destruct Ha as [i Ha]. destruct (NL n i j). exists d. auto.
  - exists (fun n => n). intros n i j L. destruct (NL _ _ _ L).
  - repeat constructor.
  - exists [(0, None)]. split; [constructor|]. intros q D. inversion D; subst; auto. destruct (NL _ _ _ H).
  - intros n d H. destruct n as [|n]; [injection H as <-; reflexivity|destruct n; discriminate].
  - intros H. injection H. discriminate.
  - discriminate.
Qed.
Print Assumptions C21_expression_is_the_variable_refuted.

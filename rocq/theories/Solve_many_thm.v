(** * Solving an expression in which the variable occurs any number of times (C46) *)
From Coq Require Import List Bool Arith Lia Permutation Qcanon ZArith Reals Lra.
From Verif Require Import Graph_model Graph_spec CGArith_model CGArith_spec CGArith_proofs Codegen_spec
  Path_model Path_spec Path_proofs Path_graph Solve_model Solve_spec Solve_proofs Solve_total Solve_once Solve_thm Solve_collect_thm
  Solve_fuel Solve_keep Solve_many Solve_loop Solve_plain Graph_Qc Graph_R.
Import ListNotations.
Local Open Scope nat_scope.

Section Thm.
Context {B : Type} {O : BaseOps B}.

Lemma paths_weight (g : heap B) root var M W : no_cycle g -> closed g -> root < length g -> at_most_paths g root var M ->
  weighs g var W -> W var = 1 -> W root <= M.
Proof.
  intros [r RK] C LR HM HW HV. destruct (paths_exist g r RK var W HW HV root LR C) as [l [ND [HP <-]]]. now apply HM.
Qed.

Lemma weighs_unique (g : heap B) var W W' : no_cycle g -> closed g -> weighs g var W -> weighs g var W' -> W var = W' var ->
  forall n, n < length g -> W n = W' n.
Proof.
  intros [r RK] C H1 H2 EV.
  enough (H : forall k n, r n < k -> n < length g -> W n = W' n) by (intros n; apply (H (S (r n))); lia).
  induction k as [|k IH]; intros n Hk Hn; [lia|]. destruct (Nat.eq_dec n var) as [->|NE]; auto.
  destruct (nth_error g n) as [d|] eqn:E; [|apply nth_error_None in E; lia].
  rewrite (H1 n d E NE), (H2 n d E NE). f_equal. apply map_ext_in. intros [j|b] Hj; cbn; auto.
  apply In_nth_error in Hj. destruct Hj as [i Hi].
  assert (L : link g n i j) by (exists d; auto). apply IH; [apply RK in L; lia|]. eapply C; [exact E|]. eapply nth_error_In; eauto.
Qed.
End Thm.

(** ** C46 *)

(** solveFor always ends, by returning a solution or with an exception; no null pointer is dereferenced and no vector is
    read out of bounds.  The variable does not occur in a solution, and the recorded nodes do not change.  [max] is the
    limit of bifurcations (50000 in the code); it must not be smaller than the number of paths from the expression to the
    variable.  [ord] is any evaluation order of operands. *)
Theorem C46_solveFor_returns_or_throws : forall {B} {O : BaseOps B} half h g root var ord inds max,
  handler_nodes h g -> root < length g -> var < length g -> root <> var ->
  (forall i n, Permutation (ord i n) (seq 0 n)) ->
  match max with None => True | Some M => 1 <= M /\ at_most_paths g root var M end ->
  exists N out, (forall fuel loops, N <= fuel -> N <= loops -> solveFor half max loops fuel ord inds g root var = out) /\
    (out = SThrow \/
     exists g' rhs, out = SOk (g', rhs) /\ match rhs with Var i _ => i < length g' | Par _ => True end /\
       free_of g' var rhs /\ handler_nodes h g' /\ exists added, g' = g ++ added).
Proof.
  intros B O half h g root var ord inds max HG LR LV NE OA HM.
  destruct (weighs_exists g var (Hn_cycle _ _ HG)) as [W0 [W1 W2]].
  destruct (solve_goes half h ord OA inds var max (S (W0 root)) g root) as [N HN]; [split; auto|auto| |].
  { intros W HW HV. split.
    - enough (W root = W0 root) by lia. apply (weighs_unique g var W W0); auto; try apply HG. congruence.
    - destruct max as [M|]; auto. destruct HM as [M1 HM]. split; auto. eapply paths_weight; eauto; apply HG. }
  exists N, (solveFor half max N N ord inds g root var). split.
  - intros fuel loops HF HL. apply (solveFor_stable half max ord inds var N loops N fuel g root HL HF).
    unfold solveFor. destruct (Nat.eqb root var); [discriminate|].
    destruct (HN N N (le_n _) (le_n _)) as [->|[g' [x [-> _]]]]; discriminate.
  - unfold solveFor. destruct (Nat.eqb_spec root var); [contradiction|].
    destruct (HN N N (le_n _) (le_n _)) as [->|[g' [x [-> [X [[N1 _] [[V F] _]]]]]]]; [now left|]. right. exists g', x. split; [reflexivity|]. split; [destruct x; exact V|auto].
Qed.
Print Assumptions C46_solveFor_returns_or_throws.

(** 3 x - (y - x), with two paths to x: solveFor collects the variable and returns (0 - (0 - y)) / 4 *)
Definition many_result : heap Qc := good_result ++ [ mkNode 0 GSub [APar (qc 0); ANode 5]; mkNode 0 GDiv [ANode 8; APar (qc 4)] ].
Example C46_case :
  handler_nodes 0 good_graph /\ at_most_paths good_graph 4 0 2 /\ ~ once good_graph 4 0 /\
  (forall half M, solveFor half (Some (2 + M)) 2 10 both [0; 1] good_graph 4 0 = SOk (many_result, Var 9 None)) /\
  free_of many_result 0 (Var 9 None).
Proof.
  assert (D1 : down_path good_graph 4 good_p1 0).
  { econstructor 2; [eexists; split; reflexivity|]. econstructor 2; [eexists; split; reflexivity|]. constructor. }
  assert (D2 : down_path good_graph 4 good_p2 0).
  { econstructor 2; [eexists; split; reflexivity|]. econstructor 2; [eexists; split; reflexivity|]. constructor. }
  split; [apply nodes_ok_spec; reflexivity|]. split; [|split; [|split]].
  - intros l ND HP. assert (H : incl l [good_p1; good_p2]); [|exact (NoDup_incl_length ND H)].
    intros p Hp. apply HP in Hp. clear -Hp.
    inversion Hp as [|n i j p' m [d [E1 E2]] D]; subst. cbn in E1. injection E1 as <-. cbn in E2.
    destruct i as [|[|i]]; cbn in E2; [injection E2 as <-|injection E2 as <-|destruct i; discriminate].
    + inversion D as [|n i j p m [d [E1 E2]] D']; subst. cbn in E1. injection E1 as <-. cbn in E2.
      destruct i as [|[|i]]; cbn in E2; [discriminate|injection E2 as <-|destruct i; discriminate].
      inversion D' as [|n i j p' m [d [E1 E2]] D'']; subst; [now left|]. cbn in E1. injection E1 as <-. destruct i; discriminate.
    + inversion D as [|n i j p m [d [E1 E2]] D']; subst. cbn in E1. injection E1 as <-. cbn in E2.
      destruct i as [|[|i]]; cbn in E2; [injection E2 as <-|injection E2 as <-|destruct i; discriminate].
      * inversion D' as [|n i j p' m [d [E1 E2]] D'']; subst. cbn in E1. injection E1 as <-. destruct i; discriminate.
      * inversion D' as [|n i j p' m [d [E1 E2]] D'']; subst; [right; now left|]. cbn in E1. injection E1 as <-. destruct i; discriminate.
  - intros [p [_ U]]. pose proof (U _ D1). pose proof (U _ D2). unfold good_p1, good_p2 in *. congruence.
  - intros half M. vm_compute. reflexivity.
  - cbn [free_of]. intros [l Hl]. 
    assert (K : forall n i j, In n [9; 8; 5; 1] -> link many_result n i j -> In j [9; 8; 5; 1]).
    { intros n i j Hn [d [E1 E2]]. cbn in Hn. destruct Hn as [<-|[<-|[<-|[<-|[]]]]]; cbn in E1; injection E1 as <-; cbn in E2;
        destruct i as [|[|[|i]]]; cbn in E2; try discriminate; injection E2 as <-; cbn; auto. }
    assert (H : forall n m, leads many_result n l m -> In n [9; 8; 5; 1] -> In m [9; 8; 5; 1]).
    { clear Hl. induction l; intros n m D Hn; inversion D; subst; eauto. }
    apply H in Hl; cbn in *; intuition discriminate.
Qed.

(** isSolvable always answers, and the answer is whether solveFor returns. *)
Theorem C46_isSolvable_answers : forall {B} {O : BaseOps B} half h g root var ord inds max,
  handler_nodes h g -> root < length g -> var < length g ->
  (forall i n, Permutation (ord i n) (seq 0 n)) ->
  match max with None => True | Some M => 1 <= M /\ at_most_paths g root var M end ->
  exists N b, forall fuel loops, N <= fuel -> N <= loops ->
    isSolvable half max loops fuel ord inds g root var = SOk b /\
    (b = true <-> exists r, solveFor half max loops fuel ord inds g root var = SOk r).
Proof.
  intros B O half h g root var ord inds max HG LR LV OA HM.
  assert (MX : max <> Some 0) by (destruct max as [[|]|]; try discriminate; lia).
  destruct (C22_isSolvable_predicts_solveFor half h g root var HG) as [N1 P1].
  assert (Q : exists N2 out, (forall fuel loops, N2 <= fuel -> N2 <= loops -> solveFor half max loops fuel ord inds g root var = out) /\
     (out = SThrow \/ exists r, out = SOk r)).
  { destruct (Nat.eq_dec root var) as [->|NE].
    - exists 0, (SOk (g, Var var None)). split; [|eauto]. intros. unfold solveFor. now rewrite Nat.eqb_refl.
    - destruct (C46_solveFor_returns_or_throws half h g root var ord inds max HG LR LV NE OA HM) as [N2 [out [H1 [H2|[g' [x [H2 _]]]]]]]; eauto 10. }
  destruct Q as [N2 [out [P2 Q]]].
  exists (Nat.max 1 (Nat.max N1 N2)), (match out with SOk _ => true | _ => false end). intros fuel loops HF HL.
  destruct (P1 fuel loops max ord inds) as [A1 A2]; try lia; auto. rewrite (P2 fuel loops) in A1, A2 |- * by lia.
  destruct Q as [->|[r ->]].
  - split; [now apply A2|]. split; [discriminate|intros [? ?]; discriminate].
  - split; [apply A1; eauto|]. split; eauto.
Qed.
Print Assumptions C46_isSolvable_answers.

Lemma straight_unique {B} (g : heap B) var root p : no_cycle g -> down_path g root p var -> straight g var p ->
  forall q, down_path g root q var -> q = p.
Proof.
  intros [r RK] D. induction D as [n|n i j p m Lk D IH]; intros ST q D'.
  - inversion D' as [|n' i j q'' m Lk D E3]; subst; auto. exfalso. apply down_path_occurs in D.
    apply (occurs_rank g r RK) in D. apply RK in Lk. lia.
  - inversion D' as [|n' i' j' q'' m' Lk' D'' E3]; subst.
    + exfalso. apply down_path_occurs in D. apply (occurs_rank g r RK) in D. apply RK in Lk. lia.
    + assert (i' = i) as -> by (eapply ST; eauto; [now left|eapply down_path_occurs; eauto]).
      assert (j' = j) as -> by (eapply link_fun; eauto). f_equal. apply IH; auto.
      intros n0 i0 Hi. apply ST. now right.
Qed.

(** ** C23, the whole loop *)

(** When there is no subtraction between the expression and the variable, solveFor is right for any number of
    occurrences: it rewrites the expression [root] as an expression [root1] with one occurrence of the variable and the same value,
    and, the inverted functions being used within their domains ([back]), the result is the value [x] of the variable for which
    [root1], and hence the original expression, is zero.

    Missing: expressions with subtractions above the variable; solveFor may be wrong for them, see
    C23_solveFor_several_occurrences_refuted. *)
Theorem C23_several_occurrences_partial : forall {B} {O : BaseOps B} half (L : BaseLaws B), is_field B -> inverse_laws B half ->
  forall h g root var ord inds max,
  handler_nodes h g -> root < length g -> var < length g -> root <> var ->
  (forall i n, Permutation (ord i n) (seq 0 n)) ->
  match max with None => True | Some M => 1 <= M /\ at_most_paths g root var M end ->
  no_sub_above g root var ->
  exists N, forall fuel loops g' rhs, N <= fuel -> N <= loops ->
    solveFor half max loops fuel ord inds g root var = SOk (g', rhs) ->
    exists g1 root1 p,
      (exists t, g1 = g ++ t) /\ (exists t, g' = g1 ++ t) /\
      down_path g1 root1 p var /\ (forall q, down_path g1 root1 q var -> q = p) /\
      (forall env sol w, solves env g1 sol -> sol root = Some w -> sol root1 = Some w) /\
      forall env sol env' sol' x, solves env g' sol -> solves env' g' sol' -> same_others g1 var sol sol' ->
        back half sol g1 p b0 x ->
        sv sol rhs = Some x /\ (sol' var = Some x -> forall w, sol' root = Some w -> w = b0).
Proof.
  intros B O half L FL IL h g root var ord inds max HG LR LV NE OA HM NS.
  destruct (weighs_exists g var (Hn_cycle _ _ HG)) as [W0 [W1 W2]].
  destruct (solve_goes half h ord OA inds var max (S (W0 root)) g root) as [N HN]; [split; auto|auto| |].
  { intros W HW HV. split.
    - enough (W root = W0 root) by lia. apply (weighs_unique g var W W0); auto; try apply HG. congruence.
    - destruct max as [M|]; auto. destruct HM as [M1 HM]. split; auto. eapply paths_weight; eauto; apply HG. }
  exists N. intros fuel loops g' rhs HF HL H. unfold solveFor in H. destruct (Nat.eqb_spec root var); [contradiction|].
  destruct (HN loops fuel HL HF) as [E|[g2 [x2 [E [X [_ [_ SV]]]]]]]; rewrite H in E; [discriminate|]. injection E as <- <-.
  destruct SV as (g1 & root1 & p & R & [HG1 _] & X1 & D & ST & E).
  destruct (reduces_value h ord OA inds var L FL _ _ _ _ R NS) as [_ V].
  pose proof (solveSteps_ext L half FL IL _ _ _ _ _ E) as X2.
  exists g1, root1, p. split; auto. split; auto. split; auto. split; [now apply straight_unique; [apply HG1|..]|].
  split; [intros env sol w S Hw; exact (V env sol S w Hw)|].
  intros env sol env' sol' x S S' SO Bk.
  destruct (solvePath_value g1 var L half FL IL p root1 g' rhs (Hn_cycle _ _ HG1) (Hn_closed _ _ HG1) D ST E env sol env' sol' x S
    (solves_ext _ _ _ _ X2 S') SO Bk) as [V1 V2].
  split; auto. intros Hv w Hw. specialize (V2 Hv).
  pose proof (V env' sol' (solves_ext _ _ _ _ X2 S') w Hw) as Q. congruence.
Qed.
Print Assumptions C23_several_occurrences_partial.

(** y x + z x + w: the expression becomes (y + z) x + w and the result is (0 - w) / (y + z) *)
Section SumCase.
Context {B : Type} {O : BaseOps B}.
Definition sum_graph : heap B :=
  [ mkNode 0 (GInv 0) []; mkNode 0 (GInv 1) []; mkNode 0 (GInv 2) []; mkNode 0 (GInv 3) [];
    mkNode 0 GMul [ANode 1; ANode 0]; mkNode 0 GMul [ANode 2; ANode 0]; mkNode 0 GAdd [ANode 4; ANode 5]; mkNode 0 GAdd [ANode 6; ANode 3] ].
Definition sum_collected : heap B := sum_graph ++
  [ mkNode 0 GAdd [ANode 1; ANode 2]; mkNode 0 GMul [ANode 8; ANode 0]; mkNode 0 GAdd [ANode 9; ANode 3] ].
Definition sum_result : heap B := sum_collected ++ [ mkNode 0 GSub [APar b0; ANode 3]; mkNode 0 GDiv [ANode 11; ANode 8] ].
Hypothesis E0 : bisz b0 = true.
Hypothesis E1 : biso b1 = true.
Hypothesis E2 : bisz b1 = false.
Lemma sum_solved half M inds : solveFor half (Some (2 + M)) 2 10 both inds sum_graph 7 0 = SOk (sum_result, Var 12 None).
Proof.
  unfold solveFor. cbn [Nat.eqb]. 
  assert (F1 : findPathGraph sum_graph 10 7 0 0 (Some (2 + M)) = Got ([(7, mkEdges [0] []); (6, mkEdges [0; 1] [(7, 0)]); (4, mkEdges [1] [(6, 0)]); (0, mkEdges [] [(4, 1); (5, 1)]); (5, mkEdges [1] [(6, 1)])], 1)).
  { vm_compute. reflexivity. }
  cbn [solveLoop]. rewrite F1. cbn [ofpath sbind pg_contains pg_find Nat.eqb negb].
  match goal with |- context[findSingleBifurcation ?a ?b ?c ?d ?e] =>
    replace (findSingleBifurcation a b c d e) with (Got ([[(7, Some 0); (6, Some 0); (4, Some 1); (0, None)]; [(7, Some 0); (6, Some 1); (5, Some 1); (0, None)]], Some 1)) by (vm_compute; reflexivity) end.
  cbn [ofpath sbind].
  assert (A : collectVariableAddSub 10 both inds sum_graph [(6, Some 0); (4, Some 1); (0, None)] [(6, Some 1); (5, Some 1); (0, None)] =
    SOk (sum_graph ++ [ mkNode 0 GAdd [ANode 1; ANode 2]; mkNode 0 GMul [ANode 8; ANode 0] ], Var 9 None)).
  { unfold collectVariableAddSub.
    repeat (progress (cbn [Nat.eqb negb nth_error sum_graph n_op n_args last_node rev app collectable isFirst sbind ofres coefSteps argCG toCG casg oeqb
      replaced scaling nth cbin cadd cmul mkBin getHandler getCodeHandler mkAsg asgHandler nodeHandler option_map n_handler newnode makeNode length argument value2 cvalue bopcode
      ]; rewrite ?E0, ?E1, ?E2)). reflexivity. }
  assert (C : collectVariable 10 both inds sum_graph 7 [(7, Some 0); (6, Some 0); (4, Some 1); (0, None)] [(7, Some 0); (6, Some 1); (5, Some 1); (0, None)] 1
    = SOk (sum_collected, Var 10 None)).
  { unfold collectVariable. cbn [nth_error skipn]. rewrite A. cbn [sbind]. vm_compute. reflexivity. }
  rewrite C. cbn [sbind Nat.eqb].
  assert (F2 : findPathGraph sum_collected 10 10 0 0 (Some (2 + M)) = Got ([(10, mkEdges [0] []); (9, mkEdges [1] [(10, 0)]); (0, mkEdges [] [(9, 1)])], 0)) by (vm_compute; reflexivity).
  rewrite F2. cbn [ofpath sbind pg_contains pg_find Nat.eqb negb].
  match goal with |- context[findSingleBifurcation ?a ?b ?c ?d ?e] =>
    replace (findSingleBifurcation a b c d e) with (Got ([[(10, Some 0); (9, Some 1); (0, None)]], @None nat)) by (vm_compute; reflexivity) end.
  cbn [ofpath sbind].
  unfold solvePath.
  repeat (progress (cbn [solveSteps sum_collected sum_graph app nth_error invert n_op n_args isFirst argCG sbind ofres toCG casg
      mkAsg asgHandler newnode makeNode nodeHandler option_map cfun mkUn getCodeHandler app length n_handler argument
      value2 cvalue bopcode]; rewrite ?E0, ?E1, ?E2)). reflexivity.
Qed.
End SumCase.

Definition sum_path : spath := [(10, Some 0); (9, Some 1); (0, None)].
Definition sum_values (x y z w : R) (n : nat) : option R :=
  (match n with
   | 0 => Some x | 1 => Some y | 2 => Some z | 3 => Some w | 4 => Some (y * x) | 5 => Some (z * x) | 6 => Some (y * x + z * x)
   | 7 => Some (y * x + z * x + w) | 8 => Some (y + z) | 9 => Some ((y + z) * x) | 10 => Some ((y + z) * x + w)
   | 11 => Some (0 - w) | 12 => if Req_EM_T (y + z) 0 then None else Some ((0 - w) / (y + z))
   | _ => None
   end)%R.
Lemma sum_solves x y z w :
  solves (fun _ k => nth k [x; y; z; w] 0%R) sum_result (sum_values x y z w).
Proof.
  intros n d H. do 13 (destruct n as [|n]; [cbn in H; injection H as <-; cbn; try reflexivity|]); [|destruct n; discriminate].
  unfold odiv. cbn. destruct (Req_EM_T (y + z) 0); reflexivity.
Qed.
Example C23_several_case : forall x y z w x', (y + z)%R <> 0%R ->
  handler_nodes 0 (@sum_graph R) /\ at_most_paths (@sum_graph R) 7 0 2 /\ no_sub_above (@sum_graph R) 7 0 /\
  (forall M inds, solveFor (/ 2)%R (Some (2 + M)) 2 10 both inds sum_graph 7 0 = SOk (sum_result, Var 12 None)) /\
  down_path (@sum_collected R) 10 sum_path 0 /\
  solves (fun _ k => nth k [x; y; z; w] 0%R) sum_result (sum_values x y z w) /\
  solves (fun _ k => nth k [x'; y; z; w] 0%R) sum_result (sum_values x' y z w) /\
  same_others (@sum_collected R) 0 (sum_values x y z w) (sum_values x' y z w) /\
  back (/ 2)%R (sum_values x y z w) sum_collected sum_path b0 ((0 - w) / (y + z))%R.
Proof.
  intros x y z w x' NZ.
  assert (P : forall q, down_path (@sum_graph R) 7 q 0 ->
     In q [[(7, Some 0); (6, Some 0); (4, Some 1); (0, None)]; [(7, Some 0); (6, Some 1); (5, Some 1); (0, None)]]).
  { intros q D.
    assert (KL : forall n i j, link (@sum_graph R) n i j ->
      (n = 4 /\ ((i = 0 /\ j = 1) \/ (i = 1 /\ j = 0))) \/ (n = 5 /\ ((i = 0 /\ j = 2) \/ (i = 1 /\ j = 0))) \/
      (n = 6 /\ ((i = 0 /\ j = 4) \/ (i = 1 /\ j = 5))) \/ (n = 7 /\ ((i = 0 /\ j = 6) \/ (i = 1 /\ j = 3)))).
    { intros n i j [d [Hn Ha]]. do 8 (destruct n as [|n]; [cbn in Hn; injection Hn as <-; cbn in Ha; destruct i as [|[|[|i]]]; cbn in Ha; try discriminate; injection Ha as <-; auto 20|]). destruct n; discriminate. }
    repeat match goal with
    | H : link sum_graph _ _ _ |- _ => apply KL in H; repeat (match goal with H : _ \/ _ |- _ => destruct H | H : _ /\ _ |- _ => destruct H end); subst; try discriminate
    | H : down_path sum_graph _ _ _ |- _ => inversion H; clear H; subst
    end; cbn; auto. }
  split; [apply nodes_ok_spec; reflexivity|]. split; [|split; [|split; [|split; [|split; [|split; [|split]]]]]].
  - intros l ND HP. exact (NoDup_incl_length ND (fun q Hq => P q (HP q Hq))).
  - intros n d _ _ Hn. do 8 (destruct n as [|n]; [cbn in Hn; injection Hn as <-; discriminate|]). destruct n; discriminate.
  - intros M inds. apply sum_solved.
    + now apply Reqb.
    + now apply Reqb.
    + cbn. destruct (Req_EM_T 1 0); [lra|reflexivity].
  - unfold sum_path. repeat (econstructor 2; [eexists; split; reflexivity|]). constructor.
  - apply sum_solves.
  - apply sum_solves.
  - intros n d k Hn Ho NE. do 11 (destruct n as [|n]; [cbn in Hn; injection Hn as <-; cbn in Ho; try discriminate; try congruence; reflexivity|]). destruct n; discriminate.
  - unfold sum_path. assert (E : ((0 - w) / (y + z) = bdiv (bsub b0 w) (badd y z))%R) by reflexivity. rewrite E.
    econstructor; [reflexivity|apply inv_add_l; reflexivity|].
    econstructor; [reflexivity|apply inv_mul_r; [reflexivity|exact NZ]|]. constructor.
Qed.

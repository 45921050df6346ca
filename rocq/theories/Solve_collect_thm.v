(** * Collecting the occurrences of a variable (C23) *)
From Coq Require Import List Bool Arith Lia Field_theory QArith Qcanon.
From Verif Require Import Graph_model Graph_spec CGArith_model CGArith_spec CGArith_proofs Codegen_spec
  Eval_model Eval_spec Eval_proofs Eval_inst
  Path_model Path_spec Path_proofs Path_graph Solve_model Solve_spec Solve_proofs Solve_total Solve_once Solve_clone
  Solve_collect Graph_Qc.
Import ListNotations.
Local Open Scope nat_scope.

Section Value.
Context {B : Type} {O : BaseOps B}.

Lemma skipn_prefix {T} (c q : list T) : skipn (length c) (c ++ q) = q.
Proof. induction c; auto. Qed.
Lemma nth_prefix {T} (c : list T) x q : nth_error (c ++ x :: q) (length c) = Some x.
Proof. induction c; auto. Qed.

Lemma collectable_ok (g : heap B) p n v : down_path g n p v -> collectable g p = SOk tt \/ collectable g p = SThrow.
Proof.
  intros D. induction D as [n|n i j p m Lk D IH]; [left; reflexivity|].
  destruct Lk as [d [Hn Ha]]. cbn [collectable]. destruct p as [|x p]; [auto|]. rewrite Hn.
  destruct (n_op d); auto. destruct (isFirst (Some i)); auto.
Qed.

Lemma collect_value (L : BaseLaws B) (FL : is_field B) fuel ord inds g root var c m p1 p2 g' x :
  wf_arity g -> closed g -> no_cycle g ->
  down_path g root (c ++ (m, Some 0) :: p1) var -> down_path g root (c ++ (m, Some 1) :: p2) var ->
  straight g var p1 -> straight g var p2 -> signs_agree g (Some 0) p1 -> signs_agree g (Some 1) p2 ->
  collectVariable fuel ord inds g root (c ++ (m, Some 0) :: p1) (c ++ (m, Some 1) :: p2) (length c) = SOk (g', x) ->
  ext g g' /\ forall env sol, solves env g' sol -> le (sol root) (sv sol x).
Proof.
  intros WA CL NC D1 D2 T1 T2 G1 G2 H.
  assert (DM : forall i p, down_path g root (c ++ (m, Some i) :: p) var -> exists j, link g m i j /\ down_path g j p var).
  { intros i p D. pose proof (on_down g root _ var c m (Some i) p D eq_refl) as Dm.
    inversion Dm; subst; eauto. }
  destruct (DM _ _ D1) as [j1 [L1 E1]]. destruct (DM _ _ D2) as [j2 [L2 E2]].
  unfold collectVariable in H. rewrite nth_prefix, !skipn_prefix in H.
  apply sbind_ok in H. destruct H as [[g1 sub] [EA H]].
  apply sbind_ok in H. destruct H as [[G b] [EG H]].
  pose proof L1 as [dm [Em Ea]].
  assert (OPC : (n_op dm = GAdd \/ n_op dm = GSub) /\ collectable g p1 = SOk tt /\ collectable g p2 = SOk tt).
  { unfold collectVariableAddSub in EA. rewrite Nat.eqb_refl in EA. cbn [negb] in EA. rewrite Em in EA.
    destruct (last_node ((m, Some 0) :: p1)); [|destruct (n_op dm); discriminate].
    destruct (last_node ((m, Some 1) :: p2)); [|destruct (n_op dm); discriminate].
    destruct (n_op dm) eqn:EO; cbn [negb] in EA; try discriminate; (split; [auto|]);
      destruct (Nat.eqb n n0); cbn [negb] in EA; try discriminate;
      apply sbind_ok in EA; destruct EA as [[] [EC1 EA]];
      apply sbind_ok in EA; destruct EA as [[] [EC2 EA]]; auto. }
  destruct OPC as [OP [K1 K2]].
  destruct (addsub_value L FL g var WA CL NC m j1 j2 p1 p2 dm Em L1 L2 E1 E2 T1 T2 K1 K2 OP fuel ord inds g1 sub G1 G2 EA) as [X V].
  set (visit := fun (_ : spath) i => i < length g).
  destruct (cloneEval_good (decideGraph G m sub) ord inds L g1 visit) with (fuel := fuel) (root := root) (g' := g') (v := x) as [X2 V2]; auto.
  - intros pre i Hi. unfold visit in Hi. apply ext_length in X. lia.
  - intros pre i d p j Hi _ Hn Ha. unfold visit in *.
    destruct (nth_error g i) as [d'|] eqn:E; [|apply nth_error_None in E; lia].
    rewrite (ext_nth _ _ _ _ X E) in Hn. injection Hn as ->. apply (CL i d j E). eapply nth_error_In; eauto.
  - unfold visit. destruct (down_path_head g _ _ _ D1) as [i [q Eq]].
    rewrite Eq in D1. inversion D1 as [n Q1 Q2 Q3|n k j q' v Lk D Q1 Q2]; subst.
    + destruct c; cbn in Eq; [discriminate|]. injection Eq as _ Eq. destruct c; discriminate.
    + destruct Lk as [d [Hd _]]. apply nth_error_Some. congruence.
  - split; [eapply ext_trans; eauto|]. intros env sol S. pose proof (solves_ext _ _ _ _ X2 S) as S1.
    apply (V2 env sol sol S). intros pre i Hi. unfold visit in Hi.
    unfold decideGraph. destruct (pg_find G i); [|apply le_refl].
    destruct (Nat.eqb_spec i m) as [->|NE]; [apply (V env sol S1)|].
    destruct (nth_error g i) as [d|] eqn:E; [|apply nth_error_None in E; lia].
    pose proof (ext_nth _ _ _ _ X E) as E'. exists d. split; auto. pose proof (S1 i d E') as Q.
    rewrite <- Q. destruct (n_op d); apply le_refl.
Qed.
End Value.

(** collectVariable, for the two paths findSingleBifurcation returns and provided [signs_agree] along them: the new expression has the
    value of the old one, for all values of the independent variables for which the old one has a value.  [solves env g' sol]:
    [sol] is the value of every node, old and new.

    Missing: without [signs_agree] the claim is false, see below. *)
Theorem C23_collecting_keeps_the_value_partial : forall {B} {O : BaseOps B} (L : BaseLaws B), is_field B ->
  forall h g root var, handler_nodes h g ->
  exists N, forall fuel ord inds G b p1 p2 k g' x, N <= fuel ->
    findPathGraph g fuel root var 0 None = Got (G, b) ->
    findSingleBifurcation g fuel G root var = Got ([p1; p2], Some k) ->
    signs_agree g (snd (nth k p1 (0, None))) (skipn (S k) p1) ->
    signs_agree g (snd (nth k p2 (0, None))) (skipn (S k) p2) ->
    collectVariable fuel ord inds g root p1 p2 k = SOk (g', x) ->
    (exists added, g' = g ++ added) /\
    forall env sol w, solves env g' sol -> sol root = Some w -> sv sol x = Some w.
Proof.
  intros B O L FL h g root var HG. destruct (Hn_cycle _ _ HG) as [r RK]. exists (S (r root)).
  intros fuel ord inds G b p1 p2 k g' x HF EG ES G1 G2 H.
  destruct (findPathGraph_ok g r RK root var fuel None HF) as [G' [b' [E' [P [C _]]]]]. specialize (C eq_refl).
  rewrite EG in E'. injection E' as <- <-.
  destruct (findSingle_ok g r RK root var G P C fuel HF) as [ps [k' [E2 HS]]]. rewrite ES in E2. injection E2 as <- <-.
  destruct HS as [[_ [HS _]]|[[HS _]|HS]]; try discriminate.
  destruct HS as (c & m & i1 & i2 & j1 & j2 & q1 & q2 & K & EP & D1 & D2 & N & L1 & L2 & T1 & T2 & S1 & S2).
  injection K as ->. injection EP as -> ->.
  (* the common node has at least two arguments; only additions and subtractions are accepted *)
  assert (I : i1 = 0 /\ i2 = 1).
  { pose proof L1 as [dm [Em Ea]]. pose proof L2 as [dm' [Em' Ea2]]. rewrite Em in Em'. injection Em' as <-.
    unfold collectVariable in H. rewrite nth_prefix, !skipn_prefix in H.
    apply sbind_ok in H. destruct H as [[g1 sub] [EA _]].
    unfold collectVariableAddSub in EA. rewrite Nat.eqb_refl in EA. cbn [negb] in EA. rewrite Em in EA.
    assert (OP : n_op dm = GAdd \/ n_op dm = GSub) by (destruct (n_op dm); auto; discriminate).
    assert (AR : length (n_args dm) = arity (n_op dm)).
    { pose proof (Hn_arity _ _ HG) as WA. unfold wf_arity in WA. rewrite Forall_forall in WA. apply WA. eapply nth_error_In; eauto. }
    assert (length (n_args dm) = 2) by (destruct OP as [E|E]; rewrite E in AR; exact AR).
    assert (i2 < length (n_args dm)) by (apply nth_error_Some; congruence). lia. }
  destruct I as [-> ->].
  assert (Q : forall i q, skipn (S (length c)) (c ++ (m, Some i) :: q) = q).
  { intros i q. clear. induction c; auto. }
  assert (Q2 : forall i q, nth (length c) (c ++ (m, Some i) :: q) (0, None) = (m, Some i)).
  { intros i q. clear. induction c; auto. }
  rewrite Q, Q2 in G1, G2.
  destruct (collect_value L FL fuel ord inds g root var c m q1 q2 g' x) as [X V]; auto; try apply HG.
  split; auto. intros env sol w S Hw. exact (V env sol S w Hw).
Qed.
Print Assumptions C23_collecting_keeps_the_value_partial.

(** ** Cases *)
Section Cases.
Definition qc (z : Z) : Qc := Q2Qc (inject_Z z).
Definition both (i n : nat) : list nat := seq 0 n.

(** handler_nodes of a graph whose nodes only use earlier nodes, by computation *)
Definition nodes_ok {B} (h : nat) (g : heap B) : bool :=
  forallb (fun '(i, d) => Nat.eqb (n_handler d) h && Nat.eqb (length (n_args d)) (arity (n_op d)) &&
    forallb (fun a => match a with ANode j => j <? i | APar _ => true end) (n_args d)) (combine (seq 0 (length g)) g).
Lemma nodes_ok_spec {B} h (g : heap B) : nodes_ok h g = true -> handler_nodes h g.
Proof.
  unfold nodes_ok. intros H. rewrite forallb_forall in H.
  assert (K : forall n d, nth_error g n = Some d -> n_handler d = h /\ length (n_args d) = arity (n_op d) /\
            forall j, In (ANode j) (n_args d) -> j < n).
  { intros n d E.
    assert (I : In (n, d) (combine (seq 0 (length g)) g)).
    { clear H. assert (Q : forall k, nth_error (combine (seq k (length g)) g) n = Some (k + n, d)).
      { revert n E. induction g as [|x l IH]; intros n E k; [destruct n; discriminate|]. destruct n as [|n]; cbn in E |- *.
        - injection E as ->. now rewrite Nat.add_0_r.
        - rewrite Nat.add_succ_r. apply (IH n E (S k)). }
      eapply nth_error_In. apply (Q 0). }
    apply H in I. apply andb_true_iff in I. destruct I as [I1 I2]. apply andb_true_iff in I1. destruct I1 as [I0 I1].
    apply Nat.eqb_eq in I0, I1. split; auto. split; auto. intros j Hj. rewrite forallb_forall in I2. apply I2 in Hj.
    now apply Nat.ltb_lt in Hj. }
  constructor.
  - apply Forall_forall. intros d Hd. apply In_nth_error in Hd. destruct Hd as [n Hn]. now apply K in Hn.
  - intros n d j Hn Hj. assert (n < length g) by (apply nth_error_Some; congruence). apply K in Hn. destruct Hn as [_ [_ Hn]].
    specialize (Hn j Hj). lia.
  - exists (fun n => n). intros n i j [d [Hn Ha]]. apply K in Hn. destruct Hn as [_ [_ Hn]]. apply Hn. eapply nth_error_In; eauto.
  - apply Forall_forall. intros d Hd. apply In_nth_error in Hd. destruct Hd as [n Hn]. now apply K in Hn.
Qed.

(** 3 x - (y - x): the expression becomes 4 x + (0 - y) *)
Definition good_graph : heap Qc :=
  [ mkNode 0 (GInv 0) []; mkNode 0 (GInv 1) []; mkNode 0 GMul [APar (qc 3); ANode 0]; mkNode 0 GSub [ANode 1; ANode 0];
    mkNode 0 GSub [ANode 2; ANode 3] ].
Definition good_p1 : spath := [(4, Some 0); (2, Some 1); (0, None)].
Definition good_p2 : spath := [(4, Some 1); (3, Some 1); (0, None)].
Definition good_result : heap Qc := good_graph ++
  [ mkNode 0 GSub [APar (qc 0); ANode 1]; mkNode 0 GMul [APar (qc 4); ANode 0]; mkNode 0 GAdd [ANode 6; ANode 5] ].
Definition good_values (x y : Qc) (n : nat) : option Qc :=
  match n with
  | 0 => Some x | 1 => Some y | 2 => Some (qc 3 * x)%Qc | 3 => Some (y - x)%Qc | 4 => Some (qc 3 * x - (y - x))%Qc
  | 5 => Some (qc 0 - y)%Qc | 6 => Some (qc 4 * x)%Qc | 7 => Some (qc 4 * x + (qc 0 - y))%Qc | _ => None
  end.
Example C23_case : 
  handler_nodes 0 good_graph /\
  (exists G b, findPathGraph good_graph 10 4 0 0 None = Got (G, b) /\
     findSingleBifurcation good_graph 10 G 4 0 = Got ([good_p1; good_p2], Some 0)) /\
  signs_agree good_graph (snd (nth 0 good_p1 (0, None))) (skipn 1 good_p1) /\
  signs_agree good_graph (snd (nth 0 good_p2 (0, None))) (skipn 1 good_p2) /\
  collectVariable 10 both [0; 1] good_graph 4 good_p1 good_p2 0 = SOk (good_result, Var 7 None) /\
  forall x y, solves (fun _ k => if Nat.eqb k 0 then x else y) good_result (good_values x y).
Proof.
  split; [apply nodes_ok_spec; reflexivity|]. split; [do 2 eexists; split; vm_compute; reflexivity|].
  split; [cbn; repeat split; discriminate|].
  split; [cbn; repeat split; discriminate|].
  split; [vm_compute; reflexivity|].
  intros x y n d H.
  destruct n as [|[|[|[|[|[|[|[|n]]]]]]]]; cbn in H; [injection H as <-; reflexivity..|destruct n; discriminate].
Qed.

(** (2 - x) + 3 x: the sign of the first occurrence is taken from the position of the subtraction in the sum, so that the
    result is 4 x + 2 instead of 2 x + 2 (collect_variable.hpp 167: p[i - 1].argIndex). *)
Definition bad_graph : heap Qc :=
  [ mkNode 0 (GInv 0) []; mkNode 0 GSub [APar (qc 2); ANode 0]; mkNode 0 GMul [APar (qc 3); ANode 0];
    mkNode 0 GAdd [ANode 1; ANode 2] ].
Definition bad_p1 : spath := [(3, Some 0); (1, Some 1); (0, None)].
Definition bad_p2 : spath := [(3, Some 1); (2, Some 1); (0, None)].
Definition bad_result : heap Qc := bad_graph ++
  [ mkNode 0 GMul [APar (qc 4); ANode 0]; mkNode 0 GAdd [ANode 4; APar (qc 2)] ].
Definition bad_values (x : Qc) (n : nat) : option Qc :=
  match n with
  | 0 => Some x | 1 => Some (qc 2 - x)%Qc | 2 => Some (qc 3 * x)%Qc | 3 => Some ((qc 2 - x) + qc 3 * x)%Qc
  | 4 => Some (qc 4 * x)%Qc | 5 => Some (qc 4 * x + qc 2)%Qc | _ => None
  end.
Lemma bad_solves x : solves (fun _ _ => x) bad_result (bad_values x).
Proof.
  intros n d H. destruct n as [|[|[|[|[|[|n]]]]]]; cbn in H; [injection H as <-; reflexivity..|destruct n; discriminate].
Qed.
Theorem C23_collecting_keeps_the_value_refuted : exists (g : heap Qc) root var G b p1 p2 k g' x env sol,
  handler_nodes 0 g /\
  findPathGraph g 10 root var 0 None = Got (G, b) /\
  findSingleBifurcation g 10 G root var = Got ([p1; p2], Some k) /\
  collectVariable 10 both [var] g root p1 p2 k = SOk (g', x) /\
  solves env g' sol /\ sol root = Some (qc 4) /\ sv sol x = Some (qc 6).
Proof.
  exists bad_graph, 3, 0. do 2 eexists. exists bad_p1, bad_p2, 0, bad_result, (Var 5 None), (fun _ _ => qc 1), (bad_values (qc 1)).
  split; [apply nodes_ok_spec; reflexivity|]. do 3 (split; [vm_compute; reflexivity|]).
  split; [apply bad_solves|]. split; vm_compute; reflexivity.
Qed.
Print Assumptions C23_collecting_keeps_the_value_refuted.

(** solveFor uses it: for the same expression it returns -1/2, where the expression is 1 and not 0 *)
Theorem C23_solveFor_several_occurrences_refuted : exists (g : heap Qc) root var g' rhs env sol,
  handler_nodes 0 g /\ root <> var /\
  (forall half m, solveFor half (Some (2 + m)) 2 10 both [var] g root var = SOk (g', rhs)) /\
  solves env g' sol /\ sol var = sv sol rhs /\ sol root = Some b1.
Proof.
  set (v := ((qc 0 - qc 2) / qc 4)%Qc). exists bad_graph, 3, 0, bad_result, (Par v), (fun _ _ => v), (bad_values v).
  split; [apply nodes_ok_spec; reflexivity|]. split; [discriminate|]. split; [intros half m; vm_compute; reflexivity|].
  split; [apply bad_solves|]. split; [reflexivity|]. cbn [bad_values]. f_equal. apply Qc_is_canon. vm_compute. reflexivity.
Qed.
Print Assumptions C23_solveFor_several_occurrences_refuted.
End Cases.

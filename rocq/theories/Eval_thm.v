(** * C25: evaluating a recorded graph with other values or another type *)
From Coq Require Import List Bool Arith Lia Permutation QArith Qcanon.
From Verif Require Import Graph_model Graph_spec Graph_proofs Graph_Qc CGArith_model CGArith_spec CGArith_proofs
  Codegen_spec Eval_model Eval_spec Eval_proofs Eval_inst Eval_rec.
Import ListNotations.
Local Open Scope nat_scope.

(** C25 for plain numbers.  Evaluating the dependents [ds] at the values [xs] of the independents, in any evaluation
    order of the operands, on an evaluator which is not in use: the call ends, and when the graph holds no function the
    evaluator does not know it returns for every dependent the value [sol] of its expression; every node which the
    dependents need has its operation done exactly once and no other node is touched.  Otherwise the call throws.  In
    both cases the evaluator can be used again. *)
Theorem C25_evaluation_returns_the_values :
  forall (B V : Type) (O : BaseOps V) (conv : B -> V) (g : heap B) (h : nat) (ds : list (arg B))
    (ord : nat -> list nat) (xs : list V) (d : V) (sol : nat -> V),
  acyclic g -> owned g ds h -> numbered g -> is_order g ord -> length xs = indepCount g h ->
  numsolves conv (fun k => nth k xs d) g sol ->
  exists N, forall fuel E, N <= fuel -> ev_under E = false ->
  exists E' log res,
    evaluate (num_target conv) g (independents g h) xs ord fuel E tt (length ds) ds = (E', tt, log, res) /\
    ev_under E' = false /\ NoDup log /\ (forall i, In i log -> reach g ds i) /\
    (no_missing g ds -> res = Done (map (argnum conv sol) ds) /\ forall i, reach g ds i -> In i log) /\
    (~ no_missing g ds -> res = Thrown).
Proof.
  intros B V O conv g h ds ord xs d sol AC OW NB OR LX SO.
  destruct (num_generic conv g h ds ord xs d sol AC OW NB OR LX SO) as [N HN].
  exists N. intros fuel E Hf HU. destruct (HN fuel E Hf HU) as [E' [log [res [EV [HU' [ND [LR RES]]]]]]].
  exists E', log, res. split; [exact EV|]. split; [auto|]. split; [auto|]. split; [auto|].
  destruct RES as [[-> [AL NM]]|[-> NM]]; tauto.
Qed.
Print Assumptions C25_evaluation_returns_the_values.

(** C25 for CG<Base>: the expressions are recorded again, in the handler of the new independents [xs] (objects of the
    handler whose nodes are [g2]; it may be the same handler).  Existing nodes stay; whatever values the variables of
    the new graph take, each result has the value the dependent has when the old independents get the values of [xs].
    Nothing is thrown as long as the functions are known and all of [xs] are parameters or variables of one handler. *)
Theorem C25_replay_records_the_same_expressions :
  forall (B : Type) (O : BaseOps B), BaseLaws B ->
  forall (g : heap B) (h : nat) (ds : list (arg B)) (ord : nat -> list nat) (xs : list (cg B)) (g2 : heap B),
  acyclic g -> owned g ds h -> numbered g -> wf_arity g -> is_order g ord -> length xs = indepCount g h ->
  wf_heap g2 -> (forall i v, In (Var i v) xs -> i < length g2) ->
  exists N, forall fuel E, N <= fuel -> ev_under E = false ->
  exists E' g3 log res,
    evaluate cg_target g (independents g h) xs ord fuel E g2 (length ds) ds = (E', g3, log, res) /\
    ev_under E' = false /\ NoDup log /\ (forall i, In i log -> reach g ds i) /\
    wf_heap g3 /\ (exists new, g3 = g2 ++ new) /\
    (forall ys, res = Done ys ->
       (forall i, reach g ds i -> In i log) /\
       Forall2 (fun d y => forall env1 env2 sol v,
         solves env1 g sol ->
         (forall k x, nth_error xs k = Some x -> cgval env2 g2 x = Some (env1 h k)) ->
         sval sol d = Some v -> cgval env2 g3 y = Some v) ds ys) /\
    (forall h2, no_missing g ds -> (forall x, In x xs -> owner g2 x = None \/ owner g2 x = Some h2) ->
       exists ys, res = Done ys).
Proof.
  intros B O L g h ds ord xs g2 AC OW NB WA OR LX W2 VX.
  assert (VX' : Forall (valid g2) xs).
  { apply Forall_forall. intros [b|i v] Hx; [exact I|]. cbn. eapply VX; eauto. }
  destruct (cg_generic L g h ds ord xs g2 AC OW NB WA OR LX W2 VX') as [N HN].
  exists N. intros fuel E Hf HU. destruct (HN fuel E Hf HU) as [E' [g3 [log [res [EV [HU' [ND [LR [W3 [[t [G3 _]] RES]]]]]]]]]].
  exists E', g3, log, res. split; [exact EV|]. split; [auto|]. split; [auto|]. split; [auto|]. split; [auto|].
  split; [eauto|]. split.
  - intros ys ->. destruct RES as [[ys' [E1 [F2 [AL NM]]]]|[E1 _]]; [|discriminate]. injection E1 as <-.
    split; [auto|]. clear -F2. induction F2 as [|d y ds ys H F2 IH]; constructor; auto.
    intros env1 env2 sol v HS HA Hv. exact (carel_okv g h xs g2 d g3 y H env1 env2 sol HS HA v Hv).
  - intros h2 NM HX. destruct RES as [[ys' [E1 _]]|[_ NO]]; [eauto|]. exfalso. apply (NO h2). split; [auto|].
    apply Forall_forall. exact HX.
Qed.
Print Assumptions C25_replay_records_the_same_expressions.

(** Every graph recorded by a program over CG objects meets the hypotheses on the graph. *)
Theorem C25_recorded_graphs_qualify :
  forall (B : Type) (O : BaseOps B) (p : list (instr B)) (s : state B), run init p = Ok s ->
  acyclic (s_heap s) /\ numbered (s_heap s) /\ wf_arity (s_heap s) /\ wf_heap (s_heap s) /\
  (one_handler (s_heap s) -> forall ds h,
     (forall i, In (ANode i) ds -> exists n, nth_error (s_heap s) i = Some n /\ n_handler n = h) -> owned (s_heap s) ds h).
Proof.
  intros B O p s H. destruct (run_qualifies p s H) as [H1 [H2 [H3 [H4 [_ H5]]]]]. auto.
Qed.
Print Assumptions C25_recorded_graphs_qualify.

(** Histories of one evaluator: whatever calls were made before, ended normally or by an exception, the next call gives
    the same result as on a new evaluator. *)
Record call (B T : Type) : Type := mkCall { c_xs : list T; c_n : nat; c_ds : list (arg B); c_ord : nat -> list nat }.
Arguments c_xs {B T} _.
Arguments c_n {B T} _.
Arguments c_ds {B T} _.
Arguments c_ord {B T} _.
Fixpoint history {B T St} (tg : target B T St) (g : heap B) (inds : list nat) (fuel : nat) (E : evaluator T) (st : St)
    (cs : list (call B T)) : evaluator T * St :=
  match cs with
  | [] => (E, st)
  | c :: cs' =>
      match evaluate tg g inds (c_xs c) (c_ord c) fuel E st (c_n c) (c_ds c) with
      | (E', st', _, _) => history tg g inds fuel E' st' cs'
      end
  end.

Theorem C25_earlier_calls_do_not_matter :
  forall (B T St : Type) (tg : target B T St) (g : heap B) (inds : list nat) (fuel : nat) (cs : list (call B T))
    (st0 : St) (E : evaluator T) (st : St) (c : call B T),
  history tg g inds fuel newEvaluator st0 cs = (E, st) ->
  exists E1 E2 st' log res,
    evaluate tg g inds (c_xs c) (c_ord c) fuel E st (c_n c) (c_ds c) = (E1, st', log, res) /\
    evaluate tg g inds (c_xs c) (c_ord c) fuel newEvaluator st (c_n c) (c_ds c) = (E2, st', log, res).
Proof.
  intros B T St tg g inds fuel cs st0 E st c H.
  assert (U : ev_under E = false).
  { assert (G : forall cs E0 st0, ev_under E0 = false -> history tg g inds fuel E0 st0 cs = (E, st) -> ev_under E = false).
    { clear. induction cs as [|c cs IH]; intros E0 st0 U H; cbn in H; [injection H as <- _; auto|].
      destruct (evaluate tg g inds (c_xs c) (c_ord c) fuel E0 st0 (c_n c) (c_ds c)) as [[[E1 st1] lg] rs] eqn:EV.
      apply (IH E1 st1); [|exact H]. unfold evaluate in EV.
      destruct (negb (Nat.eqb (c_n c) (length (c_ds c)))); [injection EV as <- _ _ _; auto|].
      destruct (negb (Nat.eqb (length inds) (length (c_xs c)))); [injection EV as <- _ _ _; auto|].
      rewrite U in EV. destruct (evalDeps tg g inds (c_xs c) (c_ord c) fuel (c_ds c) (mkE (fun _ => None) st0 [])) as [s [vs| |]];
        injection EV as <- _ _ _; reflexivity. }
    exact (G cs newEvaluator st0 eq_refl H). }
  unfold evaluate. rewrite U. cbn [ev_under newEvaluator].
  destruct (negb (Nat.eqb (c_n c) (length (c_ds c)))); [do 5 eexists; split; reflexivity|].
  destruct (negb (Nat.eqb (length inds) (length (c_xs c)))); [do 5 eexists; split; reflexivity|].
  destruct (evalDeps tg g inds (c_xs c) (c_ord c) fuel (c_ds c) (mkE (fun _ => None) st [])) as [s [vs| |]];
    do 5 eexists; split; reflexivity.
Qed.
Print Assumptions C25_earlier_calls_do_not_matter.

(** The full claim ("returns for every dependent the value of the recorded expression") fails for the functions Acosh,
    Asinh, Atanh, Erf, Erfc, Expm1 and Log1p, which CG<Base> records but the evaluator rejects: one operation on one
    independent is enough, for every one of them, every target type and every new value. *)
Theorem C25_all_functions_refuted :
  forall f, missing f -> exists (p : list (instr Qc)) (s : state Qc) (i : nat) (v : option Qc),
    run init p = Ok s /\ s_reg s 1 = Var i v /\ indepCount (s_heap s) 0 = 1 /\
    forall (T St : Type) (tg : target Qc T St) (x : T) (st : St) (ord : nat -> list nat) (fuel : nat), 1 <= fuel ->
      snd (evaluate tg (s_heap s) (independents (s_heap s) 0) [x] ord fuel newEvaluator st 1 [ANode i]) = Thrown.
Proof.
  intros f Hf. exists [IIndep 0 0 None; IFun f 1 0].
  eexists. exists 1, None. split; [reflexivity|]. split; [reflexivity|]. split; [reflexivity|].
  intros T St tg x st ord fuel HF. destruct fuel as [|fuel]; [lia|].
  unfold missing in Hf. cbn in Hf. decompose [or] Hf; subst; try contradiction; reflexivity.
Qed.
Print Assumptions C25_all_functions_refuted.

(** ** The hypotheses can be met: a recorded graph with a shared node, a conditional and a division, and three
    dependents, one of them a parameter; operands are evaluated from right to left. *)
Definition ev_prog : list (instr Qc) :=
  [ IIndep 0 4 None; IIndep 1 4 None; IBin BMul 2 0 1; IBin BAdd 3 2 0; IFun Abs 4 2; IBin BDiv 5 3 2;
    ICond CLt 6 0 1 4 5; INeg 7 6 ].
Definition ev_heap : heap Qc := match run init ev_prog with Ok s => s_heap s | Throw => [] end.
Definition ev_ds : list (arg Qc) := [ANode 7; ANode 3; APar (Q2Qc (5#1))].
Definition ev_ord (i : nat) : list nat :=
  match nth_error ev_heap i with Some n => rev (seq 0 (length (n_args n))) | None => [] end.
Definition ev_xs : list Qc := [Q2Qc (2#1); Q2Qc (3#1)].
Definition ev_sol (i : nat) : Qc :=
  nth i [Q2Qc (2#1); Q2Qc (3#1); Q2Qc (6#1); Q2Qc (8#1); Q2Qc (6#1); Q2Qc (4#3); Q2Qc (6#1); Q2Qc (-6#1)] 0%Qc.

Lemma ev_run : exists s, run init ev_prog = Ok s /\ s_heap s = ev_heap.
Proof.
  unfold ev_heap. destruct (run init ev_prog) as [s|] eqn:E; [eauto|].
  exfalso. assert (H : match run init ev_prog with Ok _ => True | Throw => False end) by (vm_compute; exact I).
  now rewrite E in H.
Qed.
Lemma ev_small (P : nat -> node Qc -> Prop) :
  (forall i, i < 8 -> forall n, nth_error ev_heap i = Some n -> P i n) -> forall i n, nth_error ev_heap i = Some n -> P i n.
Proof.
  intros H i n Hn. apply H; auto. assert (L : length ev_heap = 8) by (vm_compute; reflexivity).
  rewrite <- L. apply nth_error_Some. congruence.
Qed.
Lemma ev_numsolves : numsolves (fun q : Qc => q) (fun k => nth k ev_xs 0%Qc) ev_heap ev_sol.
Proof.
  unfold numsolves. apply ev_small. intros i Hi n Hn.
  do 8 (destruct i as [|i]; [vm_compute in Hn; injection Hn as <-; vm_compute;
    first [reflexivity | f_equal; apply Qc_is_canon; reflexivity]|]). lia.
Qed.
Lemma ev_owned : owned ev_heap ev_ds 4.
Proof.
  destruct ev_run as [s [Hs <-]].
  apply (proj2 (proj2 (proj2 (proj2 (C25_recorded_graphs_qualify Qc _ ev_prog s Hs))))).
  - destruct (run_SI true ev_prog init s) as [[_ [_ [_ K]]] _]; [intros _; reflexivity|apply init_SI|exact Hs|]. auto.
  - assert (E : s_heap s = ev_heap) by (unfold ev_heap; now rewrite Hs). rewrite E.
    intros i [H|[H|[H|[]]]]; try discriminate; injection H as <-; eexists; (split; [vm_compute; reflexivity|reflexivity]).
Qed.
Lemma ev_order : is_order ev_heap ev_ord.
Proof. intros i n Hn. unfold ev_ord. rewrite Hn. apply Permutation_sym, Permutation_rev. Qed.
Lemma ev_known : no_missing ev_heap ev_ds.
Proof.
  intros i n f _ Hn Ho. revert i n Hn Ho. apply (ev_small (fun i n => n_op n = GFun f -> ~ missing f)).
  intros i Hi n Hn. unfold missing.
  do 8 (destruct i as [|i]; [vm_compute in Hn; injection Hn as <-; cbn; intros E; try discriminate;
    injection E as <-; intros HH; decompose [or] HH; try discriminate; auto|]). lia.
Qed.
Example C25_ex : acyclic ev_heap /\ owned ev_heap ev_ds 4 /\ numbered ev_heap /\ is_order ev_heap ev_ord /\
  length ev_xs = indepCount ev_heap 4 /\ numsolves (fun q : Qc => q) (fun k => nth k ev_xs 0%Qc) ev_heap ev_sol /\
  no_missing ev_heap ev_ds /\ wf_arity ev_heap /\
  map (argnum (fun q : Qc => q) ev_sol) ev_ds = [Q2Qc (-6#1); Q2Qc (8#1); Q2Qc (5#1)] /\
  (exists E' log, evaluate (num_target (fun q : Qc => q)) ev_heap (independents ev_heap 4) ev_xs ev_ord 9 newEvaluator tt 3 ev_ds =
     (E', tt, log, Done [Q2Qc (-6#1); Q2Qc (8#1); Q2Qc (5#1)]) /\ length log = 8).
Proof.
  destruct ev_run as [s [Hs E]].
  destruct (C25_recorded_graphs_qualify Qc _ ev_prog s Hs) as [H1 [H2 [H3 [H4 _]]]]. rewrite E in *.
  split; [auto|]. split; [exact ev_owned|]. split; [auto|]. split; [exact ev_order|]. split; [vm_compute; reflexivity|].
  split; [exact ev_numsolves|]. split; [exact ev_known|]. split; [auto|]. split; [vm_compute; reflexivity|].
  do 2 eexists. split; [vm_compute; reflexivity|]. reflexivity.
Qed.
(** recording it again in another handler (number 9), with an expression and a parameter as new independents *)
Example C25_ex_replay : exists s x, run init [IIndep 0 9 None; IFun Exp 1 0] = Ok s /\ s_reg s 1 = x /\
  wf_heap (s_heap s) /\ (forall i v, In (Var i v) [x; Par (Q2Qc (3#1))] -> i < length (s_heap s)) /\
  (forall y, In y [x; Par (Q2Qc (3#1))] -> owner (s_heap s) y = None \/ owner (s_heap s) y = Some 9) /\
  length [x; Par (Q2Qc (3#1))] = indepCount ev_heap 4 /\
  exists E' g3 log ys, evaluate cg_target ev_heap (independents ev_heap 4) [x; Par (Q2Qc (3#1))] ev_ord 9 newEvaluator
    (s_heap s) 3 ev_ds = (E', g3, log, Done ys) /\ length g3 = 8.
Proof.
  do 2 eexists. split; [reflexivity|]. split; [reflexivity|]. split; [|split; [|split; [|split]]].
  - match goal with |- wf_heap (s_heap ?s) =>
      destruct (run_SI false [IIndep 0 9 None; IFun Exp 1 0] init s) as [[W _] _];
        [discriminate|apply init_SI|reflexivity|exact W] end.
  - intros i v [H|[H|[]]]; [|discriminate]. vm_compute in H. injection H as <- _. vm_compute. lia.
  - intros y [<-|[<-|[]]]; vm_compute; auto.
  - vm_compute. reflexivity.
  - do 4 eexists. split; [vm_compute; reflexivity|]. reflexivity.
Qed.

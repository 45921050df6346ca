(** * Without subtractions, collecting a variable keeps the value *)
From Coq Require Import List Bool Arith Lia Permutation.
From Verif Require Import Graph_model Graph_spec Graph_proofs CGArith_model CGArith_spec CGArith_proofs Codegen_spec
  Eval_model Eval_spec Eval_proofs Eval_inst Path_model Path_spec Path_proofs Path_graph Solve_model Solve_spec Solve_proofs
  Solve_total Solve_once Solve_clone Solve_collect Solve_collect_thm Solve_fuel Solve_keep Solve_many Solve_loop.
Import ListNotations.

Section Plain.
Context {B : Type} {O : BaseOps B}.
Implicit Type g : heap B.
Variable h : nat.
Variable ord : nat -> nat -> list nat.
Hypothesis ord_all : forall i n, Permutation (ord i n) (seq 0 n).
Variable inds : list nat.
Variable var : nat.

(** the operation which is recorded *)
Lemma cg_op_new o vs g g' x : isInv o = false -> cg_op o vs g = Ok (g', x) ->
  (g' = g /\ (In x vs \/ exists b, x = Par b)) \/
  (exists hh v, g' = g ++ [mkNode hh o (map argument vs)] /\ x = Var (length g) v).
Proof.
  intros HI H.
  destruct o; try discriminate; destruct vs as [|a [|b [|c0 [|e [|]]]]]; try discriminate; cbn [cg_op] in H.
  - destruct a, b; cbn in H; unfold mkBin in H;
      repeat match type of H with context[if ?c then _ else _] => destruct c eqn:? end;
      repeat match type of H with context[match getHandler ?a ?b ?c with _ => _ end] => destruct (getHandler a b c) eqn:? end;
      try discriminate; injection H as <- <-; cbn; eauto 10.
  - destruct a, b; cbn in H; unfold mkBin in H;
      repeat match type of H with context[if ?c then _ else _] => destruct c eqn:? end;
      repeat match type of H with context[match getHandler ?a ?b ?c with _ => _ end] => destruct (getHandler a b c) eqn:? end;
      try discriminate; injection H as <- <-; cbn; eauto 10.
  - destruct a, b; cbn in H; unfold mkBin in H;
      repeat match type of H with context[if ?c then _ else _] => destruct c eqn:? end;
      repeat match type of H with context[match getHandler ?a ?b ?c with _ => _ end] => destruct (getHandler a b c) eqn:? end;
      try discriminate; injection H as <- <-; cbn; eauto 10.
  - destruct a, b; cbn in H; unfold mkBin in H;
      repeat match type of H with context[if ?c then _ else _] => destruct c eqn:? end;
      repeat match type of H with context[match getHandler ?a ?b ?c with _ => _ end] => destruct (getHandler a b c) eqn:? end;
      try discriminate; injection H as <- <-; cbn; eauto 10.
  - destruct a as [a|i vi], b as [b|j vj]; unfold cpow in H;
      repeat match type of H with context[if ?c then _ else _] => destruct c eqn:? end;
      repeat match type of H with context[getCodeHandler ?a ?b] => destruct (getCodeHandler a b) eqn:? end;
      try discriminate; injection H as <- <-; cbn; eauto 10.
  - destruct a; cbn [cneg] in H; [|unfold mkUn in H; destruct (getCodeHandler _ _) in H; [|discriminate]]; injection H as <- <-; cbn; eauto 10.
  - destruct a; cbn [csign] in H; [|unfold mkUn in H; destruct (getCodeHandler _ _) in H; [|discriminate]]; injection H as <- <-; cbn; eauto 10.
  - injection H as <- <-. cbn. auto.
  - injection H as <- <-. cbn. auto.
  - destruct a; cbn [cfun] in H; [|unfold mkUn in H; destruct (getCodeHandler _ _) in H; [|discriminate]]; injection H as <- <-; cbn; eauto 10.
  - unfold ccond in H.
    assert (GEN : (if isSameExpression c0 e then Ok (g, c0)
      else match findCodeHandler g a b c0 e with
      | Throw => Throw
      | Ok hh => Ok (newnode g hh (GCom c) [argument a; argument b; argument c0; argument e]
          (match cvalue a, cvalue b with Some x, Some y => if bcmp c x y then cvalue c0 else cvalue e | _, _ => None end))
      end) = Ok (g', x) ->
      (g' = g /\ (In x [a; b; c0; e] \/ exists b, x = Par b)) \/
      (exists hh v, g' = g ++ [mkNode hh (GCom c) (map argument [a; b; c0; e])] /\ x = Var (length g) v)).
    { destruct (isSameExpression c0 e); [intros [= <- <-]; cbn; auto 10|]. destruct (findCodeHandler g a b c0 e); [|discriminate].
      intros [= <- <-]. right. eauto. }
    destruct a as [a|i vi], b as [b|j vj]; auto. destruct (bcmp c a b); injection H as <- <-; cbn; auto 10.
Qed.

(** no subtraction between [x] and the variable *)
Definition plainv g (x : cg B) : Prop := valid g x /\
  match x with Par _ => True | Var i _ => no_sub_above g i var end.

Lemma plain_ext g g' x : closed g -> ext g g' -> plainv g x -> plainv g' x.
Proof.
  intros C X [V P]. split; [eapply valid_ext; eauto|]. destruct x as [b|i v]; auto. cbn in V.
  intros n d O1 O2 Hn. pose proof (occurs_old _ _ _ _ X C V O1) as O1'.
  assert (Hn' : n < length g) by (clear -O1' C V; destruct O1' as [l Hl]; induction Hl; auto; apply IHHl; now apply (link_closed g n i j C)).
  apply (P n d O1' (occurs_old _ _ _ _ X C Hn' O2)). destruct X as [t ->]. now rewrite nth_error_app1 in Hn.
Qed.
Lemma plain_free g x : okF var g x -> plainv g x.
Proof. intros [V F]. split; auto. destruct x as [b|i v]; auto. intros n d O1 O2. exfalso. apply F. eapply occurs_trans; eauto. Qed.

Lemma plain_op o vs g g' x : isInv o = false -> o <> GSub -> closed g -> closed g' -> var < length g -> Forall (plainv g) vs -> cg_op o vs g = Ok (g', x) -> plainv g' x.
Proof.
  intros HI HS C C' LV HV H. apply cg_op_new in H; auto. destruct H as [[-> [H|[b ->]]]|[hh [v [-> ->]]]].
  - rewrite Forall_forall in HV. auto.
  - split; cbn; auto.
  - split; [cbn; rewrite app_length; cbn; lia|]. intros n d O1 O2 Hn.
    apply occurs_inv in O1. destruct O1 as [<-|[i [j [[d' [Hd Ha]] O1]]]].
    + rewrite nth_error_app2, Nat.sub_diag in Hn by lia. injection Hn as <-. exact HS.
    + rewrite nth_error_app2, Nat.sub_diag in Hd by lia. injection Hd as <-. cbn in Ha.
      apply nth_error_In, argument_node in Ha. destruct Ha as [w Ha]. rewrite Forall_forall in HV.
      assert (P : plainv (g ++ [mkNode hh o (map argument vs)]) (Var j w)) by (apply (plain_ext g); auto; eexists; reflexivity).
      apply (proj2 P n d); auto.
Qed.

(** ** Clones *)
Section Clone.
Variable decide : spath -> nat -> decision (B := B).
Variable g0 : heap B.
Hypothesis C0 : closed g0.
Hypothesis LV : var < length g0.
Variable visit : spath -> nat -> Prop.
Hypothesis visit_in : forall pre i, visit pre i -> i < length g0.
Hypothesis visit_next : forall pre i d p j, visit pre i -> decide pre i = DClone -> nth_error g0 i = Some d ->
  nth_error (n_args d) p = Some (ANode j) -> visit (pre ++ [(i, Some p)]) j.
Hypothesis visit_ok : forall pre i, visit pre i ->
  match decide pre i with
  | DReplace x => plainv g0 x
  | DKeep => plainv g0 (Var i None)
  | DClone => forall d, nth_error g0 i = Some d -> n_op d <> GSub /\ (isInv (n_op d) = true -> plainv g0 (Var i None))
  end.
Definition goodst (s : cstate) : Prop := closed (c_heap s) /\ ext g0 (c_heap s) /\ forall j v, c_memo s j = Some v -> plainv (c_heap s) v.

Lemma good_save i s s' v : goodst s -> closed (c_heap s') -> ext (c_heap s) (c_heap s') -> c_memo s' = c_memo s -> plainv (c_heap s') v ->
  goodst (mkC (fun j => if Nat.eqb j i then Some v else c_memo s j) (c_heap s')).
Proof.
  intros (C & X & M) C' X' EM P. split; auto. split; [eapply ext_trans; eauto|]. intros j w. cbn.
  destruct (Nat.eqb j i); [intros [= <-]; auto|]. intros H. apply (plain_ext (c_heap s)); auto. now apply (M j).
Qed.

Lemma cloneArgs_plain f args : (forall b, In (APar b) args -> True) -> forall ps acc s s' acc',
  cloneArgs f args ps acc s = SOk (s', acc') ->
  (forall p j s s' v, nth_error args p = Some (ANode j) -> f p j s = SOk (s', v) -> goodst s ->
     goodst s' /\ ext (c_heap s) (c_heap s') /\ plainv (c_heap s') v) ->
  goodst s -> (forall p v, acc p = Some v -> plainv (c_heap s) v) ->
  goodst s' /\ ext (c_heap s) (c_heap s') /\ (forall p v, acc' p = Some v -> plainv (c_heap s') v).
Proof.
  intros _. induction ps as [|p ps IH]; intros acc s s' acc' H F G A; cbn [cloneArgs] in H.
  - injection H as <- <-. split; auto. split; [apply ext_refl|]. auto.
  - destruct (nth_error args p) as [[j|b]|] eqn:E; [| |discriminate].
    + apply sbind_ok in H. destruct H as [[s1 v] [E1 H]].
      destruct (F p j s s1 v E E1 G) as [G1 [X1 P1]].
      destruct (IH _ _ _ _ H F G1) as [G2 [X2 A2]].
      { intros q w. destruct (Nat.eqb q p); [intros [= <-]; auto|]. intros Hq. apply (plain_ext (c_heap s)); auto; [apply G|]. now apply (A q). }
      split; auto. split; [eapply ext_trans; eauto|auto].
    + cbn [sbind] in H. apply (IH _ _ _ _ H F G).
      intros q w. destruct (Nat.eqb q p); [intros [= <-]; split; cbn; auto|apply A].
Qed.

Lemma cloneOps_plain : forall fuel pre i s s' v, cloneOps decide ord inds fuel pre i s = SOk (s', v) ->
  visit pre i -> goodst s -> goodst s' /\ ext (c_heap s) (c_heap s') /\ plainv (c_heap s') v.
Proof.
  induction fuel as [|fuel IH]; intros pre i s s' v H Vi G; [discriminate|]. cbn [cloneOps] in H.
  destruct (c_memo s i) as [w|] eqn:EM.
  { injection H as <- <-. split; auto. split; [apply ext_refl|]. now apply (proj2 (proj2 G) i). }
  pose proof G as (C & X & M). pose proof (visit_ok pre i Vi) as VO.
  assert (KEEP : forall x, plainv g0 x -> plainv (c_heap s) x) by (intros x; now apply plain_ext).
  destruct (decide pre i) as [x| |] eqn:ED.
  - injection H as <- <-. cbn [fst snd c_heap]. split; [apply (good_save i s s); auto; apply ext_refl|]. split; [apply ext_refl|]. auto.
  - destruct (nth_error (c_heap s) i) as [d|] eqn:EN; [|discriminate].
    assert (EN0 : nth_error g0 i = Some d).
    { destruct (nth_error g0 i) as [d'|] eqn:E; [|apply nth_error_None in E; specialize (visit_in _ _ Vi); lia].
      rewrite (ext_nth _ _ _ _ X E) in EN. congruence. }
    destruct (VO d EN0) as [NS NI].
    destruct (handled (n_op d)) eqn:EH; cbn [negb] in H; [|discriminate].
    destruct (isInv (n_op d)) eqn:EI.
    + specialize (NI eq_refl). destruct (n_op d) eqn:EO; try discriminate. destruct (indepIndex inds i); [|discriminate].
      injection H as <- <-. cbn [fst snd c_heap]. split; [apply (good_save i s s); auto; apply ext_refl|]. split; [apply ext_refl|]. auto.
    + assert (H' : sbind (cloneArgs (fun p j s' => cloneOps decide ord inds fuel (pre ++ [(i, Some p)]) j s') (n_args d) (ord i (length (n_args d)))
                     (fun _ => None) s) (fun '(s1, acc) =>
                match all_some (map acc (seq 0 (length (n_args d)))) with
                | None => SUndef
                | Some vs =>
                    match cg_op (n_op d) vs (c_heap s1) with
                    | Throw => SThrow
                    | Ok (g', v) => SOk (mkC (fun j => if Nat.eqb j i then Some v else c_memo s1 j) g', v)
                    end
                end) = SOk (s', v)).
      { revert H. destruct (n_op d); try discriminate; auto. }
      clear H. apply sbind_ok in H'. destruct H' as [[s1 acc] [E1 H]].
      destruct (all_some (map acc (seq 0 (length (n_args d))))) as [vs|] eqn:EA; [|discriminate].
      destruct (cg_op (n_op d) vs (c_heap s1)) as [[g' w]|] eqn:EC; [|discriminate]. injection H as <- <-. cbn [c_heap].
      destruct (cloneArgs_plain _ _ (fun _ _ => I) _ _ _ _ _ E1) as [G1 [X1 A1]]; auto.
      { intros p j s2 s2' v2 Ha E2 G2. apply (IH _ _ _ _ _ E2); auto. eapply visit_next; eauto. }
      { discriminate. }
      assert (HV : Forall (plainv (c_heap s1)) vs).
      { apply all_some_spec in EA. clear -EA A1. revert EA. generalize (seq 0 (length (n_args d))). intros l. revert vs.
        induction l as [|k l IHl]; intros vs F; inversion F; subst; constructor; eauto. }
      assert (Q : ext (c_heap s1) g' /\ closed g').
      { destruct (cg_op_new _ _ _ _ _ EI EC) as [[-> _]|[hh [u [-> _]]]]; [split; [apply ext_refl|apply G1]|].
        split; [eexists; reflexivity|]. destruct G1 as [C1 _].
        intros n d' j Hn Hj. rewrite app_length. cbn. apply nth_error_snoc in Hn. destruct Hn as [[_ Hn]|[-> ->]].
        - specialize (C1 n d' j Hn Hj). lia.
        - cbn in Hj. apply argument_node in Hj. destruct Hj as [u' Hj]. rewrite Forall_forall in HV. specialize (HV _ Hj). destruct HV as [HV _]. cbn in HV. lia. }
      destruct Q as [X2 C2].
      assert (P : plainv g' w).
      { apply (plain_op (n_op d) vs (c_heap s1)); auto; [apply G1|]. destruct G1 as [_ [X3 _]]. apply ext_length in X3. lia. }
      split; [|split; auto; eapply ext_trans; eauto].
      apply (good_save i s1 (mkC (c_memo s1) g')); auto.
  - injection H as <- <-. cbn [fst snd c_heap]. split; [apply (good_save i s s); auto; apply ext_refl|]. split; [apply ext_refl|]. auto.
Qed.
Lemma cloneEval_plain fuel root g' v : cloneEval decide ord inds fuel g0 root = SOk (g', v) -> visit [] root -> plainv g' v.
Proof.
  intros H Vi. unfold cloneEval in H. apply sbind_ok in H. destruct H as [[s x] [E H]]. injection H as <- <-.
  apply (cloneOps_plain _ _ _ _ _ _ E Vi). split; auto. split; [apply ext_refl|]. discriminate.
Qed.
End Clone.

(** ** The whole expression *)
Lemma term_plain g g' x : collected h var g g' x -> no_sub_above g' var var -> plainv g' x.
Proof.
  intros CO NV. destruct (collected_sane h var _ _ _ CO) as [_ [N' [V' _]]].
  destruct CO as (g5 & cSum & rest & g6 & term & X5 & [N5 LV5] & F1 & F2 & E6 & E7).
  pose proof (@invariant_sane B h) as KS.
  destruct (cbin_keeps h (handler_nodes h) valid KS g5 BMul cSum (Var var None)) as [g6' [term' [E6' [X6 [N6 V6]]]]]; auto.
  { apply F1. }
  rewrite E6 in E6'. injection E6' as <- <-.
  destruct (cbin_keeps h (handler_nodes h) valid KS g6 BAdd term rest N6 V6) as [g7 [x' [E7' [X7 [N7 V7]]]]].
  { eapply valid_ext; eauto. apply F2. }
  rewrite E7 in E7'. injection E7' as <- <-.
  assert (PV : plainv g5 (Var var None)).
  { split; auto. cbn. intros n d O1 O2 Hn. assert (XX : ext g5 g') by (eapply ext_trans; eauto).
    apply (NV n d); [apply (occurs_ext g5 g'); auto..|eapply ext_nth; eauto]. }
  assert (P6 : plainv g6 term).
  { apply (plain_op GMul [cSum; Var var None] g5); auto; try discriminate; try apply N5; try apply N6.
    constructor; [now apply plain_free|]. constructor; auto. }
  apply (plain_op GAdd [term; rest] g6); auto; try discriminate; try apply N6; try apply N7.
  - apply ext_length in X6. lia.
  - constructor; auto. constructor; auto. apply (plain_ext g5); auto; [apply N5|]. now apply plain_free.
Qed.

Lemma collects_plain g root g1 root1 : collects h ord inds var g root g1 root1 -> no_sub_above g root var -> no_sub_above g1 root1 var.
Proof.
  intros [c m i1 i2 j1 j2 p1 p2 fuel v LT L1 L2 D1 D2 T1 T2 S1 S2 NG LR H] NS. pose proof NG as [HG LV].
  unfold collectVariable in H. rewrite nth_prefix, !skipn_prefix in H.
  apply sbind_ok in H. destruct H as [[ga sub] [EA H]]. apply sbind_ok in H. destruct H as [[G b] [EG H]].
  destruct (addsub_goes h ord ord_all inds var g m i1 i2 j1 j2 p1 p2 NG LT L1 L2 T1 T2 S1 S2) as [N0 H0].
  assert (CO : collected h var g ga sub).
  { pose proof (addsub_stable fuel (Nat.max N0 fuel) ord inds g ((m, Some i1) :: p1) ((m, Some i2) :: p2) ltac:(lia)) as ST.
    rewrite EA in ST. specialize (ST ltac:(discriminate)).
    destruct (H0 (Nat.max N0 fuel) ltac:(lia)) as [E|[g' [x [E CO]]]]; rewrite ST in E; [discriminate|]. injection E as <- <-. auto. }
  destruct (collected_sane h var _ _ _ CO) as [X1 [N1 [V1 W1]]]. pose proof N1 as [HG1 LV1].
  destruct (Hn_cycle _ _ HG1) as [r RK].
  destruct (findPathGraph_ok ga r RK root m (Nat.max fuel (S (r root))) None ltac:(lia)) as [G' [b' [EG' [P [C _]]]]]. specialize (C eq_refl).
  pose proof (findPathGraph_stable ga fuel (Nat.max fuel (S (r root))) root m 0 None ltac:(lia)) as ST.
  destruct (findPathGraph ga fuel root m 0 None) as [[G2 b2]| |]; try discriminate. injection EG as -> ->.
  rewrite ST in EG' by discriminate. injection EG' as <- <-.
  pose proof (down_path_occurs g _ _ _ T1) as O1. assert (Om : occurs g m var) by exact (occurs_trans g _ _ _ (occurs_link g _ _ _ L1) O1).
  assert (Or : occurs g root m) by (eapply prefix_occurs; eauto).
  assert (NSa : no_sub_above ga root var).
  { assert (PG : plainv g (Var root None)) by (split; auto). apply (plain_ext g ga) in PG; auto; [|apply HG]. apply PG. }
  assert (Om' : occurs ga m var) by (apply (occurs_ext g ga); auto).
  assert (Or' : occurs ga root m) by (apply (occurs_ext g ga); auto).
  assert (LR1 : root < length ga) by (apply ext_length in X1; lia).
  set (visit := fun (_ : spath) i => occurs ga root i).
  assert (VIN : forall pre i, visit pre i -> i < length ga).
  { intros pre i [l Hl]. revert LR1. clear -Hl HG1.
    induction Hl as [n|n i j l k Lk Hl IH]; auto. intros _. apply IH. now apply (link_closed ga n i j (Hn_closed _ _ HG1)). }
  refine (proj2 (cloneEval_plain (decideGraph G m sub) ga (Hn_closed _ _ HG1) LV1 visit VIN _ _ fuel root g1 (Var root1 v) H (occurs_refl _ _))).
  - intros pre i d p j Vi _ Hn Ha. unfold visit in *. eapply occurs_trans; [exact Vi|]. apply (occurs_link ga i p j). exists d. auto.
  - intros pre i Vi. unfold decideGraph.
    assert (PI : plainv ga (Var i None)).
    { split; [exact (VIN _ _ Vi)|]. intros n d O3 O4. apply (NSa n d); auto. eapply occurs_trans; eauto. }
    destruct (pg_find G i) as [ei|] eqn:EF; auto. destruct (Nat.eqb_spec i m) as [->|NM].
    + apply (term_plain g); auto. intros n d O3 O4. apply (NSa n d); auto. eapply occurs_trans; [|exact O3]. eapply occurs_trans; eauto.
    + intros d Hd. split; auto. apply (NSa i d); auto.
      assert (Bi : between ga root m i) by (apply (PG_between _ _ _ _ P); apply contains_find; eauto).
      eapply occurs_trans; [exact (proj2 Bi)|auto].
Qed.

Lemma plain_signs g root : no_sub_above g root var -> forall p n prev, occurs g root n -> down_path g n p var -> signs_agree g prev p.
Proof.
  intros NS p n prev Oc D. revert prev Oc. induction D as [n|n i j p m Lk D IH]; intros prev Oc; cbn [signs_agree].
  - destruct (nth_error g n); split; auto; intros; congruence.
  - split; [|apply IH; auto; eapply occurs_trans; [exact Oc|eapply occurs_link; eauto]].
    pose proof Lk as [d [Hd _]]. rewrite Hd. intros E. exfalso. apply (NS n d); auto.
    eapply occurs_trans; [eapply occurs_link; eauto|]. eapply down_path_occurs; eauto.
Qed.

Lemma collects_value (L : BaseLaws B) (FL : is_field B) g root g1 root1 : collects h ord inds var g root g1 root1 ->
  no_sub_above g root var -> ext g g1 /\ forall env sol, solves env g1 sol -> le (sol root) (sol root1).
Proof.
  intros [c m i1 i2 j1 j2 p1 p2 fuel v LT L1 L2 D1 D2 T1 T2 S1 S2 NG LR H] NS. pose proof NG as [HG LV].
  assert (I : i1 = 0 /\ i2 = 1).
  { pose proof L1 as [dm [Em Ea]]. pose proof L2 as [dm' [Em' Ea2]]. rewrite Em in Em'. injection Em' as <-.
    unfold collectVariable in H. rewrite nth_prefix, !skipn_prefix in H.
    apply sbind_ok in H. destruct H as [[ga sub] [EA _]].
    unfold collectVariableAddSub in EA. rewrite Nat.eqb_refl in EA. cbn [negb] in EA. rewrite Em in EA.
    assert (OP : n_op dm = GAdd \/ n_op dm = GSub) by (destruct (n_op dm); auto; discriminate).
    assert (AR : length (n_args dm) = arity (n_op dm)).
    { pose proof (Hn_arity _ _ HG) as WA. unfold wf_arity in WA. rewrite Forall_forall in WA. apply WA. eapply nth_error_In; eauto. }
    assert (length (n_args dm) = 2) by (destruct OP as [E|E]; rewrite E in AR; exact AR).
    assert (i2 < length (n_args dm)) by (apply nth_error_Some; congruence). lia. }
  destruct I as [-> ->].
  assert (Or : occurs g root m) by (eapply prefix_occurs; eauto).
  destruct (collect_value L FL fuel ord inds g root var c m p1 p2 g1 (Var root1 v)) as [X V]; auto; try apply HG.
  - apply (plain_signs g root NS p1 j1); auto. eapply occurs_trans; [exact Or|eapply occurs_link; eauto].
  - apply (plain_signs g root NS p2 j2); auto. eapply occurs_trans; [exact Or|eapply occurs_link; eauto].
Qed.

Lemma reduces_value (L : BaseLaws B) (FL : is_field B) g root g1 root1 : reduces h ord inds var g root g1 root1 ->
  no_sub_above g root var -> ext g g1 /\ forall env sol, solves env g1 sol -> le (sol root) (sol root1).
Proof.
  induction 1 as [g root|g root g1 root1 g2 root2 C R IH]; intros NS.
  - split; [apply ext_refl|]. intros env sol _ w Hw. exact Hw.
  - destruct (collects_value L FL _ _ _ _ C NS) as [X1 V1]. destruct (IH (collects_plain _ _ _ _ C NS)) as [X2 V2].
    split; [eapply ext_trans; eauto|]. intros env sol S w Hw. apply (V2 env sol S), (V1 env sol); auto. eapply solves_ext; eauto.
Qed.
End Plain.

(** * Collecting a variable ends, keeps the graph sound and reduces the number of occurrences *)
From Coq Require Import List Bool Arith Lia Permutation.
From Verif Require Import Graph_model Graph_spec Graph_proofs CGArith_model CGArith_spec CGArith_proofs Codegen_spec
  Eval_model Eval_spec Eval_proofs Eval_inst Path_model Path_spec Path_proofs Path_graph Solve_model Solve_spec Solve_proofs
  Solve_total Solve_once Solve_clone Solve_collect Solve_collect_thm Solve_fuel Solve_keep.
Import ListNotations.

Section Many.
Context {B : Type} {O : BaseOps B}.
Implicit Type g : heap B.
Variable h : nat.
Variable ord : nat -> nat -> list nat.
Hypothesis ord_all : forall i n, Permutation (ord i n) (seq 0 n).
Variable inds : list nat.
Variable var : nat.

Definition niceF g := handler_nodes h g /\ var < length g.
Definition okF g (x : cg B) := valid g x /\ free_of g var x.

(** ** The first half: the sum *)
Lemma others_free g p n : handler_nodes h g -> down_path g n p var -> straight g var p ->
  forall n i d k a, In (n, Some i) p -> nth_error g n = Some d -> k <> i -> nth_error (n_args d) k = Some a -> okF g (toCG a).
Proof.
  intros HG D ST n0 i d k a Hi Hn Hk Hka. split.
  - destruct a as [j|b]; cbn; auto. eapply (Hn_closed _ _ HG); eauto. eapply nth_error_In; eauto.
  - destruct a as [j|b]; cbn; auto. intros Oc. apply Hk. eapply ST; eauto. exists d. auto.
Qed.

Definition collected g g' (x : cg B) : Prop := exists g5 cSum rest g6 term,
  ext g g5 /\ niceF g5 /\ okF g5 cSum /\ okF g5 rest /\
  cbin g5 BMul cSum (Var var None) = Ok (g6, term) /\ cbin g6 BAdd term rest = Ok (g', x).

Lemma addsub_goes g m i1 i2 j1 j2 p1 p2 : niceF g -> i1 < i2 -> link g m i1 j1 -> link g m i2 j2 ->
  down_path g j1 p1 var -> down_path g j2 p2 var -> straight g var p1 -> straight g var p2 ->
  exists N, forall fuel, N <= fuel ->
    collectVariableAddSub fuel ord inds g ((m, Some i1) :: p1) ((m, Some i2) :: p2) = SThrow \/
    exists g' x, collectVariableAddSub fuel ord inds g ((m, Some i1) :: p1) ((m, Some i2) :: p2) = SOk (g', x) /\ collected g g' x.
Proof.
  intros NG LT L1 L2 D1 D2 T1 T2. pose proof NG as [HG LV]. pose proof (Hn_arity _ _ HG) as WA.
  pose proof L1 as [dm [Em Ea]]. pose proof L2 as [dm' [Em' Ea2]]. rewrite Em in Em'. injection Em' as <-.
  unfold collectVariableAddSub. rewrite Nat.eqb_refl. cbn [negb]. rewrite Em.
  assert (DL : down_path g m ((m, Some i1) :: p1) var) by (econstructor; eauto).
  assert (DR : down_path g m ((m, Some i2) :: p2) var) by (econstructor; eauto).
  rewrite (last_node_snoc g _ _ _ DL), (last_node_snoc g _ _ _ DR), Nat.eqb_refl.
  destruct (match n_op dm with GAdd | GSub => true | _ => false end) eqn:EOP; cbn [negb]; [|exists 0; now left].
  assert (OP : n_op dm = GAdd \/ n_op dm = GSub) by (destruct (n_op dm); auto; discriminate).
  assert (AR : length (n_args dm) = arity (n_op dm)).
  { unfold wf_arity in WA. rewrite Forall_forall in WA. apply WA. eapply nth_error_In; eauto. }
  assert (I : i1 = 0 /\ i2 = 1).
  { assert (length (n_args dm) = 2) by (destruct OP as [E|E]; rewrite E in AR; exact AR).
    assert (i2 < length (n_args dm)) by (apply nth_error_Some; congruence). lia. }
  destruct I as [-> ->].
  destruct (collectable_ok g p1 _ _ D1) as [C1|C1]; rewrite C1; cbn [sbind]; [|exists 0; now left].
  destruct (collectable_ok g p2 _ _ D2) as [C2|C2]; rewrite C2; cbn [sbind]; [|exists 0; now left].
  pose proof (@invariant_free B h var) as K. fold niceF in K. change (invariant h niceF okF) in K.
  destruct (coefSteps_goes h niceF okF K g NG WA p1 g (Some 0) (Par b1) j1 var (ext_refl _) D1 (others_free g p1 j1 HG D1 T1) C1 NG (K_par _ _ _ K _ _))
    as [g1 [cl [-> [X1 [N1 V1]]]]]. cbn [sbind].
  destruct (casg_keeps h niceF okF K g1 BAdd (Par b0) cl N1 (K_par _ _ _ K _ _) V1) as [g2 [s1 [-> [X2 [N2 V2]]]]]. cbn [ofres sbind].
  assert (X02 : ext g g2) by (eapply ext_trans; eauto).
  destruct (coefSteps_goes h niceF okF K g NG WA p2 g2 (Some 1) (if match n_op dm with GSub => true | _ => false end then Par (bneg b1) else Par b1) j2 var X02 D2 (others_free g p2 j2 HG D2 T2) C2 N2)
    as [g3 [cr [-> [X3 [N3 V3]]]]]. { destruct (match n_op dm with GSub => true | _ => false end); apply (K_par _ _ _ K). }
  cbn [sbind].
  assert (V2' : okF g3 s1) by (apply (K_ext _ _ _ K g2); auto).
  destruct (casg_keeps h niceF okF K g3 BAdd s1 cr N3 V2' V3) as [g4 [cSum [-> [X4 [N4 V4]]]]]. cbn [ofres sbind].
  assert (X04 : ext g g4) by (eapply ext_trans; [exact X02|]; eapply ext_trans; eauto).
  assert (FIN : forall g5 rest, ext g4 g5 -> niceF g5 -> okF g5 rest ->
    exists g' x, sbind (ofres (cbin g5 BMul cSum (Var var None))) (fun '(g6, term) => ofres (cbin g6 BAdd term rest)) = SOk (g', x) /\ collected g g' x).
  { intros g5 rest X5 N5 V5. pose proof (@invariant_sane B h) as KS.
    assert (V4' : okF g5 cSum) by (apply (K_ext _ _ _ K g4); auto).
    destruct (cbin_keeps h (handler_nodes h) valid KS g5 BMul cSum (Var var None)) as [g6 [term [E6 [X6 [N6 V6]]]]].
    { apply N5. } { apply V4'. } { apply N5. }
    rewrite E6. cbn [ofres sbind].
    destruct (cbin_keeps h (handler_nodes h) valid KS g6 BAdd term rest N6 V6) as [g' [x [E7 [X7 [N7 V7]]]]].
    { eapply valid_ext; eauto. apply V5. }
    rewrite E7. cbn [ofres]. exists g', x. split; auto. exists g5, cSum, rest, g6, term. repeat (split; auto); try apply V4'; try apply V5; try apply N5.
    eapply ext_trans; eauto. }
  destruct (match nth 1 (replaced g ((m, Some 0) :: p1)) None, nth 1 (replaced g ((m, Some 1) :: p2)) None with
            | Some _, Some _ => false | _, _ => true end).
  2:{ exists 0. intros fuel _. right. cbn [sbind]. apply FIN; auto; [apply ext_refl|apply (K_par _ _ _ K)]. }
  destruct (Hn_cycle _ _ (proj1 N4)) as [r RK]. exists (S (r m)). intros fuel HF.
  set (dec := decidePaths _).
  destruct (cloneEval_goes h niceF okF K dec ord ord_all inds g4 N4 (Hn_arity _ _ (proj1 N4)) r (visit1 g var m p1 p2)) with (fuel := fuel) (root := m)
    as [->|[g5 [rest [-> [X5 [N5 V5]]]]]].
  - intros pre i [Hi _]. apply ext_length in X04. lia.
  - intros pre i d p j Hv Hd Hn Ha. split.
    + eapply (visit1_next g var WA (Hn_closed _ _ HG) m j1 j2 p1 p2 dm) with (g4 := g4); eauto.
    + apply (RK i p j). exists d. auto.
  - intros pre i [Hi Hv].
    assert (LIFT : forall x, okF g x -> okF g4 x) by (intros x; apply (K_ext _ _ _ K); auto).
    destruct Hv as [NO|[q [D Hs]]].
    + unfold dec. rewrite (dec_free g var m j1 j2 p1 p2 L1 L2 D1 D2 pre i NO). apply LIFT. split; auto.
    + assert (INV : (exists p j, link g i p j) -> forall d k, nth_error g4 i = Some d -> n_op d = GInv k -> False).
      { intros [p [j [d' [Ed Ha]]]] d k Hn HI. rewrite (ext_nth _ _ _ _ X04 Ed) in Hn. injection Hn as <-.
        assert (AR' : length (n_args d') = arity (n_op d')).
        { unfold wf_arity in WA. rewrite Forall_forall in WA. apply WA. eapply nth_error_In; eauto. }
        rewrite HI in AR'. cbn in AR'. destruct (n_args d'); [|discriminate]. destruct p; discriminate. }
      destruct Hs as [[-> ->]|[ST [HC [t Ht]]]].
      * unfold dec. rewrite (dec_root g var m j1 p1 p2 dm Em D1 T1 C1 OP). intros d k Hn HI. exfalso. eapply INV; eauto.
      * unfold dec. rewrite (dec_side g var m p1 p2 pre i q t D Ht). destruct (hd None (replaced g q)) as [x|] eqn:ER.
        -- apply replaced_par in ER. subst x. apply (K_par _ _ _ K).
        -- intros d k Hn HI. inversion D as [n E1 E2|n2 k' j' q' v Lk' D' E1 E2 E3]; subst; [discriminate|].
           exfalso. eapply INV; eauto.
  - lia.
  - split; [apply nth_error_Some; congruence|]. right. exists ((m, Some 0) :: p1). split; auto.
  - now left.
  - right. cbn [sbind]. now apply FIN.
Qed.

(** ** Number of occurrences *)
Fixpoint sum (l : list nat) : nat := match l with [] => 0 | x :: l' => x + sum l' end.
Definition wa (W : nat -> nat) (a : arg B) : nat := match a with ANode j => W j | APar _ => 0 end.
Definition wv (W : nat -> nat) (x : cg B) : nat := match x with Var i _ => W i | Par _ => 0 end.
(** [W n] is the number of paths from [n] to [t] *)
Definition weighs g (t : nat) (W : nat -> nat) : Prop :=
  forall n d, nth_error g n = Some d -> n <> t -> W n = sum (map (wa W) (n_args d)).

Lemma sum_in x l : In x l -> x <= sum l.
Proof. induction l as [|y l IH]; cbn; [easy|]. intros [->|H]; [lia|]. specialize (IH H). lia. Qed.
Lemma sum_mono {T} (f f' : T -> nat) l : (forall x, In x l -> f x <= f' x) -> sum (map f l) <= sum (map f' l).
Proof. induction l as [|y l IH]; cbn; intros H; [lia|]. specialize (IH (fun x Hx => H x (or_intror Hx))). specialize (H y (or_introl eq_refl)). lia. Qed.
Lemma sum_mono_lt {T} (f f' : T -> nat) l : (forall x, In x l -> f x <= f' x) -> (exists x, In x l /\ f x < f' x) -> sum (map f l) < sum (map f' l).
Proof.
  induction l as [|y l IH]; cbn; intros H [x [Hx Hl]]; [easy|].
  pose proof (sum_mono f f' l (fun x Hx => H x (or_intror Hx))). pose proof (H y (or_introl eq_refl)).
  destruct Hx as [->|Hx]; [lia|]. assert (sum (map f l) < sum (map f' l)) by (apply IH; eauto). lia.
Qed.
Lemma weighs_ext g g' t W : ext g g' -> weighs g' t W -> weighs g t W.
Proof. intros X H n d Hn. apply H. eapply ext_nth; eauto. Qed.

Lemma weights_exist g (fx : nat -> option nat) : no_cycle g -> exists W : nat -> nat,
  (forall n c, fx n = Some c -> W n = c) /\
  forall n d, fx n = None -> nth_error g n = Some d -> W n = sum (map (wa W) (n_args d)).
Proof.
  intros [r RK].
  set (ev := fix ev (fuel n : nat) : nat := match fuel with 0 => 0 | S fuel' => match fx n with Some c => c | None =>
     match nth_error g n with None => 0 | Some d => sum (map (wa (ev fuel')) (n_args d)) end end end).
  assert (ST : forall k n f1 f2, r n < k -> r n < f1 -> r n < f2 -> ev f1 n = ev f2 n).
  { induction k as [|k IH]; intros n f1 f2 Hk H1 H2; [lia|]. destruct f1 as [|f1], f2 as [|f2]; try lia. cbn [ev].
    destruct (fx n); auto. destruct (nth_error g n) as [d|] eqn:E; auto. f_equal. apply map_ext_in.
    intros [j|b] Ha; [|reflexivity]. cbn. apply In_nth_error in Ha. destruct Ha as [i Ha].
    assert (L : link g n i j) by (exists d; auto). apply RK in L. apply IH; lia. }
  exists (fun n => ev (S (r n)) n). split; [intros n c E; cbn; now rewrite E|].
  intros n d FX Hn. cbn [ev]. rewrite FX, Hn. f_equal.
  apply map_ext_in. intros [j|b] Ha; [|reflexivity]. cbn [wa]. apply In_nth_error in Ha. destruct Ha as [i Ha].
  assert (L : link g n i j) by (exists d; auto). apply RK in L. exact (ST (S (r j)) j (r n) (S (r j)) ltac:(lia) ltac:(lia) ltac:(lia)).
Qed.
Lemma weighs_exists g t : no_cycle g -> exists W, W t = 1 /\ weighs g t W.
Proof.
  intros NC. destruct (weights_exist g (fun n => if Nat.eqb n t then Some 1 else None) NC) as [W [H1 H2]].
  exists W. split; [apply H1; now rewrite Nat.eqb_refl|]. intros n d Hn NE. apply H2; auto. destruct (Nat.eqb_spec n t); [contradiction|auto].
Qed.

Lemma weighs_free g t W n : no_cycle g -> closed g -> weighs g t W -> n < length g -> ~ occurs g n t -> W n = 0.
Proof.
  intros [r RK] C HW.
  assert (H : forall k n, r n < k -> n < length g -> ~ occurs g n t -> W n = 0).
  { induction k as [|k IH]; intros m Hk Hm NO; [lia|].
    destruct (nth_error g m) as [d|] eqn:E; [|apply nth_error_None in E; lia].
    rewrite (HW m d E) by (intros ->; apply NO, occurs_refl).
    assert (Z : forall a, In a (n_args d) -> wa W a = 0).
    { intros [j|b] Ha; [|reflexivity]. cbn. apply In_nth_error in Ha. destruct Ha as [i Ha]. assert (L : link g m i j) by (exists d; auto).
      apply IH; [apply RK in L; lia|now apply (link_closed g m i j)|]. intros Oc. apply NO. eapply occurs_trans; [eapply occurs_link; eauto|auto]. }
    revert Z. generalize (n_args d). intros l Z. induction l as [|a l IHl]; cbn; auto. rewrite (Z a) by now left. apply IHl. intros; apply Z; now right. }
  apply (H (1 + r n)). lia.
Qed.
Lemma below_target g t n i j : no_cycle g -> link g n i j -> occurs g j t -> n <> t.
Proof. intros. eapply below_ne; eauto. Qed.
Lemma weighs_occurs g t W n c : no_cycle g -> weighs g t W -> c <= W t -> occurs g n t -> c <= W n.
Proof.
  intros NC HW Ht [l H]. induction H as [n|n i j l m Lk H IH]; auto.
  specialize (IH HW Ht). pose proof Lk as [d [Hn Ha]].
  rewrite (HW n d Hn).
  - etransitivity; [apply IH|]. apply sum_in. apply in_map_iff. exists (ANode j). split; auto. eapply nth_error_In; eauto.
  - apply (below_target g m n i j); auto. exists l. exact H.
Qed.
(** giving the node [m], which uses [t], fewer occurrences *)
Lemma weighs_less g t m W e : no_cycle g -> closed g -> weighs g t W ->
  (forall n d, nth_error g n = Some d -> n <> m -> n <> t -> e n = sum (map (wa e) (n_args d))) -> e t = W t -> e m < W m -> ~ occurs g t m ->
  forall n, n < length g -> e n <= W n /\ (occurs g n m -> e n < W n) /\ (~ occurs g n m -> e n = W n).
Proof.
  intros [r RK] C HW He Et Em NO.
  assert (H : forall k n, r n < k -> n < length g -> e n <= W n /\ (occurs g n m -> e n < W n) /\ (~ occurs g n m -> e n = W n)).
  { induction k as [|k IH]; intros n Hk Hn; [lia|].
    destruct (Nat.eq_dec n m) as [->|Nm].
    { split; [lia|]. split; [auto|]. intros Q. exfalso. apply Q, occurs_refl. }
    destruct (Nat.eq_dec n t) as [->|Nt].
    { split; [lia|]. split; [contradiction|auto]. }
    destruct (nth_error g n) as [d|] eqn:E; [|apply nth_error_None in E; lia].
    rewrite (He n d E Nm Nt), (HW n d E Nt).
    assert (AA : forall a, In a (n_args d) -> wa e a <= wa W a).
    { intros [j|b] Ha; cbn; [|lia]. apply In_nth_error in Ha. destruct Ha as [i Ha]. assert (L : link g n i j) by (exists d; auto).
      apply (IH j); [apply RK in L; lia|now apply (link_closed g n i j)]. }
    split; [now apply sum_mono|]. split.
    - intros Oc. apply occurs_inv in Oc. destruct Oc as [->|[i [j [L Oc]]]]; [contradiction|].
      apply sum_mono_lt; auto. exists (ANode j). split; [destruct L as [d' [E' Ha]]; rewrite E in E'; injection E' as <-; eapply nth_error_In; eauto|].
      cbn. apply (IH j); auto; [apply RK in L; lia|now apply (link_closed g n i j)].
    - intros NOc. f_equal. apply map_ext_in. intros [j|b] Ha; [|reflexivity]. cbn. apply In_nth_error in Ha. destruct Ha as [i Ha].
      assert (L : link g n i j) by (exists d; auto).
      apply (IH j); [apply RK in L; lia|now apply (link_closed g n i j)|]. intros Oc. apply NOc. eapply occurs_trans; [eapply occurs_link; eauto|auto]. }
  intros n. apply (H (1 + r n)). lia.
Qed.

(** an operation on CG objects adds no occurrence *)
Lemma wa_argument W x : wa W (argument x) = wv W x. Proof. now destruct x. Qed.
Lemma shape_count chk g ops res g' x W : shape chk g ops res -> res = Ok (g', x) -> var < length g -> weighs g' var W ->
  wv W x <= sum (map (wv W) ops).
Proof.
  intros SH E LV HW. destruct (SH g' x E) as [[_ [Hi|[b ->]]]|(h' & o & -> & [v ->] & _)].
  - apply sum_in. now apply in_map.
  - cbn. lia.
  - cbn [wv]. rewrite (HW (length g) (mkNode h' o (map argument ops))) by (try rewrite nth_error_app2, Nat.sub_diag by lia; auto; lia).
    cbn [n_args]. rewrite map_map. apply Nat.eq_le_incl. f_equal. apply map_ext. apply wa_argument.
Qed.
Lemma cg_op_count o vs g g' x W : isInv o = false -> cg_op o vs g = Ok (g', x) -> var < length g -> weighs g' var W ->
  wv W x <= sum (map (wv W) vs).
Proof.
  intros HI E LV HW. destruct o; try discriminate; destruct vs as [|a [|b [|c0 [|e [|]]]]]; try discriminate; cbn [cg_op] in E;
    try (injection E as <- <-; cbn; lia).
  1-4: exact (shape_count _ _ _ _ _ _ W (cbin_shape g _ a b) E LV HW).
  - exact (shape_count _ _ _ _ _ _ W (cpow_shape g a b) E LV HW).
  - exact (shape_count _ _ _ _ _ _ W (cneg_shape g a) E LV HW).
  - exact (shape_count _ _ _ _ _ _ W (csign_shape g a) E LV HW).
  - exact (shape_count _ _ _ _ _ _ W (cfun_shape g f a) E LV HW).
  - exact (shape_count _ _ _ _ _ _ W (ccond_shape g _ a b c0 e) E LV HW).
Qed.

(** ** What a clone weighs *)
Section Clone.
Variable decide : spath -> nat -> decision (B := B).
Variable g0 : heap B.
Hypothesis LV : var < length g0.
Variable visit : spath -> nat -> Prop.
Definition lighter (W e : nat -> nat) : Prop :=
  forall pre i, visit pre i ->
    match decide pre i with
    | DReplace x => wv W x <= e i
    | DKeep => W i <= e i
    | DClone => exists d, nth_error g0 i = Some d /\
        match n_op d with GInv _ => W i <= e i | _ => sum (map (wa e) (n_args d)) <= e i end
    end.
Hypothesis visit_in : forall pre i, visit pre i -> i < length g0.
Hypothesis visit_next : forall pre i d p j, visit pre i -> decide pre i = DClone -> nth_error g0 i = Some d ->
  nth_error (n_args d) p = Some (ANode j) -> visit (pre ++ [(i, Some p)]) j.
Definition memo_w (W e : nat -> nat) (s : cstate) : Prop := forall j v, c_memo s j = Some v -> wv W v <= e j.
Lemma save_w W e i (s : cstate) g' v : memo_w W e s -> wv W v <= e i ->
  memo_w W e (mkC (fun j => if Nat.eqb j i then Some v else c_memo s j) g').
Proof. intros M V j w. cbn. destruct (Nat.eqb_spec j i) as [->|]; [intros [= <-]; auto|]. apply M. Qed.

Lemma cloneArgs_w f args : forall ps acc s s' acc',
  cloneArgs f args ps acc s = SOk (s', acc') ->
  (forall p j s s' v, nth_error args p = Some (ANode j) -> f p j s = SOk (s', v) -> ext g0 (c_heap s) ->
     ext (c_heap s) (c_heap s') /\
     forall W e, weighs (c_heap s') var W -> lighter W e -> memo_w W e s -> memo_w W e s' /\ wv W v <= e j) ->
  ext g0 (c_heap s) ->
  ext (c_heap s) (c_heap s') /\
  forall W e, weighs (c_heap s') var W -> lighter W e -> memo_w W e s ->
    (forall p v a, acc p = Some v -> nth_error args p = Some a -> wv W v <= wa e a) ->
    memo_w W e s' /\ (forall p v a, acc' p = Some v -> nth_error args p = Some a -> wv W v <= wa e a).
Proof.
  induction ps as [|p ps IH]; intros acc s s' acc' H F X; cbn [cloneArgs] in H.
  - injection H as <- <-. split; [apply ext_refl|]. auto.
  - destruct (nth_error args p) as [[j|b]|] eqn:E; [| |discriminate].
    + apply sbind_ok in H. destruct H as [[s1 v] [E1 H]].
      destruct (F p j s s1 v E E1 X) as [X1 G1].
      destruct (IH _ _ _ _ H F (ext_trans _ _ _ X X1)) as [X2 G2]. split; [eapply ext_trans; eauto|].
      intros W e S R M A. pose proof (weighs_ext _ _ _ _ X2 S) as S1.
      destruct (G1 W e S1 R M) as [M1 V1]. apply (G2 W e S R M1).
      intros q w a. destruct (Nat.eqb_spec q p) as [->|]; [|apply A].
      intros [= <-] Ha. rewrite E in Ha. injection Ha as <-. exact V1.
    + cbn [sbind] in H. destruct (IH _ _ _ _ H F X) as [X2 G2]. split; auto.
      intros W e S R M A. apply (G2 W e S R M).
      intros q w a. destruct (Nat.eqb_spec q p) as [->|]; [|apply A].
      intros [= <-] Ha. cbn. lia.
Qed.

Lemma cloneOps_w : forall fuel pre i s s' v, cloneOps decide ord inds fuel pre i s = SOk (s', v) ->
  visit pre i -> ext g0 (c_heap s) ->
  ext (c_heap s) (c_heap s') /\
  forall W e, weighs (c_heap s') var W -> lighter W e -> memo_w W e s -> memo_w W e s' /\ wv W v <= e i.
Proof.
  induction fuel as [|fuel IH]; intros pre i s s' v H Vi X; [discriminate|]. cbn [cloneOps] in H.
  destruct (c_memo s i) as [w|] eqn:EM.
  { injection H as <- <-. split; [apply ext_refl|]. intros W e S R M. split; auto. }
  destruct (decide pre i) as [x| |] eqn:ED.
  - injection H as <- <-. split; [apply ext_refl|]. cbn [fst snd c_heap]. intros W e S R M.
    assert (V : wv W x <= e i). { specialize (R pre i Vi). now rewrite ED in R. }
    split; auto. now apply save_w.
  - destruct (nth_error (c_heap s) i) as [d|] eqn:EN; [|discriminate].
    assert (EN0 : nth_error g0 i = Some d).
    { destruct (nth_error g0 i) as [d'|] eqn:E; [|apply nth_error_None in E; specialize (visit_in _ _ Vi); lia].
      rewrite (ext_nth _ _ _ _ X E) in EN. congruence. }
    destruct (handled (n_op d)) eqn:EH; cbn [negb] in H; [|discriminate].
    destruct (isInv (n_op d)) eqn:EI.
    + destruct (n_op d) eqn:EO; try discriminate. destruct (indepIndex inds i); [|discriminate].
      injection H as <- <-. split; [apply ext_refl|]. cbn [fst snd c_heap]. intros W e S R M.
      assert (V : wv W (Var i None) <= e i).
      { specialize (R pre i Vi). rewrite ED in R. destruct R as [d' [E R]].
        rewrite EN0 in E. injection E as <-. rewrite EO in R. exact R. }
      split; auto. now apply save_w.
    + assert (H' : sbind (cloneArgs (fun p j s' => cloneOps decide ord inds fuel (pre ++ [(i, Some p)]) j s') (n_args d) (ord i (length (n_args d)))
                     (fun _ => None) s) (fun '(s1, acc) =>
                match all_some (map acc (seq 0 (length (n_args d)))) with
                | None => SUndef
                | Some vs =>
                    match cg_op (n_op d) vs (c_heap s1) with
                    | Throw => SThrow
                    | Ok (g', v) => SOk (mkC (fun j => if Nat.eqb j i then Some v else c_memo s1 j) g', v)
                    end
                end) = SOk (s', v)).
      { revert H. destruct (n_op d); try discriminate; auto. }
      clear H. apply sbind_ok in H'. destruct H' as [[s1 acc] [E1 H]].
      destruct (all_some (map acc (seq 0 (length (n_args d))))) as [vs|] eqn:EA; [|discriminate].
      destruct (cg_op (n_op d) vs (c_heap s1)) as [[g' w]|] eqn:EC; [|discriminate]. injection H as <- <-. cbn [c_heap].
      destruct (cloneArgs_w _ _ _ _ _ _ _ E1) as [X1 G1].
      { intros p j s2 s2' v2 Ha E2 X2. apply (IH _ _ _ _ _ E2); auto. eapply visit_next; eauto. }
      { auto. }
      assert (X2 : ext (c_heap s1) g').
      { revert EC. clear -EI. intros EC. destruct (n_op d); try discriminate; destruct vs as [|a [|b [|c0 [|e [|]]]]]; try discriminate; cbn [cg_op] in EC;
          try (injection EC as <- <-; apply ext_refl).
        1-4: exact (shape_ext _ _ _ _ _ _ (cbin_shape _ _ a b) EC).
        - exact (shape_ext _ _ _ _ _ _ (cpow_shape _ a b) EC).
        - exact (shape_ext _ _ _ _ _ _ (cneg_shape _ a) EC).
        - exact (shape_ext _ _ _ _ _ _ (csign_shape _ a) EC).
        - exact (shape_ext _ _ _ _ _ _ (cfun_shape _ f a) EC).
        - exact (shape_ext _ _ _ _ _ _ (ccond_shape _ _ a b c0 e) EC). }
      split; [eapply ext_trans; eauto|]. intros W e S R M.
      destruct (G1 W e (weighs_ext _ _ _ _ X2 S) R M) as [M1 A1]; [discriminate|].
      assert (V : wv W w <= e i).
      { etransitivity; [eapply cg_op_count; eauto|].
        { apply ext_length in X1, X. lia. }
        specialize (R pre i Vi). rewrite ED in R. destruct R as [d' [E R]]. rewrite EN0 in E. injection E as <-.
        assert (R' : sum (map (wa e) (n_args d)) <= e i) by (destruct (n_op d); auto; discriminate).
        etransitivity; [|exact R'].
        apply all_some_spec in EA. clear -EA A1.
        assert (Q : forall k l vs, Forall2 (fun o v => o = Some v) (map acc (seq k (length l))) vs ->
          (forall p v a, acc (k + p) = Some v -> nth_error l p = Some a -> wv W v <= wa e a) ->
          sum (map (wv W) vs) <= sum (map (wa e) l)).
        { intros k l. revert k. induction l as [|a l IH]; intros k us HF HA; inversion HF; subst; cbn; [lia|].
          assert (wv W y <= wa e a) by (apply (HA 0 y a); [rewrite Nat.add_0_r; auto|reflexivity]).
          assert (sum (map (wv W) l') <= sum (map (wa e) l)).
          { apply (IH (S k)); auto. intros p v b Hp Hb. apply (HA (S p) v b); auto. rewrite <- Hp. f_equal. lia. }
          lia. }
        apply (Q 0 (n_args d) vs EA). intros p v a. apply A1. }
      split; auto. now apply save_w.
  - injection H as <- <-. split; [apply ext_refl|]. cbn [fst snd c_heap]. intros W e S R M.
    assert (V : W i <= e i). { specialize (R pre i Vi). now rewrite ED in R. }
    split; auto. now apply save_w.
Qed.
Lemma cloneEval_w fuel root g' v : cloneEval decide ord inds fuel g0 root = SOk (g', v) -> visit [] root ->
  ext g0 g' /\ forall W e, weighs g' var W -> lighter W e -> wv W v <= e root.
Proof.
  intros H Vi. unfold cloneEval in H. apply sbind_ok in H. destruct H as [[s x] [E H]]. injection H as <- <-.
  destruct (cloneOps_w _ _ _ _ _ _ E Vi (ext_refl _)) as [X F]. split; auto. intros W e S R. apply (F W e S R). intros j w; discriminate.
Qed.
End Clone.

(** ** The whole expression *)
Lemma collected_sane g g' x : collected g g' x -> ext g g' /\ niceF g' /\ valid g' x /\
  forall W, weighs g' var W -> W var = 1 -> wv W x <= 1.
Proof.
  intros (g5 & cSum & rest & g6 & term & X5 & [N5 LV5] & [Vc Fc] & [Vr Fr] & E6 & E7).
  pose proof (@invariant_sane B h) as KS.
  destruct (cbin_keeps h (handler_nodes h) valid KS g5 BMul cSum (Var var None)) as [g6' [term' [E6' [X6 [N6 V6]]]]]; auto.
  rewrite E6 in E6'. injection E6' as <- <-.
  destruct (cbin_keeps h (handler_nodes h) valid KS g6 BAdd term rest N6 V6) as [g7 [x' [E7' [X7 [N7 V7]]]]].
  { eapply valid_ext; eauto. }
  rewrite E7 in E7'. injection E7' as <- <-.
  split; [eapply ext_trans; eauto; eapply ext_trans; eauto|]. split; [split; auto; apply ext_length in X6, X7; lia|]. split; auto.
  intros W HW H1.
  pose proof (shape_count _ _ _ _ _ _ W (cbin_shape g6 BAdd term rest) E7 ltac:(apply ext_length in X6; lia) HW) as Q1.
  pose proof (shape_count _ _ _ _ _ _ W (cbin_shape g5 BMul cSum (Var var None)) E6 LV5 (weighs_ext _ _ _ _ X7 HW)) as Q2.
  assert (Z : forall y, valid g5 y -> free_of g5 var y -> wv W y = 0).
  { intros [b|i v] Vy Fy; [reflexivity|]. cbn. apply (weighs_free g5 var); auto; try apply N5.
    eapply weighs_ext; [|exact HW]. eapply ext_trans; eauto. }
  cbn in Q1, Q2. rewrite (Z cSum), H1 in Q2 by auto. rewrite (Z rest) in Q1 by auto. lia.
Qed.

Lemma prefix_occurs g root c m i p v : down_path g root (c ++ (m, i) :: p) v -> occurs g root m.
Proof.
  revert root. induction c as [|[n k] c IH]; intros root D; cbn in D.
  - inversion D; subst; apply occurs_refl.
  - inversion D; subst; [destruct c; discriminate|]. eapply occurs_trans; [eapply occurs_link; eauto|]. eauto.
Qed.

Lemma collect_goes g root c m i1 i2 j1 j2 p1 p2 : niceF g -> root < length g -> i1 < i2 -> link g m i1 j1 -> link g m i2 j2 ->
  down_path g root (c ++ (m, Some i1) :: p1) var ->
  down_path g j1 p1 var -> down_path g j2 p2 var -> straight g var p1 -> straight g var p2 ->
  exists N, forall fuel, N <= fuel ->
    collectVariable fuel ord inds g root (c ++ (m, Some i1) :: p1) (c ++ (m, Some i2) :: p2) (length c) = SThrow \/
    exists g' x, collectVariable fuel ord inds g root (c ++ (m, Some i1) :: p1) (c ++ (m, Some i2) :: p2) (length c) = SOk (g', x) /\
      ext g g' /\ niceF g' /\ valid g' x /\
      forall W, weighs g' var W -> W var = 1 -> wv W x < W root.
Proof.
  intros NG LR LT L1 L2 DR D1 D2 T1 T2. pose proof NG as [HG LV].
  destruct (addsub_goes g m i1 i2 j1 j2 p1 p2 NG LT L1 L2 D1 D2 T1 T2) as [N0 H0].
  unfold collectVariable. rewrite nth_prefix, !skipn_prefix.
  assert (ST : forall fuel, N0 <= fuel -> sstable (collectVariableAddSub N0 ord inds g ((m, Some i1) :: p1) ((m, Some i2) :: p2))
     (collectVariableAddSub fuel ord inds g ((m, Some i1) :: p1) ((m, Some i2) :: p2))) by (intros; now apply addsub_stable).
  destruct (H0 N0 (le_n _)) as [E|[g1 [sub [E CO]]]].
  { exists N0. intros fuel HF. rewrite (ST fuel HF) by (rewrite E; discriminate). rewrite E. now left. }
  destruct (collected_sane _ _ _ CO) as [X1 [N1 [V1 W1]]]. pose proof N1 as [HG1 LV1].
  destruct (Hn_cycle _ _ HG1) as [r RK]. exists (Nat.max N0 (S (r root))). intros fuel HF.
  rewrite (ST fuel) by (try lia; rewrite E; discriminate). rewrite E. cbn [sbind].
  destruct (findPathGraph_ok g1 r RK root m fuel None ltac:(lia)) as [G [b [EG [P [C _]]]]]. specialize (C eq_refl). rewrite EG. cbn [ofpath sbind].
  set (visit := fun (_ : spath) i => occurs g1 root i).
  assert (VIN : forall pre i, visit pre i -> i < length g1).
  { intros pre i [l Hl]. assert (LR1 : root < length g1) by (apply ext_length in X1; lia). revert LR1. clear -Hl HG1.
    induction Hl as [n|n i j l k Lk Hl IH]; auto. intros _. apply IH. now apply (link_closed g1 n i j (Hn_closed _ _ HG1)). }
  assert (VNX : forall pre i d p j, visit pre i -> decideGraph G m sub pre i = DClone -> nth_error g1 i = Some d ->
    nth_error (n_args d) p = Some (ANode j) -> visit (pre ++ [(i, Some p)]) j).
  { intros pre i d p j Vi _ Hn Ha. unfold visit in *. eapply occurs_trans; [exact Vi|]. apply (occurs_link g1 i p j). exists d. auto. }
  pose proof (@invariant_sane B h) as KS.
  destruct (cloneEval_goes h (handler_nodes h) valid KS (decideGraph G m sub) ord ord_all inds g1 HG1 (Hn_arity _ _ HG1) r visit) with (fuel := fuel) (root := root)
    as [E2|[g2 [x [E2 [X2 [N2 V2]]]]]]; auto.
  - intros pre i d p j Vi Hd Hn Ha. split; [eapply VNX; eauto|]. apply (RK i p j). exists d. auto.
  - intros pre i Vi. apply VIN in Vi. unfold decideGraph. destruct (pg_find G i); [|exact Vi]. destruct (Nat.eqb i m); auto.
  - lia.
  - apply occurs_refl.
  - right. exists g2, x. split; auto. split; [eapply ext_trans; eauto|]. split; [split; auto; apply ext_length in X2; lia|]. split; auto.
    intros W HW Hv.
    destruct (cloneEval_w (decideGraph G m sub) g1 LV1 visit VIN VNX fuel root g2 x E2 (occurs_refl _ _)) as [_ CW].
    pose proof (weighs_ext _ _ _ _ X2 HW) as HW1.
    pose proof (Hn_cycle _ _ HG1) as NC1. pose proof (Hn_closed _ _ HG1) as CL1.
    pose proof (down_path_occurs g _ _ _ D1) as O1. pose proof (down_path_occurs g _ _ _ D2) as O2.
    apply (occurs_ext g g1) in O1, O2; auto.
    pose proof (link_ext g g1 _ _ _ X1 L1) as L1'. pose proof (link_ext g g1 _ _ _ X1 L2) as L2'.
    pose proof (below_target g1 var m i1 j1 NC1 L1' O1) as NEm.
    assert (NVM : ~ occurs g1 var m).
    { intros Oc. assert (r var < r m).
      { pose proof (RK _ _ _ L1'). apply (occurs_rank g1 r RK) in O1. lia. }
      apply (occurs_rank g1 r RK) in Oc. lia. }
    (* the weights when m has one occurrence *)
    destruct (weights_exist g1 (fun n => if Nat.eqb n m then Some 1 else if Nat.eqb n var then Some 1 else None) NC1) as [e [He1 He2]].
    assert (Em : e m = 1) by (apply He1; now rewrite Nat.eqb_refl).
    assert (Ev : e var = 1) by (apply He1; destruct (Nat.eqb_spec var m); [congruence|now rewrite Nat.eqb_refl]).
    assert (He : forall n d, nth_error g1 n = Some d -> n <> m -> n <> var -> e n = sum (map (wa e) (n_args d))).
    { intros n d Hn N3 N4. apply He2; auto. destruct (Nat.eqb_spec n m); [contradiction|]. destruct (Nat.eqb_spec n var); [contradiction|auto]. }
    assert (Wm : 1 < W m).
    { pose proof L1' as [dm [Hdm Ha1]]. pose proof L2' as [dm' [Hdm' Ha2]]. rewrite Hdm in Hdm'. injection Hdm' as <-.
      rewrite (HW1 m dm Hdm NEm).
      pose proof (weighs_occurs g1 var W j1 1 NC1 HW1 ltac:(lia) O1) as Q1. pose proof (weighs_occurs g1 var W j2 1 NC1 HW1 ltac:(lia) O2) as Q2.
      apply nth_error_split in Ha1. destruct Ha1 as [la [lb [EQ EL]]]. rewrite EQ in Ha2 |- *.
      rewrite nth_error_app2 in Ha2 by lia. replace (i2 - length la) with (S (i2 - length la - 1)) in Ha2 by lia. cbn in Ha2.
      apply nth_error_In in Ha2. clear -Q1 Q2 Ha2.
      assert (SA : forall l l' : list nat, sum (l ++ l') = sum l + sum l') by (induction l; intros; cbn; auto; rewrite IHl; lia).
      rewrite map_app, SA. cbn [map sum wa]. assert (W j2 <= sum (map (wa W) lb)) by (apply sum_in; apply in_map_iff; exists (ANode j2); auto). lia. }
    pose proof (weighs_less g1 var m W e NC1 CL1 HW1 He ltac:(congruence) ltac:(lia) NVM) as LESS.
    assert (Orm : occurs g1 root m) by (apply (occurs_ext g g1); auto; eapply prefix_occurs; eauto).
    apply Nat.le_lt_trans with (e root).
    2:{ apply (LESS root); auto. apply ext_length in X1. lia. }
    apply (CW W e HW). intros pre i Vi. pose proof (VIN _ _ Vi) as Hi.
    unfold decideGraph. destruct (pg_find G i) as [ei|] eqn:EF.
    + assert (Bi : between g1 root m i) by (apply (PG_between _ _ _ _ P); apply contains_find; eauto).
      destruct (Nat.eqb_spec i m) as [->|NM].
      * rewrite Em. apply W1; auto.
      * destruct Bi as [_ Oi]. destruct (nth_error g1 i) as [d|] eqn:EN; [|apply nth_error_None in EN; lia]. exists d. split; auto.
        assert (NV : i <> var) by (intros ->; contradiction).
        rewrite <- (He i d EN NM NV).
        destruct (n_op d) eqn:EO; auto.
        exfalso. apply occurs_inv in Oi. destruct Oi as [->|[p [j [[d' [Hd' Ha]] _]]]]; [contradiction|].
        rewrite EN in Hd'. injection Hd' as <-.
        pose proof (Hn_arity _ _ HG1) as WA. unfold wf_arity in WA. rewrite Forall_forall in WA. specialize (WA d (nth_error_In _ _ EN)).
        rewrite EO in WA. cbn in WA. destruct (n_args d); [|discriminate]. destruct p; discriminate.
    + apply Nat.eq_le_incl. symmetry. apply (LESS i); auto. intros Oi.
      assert (Q : pg_contains G i = true) by (apply (CG_between _ _ _ _ C); split; auto).
      unfold pg_contains in Q. rewrite EF in Q. discriminate.
Qed.
End Many.

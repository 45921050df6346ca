(** * First order forward mode of a model with loops: theorems *)
From Coq Require Import List Bool Arith NArith ZArith Reals Sorted Lia Lra.
From Verif Require Import Graph_model Codegen_model CSyntax Index_model Range_model LoopCond_model Assemble_model Assemble_proofs Assemble_thm Drivers_model Drivers_thm
  LoopAsm_model LoopAsm_spec LoopAsm_thm LoopJac_model LoopJac_spec LoopJac_maps LoopJac_row LoopJac_state LoopJac_analysis LoopJac_run LoopJac_main LoopJac_final LoopJac_thm
  LoopDir_model LoopDir_proofs LoopDir_thm LoopRev1_model LoopRev1_exec LoopRev1_analysis LoopRev1_main LoopRev1_used LoopRev1_thm
  LoopFor1_model LoopFor1_spec LoopFor1_iters LoopFor1_groups LoopFor1_col LoopFor1_main LoopFor1_all.
Import ListNotations.
Local Open Scope nat_scope.

Lemma forward_ok F dF G dG absent md x nx rows cols :
  good md -> tapes_right F dF G dG md x -> length rows = length cols -> (forall p, ~ Assemble_thm.repeated rows cols p) ->
  (forall i, In i rows -> exists p, place_of md i p) -> (forall j, In j cols -> j < nx) -> direct_somewhere md rows cols ->
  exists v, forwardOneFunctions dF G dG absent md x nx rows cols = Ok v /\
    loopModel R 0%R Rplus cols rows (w_nl v) (w_gs v) (w_noLoop v) (w_loopFn v) (fun j i s => dyOf dF G dG absent md x i j * s)%R /\
    forall g, In g (w_gs v) -> lg_keys g <> [] /\ forall k, In k (map fst (lg_keys g)) -> k < nx.
Proof.
  intros Hg HT Hlen Honce Hplace Hx Hd. pose proof HT as (_ & HF & HG).
  assert (HdF : forall n l tapeI row t u, nth_error (m_loops md) n = Some l -> nth_error (l_row l) tapeI = Some row -> ~ In t row -> dF n tapeI t u = 0%R) by (intros n l tapeI row t u H1 H2; exact (proj1 (proj2 (HF n l tapeI row H1 H2)) t u)).
  assert (HdG : forall f il row j, m_free md = Some f -> nth_error (f_row f) il = Some row -> ~ In j row -> dG il j x = 0%R) by (intros f il row j H1 H2; exact (proj2 (HG f il row H1 H2 j))).
  destruct (analyseColumns_spec md Hg rows cols Honce Hplace) as (s & Es & HI & HE).
  destruct (generated dF G dG absent md x nx Hg HdF HdG rows cols Hlen Honce Hx Hd s HI HE) as ((a & Ea) & (b & Eb)).
  eexists. split; [unfold forwardOneFunctions; rewrite Es; cbn [rbind]; rewrite Ea; cbn [rbind]; rewrite Eb; reflexivity|]. cbn [w_nl w_gs w_noLoop w_loopFn]. split; [constructor|].
  - split; intros; lra.
  - symmetry. exact Hlen.
  - exact (once_swap rows cols Honce).
  - exact (nl_ok dG md x nx rows cols Hlen Honce s HI HE).
  - intros g I. exact (proj1 (gs_ok dF G dG absent md x nx Hg HdF HdG rows cols Hlen s HI g I)).
  - exists (NL dF G dG absent md x rows cols), (LV dF G dG absent md x nx s). split; [|split].
    + exact (noLoop_fine dF G dG absent md x nx Hg HdF HdG rows cols Hlen Honce Hx s HI HE).
    + exact (loopFn_fine dF G dG absent md x nx Hg HdF HdG rows cols Hlen Honce Hx Hd s HI).
    + intros p k i dx Ek Ei. exact (expected_value dF G dG absent md x nx Hg HdF HdG rows cols Hlen Honce Hx Hd s HI HE p k i dx Ek Ei (Hplace i (nth_error_In _ _ Ei))).
  - intros g I. exact (proj2 (gs_ok dF G dG absent md x nx Hg HdF HdG rows cols Hlen s HI g I)).
Qed.

(** For every model made of loops, every request of elements without a repeated one and with [direct_somewhere], and every point where the tapes
    are differentiable, the functions of first order forward mode are generated, and together they give, for each requested element (i, j) and
    each component dx_j of the direction, the derivative of equation i by variable j times dx_j. *)
Theorem C68_loops_forward_functions : forall F dF G dG absent md x nx rows cols,
  good md -> tapes_right F dF G dG md x -> length rows = length cols -> (forall p, ~ Assemble_thm.repeated rows cols p) ->
  (forall i, In i rows -> exists p, place_of md i p) -> (forall j, In j cols -> j < nx) -> direct_somewhere md rows cols ->
  exists v dy, forwardOneFunctions dF G dG absent md x nx rows cols = Ok v /\ (forall i j y, equation F G md i y -> partial y x j (dy i j)) /\
    loopModel R 0%R Rplus cols rows (w_nl v) (w_gs v) (w_noLoop v) (w_loopFn v) (fun j i s => dy i j * s)%R.
Proof.
  intros F dF G dG absent md x nx rows cols Hg HT Hlen Honce Hplace Hx Hd. destruct (forward_ok F dF G dG absent md x nx rows cols Hg HT Hlen Honce Hplace Hx Hd) as (v & Ev & HL & _).
  exists v, (dyOf dF G dG absent md x). split; [exact Ev|]. split; [intros i j y Hy; exact (dy_right F dF G dG absent md x Hg HT i j y Hy)|exact HL].
Qed.
Print Assumptions C68_loops_forward_functions.

Lemma forward_sum isz (dy : nat -> nat -> R) rows cols tx i : (forall v, isz v = true -> v = 0%R) -> forall n, 2 * n <= length tx ->
  (forall j, j < n -> wanted cols rows j i = true \/ dy i j = 0%R) ->
  sumOf Rplus 0%R (terms isz (fun j i s => dy i j * s)%R cols rows (fun j => nth_error tx (2 * j + 1)) n i) = sumTo n (fun j => dy i j * nth (2 * j + 1) tx 0)%R.
Proof.
  intros Hz. unfold sumOf, terms. induction n as [|n IH]; intros L H; [reflexivity|]. rewrite seq_S, flat_map_app, fold_left_app, IH; [|lia|intros j Lj; apply H; lia]. cbn [sumTo plus flat_map].
  destruct (nth_error tx (2 * n + 1)) as [s|] eqn:E; [|apply nth_error_None in E; lia]. change (n + (n + 0) + 1) with (2 * n + 1). rewrite (nth_error_nth _ _ 0%R E), app_nil_r. destruct (isz s) eqn:Z; cbn [negb andb].
  - rewrite (Hz s Z). cbn [fold_left]. lra.
  - destruct (H n (Nat.lt_succ_diag_r n)) as [W|W].
    + rewrite W. reflexivity.
    + rewrite W. destruct (wanted cols rows n i); cbn [fold_left]; lra.
Qed.

(** First order forward mode with these functions (tx and ty hold the values and the first order coefficients in turn): the product of the
    Jacobian and the direction, provided that the elements which are not requested are zero. *)
Theorem C68_loops_forward_one : forall F dF G dG absent md x n m rows cols isz ok garbage tx ty,
  good md -> tapes_right F dF G dG md x -> length rows = length cols -> (forall p, ~ Assemble_thm.repeated rows cols p) ->
  (forall i, In i rows -> exists p, place_of md i p) -> (forall j, In j cols -> j < n) -> direct_somewhere md rows cols -> (forall i, In i rows -> i < m) ->
  (forall v, isz v = true -> v = 0%R) -> 2 * n <= length tx -> 2 * m <= length ty -> length cols <= length garbage ->
  (forall i j y, equation F G md i y -> j < n -> (exists p, nth_error rows p = Some i /\ nth_error cols p = Some j) \/ partial y x j 0) ->
  exists v dy, forwardOneFunctions dF G dG absent md x n rows cols = Ok v /\ (forall i j y, equation F G md i y -> partial y x j (dy i j)) /\
    (forall i j, (forall y, ~ equation F G md i y) -> dy i j = 0%R) /\
    let run := forwardOneL R 0%R Rplus isz (w_noLoop v) (w_loopFn v) cols rows (w_nl v) (w_gs v) ok garbage n m tx ty in
    (exists ty', run = Ret Done ty' /\ outputs (fun i => 2 * i + 1) m (fun i => sumTo n (fun j => dy i j * nth (2 * j + 1) tx 0)%R) ty ty') \/
    ((exists r, ok r = false) /\ run = Ret NoMemory ty).
Proof.
  intros F dF G dG absent md x n m rows cols isz ok garbage tx ty Hg HT Hlen Honce Hplace Hx Hd Hm Hz L1 L2 L3 Hc.
  destruct (forward_ok F dF G dG absent md x n rows cols Hg HT Hlen Honce Hplace Hx Hd) as (v & Ev & HL & _). exists v, (dyOf dF G dG absent md x). split; [exact Ev|].
  split; [intros i j y Hy; exact (dy_right F dF G dG absent md x Hg HT i j y Hy)|].
  assert (Heq : forall i p, place_of md i p -> exists y, equation F G md i y).
  { intros i p [n0 l t row it A B C|f A I]; [eexists; exact (EqLoop F G md n0 l t row it i A B C)|]. apply In_nth_error in I. destruct I as (il & E). eexists. exact (EqFree F G md f il i A E). }
  split; [intros i j N; apply (dy_nowhere dF G dG absent md x Hg); intros p Hp; destruct (Heq i p Hp) as (y & Hy); exact (N y Hy)|]. cbv zeta.
  destruct (C66_loops_forward_one_partial R 0%R Rplus isz rows cols _ _ _ _ _ ok garbage n m tx ty HL Hm L1 L2 L3) as [(ty' & E & (O1 & O2 & O3))|H]; [left|right; exact H].
  exists ty'. split; [exact E|]. split; [exact O1|]. split; [|exact O3]. intros i Li. rewrite (O2 i Li). f_equal. apply forward_sum; [exact Hz|exact L1|].
  intros j Lj. destruct (wanted cols rows j i) eqn:W; [left; reflexivity|right].
  assert (X : forall y, equation F G md i y -> dyOf dF G dG absent md x i j = 0%R).
  { intros y Hy. destruct (Hc i j y Hy Lj) as [(p & A & B)|X]; [|exact (uniqueness_limite _ _ _ _ (dy_right F dF G dG absent md x Hg HT i j y Hy) X)].
    rewrite (proj2 (wanted_In cols rows j i) (ex_intro _ p (conj B A))) in W. discriminate. }
  destruct (findLoop i (m_loops md)) as [[n0 [t it]]|] eqn:EF.
  - destruct (Heq i _ (proj1 (findLoop_iff md i n0 t it Hg) EF)) as (y & Hy). exact (X y Hy).
  - destruct (in_dec Nat.eq_dec i (freeEqs md)) as [I|I].
    + unfold freeEqs in I. destruct (m_free md) as [f|] eqn:Ef; [|destruct I]. destruct (Heq i _ (P_free md i f Ef I)) as (y & Hy). exact (X y Hy).
    + apply (dy_nowhere dF G dG absent md x Hg). intros p Hp. inversion Hp as [n0 l t row it A B C|f A J]; subst.
      * rewrite (proj2 (findLoop_iff md i n0 t it Hg) Hp) in EF. discriminate.
      * apply I. unfold freeEqs. rewrite A. exact J.
Qed.
Print Assumptions C68_loops_forward_one.

(** The sparse Jacobian which is assembled from these functions (the elements of each variable being requested one after the other): each
    element is the derivative. *)
Theorem C68_loops_jacobian_from_forward : forall F dF G dG absent md x n rows cols,
  good md -> tapes_right F dF G dG md x -> length rows = length cols -> (forall p, ~ Assemble_thm.repeated rows cols p) ->
  (forall i, In i rows -> exists p, place_of md i p) -> (forall j, In j cols -> j < n) -> direct_somewhere md rows cols -> (N.of_nat n <= SIZE_MAX)%N -> (forall j, together cols j) ->
  exists v prog, forwardOneFunctions dF G dG absent md x n rows cols = Ok v /\ assemble cols rows (w_nl v) (w_gs v) = Some prog /\
  forall garbage result, lp_size prog <= length garbage -> length result = length cols ->
  exists res, runAssemble R 0%R Rplus (fun j => w_noLoop v j 1%R) (fun f j => w_loopFn v f j 1%R) prog garbage result = Some res /\ length res = length cols /\
    forall p i j y, nth_error rows p = Some i -> nth_error cols p = Some j -> equation F G md i y -> exists d, nth_error res p = Some d /\ partial y x j d.
Proof.
  intros F dF G dG absent md x n rows cols Hg HT Hlen Honce Hplace Hx Hd HM Ht.
  destruct (forward_ok F dF G dG absent md x n rows cols Hg HT Hlen Honce Hplace Hx Hd) as (v & Ev & HL & Hk).
  destruct HL as [Hs _ _ Hnl Hgs (NL & LV & H1 & H2 & H3)].
  assert (Hgo : forall g, In g (w_gs v) -> group_ok cols g).
  { intros g I. destruct (Hk g I) as [K1 K2]. split; [exact (Hgs g I)|]. split; [exact K1|]. intros k Ik. pose proof (K2 k Ik). lia. }
  destruct (C65_loops_assembly_sorted R 0%R Rplus cols rows (w_nl v) (w_gs v) (NL 1%R) (LV 1%R) (fun j => w_noLoop v j 1%R) (fun f j => w_loopFn v f j 1%R) Hs (eq_sym Hlen) (once_NoDup cols rows (once_swap rows cols Honce)) Ht Hnl Hgo (H1 1%R) (H2 1%R)) as (prog & Ep & H).
  exists v, prog. split; [exact Ev|]. split; [exact Ep|]. intros garbage result La Lr. destruct (H garbage result La Lr) as (res & E & L & H'). exists res. split; [exact E|]. split; [exact L|].
  intros p i j y Ei Ej Hy. exists (dyOf dF G dG absent md x i j). split; [|exact (dy_right F dF G dG absent md x Hg HT i j y Hy)]. rewrite (H' p j Ej), <- (H3 p j i 1%R Ej Ei). f_equal. lra.
Qed.
Print Assumptions C68_loops_jacobian_from_forward.

(** The condition on the request holds when all the elements which may be nonzero are requested (as when no sparsity is given by the user),
    each variable without an index being used directly by some equation of its loop. *)
Theorem C68_full_request : forall md rows cols, good md ->
  (forall i j, depends_in_loop md i j -> exists p, nth_error rows p = Some i /\ nth_error cols p = Some j) ->
  (forall n l q j, nth_error (m_loops md) n = Some l -> nth_error (l_non l) q = Some j -> exists t row, nth_error (l_row l) t = Some row /\ In (length (l_indexed l) + q) row) ->
  direct_somewhere md rows cols.
Proof.
  intros md rows cols Hg Hall Hused n l q j p i t it Hn Hq _ _ _. destruct (Hused n l q j Hn Hq) as (t' & row & Er & Ir).
  pose proof (proj1 (Forall_forall _ _) (g_loops md Hg) l (nth_error_In _ _ Hn)) as Gl. destruct (nth_error (l_deps l) t') as [deps|] eqn:Ed.
  2: { apply nth_error_None in Ed. rewrite <- (g_rows md l Gl) in Ed. apply nth_error_None in Ed. congruence. }
  destruct (proj1 (Forall_forall _ _) (g_used md l Gl) deps (nth_error_In _ _ Ed)) as (it' & i' & Ei). pose proof (P_loop md i' n l t' deps it' Hn Ed Ei) as Hp.
  destruct (Hall i' j) as (p' & A & B).
  - exists n, l, t', it'. split; [exact Hp|]. split; [exact Hn|]. exists row, (length (l_indexed l) + q). split; [exact Er|]. split; [exact Ir|]. left. unfold sources.
    rewrite nth_error_app2; rewrite map_length; [|lia]. replace (length (l_indexed l) + q - length (l_indexed l)) with q by lia. rewrite nth_error_app1.
    + rewrite nth_error_map, Hq. reflexivity.
    + rewrite map_length. apply nth_error_Some. congruence.
  - exists p', i', t', it', row. auto.
Qed.
Print Assumptions C68_full_request.

(** ** A case: the model of LoopJac_thm with all its elements, by variable: y_i = x_i x_3 + x_3 x_3 (i = 0, 1, 2), y_3 = x_0 x_0, y_4 = x_2 x_2, y_5 = x_4 *)
Definition f_rows : list nat := [0; 3; 1; 2; 4; 0; 1; 2; 5].
Definition f_cols : list nat := [0; 0; 1; 2; 2; 3; 3; 3; 4].
Lemma f_once : forall p, ~ Assemble_thm.repeated f_rows f_cols p.
Proof.
  intros p (q & i & j & L & [A1 A2] & [B1 B2]). assert (Lp : p < 9) by (change 9 with (length f_rows); apply nth_error_Some; congruence).
  assert (X : forallb (fun p => forallb (fun q => negb ((q <? p) && (nth p f_rows 0 =? nth q f_rows 0) && (nth p f_cols 0 =? nth q f_cols 0))) (seq 0 9)) (seq 0 9) = true) by (vm_compute; reflexivity).
  rewrite forallb_forall in X. specialize (X p ltac:(apply in_seq; lia)). cbv beta in X. rewrite forallb_forall in X. specialize (X q ltac:(apply in_seq; lia)). cbv beta in X.
  rewrite (nth_error_nth _ _ _ A1), (nth_error_nth _ _ _ A2), (nth_error_nth _ _ _ B1), (nth_error_nth _ _ _ B2), !Nat.eqb_refl, (proj2 (Nat.ltb_lt q p) L) in X. discriminate.
Qed.
Lemma f_place : forall i, In i f_rows -> exists p, place_of ex_model i p.
Proof. intros i I. apply ex_place. cbn in I. intuition lia. Qed.
Lemma f_below : forall j, In j f_cols -> j < 5.
Proof. intros j I. cbn in I. intuition lia. Qed.
Lemma f_direct : direct_somewhere ex_model f_rows f_cols.
Proof.
  intros n l q j p i t it Hn Hq _ _ _. destruct (ex_loop_at n l Hn) as [-> ->]. destruct q as [|q]; cbn in Hq; [|destruct q; discriminate]. injection Hq as <-.
  exists 5, 0, 0, 0, [0; 1; 2]. split; [reflexivity|]. split; [reflexivity|]. split; [exact (P_loop ex_model 0 0 ex_loop 0 _ 0 eq_refl eq_refl eq_refl)|]. split; [reflexivity|]. cbn. auto.
Qed.
Lemma f_zero absent x i j : i < 6 -> j < 5 -> (exists p, nth_error f_rows p = Some i /\ nth_error f_cols p = Some j) \/ dyOf ex_dF ex_G ex_dG absent ex_model x i j = 0%R.
Proof.
  intros Li Lj. destruct (wanted f_rows f_cols i j) eqn:W; [left; apply wanted_In, W|right].
  destruct i as [|[|[|[|[|[|i]]]]]]; try lia; destruct j as [|[|[|[|[|j]]]]]; try lia; try (vm_compute in W; discriminate W); unfold dyOf; cbn; unfold dsource; cbn; lra.
Qed.
Example C68_forward_one_case : forall absent x ok tx garbage ty, length tx = 10 -> length ty = 12 -> length garbage = 9 ->
  exists v, forwardOneFunctions ex_dF ex_G ex_dG absent ex_model x 5 f_rows f_cols = Ok v /\
  let run := forwardOneL R 0%R Rplus (fun _ => false) (w_noLoop v) (w_loopFn v) f_cols f_rows (w_nl v) (w_gs v) ok garbage 5 6 tx ty in
  (exists ty', run = Ret Done ty' /\ nth_error ty' 3 = Some (x 3%nat * nth 3 tx 0 + (x 1%nat + (x 3%nat + x 3%nat)) * nth 7 tx 0)%R /\
     nth_error ty' 9 = Some ((x 2%nat + x 2%nat) * nth 5 tx 0)%R) \/
  ((exists r, ok r = false) /\ run = Ret NoMemory ty).
Proof.
  intros absent x ok tx garbage ty L1 L2 L3.
  destruct (C68_loops_forward_one ex_F ex_dF ex_G ex_dG absent ex_model x 5 6 f_rows f_cols (fun _ => false) ok garbage tx ty ex_good (ex_tapes x) eq_refl f_once f_place f_below f_direct) as (v & dy & E & Hd & _ & H).
  - intros i I. cbn in I. intuition lia.
  - discriminate.
  - lia.
  - lia.
  - cbn. lia.
  - intros i j y Hy Lj. destruct (eq_place _ _ _ _ _ Hy) as (p & Hp). destruct (f_zero absent x i j (ex_below i p Hp) Lj) as [X|X]; [left; exact X|right].
    rewrite <- X. exact (dy_right ex_F ex_dF ex_G ex_dG absent ex_model x ex_good (ex_tapes x) i j y Hy).
  - exists v. split; [exact E|]. cbv zeta in H |- *. destruct H as [(ty' & Er & (_ & O & _))|H]; [left|right; exact H]. exists ty'. split; [exact Er|].
    assert (D : forall i j, i < 6 -> dy i j = dyOf ex_dF ex_G ex_dG absent ex_model x i j).
    { intros i j Li. destruct (ex_place i Li) as (p & Hp). assert (X : exists y, equation ex_F ex_G ex_model i y).
      { inversion Hp as [n l t row it A B C|f A I]; subst; [eexists; exact (EqLoop ex_F ex_G ex_model n l t row it i A B C)|]. apply In_nth_error in I. destruct I as (il & Ei). eexists. exact (EqFree ex_F ex_G ex_model f il i A Ei). }
      destruct X as (y & Hy). exact (uniqueness_limite _ _ _ _ (Hd i j y Hy) (dy_right ex_F ex_dF ex_G ex_dG absent ex_model x ex_good (ex_tapes x) i j y Hy)). }
    split; [change 3 with (2 * 1 + 1)|change 9 with (2 * 4 + 1)]; rewrite O by lia; f_equal; cbn [sumTo]; rewrite !D by lia; unfold dyOf; cbn; unfold dsource; cbn; lra.
Qed.
Lemma f_together : forall j, together f_cols j.
Proof. intros [|[|[|[|[|j]]]]]; try (apply together_b; vm_compute; reflexivity). Qed.
Example C68_jacobian_case : forall absent x, exists v prog, forwardOneFunctions ex_dF ex_G ex_dG absent ex_model x 5 f_rows f_cols = Ok v /\ assemble f_cols f_rows (w_nl v) (w_gs v) = Some prog /\
  exists res, runAssemble R 0%R Rplus (fun j => w_noLoop v j 1%R) (fun f j => w_loopFn v f j 1%R) prog (repeat 9%R (lp_size prog)) (repeat 8%R 9) = Some res /\ nth_error res 6 = Some (x 1%nat + (x 3%nat + x 3%nat))%R.
Proof.
  intros absent x. destruct (C68_loops_jacobian_from_forward ex_F ex_dF ex_G ex_dG absent ex_model x 5 f_rows f_cols ex_good (ex_tapes x) eq_refl f_once f_place f_below f_direct) as (v & prog & E & Ep & H); [vm_compute; discriminate|exact f_together|].
  exists v, prog. split; [exact E|]. split; [exact Ep|]. destruct (H (repeat 9%R (lp_size prog)) (repeat 8%R 9)) as (res & Er & _ & Hr); [rewrite repeat_length; lia|reflexivity|]. exists res. split; [exact Er|].
  pose proof (EqLoop ex_F ex_G ex_model 0 ex_loop 0 _ 1 1 eq_refl eq_refl eq_refl) as Hy. destruct (Hr 6 1 3 _ eq_refl eq_refl Hy) as (d & Ed & Hd). rewrite Ed. f_equal.
  rewrite (uniqueness_limite _ _ _ _ Hd (dy_right ex_F ex_dF ex_G ex_dG absent ex_model x ex_good (ex_tapes x) 1 3 _ Hy)). unfold dyOf. cbn. unfold dsource. cbn. lra.
Qed.

(** ** Requests without [direct_somewhere] *)
(** y_i = x_i + x_3 x_3 (i = 0, 1, 2) by means of a temporary, and y_(3+i) = x_i x_3, in one loop. *)
Definition t_loop : loopM := mkLoopM 3 [[Some 0; Some 1; Some 2]; [Some 3; Some 4; Some 5]] [[Some 0; Some 1; Some 2]] [3] [0] [[0; 2]; [0; 1]].
Definition t_model : model := mkModel [t_loop] (Some (mkFreeM [] [[3]])).
Definition t_F (n tapeI : nat) (u : nat -> R) : R := match tapeI with 0 => (u 0%nat + u 2%nat)%R | _ => (u 0%nat * u 1%nat)%R end.
Definition t_dF (n tapeI t : nat) (u : nat -> R) : R :=
  match tapeI with 0 => match t with 0 => 1%R | 2 => 1%R | _ => 0%R end | _ => match t with 0 => u 1%nat | 1 => u 0%nat | _ => 0%R end end.
Definition t_G (il : nat) (x : nat -> R) : R := (x 3%nat * x 3%nat)%R.
Definition t_dG (il j : nat) (x : nat -> R) : R := if j =? 3 then (x 3%nat + x 3%nat)%R else 0%R.
Lemma t_loop_at : forall n l, nth_error (m_loops t_model) n = Some l -> n = 0 /\ l = t_loop.
Proof. intros [|n] l H; cbn in H; [inversion H; auto|destruct n; discriminate]. Qed.
Lemma t_deps : forall tapeI r it i, nth_error (l_deps t_loop) tapeI = Some r -> nth_error r it = Some (Some i) -> (tapeI = 0 /\ it = i /\ i < 3) \/ (tapeI = 1 /\ it + 3 = i /\ it < 3).
Proof.
  intros tapeI r it i H1 H2. destruct tapeI as [|[|tapeI]]; cbn in H1; [inversion H1; subst r; clear H1..|destruct tapeI; discriminate];
    destruct it as [|[|[|it]]]; cbn in H2; try (destruct it); try discriminate; inversion H2; subst; lia.
Qed.
Lemma t_good : good t_model.
Proof.
  constructor.
  - constructor; [|constructor]. constructor; cbn [l_iters l_deps l_indexed l_non l_tmp l_row t_loop length].
    + split; [lia|]. vm_compute. discriminate.
    + repeat constructor.
    + repeat constructor.
    + repeat constructor; cbn; tauto.
    + repeat constructor; cbn; tauto.
    + reflexivity.
    + constructor; [exists 0, 0; reflexivity|constructor; [exists 0, 3; reflexivity|constructor]].
    + constructor; [split; [repeat constructor; cbn; intuition lia|cbn; intuition lia]|constructor; [split; [repeat constructor; cbn; intuition lia|cbn; intuition lia]|constructor]].
    + intros tapeI row deps it i t H1 H2 H3 H4.
      assert (Hit : it < 3) by (destruct (t_deps tapeI deps it i H2 H3) as [?|?]; lia).
      assert (Ht : t < 3) by (destruct tapeI as [|[|tapeI]]; cbn in H1; [inversion H1; subst row; cbn in H4; intuition lia..|destruct tapeI; discriminate]).
      destruct it as [|[|[|it]]]; [..|lia]; destruct t as [|[|[|t]]]; try lia; cbn; discriminate.
    + intros k [<-|[]]. eexists. split; [reflexivity|]. cbn. lia.
  - intros i p p' H H'. inversion H as [n l tapeI r it H1 H2 H3|f H1 H2]; inversion H' as [n' l' tapeI' r' it' H1' H2' H3'|f' H1' H2']; subst.
    + destruct (t_loop_at n l H1) as [-> ->]. destruct (t_loop_at n' l' H1') as [-> ->]. destruct (t_deps _ _ _ _ H2 H3) as [?|?]; destruct (t_deps _ _ _ _ H2' H3') as [?|?]; repeat f_equal; lia.
    + cbn in H1'. inversion H1'; subst. destruct H2'.
    + cbn in H1. inversion H1; subst. destruct H2.
    + reflexivity.
  - intros f H. cbn in H. inversion H; subst. cbn. split; [constructor|lia].
Qed.
Lemma t_rows : forall n l tapeI row, nth_error (m_loops t_model) n = Some l -> nth_error (l_row l) tapeI = Some row -> l = t_loop /\ ((tapeI = 0 /\ row = [0; 2]) \/ (tapeI = 1 /\ row = [0; 1])).
Proof. intros n l tapeI row H1 H2. destruct (t_loop_at n l H1) as [-> ->]. split; [reflexivity|]. destruct tapeI as [|[|tapeI]]; cbn in H2; [inversion H2; auto..|destruct tapeI; discriminate]. Qed.
Lemma t_tapes : forall x, tapes_right t_F t_dF t_G t_dG t_model x.
Proof.
  intro x. split; [|split].
  - intros n l tapeI row H1 H2 u u' H. destruct (t_rows n l tapeI row H1 H2) as [-> [[-> ->]|[-> ->]]]; cbn [t_F]; rewrite ?(H 0), ?(H 1), ?(H 2) by (cbn; auto); reflexivity.
  - intros n l tapeI row H1 H2. destruct (t_rows n l tapeI row H1 H2) as [-> Hr]. split; [|split].
    + intros deps it i _ _ u c d Hc Hd. cbn in Hd. destruct Hr as [[-> ->]|[-> ->]]; cbn [t_F t_dF sumTo l_indexed l_non l_tmp t_loop length plus].
      * eapply dl_eq; [|apply (derivable_pt_lim_plus (fun s => c s 0%nat) (fun s => c s 2%nat)); apply Hd; lia]. lra.
      * eapply dl_eq; [|apply (derivable_pt_lim_mult (fun s => c s 0%nat) (fun s => c s 1%nat)); apply Hd; lia]. cbn beta. rewrite !Hc. lra.
    + intros t u Ht. destruct Hr as [[-> ->]|[-> ->]]; cbn [t_dF]; destruct t as [|[|[|t]]]; try reflexivity; exfalso; apply Ht; cbn; auto.
    + intros t u u' H. destruct Hr as [[-> ->]|[-> ->]]; cbn [t_dF]; destruct t as [|[|[|t]]]; rewrite ?(H 0), ?(H 1), ?(H 2) by (cbn; auto); reflexivity.
  - intros f il row Hf Hr j. cbn in Hf. inversion Hf; subst f. destruct il as [|il]; cbn in Hr; [inversion Hr; subst row|destruct il; discriminate]. unfold partial, t_G, t_dG, moved.
    split; [|intro H; destruct (j =? 3) eqn:E; [apply Nat.eqb_eq in E; subst; cbn in H; tauto|reflexivity]].
    rewrite (Nat.eqb_sym 3 j). destruct (j =? 3); [|apply (derivable_pt_lim_const (x 3%nat * x 3%nat)%R)].
    assert (D : derivable_pt_lim (fun s => x 3%nat + s)%R 0%R 1%R) by (eapply dl_eq; [|apply (derivable_pt_lim_plus (fun _ => x 3%nat) (fun s => s)); [apply derivable_pt_lim_const|apply derivable_pt_lim_id]]; lra).
    eapply dl_eq; [|apply (derivable_pt_lim_mult _ _ _ _ _ D D)]. lra.
Qed.

(** Only the derivative of y_0 by x_3 is requested, where y_0 uses x_3 by means of a temporary only, but another equation of the loop uses it
    directly: the generation of forward mode fails; the functions of reverse mode are generated for the same request. *)
Theorem C68_only_through_temporaries_refuted : exists F dF G dG md n m rows cols, good md /\ (forall x, tapes_right F dF G dG md x) /\ length rows = length cols /\
  (forall p, ~ Assemble_thm.repeated rows cols p) /\ (forall i, In i rows -> exists p, place_of md i p) /\ (forall j, In j cols -> j < n) /\ (forall i p, place_of md i p -> i < m) /\
  forall absent x, forwardOneFunctions dF G dG absent md x n rows cols = Throw /\ exists v, reverseOneFunctions dF G dG absent md x m rows cols = Ok v.
Proof.
  exists t_F, t_dF, t_G, t_dG, t_model, 4, 6, [0], [3]. split; [exact t_good|]. split; [exact t_tapes|]. split; [reflexivity|].
  assert (O : forall p, ~ Assemble_thm.repeated [0] [3] p).
  { intros p (q & i & j & L & [A1 A2] & [B1 B2]). assert (p < 1) by (change 1 with (length [0]); apply nth_error_Some; congruence). lia. }
  assert (P : forall i, In i [0] -> exists p, place_of t_model i p) by (intros i [<-|[]]; eexists; exact (P_loop t_model 0 0 t_loop 0 _ 0 eq_refl eq_refl eq_refl)).
  assert (M : forall i p, place_of t_model i p -> i < 6).
  { intros i p H. inversion H as [n l t r it H1 H2 H3|f H1 H2]; subst; [destruct (t_loop_at n l H1) as [-> ->]; destruct (t_deps _ _ _ _ H2 H3); lia|cbn in H1; injection H1 as <-; destruct H2]. }
  split; [exact O|]. split; [exact P|]. split; [intros j [<-|[]]; lia|]. split; [exact M|]. intros absent x. split; [reflexivity|].
  destruct (C67_loops_functions t_F t_dF t_G t_dG absent t_model x 6 [0] [3] t_good (t_tapes x) eq_refl O P M) as (v & _ & E & _). exists v. exact E.
Qed.
Print Assumptions C68_only_through_temporaries_refuted.

(** An element of an equation outside of loops is requested twice: the assembled sparse Jacobian has zero for the repetition. *)
Theorem C68_repeated_element_zero_refuted : exists F dF G dG md n rows cols, good md /\ (forall x, tapes_right F dF G dG md x) /\ length rows = length cols /\
  (forall i, In i rows -> exists p, place_of md i p) /\ (forall j, In j cols -> j < n) /\ direct_somewhere md rows cols /\ (forall j, together cols j) /\
  forall absent x, exists v prog res y, forwardOneFunctions dF G dG absent md x n rows cols = Ok v /\ assemble cols rows (w_nl v) (w_gs v) = Some prog /\
    runAssemble R 0%R Rplus (fun j => w_noLoop v j 1%R) (fun f j => w_loopFn v f j 1%R) prog (repeat 9%R (lp_size prog)) (repeat 8%R 2) = Some res /\
    nth_error rows 1 = Some 5 /\ nth_error cols 1 = Some 4 /\ equation F G md 5 y /\ partial y x 4 1 /\ nth_error res 1 = Some 0%R.
Proof.
  exists ex_F, ex_dF, ex_G, ex_dG, ex_model, 5, [5; 5], [4; 4]. split; [exact ex_good|]. split; [exact ex_tapes|]. split; [reflexivity|].
  split; [intros i I; apply ex_place; cbn in I; intuition lia|]. split; [intros j I; cbn in I; intuition lia|].
  split. { intros n l q j p i t it Hn Hq _ Hj _. destruct (ex_loop_at n l Hn) as [-> ->]. destruct q as [|q]; cbn in Hq; [|destruct q; discriminate]. injection Hq as <-. exfalso. apply nth_error_In in Hj. cbn in Hj. intuition lia. }
  split. { intros j p q r [A B] _ Hr. assert (r < 2) by (change 2 with (length [4; 4]); apply nth_error_Some; congruence). lia. }
  intros absent x. eexists. eexists. eexists. exists (ex_G 0). split; [reflexivity|]. split; [reflexivity|]. split; [reflexivity|]. split; [reflexivity|]. split; [reflexivity|].
  split; [exact (EqFree ex_F ex_G ex_model _ 0 5 eq_refl eq_refl)|]. split; [|reflexivity].
  destruct (ex_tapes x) as (_ & _ & H). exact (proj1 (H _ 0 _ eq_refl eq_refl 4)).
Qed.
Print Assumptions C68_repeated_element_zero_refuted.
(** In a loop: the request is refused. *)
Example C68_repeated_in_loop_case : forall absent x, forwardOneFunctions ex_dF ex_G ex_dG absent ex_model x 5 [0; 0] [0; 0] = Throw.
Proof. intros absent x. reflexivity. Qed.
Example C68_full_request_case : direct_somewhere t_model [0; 1; 2; 0; 3; 1; 4; 2; 5; 3; 4; 5] [3; 3; 3; 0; 0; 1; 1; 2; 2; 3; 3; 3].
Proof.
  apply C68_full_request; [exact t_good| |].
  - intros i j (n & l & t & it & Hp & Hn & row & u & Er & Iu & S). destruct (t_loop_at n l Hn) as [-> ->]. inversion Hp as [n' l' t' r it' H1 H2 H3|]; subst. destruct (t_loop_at 0 l' H1) as [_ ->].
    destruct (t_rows 0 t_loop t row eq_refl Er) as [_ Hr]. apply (wanted_In). destruct (t_deps _ _ _ _ H2 H3) as [(-> & <- & L)|(-> & <- & L)]; destruct Hr as [[X ->]|[X ->]]; try discriminate X;
      (destruct it as [|[|[|it]]]; [..|lia]); (destruct u as [|[|[|u]]]; cbn in Iu; [..|exfalso; intuition lia]); try (exfalso; intuition lia);
      (destruct S as [S|(k & f & sp & S & Ef & Es & Is)]; cbn in S; [inversion S; subst; reflexivity|]); try discriminate S; inversion S; subst; cbn in Ef; injection Ef as <-; cbn in Es; injection Es as <-; (destruct Is as [<-|[]]; reflexivity).
  - intros n l q j Hn Hq. destruct (t_loop_at n l Hn) as [-> ->]. destruct q as [|q]; cbn in Hq; [|destruct q; discriminate]. exists 1, [0; 1]. split; [reflexivity|]. cbn. auto.
Qed.

(** * First order reverse mode of a model with loops: theorems *)
From Coq Require Import List Bool Arith NArith ZArith Reals Sorted Lia Lra.
From Verif Require Import Graph_model Codegen_model CSyntax Index_model Range_model LoopCond_model Assemble_model Assemble_proofs Assemble_thm Drivers_model Drivers_thm
  LoopAsm_model LoopAsm_spec LoopAsm_thm LoopJac_model LoopJac_spec LoopJac_maps LoopJac_row LoopJac_state LoopJac_analysis LoopJac_run LoopJac_main LoopJac_final LoopJac_thm
  LoopDir_model LoopDir_proofs LoopDir_thm LoopRev1_model LoopRev1_exec LoopRev1_analysis LoopRev1_main LoopRev1_used.
Import ListNotations.
Local Open Scope nat_scope.

Lemma nth_combine {A B} (l : list A) (l' : list B) p a b : nth_error (combine l l') p = Some (a, b) -> nth_error l p = Some a /\ nth_error l' p = Some b.
Proof.
  revert l' p. induction l as [|c l IH]; intros [|c' l'] [|p] H; cbn [combine nth_error] in H; try discriminate; [injection H as -> ->; split; reflexivity|]. exact (IH l' p H).
Qed.
Lemma once_NoDup rows cols : (forall p, ~ Assemble_thm.repeated rows cols p) -> NoDup (combine rows cols).
Proof.
  intros H. apply NoDup_nth_error. intros p q Lp E. destruct (nth_error (combine rows cols) p) as [[i j]|] eqn:Ep; [|apply nth_error_None in Ep; lia]. symmetry in E.
  apply nth_combine in Ep, E. destruct (Nat.lt_trichotomy p q) as [L|[L|L]]; [|exact L|]; exfalso; [apply (H q); exists p, i, j|apply (H p); exists q, i, j]; (split; [exact L|split; assumption]).
Qed.

Section Facts.
Variable F : nat -> nat -> (nat -> R) -> R.
Variable dF : nat -> nat -> nat -> (nat -> R) -> R.
Variable G : nat -> (nat -> R) -> R.
Variable dG : nat -> nat -> (nat -> R) -> R.
Variable absent : nat -> nat -> nat -> R.
Variable md : model.
Variable x : nat -> R.
Hypothesis Hg : good md.
Hypothesis HT : tapes_right F dF G dG md x.
Lemma dy_right i j y : equation F G md i y -> partial y x j (dyOf dF G dG absent md x i j).
Proof.
  intros Hy. pose proof HT as (_ & _ & HG). inversion Hy as [n l tapeI deps it i' Hn Hd Hi|f il i' Hf Hi]; subst.
  - unfold dyOf. rewrite (proj2 (findLoop_iff md i n tapeI it Hg) (P_loop md i n l tapeI deps it Hn Hd Hi)), Hn. destruct (nth_error (l_row l) tapeI) as [row|] eqn:Er.
    2: { destruct (loop_row md Hg n l tapeI deps it i Hn Hd Hi) as (Gl & _ & _). apply nth_error_None in Er. rewrite (g_rows md l Gl) in Er. apply nth_error_None in Er. congruence. }
    exact (total_derivative F dF G dG absent md Hg x n l tapeI deps row it i j HT Hn Hd Hi Er).
  - rewrite (dyOf_free dF G dG absent md x Hg f il i j Hf Hi). destruct (nth_error (f_row f) il) as [row|] eqn:Er; [exact (proj1 (HG f il row Hf Er j))|].
    apply nth_error_None in Er. destruct (g_free md Hg f Hf) as [_ L]. assert (il < length (f_eqs f)) by (apply nth_error_Some; congruence). lia.
Qed.
Lemma dy_nowhere i j : (forall p, ~ place_of md i p) -> dyOf dF G dG absent md x i j = 0%R.
Proof.
  intros N. unfold dyOf. destruct (findLoop i (m_loops md)) as [[n [t it]]|] eqn:E; [exfalso; exact (N _ (proj1 (findLoop_iff md i n t it Hg) E))|].
  destruct (indexOf (Nat.eqb i) (freeEqs md)) as [il|] eqn:X; [|reflexivity]. exfalso. unfold freeEqs in X. destruct (m_free md) as [f|] eqn:Ef; [|discriminate].
  apply (indexOf_eqb i (f_eqs f) il (proj1 (g_free md Hg f Ef))) in X. exact (N _ (P_free md i f Ef (nth_error_In _ _ X))).
Qed.
Variable m : nat.
Variables rows cols : list nat.
Hypothesis Hlen : length rows = length cols.
Hypothesis Honce : forall p, ~ Assemble_thm.repeated rows cols p.
Hypothesis Hplace : forall i, In i rows -> exists p, place_of md i p.
Hypothesis Hm : forall i p, place_of md i p -> i < m.

Lemma functions_ok : exists v s, reverseOneFunctions dF G dG absent md x m rows cols = Ok v /\ Inv md (localElements rows cols) s /\ evOk md s /\ stUsed s /\
  v = mkRev1 (noLoopMap md s) (rev1Groups md m s) (noLoopFn dG md x s) (loopRev1 dF G dG absent md x m s).
Proof.
  pose proof HT as (_ & HF & HG).
  assert (HdF : forall n l tapeI row t u, nth_error (m_loops md) n = Some l -> nth_error (l_row l) tapeI = Some row -> ~ In t row -> dF n tapeI t u = 0%R) by (intros n l tapeI row t u H1 H2; exact (proj1 (proj2 (HF n l tapeI row H1 H2)) t u)).
  assert (HdG : forall f il row j, m_free md = Some f -> nth_error (f_row f) il = Some row -> ~ In j row -> dG il j x = 0%R) by (intros f il row j H1 H2; exact (proj2 (HG f il row H1 H2 j))).
  destruct (analyseLocal_spec md Hg rows cols Honce Hplace) as (s & Es & HI & HE). eexists. exists s. split; [|split; [exact HI|split; [exact HE|split; [exact (analyseLocal_used md rows cols s Es)|reflexivity]]]].
  unfold reverseOneFunctions. rewrite Es. cbn [rbind].
  destruct (rmap_Ok (fun ie => noLoopRow dG x s ie 1%R) (fun _ _ => True) (seq 0 (length (freeEqs md)))) as (a & Ea & _).
  { intros il I. apply in_seq in I. unfold freeEqs in I. destruct (m_free md) as [f|] eqn:Ef; [|cbn in I; lia]. destruct (nth_error (f_eqs f) il) as [i|] eqn:Ei; [|apply nth_error_None in Ei; lia].
    destruct (noLoopRow_spec md rows cols Hlen Honce s HI HE dG x f Ef il i Ei 1%R) as (row & E & _). exists row. split; [exact E|exact Logic.I]. }
  rewrite Ea. cbn [rbind].
  destruct (rmap_Ok (fun nt => rowLoop dF G dG absent md x s (fst nt) (snd nt) 1%R) (fun _ _ => True) (filter (fun nt => negb (emptyRow (infos s (fst nt) (snd nt)))) (loopRows md))) as (b & Eb & _).
  { intros [n t] I. apply filter_In in I. destruct I as [I _]. apply In_nth_error in I. destruct I as (f & Ef). destruct (pattern_of dF G dG absent md x m HdF HdG rows cols Hlen Honce Hm s f n t Ef) as (l & deps & El & Ed).
    destruct (rowLoop_ok dF G dG absent md x m Hg HdF HdG rows cols Hlen Honce Hm s HI n t l deps El Ed 1%R) as (p & E & _). exists p. split; [exact E|exact Logic.I]. }
  rewrite Eb. reflexivity.
Qed.
End Facts.

Lemma functions_model F dF G dG absent md x m rows cols :
  good md -> tapes_right F dF G dG md x -> length rows = length cols -> (forall p, ~ Assemble_thm.repeated rows cols p) ->
  (forall i, In i rows -> exists p, place_of md i p) -> (forall i p, place_of md i p -> i < m) ->
  exists v, reverseOneFunctions dF G dG absent md x m rows cols = Ok v /\
    loopModel R 0%R Rplus rows cols (v_nl v) (v_gs v) (v_noLoop v) (v_loopFn v) (fun i j s => dyOf dF G dG absent md x i j * s)%R.
Proof.
  intros Hg HT Hlen Honce Hplace Hm. pose proof HT as (_ & HF & HG).
  assert (HdF : forall n l tapeI row t u, nth_error (m_loops md) n = Some l -> nth_error (l_row l) tapeI = Some row -> ~ In t row -> dF n tapeI t u = 0%R) by (intros n l tapeI row t u H1 H2; exact (proj1 (proj2 (HF n l tapeI row H1 H2)) t u)).
  assert (HdG : forall f il row j, m_free md = Some f -> nth_error (f_row f) il = Some row -> ~ In j row -> dG il j x = 0%R) by (intros f il row j H1 H2; exact (proj2 (HG f il row H1 H2 j))).
  destruct (functions_ok F dF G dG absent md x Hg HT m rows cols Hlen Honce Hplace Hm) as (v & s & Ev & HI & HE & _ & ->). eexists. split; [exact Ev|]. cbn [v_nl v_gs v_noLoop v_loopFn]. constructor.
  - split; intros; lra.
  - exact Hlen.
  - exact Honce.
  - exact (nl_ok md Hg rows cols Hlen Honce s HI HE).
  - exact (gs_ok dF G dG absent md x m Hg HdF HdG rows cols Hlen Honce Hm s HI).
  - exists (NL dF G dG absent md x rows cols), (LV dF G dG absent md x m s). split; [|split].
    + exact (noLoop_fine dF G dG absent md x m Hg HdF HdG rows cols Hlen Honce Hm s HI HE).
    + exact (loopFn_fine dF G dG absent md x m Hg HdF HdG rows cols Hlen Honce Hm s HI).
    + intros p k v py Ek Ec. exact (expected_value dF G dG absent md x m Hg HdF HdG rows cols Hlen Honce Hm s HI HE p k v py Ek Ec (Hplace k (nth_error_In _ _ Ek))).
Qed.

(** For every model made of loops, every request of elements without a repeated one and every point where the tapes are differentiable, the
    functions of first order reverse mode are generated, and together they give, for each requested element (i, j) and each weight py_i, the
    derivative of equation i by variable j times py_i. *)
Theorem C67_loops_functions : forall F dF G dG absent md x m rows cols,
  good md -> tapes_right F dF G dG md x -> length rows = length cols -> (forall p, ~ Assemble_thm.repeated rows cols p) ->
  (forall i, In i rows -> exists p, place_of md i p) -> (forall i p, place_of md i p -> i < m) ->
  exists v dy, reverseOneFunctions dF G dG absent md x m rows cols = Ok v /\ (forall i j y, equation F G md i y -> partial y x j (dy i j)) /\
    loopModel R 0%R Rplus rows cols (v_nl v) (v_gs v) (v_noLoop v) (v_loopFn v) (fun i j s => dy i j * s)%R.
Proof.
  intros F dF G dG absent md x m rows cols Hg HT Hlen Honce Hplace Hm. destruct (functions_model F dF G dG absent md x m rows cols Hg HT Hlen Honce Hplace Hm) as (v & Ev & HL).
  exists v, (dyOf dF G dG absent md x). split; [exact Ev|]. split; [intros i j y Hy; exact (dy_right F dF G dG absent md x Hg HT i j y Hy)|exact HL].
Qed.
Print Assumptions C67_loops_functions.

Lemma wanted_In rows cols i j : wanted rows cols i j = true <-> exists p, nth_error rows p = Some i /\ nth_error cols p = Some j.
Proof.
  rewrite wanted_els, existsb_exists. split.
  - intros (j' & I & E). apply Nat.eqb_eq in E. subst j'. apply In_nth_error in I. destruct I as (e & E). destruct (elsOf_place _ _ _ _ _ E) as (p & A & B & _). exists p. auto.
  - intros (p & A & B). exists j. split; [|apply Nat.eqb_refl]. exact (nth_error_In _ _ (place_elsOf i rows cols p j A B)).
Qed.
Lemma terms_sum isz (dy : nat -> nat -> R) rows cols py j : (forall v, isz v = true -> v = 0%R) -> forall m, m <= length py ->
  (forall i, i < m -> wanted rows cols i j = true \/ dy i j = 0%R) ->
  sumOf Rplus 0%R (terms isz (fun i j s => dy i j * s)%R rows cols (fun i => nth_error py i) m j) = sumTo m (fun i => dy i j * nth i py 0)%R.
Proof.
  intros Hz. unfold sumOf, terms. induction m as [|m IH]; intros L H; [reflexivity|]. rewrite seq_S, flat_map_app, fold_left_app, IH; [|lia|intros i Li; apply H; lia]. cbn [sumTo plus flat_map].
  destruct (nth_error py m) as [s|] eqn:E; [|apply nth_error_None in E; lia]. rewrite (nth_error_nth _ _ 0%R E), app_nil_r. destruct (isz s) eqn:Z; cbn [negb andb].
  - rewrite (Hz s Z). cbn [fold_left]. lra.
  - destruct (H m (Nat.lt_succ_diag_r m)) as [W|W].
    + rewrite W. reflexivity.
    + rewrite W. destruct (wanted rows cols m j); cbn [fold_left]; lra.
Qed.

(** First order reverse mode with these functions: the product of the weights and the Jacobian, provided that the elements which are not
    requested are zero. *)
Theorem C67_loops_reverse_one : forall F dF G dG absent md x m n rows cols isz ok garbage px py,
  good md -> tapes_right F dF G dG md x -> length rows = length cols -> (forall p, ~ Assemble_thm.repeated rows cols p) ->
  (forall i, In i rows -> exists p, place_of md i p) -> (forall i p, place_of md i p -> i < m) -> (forall j, In j cols -> j < n) ->
  (forall v, isz v = true -> v = 0%R) -> n <= length px -> m <= length py -> length rows <= length garbage ->
  (forall i j y, equation F G md i y -> j < n -> (exists p, nth_error rows p = Some i /\ nth_error cols p = Some j) \/ partial y x j 0) ->
  exists v dy, reverseOneFunctions dF G dG absent md x m rows cols = Ok v /\ (forall i j y, equation F G md i y -> partial y x j (dy i j)) /\
    (forall i j, (forall y, ~ equation F G md i y) -> dy i j = 0%R) /\
    let run := reverseOneL R 0%R Rplus isz (v_noLoop v) (v_loopFn v) rows cols (v_nl v) (v_gs v) ok garbage n m px py in
    (exists px', run = Ret Done px' /\ outputs (fun j => j) n (fun j => sumTo m (fun i => dy i j * nth i py 0)%R) px px') \/
    ((exists r, ok r = false) /\ run = Ret NoMemory px).
Proof.
  intros F dF G dG absent md x m n rows cols isz ok garbage px py Hg HT Hlen Honce Hplace Hm Hn Hz L1 L2 L3 Hc.
  assert (HL : exists v, reverseOneFunctions dF G dG absent md x m rows cols = Ok v /\ loopModel R 0%R Rplus rows cols (v_nl v) (v_gs v) (v_noLoop v) (v_loopFn v) (fun i j s => dyOf dF G dG absent md x i j * s)%R).
  { exact (functions_model F dF G dG absent md x m rows cols Hg HT Hlen Honce Hplace Hm). }
  destruct HL as (v & Ev & HL). exists v, (dyOf dF G dG absent md x). split; [exact Ev|]. split; [intros i j y Hy; exact (dy_right F dF G dG absent md x Hg HT i j y Hy)|].
  assert (Heq : forall i p, place_of md i p -> exists y, equation F G md i y).
  { intros i p [n0 l t row it A B C|f A I]; [eexists; exact (EqLoop F G md n0 l t row it i A B C)|]. apply In_nth_error in I. destruct I as (il & E). eexists. exact (EqFree F G md f il i A E). }
  split; [intros i j N; apply (dy_nowhere dF G dG absent md x Hg); intros p Hp; destruct (Heq i p Hp) as (y & Hy); exact (N y Hy)|]. cbv zeta.
  destruct (C66_loops_reverse_one_partial R 0%R Rplus isz rows cols _ _ _ _ _ ok garbage n m px py HL Hn L1 L2 L3) as [(px' & E & (O1 & O2 & O3))|H]; [left|right; exact H].
  exists px'. split; [exact E|]. split; [exact O1|]. split; [|exact O3]. intros j Lj. rewrite (O2 j Lj). f_equal. apply terms_sum; [exact Hz|exact L2|].
  intros i _. destruct (wanted rows cols i j) eqn:W; [left; reflexivity|right]. destruct (findLoop i (m_loops md)) as [[n0 [t it]]|] eqn:EF.
  - destruct (Heq i _ (proj1 (findLoop_iff md i n0 t it Hg) EF)) as (y & Hy). destruct (Hc i j y Hy Lj) as [X|X]; [apply wanted_In in X; congruence|].
    exact (uniqueness_limite _ _ _ _ (dy_right F dF G dG absent md x Hg HT i j y Hy) X).
  - destruct (in_dec Nat.eq_dec i (freeEqs md)) as [I|I].
    + unfold freeEqs in I. destruct (m_free md) as [f|] eqn:Ef; [|destruct I]. destruct (Heq i _ (P_free md i f Ef I)) as (y & Hy). destruct (Hc i j y Hy Lj) as [X|X]; [apply wanted_In in X; congruence|].
      exact (uniqueness_limite _ _ _ _ (dy_right F dF G dG absent md x Hg HT i j y Hy) X).
    + apply (dy_nowhere dF G dG absent md x Hg). intros p Hp. inversion Hp as [n0 l t row it A B C|f A J]; subst.
      * rewrite (proj2 (findLoop_iff md i n0 t it Hg) Hp) in EF. discriminate.
      * apply I. unfold freeEqs. rewrite A. exact J.
Qed.
Print Assumptions C67_loops_reverse_one.

(** The sparse Jacobian which is assembled from these functions (the elements of each equation being requested one after the other): each
    element is the derivative. *)
Theorem C67_loops_jacobian_from_reverse : forall F dF G dG absent md x m rows cols,
  good md -> tapes_right F dF G dG md x -> length rows = length cols -> (forall p, ~ Assemble_thm.repeated rows cols p) ->
  (forall i, In i rows -> exists p, place_of md i p) -> (forall i p, place_of md i p -> i < m) -> (N.of_nat m <= SIZE_MAX)%N -> (forall i, together rows i) ->
  exists v prog, reverseOneFunctions dF G dG absent md x m rows cols = Ok v /\ assemble rows cols (v_nl v) (v_gs v) = Some prog /\
  forall garbage result, lp_size prog <= length garbage -> length result = length rows ->
  exists res, runAssemble R 0%R Rplus (fun i => v_noLoop v i 1%R) (fun f i => v_loopFn v f i 1%R) prog garbage result = Some res /\ length res = length rows /\
    forall p i j y, nth_error rows p = Some i -> nth_error cols p = Some j -> equation F G md i y -> exists d, nth_error res p = Some d /\ partial y x j d.
Proof.
  intros F dF G dG absent md x m rows cols Hg HT Hlen Honce Hplace Hm HM Ht. pose proof HT as (_ & HF & HG).
  assert (HdF : forall n l tapeI row t u, nth_error (m_loops md) n = Some l -> nth_error (l_row l) tapeI = Some row -> ~ In t row -> dF n tapeI t u = 0%R) by (intros n l tapeI row t u H1 H2; exact (proj1 (proj2 (HF n l tapeI row H1 H2)) t u)).
  assert (HdG : forall f il row j, m_free md = Some f -> nth_error (f_row f) il = Some row -> ~ In j row -> dG il j x = 0%R) by (intros f il row j H1 H2; exact (proj2 (HG f il row H1 H2 j))).
  destruct (functions_ok F dF G dG absent md x Hg HT m rows cols Hlen Honce Hplace Hm) as (v & s & Ev & HI & HE & HU & Evs).
  destruct (functions_model F dF G dG absent md x m rows cols Hg HT Hlen Honce Hplace Hm) as (v' & Ev' & HL). assert (v' = v) by congruence. subst v'.
  destruct HL as [Hs _ _ Hnl Hgs (NL & LV & H1 & H2 & H3)].
  assert (Hgo : forall g, In g (v_gs v) -> group_ok rows g).
  { intros g I. split; [exact (Hgs g I)|]. subst v. cbn [v_gs] in I. apply (groups_In md m s) in I. destruct I as (f & n & t & Ef & Ee & ->). cbn [lg_keys]. destruct (pattern_of dF G dG absent md x m HdF HdG rows cols Hlen Honce Hm s f n t Ef) as (l & deps & El & Ed).
    rewrite (depsOf_eq md n t l deps El Ed). split; [exact (group_nonempty dF G dG absent md x m rows cols s n t l deps Hg HdF HdG Hlen Honce Hm HI HU El Ed Ee)|].
    intros k I. apply in_map_iff in I. destruct I as ([k' ps] & X & I). cbn [fst] in X. subst k'. apply (row2position_spec md m Hg Hm s n t l deps El Ed) in I. destruct I as (it & E & _).
    pose proof (Hm k _ (P_loop md k n l t deps it El Ed E)). lia. }
  destruct (C65_loops_assembly_sorted R 0%R Rplus rows cols (v_nl v) (v_gs v) (NL 1%R) (LV 1%R) (fun i => v_noLoop v i 1%R) (fun f i => v_loopFn v f i 1%R) Hs Hlen (once_NoDup rows cols Honce) Ht Hnl Hgo (H1 1%R) (H2 1%R)) as (prog & Ep & H).
  exists v, prog. split; [exact Ev|]. split; [exact Ep|]. intros garbage result La Lr. destruct (H garbage result La Lr) as (res & E & L & H'). exists res. split; [exact E|]. split; [exact L|].
  intros p i j y Ei Ej Hy. exists (dyOf dF G dG absent md x i j). split; [|exact (dy_right F dF G dG absent md x Hg HT i j y Hy)]. rewrite (H' p i Ei), <- (H3 p i j 1%R Ei Ej). f_equal. lra.
Qed.
Print Assumptions C67_loops_jacobian_from_reverse.

(** ** A case: the model of LoopJac_thm with all its elements: y_i = x_i x_3 + x_3 x_3 (i = 0, 1, 2), y_3 = x_0 x_0, y_4 = x_2 x_2, y_5 = x_4 *)
Definition r_rows : list nat := [0; 0; 1; 1; 2; 2; 3; 4; 5].
Definition r_cols : list nat := [0; 3; 1; 3; 2; 3; 0; 2; 4].
Lemma r_once : forall p, ~ Assemble_thm.repeated r_rows r_cols p.
Proof.
  intros p (q & i & j & L & [A1 A2] & [B1 B2]). assert (Lp : p < 9) by (change 9 with (length r_rows); apply nth_error_Some; congruence).
  assert (X : forallb (fun p => forallb (fun q => negb ((q <? p) && (nth p r_rows 0 =? nth q r_rows 0) && (nth p r_cols 0 =? nth q r_cols 0))) (seq 0 9)) (seq 0 9) = true) by (vm_compute; reflexivity).
  rewrite forallb_forall in X. specialize (X p ltac:(apply in_seq; lia)). cbv beta in X. rewrite forallb_forall in X. specialize (X q ltac:(apply in_seq; lia)). cbv beta in X.
  rewrite (nth_error_nth _ _ _ A1), (nth_error_nth _ _ _ A2), (nth_error_nth _ _ _ B1), (nth_error_nth _ _ _ B2), !Nat.eqb_refl, (proj2 (Nat.ltb_lt q p) L) in X. discriminate.
Qed.
Lemma r_place : forall i, In i r_rows -> exists p, place_of ex_model i p.
Proof. intros i I. apply ex_place. cbn in I. intuition lia. Qed.
Lemma ex_below : forall i p, place_of ex_model i p -> i < 6.
Proof.
  intros i p H. inversion H as [n l t r it H1 H2 H3|f H1 H2]; subst.
  - destruct (ex_loop_at n l H1) as [-> ->]. destruct (ex_deps _ _ _ _ H2 H3) as [?|[?|?]]; lia.
  - cbn in H1. injection H1 as <-. cbn in H2. lia.
Qed.
Lemma eq_place F G md i y : equation F G md i y -> exists p, place_of md i p.
Proof. intros [n l t row it k A B C|f il k A B]; [eexists; exact (P_loop md k n l t row it A B C)|eexists; exact (P_free md k f A (nth_error_In _ _ B))]. Qed.
Lemma r_zero absent x i j : i < 6 -> j < 5 -> (exists p, nth_error r_rows p = Some i /\ nth_error r_cols p = Some j) \/ dyOf ex_dF ex_G ex_dG absent ex_model x i j = 0%R.
Proof.
  intros Li Lj. destruct (wanted r_rows r_cols i j) eqn:W; [left; apply wanted_In, W|right].
  destruct i as [|[|[|[|[|[|i]]]]]]; try lia; destruct j as [|[|[|[|[|j]]]]]; try lia; try (vm_compute in W; discriminate W); unfold dyOf; cbn; unfold dsource; cbn; lra.
Qed.
Example C67_reverse_one_case : forall absent x ok py garbage px, length py = 6 -> length px = 5 -> length garbage = 9 ->
  exists v, reverseOneFunctions ex_dF ex_G ex_dG absent ex_model x 6 r_rows r_cols = Ok v /\
  let run := reverseOneL R 0%R Rplus (fun _ => false) (v_noLoop v) (v_loopFn v) r_rows r_cols (v_nl v) (v_gs v) ok garbage 5 6 px py in
  (exists px', run = Ret Done px' /\ nth_error px' 0 = Some (nth 0 py 0 * x 3%nat + nth 3 py 0 * (x 0%nat + x 0%nat))%R /\
     nth_error px' 3 = Some (nth 0 py 0 * (x 0%nat + (x 3%nat + x 3%nat)) + nth 1 py 0 * (x 1%nat + (x 3%nat + x 3%nat)) + nth 2 py 0 * (x 2%nat + (x 3%nat + x 3%nat)))%R) \/
  ((exists r, ok r = false) /\ run = Ret NoMemory px).
Proof.
  intros absent x ok py garbage px L1 L2 L3.
  destruct (C67_loops_reverse_one ex_F ex_dF ex_G ex_dG absent ex_model x 6 5 r_rows r_cols (fun _ => false) ok garbage px py ex_good (ex_tapes x) eq_refl r_once r_place ex_below) as (v & dy & E & Hd & _ & H).
  - intros j I. cbn in I. intuition lia.
  - discriminate.
  - lia.
  - lia.
  - cbn. lia.
  - intros i j y Hy Lj. destruct (eq_place _ _ _ _ _ Hy) as (p & Hp). destruct (r_zero absent x i j (ex_below i p Hp) Lj) as [X|X]; [left; exact X|right].
    rewrite <- X. exact (dy_right ex_F ex_dF ex_G ex_dG absent ex_model x ex_good (ex_tapes x) i j y Hy).
  - exists v. split; [exact E|]. cbv zeta in H |- *. destruct H as [(px' & Er & (_ & O & _))|H]; [left|right; exact H]. exists px'. split; [exact Er|].
    assert (D : forall i j, i < 6 -> dy i j = dyOf ex_dF ex_G ex_dG absent ex_model x i j).
    { intros i j Li. destruct (ex_place i Li) as (p & Hp). assert (X : exists y, equation ex_F ex_G ex_model i y).
      { inversion Hp as [n l t row it A B C|f A I]; subst; [eexists; exact (EqLoop ex_F ex_G ex_model n l t row it i A B C)|]. apply In_nth_error in I. destruct I as (il & Ei). eexists. exact (EqFree ex_F ex_G ex_model f il i A Ei). }
      destruct X as (y & Hy). exact (uniqueness_limite _ _ _ _ (Hd i j y Hy) (dy_right ex_F ex_dF ex_G ex_dG absent ex_model x ex_good (ex_tapes x) i j y Hy)). }
    split; rewrite O by lia; f_equal; cbn [sumTo]; rewrite !D by lia; unfold dyOf; cbn; unfold dsource; cbn; lra.
Qed.
Lemma r_together : forall i, together r_rows i.
Proof. intros [|[|[|[|[|[|i]]]]]]; try (apply together_b; vm_compute; reflexivity). Qed.
Example C67_jacobian_case : forall absent x, exists v prog, reverseOneFunctions ex_dF ex_G ex_dG absent ex_model x 6 r_rows r_cols = Ok v /\ assemble r_rows r_cols (v_nl v) (v_gs v) = Some prog /\
  exists res, runAssemble R 0%R Rplus (fun i => v_noLoop v i 1%R) (fun f i => v_loopFn v f i 1%R) prog (repeat 9%R (lp_size prog)) (repeat 8%R 9) = Some res /\ nth_error res 3 = Some (x 1%nat + (x 3%nat + x 3%nat))%R.
Proof.
  intros absent x. destruct (C67_loops_jacobian_from_reverse ex_F ex_dF ex_G ex_dG absent ex_model x 6 r_rows r_cols ex_good (ex_tapes x) eq_refl r_once r_place ex_below) as (v & prog & E & Ep & H); [vm_compute; discriminate|exact r_together|].
  exists v, prog. split; [exact E|]. split; [exact Ep|]. destruct (H (repeat 9%R (lp_size prog)) (repeat 8%R 9)) as (res & Er & _ & Hr); [rewrite repeat_length; lia|reflexivity|]. exists res. split; [exact Er|].
  pose proof (EqLoop ex_F ex_G ex_model 0 ex_loop 0 _ 1 1 eq_refl eq_refl eq_refl) as Hy. destruct (Hr 3 1 3 _ eq_refl eq_refl Hy) as (d & Ed & Hd). rewrite Ed. f_equal.
  rewrite (uniqueness_limite _ _ _ _ Hd (dy_right ex_F ex_dF ex_G ex_dG absent ex_model x ex_good (ex_tapes x) 1 3 _ Hy)). unfold dyOf. cbn. unfold dsource. cbn. lra.
Qed.

(** ** Requests with a repeated element *)
(** An element of an equation outside of loops is requested twice, before another one: the vector of the row has one element for each variable,
    but is written at the position among the requested elements, beyond its end. *)
Theorem C67_repeated_element_overrun_refuted : exists F dF G dG md m rows cols, good md /\ (forall x, tapes_right F dF G dG md x) /\ length rows = length cols /\
  (forall i, In i rows -> exists p, place_of md i p) /\ (forall i p, place_of md i p -> i < m) /\
  forall absent x, reverseOneFunctions dF G dG absent md x m rows cols = Undef.
Proof.
  exists ex_F, ex_dF, ex_G, ex_dG, ex_model, 6, [5; 5; 5], [4; 4; 3]. split; [exact ex_good|]. split; [exact ex_tapes|]. split; [reflexivity|].
  split; [intros i I; apply ex_place; cbn in I; intuition lia|]. split; [exact ex_below|]. intros absent x. reflexivity.
Qed.
Print Assumptions C67_repeated_element_overrun_refuted.
(** It is the last one: the assembled sparse Jacobian has zero for the repetition. *)
Theorem C67_repeated_element_zero_refuted : exists F dF G dG md m rows cols, good md /\ (forall x, tapes_right F dF G dG md x) /\ length rows = length cols /\
  (forall i, In i rows -> exists p, place_of md i p) /\ (forall i p, place_of md i p -> i < m) /\ (forall i, together rows i) /\
  forall absent x, exists v prog res y, reverseOneFunctions dF G dG absent md x m rows cols = Ok v /\ assemble rows cols (v_nl v) (v_gs v) = Some prog /\
    runAssemble R 0%R Rplus (fun i => v_noLoop v i 1%R) (fun f i => v_loopFn v f i 1%R) prog (repeat 9%R (lp_size prog)) (repeat 8%R 2) = Some res /\
    requested rows cols 1 5 4 /\ equation F G md 5 y /\ partial y x 4 1 /\ nth_error res 1 = Some 0%R.
Proof.
  exists ex_F, ex_dF, ex_G, ex_dG, ex_model, 6, [5; 5], [4; 4]. split; [exact ex_good|]. split; [exact ex_tapes|]. split; [reflexivity|].
  split; [intros i I; apply ex_place; cbn in I; intuition lia|]. split; [exact ex_below|].
  split. { intros i p q r [A B] _ Hr. assert (r < 2) by (change 2 with (length [5; 5]); apply nth_error_Some; congruence). lia. }
  intros absent x. eexists. eexists. eexists. exists (ex_G 0). split; [reflexivity|]. split; [reflexivity|]. split; [reflexivity|]. split; [split; reflexivity|].
  split; [exact (EqFree ex_F ex_G ex_model _ 0 5 eq_refl eq_refl)|]. split; [|reflexivity].
  destruct (ex_tapes x) as (_ & _ & H). exact (proj1 (H _ 0 _ eq_refl eq_refl 4)).
Qed.
Print Assumptions C67_repeated_element_zero_refuted.
(** In a loop: the request is refused. *)
Example C67_repeated_in_loop_case : forall absent x, reverseOneFunctions ex_dF ex_G ex_dG absent ex_model x 6 [0; 0] [0; 0] = Throw.
Proof. intros absent x. reflexivity. Qed.

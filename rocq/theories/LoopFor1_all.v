(** * First order forward mode of a model with loops: what all the functions add up to *)
From Coq Require Import List Bool Arith NArith ZArith Reals Sorted Lia Permutation Lra.
From Verif Require Import Pool_model Graph_model Codegen_model CSyntax Index_model Range_model LoopCond_model LoopCond_spec Assemble_model Assemble_proofs Assemble_thm
  LoopAsm_model LoopAsm_spec LoopAsm_maps LoopJac_model LoopJac_spec LoopJac_maps LoopJac_row LoopJac_state LoopJac_analysis LoopJac_run LoopJac_main LoopJac_final
  LoopDir_model LoopDir_proofs LoopRev1_model LoopRev1_exec LoopRev1_analysis LoopRev1_main LoopFor1_model LoopFor1_iters LoopFor1_groups LoopFor1_col LoopFor1_main LoopFor1_spec.
Import ListNotations.
Local Open Scope nat_scope.

Lemma numbered_snd {A} (q : list A) : map snd (numbered q) = q.
Proof. unfold numbered. generalize 0. induction q as [|a q IH]; intros b; cbn [length seq combine map snd]; [reflexivity|]. rewrite IH. reflexivity. Qed.
Lemma numbered_sum {A} (h : A -> R) q : sumL (fun p => h (snd p)) (numbered q) = sumL h q.
Proof. rewrite <- (sumL_map snd h), numbered_snd. reflexivity. Qed.

Section Main.
Variable dF : nat -> nat -> nat -> (nat -> R) -> R.
Variable G : nat -> (nat -> R) -> R.
Variable dG : nat -> nat -> (nat -> R) -> R.
Variable absent : nat -> nat -> nat -> R.
Variable md : model.
Variable x : nat -> R.
Variable nx : nat.
Hypothesis Hg : good md.
Hypothesis HdF : forall n l tapeI row t u, nth_error (m_loops md) n = Some l -> nth_error (l_row l) tapeI = Some row -> ~ In t row -> dF n tapeI t u = 0%R.
Hypothesis HdG : forall f il row j, m_free md = Some f -> nth_error (f_row f) il = Some row -> ~ In j row -> dG il j x = 0%R.
Variables rows cols : list nat.
Hypothesis Hlen : length rows = length cols.
Hypothesis Honce : forall p, ~ Assemble_thm.repeated rows cols p.
Hypothesis Hx : forall j, In j cols -> j < nx.
Hypothesis Hsome : direct_somewhere md rows cols.
Variable s : state.
Hypothesis HI : Inv md (columnElements rows cols) s.
Hypothesis HE : evOk md s.
Let P := columnElements rows cols.
Let nl := noLoopColMap md nx s.
Let gs := for1Groups md nx s.
Let noLoop := noLoopColFn dG md x cols s.
Let loopFn := loopFor1 dF G dG absent md x nx s.
Let dy := dyOf dF G dG absent md x.

(** ** The loops *)
Lemma req_wanted n t it j e : Req md P n t it j e -> exists i p, nth_error rows p = Some i /\ nth_error cols p = Some j /\ place_of md i (Some (n, (t, it))).
Proof.
  intros (i & I & F). apply column_In in I. destruct (elsOf_place _ _ _ _ _ I) as (p & A & B & _). exists i, p. split; [exact B|]. split; [exact A|]. apply (findLoop_iff md i n t it Hg). exact F.
Qed.
Lemma wanted_req n t it i j p : nth_error rows p = Some i -> nth_error cols p = Some j -> place_of md i (Some (n, (t, it))) -> exists e, Req md P n t it j e.
Proof.
  intros A B C. exists (rank cols p), i. split; [apply column_In; exact (place_elsOf j cols rows p i B A)|]. apply (findLoop_iff md i n t it Hg). exact C.
Qed.
Lemma loop_direct n l : nth_error (m_loops md) n = Some l -> forall t j it e u, In t (tapeRows l) -> pget (nonIndexedPositions (infos s n t)) j it = Some e -> getNonIndexed l j = Some u ->
  existsb (fun i => mem u (loopEvalRow (infos s n i))) (tapeRows l) = true.
Proof.
  intros Hn t j it e u It Hp Hu. destruct (tapeRow_of dF G dG absent md x Hg HdF HdG n l Hn t It) as (row & Er). pose proof (v_rows md _ _ HI _ _ _ _ Hn Er) as R0. apply (r_n _ _ _ _ _ R0) in Hp. destruct Hp as [Hq _].
  destruct (req_wanted n t it j e Hq) as (i & p & A & B & C). pose proof (Hl md Hg n l Hn) as Gl. apply (getNonIndexed_iff md l Gl) in Hu. destruct Hu as [Lu Eu].
  destruct (Hsome n l (u - length (l_indexed l)) j p i t it Hn Eu A B C) as (p' & i' & t' & it' & row' & A' & B' & C' & Er' & Iu). replace (length (l_indexed l) + (u - length (l_indexed l))) with u in Iu by lia.
  destruct (wanted_req n t' it' i' j p' A' B' C') as (e' & Hq'). apply existsb_exists. exists t'. split.
  - unfold tapeRows. apply in_seq. split; [lia|]. rewrite <- (g_rows md l Gl). apply nth_error_Some. rewrite Er'. discriminate.
  - apply mem_In. pose proof (v_rows md _ _ HI _ _ _ _ Hn Er') as R1. apply (r_e2 _ _ _ _ _ R1 j u it' e'); [apply (getNonIndexed_iff md l Gl); auto|exact Iu|exact Hq'].
Qed.
Lemma all_In f n g : nth_error (allGroups md nx s) f = Some (n, g) -> exists l, nth_error (m_loops md) n = Some l /\ In g (columnGroups s n l nx).
Proof.
  intros E. apply nth_error_In in E. unfold allGroups in E. apply in_flat_map in E. destruct E as ([n' l] & I & J). cbn [fst snd] in J. apply in_map_iff in J. destruct J as (g' & X & J). injection X as -> ->. apply numbered_nth in I. exists l. auto.
Qed.
Lemma groups_In g : In g gs <-> exists f n l cg, nth_error (allGroups md nx s) f = Some (n, cg) /\ nth_error (m_loops md) n = Some l /\ In cg (columnGroups s n l nx) /\ g = mkLG f (groupKeys s n l cg).
Proof.
  unfold gs, for1Groups. rewrite in_flat_map. split.
  - intros ([f [n cg]] & I & J). apply numbered_nth in I. destruct (all_In f n cg I) as (l & El & Ic). rewrite El in J. destruct J as [<-|[]]. exists f, n, l, cg. auto.
  - intros (f & n & l & cg & I & El & _ & ->). exists (f, (n, cg)). split; [apply numbered_nth; exact I|]. rewrite El. left. reflexivity.
Qed.
Lemma key_element n l cg j its t a it e : nth_error (m_loops md) n = Some l -> In cg (columnGroups s n l nx) -> In (j, its) (snd cg) -> In t (tapeRows l) -> In a (fst cg) -> In it its -> posAt (termPos (infos s n t) a) it = Some e ->
  exists i, nth_error (eqsOf rows cols j) e = Some i.
Proof.
  intros Hn Ic Ij It Ia Ii E. destruct (group_In s n l nx cg Ic) as (_ & _ & Hc). destruct (Hc j its Ij) as [_ H]. destruct (H a Ia) as [Ca X]. rewrite <- X in Ii.
  destruct (term_req dF G dG absent md x Hg HdF HdG P s HI n l Hn t a it e j It Ii E (fun k => candidate_non l j a k Ca)) as (i & I & _). exists i. apply column_In. exact I.
Qed.
Lemma gs_ok g : In g gs -> keymap_ok cols (lg_keys g) /\ lg_keys g <> [] /\ forall k, In k (map fst (lg_keys g)) -> k < nx.
Proof.
  intros I. apply groups_In in I. destruct I as (f & n & l & cg & _ & Hn & Ic & ->). destruct (keys_In s n l nx cg Ic) as (K & H & T). destruct (group_In s n l nx cg Ic) as ((_ & Z & _) & _ & Hc). cbn [lg_keys]. split; [split; [exact K|]|].
  - intros j es J. destruct (H j es J) as (N & S & its & Ij & X). assert (Y : forall e, In e es -> exists i, nth_error (eqsOf rows cols j) e = Some i).
    { intros e Ie. apply X in Ie. destruct Ie as (t & a & it & It & Ia & Ii & E). exact (key_element n l cg j its t a it e Hn Ic Ij It Ia Ii E). }
    split; [|split; [exact N|split; [exact S|]]].
    + destruct es as [|e0 r]; [destruct (N eq_refl)|]. destruct (Y e0 (or_introl eq_refl)) as (i & Yi). exact (eqsOf_col rows cols j e0 i Yi).
    + intros e Ie. destruct (Y e Ie) as (i & Yi). exact (eqsOf_count rows cols Hlen j e i Yi).
  - split.
    + intros E. destruct (snd cg) as [|[j its] r] eqn:Es; [destruct (Z eq_refl)|]. pose proof (T j its (or_introl eq_refl)) as J. rewrite E in J. destruct J.
    + intros k J. apply in_map_iff in J. destruct J as ([k' es] & Xk & J). cbn [fst] in Xk. subst k'. destruct (H k es J) as (_ & _ & its & Ij & _). exact (proj1 (Hc k its Ij)).
Qed.

(** ** The functions *)
Definition NL (dx : R) (k e : nat) : R := match nth_error (eqsOf rows cols k) e with Some i => (dy i k * dx)%R | None => 0%R end.
Definition LV (dx : R) (f k e : nat) : R := match loopFn f k dx with Some q => addedAt R 0%R Rplus q e | None => 0%R end.
Lemma nl_ok : keymap_ok cols nl.
Proof.
  destruct (noLoopColMap_spec md rows cols Hlen Honce s dG x nx) as [K I]. split; [exact K|]. intros k es J. apply I in J. destruct J as (_ & -> & N). destruct (noLoopColSet_spec md rows cols Hlen Honce s HI HE dG x k) as [S X].
  split; [|split; [exact N|split; [exact S|]]].
  - destruct (noLoopColSet md s k) as [|e0 r]; [destruct (N eq_refl)|]. destruct (proj1 (X e0) (or_introl eq_refl)) as (i & il & Y & _). exact (eqsOf_col rows cols k e0 i Y).
  - intros e Ie. apply X in Ie. destruct Ie as (i & il & Y & _). exact (eqsOf_count rows cols Hlen k e i Y).
Qed.
Lemma dy_free il i j : freeAt md il i -> dy i j = dG il j x.
Proof. intros (f & Ef & E). exact (dyOf_free dF G dG absent md x Hg f il i j Ef E). Qed.
Lemma noLoop_fine dx : noLoop_ok R 0%R (NL dx) cols nl (fun k => noLoop k dx).
Proof.
  intros k es J. apply (noLoopColMap_spec md rows cols Hlen Honce s dG x nx) in J. destruct J as (_ & -> & N). destruct (noLoopColSet_spec md rows cols Hlen Honce s HI HE dG x k) as [_ X].
  destruct (noLoopCol_spec md Hg rows cols Hlen Honce s HI HE dG x k dx) as (col & E & L & H). exists col. split; [unfold noLoop, noLoopColFn; rewrite E; reflexivity|]. split; [exact L|]. split.
  - intros e Ie. apply X in Ie. destruct Ie as (i & il & Y & F). rewrite (proj1 (H e i Y) il F). unfold NL. rewrite Y, (dy_free il i k F). reflexivity.
  - intros e Le Ne. rewrite <- (eqsOf_length rows cols Hlen k) in Le. destruct (nth_error (eqsOf rows cols k) e) as [i|] eqn:Y; [|apply nth_error_None in Y; lia]. apply (proj2 (H e i Y)).
    intros il F. apply Ne, X. exists i, il. auto.
Qed.
Lemma loopFn_at f n l cg j its dx : nth_error (allGroups md nx s) f = Some (n, cg) -> nth_error (m_loops md) n = Some l -> In cg (columnGroups s n l nx) -> In (j, its) (snd cg) ->
  exists es, loopFn f j dx = Some es /\ (forall e, addedAt R 0%R Rplus es e = (groupVal dF G dG absent md x s n l cg j e * dx)%R) /\
    (forall e v, In (e, v) es -> exists t a it, In t (tapeRows l) /\ In a (fst cg) /\ In it its /\ posAt (termPos (infos s n t) a) it = Some e).
Proof.
  intros Ef Hn Ic Ij. destruct (groupFn_ok dF G dG absent md x Hg HdF HdG P s HI n l Hn (loop_direct n l Hn) nx cg dx j its Ic Ij) as (p & c & es & Ep & Ec & Ee & H1 & H2). exists es. split; [|split; [|exact H2]].
  - unfold loopFn, loopFor1. rewrite Ef, Hn, Ep, Ec. exact Ee.
  - intros e. rewrite H1, (groupVal_at dF G dG absent md x s n l nx cg j its e Ic Ij). reflexivity.
Qed.
Lemma loopFn_fine dx : loopFn_ok R 0%R Rplus (LV dx) gs (fun f k => loopFn f k dx).
Proof.
  intros g k ps Ig Ik. apply groups_In in Ig. destruct Ig as (f & n & l & cg & Ef & Hn & Ic & ->). cbn [lg_keys lg_fn] in *. destruct (keys_In s n l nx cg Ic) as (_ & H & _). destruct (H k ps Ik) as (_ & _ & its & Ij & X).
  destruct (loopFn_at f n l cg k its dx Ef Hn Ic Ij) as (es & E1 & E2 & E3). exists es. split; [exact E1|]. split.
  - intros e v I. apply X. exact (E3 e v I).
  - intros e _. unfold LV. rewrite E1. reflexivity.
Qed.
Lemma parts_value f n l cg k e dx : nth_error (allGroups md nx s) f = Some (n, cg) -> nth_error (m_loops md) n = Some l -> In cg (columnGroups s n l nx) ->
  sumL (fun v : R => v) (parts R (LV dx f) k e (groupKeys s n l cg)) = (groupVal dF G dG absent md x s n l cg k e * dx)%R.
Proof.
  intros Ef Hn Ic. destruct (keys_In s n l nx cg Ic) as (K & H & T). destruct (in_dec Nat.eq_dec k (map fst (groupKeys s n l cg))) as [Ik|Nk].
  - apply in_map_iff in Ik. destruct Ik as ([k' es] & Xk & Ik). cbn [fst] in Xk. subst k'. rewrite (parts_key R (LV dx f) k e _ es); [|apply LoopJac_maps.sorted_NoDup, K|exact Ik]. destruct (H k es Ik) as (_ & _ & its & Ij & X).
    destruct (loopFn_at f n l cg k its dx Ef Hn Ic Ij) as (q & E1 & E2 & _). destruct (in_dec Nat.eq_dec e es) as [Ie|Ne].
    + replace (existsb (Nat.eqb e) es) with true by (symmetry; apply (mem_In e); exact Ie). cbn [sumL]. unfold LV. rewrite E1, E2. lra.
    + replace (existsb (Nat.eqb e) es) with false by (symmetry; apply (mem_nIn e); exact Ne). cbn [sumL]. rewrite (groupVal_at dF G dG absent md x s n l nx cg k its e Ic Ij), sumL_zero; [lra|]. intros it Ii. unfold groupTerm. apply sumL_zero. intros t It. apply sumL_zero. intros a Ia.
      unfold termAt. destruct (isEq e (pos s n t a it)) eqn:E; [|reflexivity]. exfalso. apply Ne, X. exists t, a, it. apply isEq_iff in E. auto.
  - rewrite parts_nokey by exact Nk. cbn [sumL]. rewrite (groupVal_none dF G dG absent md x s n l nx cg k e Ic); [lra|]. intros I. apply Nk. apply in_map_iff in I. destruct I as ([k' its] & Xk & I). cbn [fst] in Xk. subst k'. exact (T k its I).
Qed.
Lemma groups_value k e dx : sumL (fun v : R => v) (flat_map (fun g => parts R (LV dx (lg_fn g)) k e (lg_keys g)) gs) =
  (sumL (fun nl => sumL (fun cg => groupVal dF G dG absent md x s (fst nl) (snd nl) cg k e) (columnGroups s (fst nl) (snd nl) nx)) (numbered (m_loops md)) * dx)%R.
Proof.
  rewrite sumL_flat_map. unfold gs, for1Groups. rewrite sumL_flat_map.
  transitivity (sumL (fun p : nat * (nat * cgroup) => (fun ng : nat * cgroup => match nth_error (m_loops md) (fst ng) with Some l => groupVal dF G dG absent md x s (fst ng) l (snd ng) k e * dx | None => 0 end)%R (snd p)) (numbered (allGroups md nx s))).
  - apply sumL_ext. intros [f [n cg]] I. apply numbered_nth in I. destruct (all_In f n cg I) as (l & Hn & Ic). cbn [snd fst]. rewrite Hn. cbn [sumL lg_fn lg_keys]. rewrite (parts_value f n l cg k e dx I Hn Ic). lra.
  - rewrite (numbered_sum (fun ng : nat * cgroup => match nth_error (m_loops md) (fst ng) with Some l => groupVal dF G dG absent md x s (fst ng) l (snd ng) k e * dx | None => 0 end)%R). unfold allGroups. rewrite sumL_flat_map, <- sumL_scale.
    apply sumL_ext. intros [n l] I. apply numbered_nth in I. cbn [fst snd]. rewrite sumL_map, <- sumL_scale. apply sumL_ext. intros cg _. cbn [fst snd]. rewrite I. reflexivity.
Qed.
Lemma expected_value p k i dx : nth_error cols p = Some k -> nth_error rows p = Some i -> (exists q, place_of md i q) ->
  (dy i k * dx)%R = expected R 0%R Rplus (NL dx) (LV dx) nl gs k (rank cols p).
Proof.
  intros Ek Ei (q & Hq). pose proof (place_elsOf k cols rows p i Ek Ei) as Ee. fold (els cols rows k) in Ee. change (els cols rows k) with (eqsOf rows cols k) in Ee. set (e := rank cols p) in *. unfold expected. rewrite total_sum, sumL_app, groups_value.
  assert (Lk : k < nx) by (apply Hx; exact (nth_error_In _ _ Ek)).
  assert (Hu : forall i', In (e, (i', k)) P -> i' = i) by (intros i' I; apply column_In in I; congruence).
  assert (Ie : In (e, (i, k)) P) by (apply column_In; exact Ee).
  assert (Zn : forall n l, nth_error (m_loops md) n = Some l -> (forall t it, q <> Some (n, (t, it))) -> sumL (fun cg => groupVal dF G dG absent md x s n l cg k e) (columnGroups s n l nx) = 0%R).
  { intros n l Hn N. apply (loop_none dF G dG absent md x Hg HdF HdG P s HI n l Hn (loop_direct n l Hn) nx k e Lk). intros i' t it I F. rewrite (Hu i' I) in F. apply (findLoop_iff md i n t it Hg) in F. exact (N t it (g_one md Hg i _ _ Hq F)). }
  destruct (noLoopColMap_spec md rows cols Hlen Honce s dG x nx) as [K I]. destruct (noLoopColSet_spec md rows cols Hlen Honce s HI HE dG x k) as [_ X].
  destruct Hq as [n l t deps it El Ed E|f Ef If].
  - (* in a loop *)
    assert (Z : parts R (NL dx) k e nl = []).
    { destruct (in_dec Nat.eq_dec k (map fst nl)) as [Ik|Nk]; [|apply parts_nokey; exact Nk]. apply in_map_iff in Ik. destruct Ik as ([k' es] & Xk & Ik). cbn [fst] in Xk. subst k'.
      rewrite (parts_key R (NL dx) k e nl es); [|apply LoopJac_maps.sorted_NoDup, K|exact Ik]. apply I in Ik. destruct Ik as (_ & -> & _). replace (existsb (Nat.eqb e) (noLoopColSet md s k)) with false; [reflexivity|]. symmetry. apply (mem_nIn e).
      intros J. apply X in J. destruct J as (i' & il & Y & (f & Ef & Fi)). assert (i' = i) by congruence. subst i'. pose proof (g_one md Hg i _ _ (P_loop md i n l t deps it El Ed E) (P_free md i f Ef (nth_error_In _ _ Fi))). discriminate. }
    rewrite Z. cbn [sumL]. rewrite (sumL_single _ _ (n, l) (numbered_NoDup _)).
    + cbn [fst snd]. pose proof (proj2 (findLoop_iff md i n t it Hg) (P_loop md i n l t deps it El Ed E)) as Fl.
      rewrite (loop_total dF G dG absent md x Hg HdF HdG P s HI n l El (loop_direct n l El) nx i k e t it Lk Ie Hu Fl). unfold dy, dyOf. rewrite Fl, El. lra.
    + apply numbered_nth. exact El.
    + intros [n' l'] J N. apply numbered_nth in J. cbn [fst snd]. apply (Zn n' l' J). intros t' it' Y. apply N. injection Y as <- <- <-. congruence.
  - (* outside of loops *)
    apply In_nth_error in If. destruct If as (il & Fi). assert (F : freeAt md il i) by (exists f; auto). rewrite (dy_free il i k F).
    assert (Ies : In e (noLoopColSet md s k)) by (apply X; exists i, il; auto).
    rewrite (parts_key R (NL dx) k e nl (noLoopColSet md s k)); [|apply LoopJac_maps.sorted_NoDup, K|apply I; split; [exact Lk|split; [reflexivity|intros Y; rewrite Y in Ies; destruct Ies]]].
    replace (existsb (Nat.eqb e) (noLoopColSet md s k)) with true by (symmetry; apply (mem_In e); exact Ies). cbn [sumL]. unfold NL. rewrite Ee, (dy_free il i k F).
    rewrite sumL_zero; [lra|]. intros [n l] J. apply numbered_nth in J. cbn [fst snd]. apply (Zn n l J). intros t' it'. discriminate.
Qed.
(** ** Nothing is thrown *)
Lemma generated : (exists a, rmap (fun j => noLoopCol dG md x cols s j 1%R) (seq 0 nx) = Ok a) /\
  exists b, rmap (fun ng => match nth_error (m_loops md) (fst ng) with Some l => groupLoop dF G dG absent md x (fst ng) l s (snd ng) 1%R | None => Undef end) (allGroups md nx s) = Ok b.
Proof.
  split.
  - destruct (rmap_Ok (fun j => noLoopCol dG md x cols s j 1%R) (fun _ _ => True) (seq 0 nx)) as (a & Ea & _); [|exists a; exact Ea].
    intros j _. destruct (noLoopCol_spec md Hg rows cols Hlen Honce s HI HE dG x j 1%R) as (col & E & _). exists col. auto.
  - destruct (rmap_Ok (fun ng => match nth_error (m_loops md) (fst ng) with Some l => groupLoop dF G dG absent md x (fst ng) l s (snd ng) 1%R | None => Undef end) (fun _ _ => True) (allGroups md nx s)) as (b & Eb & _); [|exists b; exact Eb].
    intros [n cg] I. apply In_nth_error in I. destruct I as (f & I). destruct (all_In f n cg I) as (l & Hn & Ic). cbn [fst snd]. rewrite Hn.
    destruct (groupLoop_ok dF G dG absent md x Hg HdF HdG P s HI n l Hn (loop_direct n l Hn) cg 1%R) as (p & E & _). exists p. auto.
Qed.
End Main.

(** * First order reverse mode of a model with loops: the functions of loops, and what all the functions add up to *)
From Coq Require Import List Bool Arith NArith ZArith Reals Sorted Lia Permutation Lra.
From Verif Require Import Pool_model Graph_model Codegen_model CSyntax Index_model Range_model LoopCond_model LoopCond_spec Assemble_model Assemble_proofs Assemble_thm
  LoopAsm_model LoopAsm_spec LoopAsm_maps LoopJac_model LoopJac_spec LoopJac_maps LoopJac_row LoopJac_state LoopJac_analysis LoopJac_run LoopJac_main LoopJac_final
  LoopDir_model LoopDir_proofs LoopRev1_model LoopRev1_exec LoopRev1_analysis.
Import ListNotations.
Local Open Scope nat_scope.

Lemma total_sum l : total R 0%R Rplus l = sumL (fun v => v) l.
Proof. induction l as [|a l IH]; cbn [total fold_right sumL]; [reflexivity|]. unfold total in IH. rewrite IH. reflexivity. Qed.
Lemma rmap_In {A B} (f : A -> res B) l bs b : rmap f l = Ok bs -> In b bs -> exists a, In a l /\ f a = Ok b.
Proof.
  revert bs. induction l as [|a l IH]; intros bs E I; cbn [rmap] in E; [injection E as <-; destruct I|]. destruct (f a) as [b0| |] eqn:E0; try discriminate. cbn [rbind] in E.
  destruct (rmap f l) as [bs0| |]; try discriminate. cbn [rbind] in E. injection E as <-. destruct I as [<-|I]; [exists a; split; [left; reflexivity|exact E0]|].
  destruct (IH bs0 eq_refl I) as (a' & Ia & Ea). exists a'. split; [right; exact Ia|exact Ea].
Qed.

(** ** The equation patterns *)
Section Patterns.
Variable md : model.
Lemma loopRows_In n t : In (n, t) (loopRows md) <-> exists l, nth_error (m_loops md) n = Some l /\ t < length (l_deps l).
Proof.
  unfold loopRows. rewrite in_flat_map. split.
  - intros ([n' l] & I & J). cbn [fst snd] in J. apply in_map_iff in J. destruct J as (t' & X & J). injection X as -> ->. apply numbered_nth in I. apply in_seq in J. exists l. split; [exact I|lia].
  - intros (l & E & L). exists (n, l). split; [apply numbered_nth; exact E|]. cbn [fst snd]. apply in_map_iff. exists t. split; [reflexivity|]. apply in_seq. lia.
Qed.
Lemma numbered_fst {A} (l : list A) : map fst (numbered l) = seq 0 (length l).
Proof. unfold numbered. generalize 0. induction l as [|b l IH]; intro s; cbn [length seq combine map fst]; [reflexivity|]. rewrite IH. reflexivity. Qed.
Lemma loopRows_NoDup : NoDup (loopRows md).
Proof.
  unfold loopRows. pose proof (numbered_fst (m_loops md)) as E. pose proof (seq_NoDup (length (m_loops md)) 0) as N. rewrite <- E in N. clear E. induction (numbered (m_loops md)) as [|[n l] ls IH]; cbn [flat_map]; [constructor|].
  cbn [map fst] in N. inversion N as [|? ? N1 N2]; subst. apply NoDup_app_iff_lemma; [| |].
  - cbn [fst snd]. apply FinFun.Injective_map_NoDup; [intros a b H; congruence|apply seq_NoDup].
  - exact (IH N2).
  - intros [n1 t1] I J. cbn [fst snd] in I. apply in_map_iff in I. destruct I as (? & X & _). injection X as <- _. apply in_flat_map in J. destruct J as ([n2 l2] & J1 & J2). apply in_map_iff in J2.
    destruct J2 as (? & X & _). cbn [fst] in X. injection X as -> _. apply N1. exact (in_map fst _ _ J1).
Qed.
Lemma numbered_NoDup {A} (l : list A) : NoDup (numbered l).
Proof. apply (NoDup_map_inv fst). rewrite numbered_fst. apply seq_NoDup. Qed.
End Patterns.

Lemma rowPositions_spec r it : keyed (indexedPositions r) -> keyed (nonIndexedPositions r) -> StronglySorted lt (rowPositions r it) /\
  forall e, In e (rowPositions r it) <-> (exists t, pget (indexedPositions r) t it = Some e) \/ (exists j, pget (nonIndexedPositions r) j it = Some e).
Proof.
  intros K1 K2. unfold rowPositions. rewrite (fold_left_same _ (fun acc (b : nat * positions) => match match nth_error (snd b) it with Some (Some e) => Some e | _ => None end with Some e => sins e acc | None => acc end))
    by (intros a [bk bp]; cbn [snd]; unfold positions in *; destruct (nth_error bp it) as [[e|]|]; reflexivity).
  destruct (sins_fold (fun b : nat * positions => match nth_error (snd b) it with Some (Some e) => Some e | _ => None end) (indexedPositions r ++ nonIndexedPositions r)) as [S I]. split; [exact S|].
  intros e. rewrite I. unfold pget. split.
  - intros ([k p] & J & E). cbn [snd] in E. apply in_app_iff in J. destruct J as [J|J]; [left|right]; exists k; (apply mget_In in J; [|assumption]); rewrite J; exact E.
  - intros [(k & E)|(k & E)].
    + destruct (mget k (indexedPositions r)) as [p|] eqn:X; [|discriminate]. apply mget_In in X; [|exact K1]. exists (k, p). split; [apply in_app_iff; left; exact X|exact E].
    + destruct (mget k (nonIndexedPositions r)) as [p|] eqn:X; [|discriminate]. apply mget_In in X; [|exact K2]. exists (k, p). split; [apply in_app_iff; right; exact X|exact E].
Qed.

Section Main.
Variable dF : nat -> nat -> nat -> (nat -> R) -> R.
Variable G : nat -> (nat -> R) -> R.
Variable dG : nat -> nat -> (nat -> R) -> R.
Variable absent : nat -> nat -> nat -> R.
Variable md : model.
Variable x : nat -> R.
Variable m : nat.
Hypothesis Hg : good md.
Hypothesis HdF : forall n l tapeI row t u, nth_error (m_loops md) n = Some l -> nth_error (l_row l) tapeI = Some row -> ~ In t row -> dF n tapeI t u = 0%R.
Hypothesis HdG : forall f il row j, m_free md = Some f -> nth_error (f_row f) il = Some row -> ~ In j row -> dG il j x = 0%R.
Variables rows cols : list nat.
Hypothesis Hlen : length rows = length cols.
Hypothesis Honce : forall p, ~ Assemble_thm.repeated rows cols p.
Hypothesis Hm : forall i p, place_of md i p -> i < m.
Variable s : state.
Hypothesis HI : Inv md (localElements rows cols) s.
Hypothesis HE : evOk md s.

(** ** One equation pattern *)
Section Pattern.
Variables n t : nat.
Variable l : loopM.
Variable deps : list (option nat).
Hypothesis Hn : nth_error (m_loops md) n = Some l.
Hypothesis Ht : nth_error (l_deps l) t = Some deps.
Lemma depsOf_eq : depsOf md n t = deps.
Proof. unfold depsOf. rewrite Hn, Ht. reflexivity. Qed.
Lemma dep_lt it i : nth_error deps it = Some (Some i) -> i < m.
Proof. intros H. exact (Hm i _ (P_loop md i n l t deps it Hn Ht H)). Qed.
Lemma dep_one it it' i : nth_error deps it = Some (Some i) -> nth_error deps it' = Some (Some i) -> it = it'.
Proof. intros H H'. pose proof (g_one md Hg i _ _ (P_loop md i n l t deps it Hn Ht H) (P_loop md i n l t deps it' Hn Ht H')). congruence. Qed.
Lemma row_of : exists row, nth_error (l_row l) t = Some row.
Proof.
  destruct (nth_error (l_row l) t) as [row|] eqn:E; [exists row; reflexivity|]. apply nth_error_None in E. rewrite (g_rows md l (LoopJac_main.Hl md Hg n l Hn)) in E.
  assert (X : nth_error (l_deps l) t <> None) by congruence. apply nth_error_Some in X. lia.
Qed.
Lemma iterationMap_spec : keyed (iterationMap m deps) /\ forall i it, nth_error deps it = Some (Some i) -> In (i, it) (iterationMap m deps).
Proof.
  unfold iterationMap. set (val := fun p : nat * option nat => match snd p with Some i => if i <? m then Some (fst p) else None | None => None end).
  rewrite (fold_left_same _ (fun mp b => match val b with Some a => mput (match snd b with Some i => i | None => 0 end) a mp | None => mp end))
    by (intros a [it [i|]]; cbn [snd fst val]; unfold val; cbn [snd fst]; [destruct (i <? m)|]; reflexivity).
  destruct (build_spec (fun b : nat * option nat => match snd b with Some i => i | None => 0 end) val (numbered deps)) as [K I].
  - intros [it [i|]] [it' [i'|]] I1 I2 V1 V2 E; cbn [snd] in *; try (unfold val in *; cbn [snd] in *; congruence). subst i'. apply numbered_nth in I1. apply numbered_nth in I2. rewrite (dep_one it it' i I1 I2). reflexivity.
  - split; [exact K|]. intros i it H. apply I. exists (it, Some i). split; [apply numbered_nth; exact H|]. split; [reflexivity|]. unfold val. cbn [snd fst]. rewrite (proj2 (Nat.ltb_lt _ _) (dep_lt it i H)). reflexivity.
Qed.
Lemma HRI : exists row, nth_error (l_row l) t = Some row /\ RInv md l row (Req md (localElements rows cols) n t) (infos s n t).
Proof. destruct row_of as (row & E). exists row. split; [exact E|]. exact (v_rows md _ _ HI _ _ _ _ Hn E). Qed.
Lemma positions_spec it : StronglySorted lt (rowPositions (infos s n t) it) /\
  forall e, In e (rowPositions (infos s n t) it) <-> (exists a, pget (indexedPositions (infos s n t)) a it = Some e) \/ (exists j, pget (nonIndexedPositions (infos s n t)) j it = Some e).
Proof. destruct HRI as (row & _ & R0). apply rowPositions_spec; [apply (r_wi _ _ _ _ _ R0)|apply (r_wn _ _ _ _ _ R0)]. Qed.
Lemma positions_els it e : In e (rowPositions (infos s n t) it) -> exists i j, nth_error deps it = Some (Some i) /\ nth_error (els rows cols i) e = Some j.
Proof.
  intros I. apply positions_spec in I. destruct HRI as (row & _ & R0). assert (X : exists j, Req md (localElements rows cols) n t it j e).
  { destruct I as [(a & I)|(j & I)]; [apply (r_i _ _ _ _ _ R0) in I; destruct I as (j & I & _); exists j; exact I|apply (r_n _ _ _ _ _ R0) in I; exists j; exact (proj1 I)]. }
  destruct X as (j & i & I1 & I2). destruct (findLoop_Some _ _ _ _ _ I2) as (l' & d' & E1 & E2 & E3). assert (l' = l) by congruence. subst l'. assert (d' = deps) by congruence. subst d'.
  exists i, j. split; [exact E3|]. apply local_In. exact I1.
Qed.
Lemma row2position_spec : keyed (row2position m deps (infos s n t)) /\ forall i ps, In (i, ps) (row2position m deps (infos s n t)) <->
  exists it, nth_error deps it = Some (Some i) /\ ps = rowPositions (infos s n t) it /\ ps <> [].
Proof.
  unfold row2position. set (val := fun p : nat * option nat => match snd p with Some i => if i <? m then match rowPositions (infos s n t) (fst p) with [] => None | ps => Some ps end else None | None => None end).
  rewrite (fold_left_same _ (fun mp b => match val b with Some a => mput (match snd b with Some i => i | None => 0 end) a mp | None => mp end))
    by (intros a [it [i|]]; unfold val; cbn [snd fst]; [destruct (i <? m); [destruct (rowPositions (infos s n t) it)|]|]; reflexivity).
  destruct (build_spec (fun b : nat * option nat => match snd b with Some i => i | None => 0 end) val (numbered deps)) as [K I].
  - intros [it [i|]] [it' [i'|]] I1 I2 V1 V2 E; cbn [snd] in *; try (unfold val in *; cbn [snd] in *; congruence). subst i'. apply numbered_nth in I1. apply numbered_nth in I2. rewrite (dep_one it it' i I1 I2). reflexivity.
  - split; [exact K|]. intros i ps. rewrite I. split.
    + intros ([it [i'|]] & I1 & E & V1); unfold val in V1; cbn [snd fst] in *; [|discriminate]. subst i'. apply numbered_nth in I1. exists it. split; [exact I1|]. destruct (i <? m); [|discriminate].
      destruct (rowPositions (infos s n t) it); [discriminate|]. injection V1 as <-. split; [reflexivity|discriminate].
    + intros (it & H & E & N). exists (it, Some i). split; [apply numbered_nth; exact H|]. split; [reflexivity|]. unfold val. cbn [snd fst]. rewrite (proj2 (Nat.ltb_lt _ _) (dep_lt it i H)), <- E. destruct ps; [congruence|reflexivity].
Qed.

Definition rowOf (it e : nat) : R := rowSum dF G dG absent md x s n l t it e.
Lemma rowResults_In py rs : rowResults dF G dG absent md x py n l s t = Ok rs -> forall locs k v a, In (RResult V locs k v a) rs ->
  exists jp, In jp (indexedPositions (infos s n t) ++ nonIndexedPositions (infos s n t)) /\ locs = locsOf 0%N (snd jp).
Proof.
  unfold rowResults. destruct (rmap _ (indexedPositions _)) as [ra| |] eqn:Ea; try discriminate. cbn [rbind]. destruct (rmap _ (nonIndexedPositions _)) as [rb| |] eqn:Eb; try discriminate. cbn [rbind].
  intros E locs k v a I. injection E as <-. apply in_app_iff in I. destruct I as [I|I].
  - destruct (rmap_In _ _ _ _ Ea I) as (jp & J & X). exists jp. split; [apply in_app_iff; left; exact J|]. unfold indexedResult in X. destruct (dyi dF G absent md x n l (infos s n t) t (fst jp)); [|discriminate]. injection X as <- _ _ _. reflexivity.
  - destruct (rmap_In _ _ _ _ Eb I) as (jp & J & X). exists jp. split; [apply in_app_iff; right; exact J|]. unfold nonIndexedResult in X. destruct (rfold _ _ _); try discriminate. cbn [rbind] in X. injection X as <- _ _ _. reflexivity.
Qed.
Lemma rowLoop_ok py : exists p, rowLoop dF G dG absent md x s n t py = Ok p /\ forall it, it < l_iters l -> exists es, mapO (effectOf it) (executed V (N.of_nat it) p) = Some es /\
  (forall e, addedAt R 0%R Rplus es e = (rowOf it e * py)%R) /\ (forall e v, In (e, v) es -> In e (rowPositions (infos s n t) it)).
Proof.
  destruct HRI as (row & Er & R0). destruct (rowResults_Ok dF G dG absent md x Hg HdF HdG (localElements rows cols) s HI py n l Hn t row Er) as (rs & E & Hv & Hr & Hs).
  destruct (makeLoop_served (l_iters l) rs Hv) as (p & Ep & _). exists p. split; [unfold rowLoop; rewrite Hn, E; exact Ep|]. intros it Lit.
  destruct (effects (l_iters l) rs p it Hv Hr Ep Lit) as (es & E1 & E2 & E3). exists es. split; [exact E1|]. split; [intros e; rewrite E2; apply Hs|].
  intros e v I. destruct (E3 e v I) as (locs & k & w & I1 & I2). destruct (rowResults_In py rs E _ _ _ _ I1) as ([key ps] & J & ->). cbn [snd] in I2. pose proof (locsOf_at ps 0 it) as A. rewrite N.add_0_l, I2 in A.
  apply positions_spec. destruct (nth_error ps it) as [[e'|]|] eqn:X; try discriminate. injection A as A. apply Nat2N.inj in A. subst e'.
  apply in_app_iff in J. destruct J as [J|J]; [left|right]; exists key; unfold pget; (apply mget_In in J; [rewrite J, X; reflexivity|]); [apply (r_wi _ _ _ _ _ R0)|apply (r_wn _ _ _ _ _ R0)].
Qed.
Lemma rowOf_zero it e : ~ In e (rowPositions (infos s n t) it) -> rowOf it e = 0%R.
Proof.
  intros N. unfold rowOf, rowSum. rewrite !sumL_zero; [lra| |]; intros a _.
  - destruct (pget (nonIndexedPositions (infos s n t)) a it) as [e'|] eqn:E; [|reflexivity]. destruct (Nat.eqb_spec e e') as [->|]; [|reflexivity]. exfalso. apply N, positions_spec. right. exists a. exact E.
  - destruct (pget (indexedPositions (infos s n t)) a it) as [e'|] eqn:E; [|reflexivity]. destruct (Nat.eqb_spec e e') as [->|]; [|reflexivity]. exfalso. apply N, positions_spec. left. exists a. exact E.
Qed.
Lemma empty_positions it : emptyRow (infos s n t) = true -> rowPositions (infos s n t) it = [].
Proof. unfold emptyRow, rowPositions. intros E. apply Nat.eqb_eq in E. destruct (indexedPositions (infos s n t)); [|discriminate]. destruct (nonIndexedPositions (infos s n t)); [reflexivity|discriminate]. Qed.
End Pattern.

(** ** The functions *)
Definition dyOf (i j : nat) : R :=
  match findLoop i (m_loops md) with
  | Some (n, (t, it)) => match nth_error (m_loops md) n with Some l => sumL (fun u => dF n t u (tapeVars G absent md x n l it) * dsource dG md x l it j u)%R (seq 0 (nTape l)) | None => 0%R end
  | None => match indexOf (Nat.eqb i) (freeEqs md) with Some il => dG il j x | None => 0%R end
  end.
Let nl := noLoopMap md s.
Let gs := rev1Groups md m s.
Let noLoop := noLoopFn dG md x s.
Let loopFn := loopRev1 dF G dG absent md x m s.

Lemma groups_In g : In g gs <-> exists f n t, nth_error (loopRows md) f = Some (n, t) /\ emptyRow (infos s n t) = false /\ g = mkLG f (row2position m (depsOf md n t) (infos s n t)).
Proof.
  unfold gs, rev1Groups. rewrite in_flat_map. split.
  - intros ([f [n t]] & I & J). apply numbered_nth in I. exists f, n, t. split; [exact I|]. destruct (emptyRow (infos s n t)); [destruct J|]. destruct J as [<-|[]]. auto.
  - intros (f & n & t & I & E & ->). exists (f, (n, t)). split; [apply numbered_nth; exact I|]. rewrite E. left. reflexivity.
Qed.
Lemma pattern_of f n t : nth_error (loopRows md) f = Some (n, t) -> exists l deps, nth_error (m_loops md) n = Some l /\ nth_error (l_deps l) t = Some deps.
Proof.
  intros H. apply nth_error_In, loopRows_In in H. destruct H as (l & E & L). destruct (nth_error (l_deps l) t) as [deps|] eqn:X; [exists l, deps; auto|]. apply nth_error_None in X. lia.
Qed.
Lemma dep_iters n t l deps it i : nth_error (m_loops md) n = Some l -> nth_error (l_deps l) t = Some deps -> nth_error deps it = Some (Some i) -> it < l_iters l.
Proof. intros A B C. exact (proj2 (proj2 (loop_row md Hg n l t deps it i A B C))). Qed.

Lemma nl_ok : keymap_ok rows nl.
Proof.
  destruct (noLoopMap_spec md Hg s) as [K I]. split; [exact K|]. intros k es J. apply I in J. destruct J as (f & il & Ef & E & -> & N).
  destruct (noLoopSet_spec md rows cols Honce s HI HE f Ef il k E) as [S X]. destruct (noLoopSet s il) as [|e0 r] eqn:Es; [congruence|]. split; [|split; [exact N|split; [exact S|]]].
  - destruct (proj1 (X e0) (or_introl eq_refl)) as (j & Y). exact (els_row rows cols k e0 j Y).
  - intros e Ie. apply X in Ie. destruct Ie as (j & Y). exact (els_count rows cols Hlen k e j Y).
Qed.
Lemma gs_ok g : In g gs -> keymap_ok rows (lg_keys g).
Proof.
  intros J. apply groups_In in J. destruct J as (f & n & t & Ef & _ & ->). cbn [lg_keys]. destruct (pattern_of f n t Ef) as (l & deps & El & Ed). rewrite (depsOf_eq n t l deps El Ed).
  destruct (row2position_spec n t l deps El Ed) as [K I]. split; [exact K|]. intros k ps J. apply I in J. destruct J as (it & E & -> & N). destruct (positions_spec n t l deps El Ed it) as [S _].
  assert (X : forall e, In e (rowPositions (infos s n t) it) -> exists j, nth_error (els rows cols k) e = Some j).
  { intros e Ie. destruct (positions_els n t l deps El Ed it e Ie) as (i & j & E1 & E2). assert (i = k) by congruence. subst i. exists j. exact E2. }
  split; [|split; [exact N|split; [exact S|]]].
  - destruct (rowPositions (infos s n t) it) as [|e0 r]; [congruence|]. destruct (X e0 (or_introl eq_refl)) as (j & Y). exact (els_row rows cols k e0 j Y).
  - intros e Ie. destruct (X e Ie) as (j & Y). exact (els_count rows cols Hlen k e j Y).
Qed.
Definition NL (py : R) (k e : nat) : R := match nth_error (els rows cols k) e with Some j => (dyOf k j * py)%R | None => 0%R end.
Definition LV (py : R) (f k e : nat) : R := match loopFn f k py with Some l => addedAt R 0%R Rplus l e | None => 0%R end.
Lemma dyOf_free f il i j : m_free md = Some f -> nth_error (f_eqs f) il = Some i -> dyOf i j = dG il j x.
Proof.
  intros Ef E. unfold dyOf. rewrite (findLoop_free md i f Hg Ef (nth_error_In _ _ E)). unfold freeEqs. rewrite Ef. rewrite (proj2 (indexOf_eqb i (f_eqs f) il (proj1 (g_free md Hg f Ef))) E). reflexivity.
Qed.
Lemma noLoop_fine py : noLoop_ok R 0%R (NL py) rows nl (fun k => noLoop k py).
Proof.
  intros k es J. destruct (noLoopMap_spec md Hg s) as [_ I]. apply I in J. destruct J as (f & il & Ef & E & -> & N). destruct (noLoopSet_spec md rows cols Honce s HI HE f Ef il k E) as [_ X].
  destruct (noLoopRow_spec md rows cols Hlen Honce s HI HE dG x f Ef il k E py) as (row & E1 & L & H). exists row.
  split; [|split; [exact L|split]].
  - unfold noLoop, noLoopFn, freeEqs. rewrite Ef, (proj2 (indexOf_eqb k (f_eqs f) il (proj1 (g_free md Hg f Ef))) E), E1. reflexivity.
  - intros e Ie. apply X in Ie. destruct Ie as (j & Y). rewrite (H e j Y). unfold NL. rewrite Y, (dyOf_free f il k j Ef E). reflexivity.
  - intros e Le Ne. exfalso. apply Ne, X. rewrite <- (elsOf_count k rows cols Hlen) in Le. destruct (nth_error (els rows cols k) e) as [j|] eqn:Y; [exists j; reflexivity|]. apply nth_error_None in Y. unfold els in Y. lia.
Qed.
Lemma loopFn_at f n t l deps it i py : nth_error (loopRows md) f = Some (n, t) -> nth_error (m_loops md) n = Some l -> nth_error (l_deps l) t = Some deps -> nth_error deps it = Some (Some i) ->
  exists es, loopFn f i py = Some es /\ (forall e, addedAt R 0%R Rplus es e = (rowOf n t l it e * py)%R) /\ (forall e v, In (e, v) es -> In e (rowPositions (infos s n t) it)).
Proof.
  intros Ef El Ed E. unfold loopFn, loopRev1. rewrite Ef. destruct (rowLoop_ok n t l deps El Ed py) as (p & Ep & H). rewrite Ep, (depsOf_eq n t l deps El Ed). destruct (iterationMap_spec n t l deps El Ed) as [K I].
  rewrite (patAt_map _ i it K (I i it E)). destruct (H it (dep_iters n t l deps it i El Ed E)) as (es & E1 & E2 & E3). exists es. auto.
Qed.
Lemma loopFn_fine py : loopFn_ok R 0%R Rplus (LV py) gs (fun f k => loopFn f k py).
Proof.
  intros g k ps Ig Ik. apply groups_In in Ig. destruct Ig as (f & n & t & Ef & _ & ->). cbn [lg_keys lg_fn] in *. destruct (pattern_of f n t Ef) as (l & deps & El & Ed). rewrite (depsOf_eq n t l deps El Ed) in Ik.
  apply (row2position_spec n t l deps El Ed) in Ik. destruct Ik as (it & E & -> & N). destruct (loopFn_at f n t l deps it k py Ef El Ed E) as (es & E1 & E2 & E3).
  exists es. split; [exact E1|]. split; [exact E3|]. intros e _. unfold LV. rewrite E1. reflexivity.
Qed.

Lemma expected_value p k v py : nth_error rows p = Some k -> nth_error cols p = Some v -> (exists q, place_of md k q) ->
  (dyOf k v * py)%R = expected R 0%R Rplus (NL py) (LV py) nl gs k (rank rows p).
Proof.
  intros Ek Ev (q & Hq). pose proof (place_elsOf k rows cols p v Ek Ev) as Ee. set (e := rank rows p) in *. unfold expected. rewrite total_sum, sumL_app. rewrite sumL_flat_map. unfold gs, rev1Groups. rewrite sumL_flat_map.
  assert (Pn : forall n t l deps it, nth_error (m_loops md) n = Some l -> nth_error (l_deps l) t = Some deps -> nth_error deps it = Some (Some k) -> q = Some (n, (t, it))).
  { intros n t l deps it El Ed E. exact (g_one md Hg k _ _ Hq (P_loop md k n l t deps it El Ed E)). }
  assert (Zp : forall f n t, nth_error (loopRows md) f = Some (n, t) -> (forall it, q <> Some (n, (t, it))) ->
    sumL (fun a => sumL (fun v0 : R => v0) (parts R (LV py (lg_fn a)) k e (lg_keys a))) (if emptyRow (infos s n t) then [] else [mkLG f (row2position m (depsOf md n t) (infos s n t))]) = 0%R).
  { intros f n t Ef Nq. destruct (emptyRow (infos s n t)); [reflexivity|]. cbn [sumL lg_fn lg_keys]. rewrite parts_nokey; [cbn [sumL]; lra|]. intros I. apply in_map_iff in I. destruct I as ([k' ps] & X & I). cbn [fst] in X. subst k'.
    destruct (pattern_of f n t Ef) as (l & deps & El & Ed). rewrite (depsOf_eq n t l deps El Ed) in I. apply (row2position_spec n t l deps El Ed) in I. destruct I as (it & E & _). exact (Nq it (Pn n t l deps it El Ed E)). }
  destruct Hq as [n l t deps it El Ed E|f Ef I].
  - (* in a loop *)
    assert (Z : parts R (NL py) k e nl = []).
    { apply parts_nokey. intros I. apply in_map_iff in I. destruct I as ([k' es] & X & I). cbn [fst] in X. subst k'. apply (noLoopMap_spec md Hg s) in I. destruct I as (f & il & Ef & E' & _).
      pose proof (g_one md Hg k _ _ (P_loop md k n l t deps it El Ed E) (P_free md k f Ef (nth_error_In _ _ E'))). discriminate. }
    rewrite Z. cbn [sumL]. assert (It : In (n, t) (loopRows md)). { apply loopRows_In. exists l. split; [exact El|]. apply nth_error_Some. congruence. }
    apply In_nth_error in It. destruct It as (f & Ef). rewrite (sumL_single _ _ (f, (n, t)) (numbered_NoDup _)).
    + assert (Ed' : dyOf k v = rowOf n t l it e).
      { unfold dyOf. rewrite (proj2 (findLoop_iff md k n t it Hg) (P_loop md k n l t deps it El Ed E)), El. destruct (row_of n t l deps El Ed) as (row & Er). unfold rowOf. symmetry.
        apply (rowSum_total dF G dG absent md x Hg HdF HdG (localElements rows cols) s HI n l El t row Er it e k v).
        - apply local_In. exact Ee.
        - apply (findLoop_iff md k n t it Hg). exact (P_loop md k n l t deps it El Ed E).
        - intros i' j' I1 I2. destruct (findLoop_Some _ _ _ _ _ I2) as (l' & d' & X1 & X2 & X3). assert (l' = l) by congruence. subst l'. assert (d' = deps) by congruence. subst d'. assert (i' = k) by congruence. subst i'.
          apply local_In in I1. unfold els in I1. congruence. }
      rewrite Ed'. destruct (emptyRow (infos s n t)) eqn:Ee0.
      * cbn [sumL]. rewrite rowOf_zero with (deps := deps) by (try assumption; rewrite empty_positions by assumption; intros []). lra.
      * cbn [sumL lg_fn lg_keys]. rewrite (depsOf_eq n t l deps El Ed). destruct (row2position_spec n t l deps El Ed) as [K I]. destruct (in_dec Nat.eq_dec e (rowPositions (infos s n t) it)) as [Ie|Ne].
        -- rewrite (parts_key R (LV py f) k e _ (rowPositions (infos s n t) it)); [|apply LoopJac_maps.sorted_NoDup, K|apply I; exists it; split; [exact E|split; [reflexivity|intros X; rewrite X in Ie; destruct Ie]]].
           replace (existsb (Nat.eqb e) (rowPositions (infos s n t) it)) with true by (symmetry; apply (mem_In e); exact Ie). cbn [sumL]. unfold LV. destruct (loopFn_at f n t l deps it k py Ef El Ed E) as (es & E1 & E2 & _). rewrite E1, E2. lra.
        -- rewrite (rowOf_zero n t l deps El Ed it e Ne). assert (X : parts R (LV py f) k e (row2position m deps (infos s n t)) = []).
           { destruct (in_dec Nat.eq_dec k (map fst (row2position m deps (infos s n t)))) as [Ik|Nk]; [|apply parts_nokey; exact Nk]. apply in_map_iff in Ik. destruct Ik as ([k' ps] & X & Ik). cbn [fst] in X. subst k'.
             rewrite (parts_key R (LV py f) k e _ ps); [|apply LoopJac_maps.sorted_NoDup, K|exact Ik]. apply I in Ik. destruct Ik as (it' & E' & -> & _). rewrite (dep_one n t l deps El Ed it' it k E' E).
             replace (existsb (Nat.eqb e) (rowPositions (infos s n t) it)) with false by (symmetry; apply (mem_nIn e); exact Ne). reflexivity. }
           rewrite X. cbn [sumL]. lra.
    + apply numbered_nth. exact Ef.
    + intros [f' [n' t']] I Nq. apply numbered_nth in I. apply (Zp f' n' t' I). intros it' X. apply Nq. injection X as <- <- <-. f_equal.
      eapply NoDup_nth_error; [exact (loopRows_NoDup md)|apply nth_error_Some; congruence|congruence].
  - (* outside of loops *)
    apply In_nth_error in I. destruct I as (il & E). rewrite (dyOf_free f il k v Ef E). destruct (noLoopMap_spec md Hg s) as [K I]. destruct (noLoopSet_spec md rows cols Honce s HI HE f Ef il k E) as [_ X].
    assert (Ie : In e (noLoopSet s il)) by (apply X; exists v; exact Ee).
    rewrite (parts_key R (NL py) k e nl (noLoopSet s il)); [|apply LoopJac_maps.sorted_NoDup, K|apply I; exists f, il; split; [exact Ef|split; [exact E|split; [reflexivity|intros Y; rewrite Y in Ie; destruct Ie]]]].
    replace (existsb (Nat.eqb e) (noLoopSet s il)) with true by (symmetry; apply (mem_In e); exact Ie). cbn [sumL]. unfold NL. fold (els rows cols k) in Ee. rewrite Ee, (dyOf_free f il k v Ef E).
    rewrite sumL_zero; [lra|]. intros [f' [n' t']] If. apply numbered_nth in If. apply (Zp f' n' t' If). intros it'. discriminate.
Qed.
End Main.

(** * The table of a loop *)
From Coq Require Import List Arith Bool Lia Sorted.
From Verif Require Import LoopTape_model LoopTape_spec LoopTape_graph LoopTape_cmp LoopTape_find LoopTape_path.
Import ListNotations.
Local Open Scope nat_scope.

Section Loop.
Context {V : Type}.
Variable g : graph V.
Hypothesis W : recordedGraph g.
Variable deps : list (arg V).
Variable ps : list pattern.
Variable iters : list (list nat).
Variable refs : list nat.
Hypothesis HT : forall p, In p ps -> tableOk g deps p.
Hypothesis Hdis : forall e e' p q d, nth_error ps e = Some p -> nth_error ps e' = Some q -> In d (p_deps p) -> In d (p_deps q) -> e = e'.
Hypothesis Hit : iterations ps iters.
Hypothesis Hag : agreeAll g deps ps iters.
Hypothesis Hrefs : In refs iters.
Hypothesis Href : forall p, In p ps -> In (p_ref p) refs.

Definition inG (p : pattern) (o : nat) : Prop := exists r, nth_error deps (p_ref p) = Some (AN r) /\ reach g r o.

Lemma dep_facts p d s r : In p ps -> In d (p_deps p) -> nth_error deps d = Some (AN s) -> nth_error deps (p_ref p) = Some (AN r) ->
  dependent g (AN s) /\ dependent g (AN r) /\ shapeOf g (AN r) = shapeOf g (AN s).
Proof.
  intros Hp Hd Es Er. destruct (HT p Hp) as [_ [_ [_ [T4 T5]]]]. destruct (T4 d Hd) as [[x [Ex Dx]] Sx]. rewrite Es in Ex. injection Ex as <-.
  destruct (T4 _ T5) as [[y [Ey Dy]] _]. rewrite Er in Ey. injection Ey as <-. split; [exact Dx|]. split; [exact Dy|].
  unfold shapeDep in Sx. rewrite Es, Er in Sx. cbn [option_map] in Sx. congruence.
Qed.
Lemma dep_op p d r : In p ps -> In d (p_deps p) -> nth_error deps (p_ref p) = Some (AN r) -> exists s, nth_error deps d = Some (AN s).
Proof.
  intros Hp Hd Er. destruct (HT p Hp) as [_ [_ [_ [T4 T5]]]]. destruct (T4 d Hd) as [[x [Ex Dx]] Sx]. destruct x as [v|s]; [|eauto]. exfalso.
  destruct (T4 _ T5) as [[y [Ey Dy]] _]. rewrite Er in Ey. injection Ey as <-. unfold shapeDep in Sx. rewrite Ex, Er in Sx. cbn [option_map] in Sx.
  assert (Sy : shapeOf g (AC v) = shapeOf g (AN r)) by congruence. destruct Dy as [Lr Ir].
  destruct (nth_error g r) as [n|] eqn:En; [|apply nth_error_None in En; lia]. rewrite (shape_op g r n W En Ir) in Sy. discriminate.
Qed.
Lemma uses_self r o a j : reach g r o -> argAt g o a = Some (AN j) -> isInv g j = true -> uses g r r o a j.
Proof. intros R A I. exists o. split; [apply reach_below, R|]. auto. Qed.

Lemma pos_in p o a : In p ps -> hasPos (p_idx p) o a = true -> inG p o /\ exists j, argAt g o a = Some (AN j) /\ isInv g j = true.
Proof.
  intros Hp H. apply hasPos_In in H. destruct H as [d [j H]]. destruct (HT p Hp) as [_ [T2 _]]. destruct (T2 o a d j H) as [r [s [Er [Hd [Es Hu]]]]].
  destruct (dep_facts p d s r Hp Hd Es Er) as [Ds [Dr Sh]]. destruct (uses_ref g W r s o a j Dr Ds Sh Hu) as [j0 [A [I R]]].
  split; [exists r; auto|]. exists j0. auto.
Qed.
Lemma ref_it : exists it, nth_error iters it = Some refs.
Proof. apply In_nth_error, Hrefs. Qed.
Lemma pos_agree p q o a : In p ps -> In q ps -> inG p o -> inG q o -> hasPos (p_idx p) o a = true -> hasPos (p_idx q) o a = true.
Proof.
  intros Hp Hq [r [Er R]] [r' [Er' R']] H. destruct (pos_in p o a Hp H) as [_ [j [A I]]].
  destruct (HT p Hp) as [T1 [_ [_ [_ T5]]]]. destruct (HT q Hq) as [T1' [_ [_ [_ T5']]]]. apply T1'.
  destruct (Hag p q (p_ref p) (p_ref q) refs r r r' r' o a j j Hp Hq Hrefs (Href p Hp) (Href q Hq) T5 T5' Er Er Er' Er'
              (uses_self r o a j R A I) (uses_self r' o a j R' A I)) as [_ K]. apply K, T1, H.
Qed.
Lemma indexed_agree p q k : In p ps -> In q ps -> inG p k -> inG q k -> indexed g (p_idx p) k -> indexed g (p_idx q) k.
Proof.
  intros Hp Hq Gp Gq [k' [a [j [R [H [A I]]]]]]. exists k', a, j. split; [exact R|]. split; [|auto]. apply (pos_agree p q); auto.
  - destruct Gp as [r [Er Rr]]. exists r. split; [exact Er|]. apply (reach_trans g r k k' Rr R).
  - destruct Gq as [r [Er Rr]]. exists r. split; [exact Er|]. apply (reach_trans g r k k' Rr R).
Qed.

(** patternOf *)
Lemma patternOf_ok e p d : nth_error ps e = Some p -> In d (p_deps p) -> patternOf ps d = Some e.
Proof.
  intros E I. unfold patternOf. destruct (find _ (seq 0 (List.length ps))) as [k|] eqn:F.
  - apply find_some in F. destruct F as [_ F]. destruct (nth_error ps k) as [q|] eqn:Ek; [|discriminate]. apply mem_In in F. f_equal.
    apply (Hdis k e q p d Ek E F I).
  - exfalso. assert (L : e < List.length ps) by (apply nth_error_Some; rewrite E; discriminate).
    apply find_none with (x := e) in F; [|apply in_seq; lia]. cbn in F. rewrite E in F. apply mem_false in F. tauto.
Qed.
Lemma ref_dep d : In d refs -> exists e p, nth_error ps e = Some p /\ In p ps /\ d = p_ref p.
Proof.
  intros I. destruct Hit as [_ [_ [H3 H4]]]. destruct (H3 refs d Hrefs I) as [p [Hp Hd]]. destruct (In_nth_error ps p Hp) as [e E].
  exists e, p. split; [exact E|]. split; [exact Hp|]. destruct (HT p Hp) as [_ [_ [_ [_ T5]]]]. apply (H4 refs p d (p_ref p) Hrefs Hp I (Href p Hp) Hd T5).
Qed.
Lemma iter_ok p d it s : In p ps -> In d (p_deps p) -> nth_error iters it = Some s -> In d s -> iterOf iters d = Some it.
Proof. intros Hp Hd E I. destruct Hit as [_ [H2 _]]. apply (iterOf_ok iters d it s); auto. intros i i' t t' Ei Ei' It It'. apply (H2 i i' t t' d); auto. Qed.

(** collect *)
Definition tabIn (qs : list nat) (o a it j : nat) : Prop :=
  exists p d, In p ps /\ In (p_ref p) qs /\ In (o, a, d, j) (p_idx p) /\ iterOf iters d = Some it.
Lemma collect_ok : forall rs m l, incl rs refs ->
  exists new l', collect g deps ps iters rs m l = POk (new ++ m, l') /\
    (forall n f, In (n, f) new -> isInv g n = false -> exists p, In p ps /\ In (p_ref p) rs /\ inG p n /\ (f = true <-> indexed g (p_idx p) n)) /\
    (forall p n, In p ps -> In (p_ref p) rs -> inG p n -> exists f, In (n, f) new) /\
    (forall o a it j, In (o, a, it, j) l' <-> (In (o, a, it, j) l \/ tabIn rs o a it j)).
Proof.
  induction rs as [|d rs IH]; intros m l Hin.
  - exists [], l. split; [reflexivity|]. split; [intros n f []|]. split; [intros p n _ []|]. intros o a it j. split; [auto|]. intros [H|[p [d [_ [[] _]]]]]. exact H.
  - cbn [collect]. destruct (ref_dep d (Hin d (or_introl eq_refl))) as [e [p [E [Hp ->]]]].
    assert (Hd : In (p_ref p) (p_deps p)) by (destruct (HT p Hp) as [_ [_ [_ [_ T5]]]]; exact T5).
    rewrite (patternOf_ok e p (p_ref p) E Hd), E. rewrite Nat.eqb_refl.
    assert (Hidx : forall o a d j, In (o, a, d, j) (p_idx p) -> exists it, iterOf iters d = Some it).
    { intros o a d j I. destruct (HT p Hp) as [_ [T2 _]]. destruct (T2 o a d j I) as [r [s [_ [Hd' _]]]]. destruct Hit as [H1 _].
      destruct (H1 p d Hp Hd') as [it [t [Ei Ii]]]. exists it. apply (iter_ok p d it t Hp Hd' Ei Ii). }
    assert (Huniq : forall q, In q ps -> p_ref q = p_ref p -> q = p).
    { intros q Hq Eq. destruct (In_nth_error ps q Hq) as [e' E']. assert (Hdq : In (p_ref q) (p_deps q)) by (destruct (HT q Hq) as [_ [_ [_ [_ T5]]]]; exact T5).
      rewrite Eq in Hdq. pose proof (Hdis e' e q p (p_ref p) E' E Hdq Hd) as ->. rewrite E in E'. injection E' as ->. reflexivity. }
    destruct (addAll_ok iters (p_idx p) l Hidx) as [l1 [EA KA]].
    assert (HP : exists new1 ops, match nth_error deps (p_ref p), nth_error deps (p_ref p) with
                     | Some (AN r), Some (AN s) => pbind (indexedPath (S (List.length g)) g (p_idx p) r s (m, [])) (fun o => POk (snd o))
                     | Some _, Some _ => POk (m, [])
                     | _, _ => PUndef
                     end = POk (new1 ++ m, ops) /\
                (forall n f, In (n, f) new1 -> isInv g n = false -> inG p n /\ (f = true <-> indexed g (p_idx p) n)) /\
                (forall n, inG p n -> exists f, In (n, f) new1)).
    { destruct (HT p Hp) as [_ [_ [_ [T4 T5]]]]. destruct (T4 _ T5) as [[x [Ex Dx]] _]. rewrite Ex. destruct x as [v|r].
      - exists [], []. split; [reflexivity|]. split; [intros n f []|]. intros n [r [Er _]]. rewrite Ex in Er. discriminate.
      - destruct Dx as [Lr Ir]. assert (L' : r < S (List.length g)) by lia.
        destruct (path_ok g W (p_idx p) (S (List.length g)) r (m, []) L' Lr) as [b [new1 [ops [-> [_ [V1 [V2 V3]]]]]]]. cbn [pbind snd fst].
        exists new1, ops. split; [reflexivity|]. split.
        + intros n f I In'. split; [exists r; split; [exact Ex|apply (V2 n f I In')]|apply V1, I].
        + intros n [r' [Er R]]. rewrite Ex in Er. injection Er as <-. apply V3, R. }
    destruct HP as [new1 [ops [EP [K1 K2]]]]. rewrite EP. cbn [pbind snd fst]. rewrite EA. cbn [pbind].
    destruct (IH (new1 ++ m) l1) as [new [l' [EQ [Q1 [Q2 Q3]]]]]. { intros x Hx. apply Hin. right. exact Hx. }
    exists (new ++ new1), l'. split; [rewrite EQ, app_assoc; reflexivity|]. split; [|split].
    + intros n f I In'. apply in_app_or in I. destruct I as [I|I].
      * destruct (Q1 n f I In') as [q [X [Y Z]]]. exists q. split; [exact X|]. split; [right; exact Y|exact Z].
      * exists p. destruct (K1 n f I In') as [X Y]. split; [exact Hp|]. split; [left; reflexivity|]. auto.
    + intros q n Hq [Eq|Hq'] G.
      * rewrite (Huniq q Hq (eq_sym Eq)) in G. destruct (K2 n G) as [f F]. exists f. apply in_or_app. right. exact F.
      * destruct (Q2 q n Hq Hq' G) as [f F]. exists f. apply in_or_app. left. exact F.
    + intros o a it j. rewrite Q3, KA. split.
      * intros [[H|[d [H Hi]]]|[q [d [X [Y Z]]]]]; [auto| |].
        -- right. exists p, d. split; [exact Hp|]. split; [left; reflexivity|auto].
        -- right. exists q, d. split; [exact X|]. split; [right; exact Y|exact Z].
      * intros [H|[q [d [X [[Y|Y] [Z1 Z2]]]]]]; [auto| |].
        -- left. right. exists d. rewrite (Huniq q X (eq_sym Y)) in Z1. auto.
        -- right. exists q, d. auto.
Qed.

(** ** After collecting *)
Variable m : marks.
Variable l : indexes.
Hypothesis Hcol : collect g deps ps iters refs [] [] = POk (m, l).

Lemma tab_in o a it j : In (o, a, it, j) l <-> exists p d, In p ps /\ In (o, a, d, j) (p_idx p) /\ iterOf iters d = Some it.
Proof.
  destruct (collect_ok refs [] [] (incl_refl _)) as [new [l' [E [_ [_ K]]]]]. rewrite Hcol in E. injection E as _ <-. rewrite K. split.
  - intros [[]|[p [d [X [_ Z]]]]]. exists p, d. auto.
  - intros [p [d [X Z]]]. right. exists p, d. split; [exact X|]. split; [apply Href, X|exact Z].
Qed.
Lemma marked_ok p k : In p ps -> inG p k -> isInv g k = false -> (marked m k = true <-> indexed g (p_idx p) k).
Proof.
  intros Hp G Ik. destruct (collect_ok refs [] [] (incl_refl _)) as [new [l' [E [K1 [K2 _]]]]]. rewrite Hcol in E. injection E as Em _.
  rewrite app_nil_r in Em. subst new. destruct (K2 p k Hp (Href p Hp) G) as [f F]. unfold marked.
  destruct (find (fun e => fst e =? k) m) as [[n b]|] eqn:Ef.
  - apply find_some in Ef. destruct Ef as [I Ek]. cbn in Ek. apply Nat.eqb_eq in Ek. subst n. cbn [snd].
    destruct (K1 k b I Ik) as [q [Hq [_ [Gq Kq]]]]. rewrite Kq. split; intros X; [apply (indexed_agree q p k)|apply (indexed_agree p q k)]; auto.
  - exfalso. apply find_none with (x := (k, f)) in Ef; [|exact F]. cbn in Ef. rewrite Nat.eqb_refl in Ef. discriminate.
Qed.

(** The independent of an indexed position. *)
Lemma tab_pos p o a : In p ps -> inG p o -> (hasPos l o a = true <-> hasPos (p_idx p) o a = true).
Proof.
  intros Hp G. split; intros H.
  - apply hasPos_In in H. destruct H as [it [j H]]. apply tab_in in H. destruct H as [q [d [Hq [I _]]]].
    assert (Hq' : hasPos (p_idx q) o a = true) by (apply hasPos_In; eauto). destruct (pos_in q o a Hq Hq') as [Gq _]. apply (pos_agree q p); auto.
  - apply hasPos_In in H. destruct H as [d [j H]]. destruct (HT p Hp) as [_ [T2 _]]. destruct (T2 o a d j H) as [r [s [_ [Hd _]]]].
    destruct Hit as [H1 _]. destruct (H1 p d Hp Hd) as [it [t [Ei Ii]]]. apply hasPos_In. exists it, j. apply tab_in. exists p, d.
    split; [exact Hp|]. split; [exact H|]. apply (iter_ok p d it t Hp Hd Ei Ii).
Qed.
Lemma tab_idx p d r s it t o a j : In p ps -> In d (p_deps p) -> nth_error iters it = Some t -> In d t ->
  nth_error deps (p_ref p) = Some (AN r) -> nth_error deps d = Some (AN s) -> uses g r s o a j -> hasPos l o a = true -> idxAt l o a it = Some j.
Proof.
  intros Hp Hd Ei Ii Er Es Hu Hl. destruct (dep_facts p d s r Hp Hd Es Er) as [Ds [Dr Sh]].
  destruct (uses_ref g W r s o a j Dr Ds Sh Hu) as [j0 [A [I R]]]. assert (G : inG p o) by (exists r; auto).
  apply (tab_pos p o a Hp G) in Hl. destruct (HT p Hp) as [_ [_ [T3 _]]]. pose proof (T3 r d s o a j Er Hd Es Hu Hl) as X. apply idxAt_In in X.
  assert (Y : In (o, a, it, j) l) by (apply tab_in; exists p, d; split; [exact Hp|]; split; [exact X|apply (iter_ok p d it t Hp Hd Ei Ii)]).
  apply idxAt_some in Y. destruct Y as [j' Y]. rewrite Y. f_equal. apply idxAt_In in Y. apply tab_in in Y. destruct Y as [q [e [Hq [Iq Eq]]]].
  destruct (HT q Hq) as [_ [T2' _]]. destruct (T2' o a e j' Iq) as [r' [s' [Er' [He [Es' Hu']]]]].
  apply iterOf_some in Eq. destruct Eq as [t' [Et' It']]. rewrite Ei in Et'. injection Et' as <-. symmetry.
  apply (Hag p q d e t r s r' s' o a j j' Hp Hq (nth_error_In _ _ Ei) Ii It' Hd He Er Es Er' Es' Hu Hu').
Qed.
(** The independent of a position which is not indexed. *)
Lemma tab_const p d r s o a j j0 : In p ps -> In d (p_deps p) -> nth_error deps (p_ref p) = Some (AN r) -> nth_error deps d = Some (AN s) ->
  uses g r s o a j -> argAt g o a = Some (AN j0) -> isInv g j0 = true -> hasPos (p_idx p) o a = false -> j = j0.
Proof.
  intros Hp Hd Er Es Hu A I Hl. destruct (dep_facts p d s r Hp Hd Es Er) as [Ds [Dr Sh]].
  destruct (uses_ref g W r s o a j Dr Ds Sh Hu) as [_ [_ [_ R]]].
  destruct (Nat.eq_dec j j0) as [E|N]; [exact E|]. exfalso. destruct (HT p Hp) as [T1 [_ [_ [_ T5]]]].
  assert (K : hasPos (p_idx p) o a = true); [|congruence]. apply T1. exists d, (p_ref p), r, s, r, j, j0.
  split; [exact Hd|]. split; [exact T5|]. split; [exact Er|]. split; [exact Es|]. split; [exact Er|]. split; [exact Hu|]. split; [|exact N].
  apply uses_self; assumption.
Qed.
End Loop.

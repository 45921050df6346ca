(** * The dependents of a loop and its iterations *)
From Coq Require Import List Arith Bool Lia Sorted.
From Verif Require Import Pool_model Pool_proofs Sparsity_model Sparsity_spec Sparsity_proofs Sparsity_lists Linked_model Linked_thm Relations_model Relations_thm LoopIter_model.
Import ListNotations.
Local Open Scope nat_scope.

(** ** Specification *)

(** The dependents of the equations of the loop. *)
Definition ownDep (q : loopIn) (d : nat) : Prop := exists e, In e (q_own q) /\ In d (dependentsOf (q_eqs q) e).

(** What the search of loops provides (C50, C36): equations without common dependents,
    relations which are disjoint, have at least two dependents, all of the loop and not
    two of the same equation, and disjoint groups of equations. *)
Record loopOk (q : loopIn) (n : nat) : Prop := {
  qo_patterns : patternsOk (q_eqs q) n;
  qo_linked : relationsOk (q_eqs q) (q_linked q);
  qo_own : forall r d, In r (q_linked q) -> In d r -> ownDep q d;
  qo_rel : disjoint (q_rel q);
  qo_relset : forall es, In es (q_rel q) -> isset es /\ forall e, In e es -> In e (q_own q) }.

(** What is expected: every dependent is in exactly one iteration, no other is, the
    related dependents are in the same iteration and no iteration has two dependents of
    the same equation. *)
Record iterationsOk (q : loopIn) (iters : list set) : Prop := {
  io_some : forall d, ownDep q d -> exists i, In d (nth i iters []);
  io_own : forall d i, In d (nth i iters []) -> ownDep q d;
  io_once : forall d i j, In d (nth i iters []) -> In d (nth j iters []) -> i = j;
  io_linked : forall r, In r (q_linked q) -> exists i, forall d, In d r -> In d (nth i iters []);
  io_eq : forall i a b, In a (nth i iters []) -> In b (nth i iters []) -> sameEquation (q_eqs q) a b -> a = b }.

(** The position of a dependent in the order of the relations: the least dependent of
    its relation, or itself. *)
Definition firstOf (q : loopIn) (d : nat) : nat := match linkedAt q d with Some (x :: _) => x | _ => d end.
(** The relations are in the order of the dependents in every equation. *)
Definition ordered (q : loopIn) : Prop := forall e a b, In e (q_own q) ->
  In a (dependentsOf (q_eqs q) e) -> In b (dependentsOf (q_eqs q) e) -> a < b -> firstOf q a < firstOf q b.
(** The equations linked by non-indexed variables have no relation by indexed ones. *)
Definition separate (q : loopIn) : Prop := forall es e d r, In es (q_rel q) -> In e es -> In d (dependentsOf (q_eqs q) e) -> In r (q_linked q) -> ~ In d r.

(** ** Lists *)
Lemma isset_cons x s : isset (x :: s) <-> isset s /\ forall y, In y s -> x < y.
Proof.
  unfold isset. split.
  - intros H. inversion H as [|? ? H1 H2]; subst. rewrite Forall_forall in H2. auto.
  - intros [H1 H2]. constructor; [assumption|]. apply Forall_forall. assumption.
Qed.

Lemma growTo_nth l n i : nth i (growTo l n) [] = nth i l [].
Proof.
  unfold growTo. destruct (Nat.lt_ge_cases i (length l)) as [H|H]; [apply app_nth1, H|]. rewrite app_nth2 by exact H. rewrite nth_repeat. symmetry. apply nth_overflow, H.
Qed.
Lemma growTo_length l n : length (growTo l n) = Nat.max (length l) n.
Proof. unfold growTo. rewrite app_length, repeat_length. lia. Qed.
Lemma addTo_nth l i d j : i < length l -> nth j (addTo l i d) [] = if j =? i then sins d (nth i l []) else nth j l [].
Proof. intros H. unfold addTo. rewrite nth_setNth. rewrite (proj2 (Nat.ltb_lt _ _) H), andb_true_r. reflexivity. Qed.
Lemma addTo_length l i d : length (addTo l i d) = length l.
Proof. apply setNth_length. Qed.

Lemma find_first f (l : list nat) x : isset l -> (find f l = Some x <-> In x l /\ f x = true /\ forall y, In y l -> f y = true -> x <= y).
Proof.
  induction l as [|z l IH]; intros Hs; cbn [find]; [split; [discriminate|intros [[] _]]|]. apply isset_cons in Hs. destruct Hs as [Hs Hz].
  destruct (f z) eqn:F.
  - split.
    + intros [= <-]. split; [left; reflexivity|]. split; [assumption|]. intros y [<-|Hy] _; [lia|]. specialize (Hz y Hy). lia.
    + intros [[->|H1] [H2 H3]]; [reflexivity|]. specialize (H3 z (or_introl eq_refl) F). specialize (Hz x H1). lia.
  - rewrite (IH Hs). split; intros [H1 [H2 H3]].
    + split; [right; assumption|]. split; [assumption|]. intros y [<-|Hy] Fy; [congruence|apply H3; assumption].
    + destruct H1 as [->|H1]; [congruence|]. split; [assumption|]. split; [assumption|]. intros y Hy. apply H3. right. assumption.
Qed.
Lemma find_none f (l : list nat) : find f l = None <-> forall y, In y l -> f y = false.
Proof.
  split; [intros H y Hy; apply (find_none f l H y Hy)|]. intros H. destruct (find f l) eqn:E; [|reflexivity]. apply find_some in E. destruct E as [E1 E2]. rewrite (H _ E1) in E2. discriminate.
Qed.

(** The first element of [l] from [t]. *)
Definition firstFrom (l : set) (t : nat) : option nat := find (fun x => t <=? x) l.
Lemma next_first l d : nextIn l d = firstFrom l (S d).
Proof. reflexivity. Qed.

Lemma NoDup_app_intro_local {A} (l l' : list A) : NoDup l -> NoDup l' -> (forall x, In x l -> ~ In x l') -> NoDup (l ++ l').
Proof.
  induction l as [|x l IH]; intros H1 H2 H3; [assumption|]. inversion H1 as [|? ? N1 N2]; subst. cbn [app]. constructor.
  - rewrite in_app_iff. intros [X|X]; [contradiction|]. apply (H3 x); [left; reflexivity|assumption].
  - apply IH; [assumption|assumption|]. intros y Hy. apply H3. right. assumption.
Qed.

(** ** The input *)
Section LOOP.
Context (q : loopIn) (n : nat) (Q : loopOk q n) (OO : ordered q) (SS : separate q).
Notation eqs := (q_eqs q).
Notation deps0 e := (dependentsOf (q_eqs q) e).

Lemma eq_of d e : In d (deps0 e) -> dep2Equation eqs d = Some e.
Proof. apply (dep2Equation_spec eqs n d e (qo_patterns _ _ Q)). Qed.
Lemma eq_unique d e e' : In d (deps0 e) -> In d (deps0 e') -> e = e'.
Proof. apply (po_apart _ _ (qo_patterns _ _ Q)). Qed.

Lemma linkedAt_some d r : linkedAt q d = Some r <-> In r (q_linked q) /\ In d r.
Proof.
  unfold linkedAt. assert (F := findRel_spec (q_linked q) d). split.
  - intros E. rewrite E in F. split; [apply (nth_error_In _ _ E)|exact F].
  - intros [Hr Hd]. destruct (nth_error (q_linked q) (findRel (q_linked q) d)) as [r'|] eqn:E.
    + apply In_nth_error in Hr. destruct Hr as [i Hi]. assert (i = findRel (q_linked q) d) by (apply (ro_apart _ _ (qo_linked _ _ Q) i _ r r' d Hi E Hd F)). congruence.
    + destruct F as [_ F]. destruct (F r Hr Hd).
Qed.
Lemma linkedAt_none d : linkedAt q d = None <-> forall r, In r (q_linked q) -> ~ In d r.
Proof.
  split.
  - intros E r Hr Hd. assert (linkedAt q d = Some r) by (apply linkedAt_some; auto). congruence.
  - intros H. destruct (linkedAt q d) as [r|] eqn:E; [|reflexivity]. apply linkedAt_some in E. destruct E as [E1 E2]. destruct (H r E1 E2).
Qed.

Lemma relAt_some e p : relAt q e = Some p <-> exists es, nth_error (q_rel q) p = Some es /\ In e es.
Proof.
  unfold relAt. assert (F := findRel_spec (q_rel q) e). destruct (Nat.ltb_spec (findRel (q_rel q) e) (length (q_rel q))) as [L|L].
  - destruct (nth_error (q_rel q) (findRel (q_rel q) e)) as [es|] eqn:E; [|apply nth_error_None in E; lia]. split.
    + intros [= <-]. exists es. auto.
    + intros [es' [H1 H2]]. f_equal. apply (qo_rel _ _ Q _ _ _ _ _ E H1 F H2).
  - split; [discriminate|]. intros [es [H1 H2]]. apply nth_error_None in L. rewrite L in F. destruct F as [_ F]. destruct (F es (nth_error_In _ _ H1) H2).
Qed.
Lemma relAt_none e : relAt q e = None <-> forall es, In es (q_rel q) -> ~ In e es.
Proof.
  split.
  - intros E es Hes He. apply In_nth_error in Hes. destruct Hes as [p Hp]. assert (relAt q e = Some p) by (apply relAt_some; exists es; auto). congruence.
  - intros H. destruct (relAt q e) as [p|] eqn:E; [|reflexivity]. apply relAt_some in E. destruct E as [es [E1 E2]]. destruct (H es (nth_error_In _ _ E1) E2).
Qed.

(** A dependent with delayed processing. *)
Definition late (d : nat) : Prop := exists e p, In d (deps0 e) /\ relAt q e = Some p.

Lemma late_unlinked d : late d -> linkedAt q d = None.
Proof.
  intros [e [p [Hd Hp]]]. apply relAt_some in Hp. destruct Hp as [es [H1 H2]]. apply linkedAt_none. intros r Hr. apply (SS es e d r); try assumption. apply (nth_error_In _ _ H1).
Qed.

Lemma first_le d : firstOf q d <= d.
Proof.
  unfold firstOf. destruct (linkedAt q d) as [[|x r]|] eqn:E; try lia. apply linkedAt_some in E. destruct E as [E1 [->|E2]]; [lia|].
  destruct (ro_set _ _ (qo_linked _ _ Q) _ E1) as [Hs _]. apply isset_cons in Hs. destruct Hs as [_ Hs]. specialize (Hs d E2). lia.
Qed.
Lemma first_own d : ownDep q d -> ownDep q (firstOf q d).
Proof.
  intros H. unfold firstOf. destruct (linkedAt q d) as [[|x r]|] eqn:E; try assumption. apply linkedAt_some in E. apply (qo_own _ _ Q (x :: r)); [apply E|left; reflexivity].
Qed.
Lemma first_member d x r : linkedAt q d = Some (x :: r) -> forall m, In m (x :: r) -> linkedAt q m = Some (x :: r) /\ firstOf q m = x.
Proof.
  intros E m Hm. apply linkedAt_some in E. assert (E' : linkedAt q m = Some (x :: r)) by (apply linkedAt_some; split; [apply E|assumption]).
  split; [assumption|]. unfold firstOf. rewrite E'. reflexivity.
Qed.
Lemma first_first d : firstOf q (firstOf q d) = firstOf q d.
Proof.
  destruct (linkedAt q d) as [[|x r]|] eqn:E; unfold firstOf at 2; rewrite E.
  - reflexivity.
  - unfold firstOf at 2; rewrite E. apply (first_member d x r E). left. reflexivity.
  - reflexivity.
Qed.
Lemma first_same a d : firstOf q a = firstOf q d -> a = d \/ exists r, linkedAt q a = Some r /\ linkedAt q d = Some r.
Proof.
  intros H. destruct (linkedAt q a) as [[|x r]|] eqn:Ea.
  - apply linkedAt_some in Ea. destruct Ea as [_ []].
  - destruct (linkedAt q d) as [[|y s]|] eqn:Ed.
    + apply linkedAt_some in Ed. destruct Ed as [_ []].
    + assert (X : firstOf q a = x) by (unfold firstOf; rewrite Ea; reflexivity). assert (Y : firstOf q d = y) by (unfold firstOf; rewrite Ed; reflexivity).
      right. exists (x :: r). split; [reflexivity|]. rewrite <- Ed, X, Y in *. subst y.
      destruct (first_member d x s Ed x (or_introl eq_refl)) as [Z _]. destruct (first_member a x r Ea x (or_introl eq_refl)) as [Z' _]. congruence.
    + assert (X : firstOf q a = x) by (unfold firstOf; rewrite Ea; reflexivity). assert (Y : firstOf q d = d) by (unfold firstOf; rewrite Ed; reflexivity).
      rewrite X, Y in H. subst d. destruct (first_member a x r Ea x (or_introl eq_refl)) as [Z _]. congruence.
  - destruct (linkedAt q d) as [[|y s]|] eqn:Ed.
    + apply linkedAt_some in Ed. destruct Ed as [_ []].
    + assert (X : firstOf q a = a) by (unfold firstOf; rewrite Ea; reflexivity). assert (Y : firstOf q d = y) by (unfold firstOf; rewrite Ed; reflexivity).
      rewrite X, Y in H. subst y. destruct (first_member d a s Ed a (or_introl eq_refl)) as [Z _]. congruence.
    + left. unfold firstOf in H. rewrite Ea, Ed in H. assumption.
Qed.

Lemma late_dec d : late d \/ ~ late d.
Proof.
  assert (S := dep2EquationFrom_spec eqs d 0). fold (dep2Equation eqs d) in S. destruct (dep2Equation eqs d) as [e|].
  - destruct S as [_ S]. rewrite Nat.sub_0_r in S. destruct (relAt q e) as [p|] eqn:E; [left; exists e, p; auto|]. right. intros [e' [p [H1 H2]]].
    rewrite (eq_unique d e e') in E by assumption. congruence.
  - right. intros [e [p [H _]]]. apply (S e H).
Qed.
Lemma late_eq d e : In d (deps0 e) -> (late d <-> relAt q e <> None).
Proof.
  intros H. split.
  - intros [e' [p [H1 H2]]]. rewrite (eq_unique d e e') by assumption. congruence.
  - intros X. destruct (relAt q e) as [p|] eqn:E; [|congruence]. exists e, p. auto.
Qed.

(** ** Iterations under construction *)
Record good (iters : list set) (P : nat -> Prop) : Prop := {
  gd_once : forall d i j, In d (nth i iters []) -> In d (nth j iters []) -> i = j;
  gd_eq : forall i a b, In a (nth i iters []) -> In b (nth i iters []) -> sameEquation eqs a b -> a = b;
  gd_in : forall d, (exists i, In d (nth i iters [])) <-> P d }.

Lemma good_nth iters iters' P : good iters P -> (forall i, nth i iters' [] = nth i iters []) -> good iters' P.
Proof.
  intros [A B C] H. constructor.
  - intros d i j. rewrite !H. apply A.
  - intros i a b. rewrite !H. apply B.
  - intros d. rewrite <- C. split; intros [i Hi]; exists i; [rewrite <- H|rewrite H]; assumption.
Qed.

Lemma good_add iters P i d : good iters P -> i < length iters -> ~ P d ->
  (forall y, In y (nth i iters []) -> ~ sameEquation eqs d y) -> good (addTo iters i d) (fun x => P x \/ x = d).
Proof.
  intros [A B C] L N E.
  assert (X : forall j x, In x (nth j (addTo iters i d) []) <-> In x (nth j iters []) \/ (j = i /\ x = d)).
  { intros j x. rewrite addTo_nth by exact L. destruct (Nat.eqb_spec j i) as [->|]; [rewrite sins_In|]; tauto. }
  assert (Nd : forall j, ~ In d (nth j iters [])) by (intros j Hj; apply N, C; exists j; assumption).
  constructor.
  - intros x j k Hj Hk. apply X in Hj. apply X in Hk. destruct Hj as [Hj|[-> ->]], Hk as [Hk|[-> ?]]; [apply (A x); assumption|subst; destruct (Nd _ Hj)|destruct (Nd _ Hk)|reflexivity].
  - intros j a b Ha Hb S. apply X in Ha. apply X in Hb. destruct Ha as [Ha|[-> ->]], Hb as [Hb|[? ->]]; [apply (B j); assumption| | |reflexivity].
    + subst j. exfalso. apply (E a Ha), sameEq_sym, S.
    + exfalso. apply (E b Hb S).
  - intros x. rewrite <- C. split.
    + intros [j Hj]. apply X in Hj. destruct Hj as [Hj|[_ Hj]]; [left; exists j; assumption|right; assumption].
    + intros [[j Hj]| ->]; [exists j|exists i]; apply X; auto.
Qed.

Lemma good_ext iters (P P' : nat -> Prop) : good iters P -> (forall d, P d <-> P' d) -> good iters P'.
Proof. intros [A B C] H. constructor; [assumption|assumption|]. intros d. rewrite C. apply H. Qed.

(** ** The main loop *)
Definition done (t d : nat) : Prop := ownDep q d /\ ~ late d /\ firstOf q d < t.

Record MI (t : nat) (s : istate) : Prop := {
  mi_set : isset (i_deps s);
  mi_in : forall d, In d (i_deps s) -> ownDep q d;
  mi_left : forall d, ownDep q d -> t <= firstOf q d -> In d (i_deps s);
  mi_gone : forall d, In d (i_deps s) -> t <= d -> t <= firstOf q d;
  mi_it : i_it s = firstFrom (i_deps s) t;
  mi_lenf : length (i_free s) = length eqs;
  mi_freeset : forall e, isset (nth e (i_free s) []);
  mi_free : forall e d, In d (nth e (i_free s) []) <-> In e (q_own q) /\ In d (deps0 e) /\ (late d \/ t <= firstOf q d);
  mi_good : good (i_iters s) (done t);
  mi_len : length (i_iters s) <= S (i_i s);
  mi_empty : forall i, i_i s <= i -> nth i (i_iters s) [] = [];
  mi_link : forall r d, In r (q_linked q) -> In d r -> firstOf q d < t -> exists i, forall m, In m r -> In m (nth i (i_iters s) []);
  mi_late : forall d, In d (i_delayed s) <-> ownDep q d /\ late d /\ d < t;
  mi_lateset : isset (i_delayed s) }.

(** No dependent is left before the next one. *)
Lemma head_first t s d : MI t s -> i_it s = Some d -> ownDep q d /\ t <= d /\ firstOf q d = d /\
  (forall x, ownDep q x -> t <= firstOf q x -> d <= firstOf q x).
Proof.
  intros M E. rewrite (mi_it _ _ M) in E. apply find_first in E; [|apply (mi_set _ _ M)]. destruct E as [H1 [H2 H3]]. apply Nat.leb_le in H2.
  assert (Od := mi_in _ _ M d H1).
  assert (Min : forall x, ownDep q x -> t <= firstOf q x -> d <= firstOf q x).
  { intros x Hx Ht. apply H3; [|apply Nat.leb_le, Ht]. apply (mi_left _ _ M); [apply first_own, Hx|]. rewrite first_first. assumption. }
  split; [assumption|]. split; [assumption|]. split; [|assumption].
  assert (d <= firstOf q d) by (apply Min; [assumption|apply (mi_gone _ _ M); assumption]). assert (X := first_le d). lia.
Qed.

Lemma relPos_head x l : relPos (x :: l) x = 0.
Proof. cbn. rewrite Nat.eqb_refl. reflexivity. Qed.
Lemma relPos_min l x : isset l -> In x l -> (forall y, In y l -> x <= y) -> relPos l x = 0.
Proof.
  destruct l as [|y l]; intros Hs Hx Hm; [destruct Hx|]. apply isset_cons in Hs. destruct Hs as [_ Hs]. destruct Hx as [->|Hx]; [apply relPos_head|].
  specialize (Hm y (or_introl eq_refl)). specialize (Hs x Hx). lia.
Qed.

(** A related dependent is the first free one of its equation when its turn comes. *)
Lemma rel_zero t s d m e : MI t s -> i_it s = Some d -> firstOf q m = d -> linkedAt q m <> None -> In e (q_own q) -> In m (deps0 e) -> relPos (nth e (i_free s) []) m = 0.
Proof.
  intros M E Hm HL He Hme. destruct (head_first t s d M E) as [Od [Htd [Hd Min]]]. apply relPos_min.
  - apply (mi_freeset _ _ M).
  - apply (mi_free _ _ M). split; [assumption|]. split; [assumption|]. right. lia.
  - intros y Hy. apply (mi_free _ _ M) in Hy. destruct Hy as [_ [Hy1 Hy2]]. destruct (Nat.le_gt_cases m y) as [X|X]; [assumption|]. exfalso.
    assert (O := OO e y m He Hy1 Hme X). rewrite Hm in O.
    destruct Hy2 as [Hy2|Hy2].
    + apply HL. apply late_unlinked. apply (late_eq m e Hme). apply (late_eq y e Hy1). assumption.
    + assert (d <= firstOf q y) by (apply Min; [exists e; auto|assumption]). lia.
Qed.

Lemma own_eq d : ownDep q d -> exists e, In e (q_own q) /\ In d (deps0 e) /\ dep2Equation eqs d = Some e.
Proof. intros [e [H1 H2]]. exists e. split; [assumption|]. split; [assumption|]. apply eq_of, H2. Qed.

Lemma freeAt_own s e : In e (q_own q) -> freeAt q (i_free s) e = IOk (nth e (i_free s) []).
Proof. intros H. unfold freeAt. apply sfind_In in H. rewrite H. reflexivity. Qed.

Lemma scan_ok t s d vis : MI t s -> i_it s = Some d -> forall ms best, (forall m, In m ms -> ownDep q m /\ linkedAt q m <> None /\ firstOf q m = d) ->
  scanBest q (i_free s) vis ms best 0 = IOk best.
Proof.
  intros M E. induction ms as [|m ms IH]; intros best H; cbn [scanBest]; [reflexivity|].
  destruct (H m (or_introl eq_refl)) as [H1 [H2 H3]]. destruct (own_eq m H1) as [e [He [Hme ->]]].
  destruct (sfind e vis); [apply IH; intros x Hx; apply H; right; assumption|].
  rewrite (freeAt_own s e He). rewrite (rel_zero t s d m e M E H3 H2 He Hme). cbn [Nat.ltb Nat.leb]. apply IH. intros x Hx. apply H. right. assumption.
Qed.

Lemma best_ok t s d e k : MI t s -> i_it s = Some d -> In e (q_own q) -> In d (deps0 e) -> findBest (S k) q (i_free s) [] d e = IOk (d, e).
Proof.
  intros M E He Hd. destruct (head_first t s d M E) as [Od [Htd [Hf Min]]]. cbn [findBest]. destruct (linkedAt q d) as [r|] eqn:L; [|reflexivity].
  rewrite (freeAt_own s e He). rewrite (rel_zero t s d d e M E Hf) by (try assumption; congruence).
  rewrite (scan_ok t s d [e] M E).
  - cbn [fst]. rewrite Nat.eqb_refl. reflexivity.
  - intros m Hm. destruct r as [|x r]; [destruct Hm|]. destruct (first_member d x r L m Hm) as [H1 H2]. split; [apply linkedAt_some in L; apply (qo_own _ _ Q _ _ (proj1 L)), Hm|].
    split; [congruence|]. rewrite H2. unfold firstOf in Hf. rewrite L in Hf. assumption.
Qed.

(** The dependents of a relation are put in the iteration. *)
Lemma placeAll_ok d r : In r (q_linked q) -> In d r -> (forall m, In m r -> d <= m) -> forall ms s (P : nat -> Prop),
  isset ms -> (forall m, In m ms -> In m r /\ In m (i_deps s) /\ ~ P m) ->
  (forall e m, In m ms -> In m (deps0 e) -> In m (nth e (i_free s) [])) ->
  isset (i_deps s) -> i_it s = nextIn (i_deps s) d ->
  (ms <> [] -> exists m, In m r /\ d < m /\ In m (i_deps s) /\ (In m ms)) ->
  length (i_free s) = length eqs -> (forall e, isset (nth e (i_free s) [])) ->
  good (i_iters s) P -> i_i s < length (i_iters s) -> (forall x, In x (nth (i_i s) (i_iters s) []) -> In x r) ->
  exists s', placeAll q ms s = IOk s' /\
    isset (i_deps s') /\ (forall x, In x (i_deps s') <-> In x (i_deps s) /\ ~ In x ms) /\
    i_it s' = nextIn (i_deps s') d /\
    length (i_free s') = length eqs /\ (forall e, isset (nth e (i_free s') [])) /\
    (forall e x, In x (nth e (i_free s') []) <-> In x (nth e (i_free s) []) /\ ~ (In x ms /\ In x (deps0 e))) /\
    good (i_iters s') (fun x => P x \/ In x ms) /\ length (i_iters s') = length (i_iters s) /\ i_i s' = i_i s /\ i_delayed s' = i_delayed s /\
    (forall i x, In x (nth i (i_iters s') []) <-> In x (nth i (i_iters s) []) \/ (i = i_i s /\ In x ms)).
Proof.
  intros Hr Hd Hmin. induction ms as [|m ms IH]; intros s P Hms Hm Hfr Hs Hit Hex Hlf Hfs Hg Hl Hcur; cbn [placeAll].
  - exists s. split; [reflexivity|]. split; [assumption|]. split; [cbn; tauto|]. split; [assumption|]. split; [assumption|]. split; [assumption|]. split; [cbn; tauto|].
    split; [apply (good_ext _ P); [assumption|cbn; tauto]|]. split; [reflexivity|]. split; [reflexivity|]. split; [reflexivity|cbn; tauto].
  - destruct Hex as [w [Hw1 [Hw2 [Hw3 Hw4]]]]; [discriminate|].
    destruct (i_it s) as [x|] eqn:Ex.
    2:{ exfalso. symmetry in Hit. unfold nextIn in Hit. rewrite find_none in Hit. specialize (Hit w Hw3). apply Nat.ltb_ge in Hit. lia. }
    destruct (Hm m (or_introl eq_refl)) as [Hmr [Hmd HmP]]. destruct (own_eq m (qo_own _ _ Q _ _ Hr Hmr)) as [e [He [Hme Eme]]]. rewrite Eme.
    assert (Hmf := Hfr e m (or_introl eq_refl) Hme). unfold eraseFree. rewrite (proj2 (sfind_In _ _) Hmf).
    assert (Le : e < length (i_free s)) by (rewrite Hlf; apply (dep_lt _ _ _ Hme)).
    apply isset_cons in Hms. destruct Hms as [Hms Hlt].
    symmetry in Hit. unfold nextIn in Hit. apply find_first in Hit; [|assumption]. destruct Hit as [Hx1 [Hx2 Hx3]]. apply Nat.ltb_lt in Hx2.
    assert (Fr : forall e' y, In y (nth e' (setNth (i_free s) e (sdel m (nth e (i_free s) []))) []) <-> In y (nth e' (i_free s) []) /\ ~ (e' = e /\ y = m)).
    { intros e' y. rewrite nth_setNth. rewrite (proj2 (Nat.ltb_lt _ _) Le), andb_true_r. destruct (Nat.eqb_spec e' e) as [->|Hne]; [|tauto].
      rewrite sdel_In by apply Hfs. tauto. }
    edestruct (IH (mkI (sdel m (i_deps s)) (if m =? x then nextIn (i_deps s) x else Some x) (setNth (i_free s) e (sdel m (nth e (i_free s) []))) (addTo (i_iters s) (i_i s) m) (i_i s) (i_delayed s)) (fun y => P y \/ y = m))
      as [s' [E' [A1 [A2 [A3 [A4 [A5 [A6 [A7 [A8 [A9 [A10 A11]]]]]]]]]]]]; cbn [i_deps i_it i_free i_iters i_i i_delayed].
    + assumption.
    + intros y Hy. destruct (Hm y (or_intror Hy)) as [B1 [B2 B3]]. specialize (Hlt y Hy). split; [assumption|]. split; [apply sdel_In; [assumption|split; [assumption|lia]]|]. intros [B|B]; [contradiction|lia].
    + intros e' y Hy Hye. apply Fr. split; [apply Hfr; [right; assumption|assumption]|]. intros [_ ->]. specialize (Hlt m Hy). lia.
    + apply sdel_isset, Hs.
    + destruct (Nat.eqb_spec m x) as [->|Hne].
      * destruct (nextIn (i_deps s) x) as [z|] eqn:Z.
        -- symmetry. apply find_first; [apply sdel_isset, Hs|]. apply find_first in Z; [|assumption]. destruct Z as [Z1 [Z2 Z3]]. apply Nat.ltb_lt in Z2.
           split; [apply sdel_In; [assumption|split; [assumption|lia]]|]. split; [apply Nat.ltb_lt; lia|]. intros y Hy Hy2. apply sdel_In in Hy; [|assumption]. destruct Hy as [Hy Hyx].
           apply Z3; [assumption|]. specialize (Hx3 y Hy Hy2). apply Nat.ltb_lt. lia.
        -- symmetry. apply find_none. intros y Hy. apply sdel_In in Hy; [|assumption]. destruct Hy as [Hy Hyx]. apply Nat.ltb_ge.
           destruct (Nat.le_gt_cases y d) as [|G]; [assumption|]. exfalso. assert (x <= y) by (apply Hx3; [assumption|apply Nat.ltb_lt, G]).
           unfold nextIn in Z. rewrite find_none in Z. specialize (Z y Hy). apply Nat.ltb_ge in Z. lia.
      * symmetry. apply find_first; [apply sdel_isset, Hs|]. split; [apply sdel_In; [assumption|split; [assumption|congruence]]|]. split; [apply Nat.ltb_lt, Hx2|].
        intros y Hy. apply sdel_In in Hy; [|assumption]. apply Hx3, Hy.
    + intros Hne. destruct ms as [|y ms]; [congruence|]. exists y. specialize (Hlt y (or_introl eq_refl)). destruct (Hm y (or_intror (or_introl eq_refl))) as [B1 [B2 B3]].
      assert (d <= m) by (apply Hmin, Hmr). split; [assumption|]. split; [lia|]. split; [apply sdel_In; [assumption|split; [assumption|lia]]|left; reflexivity].
    + rewrite setNth_length. assumption.
    + intros e'. rewrite nth_setNth. destruct (_ && _); [apply sdel_isset|]; apply Hfs.
    + apply good_add; try assumption. intros y Hy Hsame. apply HmP. assert (m = y) by (apply (ro_one _ _ (qo_linked _ _ Q) r); [assumption|assumption|apply Hcur, Hy|assumption]). subst y.
      apply (gd_in _ _ Hg). exists (i_i s). exact Hy.
    + rewrite addTo_length. assumption.
    + intros y. rewrite addTo_nth by exact Hl. rewrite Nat.eqb_refl, sins_In. intros [->|Hy]; [assumption|apply Hcur, Hy].
    + cbn [i_deps i_it i_free i_iters i_i i_delayed] in A2, A6, A7, A8, A9, A10, A11.
      exists s'. split; [exact E'|]. split; [assumption|]. split.
      { intros y. rewrite A2, sdel_In by assumption. cbn [In]. split; [intros [[B1 B2] B3]; split; [assumption|intros [B|B]; [congruence|contradiction]]|].
        intros [B1 B2]. split; [split; [assumption|intros ->; apply B2; left; reflexivity]|]. intros B. apply B2. right. assumption. }
      split; [assumption|]. split; [assumption|]. split; [assumption|]. split.
      { intros e' y. rewrite A6, Fr. cbn [In]. split.
        - intros [[B1 B2] B3]. split; [assumption|]. intros [[<-|B] B4]; [apply B2; split; [apply (eq_unique m); assumption|reflexivity]|apply B3; auto].
        - intros [B1 B2]. split; [split; [assumption|intros [-> ->]; apply B2; auto]|]. intros [B3 B4]. apply B2. auto. }
      split; [apply (good_ext _ (fun x0 => (P x0 \/ x0 = m) \/ In x0 ms)); [assumption|]; intros y; cbn [In]; split; [intros [[B|B]|B]; auto|intros [B|[B|B]]; auto]|].
      rewrite addTo_length in A8. split; [assumption|]. split; [assumption|]. split; [assumption|].
      intros i y. rewrite A11, addTo_nth by exact Hl. destruct (Nat.eqb_spec i (i_i s)) as [->|Hne]; [rewrite sins_In|]; cbn [In]; intuition congruence.
Qed.

Lemma next_from t s d : MI t s -> i_it s = Some d -> forall x, ownDep q x -> (firstOf q x < S d <-> firstOf q x < t \/ firstOf q x = d).
Proof.
  intros M E x Hx. destruct (head_first t s d M E) as [_ [H1 [_ H2]]]. specialize (H2 x Hx). lia.
Qed.

Lemma own_link r m : In r (q_linked q) -> In m r -> ownDep q m.
Proof. apply (qo_own _ _ Q). Qed.

Lemma step_ok t s d : MI t s -> i_it s = Some d -> exists s', placeStep q d s = IOk s' /\ MI (S d) s' /\ (forall x, In x (i_deps s') -> In x (i_deps s)).
Proof.
  intros M E. destruct (head_first t s d M E) as [Od [Htd [Hf Min]]]. assert (NF := next_from t s d M E).
  assert (Hin : In d (i_deps s)) by (apply (mi_left _ _ M); [assumption|lia]).
  destruct (own_eq d Od) as [e [He [Hde Ee]]]. unfold placeStep. rewrite Ee. rewrite (best_ok t s d e _ M E He Hde).
  assert (GL : length (growTo (i_iters s) (S (i_i s))) = S (i_i s)) by (rewrite growTo_length; assert (X := mi_len _ _ M); lia).
  assert (GN : forall i, nth i (growTo (i_iters s) (S (i_i s))) [] = nth i (i_iters s) []) by (intros i; apply growTo_nth).
  assert (G : good (growTo (i_iters s) (S (i_i s))) (done t)) by (apply (good_nth (i_iters s)); [apply (mi_good _ _ M)|assumption]).
  destruct (linkedAt q d) as [r|] eqn:L.
  - assert (Hr := proj1 (linkedAt_some d r) L). destruct Hr as [Hr Hdr]. destruct r as [|x r]; [destruct Hdr|].
    assert (x = d) by (unfold firstOf in Hf; rewrite L in Hf; assumption). subst x.
    assert (Mem : forall m, In m (d :: r) -> ownDep q m /\ firstOf q m = d /\ linkedAt q m = Some (d :: r)).
    { intros m Hm. destruct (first_member d d r L m Hm) as [H1 H2]. split; [apply (own_link (d :: r)); assumption|auto]. }
    destruct (ro_set _ _ (qo_linked _ _ Q) _ Hr) as [Hset Hlen]. assert (Hset' := Hset). apply isset_cons in Hset'. destruct Hset' as [Hsr Hgt].
    destruct (placeAll_ok d (d :: r) Hr (or_introl eq_refl)) with (ms := d :: r) (P := done t)
      (s := mkI (i_deps s) (nextIn (i_deps s) d) (i_free s) (growTo (i_iters s) (S (i_i s))) (i_i s) (i_delayed s))
      as [s' [E' [A1 [A2 [A3 [A4 [A5 [A6 [A7 [A8 [A9 [A10 A11]]]]]]]]]]]]; cbn [i_deps i_it i_free i_iters i_i i_delayed].
    + intros m [->|Hm]; [lia|]. specialize (Hgt m Hm). lia.
    + assumption.
    + intros m Hm. destruct (Mem m Hm) as [H1 [H2 H3]]. split; [assumption|]. split; [apply (mi_left _ _ M); [assumption|lia]|]. intros [_ [_ X]]. lia.
    + intros e' m Hm Hme. destruct (Mem m Hm) as [[e1 [O1 O2]] [H2 H3]]. apply (mi_free _ _ M). rewrite (eq_unique m e' e1) by assumption. split; [assumption|]. split; [assumption|]. right. lia.
    + apply (mi_set _ _ M).
    + reflexivity.
    + intros _. destruct r as [|y r]; [cbn in Hlen; lia|]. exists y. specialize (Hgt y (or_introl eq_refl)). destruct (Mem y (or_intror (or_introl eq_refl))) as [H1 [H2 H3]].
      split; [right; left; reflexivity|]. split; [assumption|]. split; [apply (mi_left _ _ M); [assumption|lia]|right; left; reflexivity].
    + apply (mi_lenf _ _ M).
    + apply (mi_freeset _ _ M).
    + assumption.
    + lia.
    + intros x. rewrite GN, (mi_empty _ _ M) by lia. intros [].
    + cbn [i_deps i_it i_free i_iters i_i i_delayed] in A2, A6, A7, A8, A9, A10, A11. rewrite E'. eexists. split; [reflexivity|].
      assert (Split : forall x, ownDep q x -> firstOf q x = d -> In x (d :: r)).
      { intros x Hx H. destruct (first_same x d) as [->|[r' [H1 H2]]]; [rewrite H, Hf; reflexivity|left; reflexivity|]. assert (r' = d :: r) by congruence. subst r'. apply linkedAt_some in H1. apply H1. }
      split; [constructor; cbn [i_deps i_it i_free i_iters i_i i_delayed]|intros x Hx; apply A2 in Hx; apply Hx].
      * assumption.
      * intros x Hx. apply A2 in Hx. apply (mi_in _ _ M), Hx.
      * intros x Hx Hle. apply A2. split; [apply (mi_left _ _ M); [assumption|lia]|]. intros Hm. destruct (Mem x Hm) as [_ [X _]]. lia.
      * intros x Hx Hle. apply A2 in Hx. destruct Hx as [Hx Hn]. assert (t <= firstOf q x) by (apply (mi_gone _ _ M); [assumption|lia]).
        assert (Ox := mi_in _ _ M x Hx). assert (d <= firstOf q x) by (apply Min; assumption).
        destruct (Nat.eq_dec (firstOf q x) d) as [X|X]; [|lia]. exfalso. apply Hn, Split; assumption.
      * rewrite A3. reflexivity.
      * assumption.
      * assumption.
      * intros e' x. rewrite A6, (mi_free _ _ M). split.
        -- intros [[B1 [B2 B3]] B4]. split; [assumption|]. split; [assumption|]. destruct B3 as [B3|B3]; [auto|]. right.
           assert (Ox : ownDep q x) by (exists e'; auto). assert (d <= firstOf q x) by (apply Min; assumption).
           destruct (Nat.eq_dec (firstOf q x) d) as [X|X]; [|lia]. exfalso. apply B4. split; [apply Split; assumption|assumption].
        -- intros [B1 [B2 B3]]. split; [split; [assumption|split; [assumption|]]|].
           ++ destruct B3 as [B3|B3]; [auto|right; lia].
           ++ intros [B4 B5]. destruct (Mem x B4) as [_ [X Y]]. destruct B3 as [B3|B3]; [|lia]. apply late_unlinked in B3. congruence.
      * apply (good_ext _ (fun x => done t x \/ In x (d :: r))); [assumption|]. intros x. unfold done. split.
        -- intros [[B1 [B2 B3]]|B]; [repeat split; try assumption; lia|]. destruct (Mem x B) as [X1 [X2 X3]]. split; [assumption|]. split; [|lia]. intros Y. apply late_unlinked in Y. congruence.
        -- intros [B1 [B2 B3]]. apply (NF x B1) in B3. destruct B3 as [B3|B3]; [left; auto|right; apply Split; assumption].
      * rewrite A8. lia.
      * intros i Hi. destruct (nth i (i_iters s') []) as [|x l] eqn:X; [reflexivity|]. exfalso. destruct (proj1 (A11 i x)) as [Y|[Y _]]; [rewrite X; left; reflexivity| |lia].
        rewrite GN, (mi_empty _ _ M) in Y by lia. destruct Y.
      * intros r' x Hr' Hx Hlt. apply (NF x (own_link r' x Hr' Hx)) in Hlt. destruct Hlt as [Hlt|Hlt].
        -- destruct (mi_link _ _ M r' x Hr' Hx Hlt) as [i Hi]. exists i. intros m Hm. apply A11. left. rewrite GN. apply Hi, Hm.
        -- exists (i_i s). intros m Hm. apply A11. right. split; [reflexivity|]. apply Split; [apply (own_link r'); assumption|].
           assert (X1 : linkedAt q x = Some r') by (apply linkedAt_some; auto). assert (X2 : linkedAt q m = Some r') by (apply linkedAt_some; auto).
           unfold firstOf in *. rewrite X1 in Hlt. rewrite X2. destruct r'; [destruct Hx|assumption].
      * intros x. rewrite A10, (mi_late _ _ M). split; intros [B1 [B2 B3]]; (split; [assumption|split; [assumption|]]); [lia|].
        assert (firstOf q x = x) by (unfold firstOf; rewrite (late_unlinked x B2); reflexivity). assert (X := NF x B1). destruct (Nat.eq_dec x d) as [->|]; [apply late_unlinked in B2; congruence|lia].
      * rewrite A10. apply (mi_lateset _ _ M).
  - destruct (relAt q e) as [p|] eqn:Rl.
    + assert (Ld : late d) by (exists e, p; auto).
      assert (Hnx : forall x, nextIn (i_deps s) d = Some x -> x <> d) by (intros x X; apply find_first in X; [|apply (mi_set _ _ M)]; destruct X as [_ [X _]]; apply Nat.ltb_lt in X; lia).
      assert (Nx : nextIn (i_deps s) d = nextIn (sdel d (i_deps s)) d).
      { destruct (nextIn (i_deps s) d) as [z|] eqn:Z; symmetry.
        - apply find_first in Z; [|apply (mi_set _ _ M)]. destruct Z as [Z1 [Z2 Z3]]. assert (Z2' := Z2). apply Nat.ltb_lt in Z2'. apply find_first; [apply sdel_isset, (mi_set _ _ M)|].
          split; [apply sdel_In; [apply (mi_set _ _ M)|split; [assumption|lia]]|]. split; [assumption|]. intros y Hy. apply sdel_In in Hy; [|apply (mi_set _ _ M)]. apply Z3, Hy.
        - unfold nextIn in *. rewrite find_none in *. intros y Hy. apply sdel_In in Hy; [|apply (mi_set _ _ M)]. apply Z, Hy. }
      assert (MS : MI (S d) (mkI (sdel d (i_deps s)) (nextIn (i_deps s) d) (i_free s) (growTo (i_iters s) (S (i_i s))) (i_i s) (sins d (i_delayed s)))).
      { constructor; cbn [i_deps i_it i_free i_iters i_i i_delayed].
        - apply sdel_isset, (mi_set _ _ M).
        - intros x Hx. apply sdel_In in Hx; [|apply (mi_set _ _ M)]. apply (mi_in _ _ M), Hx.
        - intros x Hx Hle. apply sdel_In; [apply (mi_set _ _ M)|]. split; [apply (mi_left _ _ M); [assumption|lia]|]. intros ->. lia.
        - intros x Hx Hle. apply sdel_In in Hx; [|apply (mi_set _ _ M)]. destruct Hx as [Hx Hn]. assert (t <= firstOf q x) by (apply (mi_gone _ _ M); [assumption|lia]).
          assert (d <= firstOf q x) by (apply Min; [apply (mi_in _ _ M), Hx|assumption]). destruct (Nat.eq_dec (firstOf q x) d) as [X|X]; [|lia]. exfalso.
          destruct (first_same x d) as [->|[r' [H1 H2]]]; [congruence|congruence|congruence].
        - rewrite Nx. reflexivity.
        - apply (mi_lenf _ _ M).
        - apply (mi_freeset _ _ M).
        - intros e' x. rewrite (mi_free _ _ M). split; intros [B1 [B2 B3]]; (split; [assumption|split; [assumption|]]); destruct B3 as [B3|B3]; auto; [|right; lia].
          assert (Ox : ownDep q x) by (exists e'; auto). assert (d <= firstOf q x) by (apply Min; assumption). destruct (Nat.eq_dec (firstOf q x) d) as [X|X]; [|right; lia].
          left. destruct (first_same x d) as [->|[r' [H1 H2]]]; [congruence|assumption|congruence].
        - apply (good_ext _ (done t)); [assumption|]. intros x. unfold done. split; intros [B1 [B2 B3]]; (split; [assumption|split; [assumption|]]); [lia|].
          apply (NF x B1) in B3. destruct B3 as [B3|B3]; [assumption|]. exfalso. destruct (first_same x d) as [->|[r' [H1 H2]]]; [congruence|contradiction|congruence].
        - lia.
        - intros i Hi. rewrite GN. apply (mi_empty _ _ M), Hi.
        - intros r x Hr Hx Hlt. apply (NF x (own_link r x Hr Hx)) in Hlt. destruct Hlt as [Hlt|Hlt].
          + destruct (mi_link _ _ M r x Hr Hx Hlt) as [i Hi]. exists i. intros m Hm. rewrite GN. apply Hi, Hm.
          + exfalso. assert (X1 : linkedAt q x = Some r) by (apply linkedAt_some; auto). destruct (first_same x d) as [->|[r' [H1 H2]]]; congruence.
        - intros x. rewrite sins_In, (mi_late _ _ M). split; [intros [->|[B1 [B2 B3]]]; (split; [assumption|split; [assumption|lia]])|]. intros [B1 [B2 B3]].
          assert (firstOf q x = x) by (unfold firstOf; rewrite (late_unlinked x B2); reflexivity). assert (X := NF x B1). destruct (Nat.eq_dec x d) as [->|]; [auto|]. right. repeat split; try assumption. lia.
        - apply sins_isset, (mi_lateset _ _ M). }
      assert (Sub : forall x, In x (sdel d (i_deps s)) -> In x (i_deps s)) by (intros x Hx; apply sdel_In in Hx; [apply Hx|apply (mi_set _ _ M)]).
      destruct (nextIn (i_deps s) d) as [x|] eqn:Nxd.
      * destruct (Nat.eqb_spec x d) as [->|_]; [destruct (Hnx d eq_refl eq_refl)|]. eexists. split; [reflexivity|]. split; [exact MS|exact Sub].
      * eexists. split; [reflexivity|]. split; [exact MS|exact Sub].
    + assert (Ld : ~ late d) by (intros X; apply (late_eq d e Hde) in X; congruence).
      assert (Hfr : In d (nth e (i_free s) [])) by (apply (mi_free _ _ M); split; [assumption|]; split; [assumption|]; right; lia).
      assert (Le : e < length (i_free s)) by (rewrite (mi_lenf _ _ M); apply (dep_lt _ _ _ Hde)).
      unfold eraseFree. rewrite (proj2 (sfind_In _ _) Hfr). eexists. split; [reflexivity|]. split; [|auto].
      assert (Only : forall x, ownDep q x -> firstOf q x = d -> x = d).
      { intros x Hx H. destruct (first_same x d) as [->|[r' [H1 H2]]]; [congruence|reflexivity|congruence]. }
      constructor; cbn [i_deps i_it i_free i_iters i_i i_delayed].
      * apply (mi_set _ _ M).
      * apply (mi_in _ _ M).
      * intros x Hx Hle. apply (mi_left _ _ M); [assumption|lia].
      * intros x Hx Hle. assert (t <= firstOf q x) by (apply (mi_gone _ _ M); [assumption|lia]). assert (Ox := mi_in _ _ M x Hx). assert (d <= firstOf q x) by (apply Min; assumption).
        destruct (Nat.eq_dec (firstOf q x) d) as [X|X]; [|lia]. apply Only in X; [|assumption]. lia.
      * reflexivity.
      * rewrite setNth_length. apply (mi_lenf _ _ M).
      * intros e'. rewrite nth_setNth. destruct (_ && _); [apply sdel_isset|]; apply (mi_freeset _ _ M).
      * intros e' x. rewrite nth_setNth, (proj2 (Nat.ltb_lt _ _) Le), andb_true_r.
        assert (Y : In x (if e' =? e then sdel d (nth e (i_free s) []) else nth e' (i_free s) []) <-> In x (nth e' (i_free s) []) /\ ~ (e' = e /\ x = d)).
        { destruct (Nat.eqb_spec e' e) as [->|]; [rewrite sdel_In by apply (mi_freeset _ _ M); tauto|tauto]. }
        rewrite Y, (mi_free _ _ M). split.
        -- intros [[B1 [B2 B3]] B4]. split; [assumption|]. split; [assumption|]. destruct B3 as [B3|B3]; [auto|]. right.
           assert (Ox : ownDep q x) by (exists e'; auto). assert (d <= firstOf q x) by (apply Min; assumption). destruct (Nat.eq_dec (firstOf q x) d) as [X|X]; [|lia].
           exfalso. apply Only in X; [|assumption]. subst x. apply B4. split; [apply (eq_unique d); assumption|reflexivity].
        -- intros [B1 [B2 B3]]. split; [split; [assumption|split; [assumption|destruct B3; [auto|right; lia]]]|]. intros [-> ->]. destruct B3; [contradiction|lia].
      * apply (good_ext _ (fun x => done t x \/ x = d)).
        -- apply good_add; [assumption|lia| |].
           ++ intros [_ [_ X]]. lia.
           ++ intros y. rewrite GN, (mi_empty _ _ M) by lia. intros [].
        -- intros x. unfold done. split.
           ++ intros [[B1 [B2 B3]]| ->]; [repeat split; try assumption; lia|]. split; [assumption|]. split; [assumption|lia].
           ++ intros [B1 [B2 B3]]. apply (NF x B1) in B3. destruct B3 as [B3|B3]; [left; auto|right; apply Only; assumption].
      * rewrite addTo_length. lia.
      * intros i Hi. rewrite addTo_nth by lia. destruct (Nat.eqb_spec i (i_i s)); [lia|]. rewrite GN. apply (mi_empty _ _ M). lia.
      * intros r x Hr Hx Hlt. apply (NF x (own_link r x Hr Hx)) in Hlt. destruct Hlt as [Hlt|Hlt].
        -- destruct (mi_link _ _ M r x Hr Hx Hlt) as [i Hi]. exists i. intros m Hm. rewrite addTo_nth by lia. specialize (Hi m Hm). destruct (Nat.eqb_spec i (i_i s)) as [->|]; [apply sins_In; right|]; rewrite GN; assumption.
        -- exfalso. assert (X1 : linkedAt q x = Some r) by (apply linkedAt_some; auto). assert (x = d) by (apply Only; [apply (own_link r); assumption|assumption]). congruence.
      * intros x. rewrite (mi_late _ _ M). split; intros [B1 [B2 B3]]; (split; [assumption|split; [assumption|]]); [lia|].
        assert (firstOf q x = x) by (unfold firstOf; rewrite (late_unlinked x B2); reflexivity). assert (X := NF x B1). destruct (Nat.eq_dec x d) as [->|]; [contradiction|lia].
      * apply (mi_lateset _ _ M).
Qed.

Lemma loop_ok : forall k t s, MI t s -> length (filter (fun x => t <=? x) (i_deps s)) < k -> exists s' t', placeLoop k q s = IOk s' /\ MI t' s' /\ i_it s' = None.
Proof.
  induction k as [|k IH]; intros t s M H; [lia|]. cbn [placeLoop]. destruct (i_it s) as [d|] eqn:E; [|exists s, t; auto].
  destruct (step_ok t s d M E) as [s' [E' [M' Sub]]]. rewrite E'. apply (IH (S d)); [assumption|].
  destruct (head_first t s d M E) as [Od [Htd [Hf _]]].
  assert (S (length (filter (fun x => S d <=? x) (i_deps s'))) <= length (filter (fun x => t <=? x) (i_deps s))); [|lia].
  change (length (d :: filter (fun x => S d <=? x) (i_deps s')) <= length (filter (fun x => t <=? x) (i_deps s))).
  apply NoDup_incl_length.
  - constructor; [intros X; apply filter_In in X; destruct X as [_ X]; apply Nat.leb_le in X; lia|apply NoDup_filter, isset_nodup, (mi_set _ _ M')].
  - intros x [<-|Hx]; apply filter_In.
    + split; [apply (mi_left _ _ M); [assumption|lia]|apply Nat.leb_le; assumption].
    + apply filter_In in Hx. destruct Hx as [H1 H2]. apply Nat.leb_le in H2. split; [apply Sub, H1|apply Nat.leb_le; lia].
Qed.

(** ** The delayed dependents *)
Lemma freeIndex_new used : isset used -> ~ In (freeIndex used) used.
Proof.
  destruct used as [|i1 r]; [intros _ []|]. revert i1. induction r as [|i2 r IH]; intros i1 Hs.
  - cbn. lia.
  - cbn [freeIndex]. apply isset_cons in Hs. destruct Hs as [Hs Hlt]. specialize (IH i2 Hs).
    assert (H2 := Hlt i2 (or_introl eq_refl)). apply isset_cons in Hs. destruct Hs as [Hs Hlt2].
    destruct (Nat.eqb_spec (i2 - i1) 1) as [X|X].
    + change (~ In (freeIndex (i2 :: r)) (i1 :: i2 :: r)). intros [Y|Y]; [|exact (IH Y)].
      assert (G : forall l a, isset (a :: l) -> a < freeIndex (a :: l)).
      { clear. induction l as [|b l IH]; intros a Hs; cbn [freeIndex]; [lia|]. apply isset_cons in Hs. destruct Hs as [Hs Hlt]. specialize (Hlt b (or_introl eq_refl)).
        destruct (b - a =? 1); [|lia]. change (a < freeIndex (b :: l)). specialize (IH b Hs). lia. }
      assert (Z := G r i2 (proj2 (isset_cons i2 r) (conj Hs Hlt2))). lia.
    + intros [Y|[Y|Y]]; [lia|lia|]. specialize (Hlt2 _ Y). lia.
Qed.

Lemma good_addAll iters P i ds : good iters P -> i < length iters -> (forall x, In x ds -> ~ P x) ->
  (forall x y, In x ds -> In y (nth i iters []) -> ~ sameEquation eqs x y) -> (forall x y, In x ds -> In y ds -> sameEquation eqs x y -> x = y) ->
  good (setNth iters i (sinsAll ds (nth i iters []))) (fun x => P x \/ In x ds).
Proof.
  intros [A B C] L N E Ed.
  assert (X : forall j x, In x (nth j (setNth iters i (sinsAll ds (nth i iters []))) []) <-> In x (nth j iters []) \/ (j = i /\ In x ds)).
  { intros j x. rewrite nth_setNth, (proj2 (Nat.ltb_lt _ _) L), andb_true_r. destruct (Nat.eqb_spec j i) as [->|]; [rewrite sinsAll_In|]; tauto. }
  assert (Nd : forall d j, In d ds -> ~ In d (nth j iters [])) by (intros d j Hd Hj; apply (N d Hd), C; exists j; assumption).
  constructor.
  - intros x j k Hj Hk. apply X in Hj. apply X in Hk. destruct Hj as [Hj|[-> Hj]], Hk as [Hk|[-> Hk]]; [apply (A x); assumption|destruct (Nd x j Hk Hj)|destruct (Nd x k Hj Hk)|reflexivity].
  - intros j a b Ha Hb S. apply X in Ha. apply X in Hb. destruct Ha as [Ha|[-> Ha]], Hb as [Hb|[? Hb]]; [apply (B j); assumption| | |apply Ed; assumption].
    + subst j. exfalso. apply (E b a Hb Ha), sameEq_sym, S.
    + exfalso. apply (E a b Ha Hb S).
  - intros x. rewrite <- C. split.
    + intros [j Hj]. apply X in Hj. destruct Hj as [Hj|[_ Hj]]; [left; exists j; assumption|right; assumption].
    + intros [[j Hj]|Hx]; [exists j|exists i]; apply X; auto.
Qed.

Definition lists_ok (es : list nat) (ls : list (list nat)) : Prop :=
  (forall l, In l ls -> NoDup l) /\
  (forall i j l l' x y, nth_error ls i = Some l -> nth_error ls j = Some l' -> i <> j -> In x l -> In y l' -> ~ sameEquation eqs x y) /\
  (forall l x, In l ls -> In x l -> exists e, In e es /\ In x (deps0 e)).

Lemma in_heads ls x : In x (headsOf ls) <-> exists l', In (x :: l') ls.
Proof.
  unfold headsOf. rewrite in_flat_map. split.
  - intros [[|y l] [H1 H2]]; cbn in H2; [destruct H2|]. destruct H2 as [->|[]]. exists l. assumption.
  - intros [l H]. exists (x :: l). split; [assumption|left; reflexivity].
Qed.

Lemma tl_ok es ls : lists_ok es ls -> lists_ok es (map (@tl nat) ls).
Proof.
  assert (T : forall (l : list nat) x, In x (tl l) -> In x l) by (intros [|y l] x H; [destruct H|right; assumption]).
  intros [A [B C]]. split; [|split].
  - intros l Hl. apply in_map_iff in Hl. destruct Hl as [l0 [<- Hl]]. specialize (A l0 Hl). destruct l0; [constructor|]. inversion A. assumption.
  - intros i j l l' x y Hi Hj Hne Hx Hy. rewrite nth_error_map in Hi, Hj. destruct (nth_error ls i) as [li|] eqn:Ei; [|discriminate]. destruct (nth_error ls j) as [lj|] eqn:Ej; [|discriminate].
    cbn [option_map] in Hi, Hj. injection Hi as <-. injection Hj as <-. apply (B i j li lj); auto.
  - intros l x Hl Hx. apply in_map_iff in Hl. destruct Hl as [l0 [<- Hl]]. apply (C l0); auto.
Qed.

Lemma len_tl ls : headsOf ls <> [] -> length (concat (map (@tl nat) ls)) < length (concat ls).
Proof.
  assert (Le : forall ls : list (list nat), length (concat (map (@tl nat) ls)) <= length (concat ls)).
  { induction ls0 as [|[|x l] r IH]; cbn; rewrite ?app_length; lia. }
  induction ls as [|[|x l] r IH]; cbn [map concat tl headsOf flat_map firstn app]; [congruence| |].
  - cbn. exact IH.
  - intros _. specialize (Le r). cbn. rewrite !app_length. lia.
Qed.

Lemma concat_split ls x : In x (concat ls) <-> In x (headsOf ls) \/ In x (concat (map (@tl nat) ls)).
Proof.
  induction ls as [|[|y l] r IH]; cbn [concat map tl]; [cbn; tauto|cbn; exact IH|].
  change (headsOf ((y :: l) :: r)) with ([y] ++ headsOf r). rewrite !in_app_iff, IH. cbn [In]. tauto.
Qed.

Lemma rounds_ok es : forall k ls used iters P, lists_ok es ls -> length (concat ls) < k -> isset used -> good iters P ->
  (forall x, In x (concat ls) -> ~ P x) -> (forall j y e, In y (nth j iters []) -> In y (deps0 e) -> In e es -> In j used) ->
  exists iters', placeRounds k ls used iters = IOk iters' /\ good iters' (fun x => P x \/ In x (concat ls)) /\
    (forall j y, In y (nth j iters []) -> In y (nth j iters' [])) /\ (forall j y, In y (nth j iters' []) -> In y (nth j iters []) \/ In y (concat ls)).
Proof.
  induction k as [|k IH]; intros ls used iters P HL Hk Hs G HP HU; [lia|]. cbn [placeRounds].
  assert (HH : headsOf ls = [] \/ headsOf ls <> []) by (destruct (headsOf ls); [left; reflexivity|right; discriminate]).
  destruct HH as [HH|HH].
  - rewrite HH. exists iters. split; [reflexivity|].
    assert (Nil : forall x, ~ In x (concat ls)).
    { clear -HH. induction ls as [|[|y l] r IH]; cbn; [auto|apply IH; exact HH|]. discriminate. }
    split; [apply (good_ext _ P); [assumption|]; intros d; specialize (Nil d); tauto|]. split; auto.
  - set (i := freeIndex used). set (it1 := growTo iters (S i)). set (ds := headsOf ls) in *.
    assert (Ln : i < length it1) by (unfold it1; rewrite growTo_length; lia).
    assert (N1 : forall j, nth j it1 [] = nth j iters []) by (intros j; apply growTo_nth).
    assert (G1 : good it1 P) by (apply (good_nth iters); assumption).
    assert (Hnew : forall x y e, In x ds -> In y (nth i it1 []) -> In y (deps0 e) -> ~ In e es).
    { intros x y e Hx Hy He Hes. rewrite N1 in Hy. apply (freeIndex_new used Hs). apply (HU i y e); assumption. }
    destruct HL as [A [B C]].
    assert (Hd : forall x, In x ds -> exists j l, nth_error ls j = Some (x :: l)).
    { intros x Hx. apply in_heads in Hx. destruct Hx as [l Hl]. apply In_nth_error in Hl. destruct Hl as [j Hj]. exists j, l. assumption. }
    assert (Hc : forall x, In x ds -> exists e, In e es /\ In x (deps0 e)).
    { intros x Hx. destruct (Hd x Hx) as [j [l Hj]]. apply (C (x :: l)); [apply (nth_error_In _ _ Hj)|left; reflexivity]. }
    assert (G2 : good (setNth it1 i (sinsAll ds (nth i it1 []))) (fun x => P x \/ In x ds)).
    { apply good_addAll; try assumption.
      - intros x Hx. apply HP. apply concat_split. left. assumption.
      - intros x y Hx Hy [e [H1 H2]]. destruct (Hc x Hx) as [e' [He' Hx']]. assert (e' = e) by (apply (eq_unique x); assumption). subst e'. apply (Hnew x y e); assumption.
      - intros x y Hx Hy HS. destruct (Hd x Hx) as [j [l Hj]]. destruct (Hd y Hy) as [j' [l' Hj']]. destruct (Nat.eq_dec j j') as [->|Hne]; [congruence|].
        exfalso. apply (B j j' (x :: l) (y :: l') x y); try assumption; left; reflexivity. }
    assert (Nx : forall j x, In x (nth j (setNth it1 i (sinsAll ds (nth i it1 []))) []) <-> In x (nth j iters []) \/ (j = i /\ In x ds)).
    { intros j x. rewrite nth_setNth, (proj2 (Nat.ltb_lt _ _) Ln), andb_true_r. destruct (Nat.eqb_spec j i) as [->|]; [rewrite sinsAll_In|]; rewrite N1; tauto. }
    assert (K1 : length (concat (map (@tl nat) ls)) < k) by (assert (Y := len_tl ls HH); lia).
    destruct (IH (map (@tl nat) ls) (sins i used) (setNth it1 i (sinsAll ds (nth i it1 []))) (fun x => P x \/ In x ds)) as [iters' [E' [G' [Mono Only]]]].
    + apply tl_ok. split; [assumption|]. split; assumption.
    + assumption.
    + apply sins_isset, Hs.
    + assumption.
    + intros x Hx [Y|Y]; [apply (HP x); [apply concat_split; right; assumption|assumption]|].
      destruct (Hd x Y) as [j [l Hj]]. apply in_concat in Hx. destruct Hx as [l1 [Hl1 Hx]]. apply In_nth_error in Hl1. destruct Hl1 as [j1 Hj1]. rewrite nth_error_map in Hj1.
      destruct (nth_error ls j1) as [l2|] eqn:E2; [|discriminate]. cbn [option_map] in Hj1. injection Hj1 as <-.
      destruct (Nat.eq_dec j j1) as [<-|Hne].
      * assert (l2 = x :: l) by congruence. subst l2. cbn [tl] in Hx. assert (ND := A _ (nth_error_In _ _ Hj)). inversion ND; contradiction.
      * destruct (Hc x Y) as [e [_ He]]. apply (B j j1 (x :: l) l2 x x Hj E2 Hne); [left; reflexivity|destruct l2; [destruct Hx|right; assumption]|exists e; auto].
    + intros j y e Hy He Hes. apply Nx in Hy. apply sins_In. destruct Hy as [Hy|[-> _]]; [right; apply (HU j y e); assumption|left; reflexivity].
    + exists iters'. split; [|split; [|split]].
      * destruct ds; [congruence|]. exact E'.
      * apply (good_ext _ (fun x => (P x \/ In x ds) \/ In x (concat (map (@tl nat) ls)))); [assumption|]. intros x. rewrite (concat_split ls). tauto.
      * intros j y Hy. apply Mono, Nx. left. assumption.
      * intros j y Hy. rewrite (concat_split ls). apply Only in Hy. rewrite Nx in Hy. tauto.
Qed.

Lemma usedBy_in iters es j : In j (usedBy q iters es) <-> exists y e, In y (nth j iters []) /\ In y (deps0 e) /\ In e es.
Proof.
  unfold usedBy. rewrite filter_In, in_seq, existsb_exists. split.
  - intros [_ [y [Hy X]]]. assert (S := dep2EquationFrom_spec eqs y 0). fold (dep2Equation eqs y) in S. destruct (dep2Equation eqs y) as [e|]; [|discriminate].
    destruct S as [_ S]. rewrite Nat.sub_0_r in S. apply sfind_In in X. exists y, e. auto.
  - intros [y [e [Hy [He Hes]]]]. split.
    + destruct (Nat.lt_ge_cases j (length iters)) as [X|X]; [lia|]. rewrite nth_overflow in Hy by exact X. destruct Hy.
    + exists y. split; [assumption|]. rewrite (eq_of y e He). apply sfind_In, Hes.
Qed.
Lemma usedBy_set iters es : isset (usedBy q iters es).
Proof. unfold usedBy. apply filter_sorted, seq_sorted. Qed.

Definition lateIn (delayed : set) (ps : list nat) (d : nat) : Prop := In d delayed /\ exists e p, In p ps /\ In d (deps0 e) /\ relAt q e = Some p.

Lemma delayed_ok iters0 delayed : isset delayed -> (forall d, In d delayed -> ownDep q d) -> forall ps iters P, NoDup ps ->
  good iters P -> (forall x, lateIn delayed ps x -> ~ P x) ->
  (forall j y, In y (nth j iters []) -> In y (nth j iters0 []) \/ forall e p, In y (deps0 e) -> relAt q e = Some p -> ~ In p ps) ->
  exists iters', placeDelayed q iters0 delayed ps iters = IOk iters' /\ good iters' (fun x => P x \/ lateIn delayed ps x) /\
    (forall j y, In y (nth j iters []) -> In y (nth j iters' [])).
Proof.
  intros Hds Hown. induction ps as [|p ps IH]; intros iters P ND G HP HI; cbn [placeDelayed].
  - exists iters. split; [reflexivity|]. split; [|auto]. apply (good_ext _ P); [assumption|]. intros d. split; [auto|]. intros [X|[_ [e [p [[] _]]]]]; assumption.
  - inversion ND as [|? ? Np ND']; subst. set (es := nth p (q_rel q) []).
    set (es' := filter (fun e => match relAt q e with Some p' => p' =? p | None => false end) es).
    set (ls := map (fun e => filter (fun d => sfind d (deps0 e)) delayed) es').
    assert (Es : forall e, In e es' <-> relAt q e = Some p).
    { intros e. unfold es'. rewrite filter_In. split.
      - intros [_ X]. destruct (relAt q e) as [p'|]; [|discriminate]. apply Nat.eqb_eq in X. congruence.
      - intros X. rewrite X. split; [|apply Nat.eqb_refl]. apply relAt_some in X. destruct X as [t [X1 X2]]. replace es with t by (symmetry; apply nth_error_nth; exact X1). assumption. }
    assert (NDe : NoDup es').
    { apply NoDup_filter. destruct (nth_error (q_rel q) p) as [t|] eqn:X; [|replace es with (@nil nat) by (symmetry; apply nth_overflow, nth_error_None, X); constructor].
      replace es with t by (symmetry; apply nth_error_nth; exact X). apply isset_nodup. apply (qo_relset _ _ Q t (nth_error_In _ _ X)). }
    assert (Cc : forall x, In x (concat ls) <-> In x delayed /\ exists e, In x (deps0 e) /\ relAt q e = Some p).
    { intros x. unfold ls. rewrite in_concat. split.
      - intros [l [Hl Hx]]. apply in_map_iff in Hl. destruct Hl as [e [<- He]]. apply filter_In in Hx. destruct Hx as [H1 H2]. apply sfind_In in H2. apply Es in He. split; [assumption|exists e; auto].
      - intros [H1 [e [H2 H3]]]. eexists. split; [apply in_map_iff; exists e; split; [reflexivity|apply Es, H3]|]. apply filter_In. split; [assumption|apply sfind_In, H2]. }
    assert (HL : lists_ok es ls).
    { split; [|split].
      - intros l Hl. unfold ls in Hl. apply in_map_iff in Hl. destruct Hl as [e [<- _]]. apply NoDup_filter, isset_nodup, Hds.
      - intros i j l l' x y Hi Hj Hne Hx Hy [e [H1 H2]]. unfold ls in Hi, Hj. rewrite nth_error_map in Hi, Hj.
        destruct (nth_error es' i) as [ei|] eqn:Ei; [|discriminate]. destruct (nth_error es' j) as [ej|] eqn:Ej; [|discriminate]. cbn [option_map] in Hi, Hj. injection Hi as <-. injection Hj as <-.
        apply filter_In in Hx. apply filter_In in Hy. destruct Hx as [_ Hx], Hy as [_ Hy]. apply sfind_In in Hx. apply sfind_In in Hy.
        assert (ei = e) by (apply (eq_unique x); assumption). assert (ej = e) by (apply (eq_unique y); assumption). subst ei ej.
        apply Hne. rewrite NoDup_nth_error in NDe. apply NDe; [apply nth_error_Some; congruence|congruence].
      - intros l x Hl Hx. unfold ls in Hl. apply in_map_iff in Hl. destruct Hl as [e [<- He]]. apply filter_In in Hx. destruct Hx as [_ Hx]. apply sfind_In in Hx. exists e. split; [|assumption].
        unfold es' in He. apply filter_In in He. apply He. }
    assert (NDc : NoDup (concat ls)).
    { unfold ls. clear -NDe Hds Q. induction es' as [|e r IH]; cbn [map concat]; [constructor|]. inversion NDe as [|? ? N1 N2]; subst.
      apply NoDup_app_intro_local; [apply NoDup_filter, isset_nodup, Hds|apply IH, N2|]. intros x Hx Hy. apply filter_In in Hx. destruct Hx as [_ Hx]. apply sfind_In in Hx.
      apply in_concat in Hy. destruct Hy as [l [Hl Hy]]. apply in_map_iff in Hl. destruct Hl as [e' [<- He']]. apply filter_In in Hy. destruct Hy as [_ Hy]. apply sfind_In in Hy.
      assert (e = e') by (apply (po_apart _ _ (qo_patterns _ _ Q) e e' x); assumption). subst e'. contradiction. }
    destruct (rounds_ok es (S (length delayed)) ls (usedBy q iters0 es) iters P) as [it1 [E1 [G1 [Mono Only]]]].
    + assumption.
    + assert (length (concat ls) <= length delayed); [|lia]. apply NoDup_incl_length; [assumption|]. intros x Hx. apply Cc in Hx. apply Hx.
    + apply usedBy_set.
    + assumption.
    + intros x Hx. apply HP. apply Cc in Hx. destruct Hx as [H1 [e [H2 H3]]]. split; [assumption|]. exists e, p. split; [left; reflexivity|auto].
    + intros j y e Hy He Hes. apply usedBy_in. exists y, e. split; [|auto]. destruct (HI j y Hy) as [X|X]; [assumption|]. exfalso. apply (X e p He); [|left; reflexivity].
      apply relAt_some. destruct (nth_error (q_rel q) p) as [t|] eqn:Y; [|replace es with (@nil nat) in Hes by (symmetry; apply nth_overflow, nth_error_None, Y); destruct Hes].
      replace es with t in Hes by (symmetry; apply nth_error_nth; exact Y). exists t. auto.
    + change (placeRounds (S (length delayed)) ls (usedBy q iters0 es) iters) with (placeRounds (S (length delayed)) ls (usedBy q iters0 es) iters) in E1.
      fold es es' ls. rewrite E1.
      destruct (IH it1 (fun x => P x \/ In x (concat ls)) ND' G1) as [it2 [E2 [G2 M2]]].
      * intros x [H1 [e [p' [H2 [H3 H4]]]]] [Y|Y]; [apply (HP x); [|assumption]; split; [assumption|]; exists e, p'; split; [right; assumption|auto]|].
        apply Cc in Y. destruct Y as [_ [e' [Y1 Y2]]]. assert (e' = e) by (apply (eq_unique x); assumption). subst e'. assert (p' = p) by congruence. subst p'. contradiction.
      * intros j y Hy. apply Only in Hy. destruct Hy as [Hy|Hy].
        -- destruct (HI j y Hy) as [X|X]; [left; assumption|]. right. intros e p' H1 H2 H3. apply (X e p' H1 H2). right. assumption.
        -- right. intros e p' H1 H2 H3. apply Cc in Hy. destruct Hy as [_ [e' [Y1 Y2]]]. assert (e' = e) by (apply (eq_unique y); assumption). subst e'. assert (p' = p) by congruence. subst p'. contradiction.
      * exists it2. split; [assumption|]. split; [|intros j y Hy; apply M2, Mono, Hy].
        apply (good_ext _ (fun x => (P x \/ In x (concat ls)) \/ lateIn delayed ps x)); [assumption|]. intros x. rewrite Cc. unfold lateIn. cbn [In]. split.
        -- intros [[X|[X1 [e [X2 X3]]]]|[X1 [e [p' [X2 X3]]]]]; [left; assumption| |]; right; (split; [assumption|]); [exists e, p; auto|exists e, p'; auto].
        -- intros [X|[X1 [e [p' [[<-|X2] X3]]]]]; [left; left; assumption|left; right; split; [assumption|exists e; assumption]|right; split; [assumption|exists e, p'; auto]].
Qed.

Lemma generate_ok : exists iters, generateIterations q = IOk iters /\ iterationsOk q iters.
Proof.
  unfold generateIterations. set (deps := sinsAll (flat_map (dependentsOf eqs) (q_own q)) []). set (free := map _ _).
  assert (Dep : forall d, In d deps <-> ownDep q d).
  { intros d. unfold deps. rewrite sinsAll_In, in_flat_map. cbn [In]. unfold ownDep. split; [intros [X|[]]; exact X|auto]. }
  assert (Ds : isset deps) by (apply sinsAll_isset; constructor).
  assert (Fr : forall e, nth e free [] = if sfind e (q_own q) then deps0 e else []).
  { intros e. unfold free. destruct (Nat.lt_ge_cases e (length eqs)) as [L|L].
    - apply nth_error_nth. rewrite nth_error_map. rewrite (nth_error_nth' _ 0) by (rewrite seq_length; exact L). rewrite seq_nth by exact L. reflexivity.
    - rewrite nth_overflow by (rewrite map_length, seq_length; exact L). unfold dependentsOf. rewrite (nth_overflow eqs) by exact L. destruct (sfind e (q_own q)); reflexivity. }
  assert (M0 : MI 0 (mkI deps (hd_error deps) free [] 0 [])).
  { constructor; cbn [i_deps i_it i_free i_iters i_i i_delayed].
    - assumption.
    - intros d. apply Dep.
    - intros d Hd _. apply Dep, Hd.
    - intros d _ _. lia.
    - unfold firstFrom. destruct deps; reflexivity.
    - unfold free. rewrite map_length, seq_length. reflexivity.
    - intros e. rewrite Fr. destruct (sfind e (q_own q)); [apply (po_set _ _ (qo_patterns _ _ Q))|constructor].
    - intros e d. rewrite Fr. destruct (sfind e (q_own q)) eqn:F.
      + apply sfind_In in F. split; [intros H; split; [assumption|split; [assumption|right; lia]]|intros H; apply H].
      + split; [intros []|]. intros [H _]. apply sfind_In in H. congruence.
    - constructor.
      + intros d [|i] j H; destruct H.
      + intros [|i] a b H; destruct H.
      + intros d. split; [intros [[|i] H]; destruct H|intros [_ [_ H]]; lia].
    - cbn. lia.
    - intros [|i] _; reflexivity.
    - intros r d _ _ H. lia.
    - intros d. split; [intros []|intros [_ [_ H]]; lia].
    - constructor. }
  destruct (loop_ok (S (length deps)) 0 _ M0) as [s [t [E [M End]]]].
  { cbn [i_deps]. assert (X : forall (f : nat -> bool) l, length (filter f l) <= length l) by (intros f l; induction l as [|x l IHl]; cbn; [lia|destruct (f x); cbn; lia]). specialize (X (fun x => 0 <=? x) deps). lia. }
  rewrite E. rewrite (mi_it _ _ M) in End. unfold firstFrom in End. rewrite find_none in End.
  assert (All : forall d, ownDep q d -> firstOf q d < t).
  { intros d Hd. destruct (Nat.lt_ge_cases (firstOf q d) t) as [X|X]; [assumption|]. exfalso. assert (Y : In (firstOf q d) (i_deps s)) by (apply (mi_left _ _ M); [apply first_own, Hd|rewrite first_first; assumption]).
    specialize (End _ Y). cbn beta in End. apply Nat.leb_gt in End. lia. }
  destruct (delayed_ok (i_iters s) (i_delayed s) (mi_lateset _ _ M)) with (ps := seq 0 (length (q_rel q))) (iters := i_iters s) (P := done t) as [iters [E2 [G2 Mono]]].
  - intros d Hd. apply (mi_late _ _ M) in Hd. apply Hd.
  - apply seq_NoDup.
  - apply (mi_good _ _ M).
  - intros x [H _] [_ [X _]]. apply (mi_late _ _ M) in H. apply X, H.
  - auto.
  - exists iters. split; [assumption|]. constructor.
    + intros d Hd. apply (gd_in _ _ G2). destruct (late_dec d) as [L|L].
      * right. split.
        -- apply (mi_late _ _ M). split; [assumption|]. split; [assumption|]. assert (X := All d Hd). unfold firstOf in X. rewrite (late_unlinked d L) in X. assumption.
        -- destruct L as [e [p [H1 H2]]]. exists e, p. split; [|auto]. apply relAt_some in H2. destruct H2 as [es [H2 _]]. apply in_seq. assert (p < length (q_rel q)) by (apply nth_error_Some; congruence). lia.
      * left. split; [assumption|]. split; [assumption|]. apply All, Hd.
    + intros d i Hi. destruct (proj1 (gd_in _ _ G2 d)) as [X|[X _]]; [exists i; assumption|apply X|]. apply (mi_late _ _ M) in X. apply X.
    + apply (gd_once _ _ G2).
    + intros r Hr. destruct (ro_set _ _ (qo_linked _ _ Q) r Hr) as [_ Hl]. destruct r as [|d r']; [cbn in Hl; lia|].
      destruct (mi_link _ _ M (d :: r') d Hr (or_introl eq_refl) (All d (own_link _ _ Hr (or_introl eq_refl)))) as [i Hi]. exists i. intros m Hm. apply Mono, Hi, Hm.
    + apply (gd_eq _ _ G2).
Qed.
End LOOP.

(** Every dependent of the loop is in exactly one iteration and the related ones in the
    same, provided that the relations follow the order of the dependents in every
    equation and that no equation with relations by indexed variables is also linked by
    non-indexed ones. Without either of these it is false (below). *)
Theorem C51_every_dependent_in_one_iteration_partial : forall q n, loopOk q n -> ordered q -> separate q ->
  exists iters, generateIterations q = IOk iters /\ iterationsOk q iters.
Proof. exact generate_ok. Qed.
Print Assumptions C51_every_dependent_in_one_iteration_partial.

(** The same for the loops and the relations found by any history of attempts to combine
    loops (C50), with any groups [rel] of equations linked by non-indexed variables. *)
Definition equationsOf (eqs : list set) (s : lstate) (loop : nat) : list nat := filter (fun e => loopOf s e =? loop) (seq 0 (length eqs)).
Definition loopAfter (eqs : list set) (s : lstate) (loop : nat) (rel : list (list nat)) : loopIn :=
  mkLoop eqs (equationsOf eqs s loop) (nth loop (l_linked s) []) rel.
Definition groupsOk (q : loopIn) : Prop := disjoint (q_rel q) /\ forall es, In es (q_rel q) -> isset es /\ forall e, In e es -> In e (q_own q).
Theorem C51_iterations_after_any_attempts_partial : forall eqs n l s loop rel,
  patternsOk eqs n -> attemptsOk eqs l (linit eqs n) -> runAttempts eqs l (linit eqs n) = LOk s ->
  groupsOk (loopAfter eqs s loop rel) -> ordered (loopAfter eqs s loop rel) -> separate (loopAfter eqs s loop rel) ->
  exists iters, generateIterations (loopAfter eqs s loop rel) = IOk iters /\ iterationsOk (loopAfter eqs s loop rel) iters.
Proof.
  intros eqs n l s loop rel P H E [D S] O Sp. apply (generate_ok _ n); [|assumption|assumption].
  destruct (runAttempts_ok eqs n P l _ (linit_LI eqs n) H) as [s' [E' L]]. assert (s' = s) by congruence. subst s'.
  assert (K := LI_linked eqs n s loop L). constructor; cbn [loopAfter q_eqs q_own q_linked q_rel].
  - assumption.
  - apply (lo_rel _ _ _ K).
  - intros r d Hr Hd. destruct (relations_ok _ _ _ (li_ri _ _ _ L)) as [rs [Er [_ X]]].
    assert (Y : relp (l_rel s) d d). { apply X. exists r. split; [|auto]. apply (li_linked _ _ _ L rs loop r Er) in Hr. apply Hr. }
    destruct Y as [p [Y _]]. destruct (ri_of _ _ _ (li_ri _ _ _ L) d p Y) as [r0 [M In0]]. destruct (ri_mem _ _ _ (li_ri _ _ _ L) p r0 M) as [_ [_ [_ [_ [Z _]]]]].
    destruct (Z d In0) as [e He]. exists e. split; [|assumption]. unfold equationsOf. cbn [q_own loopAfter]. apply filter_In. split.
    + apply in_seq. assert (W := dep_lt eqs d e He). lia.
    + apply Nat.eqb_eq. apply (lo_own _ _ _ K r d e Hr Hd He).
  - exact D.
  - exact S.
Qed.
Print Assumptions C51_iterations_after_any_attempts_partial.

(** Two equations related by indexed variables and two linked by non-indexed ones, with
    one of the latter having one more dependent. *)
Definition C51_eqs : list set := [[0; 1]; [2; 3]; [4; 5; 6]; [7; 8]].
Definition C51_attempts : list attempt := [mkA 0 1 [(0, 0, 1, 2); (0, 1, 1, 3)] true; mkA 1 2 [] true; mkA 0 3 [] true].
Fixpoint issetb (l : list nat) : bool := match l with x :: ((y :: _) as r) => (x <? y) && issetb r | _ => true end.
Definition patternsb (eqs : list set) (n : nat) : bool :=
  forallb (fun e => issetb (nth e eqs []) && forallb (fun d => d <? n) (nth e eqs []) &&
    forallb (fun e' => (e =? e') || negb (existsb (fun d => sfind d (nth e' eqs [])) (nth e eqs []))) (seq 0 (length eqs))) (seq 0 (length eqs)).
Lemma issetb_ok l : issetb l = true -> isset l.
Proof.
  induction l as [|x [|y l] IH]; intros H; [constructor|repeat constructor|]. cbn [issetb] in H. apply andb_true_iff in H. destruct H as [H1 H2]. specialize (IH H2).
  apply Nat.ltb_lt in H1. apply isset_cons. split; [assumption|]. intros z [<-|Hz]; [assumption|]. apply isset_cons in IH. destruct IH as [_ IH]. specialize (IH z Hz). lia.
Qed.
Lemma patternsb_ok eqs n : patternsb eqs n = true -> patternsOk eqs n.
Proof.
  intros H. unfold patternsb in H. rewrite forallb_forall in H.
  assert (K : forall e d, In d (dependentsOf eqs e) -> In e (seq 0 (length eqs))) by (intros e d Hd; apply in_seq; assert (X := dep_lt eqs d e Hd); lia).
  constructor.
  - intros e. destruct (Nat.lt_ge_cases e (length eqs)) as [L|L]; [|unfold dependentsOf; rewrite nth_overflow by exact L; constructor].
    specialize (H e). rewrite !andb_true_iff in H. apply issetb_ok. apply H. apply in_seq. lia.
  - intros e e' d H1 H2. specialize (H e (K e d H1)). rewrite !andb_true_iff in H. destruct H as [_ H]. rewrite forallb_forall in H. specialize (H e' (K e' d H2)). apply orb_true_iff in H. destruct H as [H|H]; [apply Nat.eqb_eq, H|].
    apply negb_true_iff in H. rewrite <- not_true_iff_false in H. exfalso. apply H. apply existsb_exists. exists d. split; [assumption|apply sfind_In; assumption].
  - intros e d Hd. specialize (H e (K e d Hd)). rewrite !andb_true_iff in H. destruct H as [[_ H] _]. rewrite forallb_forall in H. apply Nat.ltb_lt, H, Hd.
Qed.
Ltac attempts_case := repeat (split; [split; [vm_compute; lia|split; [vm_compute; lia|intros e1 d1 e2 d2 H; cbn in H;
        repeat match goal with H : _ \/ _ |- _ => destruct H as [H|H] | H : False |- _ => destruct H | H : (_, _, _, _) = _ |- _ => injection H as <- <- <- <- end;
        (split; [repeat split; cbn; auto 10; discriminate|vm_compute; auto])]]|intros s' E; vm_compute in E; injection E as <-]); exact I.
Example C51_case_patterns : patternsOk C51_eqs 9.
Proof. apply patternsb_ok; reflexivity. Qed.
Example C51_case_attempts : attemptsOk C51_eqs C51_attempts (linit C51_eqs 9).
Proof. unfold C51_attempts. cbn [attemptsOk]. attempts_case. Qed.
Definition C51_q : loopIn := mkLoop C51_eqs [0; 1; 2; 3] [[0; 2]; [1; 3]] [[2; 3]].
Example C51_case : exists s, runAttempts C51_eqs C51_attempts (linit C51_eqs 9) = LOk s /\ loopAfter C51_eqs s 0 [[2; 3]] = C51_q /\
  groupsOk C51_q /\ ordered C51_q /\ separate C51_q /\ generateIterations C51_q = IOk [[0; 2; 4; 7]; [1; 3; 5; 8]; [6]].
Proof.
  eexists. split; [vm_compute; reflexivity|]. split; [vm_compute; reflexivity|]. split; [|split; [|split; [|vm_compute; reflexivity]]].
  - split.
    + intros [|[|i]] [|[|j]] x ri rj H1 H2; cbn in H1, H2; try discriminate. intros; reflexivity.
    + intros es [<-|[]]. split; [repeat constructor|]. cbn. intros e H. tauto.
  - intros e a b He Ha Hb Hlt. cbn in He. destruct He as [<-|[<-|[<-|[<-|[]]]]]; cbn in Ha, Hb;
    repeat match goal with H : _ \/ _ |- _ => destruct H as [H|H] end; try contradiction; subst; cbn; try lia.
  - intros es e d r [<-|[]] He Hd Hr Hin. cbn in He, Hr. destruct He as [<-|[<-|[]]]; cbn in Hd; destruct Hr as [<-|[<-|[]]]; cbn in Hin; lia.
Qed.

(** ** Counterexamples *)

(** Two equations with five related pairs, which do not follow the order of the
    dependents: the variables 2 and 7 are in no iteration and are never computed. *)
Definition C51_lost_eqs : list set := [[0; 2; 4; 5; 9]; [1; 3; 6; 7; 8]].
Definition C51_lost_attempts : list attempt := [mkA 0 1 [(0, 9, 1, 1); (0, 0, 1, 8); (0, 5, 1, 3); (0, 2, 1, 7); (0, 4, 1, 6)] true].
Theorem C51_dependents_in_no_iteration_refuted : exists eqs n l s loop iters d,
  patternsOk eqs n /\ attemptsOk eqs l (linit eqs n) /\ runAttempts eqs l (linit eqs n) = LOk s /\
  generateIterations (loopAfter eqs s loop []) = IOk iters /\ ownDep (loopAfter eqs s loop []) d /\ forall i, ~ In d (nth i iters []).
Proof.
  exists C51_lost_eqs, 10, C51_lost_attempts. eexists. exists 0. eexists. exists 2.
  split; [apply patternsb_ok; reflexivity|]. split; [unfold C51_lost_attempts; cbn [attemptsOk]; attempts_case|]. split; [vm_compute; reflexivity|]. split; [vm_compute; reflexivity|].
  split; [exists 0; cbn; auto|]. intros i H. do 4 (destruct i as [|i]; [cbn in H; lia|]). destruct i; destruct H.
Qed.
Print Assumptions C51_dependents_in_no_iteration_refuted.

(** y0 = f(t0), y1 = f(t1), y2 = g(u), y3 = g(t0), y4 = g(t1): the relations follow the
    order, but y2 has none and it is found as the next dependent of the second equation:
    it is placed twice and the second time an iterator at the end is erased. *)
Definition C51_twice_eqs : list set := [[0; 1]; [2; 3; 4]].
Definition C51_twice_attempts : list attempt := [mkA 0 1 [(0, 0, 1, 3); (0, 1, 1, 4)] true].
Theorem C51_undefined_with_an_unrelated_dependent_refuted : exists eqs n l s loop,
  patternsOk eqs n /\ attemptsOk eqs l (linit eqs n) /\ runAttempts eqs l (linit eqs n) = LOk s /\
  generateIterations (loopAfter eqs s loop []) = IUndef.
Proof.
  exists C51_twice_eqs, 5, C51_twice_attempts. eexists. exists 0.
  split; [apply patternsb_ok; reflexivity|]. split; [unfold C51_twice_attempts; cbn [attemptsOk]; attempts_case|]. split; vm_compute; reflexivity.
Qed.
Print Assumptions C51_undefined_with_an_unrelated_dependent_refuted.

(** y0 = f(t0), y1 = f(t1), y2 = g(t1), y3 = g(t0): the iterator of the next dependent is
    dereferenced at the end. *)
Definition C51_cross_eqs : list set := [[0; 1]; [2; 3]].
Definition C51_cross_attempts : list attempt := [mkA 0 1 [(0, 0, 1, 3); (0, 1, 1, 2)] true].
Theorem C51_undefined_with_crossed_relations_refuted : exists eqs n l s loop,
  patternsOk eqs n /\ attemptsOk eqs l (linit eqs n) /\ runAttempts eqs l (linit eqs n) = LOk s /\
  (forall d, ownDep (loopAfter eqs s loop []) d -> exists r, In r (q_linked (loopAfter eqs s loop [])) /\ In d r) /\
  generateIterations (loopAfter eqs s loop []) = IUndef.
Proof.
  exists C51_cross_eqs, 4, C51_cross_attempts. eexists. exists 0.
  split; [apply patternsb_ok; reflexivity|]. split; [unfold C51_cross_attempts; cbn [attemptsOk]; attempts_case|]. split; [vm_compute; reflexivity|]. split; [|vm_compute; reflexivity].
  intros d [e [He Hd]]. cbn in He. destruct He as [<-|[<-|[]]]; cbn in Hd; cbn; destruct Hd as [<-|[<-|[]]];
    (eexists; split; [left; reflexivity|cbn; auto; fail]) || (eexists; split; [right; left; reflexivity|cbn; auto; fail]).
Qed.
Print Assumptions C51_undefined_with_crossed_relations_refuted.

(** The relations follow the order, but an equation with relations by indexed variables is
    also linked by non-indexed ones: its unrelated dependent was put aside but it is found
    again as the next one of its equation, and the iterator is dereferenced at the end. *)
Definition C51_both_eqs : list set := [[2; 3]; [1; 4; 5]; [0]].
Definition C51_both_attempts : list attempt := [mkA 0 1 [(0, 2, 1, 4); (0, 3, 1, 5)] true; mkA 1 2 [] true].
Theorem C51_undefined_with_both_kinds_of_links_refuted : exists eqs n l s loop rel,
  patternsOk eqs n /\ attemptsOk eqs l (linit eqs n) /\ runAttempts eqs l (linit eqs n) = LOk s /\
  groupsOk (loopAfter eqs s loop rel) /\ ordered (loopAfter eqs s loop rel) /\
  generateIterations (loopAfter eqs s loop rel) = IUndef.
Proof.
  exists C51_both_eqs, 6, C51_both_attempts. eexists. exists 0, [[1; 2]].
  split; [apply patternsb_ok; reflexivity|]. split; [unfold C51_both_attempts; cbn [attemptsOk]; attempts_case|]. split; [vm_compute; reflexivity|].
  split; [|split; [|vm_compute; reflexivity]].
  - split.
    + intros [|[|i]] [|[|j]] x ri rj H1 H2; cbn in H1, H2; try discriminate. intros; reflexivity.
    + intros es [<-|[]]. split; [repeat constructor|]. cbn. intros e H. tauto.
  - intros e a b He Ha Hb Hlt. cbn in He. destruct He as [<-|[<-|[<-|[]]]]; cbn in Ha, Hb;
    repeat match goal with H : _ \/ _ |- _ => destruct H as [H|H] end; try contradiction; subst; cbn; try lia.
Qed.
Print Assumptions C51_undefined_with_both_kinds_of_links_refuted.

(** * findIndexedPath and the indexes of a loop *)
From Coq Require Import List Arith Bool Lia Sorted.
From Verif Require Import LoopTape_model LoopTape_spec LoopTape_graph LoopTape_cmp LoopTape_find.
Import ListNotations.
Local Open Scope nat_scope.

Section Path.
Context {V : Type}.
Variable g : graph V.
Hypothesis W : recordedGraph g.

(** An operation which depends on a position of the table. *)
Definition indexed (idx : indexes) (k : nat) : Prop :=
  exists k' a j, reach g k k' /\ hasPos idx k' a = true /\ argAt g k' a = Some (AN j) /\ isInv g j = true.

Lemma inv_noargs k a : isInv g k = true -> argAt g k a = None.
Proof.
  unfold isInv, argAt. destruct (nth_error g k) as [n|] eqn:E; [|reflexivity]. destruct (n_op n) eqn:O; try discriminate. intros _.
  destruct (W k n E) as [_ [H _]]. rewrite (H O). destruct a; reflexivity.
Qed.
Lemma inv_reach k k' : isInv g k = true -> reach g k k' -> k' = k.
Proof. intros I R. apply reach_first in R. destruct R as [->|[a [r' [A _]]]]; [reflexivity|]. rewrite (inv_noargs k a I) in A. discriminate. Qed.
Lemma inv_indexed idx k : isInv g k = true -> ~ indexed idx k.
Proof. intros I [k' [a [j [R [_ [A _]]]]]]. apply inv_reach in R; [|exact I]. subst. rewrite (inv_noargs k a I) in A. discriminate. Qed.

Definition markOk (idx : indexes) (new : marks) : Prop := forall n f, In (n, f) new -> (f = true <-> indexed idx n).
Definition visits (idx : indexes) (k : nat) (new : marks) : Prop :=
  markOk idx new /\ (forall n f, In (n, f) new -> isInv g n = false -> reach g k n) /\ (forall n, reach g k n -> exists f, In (n, f) new).

Definition pathOk (idx : indexes) (rec : nat -> nat -> marks * list nat -> pout (bool * (marks * list nat))) (k : nat) : Prop :=
  forall j st, j < k -> exists b new ops, rec j j st = POk (b, (new ++ fst st, ops)) /\ (b = true <-> indexed idx j) /\ visits idx j new.

Lemma pathArgs_ok idx rec k n : nth_error g k = Some n -> pathOk idx rec k ->
  forall l pre st flag us, n_args n = pre ++ l ->
  exists f u new ops, pathArgs rec g idx k (List.length pre) l l flag us st = POk (f, u, (new ++ fst st, ops)) /\
    (f = true <-> flag = true \/ exists a j, nth_error l a = Some (AN j) /\ ((isInv g j = true /\ hasPos idx k (List.length pre + a) = true) \/ indexed idx j)) /\
    markOk idx new /\
    (forall m b, In (m, b) new -> isInv g m = false -> exists a j, nth_error l a = Some (AN j) /\ isInv g j = false /\ reach g j m) /\
    (forall a j m, nth_error l a = Some (AN j) -> isInv g j = false -> reach g j m -> exists b, In (m, b) new).
Proof.
  intros En Hrec. induction l as [|x l IH]; intros pre st flag us E.
  - exists flag, us, [], (snd st). split; [destruct st; reflexivity|]. split.
    + split; [auto|]. intros [H|[a [j [H _]]]]; [exact H|destruct a; discriminate].
    + split; [intros m f []|]. split; [intros m b []|]. intros a j m H. destruct a; discriminate.
  - assert (E' : n_args n = (pre ++ [x]) ++ l) by (rewrite <- app_assoc; exact E).
    assert (EL : List.length (pre ++ [x]) = S (List.length pre)) by (rewrite app_length; cbn; lia).
    specialize (IH (pre ++ [x])). rewrite EL in IH.
    destruct x as [v|j]; cbn [pathArgs tl].
    + destruct (IH st flag us E') as [f [u [new [ops [Q1 [Q2 [Q3 [Q4 Q5]]]]]]]]. exists f, u, new, ops. split; [exact Q1|]. split; [|split; [exact Q3|split]].
      * rewrite Q2. split; (intros [H|[a [i [H K]]]]; [left; exact H|right]).
        -- exists (S a), i. split; [exact H|]. rewrite Nat.add_succ_r. exact K.
        -- destruct a as [|a]; [discriminate|]. exists a, i. rewrite Nat.add_succ_r in K. auto.
      * intros m b H K. destruct (Q4 m b H K) as [a [i [X Y]]]. exists (S a), i. auto.
      * intros [|a] i m H K R; [discriminate|]. apply (Q5 a i m H K R).
    + assert (Lj : j < k) by (destruct (W k n En) as [H _]; apply H; rewrite E; apply in_or_app; right; left; reflexivity).
      destruct (isInv g j && hasPos idx k (List.length pre)) eqn:Hp.
      * apply andb_true_iff in Hp. destruct Hp as [Ij Hp]. destruct (IH st true true E') as [f [u [new [ops [Q1 [Q2 [Q3 [Q4 Q5]]]]]]]].
        exists f, u, new, ops. split; [exact Q1|]. split; [|split; [exact Q3|split]].
        -- rewrite Q2. split; intros _; [|left; reflexivity]. right. exists 0, j. split; [reflexivity|]. rewrite Nat.add_0_r. left. auto.
        -- intros m b H K. destruct (Q4 m b H K) as [a [i [X Y]]]. exists (S a), i. auto.
        -- intros [|a] i m H K R; [injection H as <-; congruence|]. apply (Q5 a i m H K R).
      * destruct (Hrec j st Lj) as [b [new1 [ops1 [-> [B1 [V1 [V2 V3]]]]]]]. cbn [pbind fst snd].
        destruct (IH (new1 ++ fst st, ops1) (flag || b) us E') as [f [u [new [ops [Q1 [Q2 [Q3 [Q4 Q5]]]]]]]]. cbn [fst] in Q1.
        exists f, u, (new ++ new1), ops. split; [rewrite Q1, app_assoc; reflexivity|]. split; [|split; [|split]].
        -- rewrite Q2, orb_true_iff, B1. split.
           ++ intros [[H|H]|[a [i [H K]]]]; [left; exact H|right; exists 0, j; split; [reflexivity|right; exact H]|].
              right. exists (S a), i. split; [exact H|]. rewrite Nat.add_succ_r. exact K.
           ++ intros [H|[[|a] [i [H K]]]]; [left; left; exact H| |].
              ** injection H as <-. left. right. destruct K as [[K1 K2]|K]; [|exact K]. rewrite Nat.add_0_r in K2. rewrite K1, K2 in Hp. discriminate.
              ** right. exists a, i. rewrite Nat.add_succ_r in K. auto.
        -- intros m c H. apply in_app_or in H. destruct H as [H|H]; [apply Q3|apply V1]; exact H.
        -- intros m c H K. apply in_app_or in H. destruct H as [H|H].
           ++ destruct (Q4 m c H K) as [a [i [X Y]]]. exists (S a), i. auto.
           ++ exists 0, j. split; [reflexivity|]. pose proof (V2 m c H K) as R. split; [|exact R].
              destruct (isInv g j) eqn:Ij; [|reflexivity]. apply inv_reach in R; [|exact Ij]. congruence.
        -- intros [|a] i m H K R.
           ++ injection H as <-. destruct (V3 m R) as [c Hc]. exists c. apply in_or_app. right. exact Hc.
           ++ destruct (Q5 a i m H K R) as [c Hc]. exists c. apply in_or_app. left. exact Hc.
Qed.

Lemma path_ok idx : forall fuel k st, k < fuel -> k < List.length g ->
  exists b new ops, indexedPath fuel g idx k k st = POk (b, (new ++ fst st, ops)) /\ (b = true <-> indexed idx k) /\ visits idx k new.
Proof.
  induction fuel as [|fuel IH]; intros k st Hf Lk; [lia|]. cbn [indexedPath]. rewrite !skipAlias_id by assumption. cbn [pbind].
  destruct (nth_error g k) as [n|] eqn:En; [|apply nth_error_None in En; lia].
  assert (Hrec : pathOk idx (indexedPath fuel g idx) k) by (intros j st' Lj; apply IH; lia).
  destruct (pathArgs_ok idx _ k n En Hrec (n_args n) [] st false false eq_refl) as [f [u [new [ops [Q1 [Q2 [Q3 [Q4 Q5]]]]]]]].
  cbn [List.length] in Q1. rewrite Q1. cbn [pbind fst snd]. cbn [List.length Nat.add] in Q2.
  assert (Hi : f = true <-> indexed idx k).
  { rewrite Q2. split.
    - intros [H|[a [j [H K]]]]; [discriminate|]. assert (A : argAt g k a = Some (AN j)) by (unfold argAt; rewrite En; exact H). destruct K as [[K1 K2]|K].
      + exists k, a, j. split; [constructor|]. auto.
      + destruct (isInv g j) eqn:Ij; [destruct (inv_indexed idx j Ij K)|]. destruct K as [k' [b [i [R K]]]]. exists k', b, i. split; [|exact K].
        apply (reach_trans g k j k'); [apply (R_step g k k a); [constructor|exact A|exact Ij]|exact R].
    - intros [k' [a [j [R [Hp [A Ij]]]]]]. right. destruct (reach_first g k k' R) as [->|[b [r' [A' [I' R']]]]].
      + exists a, j. unfold argAt in A. rewrite En in A. split; [exact A|]. left. auto.
      + exists b, r'. unfold argAt in A'. rewrite En in A'. split; [exact A'|]. right. exists k', a, j. auto. }
  exists f, ((k, f) :: new), (if u then k :: ops else ops). split; [reflexivity|]. split; [exact Hi|]. split; [|split].
  - intros m b [H|H]; [injection H as <- <-; exact Hi|apply Q3, H].
  - intros m b [H|H] K; [injection H as <- <-; constructor|]. destruct (Q4 m b H K) as [a [j [X [Y Z]]]].
    apply (reach_trans g k j m); [|exact Z]. apply (R_step g k k a); [constructor|unfold argAt; rewrite En; exact X|exact Y].
  - intros m R. destruct (reach_first g k m R) as [->|[a [r' [A [I R']]]]].
    + exists f. left. reflexivity.
    + unfold argAt in A. rewrite En in A. destruct (Q5 a r' m A I R') as [b Hb]. exists b. right. exact Hb.
Qed.

(** ** The iterations of dependents *)
Lemma iterOf_ok iters d it s : (forall it it' s s', nth_error iters it = Some s -> nth_error iters it' = Some s' -> In d s -> In d s' -> it = it') ->
  nth_error iters it = Some s -> In d s -> iterOf iters d = Some it.
Proof.
  intros U E I. unfold iterOf. destruct (find (fun it => mem d (nth it iters [])) (rev (seq 0 (List.length iters)))) as [k|] eqn:F.
  - apply find_some in F. destruct F as [F1 F2]. apply mem_In in F2. f_equal.
    rewrite <- in_rev in F1. apply in_seq in F1. destruct (nth_error iters k) as [s'|] eqn:Ek; [|apply nth_error_None in Ek; lia].
    rewrite (nth_error_nth iters k [] Ek) in F2. apply (U k it s' s Ek E F2 I).
  - exfalso. assert (L : it < List.length iters) by (apply nth_error_Some; rewrite E; discriminate).
    apply find_none with (x := it) in F; [|rewrite <- in_rev; apply in_seq; lia]. rewrite (nth_error_nth iters it [] E) in F. apply mem_false in F. tauto.
Qed.
Lemma iterOf_some iters d it : iterOf iters d = Some it -> exists s, nth_error iters it = Some s /\ In d s.
Proof.
  unfold iterOf. intros F. apply find_some in F. destruct F as [F1 F2]. rewrite <- in_rev in F1. apply in_seq in F1. apply mem_In in F2.
  destruct (nth_error iters it) as [s'|] eqn:Ek; [|apply nth_error_None in Ek; lia]. rewrite (nth_error_nth iters it [] Ek) in F2. eauto.
Qed.

Lemma addAll_ok iters : forall idx l, (forall o a d j, In (o, a, d, j) idx -> exists it, iterOf iters d = Some it) ->
  exists l', addAll iters idx l = POk l' /\
    forall o a it j, In (o, a, it, j) l' <-> (In (o, a, it, j) l \/ exists d, In (o, a, d, j) idx /\ iterOf iters d = Some it).
Proof.
  induction idx as [|[[[o a] d] j] idx IH]; intros l H.
  - exists l. split; [reflexivity|]. intros o a it j. split; [auto|]. intros [K|[d [[] _]]]. exact K.
  - cbn [addAll]. destruct (IH l) as [l' [-> K]]. { intros o' a' d' j' I. apply (H o' a' d' j'). right. exact I. }
    cbn [pbind]. destruct (H o a d j (or_introl eq_refl)) as [it E]. rewrite E. eexists. split; [reflexivity|].
    intros o' a' it' j'. cbn [In]. rewrite K. split.
    + intros [X|[X|[d' [X Y]]]]; [injection X as <- <- <- <-; right; exists d; auto|auto|right; exists d'; auto].
    + intros [X|[d' [[X|X] Y]]]; [auto| |right; right; exists d'; auto]. injection X as <- <- <- <-. left. rewrite E in Y. injection Y as <-. reflexivity.
Qed.
End Path.

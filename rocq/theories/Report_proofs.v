(** * Proofs about reported patterns *)
From Coq Require Import List Arith Bool Lia Sorted.
From Verif Require Import Pool_model Sparsity_model Sparsity_spec Sparsity_proofs Report_model Report_spec.
Import ListNotations.
Local Open Scope nat_scope.

Lemma setNth_len {A} (l : list A) i a : List.length (setNth l i a) = List.length l.
Proof. revert i; induction l as [|x l IH]; intros [|i]; cbn; auto. Qed.
Lemma setNth_same {A} (l : list A) i a : i < List.length l -> nth_error (setNth l i a) i = Some a.
Proof. revert i; induction l as [|x l IH]; intros [|i] H; cbn in *; try lia; auto. apply IH. lia. Qed.
Lemma setNth_diff {A} (l : list A) i k a : k <> i -> nth_error (setNth l i a) k = nth_error l k.
Proof. revert i k; induction l as [|x l IH]; intros [|i] [|k] H; cbn; auto; try lia. Qed.
Lemma nth_ne {A} (l : list A) i d x : nth_error l i = Some x -> nth i l d = x.
Proof. intros H. apply nth_error_nth with (1 := H). Qed.
Lemma rowAt_nth {A} (l : list A) i d : i < List.length l -> rowAt l i = XOk (nth i l d).
Proof. intros H. unfold rowAt. rewrite (nth_error_nth' l d H). reflexivity. Qed.
Lemma ne_nth {A} (l : list A) i d : i < List.length l -> nth_error l i = Some (nth i l d).
Proof. apply nth_error_nth'. Qed.
Lemma nth_map_seq {A} (g : nat -> A) n j d : j < n -> nth j (map g (seq 0 n)) d = g j.
Proof. intros H. rewrite (nth_indep _ d (g 0)) by (rewrite map_length, seq_length; exact H). rewrite map_nth, seq_nth by exact H. reflexivity. Qed.
Lemma len_map_seq {A} (g : nat -> A) n : List.length (map g (seq 0 n)) = n.
Proof. rewrite map_length, seq_length. reflexivity. Qed.

(** ** Diagonal patterns and the functions of CppAD *)
Lemma diagonal_ok n js : (forall j, In j js -> j < n) ->
  exists r : pat, diagonal n js = XOk r /\ List.length r = n /\ forall j k, In k (nth j r []) <-> j = k /\ In j js.
Proof.
  intros H. unfold diagonal.
  assert (A : adds n (fun i j => exists k, In k js /\ (i = k /\ j = k)) (foreach js (fun j r => insertAt r j j))).
  { apply (adds_foreach n (fun k i j => i = k /\ j = k)). intros k Hk. apply adds_insert. apply H, Hk. }
  destruct (A (repeat [] n)) as [r [E [P1 [P2 P3]]]]; [rewrite repeat_length; reflexivity|apply sets_repeat|].
  exists r. split; [exact E|]. rewrite repeat_length in P1. split; [exact P1|]. intros j k.
  assert (Q : In k (nth j r []) <-> entry r j k).
  { split.
    - intros Q. destruct (Nat.lt_ge_cases j (List.length r)) as [L|L].
      + exists (nth j r []). split; [apply ne_nth, L|exact Q].
      + rewrite nth_overflow in Q by exact L. destruct Q.
    - intros [s [Es Q]]. apply (nth_ne _ _ []) in Es. rewrite <- Es in Q. exact Q. }
  rewrite Q, P3. split.
  - intros [C|[k' [I [-> ->]]]]; [destruct (entry_repeat _ _ _ C)|]. auto.
  - intros [<- I]. right. exists j. auto.
Qed.

Lemma revSparseHes_len f r s : List.length (revSparseHes f r s) = rN f.
Proof. apply len_map_seq. Qed.
Lemma revSparseHes_in f (r : pat) js s j k : List.length r = rN f -> (forall j k, In k (nth j r []) <-> j = k /\ In j js) -> j < rN f ->
  (In k (nth j (revSparseHes f r s) []) <-> In j js /\ exists i, In i s /\ In k (rHes f i j)).
Proof.
  intros L R Hj. unfold revSparseHes. rewrite nth_map_seq by exact Hj. rewrite sinsAll_In. cbn [In].
  rewrite in_flat_map. split.
  - intros [[x [Ix Hx]]|[]]. revert Hx. destruct (sfind j (nth x r [])) eqn:E; intros Hx; [|destruct Hx]. apply sfind_In, R in E. destruct E as [-> E].
    split; [exact E|]. apply in_flat_map in Hx. exact Hx.
  - intros [Ij [i [Ii H]]]. left. exists j. split; [apply in_seq; lia|].
    replace (sfind j (nth j r [])) with true; [apply in_flat_map; exists i; auto|]. symmetry. apply sfind_In, R. auto.
Qed.
Lemma revSparseHes_sets f r s : sets (revSparseHes f r s).
Proof.
  unfold revSparseHes, sets. apply Forall_forall. intros x H. apply in_map_iff in H. destruct H as [j [<- _]].
  apply sinsAll_isset. constructor.
Qed.

Lemma forSparseJac_len f r : List.length (forSparseJac f r) = rM f.
Proof. apply len_map_seq. Qed.
Lemma forSparseJac_in f (r : pat) js i j : (forall j k, In k (nth j r []) <-> j = k /\ In j js) -> i < rM f ->
  (In j (nth i (forSparseJac f r) []) <-> In j (rJac f i) /\ In j js).
Proof.
  intros R Hi. unfold forSparseJac. rewrite nth_map_seq by exact Hi. rewrite sinsAll_In, in_flat_map. cbn [In]. split.
  - intros [[x [Ix Hx]]|[]]. apply R in Hx. destruct Hx as [-> Hx]. auto.
  - intros [A B]. left. exists j. split; [exact A|]. apply R. auto.
Qed.
Lemma forSparseJac_set f r i : i < rM f -> isset (nth i (forSparseJac f r) []).
Proof. intros H. unfold forSparseJac. rewrite nth_map_seq by exact H. apply sinsAll_isset. constructor. Qed.

(** ** intersects *)
Lemma last_in {A} (l : list A) d : l <> [] -> In (last l d) l.
Proof.
  induction l as [|x l IH]; intros H; [congruence|]. destruct l as [|y l]; [left; reflexivity|].
  right. change (last (x :: y :: l) d) with (last (y :: l) d). apply IH. discriminate.
Qed.
Lemma isset_last s x d : isset s -> In x s -> x <= last s d.
Proof.
  induction s as [|y s IH]; intros S I; [destruct I|]. inversion S as [|? ? S1 S2]; subst. rewrite Forall_forall in S2.
  destruct s as [|z s]; [destruct I as [<-|[]]; cbn; lia|].
  change (last (y :: z :: s) d) with (last (z :: s) d).
  destruct I as [<-|I].
  - assert (In (last (z :: s) d) (z :: s)) by (apply last_in; discriminate). specialize (S2 _ H). lia.
  - apply IH; assumption.
Qed.
Lemma isset_head s a x : isset (a :: s) -> In x (a :: s) -> a <= x.
Proof. intros S [<-|I]; [lia|]. inversion S as [|? ? S1 S2]; subst. rewrite Forall_forall in S2. specialize (S2 _ I). lia. Qed.
Lemma intersects_ok a b : isset a -> isset b -> (intersects a b = true <-> exists x, In x a /\ In x b).
Proof.
  intros Sa Sb. unfold intersects. destruct a as [|a0 a]; [split; [discriminate|intros [x [[] _]]]|].
  destruct b as [|b0 b]; [split; [discriminate|intros [x [_ []]]]|].
  destruct ((last (a0 :: a) 0 <? b0) || (last (b0 :: b) 0 <? a0)) eqn:E.
  - split; [discriminate|]. intros [x [Ia Ib]]. exfalso.
    pose proof (isset_last _ x 0 Sa Ia). pose proof (isset_last _ x 0 Sb Ib). pose proof (isset_head _ _ _ Sa Ia).
    pose proof (isset_head _ _ _ Sb Ib). apply orb_true_iff in E. rewrite !Nat.ltb_lt in E. lia.
  - destruct (List.length (a0 :: a) <? List.length (b0 :: b)).
    + rewrite existsb_common. reflexivity.
    + rewrite existsb_common. split; intros [x [A B]]; exists x; auto.
Qed.

(** ** Colours *)
Lemma at_assign i row : forall m j,
  at_ (assignAll i row m) j = if sfind j row then XOk i else at_ m j.
Proof.
  unfold assignAll. induction row as [|x row IH]; intros m j; [reflexivity|]. cbn [fold_left]. rewrite IH.
  unfold sfind. cbn [existsb]. fold (sfind j row). destruct (sfind j row); [rewrite orb_true_r; reflexivity|]. rewrite orb_false_r.
  unfold at_ at 1. cbn [find fst snd]. rewrite (Nat.eqb_sym x j). destruct (j =? x); reflexivity.
Qed.

Definition goodColor (red : nat -> set) (m : nat) (c : color) : Prop :=
  isset (cForbidden c) /\
  (forall i, In i (cRows c) -> i < m) /\
  (forall j, In j (cForbidden c) <-> exists i, In i (cRows c) /\ In j (red i)) /\
  (forall j i i', In i (cRows c) -> In i' (cRows c) -> In j (red i) -> In j (red i') -> i = i') /\
  (forall j, In j (cForbidden c) -> exists i, at_ (cColumn2Row c) j = XOk i /\ In i (cRows c) /\ In j (red i)).

Lemma place_ok red m i cs : i < m -> isset (red i) -> Forall (goodColor red m) cs -> (forall c, In c cs -> ~ In i (cRows c)) ->
  Forall (goodColor red m) (place i (red i) cs) /\
  (exists c, In c (place i (red i) cs) /\ In i (cRows c)) /\
  (forall k, (exists c, In c cs /\ In k (cRows c)) -> exists c, In c (place i (red i) cs) /\ In k (cRows c)) /\
  (forall c k, In c (place i (red i) cs) -> In k (cRows c) -> k = i \/ exists c', In c' cs /\ In k (cRows c')).
Proof.
  intros Hi S. induction cs as [|c r IH]; intros G N.
  - cbn [place]. split; [|split; [|split]].
    + constructor; [|constructor]. unfold goodColor. cbn [cForbidden cRows cColumn2Row].
      split; [exact S|]. split; [intros k [<-|[]]; exact Hi|]. split; [|split].
      * intros j. split; [intros H; exists i; split; [left; reflexivity|exact H]|intros [k [[<-|[]] H]]; exact H].
      * intros j a b [<-|[]] [<-|[]] _ _. reflexivity.
      * intros j H. exists i. rewrite at_assign. apply sfind_In in H as H'. rewrite H'. split; [reflexivity|]. split; [left; reflexivity|exact H].
    + eexists. split; [left; reflexivity|]. left. reflexivity.
    + intros k [c [[] _]].
    + intros c k [<-|[]] [<-|[]]. left. reflexivity.
  - cbn [place]. inversion G as [|? ? Gc Gr]; subst. specialize (IH Gr (fun c' H => N c' (or_intror H))).
    destruct IH as [I1 [I2 [I3 I4]]]. pose proof Gc as Gc'. destruct Gc as [C0 [C1 [C2 [C3 C4]]]].
    destruct (intersects (cForbidden c) (red i)) eqn:E.
    + split; [constructor; assumption|]. split; [destruct I2 as [c' [A B]]; exists c'; split; [right; exact A|exact B]|]. split.
      * intros k [c' [[<-|A] B]]; [exists c; split; [left; reflexivity|exact B]|].
        destruct (I3 k (ex_intro _ c' (conj A B))) as [c'' [A' B']]. exists c''. split; [right; exact A'|exact B'].
      * intros c' k [<-|A] B; [right; exists c; split; [left; reflexivity|exact B]|].
        destruct (I4 c' k A B) as [->|[c'' [A' B']]]; [left; reflexivity|right; exists c''; split; [right; exact A'|exact B']].
    + assert (D : forall j, In j (cForbidden c) -> In j (red i) -> False).
      { intros j A B. assert (intersects (cForbidden c) (red i) = true) by (apply intersects_ok; [exact C0|exact S|exists j; auto]). congruence. }
      split; [|split; [|split]].
      * constructor; [|exact Gr]. unfold goodColor. cbn [cForbidden cRows cColumn2Row].
        split; [apply sinsAll_isset, C0|]. split; [intros k H; apply sins_In in H; destruct H as [->|H]; [exact Hi|apply C1, H]|].
        split; [|split].
        -- intros j. rewrite sinsAll_In. split.
           ++ intros [H|H]; [exists i; rewrite sins_In; auto|]. apply C2 in H. destruct H as [k [A B]]. exists k. rewrite sins_In. auto.
           ++ intros [k [A B]]. apply sins_In in A. destruct A as [->|A]; [left; exact B|]. right. apply C2. exists k. auto.
        -- intros j a b A B Ha Hb. apply sins_In in A. apply sins_In in B. destruct A as [->|A], B as [->|B]; auto.
           ++ exfalso. apply (D j); [apply C2; exists b; auto|exact Ha].
           ++ exfalso. apply (D j); [apply C2; exists a; auto|exact Hb].
           ++ apply (C3 j); assumption.
        -- intros j H. rewrite at_assign. apply sinsAll_In in H. destruct (sfind j (red i)) eqn:F.
           ++ exists i. rewrite sins_In. split; [reflexivity|]. split; [left; reflexivity|]. apply sfind_In, F.
           ++ destruct H as [H|H]; [apply sfind_In in H; congruence|]. destruct (C4 j H) as [k [A [B C]]]. exists k. rewrite sins_In. auto.
      * eexists. split; [left; reflexivity|]. cbn. apply sins_In. left. reflexivity.
      * intros k [c' [[<-|A] B]]; [eexists; split; [left; reflexivity|]; cbn; apply sins_In; right; exact B|].
        exists c'. split; [right; exact A|exact B].
      * intros c' k [<-|A] B; [|right; exists c'; split; [right; exact A|exact B]].
        cbn in B. apply sins_In in B. destruct B as [->|B]; [left; reflexivity|right; exists c; split; [left; reflexivity|exact B]].
Qed.

Definition reduced (columns : option set) (row : set) : set :=
  match columns with Some js => filter (fun j => sfind j js) row | None => row end.

Lemma isset_filter (g : nat -> bool) s : isset s -> isset (filter g s).
Proof.
  induction s as [|x s IH]; intros S; [constructor|]. inversion S as [|? ? S1 S2]; subst. cbn [filter]. destruct (g x); [|apply IH, S1].
  constructor; [apply IH, S1|]. rewrite Forall_forall in *. intros y H. apply filter_In in H. apply S2, H.
Qed.
Lemma reduced_set columns row : isset row -> isset (reduced columns row).
Proof. destruct columns; [apply isset_filter|auto]. Qed.

Lemma colorByRow_ok columns (sp : pat) :
  let red := fun i => reduced columns (nth i sp []) in
  (forall i, i < List.length sp -> isset (nth i sp [])) ->
  Forall (goodColor red (List.length sp)) (colorByRow columns sp) /\
  forall i j, i < List.length sp -> In j (red i) -> exists c, In c (colorByRow columns sp) /\ In i (cRows c).
Proof.
  intros red Ss. unfold colorByRow.
  set (step := fun (cs : list color) (i : nat) => _).
  assert (Main : forall k, k <= List.length sp ->
    let cs := fold_left step (seq 0 k) [] in
    Forall (goodColor red (List.length sp)) cs /\
    (forall c i, In c cs -> In i (cRows c) -> i < k) /\
    (forall i j, i < k -> In j (red i) -> exists c, In c cs /\ In i (cRows c))).
  { induction k as [|k IH]; intros Hk; cbn zeta.
    - cbn. split; [constructor|]. split; [intros c i []|intros i j H; lia].
    - destruct (IH ltac:(lia)) as [G [B C]]. replace (S k) with (k + 1) by lia. rewrite seq_app, fold_left_app. cbn [seq fold_left plus].
      set (cs := fold_left step (seq 0 k) []) in *.
      assert (E : step cs k = match nth k sp [] with [] => cs | _ => place k (red k) cs end).
      { unfold step, red, reduced. destruct (nth k sp []); reflexivity. }
      rewrite Nat.add_0_l. rewrite E. destruct (nth k sp []) as [|x row] eqn:R.
      + split; [exact G|]. split; [intros c i I1 I2; specialize (B c i I1 I2); lia|].
        intros i j Hi Hj. assert (i < k \/ i = k) as [Hlt| ->] by lia; [apply (C i j Hlt Hj)|].
        unfold red in Hj. rewrite R in Hj. destruct columns; cbn in Hj; destruct Hj.
      + destruct (place_ok red (List.length sp) k cs) as [P1 [P2 [P3 P4]]]; [lia|unfold red; apply reduced_set, Ss; lia|exact G| |].
        { intros c I1 I2. specialize (B c k I1 I2). lia. }
        split; [exact P1|]. split.
        * intros c i I1 I2. destruct (P4 c i I1 I2) as [->|[c' [A D]]]; [lia|]. specialize (B c' i A D). lia.
        * intros i j Hi Hj. assert (i < k \/ i = k) as [Hlt| ->] by lia; [|exact P2]. apply P3. apply (C i j Hlt Hj). }
  destruct (Main (List.length sp) (Nat.le_refl _)) as [G [_ C]]. split; [exact G|exact C].
Qed.

(** ** The patterns of the equations *)
Definition hget (hs : list pat) (i j : nat) : set := nth j (nth i hs []) [].
Definition hshape (m n : nat) (hs : list pat) : Prop :=
  List.length hs = m /\ forall p, In p hs -> List.length p = n /\ sets p.

Lemma hget_lt m n hs i j k : hshape m n hs -> In k (hget hs i j) -> i < m /\ j < n.
Proof.
  intros [L H] I. unfold hget in I. destruct (Nat.lt_ge_cases i (List.length hs)) as [Hi|Hi].
  - split; [lia|]. destruct (H (nth i hs [])) as [L1 _]; [apply nth_In, Hi|].
    destruct (Nat.lt_ge_cases j (List.length (nth i hs []))) as [Hj|Hj]; [lia|]. rewrite nth_overflow in I by exact Hj. destruct I.
  - rewrite (nth_overflow hs) in I by exact Hi. destruct j; destruct I.
Qed.

Lemma nth_setNth {A} (l : list A) i k a d : i < List.length l -> nth k (setNth l i a) d = if k =? i then a else nth k l d.
Proof.
  intros H. destruct (Nat.eqb_spec k i) as [->|N].
  - apply nth_ne, setNth_same, H.
  - destruct (Nat.lt_ge_cases k (List.length l)) as [L|L].
    + apply nth_ne. rewrite setNth_diff by exact N. apply ne_nth, L.
    + rewrite !nth_overflow; rewrite ?setNth_len; auto.
Qed.

Lemma in_setNth {A} (l : list A) i a x : In x (setNth l i a) -> x = a \/ In x l.
Proof.
  revert i. induction l as [|y l IH]; intros [|i] H; cbn in H; try tauto.
  - destruct H as [->|H]; auto. right. right. exact H.
  - destruct H as [->|H]; [right; left; reflexivity|]. destruct (IH i H); auto. right. right. assumption.
Qed.

Lemma hput m n hs i j s : hshape m n hs -> i < m -> j < n -> isset s ->
  let hs' := setNth hs i (setNth (nth i hs []) j s) in
  hshape m n hs' /\ forall a b, hget hs' a b = if (a =? i) && (b =? j) then s else hget hs a b.
Proof.
  intros [L H] Hi Hj S hs'.
  assert (I : In (nth i hs []) hs) by (apply nth_In; lia). destruct (H _ I) as [L1 S1].
  split.
  - split; [unfold hs'; rewrite setNth_len; exact L|]. intros p Hp. apply in_setNth in Hp. destruct Hp as [->|Hp]; [|apply H, Hp].
    split; [rewrite setNth_len; exact L1|]. apply sets_set; assumption.
  - intros a b. unfold hget, hs'. rewrite nth_setNth by lia. destruct (Nat.eqb_spec a i) as [->|N]; cbn [andb]; [|reflexivity].
    rewrite nth_setNth by lia. reflexivity.
Qed.

Lemma retrieve_loop m n (sparsityc : pat) col2row l : List.length sparsityc = n -> sets sparsityc ->
  (forall j, In j l -> j < n /\ (nth j sparsityc [] <> [] -> exists i, at_ col2row j = XOk i /\ i < m)) ->
  forall hs, hshape m n hs ->
  exists hs', foreach l (fun j hs =>
    xbind (rowAt sparsityc j) (fun s : set =>
    match s with
    | [] => XOk hs
    | _ => xbind (at_ col2row j) (fun i =>
           xbind (rowAt hs i) (fun p : pat =>
           xbind (rowAt p j) (fun old : set => XOk (setNth hs i (setNth p j (sinsAll s old))))))
    end)) hs = XOk hs' /\ hshape m n hs' /\
    forall i j k, In k (hget hs' i j) <-> In k (hget hs i j) \/ (In j l /\ at_ col2row j = XOk i /\ In k (nth j sparsityc [])).
Proof.
  intros L Ss. induction l as [|j l IH]; intros H hs Sh.
  - exists hs. split; [reflexivity|]. split; [exact Sh|]. intros a b k. cbn [In]. tauto.
  - cbn [foreach]. destruct (H j (or_introl eq_refl)) as [Hj Ha].
    assert (E : rowAt sparsityc j = XOk (nth j sparsityc [])) by (apply rowAt_nth; lia).
    rewrite E. cbn [xbind].
    assert (Hr : forall j', In j' l -> j' < n /\ (nth j' sparsityc [] <> [] -> exists i, at_ col2row j' = XOk i /\ i < m)) by (intros j' I; apply H; right; exact I).
    remember (nth j sparsityc []) as s eqn:Es. destruct s as [|x s].
    + cbn [xbind]. destruct (IH Hr hs Sh) as [hs' [F [Sh' G]]]. exists hs'. split; [exact F|]. split; [exact Sh'|].
      intros a b k. rewrite G. cbn [In]. split; [tauto|]. intros [A|[[<-|A] [B C]]]; [tauto| |tauto]. rewrite <- Es in C. destruct C.
    + destruct Ha as [i [Ea Hi]]; [discriminate|]. rewrite Ea. cbn [xbind]. pose proof Sh as [Lh Ph].
      assert (Ii : In (nth i hs []) hs) by (apply nth_In; lia). destruct (Ph _ Ii) as [L1 S1].
      assert (E1 : rowAt hs i = XOk (nth i hs [])) by (apply rowAt_nth; lia).
      assert (E2 : rowAt (nth i hs []) j = XOk (hget hs i j)) by (apply rowAt_nth; lia).
      rewrite E1. cbn [xbind]. rewrite E2. cbn [xbind].
      assert (So : isset (hget hs i j)). { apply (sets_row (nth i hs []) j); [exact S1|]. unfold hget. apply ne_nth. lia. }
      destruct (hput m n hs i j (sinsAll (x :: s) (hget hs i j)) Sh Hi Hj (sinsAll_isset _ _ So)) as [Sh1 G1].
      destruct (IH Hr _ Sh1) as [hs' [F [Sh' G]]]. exists hs'. split; [exact F|]. split; [exact Sh'|].
      intros a b k. rewrite G, G1. destruct ((a =? i) && (b =? j)) eqn:Eab.
      * apply andb_true_iff in Eab. rewrite !Nat.eqb_eq in Eab. destruct Eab as [-> ->]. rewrite sinsAll_In. cbn [In].
        split.
        -- intros [[A|A]|[A B]]; [|tauto|tauto]. right. split; [left; reflexivity|]. split; [exact Ea|]. rewrite <- Es. exact A.
        -- intros [A|[A [B C]]]; [tauto|]. left. left. rewrite <- Es in C. exact C.
      * split.
        -- intros [A|[A [B C]]]; [tauto|]. right. split; [right; exact A|tauto].
        -- intros [A|[[->|A] [B C]]]; [tauto| |tauto]. exfalso. assert (i = a) by congruence. subst. rewrite !Nat.eqb_refl in Eab. discriminate.
Qed.

Lemma retrieve_ok f red c hs : sound f -> goodColor red (rM f) c ->
  (forall i j, In j (red i) -> j < rN f) ->
  (forall i j k, In i (cRows c) -> In j (cForbidden c) -> In k (rHes f i j) -> In j (red i)) ->
  hshape (rM f) (rN f) hs ->
  exists hs', retrieve f c hs = XOk hs' /\ hshape (rM f) (rN f) hs' /\
    forall i j k, In k (hget hs' i j) <-> In k (hget hs i j) \/ (In i (cRows c) /\ In j (red i) /\ In k (rHes f i j)).
Proof.
  intros Sd [C0 [C1 [C2 [C3 C4]]]] Hn Hh Sh. unfold retrieve.
  assert (Hf : forall j, In j (cForbidden c) -> j < rN f). { intros j H. apply C2 in H. destruct H as [i [_ H]]. apply (Hn i j H). }
  destruct (diagonal_ok (rN f) (cForbidden c) Hf) as [r [E [L R]]]. rewrite E. cbn [xbind].
  destruct (retrieve_loop (rM f) (rN f) (revSparseHes f r (cRows c)) (cColumn2Row c) (cForbidden c)) with (hs := hs) as [hs' [F [Sh' G]]].
  - apply revSparseHes_len.
  - apply revSparseHes_sets.
  - intros j H. split; [apply Hf, H|]. intros _. destruct (C4 j H) as [i [A [B _]]]. exists i. split; [exact A|apply C1, B].
  - exact Sh.
  - exists hs'. split; [exact F|]. split; [exact Sh'|]. intros i j k. rewrite G. split.
    + intros [A|[A [B C]]]; [left; exact A|]. right. rewrite (revSparseHes_in f r (cForbidden c)) in C by (auto; apply Hf, A).
      destruct C as [_ [i' [Ii' Hk]]]. destruct (C4 j A) as [i0 [A0 [B0 D0]]]. assert (i0 = i) by congruence. subst i0.
      assert (i' = i) as -> by (apply (C3 j); auto; apply (Hh i' j k); assumption). auto.
    + intros [A|[A [B C]]]; [left; exact A|]. right. assert (Fj : In j (cForbidden c)) by (apply C2; exists i; auto).
      split; [exact Fj|]. destruct (C4 j Fj) as [i0 [A0 [B0 D0]]]. assert (i0 = i) as -> by (apply (C3 j); assumption).
      split; [exact A0|]. apply (revSparseHes_in f r (cForbidden c)); auto. split; [exact Fj|]. exists i. auto.
Qed.

Lemma retrieveAll_ok f red cs : sound f -> Forall (goodColor red (rM f)) cs ->
  (forall i j, In j (red i) -> j < rN f) ->
  (forall c i j k, In c cs -> In i (cRows c) -> In j (cForbidden c) -> In k (rHes f i j) -> In j (red i)) ->
  forall hs, hshape (rM f) (rN f) hs ->
  exists hs', retrieveAll f cs hs = XOk hs' /\ hshape (rM f) (rN f) hs' /\
    forall i j k, In k (hget hs' i j) <->
      In k (hget hs i j) \/ (exists c, In c cs /\ In i (cRows c) /\ In j (red i) /\ In k (rHes f i j)).
Proof.
  intros Sd G Hn. induction cs as [|c cs IH]; intros Hh hs Sh.
  - exists hs. split; [reflexivity|]. split; [exact Sh|]. intros i j k. split; [tauto|]. intros [A|[c [[] _]]]. exact A.
  - inversion G as [|? ? Gc Gr]; subst. cbn [retrieveAll].
    destruct (retrieve_ok f red c hs Sd Gc Hn) as [h1 [E1 [S1 R1]]]; [intros i j k A B C; apply (Hh c i j k); auto; left; reflexivity|exact Sh|].
    rewrite E1. cbn [xbind]. destruct (IH Gr) with (hs := h1) as [h2 [E2 [S2 R2]]]; [intros c' i j k A; apply Hh; right; exact A|exact S1|].
    exists h2. split; [exact E2|]. split; [exact S2|]. intros i j k. rewrite R2, R1. split.
    + intros [[A|A]|[c' [A B]]]; [tauto| |].
      * right. exists c. split; [left; reflexivity|tauto].
      * right. exists c'. split; [right; exact A|exact B].
    + intros [A|[c' [[<-|A] B]]]; [tauto|tauto|]. right. exists c'. tauto.
Qed.

Lemma hshape_empty m n : hshape m n (repeat (repeat [] n) m) /\ forall i j k, ~ In k (hget (repeat (repeat [] n) m) i j).
Proof.
  split.
  - split; [apply repeat_length|]. intros p H. apply repeat_spec in H. subst. split; [apply repeat_length|apply sets_repeat].
  - intros i j k H. unfold hget in H.
    assert (A : forall p : pat, p = repeat [] n \/ p = [] -> ~ In k (nth j p [])).
    { intros p [->| ->]; [rewrite nth_repeat|destruct j]; intros []. }
    revert H. apply A. destruct (Nat.lt_ge_cases i m) as [L|L].
    + left. apply repeat_spec with (n := m). apply nth_In. rewrite repeat_length. exact L.
    + right. apply nth_overflow. rewrite repeat_length. exact L.
Qed.

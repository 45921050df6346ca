(** * Proofs about the lists of positions, the answers of atomic functions and the
      custom elements *)
From Coq Require Import List Arith Bool Lia Sorted.
From Verif Require Import Pool_model Pool_proofs Sparsity_model Sparsity_spec Sparsity_proofs.
Import ListNotations.
Local Open Scope nat_scope.

Lemma foreach_inv {S : Type} (I : list nat -> S -> Prop) f l : forall done s,
  (forall d k s, In k l -> I d s -> exists s', f k s = XOk s' /\ I (d ++ [k]) s') ->
  I done s -> exists s', foreach l f s = XOk s' /\ I (done ++ l) s'.
Proof.
  induction l as [|k l IH]; intros done s H Hs; cbn [foreach].
  - exists s. rewrite app_nil_r. auto.
  - destruct (H done k s (or_introl eq_refl) Hs) as [s1 [E1 H1]]. rewrite E1. cbn [xbind].
    destruct (IH (done ++ [k]) s1) as [s2 [E2 H2]]; [intros d k' x Hk; apply H; right; assumption|assumption|].
    exists s2. split; [assumption|]. rewrite <- app_assoc in H2. exact H2.
Qed.

Lemma clearRows_ok k s : k <= List.length s -> sets s ->
  exists s', clearRows k s = XOk s' /\ List.length s' = List.length s /\ sets s' /\
    forall i j, entry s' i j <-> entry s i j /\ k <= i.
Proof.
  intros Hk Hs. unfold clearRows.
  destruct (foreach_inv (fun d x => List.length x = List.length s /\ sets x /\ forall i j, entry x i j <-> entry s i j /\ ~ In i d)
     (fun i s => xbind (rowAt s i) (fun _ => XOk (setNth s i []))) (seq 0 k) [] s) as [s' [E [H1 [H2 H3]]]].
  - intros d i x Hi [L1 [L2 L3]]. apply in_seq0 in Hi. destruct (row_some x i) as [xi [E E']]; [lia|].
    rewrite E'. cbn [xbind]. eexists. split; [reflexivity|]. split; [rewrite setNth_length; assumption|].
    split; [apply sets_set; [assumption|constructor]|]. intros a b. rewrite entry_set by lia. rewrite L3, in_app_iff. cbn [In].
    destruct (Nat.eq_dec a i) as [-> |Hn]; [tauto|]. assert (i <> a) by auto. tauto.
  - split; [reflexivity|]. split; [assumption|]. intros i j. cbn. tauto.
  - exists s'. split; [assumption|]. split; [assumption|]. split; [assumption|]. intros i j. rewrite H3. cbn [app]. rewrite in_seq0.
    split; intros [? ?]; (split; [assumption|lia]).
Qed.

Lemma clear_all s : sets s -> exists s', clearRows (List.length s) s = XOk s' /\ List.length s' = List.length s /\ sets s' /\
    forall i j, ~ entry s' i j.
Proof.
  intros Hs. destruct (clearRows_ok (List.length s) s (le_n _) Hs) as [s' [E [H1 [H2 H3]]]].
  exists s'. split; [assumption|]. split; [assumption|]. split; [assumption|]. intros i j C. apply H3 in C.
  destruct C as [C1 C2]. apply entry_lt in C1. lia.
Qed.

Lemma shape_rc p m n : shape p m n -> rows_cols p m n.
Proof. intros [H1 [H2 H3]]. split; [lia|]. intros i j _. apply H3. Qed.

Lemma shape_upto p m n : shape p m n -> forall i j, upto m p i j <-> entry p i j.
Proof. intros [H1 _] i j. unfold upto. split; [tauto|]. intros H. split; [apply entry_lt in H; lia|assumption]. Qed.

Lemma forward_ok dbg jac r s m n q : shape jac m n -> shape r n q -> List.length s = m -> sets s ->
  exists s', genericForSparseJac dbg jac m n q r s = XOk s' /\ List.length s' = m /\ sets s' /\
    forall i j, entry s' i j <-> exists k, entry jac i k /\ entry r k j.
Proof.
  intros Hj Hr Ls Ss. unfold genericForSparseJac. destruct (clear_all s Ss) as [s1 [E1 [L1 [S1 N1]]]].
  rewrite Ls in E1, L1. rewrite E1. cbn [xbind].
  destruct (multMatrixMatrixSparsity_ok dbg jac r s1 m n q) as [s2 [E2 [P1 [P2 P3]]]];
    [apply Hj|apply Hr|assumption|apply shape_rc; assumption|apply shape_rc; assumption|lia|intros _; apply Hj|].
  exists s2. split; [assumption|]. split; [lia|]. split; [assumption|]. intros i j. rewrite P3. unfold product.
  split.
  - intros [C|[k [C1 C2]]]; [destruct (N1 _ _ C)|]. exists k. rewrite (shape_upto _ _ _ Hj) in C1. rewrite (shape_upto _ _ _ Hr) in C2. auto.
  - intros [k [C1 C2]]. right. exists k. rewrite (shape_upto _ _ _ Hj), (shape_upto _ _ _ Hr). auto.
Qed.

Lemma bridge_forward_eq dbg jac r s m n q : List.length s = m ->
  bridgeForSparseJac dbg jac m n q r s = genericForSparseJac dbg jac m n q r s.
Proof. intros <-. reflexivity. Qed.

Lemma reverse_ok dbg jac rT sT m n q : shape jac m n -> shape rT m q -> List.length sT = n -> sets sT ->
  exists s', genericRevSparseJac dbg jac m n q rT sT = XOk s' /\ List.length s' = n /\ sets s' /\
    forall i j, entry s' i j <-> exists k, entry jac k i /\ entry rT k j.
Proof.
  intros Hj Hr Ls Ss. unfold genericRevSparseJac. destruct (clear_all sT Ss) as [s1 [E1 [L1 [S1 N1]]]].
  rewrite Ls in E1, L1. rewrite E1. cbn [xbind].
  destruct (multMatrixTransMatrixSparsity_ok dbg jac rT s1 m n q) as [s2 [E2 [P1 [P2 P3]]]];
    [apply Hj|apply Hr|assumption|apply shape_rc; assumption|apply shape_rc; assumption|lia|intros _; apply Hr|].
  exists s2. split; [assumption|]. split; [lia|]. split; [assumption|]. intros i j. rewrite P3. unfold product, transposed.
  split.
  - intros [C|[k [C1 C2]]]; [destruct (N1 _ _ C)|]. exists k. rewrite (shape_upto _ _ _ Hj) in C1. rewrite (shape_upto _ _ _ Hr) in C2. auto.
  - intros [k [C1 C2]]. right. exists k. rewrite (shape_upto _ _ _ Hj), (shape_upto _ _ _ Hr). auto.
Qed.

Lemma bridge_reverse_ok dbg jac rt st m n q : shape jac m n -> shape rt m q -> List.length st = n -> sets st ->
  exists s', bridgeRevSparseJac dbg jac m n q rt st = XOk s' /\ List.length s' = n /\ sets s' /\
    forall i j, entry s' i j <-> exists k, entry jac k i /\ entry rt k j.
Proof.
  intros Hj Hr Ls Ss. unfold bridgeRevSparseJac. destruct (clear_all st Ss) as [s1 [E1 [L1 [S1 N1]]]].
  rewrite E1. cbn [xbind].
  destruct (multMatrixMatrixSparsityTrans_ok dbg rt jac s1 m n q) as [s2 [E2 [P1 [P2 P3]]]];
    [apply Hr|apply Hj|assumption|apply shape_rc; assumption|apply shape_rc; assumption|lia|].
  exists s2. split; [assumption|]. split; [lia|]. split; [assumption|]. intros i j. rewrite P3. unfold product, transposed.
  split.
  - intros [C|[k [C1 C2]]]; [destruct (N1 _ _ C)|]. exists k. rewrite (shape_upto _ _ _ Hr) in C1. rewrite (shape_upto _ _ _ Hj) in C2. auto.
  - intros [k [C1 C2]]. right. exists k. rewrite (shape_upto _ _ _ Hj), (shape_upto _ _ _ Hr). auto.
Qed.

(** ** Reverse Hessian patterns *)

Lemma allSelected_ok s l : (forall i, In i l -> i < List.length s) ->
  exists b, allSelected s l = XOk b /\ (b = true <-> forall i, In i l -> chosen s i).
Proof.
  induction l as [|i l IH]; intros H; cbn [allSelected].
  - exists true. split; [reflexivity|]. split; [intros _ i []|reflexivity].
  - destruct (row_some s i) as [x [E E']]; [apply H; left; reflexivity|]. rewrite E'. cbn [xbind]. destruct x.
    + destruct (IH (fun k Hk => H k (or_intror Hk))) as [b [Eb Hb]]. exists b. split; [assumption|]. rewrite Hb.
      split; [intros C k [<-|Hk]; [assumption|apply C; assumption]|intros C k Hk; apply C; right; assumption].
    + exists false. split; [reflexivity|]. split; [discriminate|]. intros C. specialize (C i (or_introl eq_refl)).
      unfold chosen in C. congruence.
Qed.

Lemma sumSelected_ok dbg hess s m n : List.length s = m -> (forall i, i < m -> shape (hess i) n n) ->
  exists sf, sumSelected dbg hess s m n = XOk sf /\ shape sf n n /\
    forall a b, entry sf a b <-> exists i, chosen s i /\ entry (hess i) a b.
Proof.
  intros Ls Hh. unfold sumSelected.
  match goal with |- context [foreach (seq 0 m) ?f _] =>
    assert (A : adds n (fun a b => exists i, In i (seq 0 m) /\ (chosen s i /\ entry (hess i) a b)) (foreach (seq 0 m) f)) end.
  { apply adds_foreach. intros i Hi. apply in_seq0 in Hi. destruct (row_some s i) as [x [E E']]; [lia|].
    rewrite E'. cbn [xbind]. destruct x.
    - intros r Hr Sr. unfold addMatrixSparsityAll. destruct (Hh i Hi) as [Q1 [Q2 Q3]].
      rewrite xassert_true by (apply Nat.eqb_eq; lia).
      destruct (addMatrixSparsity_ok dbg n (hess i) (List.length (hess i))) with (s := r) as [r' [Er P]]; try assumption; try lia.
      exists r'. split; [assumption|]. eapply plus_iff; [exact P|]. intros a b. unfold upto, chosen. rewrite E. split; [tauto|].
      intros [_ He]. split; [apply entry_lt in He; assumption|assumption].
    - eapply adds_iff; [apply adds_nothing|]. intros a b. unfold chosen. rewrite E. split; [tauto|]. intros [C _]. discriminate. }
  destruct (A (repeat [] n) (repeat_length _ _) (sets_repeat n)) as [sf [E [P1 [P2 P3]]]].
  exists sf. split; [exact E|]. rewrite repeat_length in P1.
  assert (P4 : forall a b, entry sf a b <-> exists i, chosen s i /\ entry (hess i) a b).
  { intros a b. rewrite P3. split.
    - intros [C|[i [_ C]]]; [destruct (entry_repeat _ _ _ C)|]. exists i. assumption.
    - intros [i [C1 C2]]. right. exists i. split; [|auto]. apply in_seq0. rewrite <- Ls. unfold chosen in C1. apply nth_error_Some. congruence. }
  split; [|exact P4]. split; [assumption|]. split; [assumption|]. intros a b Hab. apply P4 in Hab. destruct Hab as [i [C1 C2]].
  assert (Hi : i < m) by (rewrite <- Ls; unfold chosen in C1; apply nth_error_Some; congruence).
  apply (Hh i Hi) in C2. assumption.
Qed.

Lemma mark_set (t : list bool) j x : j < List.length t -> (chosen (setNth t j true) x <-> chosen t x \/ x = j).
Proof.
  intros H. unfold chosen. destruct (Nat.eq_dec x j) as [-> |Hn].
  - rewrite nth_set_eq by assumption. tauto.
  - rewrite nth_set_ne by auto. tauto.
Qed.

Lemma markSelected_ok jac s m n t : shape jac m n -> List.length s = m -> List.length t = n ->
  exists t', markSelected jac s m t = XOk t' /\ List.length t' = n /\
    forall j, chosen t' j <-> chosen t j \/ exists i, chosen s i /\ entry jac i j.
Proof.
  intros [J1 [J2 J3]] Ls Lt. unfold markSelected.
  match goal with |- context [foreach (seq 0 m) ?f t] =>
    destruct (foreach_inv (fun d x => List.length x = n /\ forall j, chosen x j <-> chosen t j \/ exists i, In i d /\ chosen s i /\ entry jac i j)
       f (seq 0 m) [] t) as [t' [E [H1 H2]]] end.
  - intros d i x Hi [L1 L2]. apply in_seq0 in Hi. destruct (row_some s i) as [b [E E']]; [lia|]. rewrite E'. cbn [xbind].
    destruct b.
    + destruct (row_some jac i) as [row [F F']]; [lia|]. rewrite F'. cbn [xbind].
      match goal with |- context [foreach row ?f x] =>
        destruct (foreach_inv (fun d y => List.length y = n /\ forall j, chosen y j <-> chosen x j \/ In j d) f row [] x) as [y [Ey [M1 M2]]] end.
      * intros d' j y Hj [N1 N2]. assert (j < n) by (apply (J3 i j); exists row; auto).
        destruct (row_some y j) as [z [Z Z']]; [lia|]. rewrite Z'. cbn [xbind]. eexists. split; [reflexivity|].
        split; [rewrite setNth_length; assumption|]. intros a. rewrite mark_set by lia. rewrite N2, in_app_iff. cbn [In]. intuition.
      * split; [assumption|]. intros j. cbn. tauto.
      * exists y. split; [assumption|]. split; [assumption|]. intros j. rewrite M2, L2. cbn [app]. split.
        -- intros [[?|[a [? ?]]]|Hj]; [auto| |].
           ++ right. exists a. rewrite in_app_iff. auto.
           ++ right. exists i. rewrite in_app_iff. split; [right; left; reflexivity|]. split; [assumption|exists row; auto].
        -- intros [?|[a [Ha [Hb Hc]]]]; [auto|]. apply in_app_iff in Ha. destruct Ha as [Ha|[<-|[]]].
           ++ left. right. exists a. auto.
           ++ right. apply (entry_nth jac i row j F). assumption.
    + exists x. split; [reflexivity|]. split; [assumption|]. intros j. rewrite L2. split.
      * intros [?|[a [? ?]]]; [auto|]. right. exists a. rewrite in_app_iff. auto.
      * intros [?|[a [Ha [Hb Hc]]]]; [auto|]. apply in_app_iff in Ha. destruct Ha as [Ha|[<-|[]]]; [right; exists a; auto|].
        unfold chosen in Hb. congruence.
  - split; [assumption|]. intros j. split; [tauto|]. intros [?|[i [[] _]]]. assumption.
  - exists t'. split; [assumption|]. split; [assumption|]. intros j. rewrite H2. cbn [app]. split.
    + intros [?|[i [_ ?]]]; [auto|]. right. exists i. assumption.
    + intros [?|[i [Hi ?]]]; [auto|]. right. exists i. split; [|auto]. apply in_seq0. rewrite <- Ls. unfold chosen in Hi. apply nth_error_Some. congruence.
Qed.

Lemma resize_same {A} (d : A) k p : List.length p = k -> resizeP d k p = p.
Proof. intros H. unfold resizeP. rewrite firstn_all2 by lia. rewrite H, Nat.sub_diag. cbn [repeat]. apply app_nil_r. Qed.

Lemma resize_length {A} (d : A) k p : List.length (resizeP d k p) = k.
Proof. unfold resizeP. rewrite app_length, repeat_length, firstn_length. lia. Qed.

Lemma hessian_ok dbg jac hessAll hess m n s t q r u v :
  shape jac m n -> shape hessAll n n -> (forall i, i < m -> shape (hess i) n n) ->
  List.length s = m -> List.length t = n -> shape r n q -> shape u m q -> List.length v = n -> sets v ->
  exists t' v', genericRevSparseHes dbg jac hessAll hess m n s t q r u v = XOk (t', v') /\
    List.length t' = n /\ List.length v' = n /\ sets v' /\
    (forall j, chosen t' j <-> chosen t j \/ exists i, chosen s i /\ entry jac i j) /\
    (forall i j, entry v' i j <->
       (exists k, entry jac k i /\ entry u k j) \/
       (exists k, ((forall d, d < m -> chosen s d) /\ entry hessAll i k \/
                   (exists d, d < m /\ ~ chosen s d) /\ exists d, chosen s d /\ entry (hess d) i k) /\ entry r k j)).
Proof.
  intros Hj HA Hh Ls Lt Hr Hu Lv Sv. unfold genericRevSparseHes.
  destruct (clear_all v Sv) as [v1 [E1 [L1 [S1 N1]]]]. rewrite Lv in E1, L1. rewrite E1. cbn [xbind].
  destruct (multMatrixTransMatrixSparsity_ok dbg jac u v1 m n q) as [v2 [E2 [P1 [P2 P3]]]];
    [apply Hj|apply Hu|assumption|apply shape_rc; assumption|apply shape_rc; assumption|lia|intros _; apply Hu|].
  rewrite E2. cbn [xbind].
  destruct (allSelected_ok s (seq 0 m)) as [b [Eb Hb]]; [intros i Hi; apply in_seq0 in Hi; lia|]. rewrite Eb. cbn [xbind].
  destruct (markSelected_ok jac s m n t Hj Ls Lt) as [t' [Et [Lt' Ht']]].
  assert (V2 : forall i j, entry v2 i j <-> exists k, entry jac k i /\ entry u k j).
  { intros i j. rewrite P3. unfold product, transposed. split.
    - intros [C|[k [C1 C2]]]; [destruct (N1 _ _ C)|]. exists k. rewrite (shape_upto _ _ _ Hj) in C1. rewrite (shape_upto _ _ _ Hu) in C2. auto.
    - intros [k [C1 C2]]. right. exists k. rewrite (shape_upto _ _ _ Hj), (shape_upto _ _ _ Hu). auto. }
  destruct b.
  - assert (Ball : forall d, d < m -> chosen s d) by (intros d Hd; apply (proj1 Hb eq_refl), in_seq0, Hd).
    rewrite resize_same by apply HA.
    destruct (multMatrixMatrixSparsity_ok dbg hessAll r v2 n n q) as [v3 [E3 [Q1 [Q2 Q3]]]];
      [apply HA|apply Hr|assumption|apply shape_rc; assumption|apply shape_rc; assumption|lia|intros _; apply HA|].
    rewrite E3. cbn [xbind]. rewrite Et. cbn [xbind]. exists t', v3. split; [reflexivity|]. split; [assumption|]. split; [lia|].
    split; [assumption|]. split; [assumption|]. intros i j. rewrite Q3, V2. apply or_iff_compat_l. unfold product. split.
    + intros [k [C1 C2]]. exists k. rewrite (shape_upto _ _ _ HA) in C1. rewrite (shape_upto _ _ _ Hr) in C2. auto.
    + intros [k [[[_ C1]|[[d [D1 D2]] _]] C2]]; [|destruct D2; apply Ball; assumption].
      exists k. rewrite (shape_upto _ _ _ HA), (shape_upto _ _ _ Hr). auto.
  - assert (Bn : exists d, d < m /\ ~ chosen s d).
    { assert (D : forall l, (forall i, In i l -> i < List.length s) -> (forall i, In i l -> chosen s i) \/ exists i, In i l /\ ~ chosen s i).
      { induction l as [|x l IHl]; intros Hl; [left; intros i []|].
        destruct IHl as [C|[y [C1 C2]]]; [intros i Hi; apply Hl; right; assumption| |right; exists y; split; [right; assumption|assumption]].
        destruct (row_some s x) as [z [Z _]]; [apply Hl; left; reflexivity|]. destruct z.
        - left. intros i [<-|Hi]; [assumption|apply C, Hi].
        - right. exists x. split; [left; reflexivity|]. unfold chosen. congruence. }
      destruct (D (seq 0 m)) as [C|[i [C1 C2]]]; [intros i Hi; apply in_seq0 in Hi; lia| |].
      - exfalso. apply (proj2 Hb) in C. discriminate.
      - exists i. apply in_seq0 in C1. auto. }
    destruct (sumSelected_ok dbg hess s m n Ls Hh) as [sf [Ef [Sf Hf]]]. rewrite Ef. cbn [xbind].
    destruct (multMatrixMatrixSparsity_ok dbg sf r v2 n n q) as [v3 [E3 [Q1 [Q2 Q3]]]];
      [apply Sf|apply Hr|assumption|apply shape_rc; assumption|apply shape_rc; assumption|lia|intros _; apply Sf|].
    rewrite E3. cbn [xbind]. rewrite Et. cbn [xbind]. exists t', v3. split; [reflexivity|]. split; [assumption|]. split; [lia|].
    split; [assumption|]. split; [assumption|]. intros i j. rewrite Q3, V2. apply or_iff_compat_l. unfold product. split.
    + intros [k [C1 C2]]. exists k. rewrite (shape_upto _ _ _ Sf) in C1. rewrite (shape_upto _ _ _ Hr) in C2. rewrite Hf in C1. auto.
    + intros [k [[[C _]|[_ C1]] C2]].
      { exfalso. destruct Bn as [d [D1 D2]]. apply D2, C, D1. }
      exists k. rewrite (shape_upto _ _ _ Sf), (shape_upto _ _ _ Hr), Hf. auto.
Qed.

Lemma bridge_hessian_ok dbg jac hessAll hess m n s t q r u v :
  shape jac m n -> shape hessAll n n -> (forall i, i < m -> shape (hess i) n n) ->
  List.length s = m -> List.length t = n -> shape r n q -> shape u m q -> List.length v = n -> sets v ->
  exists t' v', bridgeRevSparseHes dbg jac hessAll hess m n s t q r u v = XOk (t', v') /\
    List.length t' = n /\ List.length v' = n /\ sets v' /\
    (forall j, chosen t' j <-> chosen t j \/ exists i, chosen s i /\ entry jac i j) /\
    (forall i j, entry v' i j <->
       (exists k, entry jac k i /\ entry u k j) \/
       (exists k, ((forall d, d < m -> chosen s d) /\ entry hessAll k i \/
                   (exists d, d < m /\ ~ chosen s d) /\ exists d, chosen s d /\ entry (hess d) k i) /\ entry r k j)).
Proof.
  intros Hj HA Hh Ls Lt Hr Hu Lv Sv. unfold bridgeRevSparseHes.
  destruct (clear_all v Sv) as [v1 [E1 [L1 [S1 N1]]]]. rewrite Lv in E1, L1. rewrite E1. cbn [xbind].
  destruct (multMatrixTransMatrixSparsity_ok dbg jac u v1 m n q) as [v2 [E2 [P1 [P2 P3]]]];
    [apply Hj|apply Hu|assumption|apply shape_rc; assumption|apply shape_rc; assumption|lia|intros _; apply Hu|].
  rewrite E2. cbn [xbind].
  destruct (allSelected_ok s (seq 0 m)) as [b [Eb Hb]]; [intros i Hi; apply in_seq0 in Hi; lia|]. rewrite Eb. cbn [xbind].
  destruct (markSelected_ok jac s m n t Hj Ls Lt) as [t' [Et [Lt' Ht']]].
  assert (V2 : forall i j, entry v2 i j <-> exists k, entry jac k i /\ entry u k j).
  { intros i j. rewrite P3. unfold product, transposed. split.
    - intros [C|[k [C1 C2]]]; [destruct (N1 _ _ C)|]. exists k. rewrite (shape_upto _ _ _ Hj) in C1. rewrite (shape_upto _ _ _ Hu) in C2. auto.
    - intros [k [C1 C2]]. right. exists k. rewrite (shape_upto _ _ _ Hj), (shape_upto _ _ _ Hu). auto. }
  destruct b.
  - assert (Ball : forall d, d < m -> chosen s d) by (intros d Hd; apply (proj1 Hb eq_refl), in_seq0, Hd).
    destruct (multMatrixTransMatrixSparsity_ok dbg hessAll r v2 n n q) as [v3 [E3 [Q1 [Q2 Q3]]]];
      [apply HA|apply Hr|assumption|apply shape_rc; assumption|apply shape_rc; assumption|lia|intros _; apply Hr|].
    rewrite E3. cbn [xbind]. rewrite Et. cbn [xbind]. exists t', v3. split; [reflexivity|]. split; [assumption|]. split; [lia|].
    split; [assumption|]. split; [assumption|]. intros i j. rewrite Q3, V2. apply or_iff_compat_l. unfold product, transposed. split.
    + intros [k [C1 C2]]. exists k. rewrite (shape_upto _ _ _ HA) in C1. rewrite (shape_upto _ _ _ Hr) in C2. auto.
    + intros [k [[[_ C1]|[[d [D1 D2]] _]] C2]]; [|destruct D2; apply Ball; assumption].
      exists k. rewrite (shape_upto _ _ _ HA), (shape_upto _ _ _ Hr). auto.
  - assert (Bn : exists d, d < m /\ ~ chosen s d).
    { assert (D : forall l, (forall i, In i l -> i < List.length s) -> (forall i, In i l -> chosen s i) \/ exists i, In i l /\ ~ chosen s i).
      { induction l as [|x l IHl]; intros Hl; [left; intros i []|].
        destruct IHl as [C|[y [C1 C2]]]; [intros i Hi; apply Hl; right; assumption| |right; exists y; split; [right; assumption|assumption]].
        destruct (row_some s x) as [z [Z _]]; [apply Hl; left; reflexivity|]. destruct z.
        - left. intros i [<-|Hi]; [assumption|apply C, Hi].
        - right. exists x. split; [left; reflexivity|]. unfold chosen. congruence. }
      destruct (D (seq 0 m)) as [C|[i [C1 C2]]]; [intros i Hi; apply in_seq0 in Hi; lia| |].
      - exfalso. apply (proj2 Hb) in C. discriminate.
      - exists i. apply in_seq0 in C1. auto. }
    destruct (sumSelected_ok dbg hess s m n Ls Hh) as [sf [Ef [Sf Hf]]]. rewrite Ef. cbn [xbind].
    destruct (multMatrixTransMatrixSparsity_ok dbg sf r v2 n n q) as [v3 [E3 [Q1 [Q2 Q3]]]];
      [apply Sf|apply Hr|assumption|apply shape_rc; assumption|apply shape_rc; assumption|lia|intros _; apply Hr|].
    rewrite E3. cbn [xbind]. rewrite Et. cbn [xbind]. exists t', v3. split; [reflexivity|]. split; [assumption|]. split; [lia|].
    split; [assumption|]. split; [assumption|]. intros i j. rewrite Q3, V2. apply or_iff_compat_l. unfold product, transposed. split.
    + intros [k [C1 C2]]. exists k. rewrite (shape_upto _ _ _ Sf) in C1. rewrite (shape_upto _ _ _ Hr) in C2. rewrite Hf in C1. auto.
    + intros [k [[[C _]|[_ C1]] C2]].
      { exfalso. destruct Bn as [d [D1 D2]]. apply D2, C, D1. }
      exists k. rewrite (shape_upto _ _ _ Sf), (shape_upto _ _ _ Hr), Hf. auto.
Qed.

(** ** Lists of positions *)

Definition stok (N : nat) (done : list (nat * nat)) (st : nat * list nat * list nat) : Prop :=
  let '(k, row, col) := st in
  k = List.length done /\ List.length row = N /\ List.length col = N /\
  exists r c, row = map fst done ++ r /\ col = map snd done ++ c.

Lemma foreach_append N (E : nat -> list (nat * nat)) f l : forall done st,
  (forall i done st, In i l -> stok N done st -> List.length done + List.length (E i) <= N ->
     exists st', f i st = XOk st' /\ stok N (done ++ E i) st') ->
  stok N done st -> List.length done + List.length (flat_map E l) <= N ->
  exists st', foreach l f st = XOk st' /\ stok N (done ++ flat_map E l) st'.
Proof.
  induction l as [|i l IH]; intros done st H Hst HN; cbn [foreach flat_map] in *.
  - exists st. rewrite app_nil_r. auto.
  - rewrite app_length in HN. destruct (H i done st (or_introl eq_refl) Hst ltac:(lia)) as [st1 [E1 H1]]. rewrite E1. cbn [xbind].
    destruct (IH (done ++ E i) st1) as [st2 [E2 H2]]; [intros k d s Hk; apply H; right; assumption|assumption|rewrite app_length; lia|].
    exists st2. split; [assumption|]. rewrite app_assoc. assumption.
Qed.

Lemma set_mid {A} (p : list A) x r y : setNth (p ++ x :: r) (List.length p) y = p ++ y :: r.
Proof. induction p as [|z p IH]; cbn [app List.length setNth]; [reflexivity|]. rewrite IH. reflexivity. Qed.

Lemma storeAt_mid p x r y : storeAt (p ++ x :: r) (List.length p) y = XOk (p ++ y :: r).
Proof.
  unfold storeAt, rowAt. rewrite nth_error_app2, Nat.sub_diag by lia. cbn [nth_error xbind]. rewrite set_mid. reflexivity.
Qed.

Lemma copyAt_ok xs : forall p old r, List.length old = List.length xs ->
  copyAt xs (List.length p) (p ++ old ++ r) = XOk (p ++ xs ++ r).
Proof.
  induction xs as [|x xs IH]; intros p old r H; destruct old as [|o old]; cbn [List.length] in H; try discriminate; cbn [copyAt app].
  - reflexivity.
  - rewrite storeAt_mid. cbn [xbind].
    assert (G := IH (p ++ [x]) old r ltac:(lia)). rewrite app_length in G. cbn [List.length] in G.
    rewrite <- !app_assoc in G. cbn [app] in G. replace (List.length p + 1) with (S (List.length p)) in G by lia. exact G.
Qed.

Lemma copyAt_at xs k p old r : k = List.length p -> List.length old = List.length xs ->
  copyAt xs k (p ++ old ++ r) = XOk (p ++ xs ++ r).
Proof. intros ->. apply copyAt_ok. Qed.

Lemma storeAt_at k p x r y : k = List.length p -> storeAt (p ++ x :: r) k y = XOk (p ++ y :: r).
Proof. intros ->. apply storeAt_mid. Qed.

Lemma split_len {A} (l : list A) k : k <= List.length l -> exists a b, l = a ++ b /\ List.length a = k.
Proof.
  intros H. exists (firstn k l), (skipn k l). split; [symmetry; apply firstn_skipn|]. rewrite firstn_length. lia.
Qed.

Definition rowE (p : pat) (i : nat) : list (nat * nat) := map (pair i) (nth i p []).

Lemma fold_count (p : pat) : forall a, fold_left (fun a s => a + List.length s) p a = a + List.length (flat_map (fun s => s) p).
Proof.
  induction p as [|s p IH]; intros a; cbn [fold_left flat_map]; [cbn; lia|]. rewrite IH, app_length. lia.
Qed.

Lemma flat_rows_length (p : pat) : List.length (flat_map (rowE p) (seq 0 (List.length p))) = List.length (flat_map (fun s => s) p).
Proof.
  induction p as [|s p IH]; [reflexivity|]. cbn [List.length seq flat_map]. rewrite !app_length. f_equal.
  - unfold rowE. cbn [nth]. apply map_length.
  - rewrite <- IH, <- seq_shift.
    assert (G : forall l, List.length (flat_map (rowE (s :: p)) (map S l)) = List.length (flat_map (rowE p) l)).
    { induction l as [|x l IHl]; [reflexivity|]. cbn [map flat_map]. rewrite !app_length, IHl. f_equal. unfold rowE. cbn [nth]. rewrite !map_length. reflexivity. }
    apply G.
Qed.

Lemma stok_full N done st : stok N done st -> List.length done = N ->
  let '(k, row, col) := st in row = map fst done /\ col = map snd done /\ k = N.
Proof.
  destruct st as [[k row] col]. intros [H1 [H2 [H3 [r [c [H4 H5]]]]]] HN.
  assert (r = []) by (destruct r; [reflexivity|]; apply (f_equal (@List.length nat)) in H4; rewrite app_length, map_length in H4; cbn in H4; lia).
  assert (c = []) by (destruct c; [reflexivity|]; apply (f_equal (@List.length nat)) in H5; rewrite app_length, map_length in H5; cbn in H5; lia).
  subst r c. rewrite app_nil_r in H4, H5. split; [assumption|]. split; [assumption|]. lia.
Qed.

Lemma generateIndexesSet_ok p row col :
  generateIndexesSet p row col = XOk (map fst (flat_map (rowE p) (seq 0 (List.length p))), map snd (flat_map (rowE p) (seq 0 (List.length p)))).
Proof.
  unfold generateIndexesSet. rewrite fold_count. cbn [Nat.add]. set (N := List.length (flat_map (fun s => s) p)).
  assert (HN := flat_rows_length p). fold N in HN.
  destruct (Nat.eqb_spec N 0) as [E0|E0].
  - assert (Hnil : flat_map (rowE p) (seq 0 (List.length p)) = []) by (apply length_zero_iff_nil; lia).
    rewrite Hnil, E0. cbn [map]. reflexivity.
  - match goal with |- xbind (foreach ?l ?f ?st) _ = _ => destruct (foreach_append N (rowE p) f l [] st) as [st' [E H]] end.
    + intros i done [[k r] c] Hi Hst HL. apply in_seq0 in Hi. destruct Hst as [H1 [H2 [H3 [r1 [c1 [H4 H5]]]]]].
      destruct (row_some p i) as [s [F F']]; [assumption|]. rewrite F'. cbn [xbind].
      unfold rowE in *. rewrite (nth_error_nth _ _ _ F) in *. rewrite map_length in HL.
      subst r c. rewrite app_length, map_length in H2, H3.
      destruct (split_len r1 (List.length s)) as [ra [rb [Er Lr]]]; [lia|]. destruct (split_len c1 (List.length s)) as [ca [cb [Ec Lc]]]; [lia|].
      subst r1 c1. rewrite copyAt_at by (rewrite ?map_length, ?repeat_length; assumption).
      cbn [xbind]. rewrite copyAt_at by (rewrite ?map_length; assumption). cbn [xbind].
      eexists. split; [reflexivity|]. unfold stok. rewrite !app_length, !map_length, ?repeat_length in *.
      split; [lia|]. split; [lia|]. split; [lia|]. exists rb, cb. rewrite !map_app, !map_map. cbn [fst snd].
      rewrite map_id, <- !app_assoc. split; [|reflexivity]. f_equal. f_equal. clear. induction s as [|x s IH]; cbn; [reflexivity|]. rewrite IH. reflexivity.
    + cbn. rewrite !resize_length. split; [reflexivity|]. split; [reflexivity|]. split; [reflexivity|]. eauto.
    + cbn [List.length]. lia.
    + rewrite E. cbn [xbind app] in *. assert (G := stok_full N _ st' H HN). destruct st' as [[k r] c]. destruct G as [-> [-> _]]. reflexivity.
Qed.

Lemma combine_fst_snd {A B} (l : list (A * B)) : combine (map fst l) (map snd l) = l.
Proof. induction l as [|[a b] l IH]; cbn; [reflexivity|]. rewrite IH. reflexivity. Qed.

Lemma sorted_app {A} (R : A -> A -> Prop) (l1 l2 : list A) : StronglySorted R l1 -> StronglySorted R l2 ->
  (forall x y, In x l1 -> In y l2 -> R x y) -> StronglySorted R (l1 ++ l2).
Proof.
  induction l1 as [|x l1 IH]; intros H1 H2 H; cbn [app]; [assumption|]. inversion H1 as [|? ? A1 A2]; subst.
  constructor; [apply IH; [assumption|assumption|intros; apply H; [right; assumption|assumption]]|].
  apply Forall_forall. intros y Hy. apply in_app_iff in Hy. destruct Hy as [Hy|Hy].
  - rewrite Forall_forall in A2. apply A2, Hy.
  - apply H; [left; reflexivity|assumption].
Qed.

Lemma flat_enum_sorted (E : nat -> list nat) : (forall i, StronglySorted lt (E i)) -> forall m i,
  StronglySorted before (flat_map (fun i => map (pair i) (E i)) (seq i m)).
Proof.
  intros HE. induction m as [|m IH]; intros i; cbn [seq flat_map]; [constructor|]. apply sorted_app.
  - specialize (HE i). clear IH. induction HE as [|x l H1 IH H2]; cbn [map]; [constructor|]. constructor; [assumption|].
    apply Forall_forall. intros y Hy. apply in_map_iff in Hy. destruct Hy as [z [<- Hz]]. right. cbn. split; [reflexivity|].
    rewrite Forall_forall in H2. apply H2, Hz.
  - apply IH.
  - intros x y Hx Hy. apply in_map_iff in Hx. destruct Hx as [a [<- _]]. apply in_flat_map in Hy. destruct Hy as [k [Hk Hy]].
    apply in_map_iff in Hy. destruct Hy as [b [<- _]]. apply in_seq in Hk. left. cbn. lia.
Qed.

Lemma set_indexes p row col : sets p -> exists row' col', generateIndexesSet p row col = XOk (row', col') /\ enumerates (entry p) row' col'.
Proof.
  intros Hp. do 2 eexists. split; [apply generateIndexesSet_ok|]. unfold enumerates. rewrite !map_length, combine_fst_snd.
  split; [reflexivity|]. split.
  - apply (flat_enum_sorted (fun i => nth i p [])). intros i. destruct (nth_error p i) as [s|] eqn:E.
    + rewrite (nth_error_nth _ _ _ E). eapply sets_row; eassumption.
    + apply nth_error_None in E. rewrite nth_overflow by assumption. constructor.
  - intros i j. rewrite in_flat_map. split.
    + intros [k [Hk H]]. apply in_seq0 in Hk. apply in_map_iff in H. destruct H as [x [Hx1 Hx2]]. injection Hx1 as <- <-.
      destruct (row_some p k) as [s [E _]]; [assumption|]. rewrite (nth_error_nth _ _ _ E) in Hx2. exists s. auto.
    + intros H. assert (Hi := entry_lt _ _ _ H). destruct H as [s [E Hj]]. exists i. split; [apply in_seq0; assumption|].
      unfold rowE. rewrite (nth_error_nth _ _ _ E). apply in_map, Hj.
Qed.

(** The dense version. *)
Definition denseE (sp : list bool) (n i : nat) : list nat := filter (fun j => nth (i * n + j) sp false) (seq 0 n).

Lemma filter_seq_length l : List.length (filter (fun j => nth j l false) (seq 0 (List.length l))) = List.length (filter (fun b => b) l).
Proof.
  induction l as [|b l IH]; [reflexivity|]. cbn [List.length seq filter].
  assert (G : List.length (filter (fun j => nth j (b :: l) false) (seq 1 (List.length l))) = List.length (filter (fun b => b) l)).
  { rewrite <- IH, <- seq_shift. generalize (seq 0 (List.length l)). induction l0 as [|x l0 IH0]; [reflexivity|]. cbn [map filter].
    change (nth (S x) (b :: l) false) with (nth x l false).
    destruct (nth x l false); cbn [List.length]; rewrite IH0; reflexivity. }
  change (nth 0 (b :: l) false) with b. destruct b; cbn [List.length]; rewrite G; reflexivity.
Qed.

Lemma dense_count n : forall m sp, List.length sp = m * n ->
  List.length (flat_map (fun i => map (pair i) (denseE sp n i)) (seq 0 m)) = List.length (filter (fun b => b) sp).
Proof.
  induction m as [|m IH]; intros sp H.
  - destruct sp; [reflexivity|discriminate].
  - cbn [Nat.mul] in H. destruct (split_len sp (m * n)) as [a [b [-> La]]]; [lia|]. rewrite app_length in H.
    rewrite seq_S, flat_map_app, app_length, filter_app, app_length. f_equal.
    + rewrite <- (IH a La). rewrite !flat_map_concat_map. f_equal. f_equal. apply map_ext_in. intros i Hi. apply in_seq0 in Hi.
      f_equal. unfold denseE. apply filter_ext_in. intros j Hj. apply in_seq0 in Hj. apply app_nth1. rewrite La.
      assert (S i * n <= m * n) by (apply Nat.mul_le_mono_r; lia). cbn [Nat.mul] in *. lia.
    + cbn [flat_map Nat.add]. rewrite app_nil_r, map_length. unfold denseE.
      rewrite <- filter_seq_length. replace (List.length b) with n by lia. f_equal. apply filter_ext_in. intros j Hj.
      rewrite app_nth2 by lia. f_equal. lia.
Qed.

Lemma filter_sorted f l : StronglySorted lt l -> StronglySorted lt (filter f l).
Proof.
  induction 1 as [|x l H1 IH H2]; cbn [filter]; [constructor|]. destruct (f x); [|assumption]. constructor; [assumption|].
  rewrite Forall_forall in *. intros y Hy. apply filter_In in Hy. apply H2, Hy.
Qed.

Lemma seq_sorted n : forall i, StronglySorted lt (seq i n).
Proof.
  induction n as [|n IH]; intros i; cbn [seq]; constructor; [apply IH|]. apply Forall_forall. intros y Hy. apply in_seq in Hy. lia.
Qed.

Lemma bool_indexes dbg sp m n row col : List.length sp = m * n ->
  exists row' col', generateIndexesBool dbg sp m n row col = XOk (row', col') /\ enumerates (dense sp m n) row' col'.
Proof.
  intros HL. unfold generateIndexesBool. rewrite xassert_true by (apply Nat.eqb_eq; assumption). cbv zeta.
  assert (HN := dense_count n m sp HL). set (N := List.length (filter (fun b => b) sp)) in *.
  set (EE := flat_map (fun i => map (pair i) (denseE sp n i)) (seq 0 m)) in *.
  match goal with |- context [xbind (foreach ?l ?f ?st) _] => destruct (foreach_append N (fun i => map (pair i) (denseE sp n i)) f l [] st) as [st' [E H]] end.
  - intros i done st Hi Hst HLn. apply in_seq0 in Hi.
    match goal with |- context [foreach ?l ?f st] =>
      destruct (foreach_append N (fun j => if nth (i * n + j) sp false then [(i, j)] else []) f l done st) as [st' [E H]] end.
    + intros j d [[k r] c] Hj Hst2 HL2. apply in_seq0 in Hj.
      assert (Hin : i * n + j < List.length sp).
      { rewrite HL. assert (S i * n <= m * n) by (apply Nat.mul_le_mono_r; lia). cbn [Nat.mul] in *. lia. }
      destruct (row_some sp (i * n + j)) as [b [F F']]; [assumption|]. rewrite F'. cbn [xbind]. rewrite (nth_error_nth _ _ _ F) in *.
      destruct b.
      * destruct Hst2 as [H1 [H2 [H3 [r1 [c1 [H4 H5]]]]]]. subst r c. rewrite app_length, map_length in H2, H3. cbn [List.length] in HL2.
        destruct r1 as [|ra r1]; [cbn [List.length] in H2; lia|]. destruct c1 as [|ca c1]; [cbn [List.length] in H3; lia|].
        rewrite storeAt_at by (rewrite map_length; assumption). cbn [xbind]. rewrite storeAt_at by (rewrite map_length; assumption). cbn [xbind].
        eexists. split; [reflexivity|]. unfold stok. rewrite !app_length, !map_length in *. cbn [List.length] in *.
        split; [lia|]. split; [lia|]. split; [lia|]. exists r1, c1. rewrite !map_app, <- !app_assoc. split; reflexivity.
      * exists (k, r, c). split; [reflexivity|]. rewrite app_nil_r. assumption.
    + assumption.
    + replace (flat_map (fun j => if nth (i * n + j) sp false then [(i, j)] else []) (seq 0 n)) with (map (pair i) (denseE sp n i)); [assumption|].
      unfold denseE. generalize (seq 0 n). induction l as [|x l IH]; [reflexivity|]. cbn [filter flat_map]. destruct (nth (i * n + x) sp false); cbn [map app]; rewrite IH; reflexivity.
    + exists st'. split; [assumption|].
      replace (flat_map (fun j => if nth (i * n + j) sp false then [(i, j)] else []) (seq 0 n)) with (map (pair i) (denseE sp n i)) in H; [assumption|].
      unfold denseE. generalize (seq 0 n). induction l as [|x l IH]; [reflexivity|]. cbn [filter flat_map]. destruct (nth (i * n + x) sp false); cbn [map app]; rewrite IH; reflexivity.
  - cbn. rewrite !resize_length. split; [reflexivity|]. split; [reflexivity|]. split; [reflexivity|]. eauto.
  - cbn [List.length]. fold EE. lia.
  - rewrite E. cbn [xbind app] in *. fold EE in H. assert (G := stok_full N _ st' H HN). destruct st' as [[k r] c]. destruct G as [-> [-> ->]].
    exists (map fst EE), (map snd EE). split; [apply xassert_true; rewrite map_length; apply Nat.eqb_eq; symmetry; exact HN|].
    unfold enumerates. rewrite !map_length, combine_fst_snd. split; [reflexivity|]. split.
    + apply (flat_enum_sorted (denseE sp n)). intros i. apply filter_sorted, seq_sorted.
    + intros i j. unfold EE. rewrite in_flat_map. unfold dense, denseE. split.
      * intros [x [Hx H']]. apply in_seq0 in Hx. apply in_map_iff in H'. destruct H' as [y [Hy1 Hy2]]. injection Hy1 as <- <-.
        apply filter_In in Hy2. destruct Hy2 as [Hy2 Hy3]. apply in_seq0 in Hy2. split; [assumption|]. split; [assumption|].
        destruct (nth_error sp (x * n + y)) as [b|] eqn:Eb; [rewrite (nth_error_nth _ _ _ Eb) in Hy3; congruence|].
        apply nth_error_None in Eb. rewrite nth_overflow in Hy3 by assumption. discriminate.
      * intros [Hi [Hj Hb]]. exists i. split; [apply in_seq0; assumption|]. apply in_map, filter_In. split; [apply in_seq0; assumption|].
        apply (nth_error_nth _ _ _ Hb).
Qed.

Lemma generateSet_ok dbg row col p : List.length row = List.length col -> sets p -> (forall i, In i row -> i < List.length p) ->
  exists p', generateSet dbg row col p = XOk p' /\ plus p (fun i j => In (i, j) (combine row col)) p'.
Proof.
  intros HL Sp Hr. unfold generateSet. rewrite xassert_true by (apply Nat.eqb_eq; assumption).
  match goal with |- context [foreach ?l ?f p] =>
    assert (A : adds (List.length p) (fun i j => exists e, In e l /\ nth_error (combine row col) e = Some (i, j)) (foreach l f)) end.
  { apply adds_foreach. intros e He. apply in_seq0 in He.
    destruct (row_some row e) as [i [E1 E1']]; [assumption|]. destruct (row_some col e) as [j [E2 E2']]; [lia|].
    rewrite E1', E2'. cbn [xbind]. eapply adds_iff; [apply adds_insert, Hr, (nth_error_In _ _ E1)|].
    intros a b. assert (Ec : nth_error (combine row col) e = Some (i, j)).
    { clear - E1 E2. revert col e E1 E2. induction row as [|x row IH]; intros [|y col] [|e] E1 E2; cbn in *; try discriminate; [congruence|]. apply IH; assumption. }
    rewrite Ec. split; [intros [-> ->]; reflexivity|intros H; injection H as <- <-; auto]. }
  destruct (A p eq_refl Sp) as [p' [E P]]. exists p'. split; [assumption|]. eapply plus_iff; [exact P|]. intros i j. split.
  - intros [e [_ H]]. apply (nth_error_In _ _ H).
  - intros H. apply In_nth_error in H. destruct H as [e He]. exists e. split; [|assumption]. apply in_seq0.
    assert (e < List.length (combine row col)) by (apply nth_error_Some; congruence). rewrite combine_length in H. lia.
Qed.

Lemma isset_ext (a : set) : forall b, isset a -> isset b -> (forall x, In x a <-> In x b) -> a = b.
Proof.
  unfold isset. induction a as [|x a IH]; intros [|y b] Ha Hb H.
  - reflexivity.
  - exfalso. apply (proj2 (H y)). left. reflexivity.
  - exfalso. apply (proj1 (H x)). left. reflexivity.
  - inversion Ha as [|? ? A1 A2]; inversion Hb as [|? ? B1 B2]; subst. rewrite Forall_forall in A2, B2.
    assert (x = y).
    { destruct (proj1 (H x) (or_introl eq_refl)) as [->|Hx]; [reflexivity|]. destruct (proj2 (H y) (or_introl eq_refl)) as [->|Hy]; [reflexivity|].
      specialize (B2 x Hx). specialize (A2 y Hy). lia. }
    subst y. f_equal. apply IH; [assumption|assumption|]. intros z. split; intros Hz.
    + destruct (proj1 (H z) (or_intror Hz)) as [<-|?]; [|assumption]. specialize (A2 x Hz). lia.
    + destruct (proj2 (H z) (or_intror Hz)) as [<-|?]; [|assumption]. specialize (B2 x Hz). lia.
Qed.

Lemma nth_ext_local {A} (a : list A) : forall b, (forall i, nth_error a i = nth_error b i) -> a = b.
Proof.
  induction a as [|x a IH]; intros [|y b] H; [reflexivity|specialize (H 0); discriminate|specialize (H 0); discriminate|].
  f_equal; [specialize (H 0); cbn in H; congruence|]. apply IH. intros i. apply (H (S i)).
Qed.

Lemma pat_ext p : forall p', List.length p = List.length p' -> sets p -> sets p' -> (forall i j, entry p i j <-> entry p' i j) -> p = p'.
Proof.
  intros p' HL Hp Hp' H. apply nth_ext_local. intros i. destruct (Nat.lt_ge_cases i (List.length p)) as [Hi|Hi].
  - destruct (row_some p i Hi) as [s [E _]]. destruct (row_some p' i) as [s' [E' _]]; [lia|]. rewrite E, E'. f_equal.
    apply isset_ext; [exact (sets_row p i s Hp E)|exact (sets_row p' i s' Hp' E')|]. intros x.
    rewrite <- (entry_nth p i s x E), <- (entry_nth p' i s' x E'). apply H.
  - rewrite (proj2 (nth_error_None p i) Hi). symmetry. apply nth_error_None. lia.
Qed.

Lemma round_trip dbg p row col row' col' : sets p -> generateIndexesSet p row col = XOk (row', col') ->
  generateSet dbg row' col' (repeat [] (List.length p)) = XOk p.
Proof.
  intros Sp E. destruct (set_indexes p row col Sp) as [r [c [E' [H1 [H2 H3]]]]]. rewrite E in E'. injection E' as <- <-.
  destruct (generateSet_ok dbg row' col' (repeat [] (List.length p))) as [p' [E2 [P1 [P2 P3]]]].
  - assumption.
  - apply sets_repeat.
  - intros i Hi. rewrite repeat_length. apply In_nth_error in Hi. destruct Hi as [e He].
    assert (e < List.length col') by (rewrite <- H1; apply nth_error_Some; congruence). destruct (row_some col' e H) as [j [Ej _]].
    assert (Hx : entry p i j).
    { apply H3. clear - He Ej. revert col' e He Ej. induction row' as [|x r IH]; intros [|y c] [|e] E1 E2; cbn in *; try discriminate.
      - left. congruence.
      - right. apply (IH c e); assumption. }
    apply entry_lt in Hx. assumption.
  - rewrite E2. f_equal. apply pat_ext; [rewrite P1; apply repeat_length|assumption|assumption|]. intros i j. rewrite P3, H3. split; [|tauto].
    intros [C|?]; [destruct (entry_repeat _ _ _ C)|assumption].
Qed.

(** ** Custom elements *)

Definition flag (f : list (list bool)) (i j : nat) : Prop := exists row, nth_error f i = Some row /\ nth_error row j = Some true.
Definition grid (f : list (list bool)) (m n : nat) : Prop := List.length f = m /\ forall i row, nth_error f i = Some row -> List.length row = n.

Lemma allow_ok f m n i j : grid f m n -> i < m -> j < n ->
  exists f', allow i j f = XOk f' /\ grid f' m n /\ forall a b, flag f' a b <-> flag f a b \/ (a = i /\ b = j).
Proof.
  intros [G1 G2] Hi Hj. unfold allow. destruct (row_some f i) as [row [E E']]; [lia|]. rewrite E'. cbn [xbind].
  assert (Lr := G2 i row E). destruct (row_some row j) as [x [F F']]; [lia|]. rewrite F'. cbn [xbind]. eexists. split; [reflexivity|]. split.
  - split; [rewrite setNth_length; assumption|]. intros a r Ha. destruct (Nat.eq_dec a i) as [-> |Hn].
    + rewrite nth_set_eq in Ha by lia. injection Ha as <-. rewrite setNth_length. assumption.
    + rewrite nth_set_ne in Ha by auto. apply (G2 a r Ha).
  - intros a b. unfold flag. destruct (Nat.eq_dec a i) as [-> |Hn].
    + rewrite nth_set_eq by lia. split.
      * intros [r [Er Hb]]. injection Er as <-. destruct (Nat.eq_dec b j) as [-> |Hb']; [auto|]. rewrite nth_set_ne in Hb by auto. left. exists row. auto.
      * intros [[r [Er Hb]]|[_ ->]]; (eexists; split; [reflexivity|]).
        -- rewrite E in Er. injection Er as <-. destruct (Nat.eq_dec b j) as [-> |Hb']; [apply nth_set_eq; lia|]. rewrite nth_set_ne by auto. assumption.
        -- apply nth_set_eq. lia.
    + rewrite nth_set_ne by auto. tauto.
Qed.

Lemma grid0 m n : grid (repeat (repeat false n) m) m n.
Proof. split; [apply repeat_length|]. intros i row H. apply nth_error_In, repeat_spec in H. subst. apply repeat_length. Qed.

Lemma flag0 m n i j : ~ flag (repeat (repeat false n) m) i j.
Proof. intros [row [H1 H2]]. apply nth_error_In, repeat_spec in H1. subst. apply nth_error_In, repeat_spec in H2. discriminate. Qed.

Lemma positionOfIndexes_ok dbg m n rows cols : List.length rows = List.length cols ->
  (forall i j, In (i, j) (combine rows cols) -> i < m /\ j < n) ->
  exists f, positionOfIndexes dbg m n rows cols = XOk (mkPos (Some f) None) /\ grid f m n /\
    forall i j, flag f i j <-> In (i, j) (combine rows cols).
Proof.
  intros HL Hin. unfold positionOfIndexes. rewrite xassert_true by (apply Nat.eqb_eq; assumption).
  match goal with |- context [foreach ?l ?g ?f0] =>
    destruct (foreach_inv (fun d f => grid f m n /\ forall i j, flag f i j <-> exists e, In e d /\ nth_error (combine rows cols) e = Some (i, j)) g l [] f0)
     as [f [E [H1 H2]]] end.
  - intros d e f He [F1 F2]. apply in_seq0 in He.
    destruct (row_some rows e) as [i [E1 E1']]; [assumption|]. destruct (row_some cols e) as [j [E2 E2']]; [lia|]. rewrite E1', E2'. cbn [xbind].
    assert (Ec : nth_error (combine rows cols) e = Some (i, j)).
    { clear - E1 E2. revert cols e E1 E2. induction rows as [|x rows IH]; intros [|y cols] [|e] E1 E2; cbn in *; try discriminate; [congruence|]. apply IH; assumption. }
    destruct (Hin i j (nth_error_In _ _ Ec)) as [Hi Hj]. destruct (allow_ok f m n i j F1 Hi Hj) as [f' [E' [G1 G2]]].
    exists f'. split; [assumption|]. split; [assumption|]. intros a b. rewrite G2, F2. split.
    + intros [[x [X1 X2]]|[-> ->]]; [exists x|exists e]; rewrite in_app_iff; cbn; auto.
    + intros [x [X1 X2]]. apply in_app_iff in X1. destruct X1 as [X1|[<-|[]]]; [left; exists x; auto|]. right. rewrite Ec in X2. injection X2 as <- <-. auto.
  - split; [apply grid0|]. intros i j. split; [intros C; destruct (flag0 _ _ _ _ C)|intros [e [[] _]]].
  - rewrite E. cbn [xbind]. exists f. split; [reflexivity|]. split; [assumption|]. intros i j. rewrite H2. cbn [app]. split.
    + intros [e [_ He]]. apply (nth_error_In _ _ He).
    + intros H. apply In_nth_error in H. destruct H as [e He]. exists e. split; [|assumption]. apply in_seq0.
      assert (Hl : e < List.length (combine rows cols)) by (apply nth_error_Some; congruence). rewrite combine_length in Hl. lia.
Qed.

Lemma positionOfPattern_ok dbg m n els : List.length els <= m -> (forall i j, entry els i j -> j < n) ->
  exists f, positionOfPattern dbg m n els = XOk (mkPos (Some f) None) /\ grid f m n /\
    forall i j, flag f i j <-> entry els i j.
Proof.
  intros HL Hin. unfold positionOfPattern. rewrite xassert_true by (apply leb_true; assumption).
  match goal with |- context [foreach ?l ?g ?f0] =>
    destruct (foreach_inv (fun d f => grid f m n /\ forall i j, flag f i j <-> In i d /\ entry els i j) g l [] f0)
     as [f [E [H1 H2]]] end.
  - intros d i f Hi [F1 F2]. apply in_seq0 in Hi. destruct (row_some els i) as [s [E1 E1']]; [assumption|]. rewrite E1'. cbn [xbind].
    match goal with |- context [foreach s ?g f] =>
      destruct (foreach_inv (fun d' f' => grid f' m n /\ forall a b, flag f' a b <-> flag f a b \/ (a = i /\ In b d')) g s [] f) as [f1 [E2 [G1 G2]]] end.
    + intros d' j f' Hj [F3 F4]. assert (Hjn : j < n) by (apply (Hin i j); exists s; auto).
      destruct (allow_ok f' m n i j F3 ltac:(lia) Hjn) as [f2 [E3 [G1 G2]]]. exists f2. split; [assumption|]. split; [assumption|].
      intros a b. rewrite G2, F4, in_app_iff. cbn [In]. intuition.
    + split; [assumption|]. intros a b. cbn. tauto.
    + exists f1. split; [assumption|]. split; [assumption|]. intros a b. cbn [app] in G2. rewrite G2, F2, in_app_iff. cbn [In]. split.
      * intros [[? ?]|[-> Hb]]; [auto|]. split; [auto|]. exists s. auto.
      * intros [[?|[<-|[]]] Hb]; [auto|]. right. split; [reflexivity|]. apply (entry_nth els i s b E1). assumption.
  - split; [apply grid0|]. intros i j. split; [intros C; destruct (flag0 _ _ _ _ C)|intros [[] _]].
  - rewrite E. cbn [xbind]. exists f. split; [reflexivity|]. split; [assumption|]. intros i j. rewrite H2. cbn [app]. rewrite in_seq0.
    split; [tauto|]. intros H. split; [apply entry_lt in H; assumption|assumption].
Qed.

Lemma filter_ok f m n fl p : grid f m n -> List.length p <= m -> sets p -> (forall i j, entry p i j -> j < n) ->
  exists p', filterPattern (mkPos (Some f) fl) p = XOk p' /\ List.length p' = List.length p /\ sets p' /\
    forall i j, entry p' i j <-> entry p i j /\ flag f i j.
Proof.
  intros [G1 G2] HL Sp Hin. unfold filterPattern. cbn [elFilter].
  match goal with |- context [foreach ?l ?g p] =>
    destruct (foreach_inv (fun d x => List.length x = List.length p /\ sets x /\ forall i j, entry x i j <-> entry p i j /\ (In i d -> flag f i j)) g l [] p)
     as [p' [E [H1 [H2 H3]]]] end.
  - intros d i x Hi [L1 [L2 L3]]. apply in_seq0 in Hi. destruct (row_some x i) as [s [E E']]; [lia|]. rewrite E'. cbn [xbind].
    match goal with |- context [foreach s ?g x] =>
      destruct (foreach_inv (fun d' y => List.length y = List.length p /\ sets y /\ forall a b, entry y a b <-> entry x a b /\ (a = i -> In b d' -> flag f i b)) g s [] x)
      as [y [Ey [M1 [M2 M3]]]] end.
    + intros d' j y Hj [N1 [N2 N3]].
      assert (Hjn : j < n). { apply (Hin i j). apply (proj1 (L3 i j)). exists s. auto. }
      destruct (row_some f i) as [fi [F F']]; [lia|]. rewrite F'. cbn [xbind]. assert (Lf := G2 i fi F).
      destruct (row_some fi j) as [ok [O O']]; [lia|]. rewrite O'. cbn [xbind]. destruct ok.
      * exists y. split; [reflexivity|]. split; [assumption|]. split; [assumption|]. intros a b. rewrite N3, in_app_iff. cbn [In]. split.
        -- intros [A B]. split; [assumption|]. intros -> [?|[<-|[]]]; [auto|]. exists fi. auto.
        -- intros [A B]. split; [assumption|]. intros -> Hb. auto.
      * destruct (row_some y i) as [yi [Y Y']]; [lia|]. rewrite Y'. cbn [xbind]. eexists. split; [reflexivity|].
        split; [rewrite setNth_length; assumption|]. split; [apply sets_set; [assumption|apply sdel_isset; eapply sets_row; eassumption]|].
        intros a b. rewrite entry_set by lia. rewrite sdel_In by (eapply sets_row; eassumption). rewrite in_app_iff. cbn [In].
        assert (Hy : In b yi <-> entry x i b /\ (In b d' -> flag f i b)).
        { rewrite <- (entry_nth y i yi b Y), N3. split; [intros [A B]; split; [assumption|intros; apply B; auto]|intros [A B]; split; [assumption|auto]]. }
        rewrite Hy, N3. split.
        -- intros [[-> [[A B] C]]|[A [B C]]].
           ++ split; [assumption|]. intros _ [?|[<-|[]]]; [auto|congruence].
           ++ split; [assumption|]. intros ->. congruence.
        -- intros [A B]. destruct (Nat.eq_dec a i) as [-> |Hn].
           ++ left. split; [reflexivity|]. split; [split; [assumption|auto]|]. intros ->.
              destruct (B eq_refl (or_intror (or_introl eq_refl))) as [r [R1 R2]]. congruence.
           ++ right. split; [assumption|]. split; [assumption|]. intros; congruence.
    + split; [assumption|]. split; [assumption|]. intros a b. split; [intros H; split; [assumption|intros _ []]|tauto].
    + exists y. split; [assumption|]. split; [assumption|]. split; [assumption|]. intros a b. cbn [app] in M3. rewrite M3, L3, in_app_iff. cbn [In]. split.
      * intros [[A B] C]. split; [assumption|]. intros [?|[<-|[]]]; [auto|]. apply C; [reflexivity|].
        assert (Hx : entry x i b) by (apply L3; auto). apply (entry_nth x i s b E). assumption.
      * intros [A B]. split; [split; auto|]. intros ->. auto.
  - split; [reflexivity|]. split; [assumption|]. intros i j. split; [intros H; split; [assumption|intros []]|tauto].
  - exists p'. split; [assumption|]. split; [assumption|]. split; [assumption|]. intros i j. rewrite H3. cbn [app]. rewrite in_seq0. split.
    + intros [A B]. split; [assumption|]. apply B. apply entry_lt in A. assumption.
    + intros [A B]. auto.
Qed.

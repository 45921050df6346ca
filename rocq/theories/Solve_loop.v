(** * The loop of solveFor ends *)
From Coq Require Import List Bool Arith Lia Permutation.
From Verif Require Import Graph_model Graph_spec Graph_proofs CGArith_model CGArith_spec CGArith_proofs Codegen_spec
  Eval_model Eval_spec Eval_proofs Eval_inst Path_model Path_spec Path_proofs Path_graph Solve_model Solve_spec Solve_proofs
  Solve_total Solve_once Solve_clone Solve_collect Solve_collect_thm Solve_fuel Solve_keep Solve_many.
Import ListNotations.

Section Bound.
Context {B : Type} {O : BaseOps B}.
Variable g : heap B.
Variable r : nat -> nat.
Hypothesis RK : forall n i j, link g n i j -> r j < r n.
Variable target : nat.

(** ** The number of bifurcations is less than the number of occurrences *)
Variable W : nat -> nat.
Hypothesis HW : weighs g target W.
Hypothesis WT : W target = 1.
Definition cinv (st : list nat) (s : fstate) : Prop := forall n, pg_contains (f_graph s) n = true -> In n st \/ 1 <= W n.

Lemma contains_set G n e m : pg_contains (pg_set G n e) m = true -> m = n \/ pg_contains G m = true.
Proof.
  unfold pg_contains. induction G as [|[k e'] G IH]; cbn.
  - destruct (Nat.eqb_spec n m); [auto|discriminate].
  - destruct (Nat.eqb_spec k n) as [->|]; cbn; [destruct (Nat.eqb_spec n m); auto|]. destruct (Nat.eqb_spec k m); auto.
Qed.
Lemma contains_erase G n m : pg_contains (pg_erase G n) m = true -> m <> n /\ pg_contains G m = true.
Proof.
  unfold pg_contains, pg_erase. induction G as [|[k e'] G IH]; cbn; [discriminate|].
  destruct (Nat.eqb_spec k n) as [->|NE]; cbn.
  - intros H. apply IH in H. destruct H as [H1 H2]. split; auto. destruct (Nat.eqb_spec n m); auto.
  - destruct (Nat.eqb_spec k m) as [->|]; auto.
Qed.
Lemma contains_connect G n i a m : pg_contains (connect G n i a) m = true -> m = a \/ m = n \/ pg_contains G m = true.
Proof. unfold connect. cbn. intros H. apply contains_set in H. destruct H as [|H]; auto. apply contains_set in H. tauto. Qed.

Lemma findPG_mono : forall fuel root s s' b, findPG g fuel target None root s = Got (s', b) -> f_bif s <= f_bif s'.
Proof.
  induction fuel as [|fuel IH]; intros root s s' b H; [discriminate|]. cbn [findPG limit_reached] in H.
  destruct (Nat.eqb root target); [injection H as <- <-; lia|]. destruct (pg_contains _ _); [injection H as <- <-; lia|].
  destruct (marked _ _); [injection H as <- <-; lia|].
  assert (L : forall (l : list (arg B)) i found s1 s2 f2, fpArgs (findPG g fuel target None) root l i found s1 = Got (s2, f2) -> f_bif s1 <= f_bif s2).
  { induction l as [|[a|c] l IHl]; intros i found s1 s2 f2 E; cbn [fpArgs] in E; [injection E as <- <-; lia| |eauto].
    destruct (findPG g fuel target None a s1) as [[s3 fa]| |] eqn:EA; try discriminate. cbn [pbind fst snd] in E. apply IH in EA.
    destruct fa; apply IHl in E; cbn in E; [destruct found; lia|lia]. }
  destruct (fpArgs _ _ _ _ _ _) as [[s1 f1]| |] eqn:E; try discriminate. apply L in E. cbn in E. cbn [pbind fst snd] in H. destruct f1; injection H as <- <-; cbn; lia.
Qed.
Lemma fpArgs_mono fuel root : forall (l : list (arg B)) i found s1 s2 f2,
  fpArgs (findPG g fuel target None) root l i found s1 = Got (s2, f2) -> f_bif s1 <= f_bif s2.
Proof.
  induction l as [|[a|c] l IHl]; intros i found s1 s2 f2 E; cbn [fpArgs] in E; [injection E as <- <-; lia| |eauto].
  destruct (findPG g fuel target None a s1) as [[s3 fa]| |] eqn:EA; try discriminate. cbn [pbind fst snd] in E. apply findPG_mono in EA.
  destruct fa; apply IHl in E; cbn in E; [destruct found; lia|lia].
Qed.
Lemma NoDup_app2 {T} (l l' : list T) : NoDup l -> NoDup l' -> (forall x, In x l -> In x l' -> False) -> NoDup (l ++ l').
Proof.
  intros N N' D. induction N as [|x l H N IH]; cbn; auto. constructor.
  - intros Hx. apply in_app_iff in Hx. destruct Hx as [|Hx]; [contradiction|]. apply (D x); auto. now left.
  - apply IH. intros y Hy. apply D. now right.
Qed.
Lemma findPG_count : forall fuel st root s s' fnd, (forall n, In n st -> r root < r n) -> cinv st s ->
  findPG g fuel target None root s = Got (s', fnd) ->
  cinv st s' /\ if fnd then 1 <= W root /\ f_bif s' + 1 <= f_bif s + W root else f_bif s' = f_bif s.
Proof.
  induction fuel as [|fuel IH]; intros st root s s' fnd HS HI H; [discriminate|]. cbn [findPG limit_reached] in H.
  destruct (Nat.eqb_spec root target) as [->|NT].
  { injection H as <- <-. split; auto. rewrite WT. lia. }
  destruct (pg_contains (f_graph s) root) eqn:EC.
  { injection H as <- <-. split; auto. destruct (HI _ EC) as [Hi|Hi]; [apply HS in Hi; lia|lia]. }
  destruct (marked s root) eqn:EM; [injection H as <- <-; auto|].
  set (s0 := mkF (pg_set (f_graph s) root (pg_get (f_graph s) root)) (root :: f_marks s) (f_bif s)) in H.
  assert (I0 : cinv (root :: st) s0).
  { intros n Hn. cbn in Hn. apply contains_set in Hn. destruct Hn as [->|Hn]; [left; now left|]. apply HI in Hn. cbn. tauto. }
  assert (LOOP : forall l : list (arg B), (forall j, In (ANode j) l -> r j < r root) -> forall i found s1 s2 fnd2, cinv (root :: st) s1 ->
    fpArgs (findPG g fuel target None) root l i found s1 = Got (s2, fnd2) ->
    cinv (root :: st) s2 /\
    if found then fnd2 = true /\ f_bif s2 <= f_bif s1 + sum (map (wa W) l)
    else if fnd2 then f_bif s2 + 1 <= f_bif s1 + sum (map (wa W) l) else f_bif s2 = f_bif s1).
  { induction l as [|[a|b] l IHl]; intros HL i found s1 s2 fnd2 I1 E; cbn [fpArgs] in E; cbn [map sum wa].
    - injection E as <- <-. split; auto. destruct found; auto. split; auto. lia.
    - destruct (findPG g fuel target None a s1) as [[s3 fa]| |] eqn:EA; try discriminate. cbn [pbind fst snd] in E.
      destruct (IH (root :: st) a s1 s3 fa) as [I3 B3]; auto.
      { assert (r a < r root) by (apply HL; now left). intros n [->|Hn]; auto. apply HS in Hn. lia. }
      destruct fa.
      + apply IHl in E.
        * destruct E as [I2 E]. split; auto. cbn [f_bif] in E. destruct found; [destruct E as [-> E]; split; auto; lia|].
          destruct E as [-> E]. lia.
        * intros j Hj. apply HL. now right.
        * intros n Hn. cbn in Hn. apply contains_connect in Hn. destruct Hn as [->|[->|Hn]]; [right; lia|left; now left|]. now apply I3.
      + apply IHl in E; auto; [|intros j Hj; apply HL; now right]. destruct E as [I2 E]. split; auto.
        destruct found; [destruct E as [-> E]; split; auto; lia|]. destruct fnd2; lia.
    - apply IHl in E; auto. intros j Hj. apply HL. now right. }
  destruct (fpArgs (findPG g fuel target None) root (nodeArgs g root) 0 false s0) as [[s1 f1]| |] eqn:EL; try discriminate. cbn [pbind fst snd] in H.
  assert (HL : forall j, In (ANode j) (nodeArgs g root) -> r j < r root).
  { intros j Hj. unfold nodeArgs in Hj. destruct (nth_error g root) as [d|] eqn:E; [|easy]. apply In_nth_error in Hj. destruct Hj as [i Hi].
    apply (RK root i j). exists d. auto. }
  destruct (LOOP _ HL _ _ _ _ _ I0 EL) as [I1 B1]. cbn [f_bif s0] in B1.
  destruct f1.
  - injection H as <- <-.
    assert (WR : W root = sum (map (wa W) (nodeArgs g root))).
    { unfold nodeArgs in *. destruct (nth_error g root) as [d|] eqn:E; [now apply HW|]. cbn in EL. discriminate. }
    assert (POS : f_bif s <= f_bif s1).
    { apply (fpArgs_mono fuel) in EL. exact EL. }
    split; [|lia]. intros n Hn. destruct (I1 n Hn) as [[<-|Hi]|Hi]; auto. right. lia.
  - injection H as <- <-. cbn [f_bif f_graph]. split; [|lia]. intros n Hn. cbn in Hn. apply contains_erase in Hn. destruct Hn as [NE Hn].
    destruct (I1 n Hn) as [[->|Hi]|Hi]; auto.
Qed.
(** a limit which is not reached does not matter *)
Lemma findPG_limit M : forall fuel root s s' b, findPG g fuel target None root s = Got (s', b) -> f_bif s' < M ->
  findPG g fuel target (Some M) root s = Got (s', b).
Proof.
  induction fuel as [|fuel IH]; intros root s s' b H LM; [discriminate|]. pose proof (findPG_mono _ _ _ _ _ H) as MO.
  cbn [findPG limit_reached] in H |- *. replace (M <=? f_bif s) with false by (symmetry; apply Nat.leb_gt; lia).
  destruct (Nat.eqb root target); auto. destruct (pg_contains _ _); auto. destruct (marked _ _); auto.
  assert (L : forall (l : list (arg B)) i found s1 s2 f2, fpArgs (findPG g fuel target None) root l i found s1 = Got (s2, f2) -> f_bif s2 < M ->
    f_bif s1 <= f_bif s2 /\ fpArgs (findPG g fuel target (Some M)) root l i found s1 = Got (s2, f2)).
  { induction l as [|[a|c] l IHl]; intros i found s1 s2 f2 E LM2; cbn [fpArgs] in E |- *; [split; auto; injection E as <- <-; lia| |eauto].
    destruct (findPG g fuel target None a s1) as [[s3 fa]| |] eqn:EA; try discriminate. cbn [pbind fst snd] in E.
    pose proof (findPG_mono _ _ _ _ _ EA) as M1.
    destruct fa; apply IHl in E; auto; destruct E as [E1 E2]; cbn in E1.
    - assert (f_bif s3 < M) by (destruct found; lia). rewrite (IH _ _ _ _ EA) by auto. cbn [pbind fst snd]. split; [destruct found; lia|auto].
    - rewrite (IH _ _ _ _ EA) by lia. cbn [pbind fst snd]. split; [lia|auto]. }
  destruct (fpArgs (findPG g fuel target None) _ _ _ _ _) as [[s1 f1]| |] eqn:E; try discriminate. cbn [pbind fst snd] in H.
  assert (f_bif s1 < M) by (destruct f1; injection H as <- <-; auto).
  apply L in E; auto. destruct E as [_ ->]. auto.
Qed.
Lemma findPathGraph_limit fuel root G b max : findPathGraph g fuel root target 0 None = Got (G, b) ->
  (match max with Some M => 1 <= M /\ W root <= M | None => True end) ->
  findPathGraph g fuel root target 0 max = Got (G, b) /\ (limit_reached max b = false).
Proof.
  intros H HM. destruct max as [M|]; [|split; auto]. unfold findPathGraph in *. replace (0 <=? M) with true by reflexivity.
  destruct (Nat.eqb root target); [injection H as <- <-; split; auto; cbn; apply Nat.leb_gt; lia|].
  destruct (findPG g fuel target None root (mkF [] [] 0)) as [[s f]| |] eqn:E; try discriminate. cbn [pbind fst] in H. injection H as <- <-.
  assert (LM : f_bif s < M).
  { apply (findPG_count _ []) in E; [|easy|intros n; discriminate]. destruct E as [_ E]. cbn in E. destruct f; lia. }
  rewrite (findPG_limit M _ _ _ _ _ E LM). cbn [pbind fst]. split; auto. apply Nat.leb_gt. auto.
Qed.

(** [W n] is the number of paths *)
Lemma paths_exist : forall n, n < length g -> closed g ->
  exists l, NoDup l /\ (forall p, In p l -> down_path g n p target) /\ length l = W n.
Proof.
  enough (H : forall k n, r n < k -> n < length g -> closed g -> exists l, NoDup l /\ (forall p, In p l -> down_path g n p target) /\ length l = W n)
    by (intros n; apply (H (1 + r n)); lia).
  induction k as [|k IH]; intros n Hk Hn C; [lia|].
  destruct (Nat.eq_dec n target) as [->|NT].
  { exists [[(target, None)]]. split; [repeat constructor; easy|]. split; [|cbn; lia]. intros p [<-|[]]. constructor. }
  destruct (nth_error g n) as [d|] eqn:E; [|apply nth_error_None in E; lia]. rewrite (HW n d E NT).
  assert (Q : forall (l pre : list (arg B)), n_args d = pre ++ l -> exists ps, NoDup ps /\
     (forall p, In p ps -> down_path g n p target /\ exists i q, p = (n, Some i) :: q /\ length pre <= i) /\ length ps = sum (map (wa W) l)).
  { induction l as [|a l IHl]; intros pre Ea; [exists []; split; [constructor|split; [easy|auto]]|].
    destruct (IHl (pre ++ [a])) as [ps [P1 [P2 P3]]]; [now rewrite <- app_assoc|].
    assert (P2' : forall p, In p ps -> down_path g n p target /\ exists i q, p = (n, Some i) :: q /\ S (length pre) <= i).
    { intros p Hp. destruct (P2 p Hp) as [Q1 [i [q [Q2 Q3]]]]. split; auto. exists i, q. split; auto. rewrite app_length in Q3. cbn in Q3. lia. }
    destruct a as [j|b]; cbn [map sum wa].
    - assert (Lk : link g n (length pre) j). { exists d. split; auto. rewrite Ea, nth_error_app2, Nat.sub_diag by lia. reflexivity. }
      destruct (IH j) as [qs [S1 [S2 S3]]]; [apply RK in Lk; lia|now apply (link_closed g n (length pre) j)|auto|].
      exists (map (cons (n, Some (length pre))) qs ++ ps). split; [|split].
      + apply NoDup_app2; auto.
        * apply FinFun.Injective_map_NoDup; auto. intros x y Hxy. congruence.
        * intros p H1 H2. apply in_map_iff in H1. destruct H1 as [q [<- _]]. apply P2' in H2. destruct H2 as [_ [i [q' [H2 H3]]]].
          injection H2 as <- _. lia.
      + intros p Hp. apply in_app_iff in Hp. destruct Hp as [Hp|Hp].
        * apply in_map_iff in Hp. destruct Hp as [q [<- Hq]]. split; [econstructor; eauto|]. eauto.
        * destruct (P2' p Hp) as [Q1 [i [q [Q2 Q3]]]]. split; auto. exists i, q. split; auto. lia.
      + rewrite app_length, map_length. lia.
    - exists ps. split; auto. split; auto. intros p Hp. destruct (P2' p Hp) as [Q1 [i [q [Q2 Q3]]]]. split; auto. exists i, q. split; auto. lia. }
  destruct (Q (n_args d) [] eq_refl) as [ps [P1 [P2 P3]]]. exists ps. split; auto. split; auto. intros p Hp. now apply P2.
Qed.
End Bound.

Section Loop.
Context {B : Type} {O : BaseOps B}.
Implicit Type g : heap B.
Variable half : B.
Variable h : nat.
Variable ord : nat -> nat -> list nat.
Hypothesis ord_all : forall i n, Permutation (ord i n) (seq 0 n).
Variable inds : list nat.
Variable var : nat.

(** one iteration of the loop which collects the variable *)
Inductive collects g root g1 root1 : Prop :=
 | collects_intro c m i1 i2 j1 j2 p1 p2 fuel v : i1 < i2 -> link g m i1 j1 -> link g m i2 j2 ->
     down_path g root (c ++ (m, Some i1) :: p1) var -> down_path g root (c ++ (m, Some i2) :: p2) var ->
     down_path g j1 p1 var -> down_path g j2 p2 var ->
     straight g var p1 -> straight g var p2 -> niceF h var g -> root < length g ->
     collectVariable fuel ord inds g root (c ++ (m, Some i1) :: p1) (c ++ (m, Some i2) :: p2) (length c) = SOk (g1, Var root1 v) ->
     collects g root g1 root1.
Inductive reduces : heap B -> nat -> heap B -> nat -> Prop :=
 | red_refl g root : reduces g root g root
 | red_step g root g1 root1 g2 root2 : collects g root g1 root1 -> reduces g1 root1 g2 root2 -> reduces g root g2 root2.

Definition solved g root (g' : heap B) (x : cg B) : Prop := exists g1 root1 p,
  reduces g root g1 root1 /\ niceF h var g1 /\ ext g g1 /\ down_path g1 root1 p var /\ straight g1 var p /\
  solvePath half g1 p = SOk (g', x).

Lemma solvePath_goes g root p : niceF h var g -> down_path g root p var -> straight g var p ->
  solvePath half g p = SThrow \/
  exists g' x, solvePath half g p = SOk (g', x) /\ ext g g' /\ niceF h var g' /\ okF var g' x.
Proof.
  intros [HG LV] D ST. pose proof (@invariant_free B h var) as K.
  destruct (solveSteps_as h _ _ K half g (conj HG LV) (Hn_arity _ _ HG) p g (Par b0) root var (ext_refl _) D) as [[_ [g1 [x [E [X [N V]]]]]]|[_ E]].
  - exact (others_free h var g p root HG D ST).
  - split; auto.
  - cbn. auto.
  - right. exists g1, x. auto.
  - left. exact E.
Qed.

Lemma solve_goes max : forall k g root, niceF h var g -> root < length g ->
  (forall W, weighs g var W -> W var = 1 -> W root < k /\ match max with Some M => 1 <= M /\ W root <= M | None => True end) ->
  exists N, forall loops fuel, N <= loops -> N <= fuel ->
    solveLoop half max loops fuel ord inds g root var = SThrow \/
    exists g' x, solveLoop half max loops fuel ord inds g root var = SOk (g', x) /\ ext g g' /\ niceF h var g' /\ okF var g' x /\
      solved g root g' x.
Proof.
  induction k as [|k IH]; intros g root NG LR HK.
  { destruct (weighs_exists g var (Hn_cycle _ _ (proj1 NG))) as [W [W1 W2]]. destruct (HK W W2 W1). lia. }
  pose proof NG as [HG LV]. destruct (Hn_cycle _ _ HG) as [r RK].
  destruct (weighs_exists g var (Hn_cycle _ _ HG)) as [W [W1 W2]]. destruct (HK W W2 W1) as [WK WM].
  set (F := S (r root)).
  destruct (findPathGraph_ok g r RK root var F None (le_n _)) as [G [b [EG [P [C BF]]]]]. specialize (C eq_refl).
  destruct (findPathGraph_limit g r RK var W W2 W1 F root G b max EG WM) as [EGm LM].
  assert (EGf : forall fuel, F <= fuel -> findPathGraph g fuel root var 0 max = Got (G, b)).
  { intros fuel HF. rewrite <- EGm. apply (findPathGraph_stable g F fuel root var 0 max HF). rewrite EGm. discriminate. }
  destruct (findSingle_ok g r RK root var G P C F (le_n _)) as [ps [kk [ES HS]]].
  assert (ESf : forall fuel, F <= fuel -> findSingleBifurcation g fuel G root var = Got (ps, kk)).
  { intros fuel HF. rewrite <- ES. apply (findSingle_stable g F fuel G root var HF). rewrite ES. discriminate. }
  destruct (pg_contains G var) eqn:CV.
  2:{ exists (S F). intros loops fuel HL HF. left. destruct loops as [|loops]; [lia|]. cbn [solveLoop]. rewrite EGf by lia. cbn [ofpath sbind]. rewrite CV. reflexivity. }
  destruct HS as [[NO _]|[[-> [q [-> [Dq Sq]]]]|HS]].
  - exfalso. apply NO. exact (proj1 (PG_between _ _ _ _ P _ CV)).
  - exists (S F). intros loops fuel HL HF. destruct loops as [|loops]; [lia|]. cbn [solveLoop]. rewrite EGf by lia. cbn [ofpath sbind]. rewrite CV. cbn [negb].
    rewrite ESf by lia. cbn [ofpath sbind].
    destruct (solvePath_goes g root q NG Dq Sq) as [E|[g' [x [E [X [N V]]]]]]; [now left|]. right. exists g', x. split; auto. split; auto. split; auto. split; auto.
    exists g, root, q. split; [apply red_refl|]. split; auto. split; [apply ext_refl|]. auto.
  - destruct HS as (c & m & i1 & i2 & j1 & j2 & q1 & q2 & -> & -> & D1 & D2 & LT & L1 & L2 & T1 & T2 & S1 & S2).
    assert (NB : b <> 0).
    { intros B0. destruct BF as [BF _]. specialize (BF B0).
      pose proof (down_path_occurs g _ _ _ T1) as O1. pose proof (down_path_occurs g _ _ _ T2) as O2.
      assert (Hm : pg_contains G m = true).
      { apply (CG_between _ _ _ _ C). split; [eapply prefix_occurs; eauto|]. exact (occurs_trans g _ _ _ (occurs_link g _ _ _ L1) O1). }
      apply contains_find in Hm. destruct Hm as [e He]. specialize (BF _ _ He).
      pose proof (CG_args _ _ _ _ C m e i1 j1 He L1 O1) as I1. pose proof (CG_args _ _ _ _ C m e i2 j2 He L2 O2) as I2.
      destruct (ed_args e) as [|u [|v w]]; cbn in *; try lia. }
    destruct (collect_goes h ord ord_all inds var g root c m i1 i2 j1 j2 q1 q2 NG LR LT L1 L2 D1 T1 T2 S1 S2) as [NC HC].
    assert (STC : forall fuel, NC <= fuel -> sstable (collectVariable NC ord inds g root (c ++ (m, Some i1) :: q1) (c ++ (m, Some i2) :: q2) (length c))
      (collectVariable fuel ord inds g root (c ++ (m, Some i1) :: q1) (c ++ (m, Some i2) :: q2) (length c))) by (intros; now apply collectVariable_stable).
    assert (EQ : forall N loops fuel, S (Nat.max F (Nat.max NC N)) <= loops -> S (Nat.max F (Nat.max NC N)) <= fuel -> exists loops', loops = S loops' /\ N <= loops' /\
      solveLoop half max loops fuel ord inds g root var =
      sbind (collectVariable NC ord inds g root (c ++ (m, Some i1) :: q1) (c ++ (m, Some i2) :: q2) (length c)) (fun '(g1, e) =>
        match e with Par _ => SThrow | Var root' _ => solveLoop half max loops' fuel ord inds g1 root' var end)).
    { intros N loops fuel HL HF. destruct loops as [|loops]; [lia|]. exists loops. split; auto. split; [lia|].
      cbn [solveLoop]. rewrite EGf by lia. cbn [ofpath sbind]. rewrite CV. cbn [negb]. rewrite ESf by lia. cbn [ofpath sbind].
      rewrite (STC fuel) by (try lia; destruct (HC NC (le_n _)) as [->|[? [? [-> _]]]]; discriminate).
      destruct (collectVariable NC ord inds g root _ _ _) as [[g1 e]| | |]; cbn [sbind]; auto. destruct e; auto.
      destruct (Nat.eqb_spec b 0); [contradiction|reflexivity]. }
    destruct (HC NC (le_n _)) as [EC|[g1 [e [EC [X1 [N1 [V1 HW1]]]]]]]; rewrite EC in EQ; cbn [sbind] in EQ.
    + exists (S (Nat.max F (Nat.max NC 0))). intros loops fuel HL HF. left. destruct (EQ 0 loops fuel HL HF) as [l' [_ [_ ->]]]. reflexivity.
    + destruct e as [pb|root1 v1].
      { exists (S (Nat.max F (Nat.max NC 0))). intros loops fuel HL HF. left. destruct (EQ 0 loops fuel HL HF) as [l' [_ [_ ->]]]. reflexivity. }
      destruct (IH g1 root1 N1 V1) as [N HN].
      { intros W' HW' HV'. pose proof (HW1 W' HW' HV') as LTW. cbn in LTW. destruct (HK W' (weighs_ext _ _ _ _ X1 HW') HV') as [A1 A2].
        split; [lia|]. destruct max; auto. lia. }
      exists (S (Nat.max F (Nat.max NC N))). intros loops fuel HL HF. destruct (EQ N loops fuel HL HF) as [l' [-> [HL' ->]]].
      destruct (HN l' fuel HL') as [E|[g' [x [E [X' [N' [V' S']]]]]]]; [lia|now left|].
      right. exists g', x. split; auto. split; [eapply ext_trans; eauto|]. split; auto. split; auto.
      destruct S' as (g2 & root2 & p & R2 & N2 & X2 & Q). exists g2, root2, p. split.
      * apply red_step with (g1 := g1) (root1 := root1); [|exact R2].
        exact (collects_intro _ _ _ _ c m i1 i2 j1 j2 q1 q2 NC v1 LT L1 L2 D1 D2 T1 T2 S1 S2 NG LR EC).
      * split; auto. split; [eapply ext_trans; eauto|auto].
Qed.
End Loop.

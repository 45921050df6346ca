(** * Each iteration does what was asked for it: groups of iterations, all requests *)
From Coq Require Import List Bool Arith NArith ZArith Sorted Lia Permutation.
From Verif Require Import Graph_model Codegen_model CSyntax Index_model Index_spec Index_thm Range_model Range_spec Range_proofs LoopCond_model LoopCond_spec LoopCond_cond LoopCond_proofs.
Import ListNotations.
Local Open Scope N_scope.

Section Main.
Variable V : Type.
Variable isZero : V -> bool.

Variable L : list N.
Notation asg := (asg V). Notation brn := (brn V). Notation ifelse := (ifelse V).
Notation good := (good V L). Notation adds := (adds V L). Notation itersOf := (itersOf V). Notation asgOf := (asgOf V).
Notation out1 := (out1 V). Notation pushed := (pushed V). Notation lastO := (lastO V).

(** ** Groups *)
Lemma gput_split k v (l : groups) : ~ In k (map fst l) -> exists l1 l2, l = l1 ++ l2 /\ gput k v l = l1 ++ (k, v) :: l2.
Proof.
  induction l as [|[k' v'] l IH]; intros Hn; cbn [gput].
  - exists [], []. auto.
  - destruct (key_ltb k k'); [exists [], ((k', v') :: l); auto|]. destruct (key_eqb k k') eqn:E.
    + exfalso. apply Hn. left. apply key_eqb_eq in E. cbn [fst]. congruence.
    + destruct IH as (l1 & l2 & -> & ->); [intros I; apply Hn; right; exact I|]. exists ((k', v') :: l1), l2. auto.
Qed.
Lemma key_disjoint a b : a <> [] -> b <> [] -> disjoint a b -> keyOf a <> keyOf b.
Proof.
  intros Ha Hb Hd E. destruct a as [|x a]; [contradiction|]. destruct b as [|y b]; [contradiction|]. unfold keyOf in E. cbn [hd] in E.
  assert (x = y) by congruence. subst. apply (Hd y); left; reflexivity.
Qed.
Lemma disj_app_mid l1 b l2 : disj (l1 ++ b :: l2) -> disj (l1 ++ l2) /\ (forall x, In x (l1 ++ l2) -> disjoint x b).
Proof.
  induction l1 as [|a l1 IH]; cbn [app]; intros H; inversion H as [|? ? H1 H2]; subst.
  - split; [exact H2|]. intros x Hx k K1 K2. rewrite Forall_forall in H1. exact (H1 x Hx k K2 K1).
  - destruct (IH H2) as [I1 I2]. split.
    + constructor; [|exact I1]. rewrite Forall_forall in H1 |- *. intros x Hx. apply H1. apply in_app_iff in Hx. apply in_app_iff. destruct Hx; [left; assumption|right; right; assumption].
    + intros x [->|Hx]; [|apply I2, Hx]. rewrite Forall_forall in H1. apply (H1 b). apply in_app_iff. right. left. reflexivity.
Qed.
Lemma disj_insert l1 b l2 : disj (l1 ++ l2) -> (forall x, In x (l1 ++ l2) -> disjoint x b) -> disj (l1 ++ b :: l2).
Proof.
  induction l1 as [|a l1 IH]; cbn [app]; intros H HF.
  - constructor; [|exact H]. rewrite Forall_forall. intros x Hx k K1 K2. exact (HF x Hx k K2 K1).
  - inversion H as [|? ? H1 H2]; subst. constructor; [|apply IH; [exact H2|intros; apply HF; right; assumption]].
    rewrite Forall_forall in H1 |- *. intros x Hx. apply in_app_iff in Hx. destruct Hx as [Hx|[<-|Hx]]; [apply H1, in_app_iff; auto|apply HF; left; reflexivity|apply H1, in_app_iff; auto].
Qed.
Lemma Forall2_mid_inv {A B} (R : A -> B -> Prop) l1 l2 ds : Forall2 R (l1 ++ l2) ds -> exists d1 d2, ds = d1 ++ d2 /\ Forall2 R l1 d1 /\ Forall2 R l2 d2.
Proof. intros H. apply Forall2_app_inv_l in H. destruct H as (d1 & d2 & H1 & H2 & ->). eauto. Qed.

Lemma groupsOf_spec bs0 bs : forall acc ds0, incl bs bs0 -> Forall2 (gmatch V bs0) acc ds0 ->
  (forall b, In b bs \/ In b ds0 -> itersOf b <> []) -> disj (map itersOf (ds0 ++ bs)) ->
  exists gs ds, groupsOf V bs acc = Done gs /\ Forall2 (gmatch V bs0) gs ds /\ Permutation ds (ds0 ++ bs) /\ disj (map itersOf ds).
Proof.
  induction bs as [|[c [v locs]] bs IH]; intros acc ds0 Hin HF Hne Hd; cbn [groupsOf].
  - exists acc, ds0. rewrite app_nil_r in *. auto.
  - pose proof (Hne (c, (v, locs)) (or_introl (or_introl eq_refl))) as Hn. unfold LoopCond_proofs.itersOf in Hn. cbn [snd] in Hn.
    destruct (map fst locs) as [|i0 r] eqn:El; [contradiction|]. rewrite <- El in *. set (b := (c, (v, locs))) in *.
    assert (Hk : keyOf (itersOf b) = (size (map fst locs), i0)). { unfold keyOf, LoopCond_proofs.itersOf, b. cbn [snd]. rewrite El. reflexivity. }
    rewrite map_app in Hd. cbn [map] in Hd. destruct (disj_app_mid _ _ _ Hd) as [Hd1 Hd2].
    assert (Hfresh : ~ In (size (map fst locs), i0) (map fst acc)).
    { rewrite <- Hk. intros I. apply in_map_iff in I. destruct I as (g & Eg & Ig).
      assert (exists d, In d ds0 /\ gmatch V bs0 g d) as (d & Id & Gd).
      { clear - HF Ig. induction HF as [|g' d' ? ? H HF IH]; [destruct Ig|]. destruct Ig as [->|Ig]; [exists d'; split; [left; reflexivity|exact H]|].
        destruct (IH Ig) as (d & ? & ?). exists d. split; [right; assumption|assumption]. }
      destruct Gd as (_ & _ & _ & Gk). rewrite Gk in Eg. revert Eg. apply key_disjoint; [apply Hne; right; exact Id|apply Hne; left; left; reflexivity|].
      apply Hd2. apply in_app_iff. left. apply in_map, Id. }
    destruct (gput_split _ (c, map fst locs) acc Hfresh) as (l1 & l2 & -> & E2). rewrite E2.
    destruct (Forall2_mid_inv _ _ _ _ HF) as (d1 & d2 & -> & F1 & F2).
    destruct (IH (l1 ++ (size (map fst locs), i0, (c, map fst locs)) :: l2) (d1 ++ b :: d2)) as (gs & ds & E & F & P & D).
    + intros x Hx. apply Hin. right. exact Hx.
    + apply Forall2_app; [exact F1|]. constructor; [|exact F2]. unfold gmatch. cbn [fst snd]. split; [apply Hin; left; reflexivity|]. split; [reflexivity|]. split; [reflexivity|]. symmetry. exact Hk.
    + intros x [Hx|Hx]; [apply Hne; left; right; exact Hx|]. apply in_app_iff in Hx. destruct Hx as [Hx|[<-|Hx]]; apply Hne; [right; apply in_app_iff; auto|left; left; reflexivity|right; apply in_app_iff; auto].
    + rewrite <- app_assoc. cbn [app]. rewrite map_app. cbn [map]. rewrite <- map_app in Hd1. rewrite <- app_assoc, map_app in Hd1.
      apply disj_insert; [exact Hd1|]. rewrite <- !map_app in *. rewrite <- app_assoc in Hd2. exact Hd2.
    + exists gs, ds. split; [exact E|]. split; [exact F|]. split; [|exact D]. rewrite P, <- !app_assoc. apply Permutation_app_head. cbn [app]. apply Permutation_middle.
Qed.

Lemma keys_NoDup ds : (forall d, In d ds -> itersOf d <> []) -> disj (map itersOf ds) -> NoDup (map keyOf (map itersOf ds)).
Proof.
  induction ds as [|d ds IH]; intros Hne Hd; cbn [map] in *; [constructor|]. inversion Hd as [|? ? H1 H2]; subst. constructor.
  - intros I. apply in_map_iff in I. destruct I as (x & Ex & Ix). rewrite Forall_forall in H1. specialize (H1 x Ix). revert Ex. apply not_eq_sym, key_disjoint.
    + apply Hne. left. reflexivity.
    + apply in_map_iff in Ix. destruct Ix as (y & <- & Iy). apply Hne. right. exact Iy.
    + exact H1.
  - apply IH; [|exact H2]. intros; apply Hne; right; assumption.
Qed.

Lemma pushBrn_mid pos next dn b r : ~ In pos (map (b_pos V) dn) -> b_pos V b = pos ->
  pushBrn V pos next (dn ++ b :: r) = Some (dn ++ mkBrn V (b_pos V b) (b_iters V b) (b_hdr V b) (b_pre V b ++ opt_list next) :: r).
Proof.
  intros Hn E. induction dn as [|x dn IH]; cbn [app pushBrn].
  - rewrite E, key_eqb_refl. reflexivity.
  - destruct (key_eqb pos (b_pos V x)) eqn:Ex; [exfalso; apply Hn; left; apply key_eqb_eq in Ex; congruence|].
    rewrite IH; [reflexivity|]. intros I; apply Hn; right; exact I.
Qed.
Lemma oldBranches_spec bs (Hnd : NoDup (map fst bs)) gs : forall ds dn rest next, Forall2 (gmatch V bs) gs ds ->
  map (b_pos V) rest = map keyOf (map itersOf ds) -> NoDup (map (b_pos V) (dn ++ rest)) ->
  oldBranches V bs gs (dn ++ rest) next = Done (dn ++ pushed rest next (map (fun d => asgOf (snd d)) ds), lastO next (map (fun d => asgOf (snd d)) ds)).
Proof.
  induction gs as [|[pos [c its]] gs IH]; intros ds dn rest next HF Hp HN; inversion HF as [|? d ? ds' G1 G2]; subst; cbn [oldBranches].
  - cbn [map] in Hp. destruct rest; [|discriminate]. reflexivity.
  - destruct d as [c' [v locs]]. destruct G1 as (Gin & Gc & Gi & Gk). cbn [fst snd] in *. subst c'.
    rewrite (bget_spec V c bs Hnd _ Gin). cbn [map] in Hp. destruct rest as [|b rest]; [discriminate|]. cbn [map] in Hp. injection Hp as Hp1 Hp2.
    rewrite (pushBrn_mid pos next dn b rest).
    + cbn [map pushed lastO snd]. set (b' := mkBrn V _ _ _ _). change (dn ++ b' :: rest) with (dn ++ [b'] ++ rest). rewrite app_assoc.
      rewrite (IH ds' (dn ++ [b']) rest (Some (mkAsg V v (detect locs) 1)) G2 Hp2).
      * rewrite <- app_assoc. reflexivity.
      * rewrite <- app_assoc. rewrite !map_app in *. exact HN.
    + rewrite map_app in HN. cbn [map] in HN. apply NoDup_remove_2 in HN. intros I. apply HN, in_app_iff. left. congruence.
    + congruence.
Qed.

Definition wantB (k : N) (b : N * (V * list (N * N))) : list asg := if inb k (itersOf b) then [asgOf (snd b)] else [].
Lemma chosen_flat k ds : disj (map itersOf ds) -> chosen V k (map itersOf ds) (map (fun d => asgOf (snd d)) ds) = flat_map (wantB k) ds.
Proof.
  induction ds as [|d ds IH]; intros Hd; cbn [map chosen flat_map]; [reflexivity|]. cbn [map] in Hd. inversion Hd as [|? ? H1 H2]; subst. unfold wantB at 1.
  destruct (inb k (itersOf d)) eqn:E; cbn [app]; [|apply IH, H2]. apply inb_spec in E.
  assert (Hz : flat_map (wantB k) ds = []); [|rewrite Hz; reflexivity]. clear - E H1. induction ds as [|x ds IH]; [reflexivity|]. cbn [map flat_map] in *.
  inversion H1; subst. rewrite IH by assumption. unfold wantB. destruct (inb k (itersOf x)) eqn:E2; [|reflexivity]. apply inb_spec in E2. exfalso. eauto.
Qed.
Lemma perm_flat {A B} (f : A -> list B) l l' : Permutation l l' -> Permutation (flat_map f l) (flat_map f l').
Proof.
  induction 1 as [|x l l' P IH|x y l|l1 l2 l3 P1 IH1 P2 IH2]; cbn [flat_map].
  - constructor.
  - apply Permutation_app_head, IH.
  - rewrite !app_assoc. apply Permutation_app_tail, Permutation_app_comm.
  - etransitivity; eassumption.
Qed.
Lemma ordpairs_map {A B} (f : A -> B) (R : B -> B -> Prop) l : ForallOrdPairs (fun a b => R (f a) (f b)) l -> ForallOrdPairs R (map f l).
Proof. induction 1 as [|a l H1 H2 IH]; cbn [map]; constructor; auto. apply Forall_map. exact H1. Qed.

Lemma conditional_spec bs mx es : Forall good es -> valid V isZero L (RBranches V bs mx (size L)) ->
  exists es', createConditionalContribution V bs mx (size L) es = Done es' /\ adds es es' (fun k => flat_map (wantB k) bs).
Proof.
  intros Hg (Hne & Hnd & Hit & Hdj & Hb & _ & Hone). unfold createConditionalContribution.
  assert (Hit' : forall b, In b bs -> iterations L (itersOf b)) by (intros [c [v locs]] I; exact (Hit c v locs I)).
  destruct (groupsOf_spec bs bs [] [] (fun _ H => H) (Forall2_nil _)) as (gs & ds & E & F & P & D).
  { intros b [I|[]]. apply Hit', I. }
  { cbn [app]. apply ordpairs_map. exact Hdj. }
  cbn [app] in P. rewrite E. cbn [obind].
  assert (Hds : forall d, In d ds -> iterations L (itersOf d)) by (intros d I; apply Hit'; exact (Permutation_in _ P I)).
  assert (Hk := keys_NoDup ds (fun d I => proj1 (proj2 (Hds d I))) D).
  assert (Hdne : ds <> []) by (intros ->; apply Permutation_nil in P; contradiction).
  destruct (findExistingIfElse V es gs) as [n|] eqn:Ef.
  - destruct (find_some V _ _ _ Ef) as (e & En & Es). rewrite En. pose proof (proj1 (Forall_forall _ _) Hg e (nth_error_In _ _ En)) as Ge.
    assert (Ei : map (b_iters V) (e_brs V e) = map itersOf ds).
    { rewrite <- (sameIters_eq V _ _ Es). clear - F. induction F as [|g d ? ? H F IH]; [reflexivity|]. cbn [map]. rewrite IH. f_equal. apply H. }
    pose proof (gd_pos V L e Ge) as Gp. rewrite Ei in Gp.
    pose proof (oldBranches_spec bs Hnd gs ds [] (e_brs V e) None F Gp) as Ho. cbn [app] in Ho. rewrite Ho; [|rewrite Gp; exact Hk]. cbn [obind fst snd].
    eexists. split; [reflexivity|]. set (xs := map (fun d => asgOf (snd d)) ds). split.
    + apply update_good; [exact Hg|]. constructor; cbn [e_brs].
      * intros En'. apply (f_equal (map (b_pos V))) in En'. rewrite pushed_pos in En'. apply (gd_ne V L e Ge). destruct (e_brs V e); [reflexivity|discriminate].
      * rewrite pushed_pos, pushed_iters. exact (gd_pos V L e Ge).
      * intros k Hk0. apply selects_pushed, (gd_sel V L e Ge k Hk0).
    + intros k Hk0. apply (update_out V k _ es n e En). unfold LoopCond_proofs.out1. cbn [e_brs e_end]. pose proof (gd_sel V L e Ge k Hk0) as Gs.
      rewrite (pick_pickI V _ _ _ Gs), (pick_pickI V _ _ _ (selects_pushed V k _ None xs Gs)), pickI_pushed.
      * apply Permutation_app_head. rewrite Ei. unfold xs. rewrite (chosen_flat k ds D). apply perm_flat, P.
      * unfold xs. rewrite map_length. apply (f_equal (@length _)) in Ei. rewrite !map_length in Ei. congruence.
  - destruct (newBranches_spec V L bs mx Hb Hnd gs ds [] false None F Hds D (or_intror (NoDup_nil _))) as (brs0 & En & B1 & B2 & B3 & B4).
    { intros x []. }
    { intros d _ x _ []. }
    { right. intros ->. inversion F; subst. contradiction. }
    { right. split; [reflexivity|]. intros d r Ed. subst ds. destruct r as [|d2 r].
      - apply Permutation_length_1_inv in P. destruct d as [c [v locs]]. exact (Hone c v locs P).
      - intros Es. pose proof (Hds d (or_introl eq_refl)) as (S1 & _ & S3). destruct (Hds d2 (or_intror (or_introl eq_refl))) as (_ & S5 & S6).
        cbn [map] in D. inversion D as [|? ? D1 _]; subst. inversion D1 as [|? ? D2 _]; subst.
        destruct (itersOf d2) as [|x q] eqn:E2; [contradiction|].
        destruct (full_set L [] (itersOf d) (NoDup_nil _) (sorted_NoDup _ S1) (fun _ _ H => H) (fun _ H => match H with end) S3) with (k := x) as [[]|I].
        + unfold size in *. cbn [length]. lia.
        + apply S6. left. reflexivity.
        + apply (D2 x I). left. reflexivity. }
    rewrite En. cbn [obind fst snd]. eexists. split; [reflexivity|]. set (xs := map (fun d => asgOf (snd d)) ds) in *. split.
    + apply Forall_app. split; [exact Hg|]. constructor; [|constructor]. constructor; cbn [e_brs].
      * intros E0. apply (f_equal (map (b_iters V))) in E0. rewrite pushed_iters, B1 in E0. destruct ds; [contradiction|discriminate].
      * rewrite pushed_pos, pushed_iters, B1. exact B2.
      * intros k Hk0. apply selects_pushed, B4; [exact Hk0|intros []].
    + intros k Hk0. rewrite map_app, concat_app. apply Permutation_app_head. cbn [map concat]. rewrite app_nil_r. unfold LoopCond_proofs.out1. cbn [e_brs e_end].
      rewrite (pick_pickI V _ _ _ (selects_pushed V k _ None xs (B4 k Hk0 (fun H => H)))).
      pose proof (pickI_pushed V k brs0 None xs []) as Hpp. cbn [app] in Hpp. rewrite Hpp.
      * rewrite (pickI_empty V k brs0 B3). cbn [app]. rewrite B1. unfold xs. rewrite (chosen_flat k ds D). apply perm_flat, P.
      * unfold xs. rewrite map_length. apply (f_equal (@length _)) in B1. rewrite !map_length in B1. congruence.
Qed.

(** ** Locations by number of additions *)
Lemma lput_sorted k p l : StronglySorted N.lt (map fst l) -> StronglySorted N.lt (map fst (lput k p l)) /\
  forall c, In c (map fst (lput k p l)) <-> c = k \/ In c (map fst l).
Proof.
  induction l as [|[k' ps] l IH]; intros HS; cbn [lput].
  - split; [repeat constructor|]. intros c. cbn [map fst In]. intuition congruence.
  - cbn [map fst] in HS. inversion HS as [|? ? HS1 HF]; subst. destruct (N.ltb_spec k k').
    + split; [cbn [map fst]; constructor; [exact HS|constructor; [exact H|eapply Forall_impl; [|exact HF]; cbn; intros; lia]]|]. intros c. cbn [map fst In]. intuition congruence.
    + destruct (N.eqb_spec k k') as [->|Hn]; [split; [exact HS|intros c; cbn [map fst In]; intuition congruence]|].
      destruct (IH HS1) as [I1 I2]. split.
      * cbn [map fst]. constructor; [exact I1|]. rewrite Forall_forall in HF |- *. intros x Hx. apply I2 in Hx. destruct Hx as [->|Hx]; [lia|exact (HF x Hx)].
      * intros c. cbn [map fst In]. rewrite I2. intuition congruence.
Qed.
Lemma lput_in k p l c ps' : StronglySorted N.lt (map fst l) -> In (c, ps') (lput k p l) ->
  (c <> k /\ In (c, ps') l) \/ (c = k /\ ((exists ps, In (k, ps) l /\ ps' = ps ++ [p]) \/ (~ In k (map fst l) /\ ps' = [p]))).
Proof.
  induction l as [|[k' ps] l IH]; intros HS I; cbn [lput] in I.
  - destruct I as [E|[]]. injection E as <- <-. right. split; [reflexivity|]. right. split; [intros []|reflexivity].
  - cbn [map fst] in HS. inversion HS as [|? ? HS1 HF]; subst. rewrite Forall_forall in HF. destruct (N.ltb_spec k k').
    + assert (Hn : ~ In k (map fst ((k', ps) :: l))). { cbn [map fst]. intros [->|I2]; [lia|]. specialize (HF k I2). lia. }
      destruct I as [E|I]; [injection E as <- <-; right; split; [reflexivity|right; split; [exact Hn|reflexivity]]|].
      left. split; [|exact I]. intros ->. apply Hn. exact (in_map fst _ _ I).
    + destruct (N.eqb_spec k k') as [->|Hn].
      * destruct I as [E|I]; [injection E as <- <-; right; split; [reflexivity|left; exists ps; split; [left; reflexivity|reflexivity]]|].
        left. split; [|right; exact I]. intros ->. specialize (HF k' (in_map fst _ _ I)). lia.
      * destruct I as [E|I]; [injection E as <- <-; left; split; [congruence|left; reflexivity]|].
        destruct (IH HS1 I) as [[A B]|[A [(q & B & C)|[B C]]]]; [left; split; [exact A|right; exact B]| |].
        -- right. split; [exact A|]. left. exists q. split; [right; exact B|exact C].
        -- right. split; [exact A|]. right. split; [|exact C]. cbn [map fst]. intros [->|]; [congruence|contradiction].
Qed.

Record byCount (positions : list (N * N)) (done : list N) (ls : list (N * list (N * N))) : Prop := mkBC {
  bc_sorted : StronglySorted N.lt (map fst ls);
  bc_in : forall c ps, In (c, ps) ls -> ps <> [] /\ StronglySorted N.lt (map fst ps) /\
     forall i p, In (i, p) ps <-> In i done /\ nth_error positions (N.to_nat i) = Some (c, p) /\ 0 < c;
  bc_all : forall i c p, In i done -> nth_error positions (N.to_nat i) = Some (c, p) -> 0 < c -> In c (map fst ls) }.

Lemma sorted_snoc l x : StronglySorted N.lt l -> (forall y, In y l -> y < x) -> StronglySorted N.lt (l ++ [x]).
Proof.
  induction l as [|y l IH]; intros HS Hx; cbn [app]; [repeat constructor|]. inversion HS as [|? ? H1 H2]; subst. constructor; [apply IH; [exact H1|intros; apply Hx; right; assumption]|].
  apply Forall_app. split; [exact H2|]. constructor; [apply Hx; left; reflexivity|constructor].
Qed.
Lemma locationsOf_spec positions its : forall done acc, byCount positions done acc -> StronglySorted N.lt (done ++ its) ->
  (forall i, In i its -> i < N.of_nat (length positions)) ->
  exists ls, locationsOf positions its acc = Done ls /\ byCount positions (done ++ its) ls.
Proof.
  induction its as [|i its IH]; intros done acc HB HS Hlt; cbn [locationsOf].
  - exists acc. rewrite app_nil_r. auto.
  - destruct (nth_error positions (N.to_nat i)) as [[c loc]|] eqn:E.
    2:{ apply nth_error_None in E. specialize (Hlt i (or_introl eq_refl)). lia. }
    assert (Hafter : forall y, In y done -> y < i).
    { clear - HS. induction done as [|d done IH]; [intros y []|]. cbn [app] in HS. inversion HS as [|? ? H1 H2]; subst. intros y [->|Hy]; [|apply IH; assumption].
      rewrite Forall_forall in H2. apply H2. apply in_app_iff. right. left. reflexivity. }
    assert (Hi : ~ In i done) by (intros I; specialize (Hafter i I); lia).
    destruct (IH (done ++ [i]) (if 0 <? c then lput c (i, loc) acc else acc)) as (ls & E2 & H2).
    + destruct (N.ltb_spec 0 c).
      * destruct (lput_sorted c (i, loc) acc (bc_sorted _ _ _ HB)) as [S1 S2]. constructor; [exact S1| |].
        -- intros c' ps I. destruct (lput_in _ _ _ _ _ (bc_sorted _ _ _ HB) I) as [[A B]|[-> [(q & B & ->)|[B ->]]]].
           ++ destruct (bc_in _ _ _ HB c' ps B) as (B1 & B2 & B3). split; [exact B1|]. split; [exact B2|]. intros j p. rewrite B3, in_app_iff. cbn [In]. split; [tauto|].
              intros ([Ij|[<-|[]]] & Ej & Hc); [auto|]. rewrite E in Ej. congruence.
           ++ destruct (bc_in _ _ _ HB c q B) as (B1 & B2 & B3). split; [destruct q; discriminate|]. split.
              ** rewrite map_app. cbn [map fst]. apply sorted_snoc; [exact B2|]. intros y Hy. apply in_map_iff in Hy. destruct Hy as ([y' py] & <- & Hy). apply B3 in Hy. cbn [fst]. apply Hafter, Hy.
              ** intros j p. rewrite !in_app_iff, B3. cbn [In]. split.
                 --- intros [(A1 & A2 & A3)|[Ep|[]]]; [auto|]. injection Ep as <- <-. auto.
                 --- intros ([Ij|[<-|[]]] & Ej & Hc); [auto|]. right. left. congruence.
           ++ split; [discriminate|]. split; [repeat constructor|]. intros j p. rewrite in_app_iff. cbn [In]. split.
              ** intros [Ep|[]]. injection Ep as <- <-. auto.
              ** intros ([Ij|[<-|[]]] & Ej & Hc); [|left; congruence]. exfalso. apply B. exact (bc_all _ _ _ HB j c p Ij Ej Hc).
        -- intros j c' p Ij Ej Hc. apply S2. apply in_app_iff in Ij. destruct Ij as [Ij|[<-|[]]]; [right; exact (bc_all _ _ _ HB j c' p Ij Ej Hc)|left; congruence].
      * constructor; [apply HB| |].
        -- intros c' ps I. destruct (bc_in _ _ _ HB c' ps I) as (B1 & B2 & B3). split; [exact B1|]. split; [exact B2|]. intros j p. rewrite B3, in_app_iff. cbn [In]. split; [tauto|].
           intros ([Ij|[<-|[]]] & Ej & Hc); [auto|]. rewrite E in Ej. injection Ej as <- <-. lia.
        -- intros j c' p Ij Ej Hc. apply in_app_iff in Ij. destruct Ij as [Ij|[<-|[]]]; [exact (bc_all _ _ _ HB j c' p Ij Ej Hc)|]. rewrite E in Ej. injection Ej as <- <-. lia.
    + rewrite <- app_assoc. exact HS.
    + intros j Ij. apply Hlt. right. exact Ij.
    + exists ls. split; [exact E2|]. rewrite <- app_assoc in H2. exact H2.
Qed.

End Main.

(** ** All requests *)
Section Requests.
Variable V : Type.
Variable isZero : V -> bool.
Variable vadd vmul : V -> V -> V.
Variable L : list N.
Notation asg := (asg V).

Lemma loc_at_in k locs : StronglySorted N.lt (map fst locs) -> forall p, loc_at k locs = Some p <-> In (k, p) locs.
Proof.
  induction locs as [|[i q] r IH]; intros HS p; cbn [loc_at].
  - split; [discriminate|intros []].
  - cbn [map fst] in HS. inversion HS as [|? ? H1 H2]; subst. destruct (N.eqb_spec k i) as [->|Hn].
    + split; [intros E; injection E as ->; left; reflexivity|]. intros [E|I]; [congruence|]. rewrite Forall_forall in H2. specialize (H2 i (in_map fst _ _ I)). lia.
    + rewrite (IH H1). cbn [In]. split; [auto|]. intros [E|I]; [congruence|exact I].
Qed.
Lemma loc_at_none k locs : loc_at k locs = None <-> ~ In k (map fst locs).
Proof.
  induction locs as [|[i q] r IH]; cbn [loc_at map fst In]; [tauto|]. destruct (N.eqb_spec k i) as [->|Hn]; [split; [discriminate|tauto]|]. rewrite IH. intuition congruence.
Qed.
Lemma sorted_Z l : StronglySorted N.lt l -> StronglySorted Z.lt (map Z.of_N l).
Proof. induction 1 as [|x l H IH HF]; cbn [map]; constructor; [exact IH|]. apply Forall_map. eapply Forall_impl; [|exact HF]. cbn. intros. lia. Qed.
Lemma does_detect k v locs add p : StronglySorted N.lt (map fst locs) -> In (k, p) locs ->
  forall f, does V k (mkAsg V v (detect locs) add) f <-> f = (p, add, v).
Proof.
  intros HS HI f. unfold does, detect. cbn [a_pat a_add a_val].
  destruct (C15_pattern_of_a_map (map (fun p => (Z.of_N (fst p), Z.of_N (snd p))) locs)) as (ip & Hf & Hv).
  - split.
    + rewrite map_map. cbn [fst]. rewrite <- (map_map fst Z.of_N). apply sorted_Z, HS.
    + intros x y I. apply in_map_iff in I. destruct I as ([a b] & E & _). injection E as <- <-. cbn [fst]. lia.
  - intros E. apply map_eq_nil in E. subst. destruct HI.
  - rewrite map_length in Hf. rewrite (Hf _ (le_n _)).
    assert (Hin : In (Z.of_N k, Z.of_N p) (map (fun p => (Z.of_N (fst p), Z.of_N (snd p))) locs)) by (apply in_map_iff; exists (k, p); auto).
    destruct f as [[q ad] w]. cbn [fst snd]. split.
    + intros (p0 & E & H1 & -> & ->). injection E as <-. apply (Hv _ _ Hin) in H1. apply N2Z.inj in H1. congruence.
    + intros E. injection E as -> -> ->. exists ip. split; [reflexivity|]. split; [apply (Hv _ _ Hin); reflexivity|]. auto.
Qed.
Lemma does_const k loc v : forall f, does V k (mkAsg V v (Done (PLin (mkLin 0 0 1 (Z.of_N loc)))) 1) f <-> f = (loc, 1, v).
Proof.
  intros [[q ad] w]. unfold does. cbn [a_pat a_add a_val fst snd]. split.
  - intros (p & E & H & -> & ->). injection E as <-.
    assert (E2 : Z.of_N q = evalLin (mkLin 0 0 1 (Z.of_N loc)) (Z.of_N k)) by (inversion H; reflexivity).
    unfold evalLin in E2. cbn [l_xo l_dx l_dy l_b] in E2. rewrite Z.mul_0_r, Z.add_0_l in E2. apply N2Z.inj in E2. congruence.
  - intros E. injection E as -> -> ->. eexists. split; [reflexivity|]. split; [|auto].
    replace (Z.of_N loc) with (evalLin (mkLin 0 0 1 (Z.of_N loc)) (Z.of_N k)) at 2; [constructor|]. unfold evalLin. cbn [l_xo l_dx l_dy l_b]. rewrite Z.mul_0_r. reflexivity.
Qed.

Definition outs (k : N) (s : loop V) : list asg := concat (map (out1 V k) (ifElses V s)) ++ always V s.
Definition answers (k : N) (W : list (asg * effect V)) : Prop := forall a f, In (a, f) W -> forall f', does V k a f' <-> f' = f.
Definition served (s s' : loop V) (w : N -> list (effect V)) : Prop :=
  Forall (good V L) (ifElses V s') /\
  forall k, In k L -> exists W, answers k W /\ map snd W = w k /\ Permutation (outs k s') (outs k s ++ map fst W).

Lemma served_cond s es' w ask : adds V L (ifElses V s) es' w ->
  (forall k, In k L -> exists W, answers k W /\ map snd W = ask k /\ w k = map fst W) -> served s (mkLoop V es' (always V s)) ask.
Proof.
  intros [H1 H2] H3. split; [exact H1|]. intros k Hk. destruct (H3 k Hk) as (W & A & B & C). exists W. split; [exact A|]. split; [exact B|].
  unfold outs. cbn [ifElses always]. rewrite (H2 k Hk), C, <- !app_assoc. apply Permutation_app_head, Permutation_app_comm.
Qed.
Lemma served_always s a ask : Forall (good V L) (ifElses V s) -> (forall k, In k L -> exists f, (forall f', does V k a f' <-> f' = f) /\ ask k = [f]) ->
  served s (mkLoop V (ifElses V s) (always V s ++ [a])) ask.
Proof.
  intros Hg H. split; [exact Hg|]. intros k Hk. destruct (H k Hk) as (f & H1 & H2). exists [(a, f)]. split.
  - intros a' f0 [E|[]]. injection E as <- <-. exact H1.
  - split; [symmetry; exact H2|]. unfold outs. cbn [ifElses always map fst]. rewrite app_assoc. reflexivity.
Qed.

Lemma sizeN_inj (a b : list N) : size a = size b <-> length a = length b.
Proof. unfold size. lia. Qed.

Lemma times_sum c v : times V vadd c v = sum V vadd (N.to_nat c) v.
Proof.
  unfold times. assert (H : forall n acc, timesN V vadd (S n) v acc = vadd (timesN V vadd n v acc) v).
  { induction n as [|n IH]; intros acc; [reflexivity|]. cbn [timesN] in *. apply IH. }
  destruct (N.to_nat c) as [|n]; [reflexivity|]. replace (S n - 1)%nat with n by lia. induction n as [|n IH]; [reflexivity|].
  rewrite H, IH. reflexivity.
Qed.

(** answers of several branches *)
Definition answersB (k : N) (b : N * (V * list (N * N))) : list (asg * effect V) :=
  match loc_at k (snd (snd b)) with Some p => [(asgOf V (snd b), (p, 1, fst (snd b)))] | None => [] end.
Lemma branches_answers k bs : (forall c v locs, In (c, (v, locs)) bs -> StronglySorted N.lt (map fst locs)) ->
  answers k (flat_map (answersB k) bs) /\ map fst (flat_map (answersB k) bs) = flat_map (wantB V k) bs.
Proof.
  induction bs as [|[c [v locs]] bs IH]; intros HS; cbn [flat_map map].
  - split; [intros a f []|reflexivity].
  - destruct IH as [I1 I2]; [intros; eapply HS; right; eassumption|]. specialize (HS c v locs (or_introl eq_refl)).
    unfold answersB at 1 3, wantB at 1, itersOf. cbn [snd fst]. destruct (loc_at k locs) as [p|] eqn:E.
    + assert (Hin := proj1 (loc_at_in k locs HS p) E). assert (Hb : inb k (map fst locs) = true) by (apply inb_spec; exact (in_map fst _ _ Hin)). rewrite Hb. cbn [app map fst]. split; [|rewrite I2; reflexivity].
      intros a f [Ea|Ia]; [|exact (I1 a f Ia)]. injection Ea as <- <-. exact (does_detect k v locs 1 p HS Hin).
    + apply loc_at_none in E. assert (Hb : inb k (map fst locs) = false) by (apply inb_false; exact E). rewrite Hb. cbn [app]. auto.
Qed.
Lemma answersB_asked k bs mx nl : map snd (flat_map (answersB k) bs) = asked V isZero vadd vmul (RBranches V bs mx nl) k.
Proof.
  cbn [asked]. induction bs as [|[c [v locs]] bs IH]; [reflexivity|]. cbn [flat_map]. rewrite map_app, IH. unfold answersB. cbn [snd fst]. destruct (loc_at k locs); reflexivity.
Qed.

Lemma branches_served bs mx s : Forall (good V L) (ifElses V s) -> valid V isZero L (RBranches V bs mx (size L)) ->
  exists s', obind (createConditionalContribution V bs mx (size L) (ifElses V s)) (fun es => Done (mkLoop V es (always V s))) = Done s' /\
    served s s' (asked V isZero vadd vmul (RBranches V bs mx (size L))).
Proof.
  intros Hg Hv. destruct (conditional_spec V isZero L bs mx (ifElses V s) Hg Hv) as (es' & E & Ha). rewrite E. cbn [obind]. eexists. split; [reflexivity|].
  apply (served_cond s es' _ _ Ha). intros k Hk. destruct (branches_answers k bs) as [B1 B2].
  - intros c v locs I. destruct Hv as (_ & _ & Hit & _). apply (Hit c v locs I).
  - exists (flat_map (answersB k) bs). split; [exact B1|]. split; [apply answersB_asked|]. symmetry. exact B2.
Qed.

(** one value grouped by number of additions *)
Definition askedC (positions : list (N * N)) (val : N -> V) (k : N) : list (effect V) :=
  match nth_error positions (N.to_nat k) with Some (c, p) => if c =? 0 then [] else [(p, 1, val c)] | None => [] end.
Lemma served_ext s s' w w' : (forall k, In k L -> w k = w' k) -> served s s' w -> served s s' w'.
Proof. intros H [H1 H2]. split; [exact H1|]. intros k Hk. destruct (H2 k Hk) as (W & A & B & C). exists W. rewrite <- (H k Hk). auto. Qed.

Lemma grouped_asked positions ls val mx : byCount positions L ls ->
  forall k, In k L -> asked V isZero vadd vmul (RBranches V (map (fun cl => (fst cl, (val (fst cl), snd cl))) ls) mx (size L)) k = askedC positions val k.
Proof.
  intros HB k Hk. cbn [asked]. unfold askedC.
  assert (Hin := bc_in _ _ _ HB). assert (Hal := fun c p => bc_all _ _ _ HB k c p Hk). pose proof (bc_sorted _ _ _ HB) as HS. clear HB.
  assert (Hzero : forall l, (forall c ps, In (c, ps) l -> In (c, ps) ls) -> (forall c p, nth_error positions (N.to_nat k) = Some (c, p) -> 0 < c -> ~ In c (map fst l)) ->
    flat_map (fun b : N * (V * list (N * N)) => match loc_at k (snd (snd b)) with Some p => [(p, 1, fst (snd b))] | None => [] end) (map (fun cl => (fst cl, (val (fst cl), snd cl))) l) = []).
  { induction l as [|[c ps] l IH]; intros H1 H2; cbn [map flat_map fst snd]; [reflexivity|]. rewrite IH.
    - destruct (loc_at k ps) as [p|] eqn:E; [|reflexivity]. exfalso. destruct (Hin c ps (H1 c ps (or_introl eq_refl))) as (_ & S1 & S2).
      apply (loc_at_in k ps S1) in E. apply S2 in E. destruct E as (_ & E & Hc). apply (H2 c p E Hc). left. reflexivity.
    - intros; apply H1; right; assumption.
    - intros c' p' E Hc I. apply (H2 c' p' E Hc). right. exact I. }
  destruct (nth_error positions (N.to_nat k)) as [[c p]|] eqn:En.
  - destruct (N.eqb_spec c 0) as [->|Hc].
    + apply Hzero; [auto|]. intros c p' E Hc. injection E as <- <-. lia.
    + assert (I : In c (map fst ls)) by (apply (Hal c p eq_refl); lia). apply in_map_iff in I. destruct I as ([c' ps] & Ec & I). cbn [fst] in Ec. subst c'.
      apply in_split in I. destruct I as (l1 & l2 & El). rewrite El. rewrite map_app, flat_map_app. cbn [map flat_map fst snd].
      assert (Hn : ~ In c (map fst l1) /\ ~ In c (map fst l2)).
      { rewrite El, map_app in HS. cbn [map fst] in HS. apply sorted_NoDup, NoDup_remove_2 in HS. rewrite in_app_iff in HS. tauto. }
      rewrite (Hzero l1), (Hzero l2).
      * destruct (Hin c ps) as (_ & S1 & S2); [rewrite El; apply in_app_iff; right; left; reflexivity|].
        assert (E : loc_at k ps = Some p) by (apply (loc_at_in k ps S1), S2; repeat split; auto; lia). rewrite E. reflexivity.
      * intros c0 ps0 I0. rewrite El. apply in_app_iff. first [left; exact I0|right; right; exact I0].
      * intros c0 p0 E0 _ I0. injection E0 as <- <-. tauto.
      * intros c0 ps0 I0. rewrite El. apply in_app_iff. first [left; exact I0|right; right; exact I0].
      * intros c0 p0 E0 _ I0. injection E0 as <- <-. tauto.
  - apply Hzero; [auto|]. intros c p E. discriminate.
Qed.

Lemma grouped_served positions ls val s : Forall (good V L) (ifElses V s) -> StronglySorted N.lt L -> byCount positions L ls -> ls <> [] ->
  0 < N.of_nat (length positions) <= SIZE_MAX -> (forall k, In k L -> k < N.of_nat (length positions)) ->
  exists s', grouped V ls val (wsub (N.of_nat (length positions)) 1) (size L) s = Done s' /\ served s s' (askedC positions val).
Proof.
  intros Hg HSL HB Hne Hlen Hlt.
  assert (Ew : wsub (N.of_nat (length positions)) 1 = N.of_nat (length positions) - 1).
  { unfold wsub. replace (N.of_nat (length positions) + (SIZE_MAX + 1) - 1) with (N.of_nat (length positions) - 1 + 1 * (SIZE_MAX + 1)) by lia.
    rewrite N.mod_add by lia. apply N.mod_small. lia. }
  rewrite Ew. set (mx := N.of_nat (length positions) - 1).
  set (bs := map (fun cl => (fst cl, (val (fst cl), snd cl))) ls).
  assert (Hval : (forall c v locs, bs = [(c, (v, locs))] -> size (map fst locs) <> size L) -> valid V isZero L (RBranches V bs mx (size L))).
  { intros Hone. cbn [valid]. split; [unfold bs; destruct ls; [contradiction|discriminate]|]. split.
    { unfold bs. rewrite map_map. cbn [fst]. apply sorted_NoDup, HB. }
    split.
    { intros c v locs I. unfold bs in I. apply in_map_iff in I. destruct I as ([c' ps] & E & I). cbn [fst snd] in E. injection E as <- <- <-.
      destruct (bc_in _ _ _ HB c' ps I) as (B1 & B2 & B3). split; [exact B2|]. split; [intros E; apply map_eq_nil in E; contradiction|].
      intros x Hx. apply in_map_iff in Hx. destruct Hx as ([x' p] & <- & Hx). apply B3 in Hx. exact (proj1 Hx). }
    split; [|split; [split; [unfold mx; lia|intros k Hk; specialize (Hlt k Hk); unfold mx; lia]|split; [reflexivity|exact Hone]]].
    unfold bs. pose proof (bc_sorted _ _ _ HB) as HS. pose proof (bc_in _ _ _ HB) as Hin. clear - HS Hin. induction ls as [|[c ps] l IH]; cbn [map]; constructor.
    - rewrite Forall_forall. intros b I. apply in_map_iff in I. destruct I as ([c' ps'] & <- & I). cbn [fst snd].
      intros k K1 K2. apply in_map_iff in K1. destruct K1 as ([k1 p1] & <- & K1). apply in_map_iff in K2. destruct K2 as ([k2 p2] & E2 & K2). cbn [fst] in E2. subst k2.
      apply (Hin c ps (or_introl eq_refl)) in K1. apply (Hin c' ps' (or_intror I)) in K2. cbn [map fst] in HS. inversion HS as [|? ? _ HF]; subst.
      rewrite Forall_forall in HF. specialize (HF c' (in_map fst _ _ I)). destruct K1 as (_ & K1 & _), K2 as (_ & K2 & _). cbn [fst] in *. rewrite K1 in K2. injection K2 as <- _. lia.
    - cbn [map fst] in HS. inversion HS; subst. apply IH; [assumption|]. intros; apply Hin; right; assumption. }
  assert (Hfin : (forall c v locs, bs = [(c, (v, locs))] -> size (map fst locs) <> size L) ->
    exists s', obind (createConditionalContribution V bs mx (size L) (ifElses V s)) (fun es => Done (mkLoop V es (always V s))) = Done s' /\ served s s' (askedC positions val)).
  { intros Hone. destruct (branches_served bs mx s Hg (Hval Hone)) as (s' & E & Hs). exists s'. split; [exact E|].
    apply (served_ext s s' _ _ (grouped_asked positions ls val mx HB) Hs). }
  unfold grouped. destruct ls as [|[c locs] [|cl2 r]] eqn:El; [contradiction| |].
  - destruct (N.eqb_spec (size (map fst locs)) (size L)) as [Es|Es].
    + eexists. split; [reflexivity|]. apply served_always; [exact Hg|]. intros k Hk.
      destruct (bc_in _ _ _ HB c locs (or_introl eq_refl)) as (B1 & B2 & B3).
      assert (Hk2 : In k (map fst locs)).
      { revert k Hk. change (incl L (map fst locs)). apply NoDup_length_incl; [apply sorted_NoDup, B2|apply sizeN_inj in Es; lia|].
        intros x Hx. apply in_map_iff in Hx. destruct Hx as ([x' p] & <- & Hx). apply B3 in Hx. exact (proj1 Hx). }
      apply in_map_iff in Hk2. destruct Hk2 as ([k' p] & Ek & Hk2). cbn [fst] in Ek. subst k'. exists (p, 1, val c). split; [exact (does_detect k (val c) locs 1 p B2 Hk2)|].
      apply B3 in Hk2. destruct Hk2 as (_ & E & Hc). unfold askedC. rewrite E. destruct (N.eqb_spec c 0); [lia|reflexivity].
    + apply Hfin. unfold bs. cbn [map fst snd]. intros c0 v0 l0 E. injection E as <- <- <-. exact Es.
  - apply Hfin. unfold bs. cbn [map]. intros c0 v0 l0 E. discriminate.
Qed.

Lemma bc_nil positions : byCount positions [] [].
Proof. constructor; [constructor|intros c ps []|intros i c p []]. Qed.
Lemma seq_sorted n : forall a, StronglySorted N.lt (map N.of_nat (seq a n)).
Proof.
  induction n as [|n IH]; intros a; cbn [seq map]; constructor; [apply IH|]. apply Forall_map. rewrite Forall_forall. intros x Hx. apply in_seq in Hx. lia.
Qed.

Lemma request_served r s : StronglySorted N.lt L -> Forall (good V L) (ifElses V s) -> valid V isZero L r ->
  exists s', request1 V isZero vadd vmul r s = Done s' /\ served s s' (asked V isZero vadd vmul r).
Proof.
  intros HSL Hg Hv. destruct r as [locs n v add|bs mx nl|loc its mx v|ps v|g ps v t].
  - destruct Hv as ((H1 & H2 & H3) & Hn & Hb). cbn [request1]. unfold createLoopResult.
    destruct (N.eqb_spec (size (map fst locs)) n) as [E|E].
    + eexists. split; [reflexivity|]. apply served_always; [exact Hg|]. intros k Hk.
      assert (Hk2 : In k (map fst locs)).
      { assert (Hr : incl (map N.of_nat (seq 0 (N.to_nat n))) (map fst locs)).
        { apply NoDup_length_incl; [apply sorted_NoDup, H1|rewrite !map_length, seq_length; unfold size in E; rewrite map_length in E; lia|].
          intros x Hx. apply in_map_iff. exists (N.to_nat x). split; [lia|]. apply in_seq. specialize (proj2 Hb x (H3 x Hx)). lia. }
        apply Hr, in_map_iff. exists (N.to_nat k). split; [lia|]. apply in_seq. specialize (proj2 Hb k Hk). lia. }
      apply in_map_iff in Hk2. destruct Hk2 as ([k' p] & Ek & Hk2). cbn [fst] in Ek. subst k'. exists (p, add, v). split; [exact (does_detect k v locs add p H1 Hk2)|].
      cbn [asked]. rewrite (proj2 (loc_at_in k locs H1 p) Hk2). reflexivity.
    + assert (Ew : wsub n 1 = n - 1).
      { unfold wsub. replace (n + (SIZE_MAX + 1) - 1) with (n - 1 + 1 * (SIZE_MAX + 1)) by lia. rewrite N.mod_add by lia. apply N.mod_small. destruct Hb as [Hb _]. lia. }
      rewrite Ew. destruct (oneBranch_spec V L (map fst locs) (n - 1) (mkAsg V v (detect locs) add) (ifElses V s) Hg (conj H1 (conj H2 H3)) Hb) as (es' & Eo & Ha).
      rewrite Eo. cbn [obind]. eexists. split; [reflexivity|]. apply (served_cond s es' _ _ Ha). intros k Hk. cbn [asked]. destruct (loc_at k locs) as [p|] eqn:Ek.
      * assert (Hin := proj1 (loc_at_in k locs H1 p) Ek). exists [(mkAsg V v (detect locs) add, (p, add, v))]. split; [intros a f [Ea|[]]; injection Ea as <- <-; exact (does_detect k v locs add p H1 Hin)|].
        split; [reflexivity|]. rewrite (proj2 (inb_spec k (map fst locs)) (in_map fst _ _ Hin)). reflexivity.
      * exists []. split; [intros a f []|]. split; [reflexivity|]. apply loc_at_none, inb_false in Ek. rewrite Ek. reflexivity.
  - pose proof Hv as (_ & _ & _ & _ & _ & -> & _). cbn [request1]. exact (branches_served bs mx s Hg Hv).
  - destruct Hv as [Hi Hb]. cbn [request1]. unfold constantContribution.
    destruct (oneBranch_spec V L its mx (mkAsg V v (Done (PLin (mkLin 0 0 1 (Z.of_N loc)))) 1) (ifElses V s) Hg Hi Hb) as (es' & Eo & Ha).
    rewrite Eo. cbn [obind]. eexists. split; [reflexivity|]. apply (served_cond s es' _ _ Ha). intros k Hk. cbn [asked]. change (existsb (N.eqb k) its) with (inb k its). destruct (inb k its).
    + exists [(mkAsg V v (Done (PLin (mkLin 0 0 1 (Z.of_N loc)))) 1, (loc, 1, v))]. split; [intros a f [Ea|[]]; injection Ea as <- <-; apply does_const|auto].
    + exists []. split; [intros a f []|auto].
  - destruct Hv as (EL & Hl & Hex). cbn [request1]. unfold createHessianContribution. destruct (isZero v) eqn:Ez.
    + exists s. split; [reflexivity|]. split; [exact Hg|]. intros k Hk. exists []. cbn [asked]. rewrite Ez. split; [intros a f []|]. split; [reflexivity|]. cbn [map]. rewrite app_nil_r. reflexivity.
    + assert (Hlt : forall k, In k L -> k < N.of_nat (length ps)). { intros k Hk. rewrite EL in Hk. apply in_map_iff in Hk. destruct Hk as (x & <- & Hx). apply in_seq in Hx. lia. }
      rewrite <- EL. destruct (locationsOf_spec ps L [] [] (bc_nil ps) HSL Hlt) as (ls & E & HB). cbn [app] in HB. rewrite E. cbn [obind].
      destruct (Hex eq_refl) as (c & p & I & Hc). apply In_nth_error in I. destruct I as (n & En).
      assert (Hn : (n < length ps)%nat) by (apply nth_error_Some; congruence).
      assert (Hls : ls <> []).
      { intros ->. pose proof (bc_all _ _ _ HB (N.of_nat n) c p) as Hal. apply Hal; [|rewrite Nat2N.id; exact En|exact Hc].
        rewrite EL. apply in_map, in_seq. lia. }
      assert (EsL : size L = N.of_nat (length ps)) by (rewrite EL; unfold size; rewrite map_length, seq_length; reflexivity).
      destruct (grouped_served ps ls (fun c => times V vadd c v) s Hg HSL HB Hls ltac:(lia) Hlt) as (s' & Es & Hs). rewrite EsL in Es. exists s'. split; [exact Es|].
      apply (served_ext s s' (askedC ps (fun c => times V vadd c v))); [|exact Hs]. intros k Hk. unfold askedC. cbn [asked]. rewrite Ez. destruct (nth_error ps (N.to_nat k)) as [[c' p']|]; [|reflexivity]. rewrite times_sum. reflexivity.
  - destruct Hv as (-> & Hl & Hlt). cbn [request1]. unfold createReverseMode2Contribution. destruct (isZero v) eqn:Ez.
    + exists s. split; [reflexivity|]. split; [exact Hg|]. intros k Hk. exists []. cbn [asked]. rewrite Ez. split; [intros a f []|]. split; [reflexivity|]. cbn [map]. rewrite app_nil_r. reflexivity.
    + destruct (locationsOf_spec ps L [] [] (bc_nil ps) HSL Hlt) as (ls & E & HB). cbn [app] in HB. rewrite E. cbn [obind]. destruct ls as [|l0 ls].
      * exists s. split; [reflexivity|]. split; [exact Hg|]. intros k Hk. exists []. split; [intros a f []|]. cbn [map]. rewrite app_nil_r. split; [|reflexivity].
        cbn [asked]. rewrite Ez. destruct (nth_error ps (N.to_nat k)) as [[c p]|] eqn:En; [|reflexivity]. destruct (N.eqb_spec c 0) as [|Hc]; [reflexivity|].
        destruct (bc_all _ _ _ HB k c p Hk En ltac:(lia)).
      * assert (Hpos : 0 < N.of_nat (length ps)).
        { destruct l0 as [c q]. destruct (bc_in _ _ _ HB c q (or_introl eq_refl)) as (B1 & _ & B3). destruct q as [|[i p] q]; [contradiction|]. destruct (proj1 (B3 i p) (or_introl eq_refl)) as (Hi & _). specialize (Hlt i Hi). lia. }
        destruct (grouped_served ps (l0 :: ls) (fun c => vmul (times V vadd c v) t) s Hg HSL HB ltac:(discriminate) ltac:(lia) Hlt) as (s' & Es & Hs). exists s'. split; [exact Es|].
        apply (served_ext s s' (askedC ps (fun c => vmul (times V vadd c v) t))); [|exact Hs]. intros k Hk. unfold askedC. cbn [asked]. rewrite Ez. destruct (nth_error ps (N.to_nat k)) as [[c' p']|]; [|reflexivity]. rewrite times_sum. reflexivity.
Qed.

Lemma requests_served rs : forall s, StronglySorted N.lt L -> Forall (good V L) (ifElses V s) -> Forall (valid V isZero L) rs ->
  exists s', requests V isZero vadd vmul rs s = Done s' /\ served s s' (fun k => flat_map (fun r => asked V isZero vadd vmul r k) rs).
Proof.
  induction rs as [|r rs IH]; intros s HSL Hg Hv; cbn [requests].
  - exists s. split; [reflexivity|]. split; [exact Hg|]. intros k Hk. exists []. cbn [map flat_map]. rewrite app_nil_r. split; [intros a f []|]. auto.
  - inversion Hv as [|? ? V1 V2]; subst. destruct (request_served r s HSL Hg V1) as (s1 & E1 & H1). rewrite E1. cbn [obind].
    destruct (IH s1 HSL (proj1 H1) V2) as (s2 & E2 & H2). exists s2. split; [exact E2|]. split; [apply H2|]. intros k Hk.
    destruct (proj2 H1 k Hk) as (W1 & A1 & B1 & C1). destruct (proj2 H2 k Hk) as (W2 & A2 & B2 & C2). exists (W1 ++ W2). split.
    + intros a f I. apply in_app_iff in I. destruct I as [I|I]; [exact (A1 a f I)|exact (A2 a f I)].
    + split; [cbn [flat_map]; rewrite map_app, B1, B2; reflexivity|]. rewrite C2, C1, map_app, <- app_assoc. reflexivity.
Qed.

Lemma Forall2_runs k es os : Forall2 (runs_to V k) es os <-> os = map (out1 V k) es.
Proof.
  revert os. induction es as [|e es IH]; intros os; cbn [map].
  - split; [intros H; inversion H; reflexivity|intros ->; constructor].
  - split; [intros H; inversion H as [|? o ? os' H1 H2]; subst; apply IH in H2; apply runs_pick in H1; subst; reflexivity|].
    intros ->. constructor; [apply runs_pick; reflexivity|apply IH; reflexivity].
Qed.
Lemma Forall2_does k W : answers k W -> forall fs, Forall2 (does V k) (map fst W) fs <-> fs = map snd W.
Proof.
  induction W as [|[a f] W IH]; intros HA fs; cbn [map fst snd].
  - split; [intros H; inversion H; reflexivity|intros ->; constructor].
  - assert (HA' : answers k W) by (intros a' f' I; apply HA; right; exact I). split.
    + intros H. inversion H as [|? f1 ? fs' H1 H2]; subst. apply (HA a f (or_introl eq_refl)) in H1. apply (IH HA') in H2. subst. reflexivity.
    + intros ->. constructor; [apply (HA a f (or_introl eq_refl)); reflexivity|apply (IH HA'); reflexivity].
Qed.
Lemma served_iteration s' w k : In k L -> served (mkLoop V [] []) s' w -> exists fs, Permutation fs (w k) /\ forall fs', iteration V k s' fs' <-> fs' = fs.
Proof.
  intros Hk [_ H]. destruct (H k Hk) as (W & A & B & C). unfold outs in C at 2. cbn [ifElses always map concat app] in C.
  apply Permutation_map_inv in C. destruct C as (W' & C1 & C2). exists (map snd W'). split.
  - rewrite <- B. apply Permutation_map, Permutation_sym, C2.
  - assert (A' : answers k W') by (intros a f I; apply A; exact (Permutation_in _ (Permutation_sym C2) I)).
    intros fs'. rewrite <- (Forall2_does k W' A'), <- C1. unfold iteration, outs. split.
    + intros (os & H1 & H2). apply Forall2_runs in H1. subst. exact H2.
    + intros H2. eexists. split; [apply Forall2_runs; reflexivity|exact H2].
Qed.
End Requests.

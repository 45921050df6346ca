(** * The C text of index patterns *)
From Coq Require Import List Bool Arith ZArith Lia Sorted.
From Verif Require Import Graph_model Codegen_model CSyntax CSyntax_proofs Index_model Index_spec Index_proofs Index_plane.
Import ListNotations.
Local Open Scope Z_scope.

Definition lit (z : Z) : Prop := - 2 ^ 63 < z < 2 ^ 63.
(** a C value stands for an integer: exactly, or modulo 2^64 when unsigned *)
Definition repr (w : ival) (v : Z) : Prop := match w with VU z => z = v mod W | VS z => z = v end.

Lemma W_pos : 0 < W. Proof. reflexivity. Qed.
Lemma repr_toU w v : repr w v -> toU w = v mod W.
Proof. destruct w; intros H; cbn in H |- *; subst; reflexivity. Qed.
Lemma repr_index w v : repr w v -> 0 <= v < W -> asIndex w = v.
Proof. destruct w; intros H Hv; cbn in H |- *; subst; [apply Z.mod_small, Hv|reflexivity]. Qed.

Ltac level k := cbn [lv]; apply (G_ups _ k); [lia|].

Lemma num_reads z : exists e : cexpr iatom, G 7 (num z) e /\ forall ix, lit z -> ieval ix e = Some (VS z).
Proof.
  unfold num. destruct (Z.ltb_spec z 0).
  - exists (ENeg (EAtom (ANum (- z)))). split; [apply G_neg; level 8%nat; apply G_atom|]. intros ix Hz. cbn [ieval]. unfold inS, lit in *.
    rewrite Z.opp_involutive. destruct (Z.leb_spec (- 2 ^ 63) z); [|lia]. destruct (Z.ltb_spec z (2 ^ 63)); [reflexivity|lia].
  - exists (EAtom (ANum z)). split; [level 8%nat; apply G_atom|]. reflexivity.
Qed.

(** arithmetic with an unsigned left operand *)
Lemma add_repr a b u v : repr (VU a) u -> repr b v -> exists w, iarith Plus (VU a) b = Some (VU w) /\ repr (VU w) (u + v).
Proof.
  intros H1 H2. pose proof (repr_toU _ _ H2) as E. cbn in H1. subst a. exists ((u mod W + toU b) mod W). split; [reflexivity|].
  cbn. rewrite E. rewrite <- Z.add_mod by (unfold W; lia). reflexivity.
Qed.
Lemma mul_repr a b u v : repr (VU a) u -> repr b v -> exists w, iarith Star (VU a) b = Some (VU w) /\ repr (VU w) (u * v).
Proof.
  intros H1 H2. pose proof (repr_toU _ _ H2) as E. cbn in H1. subst a. exists ((u mod W * toU b) mod W). split; [reflexivity|].
  cbn. rewrite E. rewrite <- Z.mul_mod by (unfold W; lia). reflexivity.
Qed.

(** where a linear pattern may be used *)
Definition usable (l : lin) (x : Z) : Prop :=
  (l_dy l <> 0 -> 0 <= l_xo l <= x /\ 0 < l_dx l /\ lit (l_xo l) /\ lit (l_dx l) /\ lit (l_dy l)) /\ lit (l_b l).

Lemma linText_reads l k : exists e : cexpr iatom, G 5 (linText l k) e /\
  forall ix, 0 <= ix k < W -> usable l (ix k) -> exists w, ieval ix e = Some w /\ repr w (evalLin l (ix k)).
Proof.
  unfold linText. destruct (num_reads (l_b l)) as (eb & Gb & Vb). destruct (Z.eqb_spec (l_dy l) 0) as [Ed|Ed]; cbn [negb].
  - (* constant *)
    destruct (Z.eqb_spec (l_b l) 0) as [Eb|Eb]; cbn [negb app].
    + exists (EAtom (ANum 0)). split; [level 8%nat; apply G_atom|]. intros ix _ _. exists (VS 0). split; [reflexivity|]. cbn. rewrite evalConst by exact Ed. congruence.
    + exists eb. split; [level 7%nat; exact Gb|]. intros ix _ [_ Hl]. exists (VS (l_b l)). split; [apply Vb, Hl|]. cbn. rewrite evalConst by exact Ed. reflexivity.
  - (* the index without the offset *)
    assert (S1 : exists e1 : cexpr iatom, G 8 (if negb (l_xo l =? 0) then [TLP; TAtom (AIdx k); TOp Minus] ++ num (l_xo l) ++ [TRP] else [TAtom (AIdx k)]) e1 /\
      forall ix, 0 <= ix k < W -> 0 <= l_xo l <= ix k -> lit (l_xo l) -> ieval ix e1 = Some (VU (ix k - l_xo l))).
    { destruct (Z.eqb_spec (l_xo l) 0) as [E|E]; cbn [negb].
      - exists (EAtom (AIdx k)). split; [apply G_atom|]. intros ix _ _ _. rewrite E, Z.sub_0_r. reflexivity.
      - destruct (num_reads (l_xo l)) as (ex & Gx & Vx). exists (EBin Minus (EAtom (AIdx k)) ex). split.
        + change ([TLP; TAtom (AIdx k); TOp Minus] ++ num (l_xo l) ++ [TRP]) with (TLP :: ([TAtom (AIdx k)] ++ TOp Minus :: num (l_xo l)) ++ [TRP]).
          apply G_paren. level 5%nat. apply (G_bin Minus); [level 8%nat; apply G_atom|]. cbn [lv]. level 7%nat. exact Gx.
        + intros ix Hk Ho Hl. cbn [ieval]. rewrite (Vx ix Hl). cbn [iarith toU]. f_equal. f_equal. rewrite Zminus_mod_idemp_r. apply Z.mod_small. lia. }
    destruct S1 as (e1 & G1 & V1). set (t1 := if negb (l_xo l =? 0) then _ else _) in *.
    (* divided by dx *)
    assert (S2 : exists e2 : cexpr iatom, G 6 (t1 ++ (if negb (l_dx l =? 1) then TOp Slash :: num (l_dx l) else [])) e2 /\
      forall ix, 0 <= ix k < W -> 0 <= l_xo l <= ix k -> lit (l_xo l) -> 0 < l_dx l -> lit (l_dx l) -> ieval ix e2 = Some (VU (Z.quot (ix k - l_xo l) (l_dx l)))).
    { destruct (Z.eqb_spec (l_dx l) 1) as [E|E]; cbn [negb].
      - exists e1. split; [rewrite app_nil_r; level 8%nat; exact G1|]. intros ix H1 H2 H3 _ _. rewrite (V1 ix H1 H2 H3), E, Z.quot_1_r. reflexivity.
      - destruct (num_reads (l_dx l)) as (ex & Gx & Vx). exists (EBin Slash e1 ex). split.
        + apply (G_bin Slash); cbn [lv]; [level 8%nat; exact G1|exact Gx].
        + intros ix H1 H2 H3 H4 H5. cbn [ieval]. rewrite (V1 ix H1 H2 H3), (Vx ix H5). cbn [iarith toU]. unfold lit in H5.
          assert (HW : l_dx l < W) by (unfold W; lia). rewrite (Z.mod_small (l_dx l)) by lia. destruct (Z.eqb_spec (l_dx l) 0); [lia|].
          rewrite Z.quot_div_nonneg by lia. reflexivity. }
    destruct S2 as (e2 & G2 & V2). set (t2 := if negb (l_dx l =? 1) then _ else _) in *.
    assert (S3 : exists e3 : cexpr iatom, G 6 ((t1 ++ t2) ++ (if negb (l_dy l =? 1) then TOp Star :: num (l_dy l) else [])) e3 /\
      forall ix, 0 <= ix k < W -> usable l (ix k) -> exists w, ieval ix e3 = Some (VU w) /\ repr (VU w) (Z.quot (ix k - l_xo l) (l_dx l) * l_dy l)).
    { assert (Hq : forall ix, 0 <= ix k < W -> usable l (ix k) -> repr (VU (Z.quot (ix k - l_xo l) (l_dx l))) (Z.quot (ix k - l_xo l) (l_dx l))).
      { intros ix Hk [Hu _]. destruct (Hu Ed) as (U1 & U2 & _). cbn. symmetry. apply Z.mod_small.
        pose proof (Z.quot_pos (ix k - l_xo l) (l_dx l) ltac:(lia) U2). split; [assumption|].
        eapply Z.le_lt_trans; [|apply (proj2 Hk)]. transitivity (ix k - l_xo l); [|lia]. rewrite Z.quot_div_nonneg by lia. apply Z.div_le_upper_bound; [lia|].
        nia. }
      destruct (Z.eqb_spec (l_dy l) 1) as [E|E]; cbn [negb].
      - exists e2. split; [rewrite app_nil_r; exact G2|]. intros ix Hk Hu. pose proof (Hq ix Hk Hu) as R. destruct Hu as [Hu _]. destruct (Hu Ed) as (U1 & U2 & U3 & U4 & U5).
        eexists. split; [apply V2; assumption|]. rewrite E, Z.mul_1_r. exact R.
      - destruct (num_reads (l_dy l)) as (ex & Gx & Vx). exists (EBin Star e2 ex). split; [apply (G_bin Star); cbn [lv]; assumption|].
        intros ix Hk Hu. pose proof (Hq ix Hk Hu) as R. destruct Hu as [Hu _]. destruct (Hu Ed) as (U1 & U2 & U3 & U4 & U5).
        cbn [ieval]. rewrite (V2 ix Hk U1 U3 U2 U4), (Vx ix U5). apply mul_repr; [exact R|reflexivity]. }
    destruct S3 as (e3 & G3 & V3). set (t3 := if negb (l_dy l =? 1) then _ else _) in *. rewrite <- app_assoc in G3.
    destruct (Z.eqb_spec (l_b l) 0) as [Eb|Eb]; cbn [negb].
    + exists e3. rewrite app_nil_r. split; [level 6%nat; exact G3|]. intros ix Hk Hu. destruct (V3 ix Hk Hu) as (w & E & R). exists (VU w). split; [exact E|].
      unfold evalLin. rewrite Eb, Z.add_0_r. exact R.
    + exists (EBin Plus e3 eb). split; [apply (G_bin Plus (t1 ++ t2 ++ t3) (num (l_b l))); cbn [lv]; [level 6%nat; exact G3|level 7%nat; exact Gb]|].
      intros ix Hk Hu. destruct (V3 ix Hk Hu) as (w & E & R). cbn [ieval]. rewrite E, (Vb ix (proj2 Hu)).
      destruct (add_repr w (VS (l_b l)) _ (l_b l) R eq_refl) as (w' & E' & R'). exists (VU w'). split; [exact E'|exact R'].
Qed.

(** ** Sections *)
Fixpoint pick (l : lin) (rest : list (Z * lin)) (x : Z) : lin :=
  match rest with [] => l | (c, l') :: r => if x <? c then l else pick l' r x end.
Lemma pick_in_section : forall rest k0 l x, StronglySorted Z.lt (map fst ((k0, l) :: rest)) -> k0 <= x -> in_section ((k0, l) :: rest) x (pick l rest x).
Proof.
  induction rest as [|[c l'] r IH]; intros k0 l x Hs Hx; cbn [pick].
  - exists k0. split; [left; reflexivity|]. split; [exact Hx|]. intros k' l'' [H|[]] _. right; symmetry; exact H.
  - cbn [map fst] in Hs. inversion Hs as [|? ? Hs' Hall]; subst. destruct (Z.ltb_spec x c) as [Hlt|Hge].
    + exists k0. split; [left; reflexivity|]. split; [exact Hx|]. intros k' l'' [H|H] Hle; [right; symmetry; exact H|]. exfalso.
      destruct H as [[= <- <-]|H]; [lia|]. inversion Hs' as [|? ? _ Hall']; subst. rewrite Forall_forall in Hall'. pose proof (Hall' k' (in_map fst _ _ H)). lia.
    + destruct (IH c l' x Hs' Hge) as (k & K1 & K2 & K3). exists k. split; [right; exact K1|]. split; [exact K2|]. intros k' l'' [[= <- <-]|H] Hle; [|apply K3; assumption].
      left. inversion Hall as [|? ? Hc Hall']; subst. destruct K1 as [[= <- _]|K1]; [exact Hc|]. rewrite Forall_forall in Hall'. pose proof (Hall' k (in_map fst _ _ K1)). lia.
Qed.

Lemma secText_reads k : forall rest l, exists e : cexpr iatom, G 0 (secText l rest k) e /\
  forall ix, 0 <= ix k < W -> (forall c l', In (c, l') rest -> 0 <= c < 2 ^ 63) -> usable (pick l rest (ix k)) (ix k) ->
  exists w, ieval ix e = Some w /\ repr w (evalLin (pick l rest (ix k)) (ix k)).
Proof.
  induction rest as [|[c l'] r IH]; intros l; destruct (linText_reads l k) as (e1 & G1 & V1); cbn [secText].
  - exists e1. split; [level 5%nat; exact G1|]. intros ix Hk _. apply V1, Hk.
  - destruct (IH l') as (e2 & G2 & V2). destruct (num_reads c) as (ec & Gc & Vc). exists (ECond (EBin Lt (EAtom (AIdx k)) ec) e1 e2). split.
    + change ([TLP; TAtom (AIdx k); TOp Lt] ++ num c ++ [TRP; TQuest] ++ linText l k ++ TColon :: secText l' r k)
        with (TLP :: ([TAtom (AIdx k)] ++ TOp Lt :: (num c ++ [TRP] ++ TQuest :: linText l k ++ TColon :: secText l' r k))).
      replace (TLP :: ([TAtom (AIdx k)] ++ TOp Lt :: (num c ++ [TRP] ++ TQuest :: linText l k ++ TColon :: secText l' r k)))
        with ((TLP :: ([TAtom (AIdx k)] ++ TOp Lt :: num c) ++ [TRP]) ++ TQuest :: linText l k ++ TColon :: secText l' r k).
      2:{ cbn [app]. rewrite <- !app_assoc. reflexivity. }
      apply G_cond; [level 8%nat; apply G_paren; level 4%nat; apply (G_bin Lt); cbn [lv]; [level 8%nat; apply G_atom|level 7%nat; exact Gc]|level 5%nat; exact G1|exact G2].
    + intros ix Hk Hr Hu. assert (Hc : 0 <= c < 2 ^ 63) by (apply (Hr c l'); left; reflexivity).
      cbn [ieval]. rewrite (Vc ix ltac:(unfold lit; lia)). cbn [iarith toU]. rewrite (Z.mod_small c) by (unfold W; lia). cbn [pick] in Hu |- *.
      assert (Conv : forall o v, (exists w, o = Some w /\ repr w v) -> forall u : bool, exists w, (if u then option_map (fun w => VU (toU w)) o else o) = Some w /\ repr w v).
      { intros o v (w & -> & R) [|]; [|exists w; auto]. exists (VU (toU w)). split; [reflexivity|]. cbn. rewrite (repr_toU _ _ R). reflexivity. }
      destruct (ix k <? c); cbn [nonzero Z.eqb negb]; apply Conv; [apply V1; assumption|]. apply V2; [exact Hk| |exact Hu]. intros; eapply Hr; right; eassumption.
Qed.

(** ** Tables *)
Lemma sorted_last (m : list (Z * Z)) x y m' : rev m = (x, y) :: m' -> StronglySorted Z.lt (map fst m) -> forall a b, In (a, b) m -> a <= x.
Proof.
  intros E Hs a b Hin. assert (Em : m = rev m' ++ [(x, y)]) by (rewrite <- (rev_involutive m), E; reflexivity).
  rewrite Em in Hs, Hin. rewrite map_app in Hs. cbn [map fst] in Hs. apply in_app_iff in Hin. destruct Hin as [Hin|[[= <- <-]|[]]]; [|lia].
  apply (in_map fst) in Hin. cbn [fst] in Hin. revert Hin Hs. generalize (map fst (rev m')) as q. induction q as [|c q IH]; intros Hin Hs; [destruct Hin|].
  cbn [app] in Hs. inversion Hs as [|? ? Hs' Hall]; subst. destruct Hin as [<-|Hin]; [|apply IH; assumption].
  rewrite Forall_forall in Hall. pose proof (Hall x ltac:(apply in_app_iff; right; left; reflexivity)). lia.
Qed.
Lemma randTable_spec m : points m -> forall x y, In (x, y) m -> nth_error (randTable m) (Z.to_nat x) = Some y.
Proof.
  intros [Hs Hn] x y Hin. unfold randTable. destruct (rev m) as [|[a b] m'] eqn:E.
  - apply (f_equal (@rev _)) in E. rewrite rev_involutive in E. subst m. destruct Hin.
  - pose proof (sorted_last _ _ _ _ E Hs _ _ Hin) as Hle. pose proof (Hn _ _ Hin).
    set (f := fun i : nat => match mget (Z.of_nat i) m with Some y => y | None => 0 end).
    assert (Hf : f (Z.to_nat x) = y) by (unfold f; rewrite Z2Nat.id by lia; rewrite (in_mget _ _ _ Hs Hin); reflexivity).
    assert (Hlt : (Z.to_nat x < Z.to_nat (a + 1))%nat) by lia.
    assert (Hseq : nth_error (seq 0 (Z.to_nat (a + 1))) (Z.to_nat x) = Some (Z.to_nat x)).
    { rewrite (nth_error_nth' _ 0%nat) by (rewrite seq_length; exact Hlt). rewrite seq_nth by exact Hlt. reflexivity. }
    apply (map_nth_error f) in Hseq. rewrite Hf in Hseq. exact Hseq.
Qed.

(** ** Patterns *)
(** the text of a pattern is an expression of level 0 which stands for [v] *)
Definition stands (t : list (tok iatom)) (ix : nat -> Z) (v : Z) : Prop :=
  exists e, G 0 t e /\ exists w, ieval ix e = Some w /\ repr w v.
Lemma stands_text t ix v : stands t ix v -> 0 <= v < W -> text_value t ix v.
Proof.
  intros (e & He & w & E & R) Hv. exists e. split; [exact He|]. split; [intros e' He'; eapply c_reads_unique; eassumption|].
  exists w. split; [exact E|]. apply repr_index; assumption.
Qed.

Lemma okl_usable N x x0 l : 0 <= N < 2 ^ 30 -> okl N x0 l -> x0 <= x -> usable l x.
Proof.
  intros HN (H1 & H2 & H3) Hx. split.
  - intros Hd. destruct (H1 Hd) as (A & B & C & D). unfold lit. repeat split; lia.
  - unfold lit. assert (N * (2 * N) <= 2 ^ 30 * 2 ^ 31) by nia. lia.
Qed.

Section Text.
Variable N : Z.
Hypothesis HN : 0 <= N < 2 ^ 30.
Section Generic.
Variable n : nat.
Variables px py : nat -> Z.
Hypothesis Hx : forall i j, (i < j < n)%nat -> px i < px j.
Hypothesis Hpx : forall i, (i < n)%nat -> 0 <= px i <= N.
Lemma sections_text s k : covers n px py (fun i => okl N (px i)) s n -> s <> [] -> forall ix i, (i < n)%nat -> ix k = px i ->
  exists t, patText (ofSections s) k = Done t /\ stands t ix (py i).
Proof.
  intros Hc Hs ix i Hi Ex. pose proof (Hpx i Hi) as Hb. assert (Hk : 0 <= ix k < W) by (rewrite Ex; unfold W; lia).
  destruct (covers_section n px py Hx _ s n Hc ltac:(lia) i Hi) as (l & Hin & El).
  assert (Hu : usable l (px i)).
  { destruct Hin as (c & C1 & C2 & _). destruct (covers_Q _ _ _ _ _ _ Hc ltac:(lia) c l C1) as (j & _ & -> & Hq). eapply okl_usable; [exact HN|exact Hq|exact C2]. }
  unfold ofSections. destruct s as [|[c0 l0] [|q s]]; [contradiction| |].
  - exists (linText l0 k). split; [reflexivity|]. destruct (linText_reads l0 k) as (e & Ge & Ve). exists e. split; [level 5%nat; exact Ge|].
    destruct Hin as (c & [[= <- <-]|[]] & _). rewrite <- El, <- Ex. apply Ve; [exact Hk|]. rewrite Ex. exact Hu.
  - exists (secText l0 (q :: s) k). split; [reflexivity|]. destruct (secText_reads k (q :: s) l0) as (e & Ge & Ve). exists e. split; [exact Ge|].
    assert (Hc0 : c0 <= px i).
    { destruct Hin as (c & C1 & C2 & _). pose proof (covers_sorted n px py Hx _ _ _ Hc ltac:(lia)) as Hso. cbn [map fst] in Hso.
      inversion Hso as [|? ? _ Hall]; subst. destruct C1 as [[= <- <-]|C1]; [exact C2|]. rewrite Forall_forall in Hall. pose proof (Hall c (in_map fst _ _ C1)). lia. }
    pose proof (pick_in_section (q :: s) c0 l0 (px i) (covers_sorted n px py Hx _ _ _ Hc ltac:(lia)) Hc0) as Hp.
    rewrite (in_section_unique _ _ _ _ Hin Hp) in *. rewrite <- El, <- Ex. apply Ve; [exact Hk| |rewrite Ex; exact Hu].
    intros c l' Hcl. destruct (covers_Q _ _ _ _ _ _ Hc ltac:(lia) c l' (or_intror Hcl)) as (j & Hj & -> & _). pose proof (Hpx j Hj). lia.
Qed.
End Generic.

Lemma table_text m k : points m -> forall ix x y, In (x, y) m -> ix k = x -> 0 <= y < W -> exists t, patText (PRand1 m) k = Done t /\ stands t ix y.
Proof.
  intros Hm ix x y Hin Ex Hy. eexists. split; [reflexivity|]. exists (EAtom (ATab (randTable m) k)). split; [level 8%nat; apply G_atom|].
  exists (VU y). split; [|cbn; symmetry; apply Z.mod_small, Hy]. cbn [ieval]. rewrite Ex, (randTable_spec m Hm x y Hin). reflexivity.
Qed.
Lemma shape_text m p k : points m -> inN N m -> shape N m p -> (p = PRand1 m -> forall x y, In (x, y) m -> 0 <= y) ->
  forall ix x y, In (x, y) m -> ix k = x -> exists t, patText p k = Done t /\ stands t ix y.
Proof.
  intros Hm HNm Hp Hnn ix x y Hin Ex. destruct (HNm _ _ Hin) as [_ Hy]. destruct Hp as [Hp|(s & Hs & Hc & ->)].
  - subst p. eapply table_text; [exact Hm|exact Hin|exact Ex|]. pose proof (Hnn eq_refl _ _ Hin). unfold W. lia.
  - destruct (in_nth m x y Hin) as (i & Hi & <- & <-). eapply (sections_text (length m) (mx m) (my m)); [apply (mx_lt m Hm)| |exact Hc|exact Hs|exact Hi|exact Ex].
    intros j Hj. apply (nth_N N m Hm HNm j Hj).
Qed.

Lemma plus_stands t1 t2 ix v1 v2 : stands t1 ix v1 -> stands t2 ix v2 -> lit (v1 + v2) -> stands (TLP :: t1 ++ [TRP; TOp Plus; TLP] ++ t2 ++ [TRP]) ix (v1 + v2).
Proof.
  intros (e1 & G1 & w1 & E1 & R1) (e2 & G2 & w2 & E2 & R2) Hl. exists (EBin Plus e1 e2). split.
  - replace (TLP :: t1 ++ [TRP; TOp Plus; TLP] ++ t2 ++ [TRP]) with ((TLP :: t1 ++ [TRP]) ++ TOp Plus :: (TLP :: t2 ++ [TRP])) by (cbn [app]; rewrite <- !app_assoc; reflexivity).
    level 5%nat. apply (G_bin Plus); cbn [lv]; level 8%nat; apply G_paren; assumption.
  - cbn [ieval]. rewrite E1, E2. pose proof (repr_toU _ _ R1) as U1. pose proof (repr_toU _ _ R2) as U2.
    destruct w1 as [z1|z1], w2 as [z2|z2]; cbn [iarith].
    1,2,3: (eexists; split; [reflexivity|]; cbn [repr]; rewrite U1, U2; symmetry; apply Z.add_mod; unfold W; lia).
    cbn in R1, R2. subst. unfold inS, lit in *. exists (VS (v1 + v2)). destruct (Z.leb_spec (- 2 ^ 63) (v1 + v2)); [|lia]. destruct (Z.ltb_spec (v1 + v2) (2 ^ 63)); [|lia]. split; reflexivity.
Qed.

Lemma plane_text l p : plane_points l -> planeN N l -> (forall x m y z, In (x, m) l -> In (y, z) m -> 0 <= z) -> plane_shape N l p ->
  forall x m y z ix, In (x, m) l -> In (y, z) m -> ix 0%nat = x -> ix 1%nat = y -> exists t, planeText p = Done t /\ stands t ix z.
Proof.
  intros [_ HL] HP Hz Hs x m y z ix H1 H2 Ex Ey. destruct p as [[p1|] [p2|]]; cbn [plane_shape planeText] in *.
  - destruct Hs as (st & off & Pst & Nst & Poff & Noff & Hsum & S1 & S2 & NR1 & NR2). destruct (Hsum _ _ _ _ H1 H2) as (z0 & I1 & I2).
    destruct (shape_text st p1 0 Pst Nst S1 (fun E => False_ind _ (NR1 E)) ix x z0 I1 Ex) as (t1 & T1 & R1).
    destruct (shape_text off p2 1 Poff Noff S2 (fun E => False_ind _ (NR2 E)) ix y (z - z0) I2 Ey) as (t2 & T2 & R2).
    rewrite T1, T2. cbn [obind]. eexists. split; [reflexivity|]. replace z with (z0 + (z - z0)) by lia. apply plus_stands; [exact R1|exact R2|].
    destruct (HP _ _ _ _ H1 H2) as (_ & _ & Hb & _). unfold lit. lia.
  - destruct Hs as [(mm & y' & Pm & Nm & S & Hback & Hall)|(c & -> & Hd & Hb & Hall)].
    + destruct (Hall _ _ H1) as (z' & -> & Hin). destruct H2 as [[= -> ->]|[]]. eapply (shape_text mm p1 0 Pm Nm S); [|exact Hin|exact Ex].
      intros -> a b Hab. apply (Hz _ _ _ _ (Hback _ _ Hab) ltac:(left; reflexivity)).
    + rewrite (Hall _ _ _ _ H1 H2). destruct (linText_reads c 0) as (e & Ge & Ve). eexists. split; [reflexivity|]. exists e. split; [level 5%nat; exact Ge|].
      destruct (HP _ _ _ _ H1 H2) as (B1 & B2 & _). assert (Hx : 0 <= ix 0%nat < W) by (destruct (HL _ _ H1) as (B0 & _); unfold W; lia). destruct (Ve ix Hx) as (w & E & R); [split; [intros; contradiction|unfold lit; lia]|].
      exists w. split; [exact E|]. rewrite evalConst in R by exact Hd. exact R.
  - destruct Hs as (x' & m' & -> & Pm & Nm & S). destruct H1 as [[= -> ->]|[]]. eapply (shape_text m p2 1 Pm Nm S); [|exact H2|exact Ey].
    intros _ a b Hab. apply (Hz x m a b); [left; reflexivity|exact Hab].
  - destruct Hs.
Qed.
End Text.

(** * First order forward mode of a model with loops: the iterations of a column *)
From Coq Require Import List Bool Arith NArith ZArith Reals Sorted Lia Permutation Lra.
From Verif Require Import Pool_model Graph_model Codegen_model CSyntax Index_model Index_spec Index_thm Range_model LoopCond_model Assemble_model LoopAsm_model LoopAsm_spec LoopAsm_maps
  LoopJac_model LoopJac_maps LoopJac_row LoopJac_state LoopJac_analysis LoopJac_run LoopJac_main LoopJac_final LoopRev1_model LoopRev1_main LoopFor1_model.
Import ListNotations.
Local Open Scope nat_scope.

(** ** Patterns *)
Lemma ipatAt_value q z v : ipatAt q z = Some v -> (forall s, q = PSec s -> exists w, value_at q z w) -> value_at q z v.
Proof.
  destruct q as [l|s|m]; cbn [ipatAt]; intros E H.
  - injection E as <-. constructor.
  - destruct (H s eq_refl) as (w & Hw). inversion Hw as [|s0 x l Hs E1 E2 E3|]; subst. destruct Hs as (k & I & L & U). rewrite (secAt_spec s z None k l (or_introl I) L U) in E by (intros k' l' X; discriminate X).
    cbn [option_map snd] in E. injection E as <-. constructor. exists k. auto.
  - destruct (find _ m) as [[a b]|] eqn:F; [|discriminate]. cbn [option_map snd] in E. injection E as <-. apply find_some in F. destruct F as [I X]. cbn [fst] in X. apply Z.eqb_eq in X. subst a. constructor. exact I.
Qed.
Lemma ipatAt_some q z w : value_at q z w -> exists v, ipatAt q z = Some v /\ value_at q z v.
Proof.
  intros H. assert (X : exists v, ipatAt q z = Some v).
  { inversion H as [l x E1 E2 E3|s x l Hs E1 E2 E3|m x y Hm E1 E2 E3]; subst; cbn [ipatAt].
    - eexists. reflexivity.
    - destruct Hs as (k & I & L & U). rewrite (secAt_spec s z None k l (or_introl I) L U) by (intros k' l' X; discriminate X). eexists. reflexivity.
    - destruct (find (fun e => (fst e =? z)%Z) m) as [[a b]|] eqn:F; [eexists; reflexivity|]. pose proof (find_none _ _ F _ Hm) as X. cbn [fst] in X. rewrite Z.eqb_refl in X. discriminate. }
  destruct X as (v & E). exists v. split; [exact E|]. apply ipatAt_value; [exact E|]. intros s _. exists w. exact H.
Qed.
Lemma planeAt_some p x y w : plane_value p x y w -> exists v, planeAt p x y = Some v /\ plane_value p x y v.
Proof.
  intros (a & b & Ha & Hb & ->). unfold planeAt. destruct p as [p1 p2]. cbn [fst snd] in *.
  assert (X : forall o z c, opt_value o z c -> exists v, (match o with Some q => ipatAt q z | None => Some 0%Z end) = Some v /\ opt_value o z v).
  { intros [q|] z c Hc; cbn [opt_value] in *; [exact (ipatAt_some q z c Hc)|exists 0%Z; auto]. }
  destruct (X p1 x a Ha) as (v1 & E1 & H1). destruct (X p2 y b Hb) as (v2 & E2 & H2). rewrite E1, E2. eexists. split; [reflexivity|]. exists v1, v2. auto.
Qed.

(** ** The groups *)
Definition wellGrouped (g : cgroup) : Prop := StronglySorted lt (map fst (snd g)) /\ snd g <> [] /\ forall j its, In (j, its) (snd g) -> its <> [].

Lemma numbered_sorted {A} (l : list A) : StronglySorted lt (map fst (numbered l)).
Proof.
  rewrite numbered_fst. generalize 0. induction (length l) as [|k IH]; intros a; cbn [seq]; constructor; [apply IH|]. apply Forall_forall. intros b I. apply in_seq in I. lia.
Qed.
Lemma sorted_Z (l : list nat) : StronglySorted lt l -> StronglySorted Z.lt (map Z.of_nat l).
Proof.
  induction 1 as [|a l S IH F]; cbn [map]; constructor; [exact IH|]. rewrite Forall_forall in *. intros z Hz. apply in_map_iff in Hz. destruct Hz as (y & <- & Hy). specialize (F y Hy). lia.
Qed.
Lemma table_points g : wellGrouped g -> plane_points (iterTable g) /\ iterTable g <> [].
Proof.
  intros (S & N & H). split; [|unfold iterTable; destruct (snd g); [congruence|discriminate]]. split.
  - unfold iterTable. rewrite map_map. cbn [fst]. rewrite <- (map_map fst Z.of_nat). apply sorted_Z. exact S.
  - intros z m I. unfold iterTable in I. apply in_map_iff in I. destruct I as ([j its] & E & I). cbn [fst snd] in E. injection E as <- <-. split; [lia|]. split.
    + split.
      * rewrite map_map. cbn [fst]. rewrite <- (map_map fst Z.of_nat). apply sorted_Z. apply numbered_sorted.
      * intros a b J. apply in_map_iff in J. destruct J as (q & E & _). injection E as <- _. lia.
    + pose proof (H j its I). destruct its; [congruence|discriminate].
Qed.
Lemma table_In g j its lit it : In (j, its) (snd g) -> nth_error its lit = Some it ->
  exists m, In (Z.of_nat j, m) (iterTable g) /\ In (Z.of_nat lit, Z.of_nat it) m.
Proof.
  intros I E. eexists. split; [unfold iterTable; apply in_map_iff; exists (j, its); split; [reflexivity|exact I]|]. cbn [snd]. apply in_map_iff. exists (lit, it). split; [reflexivity|]. apply numbered_nth. exact E.
Qed.

(** without a loop every column has one iteration: the pattern does not use the local iteration *)
Lemma one_point z : detectMap 1 [(0%Z, z)] = Codegen_model.Done (PLin (mkLin 0 0 1 z)).
Proof. reflexivity. Qed.
Definition tableOf (cs : list (nat * list nat)) : list (Z * list (Z * Z)) :=
  map (fun c => (Z.of_nat (fst c), map (fun p => (Z.of_nat (fst p), Z.of_nat (snd p))) (numbered (snd c)))) cs.
Lemma singleY_some : forall cs acc, (forall c, In c cs -> length (snd c) = 1) -> acc <> [] \/ cs <> [] -> exists q0 q1, singleY 0%Z (tableOf cs) acc = Codegen_model.Done (q0 :: q1).
Proof.
  induction cs as [|[k ks] cs IH]; intros acc H Ha.
  - destruct acc as [|q0 q1]; [destruct Ha; congruence|]. exists q0, q1. reflexivity.
  - pose proof (H _ (or_introl eq_refl)) as L. cbn [snd] in L. destruct ks as [|a [|b ks]]; try discriminate.
    change (tableOf ((k, [a]) :: cs)) with ((Z.of_nat k, [(0%Z, Z.of_nat a)]) :: tableOf cs). cbn [singleY]. rewrite Z.eqb_refl. apply IH; [intros c Ic; apply H; right; exact Ic|]. left.
    destruct acc as [|[k0 z0] acc]; cbn [Index_model.mput]; [discriminate|]. destruct (_ <? _)%Z; [discriminate|]. destruct (_ =? _)%Z; discriminate.
Qed.
Lemma one_each g fuel r : 1 <= fuel -> snd g <> [] -> (forall c, In c (snd g) -> length (snd c) = 1) -> detectPlane2D fuel (iterTable g) = Codegen_model.Done r ->
  (exists j it, snd g = [(j, [it])] /\ (fuel = 1 -> r = Some (None, Some (PLin (mkLin 0 0 1 (Z.of_nat it)))))) \/ (2 <= length (snd g) /\ exists q, r = Some (Some q, None)).
Proof.
  intros Lf N One E. change (iterTable g) with (tableOf (snd g)) in E. destruct (snd g) as [|c0 [|c1 cs]] eqn:Eg; [congruence| |].
  - left. pose proof (One c0 (or_introl eq_refl)) as L0. destruct c0 as [k0 [|a0 [|b0 r0]]]; try discriminate L0. exists k0, a0. split; [reflexivity|]. intros ->.
    change (tableOf [(k0, [a0])]) with [(Z.of_nat k0, [(0%Z, Z.of_nat a0)])] in E. unfold detectPlane2D in E. rewrite one_point in E. cbn [obind] in E. injection E as <-. reflexivity.
  - right. split; [cbn [length]; lia|]. pose proof (One c0 (or_introl eq_refl)) as L0. destruct c0 as [k0 [|a0 [|b0 r0]]]; try discriminate L0.
    assert (Ne : (k0, [a0]) :: c1 :: cs <> []) by congruence. destruct (singleY_some ((k0, [a0]) :: c1 :: cs) [] One (or_intror Ne)) as (q0 & q1 & Es). clear Ne.
    assert (Et : tableOf ((k0, [a0]) :: c1 :: cs) = (Z.of_nat k0, [(0%Z, Z.of_nat a0)]) :: (Z.of_nat (fst c1), map (fun p => (Z.of_nat (fst p), Z.of_nat (snd p))) (numbered (snd c1))) :: tableOf cs) by reflexivity.
    rewrite Et in *. clear Et.
    unfold detectPlane2D in E. rewrite Es in E. cbn [obind] in E. destruct (detectMap fuel (q0 :: q1)) as [pp| |]; try discriminate. cbn [obind] in E. injection E as <-. exists pp. reflexivity.
Qed.
Lemma iteration_ok g j its lit it : wellGrouped g -> In (j, its) (snd g) -> nth_error its lit = Some it -> iterationAt g j lit = Some it.
Proof.
  intros W I E. destruct (table_points g W) as [P N]. destruct (table_In g j its lit it I E) as (m & Im & Ip). unfold iterationAt.
  destruct (C16_detected_plane_is_exact _ P N) as (r & Hf & Hr). set (fu := length (concat (map snd (iterTable g)))) in *. pose proof (Hf fu (le_n _)) as Hd. rewrite Hd.
  assert (One : createsLoop g = false -> forall c, In c (snd g) -> length (snd c) = 1).
  { unfold createsLoop. intros Ec. apply negb_false_iff in Ec. rewrite forallb_forall in Ec. intros c Ic. apply Nat.eqb_eq. exact (Ec c Ic). }
  assert (Lf : createsLoop g = false -> 1 <= fu).
  { intros _. unfold fu. apply in_split in Im. destruct Im as (l1 & l2 & ->). rewrite map_app, concat_app, app_length. cbn [map snd concat]. rewrite app_length. destruct m; [destruct Ip|]. cbn [length]. lia. }
  assert (F1 : forall k i, snd g = [(k, [i])] -> fu = 1). { intros k i Eg. unfold fu, iterTable. rewrite Eg. reflexivity. }
  destruct (createsLoop g) eqn:Ec.
  - destruct r as [p|].
    + specialize (Hr _ _ _ _ Im Ip). destruct (planeAt_some p _ _ _ (proj2 (Hr (Z.of_nat it)) eq_refl)) as (v & E1 & E2). rewrite E1. apply Hr in E2. subst v. destruct (Z.ltb_spec (Z.of_nat it) 0); [lia|]. rewrite Nat2Z.id. reflexivity.
    + destruct W as (S & _). rewrite (proj1 (mget_In j its (snd g) S) I). exact E.
  - destruct (one_each g fu r (Lf eq_refl) (proj1 (proj2 W)) (One eq_refl) Hd) as [(k & i & Eg & Er)|(_ & q & ->)].
    + rewrite (Er (F1 k i Eg)) in *. rewrite Eg in I. destruct I as [X|[]]. injection X as <- <-. destruct lit as [|[|lit]]; try discriminate. cbn in E. injection E as ->.
      unfold planeAt. cbn [fst snd ipatAt]. unfold evalLin. cbn [l_xo l_dy l_dx l_b]. rewrite Z.mul_0_r, Z.add_0_l, Z.add_0_l. destruct (Z.ltb_spec (Z.of_nat it) 0); [lia|]. rewrite Nat2Z.id. reflexivity.
    + specialize (Hr _ _ _ _ Im Ip). destruct (planeAt_some _ _ _ _ (proj2 (Hr (Z.of_nat it)) eq_refl)) as (v & E1 & E2). apply Hr in E2. subst v. unfold planeAt in *. cbn [fst snd] in *. rewrite E1.
      destruct (Z.ltb_spec (Z.of_nat it) 0); [lia|]. rewrite Nat2Z.id. reflexivity.
Qed.
Lemma count_ok g j its : wellGrouped g -> In (j, its) (snd g) -> countAt g j = Some (length its).
Proof.
  intros W I. unfold countAt. destruct (createsLoop g) eqn:Ec.
  - set (cm := map (fun c => (fst c, length (snd c))) (snd g)). assert (K : StronglySorted lt (map fst cm)) by (unfold cm; rewrite map_map; exact (proj1 W)).
    assert (A : forall k ks, In (k, ks) (snd g) -> patAt (detectM cm) (Some k) = Some (length ks)). { intros k ks Ik. apply patAt_map; [exact K|]. unfold cm. apply in_map_iff. exists (k, ks). auto. }
    destruct (isConstant (detectM cm)) eqn:Ek; [|exact (A j its I)]. destruct (snd g) as [|[k0 ks0] r] eqn:Eg; [destruct I|]. cbn [snd]. rewrite <- (A j its I), <- (A k0 ks0 (or_introl eq_refl)).
    unfold isConstant in Ek. destruct (detectM cm) as [[q|q|q]| |]; try discriminate. apply Z.eqb_eq in Ek. unfold patAt. unfold evalLin. rewrite Ek, !Z.mul_0_r. reflexivity.
  - unfold createsLoop in Ec. apply negb_false_iff in Ec. rewrite forallb_forall in Ec. specialize (Ec _ I). cbn [snd] in Ec. apply Nat.eqb_eq in Ec. rewrite Ec. reflexivity.
Qed.

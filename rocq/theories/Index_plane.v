(** * Planes and sizes of the numbers in index patterns *)
From Coq Require Import List Bool Arith ZArith Lia Sorted.
From Verif Require Import Graph_model Codegen_model CSyntax Index_model Index_spec Index_proofs.
Import ListNotations.
Local Open Scope Z_scope.

(** the numbers of a pattern which is used from x on, when all points are at most N *)
Definition okl (N : Z) (x : Z) (p : lin) : Prop :=
  (l_dy p <> 0 -> 0 <= l_xo p <= x /\ x <= N /\ 0 < l_dx p <= N + 1 /\ Z.abs (l_dy p) <= 2 * N) /\ Z.abs (l_b p) <= N + N * (2 * N) /\
  (l_dy p = 0 -> Z.abs (l_b p) <= N).
Definition inN (N : Z) (m : list (Z * Z)) : Prop := forall x y, In (x, y) m -> x <= N /\ Z.abs y <= N.

Section FromMap.
Variable N : Z.
Variable m : list (Z * Z).
Hypothesis Hm : points m.
Hypothesis HN : inN N m.
Definition mokl (i : nat) (p : lin) : Prop := okl N (mx m i) p.
Lemma nth_N i : (i < length m)%nat -> 0 <= mx m i <= N /\ Z.abs (my m i) <= N.
Proof.
  intros Hi. pose proof (mx_nonneg m Hm i Hi). destruct (HN (mx m i) (my m i)) as [H1 H2]; [|lia].
  unfold mx, my. rewrite <- surjective_pairing. apply nth_In, Hi.
Qed.
Lemma mokl_move i j p : l_dy p = 0 -> (i < length m)%nat -> (j < length m)%nat -> mokl i p -> mokl j p.
Proof. intros E _ _ (_ & H2 & H3). split; [intros; contradiction|]. auto. Qed.
Lemma mokl_const i p : (i < length m)%nat -> mokl i p -> mokl i (mkConst p (my m i)).
Proof.
  intros Hi _. destruct (nth_N i Hi) as [H1 H2]. unfold mokl, okl. cbn [mkConst l_dy l_xo l_dx l_b]. split; [intros H; contradiction H; reflexivity|].
  split; [|intros _; exact H2]. assert (0 <= N * (2 * N)) by (apply Z.mul_nonneg_nonneg; lia). lia.
Qed.
Lemma mokl_fit i : (i < length m)%nat -> mokl i (fst (mfit m i)).
Proof.
  intros Hi. unfold mfit. destruct (nth_N i Hi) as [H1 H2]. assert (Hnn : 0 <= N * (2 * N)) by (apply Z.mul_nonneg_nonneg; lia).
  destruct (Nat.eqb_spec (S i) (length m)) as [E|E]; cbn [fst].
  - unfold mokl, okl. cbn [l_xo l_dx l_dy l_b]. split; [intros H; contradiction H; reflexivity|]. split; [lia|intros _; exact H2].
  - destruct (nth_N (S i) ltac:(lia)) as [H3 H4]. pose proof (mx_lt m Hm i (S i) ltac:(lia)) as Hlt.
    destruct (Z.eqb_spec (my m (S i) - my m i) 0) as [Ed|Ed]; cbn [negb]; unfold mokl, okl; cbn [l_xo l_dx l_dy l_b].
    + split; [intros; lia|]. split; [lia|intros _; exact H2].
    + set (dx := mx m (S i) - mx m i). set (dy := my m (S i) - my m i) in *. assert (0 < dx <= N) by (unfold dx; lia).
      assert (Hdy : Z.abs dy <= 2 * N) by (unfold dy; lia).
      pose proof (Z.rem_bound_pos (mx m i) dx ltac:(lia) ltac:(lia)) as Hr.
      pose proof (Z.quot_rem' (mx m i) dx) as Hqr. pose proof (Z.quot_pos (mx m i) dx ltac:(lia) ltac:(lia)) as Hq.
      assert (Hrx : Z.rem (mx m i) dx <= mx m i) by nia.
      split; [intros _; split; [lia|]; split; [lia|]; split; [lia|exact Hdy]|]. split; [|intros; contradiction].
      assert (Eq : Z.quot (mx m i - Z.rem (mx m i) dx) dx = Z.quot (mx m i) dx).
      { replace (mx m i - Z.rem (mx m i) dx) with (Z.quot (mx m i) dx * dx) by lia. apply Z.quot_mul. lia. }
      rewrite Eq. set (q := Z.quot (mx m i) dx) in *. assert (q <= N) by nia.
      assert (Z.abs (q * dy) <= N * (2 * N)) by (rewrite Z.abs_mul; rewrite (Z.abs_eq q) by lia; nia). lia.
Qed.
End FromMap.

Section Vec.
Variable N : Z.
Variable v : list Z.
Hypothesis HN : forall y, In y v -> Z.abs y <= N.
Hypothesis HL : Z.of_nat (length v) <= N + 1.
Lemma vth_N i : (i < length v)%nat -> 0 <= vx i <= N /\ Z.abs (vy v i) <= N.
Proof. intros Hi. split; [unfold vx; lia|]. apply HN. apply nth_In, Hi. Qed.
Definition vokl (i : nat) (p : lin) : Prop := okl N (vx i) p.
Lemma vokl_move i j p : l_dy p = 0 -> (i < length v)%nat -> (j < length v)%nat -> vokl i p -> vokl j p.
Proof. intros E _ _ (_ & H2 & H3). split; [intros; contradiction|]. auto. Qed.
Lemma vokl_const i p : (i < length v)%nat -> vokl i p -> vokl i (mkConst p (vy v i)).
Proof.
  intros Hi _. destruct (vth_N i Hi) as [H1 H2]. unfold vokl, okl. cbn [mkConst l_dy l_xo l_dx l_b]. split; [intros H; contradiction H; reflexivity|].
  split; [|intros _; exact H2]. assert (0 <= N * (2 * N)) by (apply Z.mul_nonneg_nonneg; lia). lia.
Qed.
Lemma vokl_fit i : (i < length v)%nat -> vokl i (fst (vfit v i)).
Proof.
  intros Hi. unfold vfit. destruct (vth_N i Hi) as [H1 H2]. assert (Hnn : 0 <= N * (2 * N)) by (apply Z.mul_nonneg_nonneg; lia).
  destruct (Nat.eqb_spec (S i) (length v)) as [E|E]; cbn [fst]; unfold vokl, okl; cbn [l_xo l_dx l_dy l_b].
  - split; [intros H; contradiction H; reflexivity|]. split; [lia|intros _; exact H2].
  - destruct (vth_N (S i) ltac:(lia)) as [H3 H4]. set (dy := vy v (S i) - vy v i) in *. assert (Hdy : Z.abs dy <= 2 * N) by (unfold dy; lia).
    split; [intros _; split; [lia|]; split; [lia|]; split; [lia|exact Hdy]|]. 
    assert (Z.abs (dy * vx i) <= N * (2 * N)) by (rewrite Z.abs_mul; rewrite (Z.abs_eq (vx i)) by lia; nia).
    split; [lia|]. intros E0. rewrite E0. rewrite Z.mul_0_l, Z.sub_0_r. exact H2.
Qed.
End Vec.

(** ** The possible planes *)
Definition shape (N : Z) (m : list (Z * Z)) (p : ipat) : Prop :=
  p = PRand1 m \/ exists s, s <> [] /\ covers (length m) (mx m) (my m) (mokl N m) s (length m) /\ p = ofSections s.
Lemma detectMap_shapeN N m : points m -> m <> [] -> inN N m ->
  exists p, (forall fuel, (length m <= fuel)%nat -> detectMap fuel m = Done p) /\ shape N m p.
Proof.
  intros Hm Hne HN. apply (detectMap_shape (mokl N m) m Hm Hne); [apply mokl_fit; assumption|apply mokl_move|apply mokl_const; assumption].
Qed.
Lemma shape_value N m p : points m -> shape N m p -> forall x y, In (x, y) m -> forall v, value_at p x v <-> v = y.
Proof.
  intros Hm Hp x y Hin. destruct Hp as [->|(s & Hs & Hc & ->)]; [apply rand_value; [apply Hm|exact Hin]|].
  destruct (in_nth m x y Hin) as (i & Hi & <- & <-). apply (ofSections_value _ _ _ (mx_lt m Hm) (mokl N m) s Hc Hs i Hi).
Qed.

Definition planeN (N : Z) (l : list (Z * list (Z * Z))) : Prop :=
  forall x m y z, In (x, m) l -> In (y, z) m -> x <= N /\ y <= N /\ Z.abs z <= N /\ forall x' m' y' z', In (x', m') l -> In (y', z') m' -> Z.abs (z - z') <= N.

(** z = f1(x) + f2(y) with both functions given by points *)
Definition sum_of (l : list (Z * list (Z * Z))) (st off : list (Z * Z)) : Prop :=
  forall x m y z, In (x, m) l -> In (y, z) m -> exists z0, In (x, z0) st /\ In (y, z - z0) off.
Definition plane_shape (N : Z) (l : list (Z * list (Z * Z))) (p : plane) : Prop :=
  match p with
  | (None, Some p2) => exists x m, l = [(x, m)] /\ points m /\ inN N m /\ shape N m p2
  | (Some p1, None) =>
      (exists m y, points m /\ inN N m /\ shape N m p1 /\ (forall x z, In (x, z) m -> In (x, [(y, z)]) l) /\ forall x q, In (x, q) l -> exists z, q = [(y, z)] /\ In (x, z) m) \/
      (exists c, p1 = PLin c /\ l_dy c = 0 /\ Z.abs (l_b c) <= 2 * N /\ forall x q y z, In (x, q) l -> In (y, z) q -> z = l_b c)
  | (Some p1, Some p2) => exists st off, points st /\ inN N st /\ points off /\ inN N off /\ sum_of l st off /\ shape N st p1 /\ shape N off p2 /\
      p1 <> PRand1 st /\ p2 <> PRand1 off
  | (None, None) => False
  end.

Lemma sorted_nodup l : StronglySorted Z.lt l -> NoDup l.
Proof.
  induction 1 as [|a l H IH Hall]; constructor; [|exact IH]. intros Hin. rewrite Forall_forall in Hall. pose proof (Hall _ Hin). lia.
Qed.
Definition count (l : list (Z * list (Z * Z))) : nat := length (concat (map snd l)).
Lemma count_ge l : (forall x m, In (x, m) l -> m <> []) -> (length l <= count l)%nat.
Proof.
  unfold count. induction l as [|[x m] l IH]; intros H; [reflexivity|]. cbn [length map snd concat]. rewrite app_length.
  assert (m <> []) by (apply (H x); left; reflexivity). destruct m; [contradiction|]. cbn [length]. specialize (IH (fun x m H' => H x m (or_intror H'))). lia.
Qed.
Lemma ofSections_not_rand s m : ofSections s <> PRand1 m.
Proof. unfold ofSections. destruct s as [|[k l] [|q s]]; discriminate. Qed.

Lemma single_shape N m s : points m -> covers (length m) (mx m) (my m) (mokl N m) s (length m) -> s <> [] -> forall c, ofSections s = PLin c -> l_dy c = 0 ->
  (forall x y, In (x, y) m -> y = l_b c) /\ Z.abs (l_b c) <= N.
Proof.
  intros Hm Hc Hs c E Hd. split.
  - intros x y Hin. assert (H : value_at (ofSections s) x (evalLin c x)) by (rewrite E; constructor).
    apply (shape_value N m _ Hm (or_intror (ex_intro _ s (conj Hs (conj Hc eq_refl)))) x y Hin) in H. rewrite <- H. apply evalConst, Hd.
  - destruct s as [|[k l] [|q s]]; [contradiction| |discriminate]. injection E as ->.
    destruct (covers_Q _ _ _ (mokl N m) _ _ Hc ltac:(lia) k c ltac:(left; reflexivity)) as (i & _ & _ & (_ & _ & H)). exact (H Hd).
Qed.

Lemma detectPlane2D_shape N l : plane_points l -> l <> [] -> planeN N l ->
  exists r, (forall fuel, (count l <= fuel)%nat -> detectPlane2D fuel l = Done r) /\ match r with None => True | Some p => plane_shape N l p end.
Proof.
  intros [Hl Hm] Hne HN.
  assert (Hmne : forall x m, In (x, m) l -> m <> []) by (intros x m H; apply (Hm x m H)).
  destruct l as [|[x m] l]; [contradiction|].
  destruct (Hm x m ltac:(left; reflexivity)) as (Hx0 & Hpm & Hmn).
  destruct l as [|q l].
  - (* one x *)
    assert (HNm : inN N m) by (intros y z H; destruct (HN x m y z ltac:(left; reflexivity) H) as (A & B & C & _); auto).
    destruct (detectMap_shapeN N m Hpm Hmn HNm) as (p & Hf & Hp). exists (Some (None, Some p)). split.
    + intros fuel Hfu. cbn [detectPlane2D]. rewrite Hf; [destruct m as [|[? ?] ?]; reflexivity|]. unfold count in Hfu. cbn [map snd concat] in Hfu. rewrite app_nil_r in Hfu. exact Hfu.
    + exists x, m. auto.
  - set (L := (x, m) :: q :: l) in *. destruct m as [|[y z] m]; [contradiction|].
    destruct (singleY_spec y L [] ltac:(constructor)) as (x2z & Ex & Hx2z).
    assert (Hnd : NoDup (map fst L)) by (apply sorted_nodup, Hl).
    pose proof (count_ge L Hmne) as Hcnt.
    destruct x2z as [|a x2z].
    + destruct (startsOffsets_spec L [] [] Hmne Hnd ltac:(constructor) ltac:(constructor)) as (r & Er & Hr). destruct r as [[st off]|].
      2:{ exists None. split; [|exact I]. intros fuel _. unfold detectPlane2D. fold L. cbn [L]. rewrite Ex. cbn [obind]. rewrite Er. reflexivity. }
      destruct Hr as (R1 & R2 & R3 & R4 & _ & _ & R7 & R8 & R9). cbn [length] in R3, R4.
      assert (Pst : points st). { split; [exact R1|]. intros x' z' H. destruct (R8 _ _ H) as [[]|(m' & y' & H1 & _)]. apply (Hm _ _ H1). }
      assert (Nst : inN N st). { intros x' z' H. destruct (R8 _ _ H) as [[]|(m' & y' & H1 & H2)]. destruct (HN _ _ _ _ H1 H2) as (A & B & C & _). auto. }
      assert (Poff : points off). { split; [exact R2|]. intros y' o H. destruct (R9 _ _ H) as [[]|(x' & m' & y0 & z0 & z' & H1 & _ & H3 & _)]. destruct (Hm _ _ H1) as (_ & [_ Hp] & _). apply (Hp _ _ H3). }
      assert (Noff : inN N off).
      { intros y' o H. destruct (R9 _ _ H) as [[]|(x' & m' & y0 & z0 & z' & H1 & H2 & H3 & ->)]. destruct (HN _ _ _ _ H1 H3) as (A & B & _ & C). split; [exact B|]. apply (C _ _ _ _ H1 H2). }
      destruct (sectionsMap_spec (mokl N st) st Pst (mokl_fit N st Pst Nst) (mokl_move N st) (mokl_const N st Pst Nst) 2) as (s1 & F1 & C1).
      destruct (sectionsMap_spec (mokl N off) off Poff (mokl_fit N off Poff Noff) (mokl_move N off) (mokl_const N off Poff Noff) 2) as (s2 & F2 & C2).
      assert (Hfuel : forall fuel, (count L <= fuel)%nat -> (length st <= fuel)%nat /\ (length off <= fuel)%nat) by (intros; unfold count in *; lia).
      destruct s1 as [|a1 s1].
      { exists None. split; [|exact I]. intros fuel Hfu. unfold detectPlane2D. fold L. cbn [L]. rewrite Ex. cbn [obind]. rewrite Er. cbn [obind].
        rewrite F1 by (apply Hfuel, Hfu). reflexivity. }
      destruct s2 as [|a2 s2].
      { exists None. split; [|exact I]. intros fuel Hfu. unfold detectPlane2D. fold L. cbn [L]. rewrite Ex. cbn [obind]. rewrite Er. cbn [obind].
        rewrite F1 by (apply Hfuel, Hfu). cbn [obind]. rewrite F2 by (apply Hfuel, Hfu). reflexivity. }
      destruct C1 as [|C1]; [discriminate|]. destruct C2 as [|C2]; [discriminate|].
      set (t1 := a1 :: s1) in *. set (t2 := a2 :: s2) in *. assert (T1 : t1 <> []) by discriminate. assert (T2 : t2 <> []) by discriminate.
      exists (Some (match ofSections t1, ofSections t2 with
                        | PLin fx, PLin fy =>
                            if (l_dy fx =? 0) && (l_dy fy =? 0)
                            then (Some (PLin (mkLin (l_xo fx) 0 (l_dx fx) (l_b fx + l_b fy))), None)
                            else (Some (PLin fx), Some (PLin fy))
                        | fx, fy => (Some fx, Some fy)
                        end)). split.
      * intros fuel Hfu. unfold detectPlane2D. fold L. cbn [L]. rewrite Ex. cbn [obind]. rewrite Er. cbn [obind].
        rewrite F1 by (apply Hfuel, Hfu). cbn [obind]. rewrite F2 by (apply Hfuel, Hfu). reflexivity.
      * assert (Hgen : plane_shape N L (Some (ofSections t1), Some (ofSections t2))).
        { exists st, off. repeat (split; [assumption|]). split; [right; exists t1; auto|]. split; [right; exists t2; auto|]. split; apply ofSections_not_rand. }
        destruct (ofSections t1) as [c1|? |?] eqn:E1; destruct (ofSections t2) as [c2|? |?] eqn:E2; try exact Hgen.
        destruct (Z.eqb_spec (l_dy c1) 0) as [D1|D1]; cbn [andb]; [|exact Hgen]. destruct (Z.eqb_spec (l_dy c2) 0) as [D2|D2]; [|exact Hgen].
        right. eexists. split; [reflexivity|]. split; [reflexivity|]. cbn [l_b].
        destruct (single_shape N st t1 Pst C1 T1 c1 E1 D1) as [V1 B1]. destruct (single_shape N off t2 Poff C2 T2 c2 E2 D2) as [V2 B2].
        split; [lia|]. intros x' q' y' z' H1 H2. destruct (R7 _ _ _ _ H1 H2) as (z0 & H3 & H4). rewrite <- (V1 _ _ H3), <- (V2 _ _ H4). lia.
    + destruct Hx2z as [|(X1 & X2 & X3 & X4)]; [discriminate|]. set (M := a :: x2z) in *.
      assert (PM : points M). { split; [exact X1|]. intros x' z' H. destruct (X3 _ _ H) as [[]|H']. apply (Hm _ _ H'). }
      assert (NM : inN N M). { intros x' z' H. destruct (X3 _ _ H) as [[]|H']. destruct (HN _ _ y z' H' ltac:(left; reflexivity)) as (A & B & C & _). auto. }
      destruct (detectMap_shapeN N M PM ltac:(discriminate) NM) as (p & Hf & Hp). exists (Some (Some p, None)). split.
      * intros fuel Hfu. unfold detectPlane2D. fold L. cbn [L]. rewrite Ex. cbn [obind]. unfold M in Hf. rewrite Hf; [reflexivity|]. cbn [length] in X2. unfold M in X2. lia.
      * left. exists M, y. split; [exact PM|]. split; [exact NM|]. split; [exact Hp|]. split; [intros x' z' H; destruct (X3 _ _ H) as [[]|H']; exact H'|]. intros x' q' H. destruct (X4 _ _ H) as (z' & ->). exists z'. split; [reflexivity|].
        destruct (singleY_all y L [] M Ex ltac:(discriminate) Hnd) as [_ HA]. apply HA, H.
Qed.

(** bounds always exist *)
Lemma bound_list (l : list Z) : exists N, 0 <= N /\ forall z, In z l -> Z.abs z <= N.
Proof.
  induction l as [|a l (N & H0 & H)]; [exists 0; split; [lia|intros ? []]|]. exists (Z.max N (Z.abs a)). split; [lia|].
  intros z [<-|Hz]; [lia|]. specialize (H z Hz). lia.
Qed.
Lemma planeN_exists l : exists N, planeN N l.
Proof.
  destruct (bound_list (map fst l ++ map fst (concat (map snd l)) ++ map snd (concat (map snd l)))) as (N & H0 & H).
  assert (Hin : forall x m y z, In (x, m) l -> In (y, z) m -> Z.abs x <= N /\ Z.abs y <= N /\ Z.abs z <= N).
  { intros x m y z H1 H2. assert (H3 : In (y, z) (concat (map snd l))) by (apply in_concat; exists m; split; [apply (in_map snd _ _ H1)|exact H2]).
    split; [|split]; apply H; rewrite !in_app_iff; [left; apply (in_map fst _ _ H1)|right; left; apply (in_map fst _ _ H3)|right; right; apply (in_map snd _ _ H3)]. }
  exists (2 * N). intros x m y z H1 H2. destruct (Hin _ _ _ _ H1 H2) as (A & B & C). split; [lia|]. split; [lia|]. split; [lia|].
  intros x' m' y' z' H3 H4. destruct (Hin _ _ _ _ H3 H4) as (_ & _ & C'). lia.
Qed.

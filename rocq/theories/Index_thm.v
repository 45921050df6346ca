(** * Index patterns: theorems (C15, C16, C17) *)
From Coq Require Import List Bool Arith ZArith Lia Sorted.
From Verif Require Import Graph_model Codegen_model CSyntax CSyntax_proofs Index_model Index_spec Index_proofs Index_plane Index_text.
Import ListNotations.
Local Open Scope Z_scope.

(** ** C15: the detected pattern gives back every index *)
Theorem C15_pattern_of_a_vector : forall v : list Z, v <> [] ->
  exists p, (forall fuel, (length v <= fuel)%nat -> detectVec fuel v = Done p) /\
    forall i y, nth_error v i = Some y -> forall z, value_at p (Z.of_nat i) z <-> z = y.
Proof. exact detectVec_value. Qed.
Print Assumptions C15_pattern_of_a_vector.

Theorem C15_pattern_of_a_map : forall m : list (Z * Z), points m -> m <> [] ->
  exists p, (forall fuel, (length m <= fuel)%nat -> detectMap fuel m = Done p) /\
    forall x y, In (x, y) m -> forall v, value_at p x v <-> v = y.
Proof. exact detectMap_value. Qed.
Print Assumptions C15_pattern_of_a_map.

(** any limit on the number of sections: no result, or sections with all the indices *)
Theorem C15_any_section_limit : forall (m : list (Z * Z)) (maxCount : nat), points m ->
  exists s, (forall fuel, (length m <= fuel)%nat -> detectSectionsMap m fuel maxCount = Done s) /\
    (s = [] \/ forall x y, In (x, y) m -> forall v, value_at (PSec s) x v <-> v = y).
Proof.
  intros m mc Hm. destruct (sectionsMap_spec trueQ m Hm (fun _ _ => I) (fun _ _ _ _ _ _ _ => I) (fun _ _ _ _ => I) mc) as (s & Hf & Hs).
  exists s. split; [exact Hf|]. destruct Hs as [->|Hc]; [left; reflexivity|]. right. intros x y Hin v.
  destruct (in_nth m x y Hin) as (i & Hi & <- & <-). destruct (covers_section _ _ _ (mx_lt m Hm) trueQ s _ Hc ltac:(lia) i Hi) as (l & Hl & E). split.
  - intros H. inversion H as [|s' x' l' Hl'|]; subst. rewrite (in_section_unique _ _ _ _ Hl' Hl). exact E.
  - intros ->. rewrite <- E. constructor. exact Hl.
Qed.
Print Assumptions C15_any_section_limit.

(** two sections, the second taking an element of the first; the map has gaps; and a table *)
Example c15_vector : detectVec 6 [1; 3; 5; 5; 5; 5] = Done (PSec [(0, mkLin 0 2 1 1); (2, mkLin 0 0 1 5)]).
Proof. reflexivity. Qed.
Example c15_map : detectMap 4 [(3, 10); (5, 14); (7, 18); (9, 22)] = Done (PLin (mkLin 1 4 2 6)).
Proof. reflexivity. Qed.
Example c15_table : detectMap 7 [(0, 5); (1, 0); (2, 9); (4, 1); (6, 3); (9, 2); (11, 7)] = Done (PRand1 [(0, 5); (1, 0); (2, 9); (4, 1); (6, 3); (9, 2); (11, 7)]).
Proof. reflexivity. Qed.
Example c15_points : points [(3, 10); (5, 14); (7, 18); (9, 22)].
Proof. split; [cbn; repeat constructor|]. cbn. intros x y H. repeat destruct H as [[= <- _]|H]; try lia. Qed.

(** ** C16: a detected plane gives back every index *)
Lemma plane_shape_value N l p : plane_shape N l p -> forall x m y z, In (x, m) l -> In (y, z) m -> forall v, plane_value p x y v <-> v = z.
Proof.
  intros Hs x m y z H1 H2 v. unfold plane_value. destruct p as [[p1|] [p2|]]; cbn [plane_shape fst snd opt_value] in *.
  - destruct Hs as (st & off & Pst & Nst & Poff & Noff & Hsum & S1 & S2 & _). destruct (Hsum _ _ _ _ H1 H2) as (z0 & I1 & I2).
    pose proof (shape_value N st p1 Pst S1 _ _ I1) as V1. pose proof (shape_value N off p2 Poff S2 _ _ I2) as V2. split.
    + intros (a & b & Ha & Hb & ->). apply V1 in Ha. apply V2 in Hb. lia.
    + intros ->. exists z0, (z - z0). split; [apply V1; reflexivity|]. split; [apply V2; reflexivity|lia].
  - destruct Hs as [(mm & y' & Pm & Nm & S & Hback & Hall)|(c & -> & Hd & Hb & Hall)].
    + destruct (Hall _ _ H1) as (z' & -> & Hin). destruct H2 as [[= -> ->]|[]]. pose proof (shape_value N mm p1 Pm S _ _ Hin) as V. split.
      * intros (a & b & Ha & -> & ->). apply V in Ha. lia.
      * intros ->. exists z, 0. split; [apply V; reflexivity|]. split; [reflexivity|lia].
    + rewrite (Hall _ _ _ _ H1 H2). split.
      * intros (a & b & Ha & -> & ->). inversion Ha; subst. rewrite evalConst by exact Hd. lia.
      * intros ->. exists (evalLin c x), 0. split; [constructor|]. split; [reflexivity|]. rewrite evalConst by exact Hd. lia.
  - destruct Hs as (x' & m' & -> & Pm & Nm & S). destruct H1 as [[= -> ->]|[]]. pose proof (shape_value N m p2 Pm S _ _ H2) as V. split.
    + intros (a & b & -> & Hb & ->). apply V in Hb. lia.
    + intros ->. exists 0, z. split; [reflexivity|]. split; [apply V; reflexivity|lia].
  - destruct Hs.
Qed.

Theorem C16_detected_plane_is_exact : forall l, plane_points l -> l <> [] ->
  exists r, (forall fuel, (length (concat (map snd l)) <= fuel)%nat -> detectPlane2D fuel l = Done r) /\
    match r with
    | None => True
    | Some p => forall x m y z, In (x, m) l -> In (y, z) m -> forall v, plane_value p x y v <-> v = z
    end.
Proof.
  intros l Hl Hne. destruct (planeN_exists l) as (N & HN). destruct (detectPlane2D_shape N l Hl Hne HN) as (r & Hf & Hr).
  exists r. split; [exact Hf|]. destruct r as [p|]; [|exact I]. exact (plane_shape_value N l p Hr).
Qed.
Print Assumptions C16_detected_plane_is_exact.

(** z = 10*x/2 + 3*y - 3: missing cells are allowed; and a map which is not such a sum *)
Definition c16_grid : list (Z * list (Z * Z)) := [(2, [(1, 10); (2, 13)]); (4, [(1, 20); (2, 23); (3, 26)]); (6, [(1, 30)])].
Example c16_plane : detectPlane2D 6 c16_grid = Done (Some (Some (PLin (mkLin 0 10 2 0)), Some (PLin (mkLin 0 3 1 (-3))))).
Proof. reflexivity. Qed.
Example c16_points : plane_points c16_grid.
Proof.
  split; [cbn; repeat constructor|]. unfold c16_grid. cbn. intros x m H. repeat destruct H as [[= <- <-]|H]; try contradiction.
  all: split; [lia|]; split; [|discriminate]; split; [cbn; repeat constructor|]; cbn; intros a b H; repeat destruct H as [[= <- _]|H]; try lia.
Qed.
Example c16_none : detectPlane2D 4 [(0, [(0, 0); (1, 1)]); (1, [(0, 5); (1, 7)])] = Done None.
Proof. reflexivity. Qed.

(** ** C17: the printed index expression is one C expression with the value of the pattern *)
(** one linear pattern, used at or after its offset *)
Theorem C17_linear_text : forall l k ix, 0 <= ix k < 2 ^ 64 ->
  (l_dy l <> 0 -> 0 <= l_xo l <= ix k /\ 0 < l_dx l /\ l_xo l < 2 ^ 63 /\ l_dx l < 2 ^ 63 /\ Z.abs (l_dy l) < 2 ^ 63) -> Z.abs (l_b l) < 2 ^ 63 ->
  0 <= evalLin l (ix k) < 2 ^ 64 -> text_value (linText l k) ix (evalLin l (ix k)).
Proof.
  intros l k ix Hk H1 H2 Hv. destruct (linText_reads l k) as (e & Ge & Ve). destruct (Ve ix Hk) as (w & E & R).
  - split; [|unfold lit; lia]. intros Hd. specialize (H1 Hd). unfold lit. lia.
  - apply stands_text; [|exact Hv]. exists e. split; [apply (G_ups _ 5%nat); [lia|exact Ge]|]. exists w. auto.
Qed.
Print Assumptions C17_linear_text.

(** the text of the pattern detected for a map has, for each key, the value of the map.  Numbers up to 2^30 keep every
    intermediate constant of the detection below 2^63. *)
Theorem C17_text_of_a_map : forall m k, points m -> m <> [] -> (forall x y, In (x, y) m -> x < 2 ^ 30 /\ 0 <= y < 2 ^ 30) ->
  exists p t, (forall fuel, (length m <= fuel)%nat -> detectMap fuel m = Done p) /\ patText p k = Done t /\
    forall x y ix, In (x, y) m -> ix k = x -> text_value t ix y.
Proof.
  intros m k Hm Hne HB. assert (HN : inN (2 ^ 30 - 1) m) by (intros x y H; specialize (HB _ _ H); lia).
  destruct (detectMap_shapeN (2 ^ 30 - 1) m Hm Hne HN) as (p & Hf & Hp).
  assert (HT : forall x y ix, In (x, y) m -> ix k = x -> exists t, patText p k = Done t /\ text_value t ix y).
  { intros x y ix Hin Ex. destruct (shape_text (2 ^ 30 - 1) ltac:(lia) m p k Hm HN Hp (fun _ a b H => proj1 (proj2 (HB a b H))) ix x y Hin Ex) as (t & Et & Ht).
    exists t. split; [exact Et|]. apply stands_text; [exact Ht|]. specialize (HB _ _ Hin). unfold W. lia. }
  destruct m as [|[x0 y0] m]; [contradiction|]. destruct (HT x0 y0 (fun _ => x0) ltac:(left; reflexivity) eq_refl) as (t & Et & _).
  exists p, t. split; [exact Hf|]. split; [exact Et|]. intros x y ix Hin Ex. destruct (HT x y ix Hin Ex) as (t' & Et' & Ht'). rewrite Et in Et'. injection Et' as <-. exact Ht'.
Qed.
Print Assumptions C17_text_of_a_map.

Theorem C17_text_of_a_vector : forall v k, v <> [] -> Z.of_nat (length v) < 2 ^ 30 -> (forall y, In y v -> 0 <= y < 2 ^ 30) ->
  exists p t, (forall fuel, (length v <= fuel)%nat -> detectVec fuel v = Done p) /\ patText p k = Done t /\
    forall i y ix, nth_error v i = Some y -> ix k = Z.of_nat i -> text_value t ix y.
Proof.
  intros v k Hne HL HB. set (N := 2 ^ 30 - 1). assert (HN : forall y, In y v -> Z.abs y <= N) by (intros y H; specialize (HB y H); unfold N; lia).
  assert (HL' : Z.of_nat (length v) <= N + 1) by (unfold N; lia).
  destruct (detectVec_shape (vokl N) v Hne (vokl_fit N v HN HL') (vokl_move N v) (vokl_const N v HN HL')) as (p & Hf & Hp).
  assert (HT : forall i y ix, nth_error v i = Some y -> ix k = Z.of_nat i -> exists t, patText p k = Done t /\ text_value t ix y).
  { intros i y ix Hi Ex. pose proof (nth_error_nth _ _ 0 Hi) as Ey. assert (Hil : (i < length v)%nat) by (apply nth_error_Some; congruence).
    pose proof (HB y (nth_error_In _ _ Hi)) as Hy. destruct Hp as [->|(s & Hs & Hc & ->)].
    - destruct (table_text (combine (map vx (seq 0 (length v))) v) k) with (ix := ix) (x := Z.of_nat i) (y := y) as (t & Et & Ht); [|rewrite <- Ey; exact (combine_In v 0 i Hil)|exact Ex|unfold W; lia|].
      + split; [apply combine_sorted|]. intros a b H. apply in_combine_l in H. apply in_map_iff in H. destruct H as (j & <- & _). unfold vx. lia.
      + exists t. split; [exact Et|]. apply stands_text; [exact Ht|unfold W; lia].
    - destruct (sections_text N ltac:(unfold N; lia) (length v) vx (vy v) (vx_lt v)) with (s := s) (k := k) (ix := ix) (i := i) as (t & Et & Ht); try assumption.
      + intros j Hj. unfold vx. lia.
      + exists t. split; [exact Et|]. rewrite <- Ey. apply stands_text; [exact Ht|]. unfold vy. rewrite Ey. unfold W. lia. }
  destruct v as [|y0 v]; [contradiction|]. destruct (HT 0%nat y0 (fun _ => 0) eq_refl eq_refl) as (t & Et & _).
  exists p, t. split; [exact Hf|]. split; [exact Et|]. intros i y ix Hi Ex. destruct (HT i y ix Hi Ex) as (t' & Et' & Ht'). rewrite Et in Et'. injection Et' as <-. exact Ht'.
Qed.
Print Assumptions C17_text_of_a_vector.

(** planes: the outer index is variable 0, the inner index is variable 1 *)
Theorem C17_text_of_a_plane : forall l, plane_points l -> l <> [] ->
  (forall x m y z, In (x, m) l -> In (y, z) m -> x < 2 ^ 30 /\ y < 2 ^ 30 /\ 0 <= z < 2 ^ 30) ->
  exists r, (forall fuel, (length (concat (map snd l)) <= fuel)%nat -> detectPlane2D fuel l = Done r) /\
    match r with
    | None => True
    | Some p => exists t, planeText p = Done t /\
        forall x m y z ix, In (x, m) l -> In (y, z) m -> ix 0%nat = x -> ix 1%nat = y -> text_value t ix z
    end.
Proof.
  intros l Hl Hne HB. assert (HN : planeN (2 ^ 30 - 1) l).
  { intros x m y z H1 H2. destruct (HB _ _ _ _ H1 H2) as (A & B & C). split; [lia|]. split; [lia|]. split; [lia|].
    intros x' m' y' z' H3 H4. destruct (HB _ _ _ _ H3 H4) as (_ & _ & C'). lia. }
  destruct (detectPlane2D_shape (2 ^ 30 - 1) l Hl Hne HN) as (r & Hf & Hr). exists r. split; [exact Hf|]. destruct r as [p|]; [|exact I].
  assert (HT : forall x m y z ix, In (x, m) l -> In (y, z) m -> ix 0%nat = x -> ix 1%nat = y -> exists t, planeText p = Done t /\ text_value t ix z).
  { intros x m y z ix H1 H2 Ex Ey. destruct (plane_text (2 ^ 30 - 1) ltac:(lia) l p Hl HN (fun x m y z A B => proj1 (proj2 (proj2 (HB x m y z A B)))) Hr x m y z ix H1 H2 Ex Ey) as (t & Et & Ht).
    exists t. split; [exact Et|]. apply stands_text; [exact Ht|]. destruct (HB _ _ _ _ H1 H2) as (_ & _ & C). unfold W. lia. }
  destruct l as [|[x0 m0] l']; [contradiction|]. destruct (proj2 Hl x0 m0 ltac:(left; reflexivity)) as (_ & _ & Hm0). destruct m0 as [|[y0 z0] m0]; [contradiction|].
  destruct (HT x0 _ y0 z0 (fun k => match k with 0%nat => x0 | _ => y0 end) ltac:(left; reflexivity) ltac:(left; reflexivity) eq_refl eq_refl) as (t & Et & _).
  exists t. split; [exact Et|]. intros x m y z ix H1 H2 Ex Ey. destruct (HT x m y z ix H1 H2 Ex Ey) as (t' & Et' & Ht'). rewrite Et in Et'. injection Et' as <-. exact Ht'.
Qed.
Print Assumptions C17_text_of_a_plane.

(** the texts of the examples: "(j - 1) / 2 * 4 + 6", "(j<2)? j*2+1: 5", "(i/2*10)+(j*3+-3)" *)
Example c17_map : patText (PLin (mkLin 1 4 2 6)) 0 = Done
  [TLP; TAtom (AIdx 0); TOp Minus; TAtom (ANum 1); TRP; TOp Slash; TAtom (ANum 2); TOp Star; TAtom (ANum 4); TOp Plus; TAtom (ANum 6)].
Proof. reflexivity. Qed.
Example c17_plane : planeText (Some (PLin (mkLin 0 10 2 0)), Some (PLin (mkLin 0 3 1 (-3)))) = Done
  [TLP; TAtom (AIdx 0); TOp Slash; TAtom (ANum 2); TOp Star; TAtom (ANum 10); TRP; TOp Plus;
   TLP; TAtom (AIdx 1); TOp Star; TAtom (ANum 3); TOp Plus; TOp Minus; TAtom (ANum 3); TRP].
Proof. reflexivity. Qed.

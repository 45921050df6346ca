(** * Proofs about the text of constants *)
From Coq Require Import ZArith QArith Qabs Qpower SpecFloat Bool List Ascii String Lia Lqa.
From Verif Require Import Graph_Double Decimal_model Decimal_spec.
Import ListNotations.
Local Open Scope Z_scope.

(** ** Powers *)
Lemma pow10_pos k : 0 <= k -> 0 < 10 ^ k. Proof. intro. apply Z.pow_pos_nonneg; lia. Qed.

Local Open Scope Q_scope.
Notation t10 := (Qpower (inject_Z 10)).
Notation t2 := (Qpower (inject_Z 2)).

Lemma t10_nz : ~ inject_Z 10 == 0. Proof. discriminate. Qed.
Lemma t2_nz : ~ inject_Z 2 == 0. Proof. discriminate. Qed.
Lemma t10_Z k : (0 <= k)%Z -> t10 k == inject_Z (10 ^ k).
Proof. intro. symmetry. apply Zpower_Qpower. assumption. Qed.
Lemma t2_Z k : (0 <= k)%Z -> t2 k == inject_Z (2 ^ k).
Proof. intro. symmetry. apply Zpower_Qpower. assumption. Qed.
Lemma t10_pos k : 0 < t10 k.
Proof.
  destruct (Z_le_gt_dec 0 k) as [H|H].
  - rewrite t10_Z by assumption. change 0 with (inject_Z 0). rewrite <- Zlt_Qlt. apply pow10_pos. assumption.
  - replace k with (- (- k))%Z by lia. rewrite Qpower_opp. apply Qinv_lt_0_compat.
    rewrite t10_Z by lia. change 0 with (inject_Z 0). rewrite <- Zlt_Qlt. apply pow10_pos. lia.
Qed.
Lemma t2_pos k : 0 < t2 k.
Proof.
  destruct (Z_le_gt_dec 0 k) as [H|H].
  - rewrite t2_Z by assumption. change 0 with (inject_Z 0). rewrite <- Zlt_Qlt. apply Z.pow_pos_nonneg; lia.
  - replace k with (- (- k))%Z by lia. rewrite Qpower_opp. apply Qinv_lt_0_compat.
    rewrite t2_Z by lia. change 0 with (inject_Z 0). rewrite <- Zlt_Qlt. apply Z.pow_pos_nonneg; lia.
Qed.
Lemma t10_add a b : t10 (a + b) == t10 a * t10 b. Proof. apply Qpower_plus. apply t10_nz. Qed.
Lemma t2_add a b : t2 (a + b) == t2 a * t2 b. Proof. apply Qpower_plus. apply t2_nz. Qed.
Lemma t10_le a b : (a <= b)%Z -> t10 a <= t10 b.
Proof.
  intro H. replace b with (a + (b - a))%Z by lia. rewrite t10_add.
  assert (1 <= t10 (b - a)).
  { rewrite t10_Z by lia. change 1 with (inject_Z 1). rewrite <- Zle_Qle. pose proof (pow10_pos (b - a)). lia. }
  pose proof (t10_pos a). nra.
Qed.
Lemma t2_le a b : (a <= b)%Z -> t2 a <= t2 b.
Proof.
  intro H. replace b with (a + (b - a))%Z by lia. rewrite t2_add.
  assert (1 <= t2 (b - a)).
  { rewrite t2_Z by lia. change 1 with (inject_Z 1). rewrite <- Zle_Qle. assert (0 < 2 ^ (b - a))%Z by (apply Z.pow_pos_nonneg; lia). lia. }
  pose proof (t2_pos a). nra.
Qed.
Lemma t10_lt_inv a b : t10 a < t10 b -> (a < b)%Z.
Proof. intro H. destruct (Z_lt_ge_dec a b); auto. exfalso. pose proof (t10_le b a ltac:(lia)). lra. Qed.

(** ** Logarithms *)
Local Open Scope Z_scope.
Lemma ilog10_aux_ok : forall f n, 1 <= n < 2 ^ Z.of_nat f -> 0 <= ilog10_aux f n /\ 10 ^ ilog10_aux f n <= n < 10 ^ (ilog10_aux f n + 1).
Proof.
  induction f as [|f IH]; intros n Hn.
  - cbn in Hn. lia.
  - cbn [ilog10_aux]. destruct (Z.ltb_spec n 10) as [H|H].
    + cbn. lia.
    + assert (Hq : 1 <= n / 10 < 2 ^ Z.of_nat f).
      { rewrite Nat2Z.inj_succ, Z.pow_succ_r in Hn by lia.
        split. apply Z.div_le_lower_bound; lia. apply Z.div_lt_upper_bound; lia. }
      destruct (IH _ Hq) as (H0 & H1 & H2). split. lia.
      set (k := ilog10_aux f (n / 10)) in *.
      replace (1 + k) with (Z.succ k) by lia. rewrite Z.pow_succ_r by lia.
      replace (Z.succ k + 1) with (Z.succ (k + 1)) by lia. rewrite Z.pow_succ_r by lia.
      pose proof (Z.div_mod n 10 ltac:(lia)). pose proof (Z.mod_pos_bound n 10 ltac:(lia)). lia.
Qed.
Lemma ilog10_ok n : 1 <= n -> 0 <= ilog10 n /\ 10 ^ ilog10 n <= n < 10 ^ (ilog10 n + 1).
Proof.
  intro H. apply ilog10_aux_ok. split. assumption. rewrite Nat2Z.inj_succ, Z2Nat.id by apply Z.log2_nonneg.
  apply Z.log2_spec. lia.
Qed.

Lemma exp10_ok a b : 0 < a -> 0 < b ->
  (t10 (exp10 a b) * inject_Z b <= inject_Z a /\ inject_Z a < t10 (exp10 a b + 1) * inject_Z b)%Q.
Proof.
  intros Ha Hb. unfold exp10. destruct (Z.leb_spec b a) as [H|H].
  - assert (H1 : 1 <= a / b) by (apply Z.div_le_lower_bound; lia).
    destruct (ilog10_ok _ H1) as (K0 & K1 & K2). set (k := ilog10 (a / b)) in *.
    rewrite !t10_Z by lia. rewrite <- !inject_Z_mult, <- Zle_Qle, <- Zlt_Qlt.
    pose proof (Z.div_mod a b ltac:(lia)). pose proof (Z.mod_pos_bound a b ltac:(lia)). nia.
  - set (c := (b + a - 1) / a).
    assert (Hc : b <= c * a /\ (c - 1) * a < b).
    { unfold c. pose proof (Z.div_mod (b + a - 1) a ltac:(lia)). pose proof (Z.mod_pos_bound (b + a - 1) a ltac:(lia)). nia. }
    assert (H1 : 1 <= c - 1) by nia.
    destruct (ilog10_ok _ H1) as (K0 & K1 & K2). set (k := ilog10 (c - 1)) in *.
    replace (- (k + 1) + 1) with (- k) by lia.
    rewrite !Qpower_opp. rewrite !t10_Z by lia.
    assert (P1 : (0 < inject_Z (10 ^ (k + 1)))%Q) by (change 0%Q with (inject_Z 0); rewrite <- Zlt_Qlt; apply pow10_pos; lia).
    assert (P2 : (0 < inject_Z (10 ^ k))%Q) by (change 0%Q with (inject_Z 0); rewrite <- Zlt_Qlt; apply pow10_pos; lia).
    split.
    + apply (Qmult_le_l _ _ (inject_Z (10 ^ (k + 1)))). assumption.
      rewrite Qmult_assoc, Qmult_inv_r, Qmult_1_l by lra.
      rewrite <- inject_Z_mult, <- Zle_Qle. nia.
    + apply (Qmult_lt_l _ _ (inject_Z (10 ^ k))). assumption.
      rewrite Qmult_assoc, Qmult_inv_r, Qmult_1_l by lra.
      rewrite <- inject_Z_mult, <- Zlt_Qlt. nia.
Qed.

(** ** Rounding to an integer *)
Lemma rhe_near a b : 0 < b -> 2 * Z.abs (a - b * rhe a b) <= b.
Proof.
  intro Hb. unfold rhe. pose proof (Z.div_mod a b ltac:(lia)). pose proof (Z.mod_pos_bound a b ltac:(lia)).
  destruct (Z.compare_spec (2 * (a mod b)) b); [destruct (Z.even (a / b))| |]; try rewrite Z.mul_add_distr_l; lia.
Qed.
Lemma rhe_exact a b J : 0 < b -> 2 * Z.abs (a - b * J) < b -> rhe a b = J.
Proof. intros Hb H. pose proof (rhe_near a b Hb). assert (Z.abs (b * (rhe a b - J)) < b) by (rewrite Z.mul_sub_distr_l; lia). nia. Qed.

(** ** Digits *)
Definition dig (z : Z) : Prop := 0 <= z <= 9.
Lemma digs_length : forall n d, List.length (digs n d) = n.
Proof. induction n; intro d; cbn [digs]; auto. rewrite app_length, IHn. cbn. lia. Qed.
Lemma digs_dig : forall n d, Forall dig (digs n d).
Proof.
  induction n; intro d; cbn [digs]; auto. apply Forall_app; split; auto. constructor; auto.
  unfold dig. pose proof (Z.mod_pos_bound d 10 ltac:(lia)). lia.
Qed.
Lemma valueOf_app l r : valueOf (l ++ r) = valueOf l * 10 ^ Z.of_nat (List.length r) + valueOf r.
Proof.
  unfold valueOf. rewrite fold_left_app. generalize (fold_left (fun a z => 10 * a + z) l 0) as a.
  induction r as [|z r IH]; intro a; cbn [fold_left List.length].
  - change (Z.of_nat 0) with 0. change (10 ^ 0) with 1. lia.
  - rewrite IH. rewrite (IH (10 * 0 + z)). rewrite Nat2Z.inj_succ, Z.pow_succ_r by lia. lia.
Qed.
Lemma valueOf_one z : valueOf [z] = z. Proof. unfold valueOf. cbn [fold_left]. lia. Qed.
Lemma digs_value : forall n d, 0 <= d < 10 ^ Z.of_nat n -> valueOf (digs n d) = d.
Proof.
  induction n; intros d H; cbn [digs].
  - cbn in H. cbn. lia.
  - rewrite Nat2Z.inj_succ, Z.pow_succ_r in H by lia.
    rewrite valueOf_app, valueOf_one, IHn.
    + cbn [List.length]. change (10 ^ Z.of_nat 1) with 10. pose proof (Z.div_mod d 10 ltac:(lia)). lia.
    + split. apply Z.div_pos; lia. apply Z.div_lt_upper_bound; lia.
Qed.
Lemma valueOf_zeros k : valueOf (repeat 0 k) = 0.
Proof. unfold valueOf. induction k; cbn [repeat fold_left]; auto. Qed.
Lemma valueOf_nonneg l : Forall dig l -> 0 <= valueOf l < 10 ^ Z.of_nat (List.length l).
Proof.
  induction l as [|z l IH] using rev_ind; intro H.
  - cbn. lia.
  - apply Forall_app in H as [H1 H2]. inversion H2; subst. specialize (IH H1). unfold dig in *.
    rewrite valueOf_app, valueOf_one, app_length. cbn [List.length]. rewrite Nat2Z.inj_add.
    change (Z.of_nat 1) with 1. rewrite Z.pow_add_r by lia. change (10 ^ 1) with 10. lia.
Qed.
Lemma dropz_split : forall l, exists k, l = repeat 0 k ++ dropz l.
Proof.
  induction l as [|z l [k IH]]. exists O. auto.
  destruct z; [|exists O; auto..]. exists (S k). cbn. f_equal. assumption.
Qed.
Lemma strip0_split l : exists k, l = strip0 l ++ repeat 0 k.
Proof.
  destruct (dropz_split (rev l)) as [k H]. exists k. unfold strip0.
  rewrite <- (rev_involutive l) at 1. rewrite H at 1. rewrite rev_app_distr. f_equal.
  clear. induction k; cbn; auto. rewrite IHk. clear. induction k; cbn; auto. f_equal. assumption.
Qed.

(** ** Reading what is written *)
Lemma digitVal_dchar z : dig z -> digitVal (dchar z) = Some z.
Proof.
  unfold dig. intro H. assert (z = 0 \/ z = 1 \/ z = 2 \/ z = 3 \/ z = 4 \/ z = 5 \/ z = 6 \/ z = 7 \/ z = 8 \/ z = 9) as C by lia.
  repeat (destruct C as [-> | C]; [reflexivity|]). subst. reflexivity.
Qed.
Definition noDigit (t : text) : Prop := match t with c :: _ => digitVal c = None | [] => True end.
Lemma span_digits l t : Forall dig l -> noDigit t -> spanDigits (map dchar l ++ t) = (l, t).
Proof.
  intros Hl Ht. induction Hl as [|z l Hz _ IH].
  - cbn [map app]. destruct t; cbn [spanDigits]; auto. cbn in Ht. rewrite Ht. reflexivity.
  - cbn [map app spanDigits]. rewrite digitVal_dchar by assumption. rewrite IH. reflexivity.
Qed.
Lemma dchar_ne z c : dig z -> digitVal c = None -> Ascii.eqb c (dchar z) = false.
Proof. intros Hz Hc. destruct (Ascii.eqb_spec c (dchar z)); auto. subst. rewrite digitVal_dchar in Hc by assumption. discriminate. Qed.
Lemma has_digits c l : Forall dig l -> digitVal c = None -> has c (map dchar l) = false.
Proof. intros Hl Hc. induction Hl; cbn; auto. rewrite dchar_ne by assumption. assumption. Qed.
Lemma has_app c a b : has c (a ++ b) = has c a || has c b. Proof. apply existsb_app. Qed.

(** the parts of a written number: digits before the point, digits after it, exponent *)
Record parts := mkParts { p_ip : list Z; p_fp : list Z; p_ex : option Z }.
Definition partsText (q : parts) : text :=
  pointed "." (p_ip q) (p_fp q) ++ match p_ex q with Some X => "e"%char :: expText X | None => [] end.
Definition genParts (p d X : Z) : parts :=
  let ds := digs (Z.to_nat p) d in
  if (-4 <=? X) && (X <? p) then
    if 0 <=? X then mkParts (firstn (Z.to_nat (X + 1)) ds) (strip0 (skipn (Z.to_nat (X + 1)) ds)) None
    else mkParts [0] (strip0 (repeat 0 (Z.to_nat (- X - 1)) ++ ds)) None
  else mkParts (firstn 1 ds) (strip0 (skipn 1 ds)) (Some X).
Lemma genText_parts p d X : genText "." p d X = partsText (genParts p d X).
Proof.
  unfold genText, genParts, partsText. destruct ((-4 <=? X) && (X <? p)); [destruct (0 <=? X)|]; cbn [p_ip p_fp p_ex];
    rewrite ?app_nil_r; reflexivity.
Qed.
Definition partsInt (q : parts) : bool := match p_fp q, p_ex q with [], None => true | _, _ => false end.
Definition partsEx (q : parts) : Z := match p_ex q with Some X => X | None => 0 end - Z.of_nat (List.length (p_fp q)).
Record goodParts (q : parts) : Prop := {
  gp_ip : Forall dig (p_ip q); gp_fp : Forall dig (p_fp q); gp_ne : p_ip q <> [];
  gp_oct : forall r, p_ip q = 0 :: r -> r = [] }.

Lemma expText_read X : exists xs, Forall dig xs /\ xs <> [] /\ valueOf xs = Z.abs X /\
  expText X = (if X <? 0 then "-"%char else "+"%char) :: map dchar xs.
Proof.
  unfold expText. eexists. repeat split.
  - apply digs_dig.
  - intro E. apply (f_equal (@List.length Z)) in E. rewrite digs_length in E. cbn [List.length] in E. lia.
  - apply digs_value. set (a := Z.max 1 (Z.abs X)). destruct (ilog10_ok a ltac:(lia)) as (K0 & K1 & K2).
    rewrite Z2Nat.id by lia. split. lia.
    assert (10 ^ (ilog10 a + 1) <= 10 ^ Z.max 2 (ilog10 a + 1)) by (apply Z.pow_le_mono_r; lia). lia.
Qed.

Lemma readConst_parts q (dot : bool) : goodParts q -> (dot = true -> partsInt q = true) ->
  readConst (partsText q ++ if dot then T "." else []) =
    Some (mkConst (partsInt q && negb dot) (valueOf (p_ip q ++ p_fp q)) (partsEx q)).
Proof.
  intros [Hi Hf Hn Ho] Hd. destruct q as [ip fp ex]. cbn [p_ip p_fp] in *. unfold partsText, partsInt, partsEx, pointed in *.
  cbn [p_ip p_fp p_ex] in *. unfold readConst.
  destruct fp as [|f fp].
  - (* no digits after the point *)
    rewrite app_nil_r. destruct ex as [X|].
    + destruct dot; [discriminate (Hd eq_refl)|]. rewrite app_nil_r.
      rewrite span_digits by (auto; reflexivity). change (Ascii.eqb "e" ".") with false. cbv iota.
      rewrite app_nil_r. destruct ip as [|z ip]; [congruence|]. cbn [app]. change (Ascii.eqb "e" "e") with true. cbv iota.
      destruct (expText_read X) as (xs & Hx & Hx0 & Hv & ->). unfold signOf.
      assert (Hs : spanDigits (map dchar xs) = (xs, [])) by (rewrite <- (app_nil_r (map dchar xs)); apply span_digits; cbn; auto).
      destruct (Z.ltb_spec X 0); cbn [Ascii.eqb Bool.eqb]; cbv iota; cbn [andb];
        rewrite Hs; (destruct xs; [congruence|]); cbv beta iota zeta; rewrite Hv; cbn [List.length Z.of_nat]; cbn [andb]; do 2 f_equal; lia.
    + rewrite app_nil_r. destruct dot.
      * rewrite span_digits by (auto; reflexivity). change (Ascii.eqb "." ".") with true. cbn [T list_ascii_of_string spanDigits]. cbv iota.
        rewrite app_nil_r. destruct ip as [|z ip]; [congruence|]. change (Ascii.eqb "." ".") with true. cbv beta iota. rewrite app_nil_r. reflexivity.
      * rewrite span_digits by (auto; reflexivity). rewrite app_nil_r.
        destruct ip as [|z ip]; [congruence|].
        destruct z; cbn [andb negb]; try (cbn; reflexivity). destruct ip; [reflexivity|]. specialize (Ho _ eq_refl). discriminate.
  - assert (dot = false) as -> by (destruct dot; auto; discriminate (Hd eq_refl)). rewrite app_nil_r.
    rewrite <- app_assoc. rewrite span_digits; [|assumption|reflexivity].
    cbn [app]. change (Ascii.eqb "." ".") with true. cbv iota. 
    assert (Hne : exists z r, ip ++ f :: fp = z :: r) by (destruct ip; cbn; eauto).
    destruct ex as [X|].
    + change (map dchar (f :: fp) ++ "e"%char :: expText X) with (map dchar (f :: fp) ++ ("e"%char :: expText X)).
      rewrite span_digits by (auto; reflexivity).
      destruct Hne as (z & r & E). rewrite E. rewrite <- E. change (Ascii.eqb "e" "e") with true. cbv iota.
      destruct (expText_read X) as (xs & Hx & Hx0 & Hv & ->). unfold signOf.
      assert (Hs : spanDigits (map dchar xs) = (xs, [])) by (rewrite <- (app_nil_r (map dchar xs)); apply span_digits; cbn; auto).
      destruct (Z.ltb_spec X 0); cbn [Ascii.eqb Bool.eqb]; cbv iota; cbn [andb];
        rewrite Hs; (destruct xs; [congruence|]); cbv beta iota zeta; rewrite Hv; cbn [andb]; do 2 f_equal; lia.
    + rewrite span_digits by (auto; reflexivity).
      destruct Hne as (z & r & E). rewrite E. rewrite <- E. cbn [andb]. do 2 f_equal; lia.
Qed.

Lemma dec_shift n k j : 0 <= j -> (dec (n * 10 ^ j) k == dec n (k + j))%Q.
Proof.
  intro H. unfold dec. rewrite inject_Z_mult, (t10_add k j), (t10_Z j) by assumption. ring.
Qed.

Lemma digs_head p d r : 1 <= p -> 10 ^ (p - 1) <= d < 10 ^ p -> digs (Z.to_nat p) d <> 0 :: r.
Proof.
  intros Hp Hd E. assert (V := digs_value (Z.to_nat p) d). rewrite Z2Nat.id in V by lia. specialize (V ltac:(pose proof (pow10_pos (p - 1)); lia)).
  assert (L := digs_length (Z.to_nat p) d). assert (F := digs_dig (Z.to_nat p) d).
  rewrite E in V, L, F. cbn [List.length] in L. inversion F as [|? ? F1 F2].
  change (0 :: r) with ([0] ++ r) in V. rewrite valueOf_app, valueOf_one in V.
  assert (B := valueOf_nonneg r F2). replace (Z.of_nat (List.length r)) with (p - 1) in B by lia. lia.
Qed.

Lemma genParts_ok p d X : 1 <= p -> 10 ^ (p - 1) <= d < 10 ^ p ->
  goodParts (genParts p d X) /\
  (dec (valueOf (p_ip (genParts p d X) ++ p_fp (genParts p d X))) (partsEx (genParts p d X)) == dec d (X - p + 1))%Q.
Proof.
  intros Hp Hd.
  assert (P0 := pow10_pos (p - 1)).
  assert (V := digs_value (Z.to_nat p) d). rewrite Z2Nat.id in V by lia. specialize (V ltac:(lia)).
  assert (L := digs_length (Z.to_nat p) d). assert (F := digs_dig (Z.to_nat p) d).
  assert (Hh := fun r => digs_head p d r Hp Hd).
  unfold genParts. remember (digs (Z.to_nat p) d) as ds eqn:Eds. clear Eds.
  (* digits split at position j, trailing zeros removed *)
  assert (G : forall j, (1 <= j)%nat ->
    let q0 := strip0 (skipn j ds) in
    Forall dig (firstn j ds) /\ Forall dig q0 /\ firstn j ds <> [] /\ (forall r, firstn j ds = 0 :: r -> r = []) /\
    (forall e, (j <= Z.to_nat p)%nat -> dec (valueOf (firstn j ds ++ q0)) (e - Z.of_nat (List.length q0)) == dec d (e - (p - Z.of_nat j)))%Q).
  { intros j Hj q0. destruct (strip0_split (skipn j ds)) as [k Hk]. fold q0 in Hk.
    assert (Fs : Forall dig (firstn j ds ++ skipn j ds)) by (rewrite firstn_skipn; assumption).
    apply Forall_app in Fs as [F1 F2]. rewrite Hk in F2. apply Forall_app in F2 as [F2 _].
    split; [assumption|]. split; [assumption|]. split; [|split].
    - intro E. apply (f_equal (@List.length Z)) in E. rewrite firstn_length, L in E. cbn in E. lia.
    - intros r E. exfalso. destruct ds as [|z ds']. cbn in L. lia. destruct j; [lia|]. cbn [firstn] in E. inversion E; subst. eapply Hh. reflexivity.
    - intros e Hjp. assert (E : valueOf (firstn j ds ++ q0) * 10 ^ Z.of_nat k = d).
      { rewrite <- V. rewrite <- (firstn_skipn j ds) at 2. rewrite Hk, app_assoc, (valueOf_app _ (repeat 0 k)), valueOf_zeros, repeat_length. lia. }
      assert (Ll : (List.length q0 + k = Z.to_nat p - j)%nat).
      { apply (f_equal (@List.length Z)) in Hk. rewrite skipn_length, app_length, repeat_length, L in Hk. lia. }
      rewrite <- E. rewrite dec_shift by lia. replace (e - (p - Z.of_nat j) + Z.of_nat k) with (e - Z.of_nat (List.length q0)) by lia. reflexivity. }
  destruct (Z.leb_spec (-4) X) as [HX|HX]; [destruct (Z.ltb_spec X p) as [HX2|HX2]|]; cbn [andb].
  - destruct (Z.leb_spec 0 X) as [HX0|HX0].
    + destruct (G (Z.to_nat (X + 1)) ltac:(lia)) as (G1 & G2 & G3 & G4 & G5). split. constructor; assumption.
      unfold partsEx. cbn [p_ip p_fp p_ex]. rewrite G5 by lia. replace (0 - (p - Z.of_nat (Z.to_nat (X + 1)))) with (X - p + 1) by lia. reflexivity.
    + destruct (strip0_split (repeat 0 (Z.to_nat (- X - 1)) ++ ds)) as [k Hk]. set (q0 := strip0 _) in *.
      assert (F2 : Forall dig (repeat 0 (Z.to_nat (- X - 1)) ++ ds)).
      { apply Forall_app; split; auto. apply Forall_forall. intros x Hx. apply repeat_spec in Hx. subst. unfold dig. lia. }
      assert (F3 := F2). rewrite Hk in F3. apply Forall_app in F3 as [F3 _]. split.
      * constructor; cbn [p_ip p_fp]; auto. constructor; auto. unfold dig. lia. discriminate. intros r E. inversion E. reflexivity.
      * unfold partsEx. cbn [p_ip p_fp p_ex].
        assert (E : valueOf ([0] ++ q0) * 10 ^ Z.of_nat k = d).
        { rewrite (valueOf_app [0]), valueOf_one. replace (0 * 10 ^ Z.of_nat (List.length q0) + valueOf q0) with (valueOf q0) by lia.
          apply (f_equal valueOf) in Hk. rewrite !valueOf_app, !valueOf_zeros, repeat_length in Hk. lia. }
        assert (Ll : (List.length q0 + k = Z.to_nat (- X - 1) + Z.to_nat p)%nat).
        { apply (f_equal (@List.length Z)) in Hk. rewrite !app_length, !repeat_length, L in Hk. lia. }
        rewrite <- E. rewrite dec_shift by lia. replace (X - p + 1 + Z.of_nat k) with (0 - Z.of_nat (List.length q0)) by lia. reflexivity.
  - destruct (G 1%nat ltac:(lia)) as (G1 & G2 & G3 & G4 & G5). split. constructor; assumption.
    unfold partsEx. cbn [p_ip p_fp p_ex]. rewrite G5 by lia. replace (X - (p - Z.of_nat 1)) with (X - p + 1) by lia. reflexivity.
  - destruct (G 1%nat ltac:(lia)) as (G1 & G2 & G3 & G4 & G5). split. constructor; assumption.
    unfold partsEx. cbn [p_ip p_fp p_ex]. rewrite G5 by lia. replace (X - (p - Z.of_nat 1)) with (X - p + 1) by lia. reflexivity.
Qed.

(** whether the text has a point or an 'e' *)
Lemma parts_has q : goodParts q -> negb (has "." (partsText q)) && negb (has "e" (partsText q)) = partsInt q.
Proof.
  intros [Hi Hf _ _]. destruct q as [ip fp ex]. unfold partsText, partsInt, pointed. cbn [p_ip p_fp p_ex] in *.
  rewrite !has_app. rewrite !(has_digits _ ip) by (auto; reflexivity).
  destruct fp as [|f fp]; [|reflexivity]. destruct ex as [X|]; [|reflexivity].
  change (has "e" ("e"%char :: expText X)) with true. rewrite !orb_false_l. cbn [has existsb orb negb]. rewrite andb_false_r. reflexivity.
Qed.

(** ** The digits of a double *)
Definition val (m e : Z) : Q := bin m e.
Lemma numer_pos m e : 0 < m -> 0 < numer m e.
Proof. intro. unfold numer. apply Z.mul_pos_pos; auto. apply Z.pow_pos_nonneg; lia. Qed.
Lemma denom_pos e : 0 < denom e.
Proof. unfold denom. apply Z.pow_pos_nonneg; lia. Qed.
Local Open Scope Q_scope.
Lemma numer_denom m e : inject_Z (numer m e) == bin m e * inject_Z (denom e).
Proof.
  unfold numer, denom, bin. rewrite inject_Z_mult, <- !t2_Z by lia.
  rewrite <- Qmult_assoc, <- t2_add. replace (e + Z.max (- e) 0)%Z with (Z.max e 0) by lia. reflexivity.
Qed.
Lemma injpos z : (0 < z)%Z -> 0 < inject_Z z.
Proof. intro. change 0 with (inject_Z 0). rewrite <- Zlt_Qlt. assumption. Qed.
Lemma bin_pos m e : (0 < m)%Z -> 0 < bin m e.
Proof. intro. unfold bin. pose proof (t2_pos e). pose proof (injpos m H). nra. Qed.

Lemma exp10_bin m e : (0 < m)%Z ->
  let X := exp10 (numer m e) (denom e) in t10 X <= bin m e /\ bin m e < t10 (X + 1).
Proof.
  intros Hm X. destruct (exp10_ok (numer m e) (denom e) (numer_pos _ _ Hm) (denom_pos e)) as [H1 H2]. fold X in H1, H2.
  rewrite numer_denom in H1, H2. assert (P := injpos _ (denom_pos e)).
  split.
  - apply (Qmult_le_r _ _ (inject_Z (denom e))); assumption.
  - apply (Qmult_lt_r _ _ (inject_Z (denom e))); assumption.
Qed.

Lemma Qabs_lt a b : - b < a -> a < b -> Qabs a < b.
Proof. intros. apply Qabs_case; lra. Qed.
Lemma Qabs_2 a b : - b <= 2 * a -> 2 * a <= b -> 2 * Qabs a <= b.
Proof. intros. apply Qabs_case; lra. Qed.

(** the scaled quotient handed to rhe *)
Lemma scaled m e s :
  let a := (numer m e * 10 ^ Z.max s 0)%Z in let b := (denom e * 10 ^ Z.max (- s) 0)%Z in
  (0 < b)%Z /\ inject_Z a == bin m e * t10 s * inject_Z b.
Proof.
  intros a b. split.
  - apply Z.mul_pos_pos. apply denom_pos. apply pow10_pos. lia.
  - unfold a, b. rewrite !inject_Z_mult, numer_denom, <- !t10_Z by lia.
    replace (Z.max s 0) with (s + Z.max (- s) 0)%Z by lia. rewrite t10_add. ring.
Qed.

Lemma sig10_ok p m e : (0 < m)%Z -> (1 <= p)%Z ->
  let X := exp10 (numer m e) (denom e) in
  let '(d, X') := sig10 p (numer m e) (denom e) in
  (10 ^ (p - 1) <= d < 10 ^ p)%Z /\
  2 * Qabs (dec d (X' - p + 1) - bin m e) <= t10 (X - p + 1).
Proof.
  intros Hm Hp X. unfold sig10. fold X.
  destruct (scaled m e (p - 1 - X)) as [Hb Ha].
  set (a := (numer m e * _)%Z) in *. set (b := (denom e * _)%Z) in *.
  assert (N := rhe_near a b Hb). set (d := rhe a b) in *.
  destruct (exp10_bin m e Hm) as [H1 H2]. fold X in H1, H2.
  (* the distance, in units of the last digit *)
  assert (D : 2 * Qabs (inject_Z d - bin m e * t10 (p - 1 - X)) <= 1).
  { assert (Hz : (2 * (a - b * d) <= b /\ - b <= 2 * (a - b * d))%Z) by lia.
    destruct Hz as [Z1 Z2]. rewrite Zle_Qle in Z1, Z2.
    assert (Eq : inject_Z (2 * (a - b * d)) == 2 * (bin m e * t10 (p - 1 - X) * inject_Z b - inject_Z b * inject_Z d)).
    { rewrite inject_Z_mult. unfold Z.sub. rewrite inject_Z_plus, inject_Z_opp, inject_Z_mult, Ha. reflexivity. }
    rewrite Eq in Z1, Z2. rewrite inject_Z_opp in Z2.
    assert (P := injpos _ Hb). set (B := inject_Z b) in *. set (r := bin m e * t10 (p - 1 - X)) in *. set (dd := inject_Z d) in *.
    change (inject_Z 2) with 2 in *. apply Qabs_2.
    - assert (2 * (dd - r) * B >= - (1) * B) by lra. apply (Qmult_le_r _ _ B P). lra.
    - apply (Qmult_le_r _ _ B P). lra. }
  assert (S : t10 (p - 1 - X) * t10 (X - p + 1) == 1).
  { rewrite <- t10_add. replace (p - 1 - X + (X - p + 1))%Z with 0%Z by lia. reflexivity. }
  assert (Pu := t10_pos (X - p + 1)).
  assert (D2 : 2 * Qabs (dec d (X - p + 1) - bin m e) <= t10 (X - p + 1)).
  { unfold dec. set (u := t10 (X - p + 1)) in *. set (w := t10 (p - 1 - X)) in *. set (dd := inject_Z d) in *. set (x := bin m e) in *.
    assert (E : dd * u - x == (dd - x * w) * u).
    { transitivity (dd * u - x * (w * u)). rewrite S. ring. ring. }
    rewrite E, Qabs_Qmult, (Qabs_pos u) by lra. rewrite Qmult_assoc. nra. }
  (* bounds of the digits *)
  assert (R1 : t10 (p - 1) <= bin m e * t10 (p - 1 - X)).
  { replace (p - 1)%Z with (X + (p - 1 - X))%Z at 1 by lia. rewrite t10_add. pose proof (t10_pos (p - 1 - X)). nra. }
  assert (R2 : bin m e * t10 (p - 1 - X) < t10 p).
  { replace p with (X + 1 + (p - 1 - X))%Z at 2 by lia. rewrite (t10_add (X + 1)). pose proof (t10_pos (p - 1 - X)). nra. }
  rewrite (t10_Z (p - 1)) in R1 by lia. rewrite (t10_Z p) in R2 by lia.
  assert (Dd : - 1 <= 2 * (inject_Z d - bin m e * t10 (p - 1 - X)) /\ 2 * (inject_Z d - bin m e * t10 (p - 1 - X)) <= 1).
  { revert D. apply Qabs_case; intros; lra. }
  assert (Z1 : (10 ^ (p - 1) <= d)%Z).
  { assert (H : (2 * 10 ^ (p - 1) - 1 <= 2 * d)%Z).
    { rewrite Zle_Qle. replace (2 * 10 ^ (p - 1) - 1)%Z with (2 * 10 ^ (p - 1) + -1)%Z by lia. rewrite inject_Z_plus, !inject_Z_mult. change (inject_Z 2) with 2. change (inject_Z (-1)) with (-1). lra. }
    lia. }
  assert (Z2 : (d <= 10 ^ p)%Z).
  { assert (H : (2 * d < 2 * 10 ^ p + 2)%Z).
    { rewrite Zlt_Qlt. rewrite inject_Z_plus, !inject_Z_mult. change (inject_Z 2) with 2. lra. }
    lia. }
  destruct (Z.eqb_spec d (10 ^ p)) as [Ed|Ed].
  - split.
    + split. lia. apply Z.pow_lt_mono_r; lia.
    + assert (E : dec (10 ^ (p - 1)) (X + 1 - p + 1) == dec d (X - p + 1)).
      { rewrite Ed. replace (10 ^ p)%Z with (10 ^ (p - 1) * 10 ^ 1)%Z by (rewrite <- Z.pow_add_r by lia; f_equal; lia).
        rewrite dec_shift by lia. replace (X - p + 1 + 1)%Z with (X + 1 - p + 1)%Z by lia. reflexivity. }
      rewrite E. assumption.
  - split. lia. assumption.
Qed.

(** a number with p digits that is near enough is the number that is written *)
Lemma sig10_exact p m e n k : (0 < m)%Z -> (1 <= p)%Z ->
  let X := exp10 (numer m e) (denom e) in
  (X - p + 1 <= k)%Z -> 2 * Qabs (dec n k - bin m e) < t10 (X - p + 1) ->
  let '(d, X') := sig10 p (numer m e) (denom e) in dec d (X' - p + 1) == dec n k.
Proof.
  intros Hm Hp X Hk Hn. unfold sig10. fold X.
  destruct (scaled m e (p - 1 - X)) as [Hb Ha].
  set (a := (numer m e * _)%Z) in *. set (b := (denom e * _)%Z) in *.
  set (J := (n * 10 ^ (k - (X - p + 1)))%Z).
  assert (EJ : dec n k == dec J (X - p + 1)).
  { unfold J. rewrite dec_shift by lia. replace (X - p + 1 + (k - (X - p + 1)))%Z with k by lia. reflexivity. }
  assert (S : t10 (p - 1 - X) * t10 (X - p + 1) == 1).
  { rewrite <- t10_add. replace (p - 1 - X + (X - p + 1))%Z with 0%Z by lia. reflexivity. }
  assert (Pu := t10_pos (X - p + 1)). assert (Pw := t10_pos (p - 1 - X)).
  assert (D : rhe a b = J).
  { apply rhe_exact. assumption.
    assert (P := injpos _ Hb).
    rewrite EJ in Hn. unfold dec in Hn.
    set (u := t10 (X - p + 1)) in *. set (w := t10 (p - 1 - X)) in *. set (jj := inject_Z J) in *. set (x := bin m e) in *.
    assert (E : jj * u - x == (jj - x * w) * u).
    { transitivity (jj * u - x * (w * u)). rewrite S. ring. ring. }
    rewrite E, Qabs_Qmult, (Qabs_pos u) in Hn by lra.
    assert (H1 : 2 * Qabs (jj - x * w) < 1) by nra.
    assert (H2 : - 1 < 2 * (jj - x * w) /\ 2 * (jj - x * w) < 1) by (revert H1; apply Qabs_case; intros; lra).
    destruct H2 as [H2 H3].
    assert (Zz : (2 * (a - b * J) < b /\ - b < 2 * (a - b * J))%Z).
    { assert (Eq : inject_Z (2 * (a - b * J)) == 2 * (x * w * inject_Z b - inject_Z b * jj)).
      { rewrite inject_Z_mult. unfold Z.sub. rewrite inject_Z_plus, inject_Z_opp, inject_Z_mult, Ha. reflexivity. }
      rewrite !Zlt_Qlt, Eq, inject_Z_opp.
      change (inject_Z 2) with 2. set (B := inject_Z b) in *.
      assert (- (1) * B < 2 * (jj - x * w) * B) by (apply Qmult_lt_r; assumption).
      assert (2 * (jj - x * w) * B < 1 * B) by (apply Qmult_lt_r; assumption). lra. }
    lia. }
  rewrite D. destruct (Z.eqb_spec J (10 ^ p)) as [Ed|Ed].
  - rewrite EJ, Ed. replace (10 ^ p)%Z with (10 ^ (p - 1) * 10 ^ 1)%Z by (rewrite <- Z.pow_add_r by lia; f_equal; lia).
    rewrite dec_shift by lia. replace (X - p + 1 + 1)%Z with (X + 1 - p + 1)%Z by lia. reflexivity.
  - rewrite EJ. reflexivity.
Qed.

(** ** The grid of doubles *)
Lemma digits2_size p : digits2_pos p = Pos.size p.
Proof. induction p; cbn; congruence. Qed.
Local Open Scope Z_scope.
Lemma size_bounds p : 2 ^ (Zpos (Pos.size p) - 1) <= Zpos p < 2 ^ Zpos (Pos.size p).
Proof.
  split.
  - pose proof (Pos.size_le p) as H. apply Pos2Z.pos_le_pos in H. rewrite Pos2Z.inj_pow in H.
    replace (Zpos (Pos.size p)) with (Z.succ (Zpos (Pos.size p) - 1)) in H by lia. rewrite Z.pow_succ_r in H by lia. lia.
  - pose proof (Pos.size_gt p) as H. apply Pos2Z.pos_lt_pos in H. rewrite Pos2Z.inj_pow in H. assumption.
Qed.
Lemma bounded_iff p e : bounded prec emax p e = true <->
  (2 ^ 52 <= Zpos p < 2 ^ 53 /\ -1074 <= e <= 971) \/ (Zpos p < 2 ^ 52 /\ e = -1074).
Proof.
  unfold bounded, canonical_mantissa, fexp, emin, prec, emax. rewrite digits2_size, andb_true_iff, Z.leb_le, <- Zeq_is_eq_bool.
  destruct (size_bounds p) as [H1 H2]. set (s := Zpos (Pos.size p)) in *. assert (0 < s) by (unfold s; lia).
  split.
  - intros [E L]. destruct (Z_le_gt_dec s 52) as [K|K].
    + right. assert (2 ^ s <= 2 ^ 52) by (apply Z.pow_le_mono_r; lia). lia.
    + assert (s = 53) by lia. left. replace s with 53 in * by lia. change (53 - 1) with 52 in H1. lia.
  - intros [[M E] | [M E]].
    + assert (s = 53).
      { destruct (Z_lt_ge_dec s 53). assert (2 ^ s <= 2 ^ 52) by (apply Z.pow_le_mono_r; lia). lia.
        destruct (Z_gt_le_dec s 53); [|lia]. assert (2 ^ 53 <= 2 ^ (s - 1)) by (apply Z.pow_le_mono_r; lia). lia. }
      lia.
    + assert (s <= 52).
      { destruct (Z_le_gt_dec s 52); auto. assert (2 ^ 52 <= 2 ^ (s - 1)) by (apply Z.pow_le_mono_r; lia). lia. }
      lia.
Qed.

(** a double: 0, a normal or a subnormal number *)
Definition grid (m e : Z) : Prop :=
  m = 0 \/ (2 ^ 52 <= m < 2 ^ 53 /\ -1074 <= e <= 971) \/ (0 < m < 2 ^ 52 /\ e = -1074).
Lemma isDouble_grid m e : isDouble m e <-> grid m e.
Proof.
  unfold isDouble, grid. split.
  - intros [H|(p & -> & H)]; auto. apply bounded_iff in H. lia.
  - intros [H|H]; auto. right. assert (P : 0 < m). { destruct H as [H|H]; [|lia]. assert (0 < 2 ^ 52) by reflexivity. lia. }
    destruct m; try lia. eexists; split; eauto. apply bounded_iff. lia.
Qed.

Local Open Scope Q_scope.
Lemma bin_le_m m m' e : (m <= m')%Z -> bin m e <= bin m' e.
Proof. intro H. unfold bin. pose proof (t2_pos e). rewrite Zle_Qle in H. nra. Qed.
Lemma bin_lt_m m m' e : (m < m')%Z -> bin m e < bin m' e.
Proof. intro H. unfold bin. pose proof (t2_pos e). rewrite Zlt_Qlt in H. nra. Qed.
Lemma bin_shift m e j : (0 <= j)%Z -> bin (m * 2 ^ j) e == bin m (e + j).
Proof. intro H. unfold bin. rewrite inject_Z_mult, (t2_add e j), (t2_Z j) by assumption. ring. Qed.
Lemma bin_le_e m e e' : (0 <= m)%Z -> (e <= e')%Z -> bin m e <= bin m e'.
Proof. intros H K. unfold bin. pose proof (t2_le e e' K). rewrite Zle_Qle in H. change (inject_Z 0) with 0 in H. nra. Qed.
Lemma bin_sub m m' e : bin m e - bin m' e == bin (m - m') e.
Proof. unfold bin, Z.sub. rewrite inject_Z_plus, inject_Z_opp. ring. Qed.
Lemma bin_0 e : bin 0 e == 0. Proof. unfold bin. change (inject_Z 0) with 0. ring. Qed.
Lemma bin_abs m e : Qabs (bin m e) == bin (Z.abs m) e.
Proof.
  unfold bin. rewrite Qabs_Qmult, (Qabs_pos (t2 e)) by (pose proof (t2_pos e); lra).
  destruct (Z_le_gt_dec 0 m).
  - rewrite Z.abs_eq by assumption. rewrite Qabs_pos. reflexivity. change 0 with (inject_Z 0). rewrite <- Zle_Qle. assumption.
  - rewrite Z.abs_neq by lia. rewrite Qabs_neg, inject_Z_opp. reflexivity. change 0 with (inject_Z 0). rewrite <- Zle_Qle. lia.
Qed.

(** a smaller exponent makes a smaller number *)
Lemma grid_below m e m' e' : (0 < m)%Z -> grid m e -> grid m' e' -> (e' < e)%Z -> m' <> 0%Z ->
  bin m' e' <= bin (2 ^ 53 - 1) (e - 1) /\ (2 ^ 52 <= m)%Z.
Proof.
  intros Hm G G' L N. split.
  - assert ((0 < m' <= 2 ^ 53 - 1)%Z) by (unfold grid in G'; change (2 ^ 53)%Z with (2 * 2 ^ 52)%Z in *; lia).
    apply Qle_trans with (bin (2 ^ 53 - 1) e'). apply bin_le_m. lia. apply bin_le_e; lia.
  - unfold grid in *. lia.
Qed.

(** two different doubles differ by at least 2^-53 of either *)
Lemma grid_sep m e m' e' : (0 < m)%Z -> grid m e -> grid m' e' -> ~ bin m' e' == bin m e ->
  bin m (e - 53) <= Qabs (bin m e - bin m' e').
Proof.
  intros Hm G G' N.
  assert (Hm53 : (m < 2 ^ 53)%Z) by (unfold grid in G; change (2 ^ 53)%Z with (2 * 2 ^ 52)%Z in *; lia).
  assert (Hsmall : bin m (e - 53) <= t2 e).
  { apply Qle_trans with (bin (2 ^ 53) (e - 53)). apply bin_le_m. lia.
    change (2 ^ 53)%Z with (1 * 2 ^ 53)%Z. rewrite bin_shift by lia. replace (e - 53 + 53)%Z with e by lia. unfold bin. change (inject_Z 1) with 1. lra. }
  destruct (Z.eq_dec m' 0) as [-> | Hm'].
  { rewrite bin_0. assert (E : bin m e - 0 == bin m e) by ring. rewrite E, Qabs_pos by (pose proof (bin_pos m e Hm); lra). apply bin_le_e; lia. }
  destruct (Z_lt_ge_dec e' e) as [L|L].
  - destruct (grid_below m e m' e' Hm G G' L Hm') as [H1 H2].
    assert (K : bin m (e - 53) <= bin m e - bin (2 ^ 53 - 1) (e - 1)).
    { assert (E1 : bin m e == bin (m * 2 ^ 53) (e - 53)) by (rewrite bin_shift by lia; replace (e - 53 + 53)%Z with e by lia; reflexivity).
      assert (E2 : bin (2 ^ 53 - 1) (e - 1) == bin ((2 ^ 53 - 1) * 2 ^ 52) (e - 53)) by (rewrite bin_shift by lia; replace (e - 53 + 52)%Z with (e - 1)%Z by lia; reflexivity).
      rewrite E1, E2, bin_sub. apply bin_le_m. change (2 ^ 53)%Z with (2 * 2 ^ 52)%Z. set (z := (2 ^ 52)%Z) in *. assert (1 < z)%Z by reflexivity. nia. }
    pose proof (bin_pos m (e - 53) Hm). rewrite Qabs_pos; lra.
  - assert (E : bin m' e' == bin (m' * 2 ^ (e' - e)) e) by (rewrite bin_shift by lia; replace (e + (e' - e))%Z with e' by lia; reflexivity).
    rewrite E, bin_sub, bin_abs. apply Qle_trans with (1 := Hsmall).
    assert (m - m' * 2 ^ (e' - e) <> 0)%Z.
    { intro Z0. apply N. rewrite E. replace (m' * 2 ^ (e' - e))%Z with m by lia. reflexivity. }
    apply Qle_trans with (bin 1 e). unfold bin. change (inject_Z 1) with 1. lra. apply bin_le_m. lia.
Qed.

Lemma grid_unique m e m' e' : (0 < m)%Z -> (0 < m')%Z -> grid m e -> grid m' e' -> bin m e == bin m' e' -> m = m' /\ e = e'.
Proof.
  assert (W : forall m e m' e', (0 < m)%Z -> (0 < m')%Z -> grid m e -> grid m' e' -> bin m e == bin m' e' -> (e' < e)%Z -> False).
  { clear. intros m e m' e' Hm Hm' G G' E L. destruct (grid_below m e m' e' Hm G G' L ltac:(lia)) as [H1 H2].
    assert (bin (2 ^ 53) (e - 1) <= bin m e).
    { assert (E1 : bin m e == bin (m * 2 ^ 1) (e - 1)) by (rewrite bin_shift by lia; replace (e - 1 + 1)%Z with e by lia; reflexivity).
      rewrite E1. apply bin_le_m. change (2 ^ 53)%Z with (2 * 2 ^ 52)%Z. lia. }
    assert (bin (2 ^ 53 - 1) (e - 1) < bin (2 ^ 53) (e - 1)) by (apply bin_lt_m; lia). lra. }
  intros Hm Hm' G G' E. destruct (Z.lt_trichotomy e e') as [L|[L|L]].
  - exfalso. symmetry in E. exact (W _ _ _ _ Hm' Hm G' G E L).
  - subst e'. split; auto. destruct (Z.lt_trichotomy m m') as [K|[K|K]]; auto; apply (bin_lt_m _ _ e) in K; lra.
  - exfalso. exact (W _ _ _ _ Hm Hm' G G' E L).
Qed.

Lemma grid_min m e : (0 < m)%Z -> grid m e -> bin 1 (-1074) <= bin m e.
Proof.
  intros Hm G. apply Qle_trans with (bin m (-1074)). apply bin_le_m. lia. apply bin_le_e. lia. unfold grid in G. lia.
Qed.
Lemma grid_max m e : (0 < m)%Z -> grid m e -> bin m e <= bin (2 ^ 53 - 1) 971.
Proof.
  intros Hm G. apply Qle_trans with (bin (2 ^ 53 - 1) e). apply bin_le_m. unfold grid in G. change (2 ^ 53)%Z with (2 * 2 ^ 52)%Z in *. lia.
  apply bin_le_e. change (0 <= 2 ^ 53 - 1)%Z. lia. unfold grid in G. lia.
Qed.

(** a number nearer to a double than 2^-54 of it is rounded to it, and only to it *)
Lemma round_near m e v : (0 < m)%Z -> grid m e -> 2 * Qabs (v - bin m e) < bin m (e - 53) ->
  forall y, roundsTo v y <-> y = S754_finite false (Z.to_pos m) e.
Proof.
  intros Hm G D.
  assert (Hp : Zpos (Z.to_pos m) = m) by (apply Z2Pos.id; assumption).
  assert (D' : - bin m (e - 53) < 2 * (v - bin m e) /\ 2 * (v - bin m e) < bin m (e - 53)) by (revert D; apply Qabs_case; intros; lra).
  assert (Efar : bin m e == bin m (e - 53) * inject_Z (2 ^ 53)).
  { replace e with (e - 53 + 53)%Z at 1 by lia. unfold bin. rewrite t2_add, (t2_Z 53) by lia. ring. }
  change (inject_Z (2 ^ 53)) with (9007199254740992 # 1) in Efar.
  assert (Hlim : v < bin (2 ^ 54 - 1) 970).
  { assert (H := grid_max m e Hm G).
    assert (E : bin (2 ^ 53 - 1) 971 == bin (2 ^ 54 - 2) 970) by (replace 971%Z with (970 + 1)%Z by lia; rewrite <- bin_shift by lia; reflexivity).
    assert (E2 : bin (2 ^ 54 - 1) 970 - bin (2 ^ 54 - 2) 970 == t2 970) by (rewrite bin_sub; unfold bin; change (inject_Z (2 ^ 54 - 1 - (2 ^ 54 - 2))) with 1; ring).
    assert (E3 : bin m (e - 53) <= t2 971).
    { apply Qle_trans with (bin (2 ^ 53 - 1) (971 - 53)).
      - assert (M : bin m (e - 53) * (9007199254740992 # 1) <= bin (2 ^ 53 - 1) (971 - 53) * (9007199254740992 # 1)).
        { rewrite <- Efar. apply Qle_trans with (1 := H). replace 971%Z with (971 - 53 + 53)%Z at 1 by lia.
          unfold bin. rewrite t2_add, (t2_Z 53) by lia. change (inject_Z (2 ^ 53)) with (9007199254740992 # 1). lra. }
        lra.
      - apply Qle_trans with (bin (2 ^ 53) (971 - 53)). apply bin_le_m. lia.
        change (2 ^ 53)%Z with (1 * 2 ^ 53)%Z. rewrite bin_shift by lia. replace (971 - 53 + 53)%Z with 971%Z by lia. unfold bin. change (inject_Z 1) with 1. lra. }
    assert (E4 : t2 971 == 2 * t2 970) by (replace 971%Z with (1 + 970)%Z by lia; rewrite t2_add; reflexivity).
    rewrite E4 in E3. lra. }
  assert (Hx : bin m e <= bin m e) by lra.
  intro y. split.
  - intro R. destruct y as [s| s| |s q f]; cbn [roundsTo] in R.
    + exfalso. destruct R as [_ R]. assert (H := grid_min m e Hm G).
      assert (E : bin 1 (-1074) == 2 * bin 1 (-1075)) by (unfold bin; replace (-1074)%Z with (1 + -1075)%Z by lia; rewrite t2_add; change (t2 1) with 2; ring).
      assert (0 < bin 1 (-1075)) by (apply bin_pos; lia). lra.
    + exfalso. destruct R as [_ R]. lra.
    + contradiction.
    + destruct R as (-> & R1 & _ & R2). apply isDouble_grid in R1.
      destruct (Qeq_dec (bin (Zpos q) f) (bin m e)) as [E|E].
      * destruct (grid_unique (Zpos q) f m e ltac:(lia) Hm R1 G E) as [E1 E2]. subst. cbn [Z.to_pos]. reflexivity.
      * exfalso. assert (E' : ~ bin m e == bin (Zpos q) f) by (intro; apply E; symmetry; assumption).
        specialize (R2 m e ltac:(apply isDouble_grid; assumption) E'). cbv zeta in R2.
        assert (Sep := grid_sep m e _ _ Hm G R1 E).
        assert (T := Qabs_triangle (bin m e - v) (v - bin (Zpos q) f)).
        assert (Ee : bin m e - v + (v - bin (Zpos q) f) == bin m e - bin (Zpos q) f) by ring. rewrite Ee in T.
        assert (Es : Qabs (bin m e - v) == Qabs (v - bin m e)) by (rewrite (Qabs_Qminus (bin m e) v); reflexivity). rewrite Es in T.
        destruct R2 as [R2|[R2 _]]; lra.
  - intros ->. cbn [roundsTo]. rewrite Hp. split; [reflexivity|]. split; [apply isDouble_grid; assumption|]. split; [assumption|].
    intros m' e' H1 H2. apply isDouble_grid in H1. left.
    assert (Sep := grid_sep m e _ _ Hm G H1 H2).
    assert (T := Qabs_triangle (bin m e - v) (v - bin m' e')).
    assert (Ee : bin m e - v + (v - bin m' e') == bin m e - bin m' e') by ring. rewrite Ee in T.
    assert (Es : Qabs (bin m e - v) == Qabs (v - bin m e)) by (rewrite (Qabs_Qminus (bin m e) v); reflexivity). rewrite Es in T. lra.
Qed.

(** ** writeParameter *)
Lemma eqb_one s m e : SFeqb (S754_finite s m e) dOne = true -> s = false /\ m = 4503599627370496%positive /\ e = (-52)%Z.
Proof.
  unfold SFeqb, dOne, SFcompare. destruct s; [discriminate|].
  destruct (Z.compare_spec e (-52)); try discriminate.
  destruct (Pos.compare_cont Eq m 4503599627370496) eqn:E; try discriminate. intros _. apply Pos.compare_eq in E. auto.
Qed.
Lemma eqb_mone s m e : SFeqb (S754_finite s m e) (SFopp dOne) = true -> s = true /\ m = 4503599627370496%positive /\ e = (-52)%Z.
Proof.
  unfold SFeqb, dOne, SFopp, SFcompare. cbn [negb]. destruct s; [|discriminate].
  destruct (Z.compare_spec e (-52)); try discriminate.
  destruct (Pos.compare_cont Eq m 4503599627370496) eqn:E; try discriminate. intros _. apply Pos.compare_eq in E. auto.
Qed.

Lemma partsText_head q : goodParts q -> exists c t, partsText q = c :: t /\ Ascii.eqb c "-" = false /\ Ascii.eqb "-" c = false.
Proof.
  intros [Hi _ Hn _]. destruct q as [ip fp ex]. cbn [p_ip] in *. destruct ip as [|z ip]; [congruence|].
  unfold partsText, pointed. cbn [p_ip map app]. exists (dchar z). eexists. split. reflexivity.
  inversion Hi; subst. assert (H := dchar_ne z "-" ltac:(assumption) eq_refl). split; [|assumption].
  destruct (Ascii.eqb_spec (dchar z) "-"); auto. rewrite e, Ascii.eqb_refl in H. discriminate.
Qed.

Lemma readC_signed (s : bool) t c : (exists a r, t = a :: r /\ Ascii.eqb a "-" = false) -> readConst t = Some c ->
  readC ((if s then T "-" else []) ++ t) = Some (s, c).
Proof.
  intros (a & r & -> & Ha) H. destruct s; cbn [T list_ascii_of_string app readC].
  - change (Ascii.eqb "-" "-") with true. cbv iota. rewrite H. reflexivity.
  - rewrite Ha, H. reflexivity.
Qed.

(** a text written for a finite number is a constant, equal to the written digits *)
Lemma writeC_read pr s m e :
  let '(d, X) := sig10 (sig pr) (numer (Zpos m) e) (denom e) in
  exists c, readC (writeC "." pr (S754_finite s m e)) = Some (s, c) /\
    dec (c_man c) (c_ex c) == dec d (X - sig pr + 1) /\
    (c_int c = true -> c_ex c = 0%Z /\ m = 4503599627370496%positive /\ e = (-52)%Z).
Proof.
  assert (K := sig10_ok (sig pr) (Zpos m) e ltac:(lia) ltac:(unfold sig; lia)). cbv zeta in K.
  unfold writeC, outStream. destruct (sig10 (sig pr) (numer (Zpos m) e) (denom e)) as [d X] eqn:Esig.
  destruct K as [Kd _]. rewrite genText_parts.
  destruct (genParts_ok (sig pr) d X ltac:(unfold sig; lia) Kd) as [Gq Vq]. set (q := genParts (sig pr) d X) in *.
  assert (Hh := partsText_head q Gq). destruct Hh as (c0 & t0 & Et & Hc1 & Hc2).
  assert (Hn : forall c, Ascii.eqb c "-" = false -> has c ((if s then T "-" else []) ++ partsText q) = has c (partsText q)).
  { intros c Hc. destruct s; [|reflexivity]. cbn [T list_ascii_of_string app has existsb]. rewrite Hc. reflexivity. }
  rewrite !Hn by reflexivity.
  change (SFltb (S754_zero false) (SFabs (S754_finite s m e))) with true. cbn [andb].
  rewrite parts_has by assumption.
  destruct (negb (SFeqb (S754_finite s m e) dOne) && negb (SFeqb (S754_finite s m e) (SFopp dOne))) eqn:Ec.
  - destruct (partsInt q) eqn:Ei.
    + exists (mkConst (partsInt q && negb true) (valueOf (p_ip q ++ p_fp q)) (partsEx q)). split; [|split].
      * rewrite <- app_assoc. apply readC_signed.
        { rewrite Et. cbn [app]. eauto. }
        apply (readConst_parts q true Gq). auto.
      * exact Vq.
      * cbn [c_int negb]. rewrite andb_false_r. discriminate.
    + exists (mkConst (partsInt q && negb false) (valueOf (p_ip q ++ p_fp q)) (partsEx q)). split; [|split].
      * apply readC_signed. { rewrite Et. eauto. }
        assert (R := readConst_parts q false Gq ltac:(discriminate)). rewrite app_nil_r in R. exact R.
      * exact Vq.
      * cbn [c_int]. rewrite Ei. discriminate.
  - exists (mkConst (partsInt q && negb false) (valueOf (p_ip q ++ p_fp q)) (partsEx q)). split; [|split].
    * apply readC_signed. { rewrite Et. eauto. }
      assert (R := readConst_parts q false Gq ltac:(discriminate)). rewrite app_nil_r in R. exact R.
    * exact Vq.
    * cbn [c_int c_ex]. rewrite andb_true_r. intro Hi. split.
      { unfold partsInt, partsEx in *. destruct (p_fp q); [|discriminate]. destruct (p_ex q); [discriminate|]. reflexivity. }
      apply andb_false_iff in Ec as [Ec|Ec]; apply negb_false_iff in Ec.
      -- apply eqb_one in Ec. tauto.
      -- apply eqb_mone in Ec. tauto.
Qed.

Lemma exp10_le p m e : (0 < m)%Z -> (1 <= p)%Z -> t10 (exp10 (numer m e) (denom e) - p + 1) <= bin m e * t10 (1 - p).
Proof.
  intros Hm Hp. destruct (exp10_bin m e Hm) as [H _]. replace (exp10 (numer m e) (denom e) - p + 1)%Z with (exp10 (numer m e) (denom e) + (1 - p))%Z by lia.
  rewrite t10_add. pose proof (t10_pos (1 - p)). nra.
Qed.

(** the relative error of the text *)
Lemma writeC_denotes pr s m e : exists v,
  denotes (writeC "." pr (S754_finite s m e)) (if s then - v else v) /\ 2 * Qabs (v - bin (Zpos m) e) <= bin (Zpos m) e * t10 (1 - sig pr).
Proof.
  assert (W := writeC_read pr s m e). assert (K := sig10_ok (sig pr) (Zpos m) e ltac:(lia) ltac:(unfold sig; lia)). cbv zeta in K.
  destruct (sig10 (sig pr) (numer (Zpos m) e) (denom e)) as [d X]. destruct W as (c & R & V & _). destruct K as [_ K].
  exists (dec d (X - sig pr + 1)). split.
  - unfold denotes. rewrite R. destruct s; rewrite V; reflexivity.
  - eapply Qle_trans. exact K. apply exp10_le. lia. unfold sig. lia.
Qed.

(** once the digits are near enough the text means the number *)
Lemma means_near pr s m e : bounded prec emax m e = true ->
  (let '(d, X) := sig10 (sig pr) (numer (Zpos m) e) (denom e) in
   forall y, roundsTo (dec d (X - sig pr + 1)) y <-> y = S754_finite false m e) ->
  forall z, means (writeC "." pr (S754_finite s m e)) z <-> z = S754_finite s m e.
Proof.
  intros B H z. assert (W := writeC_read pr s m e). assert (K := sig10_ok (sig pr) (Zpos m) e ltac:(lia) ltac:(unfold sig; lia)). cbv zeta in K.
  destruct (sig10 (sig pr) (numer (Zpos m) e) (denom e)) as [d X]. destruct W as (c & R & V & I). destruct K as [Kd K].
  unfold means. rewrite R. unfold gives.
  assert (P10 := pow10_pos (sig pr - 1) ltac:(unfold sig; lia)).
  assert (Hman : c_man c <> 0%Z).
  { intro E. rewrite E in V. unfold dec in V. change (inject_Z 0) with 0 in V. assert (0 < inject_Z d) by (apply injpos; lia).
    pose proof (t10_pos (X - sig pr + 1)). nra. }
  destruct (Z.eqb_spec (c_man c) 0) as [E|_]; [contradiction|].
  assert (Rt : forall y, roundsTo (dec (c_man c) (c_ex c)) y <-> y = S754_finite false m e).
  { intro y. rewrite <- H. unfold roundsTo. destruct y; rewrite ?V; try reflexivity.
    split; intros (A1 & A2 & A3 & A4); (split; [assumption|]; split; [assumption|]; split; [assumption|]);
      intros m' e' B1 B2; specialize (A4 m' e' B1 B2); cbv zeta in *; rewrite ?V in *; assumption. }
  assert (Sg : (if s then SFopp (S754_finite false m e) else S754_finite false m e) = S754_finite s m e) by (destruct s; reflexivity).
  split.
  - intros (y & Hy & Hz). apply Rt in Hy. subst y. destruct (c_int c); [destruct Hz as [_ Hz]|]; cbn [negb] in Hz; rewrite ?andb_true_r in Hz; congruence.
  - intros ->. exists (S754_finite false m e). split. apply Rt. reflexivity.
    destruct (c_int c) eqn:Ei; cbn [negb]; rewrite ?andb_true_r; [|auto]. split; [|auto].
    destruct (I eq_refl) as (E0 & -> & ->).
    (* |man - 1| <= 1/2 *)
    rewrite E0 in V. unfold dec at 1 in V. change (t10 0) with 1 in V.
    assert (L := exp10_le (sig pr) 4503599627370496 (-52) ltac:(lia) ltac:(unfold sig; lia)).
    assert (B1 : bin 4503599627370496 (-52) == 1) by reflexivity.
    rewrite <- V, B1 in K. rewrite B1 in L.
    assert (Q1 := t10_le (1 - sig pr) 0 ltac:(unfold sig; lia)). change (t10 0) with 1 in Q1.
    assert (2 * (inject_Z (c_man c) * 1 - 1) <= 1).
    { assert (A := Qle_Qabs (inject_Z (c_man c) * 1 - 1)). lra. }
    assert (c_man c < 2147483647)%Z.
    { rewrite Zlt_Qlt. change (inject_Z 2147483647) with (2147483647 # 1). lra. }
    lia.
Qed.

(** ** LaTeX and MathML *)
Lemma splitE_none t : has "e" t = false -> splitE t = None.
Proof.
  induction t as [|c t IH]; auto. cbn [has existsb splitE]. intro H. apply orb_false_iff in H as [H1 H2].
  rewrite Ascii.eqb_sym, H1. rewrite (IH H2). reflexivity.
Qed.
Lemma splitE_some a b : has "e" a = false -> splitE (a ++ "e"%char :: b) = Some (a, b).
Proof.
  induction a as [|c a IH]; cbn [app]; intro H. reflexivity. cbn [has existsb splitE] in *. apply orb_false_iff in H as [H1 H2].
  rewrite Ascii.eqb_sym, H1. rewrite (IH H2). reflexivity.
Qed.
Lemma dropZeroChars_map l : Forall dig l -> dropZeroChars (map dchar l) = map dchar (dropz l).
Proof.
  induction 1 as [|z l Hz _ IH]; auto. cbn [map dropZeroChars]. destruct z as [|z|z].
  - change (Ascii.eqb (dchar 0) "0") with true. cbv iota. rewrite IH. reflexivity.
  - assert (E : Ascii.eqb (dchar (Zpos z)) "0" = false).
    { destruct (Ascii.eqb_spec (dchar (Zpos z)) "0"); auto. assert (D := digitVal_dchar _ Hz). rewrite e in D. discriminate. }
    rewrite E. reflexivity.
  - unfold dig in Hz. lia.
Qed.
Lemma valueOf_dropz l : valueOf (dropz l) = valueOf l.
Proof. destruct (dropz_split l) as [k H]. rewrite H at 2. rewrite valueOf_app, valueOf_zeros. lia. Qed.
Lemma dropz_dig l : Forall dig l -> Forall dig (dropz l).
Proof. intro H. destruct (dropz_split l) as [k E]. rewrite E in H. apply Forall_app in H. tauto. Qed.
Lemma dropZeroCharsButLast_map l : Forall dig l -> l <> [] ->
  exists r, r <> [] /\ Forall dig r /\ valueOf r = valueOf l /\ dropZeroCharsButLast (map dchar l) = map dchar r.
Proof.
  induction 1 as [|z l Hz Hl IH]; intro N; [congruence|]. destruct l as [|y l].
  - exists [z]. repeat split; auto. 
  - cbn [map dropZeroCharsButLast]. destruct (Ascii.eqb_spec (dchar z) "0") as [E|E].
    + destruct (IH ltac:(discriminate)) as (r & R1 & R2 & R3 & R4). exists r. repeat split; auto.
      assert (D := digitVal_dchar _ Hz). rewrite E in D. injection D as D. cbn in D. subst z.
      change (0%Z :: y :: l) with ([0%Z] ++ (y :: l)). rewrite valueOf_app, valueOf_one. lia.
    + exists (z :: y :: l). repeat split; auto; discriminate.
Qed.
Lemma span_all l : Forall dig l -> spanDigits (map dchar l) = (l, []).
Proof. intro H. rewrite <- (app_nil_r (map dchar l)). apply span_digits; cbn; auto. Qed.

(** a text without blanks before " \times 10^{" *)
Lemma readTimes_none a : has " " a = false -> readTimes a = None.
Proof.
  induction a as [|c a IH]; intro H. reflexivity.
  cbn [has existsb] in H. apply orb_false_iff in H as [H1 H2]. change (T " \times 10^{") with (" "%char :: T "\times 10^{").
  cbn [readTimes]. change (after (T " \times 10^{") (c :: a)) with (if Ascii.eqb " " c then after (T "\times 10^{") a else None).
  rewrite H1. rewrite (IH H2). reflexivity.
Qed.
Lemma after_app p r : after p (p ++ r) = Some r.
Proof. induction p; cbn; auto. rewrite Ascii.eqb_refl. assumption. Qed.
Lemma readTimes_some a b : has " " a = false -> readTimes (a ++ T " \times 10^{" ++ b ++ T "}") = Some (a, b).
Proof.
  induction a as [|c a IH]; intro H.
  - cbn [app]. set (t := T " \times 10^{" ++ b ++ T "}").
    assert (E : after (T " \times 10^{") t = Some (b ++ T "}")) by apply after_app.
    destruct t eqn:Et; [discriminate|]. cbn [readTimes]. rewrite E.
    change (T "}") with ["}"%char]. rewrite rev_app_distr. cbn [rev app]. change (Ascii.eqb "}" "}") with true. cbv iota.
    rewrite rev_involutive. reflexivity.
  - cbn [has existsb] in H. apply orb_false_iff in H as [H1 H2]. cbn [app]. specialize (IH H2).
    set (t := a ++ _) in *. cbn [readTimes].
    change (after (T " \times 10^{") (c :: t)) with (if Ascii.eqb " " c then after (T "\times 10^{") t else None).
    rewrite H1, IH. reflexivity.
Qed.

Lemma pointed_has c q : goodParts q -> digitVal c = None -> Ascii.eqb c "." = false -> has c (pointed "." (p_ip q) (p_fp q)) = false.
Proof.
  intros [Hi Hf _ _] H1 H2. unfold pointed. rewrite has_app, has_digits by assumption. destruct (p_fp q) as [|f fp]; auto.
  cbn [has existsb]. rewrite H2. change (existsb (Ascii.eqb c) (map dchar (f :: fp))) with (has c (map dchar (f :: fp))).
  rewrite has_digits by assumption. reflexivity.
Qed.
Lemma sign_has c (s : bool) t : Ascii.eqb c "-" = false -> has c ((if s then T "-" else []) ++ t) = has c t.
Proof. intro H. destruct s; [|reflexivity]. cbn [T list_ascii_of_string app has existsb]. rewrite H. reflexivity. Qed.
Lemma sci_exponent p d X Y : (1 <= p)%Z -> p_ex (genParts p d X) = Some Y -> Y <> 0%Z.
Proof.
  intros Hp. unfold genParts. destruct (Z.leb_spec (-4) X); [destruct (Z.ltb_spec X p)|]; cbn [andb].
  - destruct (0 <=? X)%Z; discriminate.
  - cbn [p_ex]. intro E. injection E as <-. lia.
  - cbn [p_ex]. intro E. injection E as <-. lia.
Qed.

Lemma same_number pr s m e : exists v,
  denotes (writeC "." pr (S754_finite s m e)) v /\
  denotesLatex (writeLatex "." pr (S754_finite s m e)) v /\
  denotesMathML (writeMathML "." pr (S754_finite s m e)) v.
Proof.
  assert (W := writeC_read pr s m e). assert (K := sig10_ok (sig pr) (Zpos m) e ltac:(lia) ltac:(unfold sig; lia)). cbv zeta in K.
  destruct (sig10 (sig pr) (numer (Zpos m) e) (denom e)) as [d X] eqn:Es. destruct W as (c & R & V & _). destruct K as [Kd _].
  destruct (genParts_ok (sig pr) d X ltac:(unfold sig; lia) Kd) as [Gq Vq].
  assert (Sx := sci_exponent (sig pr) d X).
  assert (Et : outStream "." pr (S754_finite s m e) = (if s then T "-" else []) ++ partsText (genParts (sig pr) d X)).
  { unfold outStream. rewrite Es, genText_parts. reflexivity. }
  set (q := genParts (sig pr) d X) in *.
  set (w := dec d (X - sig pr + 1)) in *.
  exists (if s then - w else w). split; [|].
  { unfold denotes. rewrite R. destruct s; rewrite V; reflexivity. }
  unfold writeLatex, writeMathML. rewrite Et. unfold partsText.
  destruct (p_ex q) as [Y|] eqn:Ey.
  - (* scientific *)
    rewrite app_assoc. set (a := (if s then T "-" else []) ++ pointed "." (p_ip q) (p_fp q)) in *.
    assert (Ha : forall c, digitVal c = None -> Ascii.eqb c "." = false -> Ascii.eqb c "-" = false -> has c a = false).
    { intros c0 H1 H2 H3. unfold a. rewrite sign_has by assumption. apply pointed_has; assumption. }
    rewrite splitE_some by (apply Ha; reflexivity).
    (* the number before the exponent *)
    set (q' := mkParts (p_ip q) (p_fp q) None).
    assert (Gq' : goodParts q') by (destruct Gq; constructor; assumption).
    assert (Pa : partsText q' = pointed "." (p_ip q) (p_fp q)) by (unfold partsText, q'; cbn [p_ip p_fp p_ex]; apply app_nil_r).
    assert (Ra : exists c', readC a = Some (s, c') /\ c_man c' = valueOf (p_ip q ++ p_fp q) /\ c_ex c' = (- Z.of_nat (List.length (p_fp q)))%Z).
    { exists (mkConst (partsInt q' && negb false) (valueOf (p_ip q' ++ p_fp q')) (partsEx q')). split; [|split; reflexivity].
      unfold a. rewrite <- Pa. apply readC_signed.
      - destruct (partsText_head q' Gq') as (c0 & t0 & E0 & E1 & _). eauto.
      - assert (Rr := readConst_parts q' false Gq' ltac:(discriminate)). rewrite app_nil_r in Rr. exact Rr. }
    destruct Ra as (c' & Ra & Rm & Re).
    set (w0 := dec (valueOf (p_ip q ++ p_fp q)) (- Z.of_nat (List.length (p_fp q)))).
    assert (Da : denotes a (if s then - w0 else w0)).
    { unfold denotes. rewrite Ra, Rm, Re. destruct s; reflexivity. }
    assert (Ew : w == w0 * t10 Y).
    { transitivity (dec (valueOf (p_ip q ++ p_fp q)) (partsEx q)); [symmetry; exact Vq|]. unfold w0, partsEx. rewrite Ey. unfold dec. unfold Z.sub. rewrite t10_add. ring. }
    destruct (expText_read Y) as (xs & Hx & Hx0 & Hv & Ex).
    assert (Hval : t10 (if (Y <? 0)%Z then - valueOf xs else valueOf xs) == t10 Y).
    { rewrite Hv. destruct (Z.ltb_spec Y 0). replace (- Z.abs Y)%Z with Y by lia. reflexivity. rewrite Z.abs_eq by lia. reflexivity. }
    assert (Hsig : (if s then - w else w) == (if s then - w0 else w0) * t10 Y) by (destruct s; rewrite Ew; ring).
    rewrite Ex. split.
    + (* LaTeX *)
      set (sg := if (Y <? 0)%Z then "-"%char else "+"%char).
      assert (Esg : (Ascii.eqb sg "-" || Ascii.eqb sg "+")%bool = true) by (unfold sg; destruct (Y <? 0)%Z; reflexivity).
      rewrite Esg. unfold denotesLatex. rewrite readTimes_some by (apply Ha; reflexivity).
      rewrite dropZeroChars_map by assumption.
      exists (if s then - w0 else w0), (dropz xs), (Y <? 0)%Z, (map dchar (dropz xs)).
      split; [assumption|]. split; [|split; [|split]].
      * unfold signOf, sg. destruct (Y <? 0)%Z; reflexivity.
      * apply span_all. apply dropz_dig. assumption.
      * intro E0. assert (Vz := valueOf_dropz xs). rewrite E0, Hv in Vz. cbn in Vz. apply (Sx Y); [unfold sig; lia|reflexivity|lia].
      * rewrite valueOf_dropz, Hval. assumption.
    + (* MathML *)
      destruct (dropZeroCharsButLast_map xs Hx Hx0) as (r & R1 & R2 & R3 & R4).
      unfold denotesMathML. destruct (Y <? 0)%Z eqn:EY.
      * change (Ascii.eqb "-" "-") with true. cbv iota.
        exists (if s then - w0 else w0), r, true, (map dchar r). split; [assumption|]. split; [|split; [|split]].
        -- rewrite R4. reflexivity.
        -- apply span_all. assumption.
        -- assumption.
        -- rewrite R3, Hval. assumption.
      * change (Ascii.eqb "+" "-") with false. change (Ascii.eqb "+" "+") with true. cbv iota.
        exists (if s then - w0 else w0), r, false, (map dchar r). split; [assumption|]. split; [|split; [|split]].
        -- rewrite R4. destruct r as [|z r]; [congruence|]. inversion R2; subst. cbn [map signOf].
           assert (N1 := dchar_ne z "-" ltac:(assumption) eq_refl). assert (N2 := dchar_ne z "+" ltac:(assumption) eq_refl).
           rewrite Ascii.eqb_sym in N1, N2. rewrite N1, N2. reflexivity.
        -- apply span_all. assumption.
        -- assumption.
        -- rewrite R3, Hval. assumption.
  - (* no exponent *)
    rewrite app_nil_r. set (a := (if s then T "-" else []) ++ pointed "." (p_ip q) (p_fp q)) in *.
    assert (Ha : forall c, digitVal c = None -> Ascii.eqb c "." = false -> Ascii.eqb c "-" = false -> has c a = false).
    { intros c0 H1 H2 H3. unfold a. rewrite sign_has by assumption. apply pointed_has; assumption. }
    rewrite splitE_none by (apply Ha; reflexivity).
    assert (Pa : partsText q = pointed "." (p_ip q) (p_fp q)) by (unfold partsText; rewrite Ey; apply app_nil_r).
    assert (Da : denotes a (if s then - w else w)).
    { unfold denotes.
      assert (Ra : readC a = Some (s, mkConst (partsInt q && negb false) (valueOf (p_ip q ++ p_fp q)) (partsEx q))).
      { unfold a. rewrite <- Pa. apply readC_signed.
        - destruct (partsText_head q Gq) as (c0 & t0 & E0 & E1 & _). eauto.
        - assert (Rr := readConst_parts q false Gq ltac:(discriminate)). rewrite app_nil_r in Rr. exact Rr. }
      rewrite Ra. cbn [c_man c_ex]. destruct s; rewrite Vq; reflexivity. }
    split; [|exact Da]. unfold denotesLatex. rewrite readTimes_none by (apply Ha; reflexivity). exact Da.
Qed.

(** ** Distance of a rounded number *)
Lemma roundsTo_dist m e v : (2 ^ 52 <= Zpos m)%Z -> roundsTo v (S754_finite false m e) -> 2 * Qabs (v - bin (Zpos m) e) <= t2 e.
Proof.
  intros Hm (_ & D & Hlim & N). apply isDouble_grid in D.
  assert (De : (2 ^ 52 <= Zpos m < 2 ^ 53 /\ -1074 <= e <= 971)%Z) by (unfold grid in D; lia).
  set (x := bin (Zpos m) e) in *.
  assert (Step : forall k, bin (Zpos m + k) e == x + inject_Z k * t2 e) by (intro k; unfold x, bin; rewrite inject_Z_plus; ring).
  assert (P2 := t2_pos e).
  (* a candidate one step away *)
  assert (C : forall m' e', grid m' e' -> ~ bin m' e' == x -> Qabs (v - x) <= Qabs (v - bin m' e')).
  { intros m' e' G E. specialize (N m' e' ltac:(apply isDouble_grid; assumption) E). cbv zeta in N. destruct N as [N|[N _]]; [lra|rewrite N; lra]. }
  apply Qabs_2.
  - (* below *)
    assert (G : exists m' e', grid m' e' /\ bin m' e' == x - t2 e).
    { destruct (Z.eq_dec (Zpos m) (2 ^ 52)) as [Em|Em].
      - destruct (Z.eq_dec e (-1074)) as [Ee|Ee].
        + exists (2 ^ 52 - 1)%Z, e. split. unfold grid. right. right. split; [|assumption]. split; reflexivity.
          replace (2 ^ 52 - 1)%Z with (Zpos m + -1)%Z by lia. rewrite Step. change (inject_Z (-1)) with (-1). ring.
        + exists (2 ^ 53 - 2)%Z, (e - 1)%Z. split. unfold grid. right. left. split; [split; [intro; discriminate|reflexivity]|lia].
          replace (2 ^ 53 - 2)%Z with ((Zpos m + -1) * 2 ^ 1)%Z by lia. rewrite bin_shift by lia. replace (e - 1 + 1)%Z with e by lia.
          rewrite Step. change (inject_Z (-1)) with (-1). ring.
      - exists (Zpos m - 1)%Z, e. split. unfold grid. right. left. lia.
        replace (Zpos m - 1)%Z with (Zpos m + -1)%Z by lia. rewrite Step. change (inject_Z (-1)) with (-1). ring. }
    destruct G as (m' & e' & G & E). specialize (C m' e' G ltac:(intro; lra)). rewrite E in C.
    revert C. apply Qabs_case; intro; apply Qabs_case; intros; lra.
  - (* above *)
    destruct (Qlt_le_dec x v) as [L|L]; [|lra].
    assert (G : (exists m' e', grid m' e' /\ bin m' e' == x + t2 e) \/ (Zpos m = 2 ^ 53 - 1 /\ e = 971)%Z).
    { destruct (Z.eq_dec (Zpos m) (2 ^ 53 - 1)) as [Em|Em].
      - destruct (Z.eq_dec e 971) as [Ee|Ee]; [right; auto|]. left. exists (2 ^ 52)%Z, (e + 1)%Z. split.
        + unfold grid. right. left. split; [split; [intro; discriminate|reflexivity]|lia].
        + rewrite <- bin_shift by lia. replace (2 ^ 52 * 2 ^ 1)%Z with (Zpos m + 1)%Z by lia. rewrite Step. change (inject_Z 1) with 1. ring.
      - left. exists (Zpos m + 1)%Z, e. split. unfold grid. right. left. lia. rewrite Step. change (inject_Z 1) with 1. ring. }
    destruct G as [(m' & e' & G & E)|[Em Ee]].
    + specialize (C m' e' G ltac:(intro; lra)). rewrite E in C. revert C. apply Qabs_case; intro; apply Qabs_case; intros; lra.
    + subst e. unfold x in *. rewrite Em in *.
      assert (E : bin (2 ^ 53 - 1) 971 == bin (2 ^ 54 - 2) 970) by (replace 971%Z with (970 + 1)%Z by lia; rewrite <- bin_shift by lia; reflexivity).
      assert (E2 : bin (2 ^ 54 - 1) 970 - bin (2 ^ 54 - 2) 970 == t2 970) by (rewrite bin_sub; unfold bin; change (inject_Z (2 ^ 54 - 1 - (2 ^ 54 - 2))) with 1; ring).
      assert (E4 : t2 971 == 2 * t2 970) by (replace 971%Z with (1 + 970)%Z by lia; rewrite t2_add; reflexivity).
      rewrite E4. lra.
Qed.

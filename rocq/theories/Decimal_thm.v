(** * C41: the constants of the generated text

    The full claim is: for every double x, the text written for x with the default precision is a C constant whose value is x.
    It is false (the theorems ending in _refuted); what holds is proved here.
    [writeC], [writeLatex], [writeMathML]: Decimal_model.v.  [means], [denotes], [roundsTo]: Decimal_spec.v. *)
From Coq Require Import ZArith QArith Qabs Qpower SpecFloat Bool List Ascii String Lia Lqa.
From Verif Require Import Graph_Double Decimal_model Decimal_spec Decimal_proofs.
Import ListNotations.
Local Open Scope Q_scope.

(** ** 17 digits are enough: with setParameterPrecision(p), p >= 17, every finite double but the negative zero is read back *)
Theorem C41_seventeen_digits_partial : forall pr x,
  (17 <= pr)%nat -> valid_binary prec emax x = true -> finite x = true -> x <> S754_zero true ->
  forall z, means (writeC "." pr x) z <-> z = x.
Proof.
  intros pr x Hpr Hv Hf Hz z. destruct x as [s|s| |s m e]; try discriminate.
  - destruct s; [congruence|]. unfold means. change (readC (writeC "." pr (S754_zero false))) with (Some (false, mkConst true 0 0)).
    unfold gives. cbn [c_man c_int Z.eqb negb andb]. split.
    + intros (y & -> & _ & ->). reflexivity.
    + intros ->. exists (S754_zero false). repeat split; auto. lia.
  - cbn [valid_binary] in Hv. apply means_near. assumption.
    assert (K := sig10_ok (sig pr) (Zpos m) e ltac:(lia) ltac:(unfold sig; lia)). cbv zeta in K.
    destruct (sig10 (sig pr) (numer (Zpos m) e) (denom e)) as [d X]. destruct K as [_ K].
    intro y. assert (R := round_near (Zpos m) e (dec d (X - sig pr + 1)) ltac:(lia)).
    cbn [Z.to_pos] in R. apply R.
    + apply isDouble_grid. right. eauto.
    + eapply Qle_lt_trans. exact K. eapply Qle_lt_trans. apply exp10_le. lia. unfold sig. lia.
      assert (E : t10 (1 - sig pr) <= t10 (-16)) by (apply t10_le; unfold sig; lia).
      assert (P := bin_pos (Zpos m) (e - 53) ltac:(lia)).
      assert (F : bin (Zpos m) e == bin (Zpos m) (e - 53) * (9007199254740992 # 1)).
      { replace e with (e - 53 + 53)%Z at 1 by lia. unfold bin. rewrite t2_add, (t2_Z 53) by lia. change (inject_Z (2 ^ 53)) with (9007199254740992 # 1). ring. }
      rewrite F. change (t10 (-16)) with (1 # 10000000000000000) in E. nra.
Qed.
Print Assumptions C41_seventeen_digits_partial.

(** ** The error of the text: p significant digits are right to half a unit *)
Theorem C41_written_error_partial : forall pr x, (1 <= pr)%nat -> finite x = true ->
  exists v, denotes (writeC "." pr x) v /\ 2 * Qabs (v - num x) <= Qabs (num x) * Qpower (inject_Z 10) (1 - Z.of_nat pr).
Proof.
  intros pr x Hpr Hf. destruct x as [s|s| |s m e]; try discriminate.
  - exists 0. split. destruct s; reflexivity. cbn [num]. change (Qabs (0 - 0)) with 0. change (Qabs 0) with 0. pose proof (t10_pos (1 - Z.of_nat pr)). lra.
  - destruct (writeC_denotes pr s m e) as (v & Hd & He). replace (sig pr) with (Z.of_nat pr) in He by (unfold sig; lia).
    exists (if s then - v else v). split; [assumption|]. assert (P := bin_pos (Zpos m) e ltac:(lia)). cbn [num].
    destruct s.
    + assert (E : - v - - bin (Zpos m) e == - (v - bin (Zpos m) e)) by ring. rewrite E, !Qabs_opp. rewrite (Qabs_pos (bin (Zpos m) e)) by lra. assumption.
    + rewrite (Qabs_pos (bin (Zpos m) e)) by lra. assumption.
Qed.
Print Assumptions C41_written_error_partial.

(** ** Short decimal numbers survive the default precision: if the constant is the double a compiler gives to a decimal number
    with at most p <= 15 significant digits (0.1, 1e-3, 6.02214076e23; normal numbers), that number is written and means x *)
Theorem C41_short_decimals_partial : forall pr n k s m e,
  (1 <= pr <= 15)%nat -> (0 < n < 10 ^ Z.of_nat pr)%Z -> (2 ^ 52 <= Zpos m)%Z ->
  roundsTo (dec n k) (S754_finite false m e) ->
  denotes (writeC "." pr (S754_finite s m e)) (if s then - dec n k else dec n k) /\
  means (writeC "." pr (S754_finite s m e)) (S754_finite s m e).
Proof.
  intros pr n k s m e Hpr Hn Hm Hr.
  assert (Dist := roundsTo_dist m e _ Hm Hr).
  assert (Hb : bounded prec emax m e = true).
  { destruct Hr as (_ & [E|(q & E & B)] & _); [discriminate|]. injection E as <-. assumption. }
  destruct (exp10_bin (Zpos m) e ltac:(lia)) as [X1 X2].
  assert (EX := sig10_exact (sig pr) (Zpos m) e n k ltac:(lia) ltac:(unfold sig; lia)). cbv zeta in EX.
  set (X := exp10 (numer (Zpos m) e) (denom e)) in *. set (x := bin (Zpos m) e) in *.
  replace (sig pr) with (Z.of_nat pr) in EX by (unfold sig; lia). set (p := Z.of_nat pr) in *.
  assert (Hp : (1 <= p <= 15)%Z) by lia.
  (* one unit of the last bit *)
  assert (U : t2 e * (4503599627370496 # 1) <= x).
  { unfold x, bin. assert (H : inject_Z (2 ^ 52) <= inject_Z (Zpos m)) by (rewrite <- Zle_Qle; assumption).
    change (inject_Z (2 ^ 52)) with (4503599627370496 # 1) in H. pose proof (t2_pos e). nra. }
  assert (Pe := t2_pos e).
  assert (D' : - t2 e <= 2 * (dec n k - x) /\ 2 * (dec n k - x) <= t2 e) by (revert Dist; apply Qabs_case; intros; lra).
  assert (T15 : t10 (X + 1) <= t10 (X - p + 1) * (1000000000000000 # 1)).
  { replace (X + 1)%Z with (X - p + 1 + p)%Z by lia. rewrite t10_add. pose proof (t10_pos (X - p + 1)).
    assert (t10 p <= t10 15) by (apply t10_le; lia). change (t10 15) with (1000000000000000 # 1) in *. nra. }
  assert (Hk : (X - p + 1 <= k)%Z).
  { destruct (Z_le_gt_dec (X - p + 1) k) as [H|H]; auto. exfalso.
    assert (L : dec n k <= dec (10 ^ p - 1) (X - p)).
    { unfold dec. assert (t10 k <= t10 (X - p)) by (apply t10_le; lia). pose proof (t10_pos k).
      assert (inject_Z n <= inject_Z (10 ^ p - 1)) by (rewrite <- Zle_Qle; lia).
      assert (0 < inject_Z n) by (apply injpos; lia). nra. }
    assert (E : dec (10 ^ p - 1) (X - p) == t10 X - t10 (X - p)).
    { unfold dec. replace (10 ^ p - 1)%Z with (10 ^ p + -1)%Z by lia. rewrite inject_Z_plus, <- (t10_Z p) by lia. change (inject_Z (-1)) with (-1).
      replace X with (X - p + p)%Z at 2 by lia. rewrite (t10_add (X - p) p). ring. }
    assert (S15 : t10 X <= t10 (X - p) * (1000000000000000 # 1)).
    { replace X with (X - p + p)%Z at 1 by lia. rewrite t10_add. pose proof (t10_pos (X - p)).
      assert (t10 p <= t10 15) by (apply t10_le; lia). change (t10 15) with (1000000000000000 # 1) in *. nra. }
    assert (PX := t10_pos X). lra. }
  assert (Hclose : 2 * Qabs (dec n k - x) < t10 (X - p + 1)) by lra.
  specialize (EX Hk Hclose).
  assert (W := writeC_read pr s m e). replace (sig pr) with p in W by (unfold sig; lia).
  destruct (sig10 p (numer (Zpos m) e) (denom e)) as [d X'] eqn:Es. destruct W as (c & R & V & I).
  split.
  - unfold denotes. rewrite R. destruct s; rewrite V, EX; reflexivity.
  - assert (Vn : dec (c_man c) (c_ex c) == dec n k) by (rewrite V; assumption).
    unfold means. rewrite R. exists (S754_finite false m e).
    assert (Hman : c_man c <> 0%Z).
    { intro E. rewrite E in Vn. unfold dec in Vn. change (inject_Z 0) with 0 in Vn. assert (0 < inject_Z n) by (apply injpos; lia).
      pose proof (t10_pos k). nra. }
    destruct (Z.eqb_spec (c_man c) 0) as [E|_]; [contradiction|]. split.
    + cbn [roundsTo] in *. destruct Hr as (A1 & A2 & A3 & A4).
      split; [assumption|]. split; [assumption|]. split; [rewrite Vn; assumption|].
      intros m' e' B1 B2. specialize (A4 m' e' B1 B2). cbv zeta in *. rewrite !Vn. assumption.
    + cbn [negb]. rewrite andb_true_r. destruct (c_int c) eqn:Ei; [|destruct s; reflexivity].
      split; [|destruct s; reflexivity]. destruct (I eq_refl) as (E0 & -> & ->).
      rewrite E0 in Vn. unfold dec at 1 in Vn. change (t10 0) with 1 in Vn. unfold x in D'.
      change (bin 4503599627370496 (-52)) with (4503599627370496 # 4503599627370496) in D'. change (t2 (-52)) with (1 # 4503599627370496) in D'.
      assert (c_man c < 2147483647)%Z by (rewrite Zlt_Qlt; change (inject_Z 2147483647) with (2147483647 # 1); lra). lia.
Qed.
Print Assumptions C41_short_decimals_partial.

(** a constant that has at most p significant digits itself (every integer below 10^p, 0.5, 0.25, ...) is written exactly *)
Theorem C41_exact_constants_partial : forall pr n k s m e,
  (1 <= pr)%nat -> (0 < n < 10 ^ Z.of_nat pr)%Z -> bounded prec emax m e = true -> bin (Zpos m) e == dec n k ->
  denotes (writeC "." pr (S754_finite s m e)) (num (S754_finite s m e)) /\
  forall z, means (writeC "." pr (S754_finite s m e)) z <-> z = S754_finite s m e.
Proof.
  intros pr n k s m e Hpr Hn Hb Hx.
  destruct (exp10_bin (Zpos m) e ltac:(lia)) as [X1 X2].
  assert (EX := sig10_exact (sig pr) (Zpos m) e n k ltac:(lia) ltac:(unfold sig; lia)). cbv zeta in EX.
  set (X := exp10 (numer (Zpos m) e) (denom e)) in *.
  assert (Hs : sig pr = Z.of_nat pr) by (unfold sig; lia). set (p := Z.of_nat pr) in *.
  assert (Hk : (X - sig pr + 1 <= k)%Z).
  { rewrite Hs. assert (L : t10 X < t10 (k + p)).
    { eapply Qle_lt_trans. exact X1. rewrite Hx. unfold dec. rewrite t10_add, (t10_Z p) by lia.
      pose proof (t10_pos k). assert (inject_Z n < inject_Z (10 ^ p)) by (rewrite <- Zlt_Qlt; lia). nra. }
    apply t10_lt_inv in L. lia. }
  assert (Hclose : 2 * Qabs (dec n k - bin (Zpos m) e) < t10 (X - sig pr + 1)).
  { rewrite Hx. assert (E : dec n k - dec n k == 0) by ring. rewrite E. change (Qabs 0) with 0. pose proof (t10_pos (X - sig pr + 1)). lra. }
  specialize (EX Hk Hclose).
  split.
  - assert (W := writeC_read pr s m e).
    destruct (sig10 (sig pr) (numer (Zpos m) e) (denom e)) as [d X'] eqn:Es. destruct W as (c & R & V & I).
    unfold denotes. rewrite R. cbn [num]. destruct s; rewrite V, EX, Hx; reflexivity.
  - apply means_near. assumption. destruct (sig10 (sig pr) (numer (Zpos m) e) (denom e)) as [d X'] eqn:Es.
    intro y. assert (Rn := round_near (Zpos m) e (dec d (X' - sig pr + 1)) ltac:(lia)). cbn [Z.to_pos] in Rn. apply Rn.
    + apply isDouble_grid. right. eauto.
    + rewrite EX, Hx. assert (E : dec n k - dec n k == 0) by ring. rewrite E. change (Qabs 0) with 0. pose proof (bin_pos (Zpos m) (e - 53) ltac:(lia)). lra.
Qed.
Print Assumptions C41_exact_constants_partial.

(** ** LaTeX and MathML show the number of the C text *)
Theorem C41_languages_agree_partial : forall pr x, finite x = true ->
  exists v, denotes (writeC "." pr x) v /\ denotesLatex (writeLatex "." pr x) v /\ denotesMathML (writeMathML "." pr x) v.
Proof.
  intros pr x Hf. destruct x as [s|s| |s m e]; try discriminate.
  - exists 0. destruct s; repeat split.
  - apply same_number.
Qed.
Print Assumptions C41_languages_agree_partial.

(** ** Where the claim fails *)

(** the double nearest to 0.3 and the double 0.1 + 0.2 *)
Definition d03 : spec_float := S754_finite false 5404319552844595 (-54).
Definition d0102 : spec_float := S754_finite false 5404319552844596 (-54).
Lemma reads_03 : forall y, roundsTo (3 # 10) y <-> y = d03.
Proof. apply (round_near 5404319552844595 (-54)). reflexivity. right. left. split; [split; [intro; discriminate|reflexivity]|lia]. reflexivity. Qed.

(** with the default precision, and with 16 digits, 0.1 + 0.2 is written 0.3, which is another double *)
Theorem C41_default_precision_changes_constants_refuted :
  exists x, SFadd prec emax (SFdiv prec emax dOne (S754_finite false 5629499534213120 (-49))) (SFdiv prec emax dOne (S754_finite false 5629499534213120 (-50))) = x /\
    forall pr, pr = 15%nat \/ pr = 16%nat -> writeC "." pr x = T "0.3" /\ forall z, means (writeC "." pr x) z -> SFeqb z x = false.
Proof.
  exists d0102. split. reflexivity. intros pr Hpr.
  assert (E : writeC "." pr d0102 = T "0.3") by (destruct Hpr as [-> | ->]; vm_compute; reflexivity).
  split. assumption. rewrite E. intros z H. unfold means in H. change (readC (T "0.3")) with (Some (false, mkConst false 3 (-1))) in H.
  destruct H as (y & H1 & H2). cbn [c_int c_man c_ex Z.eqb] in *. subst z.
  assert (Ey : y = d03).
  { apply reads_03. destruct y; cbn [roundsTo] in *; auto. }
  subst y. reflexivity.
Qed.
Print Assumptions C41_default_precision_changes_constants_refuted.

(** the largest double is written 1.79769313486232e+308, which is rounded up and overflows: the constant becomes infinite *)
Theorem C41_largest_double_becomes_infinite_refuted :
  exists x, valid_binary prec emax x = true /\ finite x = true /\ writeC "." 15 x = T "1.79769313486232e+308" /\
    means (writeC "." 15 x) (S754_infinity false) /\ ~ means (writeC "." 15 x) x.
Proof.
  exists (S754_finite false 9007199254740991 971).
  assert (E : writeC "." 15 (S754_finite false 9007199254740991 971) = T "1.79769313486232e+308") by (vm_compute; reflexivity).
  assert (L : bin (2 ^ 54 - 1) 970 <= dec 179769313486232 294) by (vm_compute; intro; discriminate).
  split; [reflexivity|]. split; [reflexivity|]. split; [assumption|]. rewrite E. unfold means.
  change (readC (T "1.79769313486232e+308")) with (Some (false, mkConst false 179769313486232 294)). split.
  - exists (S754_infinity false). split; [|reflexivity]. cbn [c_man c_ex Z.eqb roundsTo]. auto.
  - intros (y & H1 & H2). cbn [c_man c_ex c_int Z.eqb] in *. subst y. destruct H1 as (_ & _ & H & _). lra.
Qed.
Print Assumptions C41_largest_double_becomes_infinite_refuted.

(** the negative zero is written -0, a constant of type int: it loses its sign, with every precision *)
Theorem C41_negative_zero_refuted : forall pr z, means (writeC "." pr (S754_zero true)) z <-> z = S754_zero false.
Proof.
  intros pr z. unfold means. change (readC (writeC "." pr (S754_zero true))) with (Some (true, mkConst true 0 0)).
  unfold gives. cbn [c_man c_int Z.eqb negb andb]. split.
  - intros (y & -> & _ & ->). reflexivity.
  - intros ->. exists (S754_zero false). repeat split; auto. lia.
Qed.
Print Assumptions C41_negative_zero_refuted.

(** infinities and NaN are written inf., -inf. and nan, which are not constants of C *)
Theorem C41_not_finite_refuted : forall pr s,
  writeC "." pr (S754_infinity s) = (if s then T "-" else []) ++ T "inf." /\ writeC "." pr S754_nan = T "nan" /\
  readC (writeC "." pr (S754_infinity s)) = None /\ readC (writeC "." pr S754_nan) = None.
Proof. intros pr s. destruct s; repeat split. Qed.
Print Assumptions C41_not_finite_refuted.

(** in a locale whose decimal point is a comma (std::locale::global of a German program) the text of 0.1 is no constant *)
Theorem C41_locale_refuted : exists x, valid_binary prec emax x = true /\ finite x = true /\
  writeC "," 15 x = T "0,1." /\ readC (writeC "," 15 x) = None.
Proof. exists (SFdiv prec emax dOne (S754_finite false 5629499534213120 (-49))). repeat split; vm_compute; reflexivity. Qed.
Print Assumptions C41_locale_refuted.

(** two different constants have the same text: LanguageDot with combined parameters (language_dot.hpp 636-640) names the
    nodes of constants by their text and draws one node for both *)
Theorem C41_same_text_refuted : exists x y, valid_binary prec emax x = true /\ valid_binary prec emax y = true /\
  SFeqb x y = false /\ outStream "." 15 x = outStream "." 15 y.
Proof. exists d03, d0102. repeat split; vm_compute; reflexivity. Qed.
Print Assumptions C41_same_text_refuted.

(** ** Cases that meet the hypotheses *)
Example C41_case_seventeen : valid_binary prec emax d0102 = true /\ writeC "." 17 d0102 = T "0.30000000000000004".
Proof. split; vm_compute; reflexivity. Qed.
Example C41_case_short : roundsTo (dec 3 (-1)) d03 /\ writeC "." 15 d03 = T "0.3".
Proof. split. apply (proj2 (reads_03 d03)). reflexivity. vm_compute. reflexivity. Qed.
Example C41_case_exact : bounded prec emax 6755399441055744 (-33) = true /\ bin 6755399441055744 (-33) == dec 786432 0 /\
  writeC "." 15 (S754_finite true 6755399441055744 (-33)) = T "-786432.".
Proof. repeat split; vm_compute; reflexivity. Qed.
Example C41_case_latex : writeLatex "." 15 (S754_finite true 9007199254740991 971) = T "-1.79769313486232 \times 10^{+308}".
Proof. vm_compute. reflexivity. Qed.

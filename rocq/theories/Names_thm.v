(** * C32: names of variables never collide *)
From Coq Require Import List Bool Arith Lia String Ascii Decimal DecimalString DecimalNat.
From Verif Require Import Names_model.
Import ListNotations.
Local Open Scope string_scope.

(** ** Specification *)

(** the text contains the character *)
Fixpoint has (c : ascii) (s : string) : Prop :=
  match s with EmptyString => False | String a s => a = c \/ has c s end.
(** a text which can be the name of an array: no brackets, no address operator *)
Definition plain (s : string) : Prop := ~ has "["%char s /\ ~ has "&"%char s.

(** the names of arrays of independents, and the individual names *)
Fixpoint indepBases (g : igen) : list string :=
  match g with
  | IDefault name => [name]
  | ICustom _ name => [name]
  | IHess g _ mult => mult :: indepBases g
  | IRev2 g _ _ l1 l2 => l1 :: l2 :: indepBases g
  end.
Fixpoint indepCustom (g : igen) : list string :=
  match g with
  | IDefault _ => []
  | ICustom names _ => filter (fun s => negb (String.eqb s "")) names
  | IHess g _ _ => indepCustom g
  | IRev2 g _ _ _ _ => indepCustom g
  end.
Definition bases (g : ngen) : list string :=
  ng_dep g :: ng_tmp g :: ng_array g :: ng_sarray g :: indepBases (ng_indep g).
Definition customs (g : ngen) : list string :=
  filter (fun s => negb (String.eqb s "")) (ng_depNames g) ++ indepCustom (ng_indep g).

(** the names given to the generator are usable: different plain names for the arrays; individual names are plain and different,
    and do not begin with the name of the temporaries when these are written as v1, v2, ... *)
Record usable (g : ngen) : Prop := {
  us_nodup : NoDup (bases g);
  us_plain : forall b, In b (bases g) -> plain b;
  us_cnodup : NoDup (customs g);
  us_cplain : forall b, In b (customs g) -> plain b;
  us_prefix : ng_tmpArray g = false -> forall b, In b (customs g) -> prefix (ng_tmp g) b = false
}.
(** identifiers start at 1, those of temporaries at _minTemporaryID *)
Definition validVar (g : ngen) (v : var) : Prop :=
  match v with
  | VDep _ => True
  | VIndep id | VArray id | VSArray id => 1 <= id
  | VTemp id => ng_minTmp g <= id
  end.

(** ** Proofs about texts *)
Lemma has_app c : forall s t, has c (s ++ t) <-> has c s \/ has c t.
Proof. induction s as [|a s IH]; intros t; cbn; [tauto|]. rewrite IH. tauto. Qed.

Lemma app_cut c : forall b b' r r', ~ has c b -> ~ has c b' -> b ++ String c r = b' ++ String c r' -> b = b' /\ r = r'.
Proof.
  induction b as [|a b IH]; intros [|a' b'] r r' H H' E; cbn in *.
  - injection E as ->. auto.
  - injection E as -> _. exfalso. apply H'. left; reflexivity.
  - injection E as -> _. exfalso. apply H. left; reflexivity.
  - injection E as -> E. destruct (IH b' r r') as [-> ->]; auto.
Qed.

Lemma app_end c : forall s t, s ++ String c "" = t ++ String c "" -> s = t.
Proof.
  induction s as [|a s IH]; intros [|b t] E; cbn in E.
  - reflexivity.
  - injection E as -> E. destruct t; discriminate.
  - injection E as -> E. destruct s; discriminate.
  - injection E as -> E. f_equal. apply IH, E.
Qed.

Lemma app_head : forall s t u, s ++ t = s ++ u -> t = u.
Proof. induction s as [|a s IH]; intros t u E; [exact E|]. injection E as E. apply IH, E. Qed.

Lemma prefix_app : forall s t, prefix s (s ++ t) = true.
Proof. induction s as [|a s IH]; intros t; [destruct t; reflexivity|]. cbn. destruct (ascii_dec a a); [apply IH|congruence]. Qed.

Lemma dec_inj k k' : dec k = dec k' -> k = k'.
Proof.
  unfold dec. intros E. apply (f_equal NilZero.uint_of_string) in E.
  assert (H : forall k, Nat.to_uint k <> Nil) by (intros k0 F; pose proof (Unsigned.of_to k0) as K; rewrite F in K; cbn in K; subst k0; discriminate).
  rewrite !NilZero.usu in E by apply H. injection E as E. apply Unsigned.to_uint_inj, E.
Qed.

Lemma digits_no (c : ascii) : (forall d, ~ has c (NilEmpty.string_of_uint d)) \/ In c ["0"; "1"; "2"; "3"; "4"; "5"; "6"; "7"; "8"; "9"]%char.
Proof.
  destruct (in_dec ascii_dec c ["0"; "1"; "2"; "3"; "4"; "5"; "6"; "7"; "8"; "9"]%char) as [H|H]; [right; exact H|left].
  intros d. induction d; cbn; [tauto|..]; intros [F|F]; try (apply IHd, F); apply H; rewrite <- F; cbn; tauto.
Qed.
Lemma dec_no c k : ~ In c ["0"; "1"; "2"; "3"; "4"; "5"; "6"; "7"; "8"; "9"]%char -> ~ has c (dec k).
Proof.
  intros Hc. destruct (digits_no c) as [H|H]; [|contradiction]. unfold dec, NilZero.string_of_uint.
  destruct (Nat.to_uint k) eqn:E; try (rewrite <- E; apply H). cbn. intros [F|[]]. apply Hc. rewrite <- F. cbn. tauto.
Qed.
Lemma dec_bracket k : ~ has "["%char (dec k).
Proof. apply dec_no. cbn. intuition discriminate. Qed.

Lemma elem_inj b b' k k' : ~ has "["%char b -> ~ has "["%char b' -> elem b k = elem b' k' -> b = b' /\ k = k'.
Proof.
  intros H H' E. unfold elem in E. cbn [append] in E. apply app_cut in E; [|exact H|exact H']. destruct E as [-> E].
  split; [reflexivity|]. apply dec_inj. eapply app_end, E.
Qed.
Lemma elem_has b k : has "["%char (elem b k).
Proof. unfold elem. rewrite has_app. right. left. reflexivity. Qed.

(** ** Independent variables *)
Lemma custom_in names k s : custom names k = Some s -> In s (filter (fun s => negb (String.eqb s "")) names).
Proof.
  unfold custom. destruct (nth_error names k) as [[|a t]|] eqn:E; try discriminate. intros [= <-]. apply filter_In.
  split; [eapply nth_error_In, E|reflexivity].
Qed.
Lemma custom_inj : forall names k k' s, NoDup (filter (fun s => negb (String.eqb s "")) names) ->
  custom names k = Some s -> custom names k' = Some s -> k = k'.
Proof.
  induction names as [|x names IH]; intros k k' s Hn Hk Hk'.
  - unfold custom in Hk. destruct k; discriminate.
  - assert (Hn' : NoDup (filter (fun s => negb (String.eqb s "")) names))
      by (cbn [filter] in Hn; destruct (negb (String.eqb x "")); [inversion Hn; assumption|exact Hn]).
    assert (HX : forall j, custom names j = Some s -> custom (x :: names) 0 = Some s -> False).
    { intros j Hj H0. apply custom_in in Hj. unfold custom in H0. cbn in H0. destruct x as [|a t]; [discriminate|].
      injection H0 as <-. cbn [filter] in Hn. change (String.eqb (String a t) "") with false in Hn. cbn [negb] in Hn.
      inversion Hn; subst; contradiction. }
    destruct k as [|k]; destruct k' as [|k']; auto.
    + exfalso. apply (HX k'); assumption.
    + exfalso. apply (HX k); assumption.
    + f_equal. eapply IH; eassumption.
Qed.

(** a name is an element of one of the arrays, or one of the individual names *)
Lemma indepName_cases g : forall id, 1 <= id ->
  (exists b k, In b (indepBases g) /\ indepName g id = elem b k) \/ In (indepName g id) (indepCustom g).
Proof.
  induction g as [name|names name|g IH n mult|g IH n n1 l1 l2]; intros id Hid; cbn [indepName indepBases indepCustom].
  - left. eexists. eexists. split; [left; reflexivity|reflexivity].
  - destruct (custom names (id - 1)) as [s|] eqn:E; [right; eapply custom_in, E|].
    left. eexists. eexists. split; [left; reflexivity|reflexivity].
  - destruct (Nat.ltb id (n + 1)).
    + destruct (IH id Hid) as [(b & k & Hb & E)|H]; [left|right; exact H]. exists b, k. split; [right; exact Hb|exact E].
    + left. eexists. eexists. split; [left; reflexivity|reflexivity].
  - destruct (Nat.ltb id (n + 1)).
    + destruct (IH id Hid) as [(b & k & Hb & E)|H]; [left|right; exact H]. exists b, k. split; [right; right; exact Hb|exact E].
    + left. destruct (Nat.ltb id (n + 1 + n1)).
      * eexists. eexists. split; [left; reflexivity|reflexivity].
      * eexists. eexists. split; [right; left; reflexivity|reflexivity].
Qed.

Lemma base_elem_clash g b id k : NoDup (b :: indepBases g) -> (forall x, In x (b :: indepBases g) -> plain x) ->
  (forall x, In x (indepCustom g) -> plain x) -> 1 <= id -> indepName g id <> elem b k.
Proof.
  intros Hn Hp Hc Hid E. destruct (indepName_cases g id Hid) as [(b' & k' & Hb & E')|H].
  - rewrite E' in E. apply elem_inj in E; [|apply Hp; right; exact Hb|apply Hp; left; reflexivity].
    destruct E as [-> _]. inversion Hn; contradiction.
  - rewrite E in H. apply Hc in H. destruct H as [H _]. apply H, elem_has.
Qed.

Lemma indepName_inj g : NoDup (indepBases g) -> (forall b, In b (indepBases g) -> plain b) -> NoDup (indepCustom g) ->
  (forall b, In b (indepCustom g) -> plain b) ->
  forall id id', 1 <= id -> 1 <= id' -> indepName g id = indepName g id' -> id = id'.
Proof.
  induction g as [name|names name|g IH n mult|g IH n n1 l1 l2]; intros Hn Hp Hcn Hcp id id' Hid Hid' E;
    cbn [indepName indepBases indepCustom] in *.
  - apply elem_inj in E; [lia|apply Hp; left; reflexivity|apply Hp; left; reflexivity].
  - destruct (custom names (id - 1)) as [s|] eqn:E1; destruct (custom names (id' - 1)) as [s'|] eqn:E2.
    + subst s'. assert (id - 1 = id' - 1) by (eapply custom_inj; eassumption). lia.
    + subst s. apply custom_in, Hcp in E1. destruct E1 as [E1 _]. exfalso. apply E1, elem_has.
    + subst s'. apply custom_in, Hcp in E2. destruct E2 as [E2 _]. exfalso. apply E2, elem_has.
    + apply elem_inj in E; [lia|apply Hp; left; reflexivity|apply Hp; left; reflexivity].
  - assert (Hn' : NoDup (indepBases g)) by (inversion Hn; assumption).
    destruct (Nat.ltb_spec id (n + 1)); destruct (Nat.ltb_spec id' (n + 1)).
    + apply IH; auto. intros b Hb. apply Hp. right; exact Hb.
    + exfalso. exact (base_elem_clash g mult _ _ Hn Hp Hcp Hid E).
    + exfalso. symmetry in E. exact (base_elem_clash g mult _ _ Hn Hp Hcp Hid' E).
    + apply elem_inj in E; [lia|apply Hp; left; reflexivity|apply Hp; left; reflexivity].
  - assert (Hn1 : NoDup (l1 :: indepBases g)).
    { inversion Hn as [|? ? Ha Hb]; subst. inversion Hb; subst. constructor; [|assumption]. intros F. apply Ha. right; exact F. }
    assert (Hn2 : NoDup (l2 :: indepBases g)) by (inversion Hn; assumption).
    assert (Hne : l1 <> l2) by (inversion Hn as [|? ? Ha Hb]; subst; intros ->; apply Ha; left; reflexivity).
    assert (P1 : ~ has "["%char l1) by (apply Hp; left; reflexivity).
    assert (P2 : ~ has "["%char l2) by (apply Hp; right; left; reflexivity).
    assert (Hp1 : forall b, In b (l1 :: indepBases g) -> plain b) by (intros b [<-|Hb]; apply Hp; cbn; auto).
    assert (Hp2 : forall b, In b (l2 :: indepBases g) -> plain b) by (intros b [<-|Hb]; apply Hp; cbn; auto).
    destruct (Nat.ltb_spec id (n + 1)); destruct (Nat.ltb_spec id' (n + 1)).
    + apply IH; auto; [inversion Hn2; assumption|]. intros b Hb. apply Hp. right; right; exact Hb.
    + exfalso. destruct (Nat.ltb id' (n + 1 + n1)).
      * exact (base_elem_clash g l1 _ _ Hn1 Hp1 Hcp Hid E).
      * exact (base_elem_clash g l2 _ _ Hn2 Hp2 Hcp Hid E).
    + exfalso. symmetry in E. destruct (Nat.ltb id (n + 1 + n1)).
      * exact (base_elem_clash g l1 _ _ Hn1 Hp1 Hcp Hid' E).
      * exact (base_elem_clash g l2 _ _ Hn2 Hp2 Hcp Hid' E).
    + destruct (Nat.ltb_spec id (n + 1 + n1)); destruct (Nat.ltb_spec id' (n + 1 + n1));
        apply elem_inj in E; auto; destruct E as [E1 E2]; try congruence; lia.
Qed.

(** ** C32 *)

(** Different variables have different names: dependents, independents (including the multipliers and the
    additional arguments of the second order functions), temporaries and temporary arrays. *)
Theorem C32_names_identify_variables :
  forall g v v', usable g -> validVar g v -> validVar g v' -> varText g v = varText g v' -> v = v'.
Proof.
  assert (SYM : forall g (K : var -> nat), (forall v v', K v <= K v' -> usable g -> validVar g v -> validVar g v' -> varText g v = varText g v' -> v = v') ->
     forall v v', usable g -> validVar g v -> validVar g v' -> varText g v = varText g v' -> v = v').
  { intros g K H v v' U V V' E. destruct (Nat.le_ge_cases (K v) (K v')); [apply H; assumption|].
    symmetry. apply H; auto. }
  intros g. apply (SYM g (fun v => match v with VDep _ => 0 | VIndep _ => 1 | VTemp _ => 2 | VArray _ => 3 | VSArray _ => 4 end)).
  intros v v' HK [Un Up Ucn Ucp Upre] V V' E.
  assert (Pb : forall b, In b (bases g) -> ~ has "["%char b) by (intros b Hb; apply Up, Hb).
  assert (Pd : ~ has "["%char (ng_dep g)) by (apply Pb; left; reflexivity).
  assert (Pt : ~ has "["%char (ng_tmp g)) by (apply Pb; right; left; reflexivity).
  assert (Pa : ~ has "["%char (ng_array g)) by (apply Pb; right; right; left; reflexivity).
  assert (Ps : ~ has "["%char (ng_sarray g)) by (apply Pb; right; right; right; left; reflexivity).
  assert (Pi : forall b, In b (indepBases (ng_indep g)) -> In b (bases g)) by (intros b Hb; do 4 right; exact Hb).
  assert (Cd : forall s, In s (filter (fun s => negb (String.eqb s "")) (ng_depNames g)) -> In s (customs g))
    by (intros s Hs; apply in_or_app; left; exact Hs).
  assert (Ci : forall s, In s (indepCustom (ng_indep g)) -> In s (customs g)) by (intros s Hs; apply in_or_app; right; exact Hs).
  assert (Cno : forall s, In s (customs g) -> ~ has "["%char s) by (intros s Hs; apply Ucp, Hs).
  (* names of dependents and independents: elements of plain arrays, or individual *)
  assert (DD : forall i, (exists k, varText g (VDep i) = elem (ng_dep g) k) \/
                         In (varText g (VDep i)) (filter (fun s => negb (String.eqb s "")) (ng_depNames g))).
  { intros i. cbn [varText]. destruct (custom (ng_depNames g) i) as [s|] eqn:Ec; [right; eapply custom_in, Ec|left; eexists; reflexivity]. }
  assert (AMP : forall b, plain b -> forall k, ~ has "&"%char (elem b k)).
  { intros b [_ Hb] k. unfold elem. rewrite !has_app. intros [F|[F|[F|F]]]; [exact (Hb F)| | |].
    - cbn in F. destruct F as [F|[]]. discriminate.
    - revert F. apply dec_no. cbn. intuition discriminate.
    - cbn in F. destruct F as [F|[]]. discriminate. }
  assert (NOAMP : forall v, (match v with VArray _ | VSArray _ => False | _ => True end) -> validVar g v -> ~ has "&"%char (varText g v)).
  { intros [i|id|id|id|id] Hv Hval; try destruct Hv.
    - destruct (DD i) as [[k ->]|H]; [apply AMP, Up; left; reflexivity|]. apply Cd, Ucp in H. apply H.
    - cbn [varText]. destruct (indepName_cases (ng_indep g) id Hval) as [(b & k & Hb & ->)|H]; [apply AMP, Up, Pi, Hb|].
      apply Ci, Ucp in H. apply H.
    - cbn [varText]. destruct (ng_tmpArray g); [apply AMP, Up; right; left; reflexivity|].
      rewrite has_app. intros [F|F]; [revert F; apply Up; right; left; reflexivity|]. revert F. apply dec_no. cbn. intuition discriminate. }
  assert (ISAMP : forall b k, has "&"%char ("&" ++ elem b k)) by (intros; left; reflexivity).
  assert (Hne : forall (a : string) b, NoDup (a :: b) -> ~ In a b) by (intros a b H; inversion H; assumption).
  assert (Nd : ~ In (ng_dep g) (ng_tmp g :: ng_array g :: ng_sarray g :: indepBases (ng_indep g))) by (apply Hne, Un).
  assert (Nt : ~ In (ng_tmp g) (ng_array g :: ng_sarray g :: indepBases (ng_indep g))) by (apply Hne; inversion Un; assumption).
  assert (Na : ~ In (ng_array g) (ng_sarray g :: indepBases (ng_indep g)))
    by (apply Hne; inversion Un as [|? ? ? U1]; subst; inversion U1; assumption).
  assert (Ni : NoDup (indepBases (ng_indep g)))
    by (inversion Un as [|? ? ? U1]; subst; inversion U1 as [|? ? ? U2]; subst; inversion U2 as [|? ? ? U3]; subst; inversion U3; assumption).
  assert (NCd : NoDup (filter (fun s => negb (String.eqb s "")) (ng_depNames g)) /\ NoDup (indepCustom (ng_indep g)) /\
                forall s, In s (filter (fun s => negb (String.eqb s "")) (ng_depNames g)) -> In s (indepCustom (ng_indep g)) -> False).
  { revert Ucn. unfold customs. generalize (filter (fun s => negb (String.eqb s "")) (ng_depNames g)) (indepCustom (ng_indep g)).
    clear. induction l as [|x l IH]; intros l' H; cbn [app] in H; [repeat split; [constructor|exact H|intros s []]|].
    inversion H as [|? ? Hx H']; subst. destruct (IH _ H') as (H1 & H2 & H3). split; [|split; [exact H2|]].
    - constructor; [|exact H1]. intros F. apply Hx, in_or_app. left; exact F.
    - intros s [->|Hs] Hs'; [apply Hx, in_or_app; right; exact Hs'|apply (H3 s Hs Hs')]. }
  destruct NCd as (Nc1 & Nc2 & Nc3).
  destruct v as [i|id|id|id|id]; destruct v' as [i'|id'|id'|id'|id']; cbv beta iota in HK; try (exfalso; lia); try (f_equal; []).
  - (* two dependents *)
    cbn [varText] in E.
    destruct (custom (ng_depNames g) i) as [s|] eqn:E1; destruct (custom (ng_depNames g) i') as [s'|] eqn:E2.
    + subst s'. eapply custom_inj; eassumption.
    + subst s. apply custom_in, Cd, Cno in E1. exfalso. apply E1, elem_has.
    + subst s'. apply custom_in, Cd, Cno in E2. exfalso. apply E2, elem_has.
    + apply elem_inj in E; [tauto|assumption|assumption].
  - exfalso. destruct (DD i) as [[k Ed]|Hd]; destruct (indepName_cases (ng_indep g) id' V') as [(b & k' & Hb & Ei)|Hi].
    + rewrite Ed in E. cbn [varText] in E. rewrite Ei in E. apply elem_inj in E; [|assumption|apply Pb, Pi, Hb].
      destruct E as [E _]. apply Nd. rewrite E. do 3 right. exact Hb.
    + rewrite Ed in E. cbn [varText] in E. rewrite <- E in Hi. apply Ci, Cno in Hi. apply Hi, elem_has.
    + rewrite E in Hd. cbn [varText] in Hd. rewrite Ei in Hd. apply Cd, Cno in Hd. apply Hd, elem_has.
    + rewrite E in Hd. apply (Nc3 _ Hd Hi).
  - exfalso. cbn [varText] in E. fold (varText g (VDep i)) in E. destruct (ng_tmpArray g) eqn:Et; destruct (DD i) as [[k Ed]|Hd].
    + rewrite Ed in E. apply elem_inj in E; [|assumption|assumption]. destruct E as [E _]. apply Nd. left. congruence.
    + rewrite E in Hd. apply Cd, Cno in Hd. apply Hd, elem_has.
    + rewrite Ed in E. pose proof (elem_has (ng_dep g) k) as F. rewrite E in F. apply has_app in F.
      destruct F as [F|F]; [contradiction|]. revert F. apply dec_bracket.
    + rewrite E in Hd. apply Cd in Hd. apply (Upre eq_refl) in Hd. rewrite prefix_app in Hd. discriminate.
  - exfalso. apply (NOAMP (VDep i) I V). rewrite E. apply ISAMP.
  - exfalso. apply (NOAMP (VDep i) I V). rewrite E. apply ISAMP.
  - cbn [varText] in E. revert E. apply indepName_inj; auto.
  - exfalso. cbn [varText] in E. destruct (indepName_cases (ng_indep g) id V) as [(b & k' & Hb & Ei)|Hi]; destruct (ng_tmpArray g) eqn:Et.
    + rewrite Ei in E. apply elem_inj in E; [|apply Pb, Pi, Hb|assumption]. destruct E as [-> _]. apply Nt. do 2 right. exact Hb.
    + rewrite Ei in E. pose proof (elem_has b k') as F. rewrite E in F. apply has_app in F.
      destruct F as [F|F]; [contradiction|]. revert F. apply dec_bracket.
    + rewrite E in Hi. apply Ci, Cno in Hi. apply Hi, elem_has.
    + rewrite E in Hi. apply Ci, (Upre eq_refl) in Hi. rewrite prefix_app in Hi. discriminate.
  - exfalso. apply (NOAMP (VIndep id) I V). rewrite E. apply ISAMP.
  - exfalso. apply (NOAMP (VIndep id) I V). rewrite E. apply ISAMP.
  - cbn [varText] in E. cbn [validVar] in V, V'. destruct (ng_tmpArray g).
    + apply elem_inj in E; [lia|assumption|assumption].
    + apply app_head in E. apply dec_inj, E.
  - exfalso. apply (NOAMP (VTemp id) I V). rewrite E. apply ISAMP.
  - exfalso. apply (NOAMP (VTemp id) I V). rewrite E. apply ISAMP.
  - cbn [varText validVar] in *. apply app_head in E. apply elem_inj in E; [lia|assumption|assumption].
  - exfalso. cbn [varText] in *. apply app_head in E. apply elem_inj in E; [|assumption|assumption].
    destruct E as [E _]. apply Na. left. congruence.
  - cbn [varText validVar] in *. apply app_head in E. apply elem_inj in E; [lia|assumption|assumption].
Qed.
Print Assumptions C32_names_identify_variables.

(** the names LanguageC uses for Hessians by default: x, mult, y, v, array, sarray *)
Definition hessGen : ngen := mkNgen (IHess (IDefault "x") 3 "mult") [] "y" "v" "array" "sarray" true 6.
Example C32_case : usable hessGen /\ varText hessGen (VIndep 4) = "mult[0]" /\ varText hessGen (VIndep 12) = "mult[8]" /\
  varText hessGen (VTemp 18) = "v[12]" /\ varText hessGen (VArray 2) = "&array[1]".
Proof.
  split; [|repeat split].
  constructor; cbn.
  - repeat constructor; cbn; intuition discriminate.
  - intros b Hb. repeat (destruct Hb as [<-|Hb]; [split; cbn; intuition discriminate|]). destruct Hb.
  - constructor.
  - intros b [].
  - intros _ b [].
Qed.
(** individual names, temporaries written as v5 *)
Example C32_custom_case :
  usable (mkNgen (ICustom ["temperature"; ""; "flow"] "x") ["energy"] "y" "v" "array" "sarray" false 5) /\
  varText (mkNgen (ICustom ["temperature"; ""; "flow"] "x") ["energy"] "y" "v" "array" "sarray" false 5) (VIndep 2) = "x[1]" /\
  varText (mkNgen (ICustom ["temperature"; ""; "flow"] "x") ["energy"] "y" "v" "array" "sarray" false 5) (VIndep 3) = "flow".
Proof.
  split; [|repeat split].
  constructor; cbn.
  - repeat constructor; cbn; intuition discriminate.
  - intros b Hb. repeat (destruct Hb as [<-|Hb]; [split; cbn; intuition discriminate|]). destruct Hb.
  - repeat constructor; cbn; intuition discriminate.
  - intros b Hb. repeat (destruct Hb as [<-|Hb]; [split; cbn; intuition discriminate|]). destruct Hb.
  - intros _ b Hb. repeat (destruct Hb as [<-|Hb]; [reflexivity|]). destruct Hb.
Qed.

(** *** What the generator says about arrays (used to copy arguments with a loop) *)

(** generators without individual names *)
Fixpoint noCustom (g : igen) : Prop :=
  match g with IDefault _ => True | ICustom _ _ => False | IHess g _ _ => noCustom g | IRev2 g _ _ _ _ => noCustom g end.
(** ... or with individual names but not wrapped *)
Definition flat (g : igen) : Prop := match g with ICustom _ _ => True | _ => noCustom g end.

Lemma place_noCustom g : noCustom g -> forall id, indepName g id = elem (arrayName g id) (arrayIndex g id).
Proof.
  induction g as [name|names name|g IH n mult|g IH n n1 l1 l2]; intros H id; cbn in H; cbn [indepName arrayName arrayIndex];
    [reflexivity|destruct H| |].
  - destruct (Nat.ltb id (n + 1)); [apply IH, H|reflexivity].
  - destruct (Nat.ltb id (n + 1)); [apply IH, H|]. destruct (Nat.ltb id (n + 1 + n1)); reflexivity.
Qed.
Lemma notCustom_true names k : notCustom names k = Some true -> custom names k = None.
Proof.
  unfold notCustom, custom. destruct (Nat.ltb_spec (List.length names) k) as [H|H].
  - intros _. destruct (nth_error names k) eqn:E; [|reflexivity]. exfalso. assert (k < List.length names) by (apply nth_error_Some; congruence). lia.
  - destruct (nth_error names k) as [[|a s]|]; cbn; congruence.
Qed.

(** Independents said to be consecutive are consecutive elements of one array. *)
Theorem C32_consecutive_independents :
  forall g id id', 1 <= id -> 1 <= id' -> consecutive g id id' = Some true ->
  exists a k, indepName g id = elem a k /\ indepName g id' = elem a (k + 1) /\
              a = arrayName g id /\ k = arrayIndex g id /\ a = arrayName g id' /\ k + 1 = arrayIndex g id'.
Proof.
  induction g as [name|names name|g IH n mult|g IH n n1 l1 l2]; intros id id' Hid Hid' H; cbn [consecutive] in H;
    cbn [indepName arrayName arrayIndex].
  - injection H as H. apply Nat.eqb_eq in H. exists name, (id - 1). replace (id' - 1) with (id - 1 + 1) by lia. auto 10.
  - destruct (notCustom names (id - 1)) as [[|]|] eqn:E1; try discriminate.
    destruct (notCustom names (id' - 1)) as [[|]|] eqn:E2; try discriminate.
    injection H as H. apply Nat.eqb_eq in H. rewrite (notCustom_true _ _ E1), (notCustom_true _ _ E2).
    exists name, (id - 1). rewrite <- H. auto 10.
  - destruct (Nat.ltb_spec id (n + 1)) as [L1|L1]; destruct (Nat.ltb_spec id' (n + 1)) as [L2|L2]; cbn [xorb andb] in H; try discriminate.
    + apply IH; assumption.
    + injection H as H. apply Nat.eqb_eq in H. exists mult, (id - (n + 1)). replace (id' - (n + 1)) with (id - (n + 1) + 1) by lia. auto 10.
  - destruct (Nat.ltb_spec id (n + 1)) as [L1|L1]; destruct (Nat.ltb_spec id' (n + 1)) as [L2|L2]; cbn [xorb andb] in H; try discriminate.
    + apply IH; assumption.
    + destruct (Nat.ltb_spec id (n + 1 + n1)) as [L3|L3]; destruct (Nat.ltb_spec id' (n + 1 + n1)) as [L4|L4]; cbn [xorb] in H; try discriminate.
      * injection H as H. apply Nat.eqb_eq in H. exists l1, (id - (n + 1)). replace (id' - (n + 1)) with (id - (n + 1) + 1) by lia. auto 10.
      * injection H as H. apply Nat.eqb_eq in H. exists l2, (id - (n + 1 + n1)).
        replace (id' - (n + 1 + n1)) with (id - (n + 1 + n1) + 1) by lia. auto 10.
Qed.
Print Assumptions C32_consecutive_independents.
Example C32_consecutive_case :
  consecutive (IRev2 (ICustom ["a"; ""; ""; ""] "x") 4 2 "tx1" "py2") 2 3 = Some true /\
  consecutive (IRev2 (IDefault "x") 4 2 "tx1" "py2") 5 6 = Some true /\ consecutive (IRev2 (IDefault "x") 4 2 "tx1" "py2") 6 7 = Some false.
Proof. repeat split. Qed.

(** Independents said to be in the same array are elements of it, when individual names are not wrapped. *)
Theorem C32_same_array :
  forall g id id', flat g -> (match g with IHess g _ _ | IRev2 g _ _ _ _ => exists x, g = IDefault x | _ => True end) ->
  inSame g id id' = Some true ->
  arrayName g id = arrayName g id' /\
  indepName g id = elem (arrayName g id) (arrayIndex g id) /\ indepName g id' = elem (arrayName g id') (arrayIndex g id').
Proof.
  intros g id id' Hf Hw H.
  destruct g as [name|names name|g n mult|g n n1 l1 l2].
  - repeat split.
  - cbn [inSame] in H. destruct (notCustom names (id - 1)) as [[|]|] eqn:E1; try discriminate.
    cbn [indepName arrayName arrayIndex]. rewrite (notCustom_true _ _ E1), (notCustom_true _ _ H). auto.
  - destruct Hw as [x ->]. split; [|split; apply place_noCustom; exact I]. cbn [inSame] in H. cbn [arrayName].
    destruct (Nat.ltb id (n + 1)); destruct (Nat.ltb id' (n + 1)); cbn in H; congruence.
  - destruct Hw as [x ->]. split; [|split; apply place_noCustom; exact I]. cbn [inSame] in H. cbn [arrayName].
    destruct (Nat.ltb id (n + 1)); destruct (Nat.ltb id' (n + 1)); destruct (Nat.ltb id (n + 1 + n1));
      destruct (Nat.ltb id' (n + 1 + n1)); cbn in H; congruence.
Qed.
Print Assumptions C32_same_array.
Example C32_same_array_case : inSame (IRev2 (IDefault "x") 4 2 "tx1" "py2") 5 6 = Some true /\ flat (IRev2 (IDefault "x") 4 2 "tx1" "py2").
Proof. split; reflexivity || exact I. Qed.

(** With k individual names, asking about independent k + 1 (the first one without a name in the list) reads past
    the end of the list of names, whatever the other independent. *)
Theorem C32_custom_boundary_refuted :
  forall names name id', inSame (ICustom names name) (List.length names + 1) id' = None /\
                         consecutive (ICustom names name) (List.length names + 1) id' = None.
Proof.
  intros names name id'. cbn [inSame consecutive]. replace (List.length names + 1 - 1) with (List.length names) by lia.
  unfold notCustom. rewrite Nat.ltb_irrefl. destruct (nth_error names (List.length names)) eqn:E; [|auto].
  exfalso. assert (List.length names < List.length names) by (apply nth_error_Some; congruence). lia.
Qed.
Print Assumptions C32_custom_boundary_refuted.

(** The generators for Hessians and second order reverse mode do not ask the generator they wrap: an
    independent with its own name is said to be in the array x, and the loop would read x[0]. *)
Theorem C32_wrapped_custom_names_refuted :
  exists g, g = IHess (ICustom ["temperature"; ""] "x") 2 "mult" /\ inSame g 1 2 = Some true /\
  indepName g 1 = "temperature" /\ elem (arrayName g 1) (arrayIndex g 1) = "x[0]".
Proof. eexists. repeat split. Qed.
Print Assumptions C32_wrapped_custom_names_refuted.

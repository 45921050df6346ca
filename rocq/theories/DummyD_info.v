From Coq Require Import List Arith Bool ZArith Permutation Lia.
From Verif Require Import DaeGen_model Compare_model DummyD_model DummyD_spec DaeGen_lists DummyD_select.
Import ListNotations.
Local Open Scope nat_scope.

(** ** The mark of dummy derivatives *)
Lemma setAnti_setDer v a d : setAnti (setDer v d) a = setDer (setAnti v a) d. Proof. reflexivity. Qed.
Definition mark1 (ds : list (nat * nat)) (p : nat) (v : vinfo) : vinfo :=
  let v := if existsb (fun d => fst d =? p) ds then setAnti v None else v in
  if existsb (fun d => snd d =? p) ds then setDer v None else v.
Lemma mark_nth ds vs p : nth_error (markDummies ds vs) p = option_map (mark1 ds p) (nth_error vs p).
Proof.
  unfold markDummies. revert vs. induction ds as [|(d, a) r IH]; intro vs.
  - cbn [fold_left]. unfold mark1. cbn [existsb]. now destruct (nth_error vs p).
  - cbn [fold_left fst snd]. rewrite IH. rewrite !upd_nth. destruct (nth_error vs p) as [v|]; [|now destruct (p =? d), (p =? a)].
    unfold mark1. cbn [existsb fst snd]. rewrite (Nat.eqb_sym d p), (Nat.eqb_sym a p).
    destruct (p =? d), (p =? a), (existsb (fun x => fst x =? p) r), (existsb (fun x => snd x =? p) r); reflexivity.
Qed.

(** ** Positions *)
Lemma mapi_nth {A B} (f : nat * A -> B) l k : nth_error (map f (combine (seq 0 (List.length l)) l)) k = option_map (fun z => f (k, z)) (nth_error l k).
Proof.
  assert (G : forall s, nth_error (map f (combine (seq s (List.length l)) l)) k = option_map (fun z => f (s + k, z)) (nth_error l k)).
  { revert k. induction l as [|x l IH]; intros k s; [now destruct k|]. cbn [List.length seq combine map]. destruct k as [|k].
    - cbn. now rewrite Nat.add_0_r.
    - cbn [nth_error]. rewrite IH. now replace (S s + k) with (s + S k) by lia. }
  apply G.
Qed.
Section Rem.
Variable removed : nat -> bool.
Definition kc (a b : nat) : nat := List.length (filter (fun k => negb (removed k)) (seq a (b - a))).
Lemma kc_S a b : a < b -> kc a b = (if removed a then 0 else 1) + kc (S a) b.
Proof.
  intro L. unfold kc. replace (b - a) with (S (b - S a)) by lia. cbn [seq filter]. destruct (removed a); reflexivity.
Qed.
Lemma kc_S_r a b : a <= b -> kc a (S b) = kc a b + (if removed b then 0 else 1).
Proof.
  intro L. unfold kc. replace (S b - a) with (b - a + 1) by lia. rewrite seq_app, filter_app, app_length. f_equal.
  replace (a + (b - a)) with b by lia. cbn. now destruct (removed b).
Qed.
Lemma kc_same a : kc a a = 0. Proof. unfold kc. now rewrite Nat.sub_diag. Qed.
Lemma kc_le a b : kc a b <= b - a.
Proof. unfold kc. assert (H := filter_len (fun k => negb (removed k)) (seq a (b - a))). rewrite seq_length in H. cbv beta in H. lia. Qed.
Lemma kept_kc p : keptBefore removed p = kc 0 p.
Proof. unfold keptBefore, kc. now rewrite Nat.sub_0_r. Qed.

(** ** The new indexes *)
Definition sval (i k : nat) : Z := if removed k then (-1)%Z else (Z.of_nat k - (Z.of_nat (Nat.min i k) - Z.of_nat (kc 0 (Nat.min i k))))%Z.
Lemma sval_neg i k : (sval i k <? 0)%Z = removed k.
Proof.
  unfold sval. destruct (removed k); [reflexivity|]. apply Z.ltb_ge. assert (kc 0 (Nat.min i k) <= Nat.min i k) by (etransitivity; [apply kc_le|lia]). lia.
Qed.
Lemma decAfter_nth i l k : nth_error (decAfter i l) k = option_map (fun z => if (i <? k) && (0 <=? z)%Z then (z - 1)%Z else z) (nth_error l k).
Proof. unfold decAfter. now rewrite mapi_nth. Qed.
Lemma shorten_steps n i : i <= n -> forall k, nth_error (fold_left (fun l i => if (nth i l 0 <? 0)%Z then decAfter i l else l) (seq 0 i)
            (map (fun p => if removed p then (-1)%Z else Z.of_nat p) (seq 0 n))) k = if k <? n then Some (sval i k) else None.
Proof.
  induction i as [|i IH]; intros L k.
  - cbn [seq fold_left]. rewrite nth_error_map. destruct (Nat.ltb_spec k n).
    + rewrite nth_error_nth' with (d := 0) by (now rewrite seq_length). rewrite seq_nth by lia. cbn [option_map]. f_equal. unfold sval.
      cbn [Nat.min plus]. rewrite kc_same. destruct (removed k); [easy|]. lia.
    + replace (nth_error (seq 0 n) k) with (@None nat); [reflexivity|]. symmetry. apply nth_error_None. rewrite seq_length. lia.
  - rewrite seq_S, fold_left_app. cbn [fold_left plus].
    set (l := fold_left _ (seq 0 i) _) in *. specialize (IH ltac:(lia)).
    assert (NI : nth i l 0%Z = sval i i).
    { apply nth_error_nth. rewrite IH. destruct (Nat.ltb_spec i n); [reflexivity|lia]. }
    rewrite NI, sval_neg. destruct (removed i) eqn:RI.
    + rewrite decAfter_nth, IH. destruct (k <? n); [|reflexivity]. cbn [option_map]. f_equal.
      rewrite <- (negb_involutive (0 <=? sval i k)%Z). rewrite <- Z.ltb_antisym, sval_neg. unfold sval.
      destruct (removed k) eqn:RK; cbn [negb]; [now rewrite andb_false_r|]. rewrite andb_true_r.
      destruct (Nat.ltb_spec i k).
      * rewrite (Nat.min_l i k), (Nat.min_l (S i) k) by lia. rewrite kc_S_r, RI by lia. lia.
      * rewrite (Nat.min_r i k), (Nat.min_r (S i) k) by lia. lia.
    + rewrite IH. destruct (k <? n); [|reflexivity]. f_equal. unfold sval. destruct (removed k) eqn:RK; [reflexivity|].
      destruct (le_lt_dec k i).
      * rewrite (Nat.min_r i k), (Nat.min_r (S i) k) by lia. lia.
      * rewrite (Nat.min_l i k), (Nat.min_l (S i) k) by lia. rewrite kc_S_r, RI by lia. lia.
Qed.
Lemma shorten_nth n k : k < n -> nth_error (shorten removed n) k = Some (if removed k then (-1)%Z else Z.of_nat (keptBefore removed k)).
Proof.
  intro L. unfold shorten. rewrite shorten_steps by lia. rewrite (proj2 (Nat.ltb_lt _ _) L). f_equal. unfold sval.
  rewrite kept_kc, Nat.min_r by lia. destruct (removed k); lia.
Qed.
Lemma short_ok n a : (forall x, a = Some x -> x < n) ->
  short (shorten removed n) a = option_map (keptBefore removed) (only (fun x => negb (removed x)) a).
Proof.
  intro B. destruct a as [a|]; [|reflexivity]. cbn [short only]. specialize (B a eq_refl).
  assert (N : nth a (shorten removed n) (-1)%Z = if removed a then (-1)%Z else Z.of_nat (keptBefore removed a)).
  { apply nth_error_nth. now apply shorten_nth. }
  rewrite N. destruct (removed a); cbn [negb option_map]; [reflexivity|].
  destruct (Z.ltb_spec (Z.of_nat (keptBefore removed a)) 0); [lia|]. now rewrite Nat2Z.id.
Qed.

(** ** Erasures from the end *)
Definition pos (p j : nat) : nat := if j <? p then j else p + kc p j.
Definition stays (p j : nat) : bool := (j <? p) || negb (removed j).
Definition opos (p : nat) (a : option nat) : option nat := option_map (pos p) (only (stays p) a).
Lemma pos_keep p j : removed p = false -> pos (S p) j = pos p j.
Proof.
  intro K. unfold pos. destruct (Nat.ltb_spec j (S p)), (Nat.ltb_spec j p); try lia.
  - assert (j = p) by lia. subst. rewrite kc_same. lia.
  - rewrite (kc_S p j) by lia. rewrite K. lia.
Qed.
Lemma pos_rem p j : removed p = true -> p < j -> pos (S p) j = S (pos p j).
Proof.
  intros K L. unfold pos. destruct (Nat.ltb_spec j (S p)), (Nat.ltb_spec j p); try lia.
  rewrite (kc_S p j) by lia. rewrite K. lia.
Qed.
Lemma pos_ge p j : p <= j -> p <= pos p j.
Proof. intro L. unfold pos. destruct (Nat.ltb_spec j p); lia. Qed.
Lemma pos_lt p j : j < p -> pos p j = j.
Proof. intro L. unfold pos. now rewrite (proj2 (Nat.ltb_lt _ _) L). Qed.
Lemma stays_keep p j : removed p = false -> stays (S p) j = stays p j.
Proof.
  intro K. unfold stays. destruct (Nat.ltb_spec j (S p)), (Nat.ltb_spec j p); try lia; try reflexivity.
  assert (j = p) by lia. subst. now rewrite K.
Qed.
Lemma opos_keep p a : removed p = false -> opos (S p) a = opos p a.
Proof.
  intro K. unfold opos, only. destruct a as [a|]; [|reflexivity]. rewrite stays_keep by easy. destruct (stays p a); [|reflexivity].
  cbn [option_map]. now rewrite pos_keep.
Qed.
Lemma opos_rem p a : removed p = true -> shiftIndex p (opos (S p) a) = opos p a.
Proof.
  intro K. unfold opos, only. destruct a as [a|]; [|reflexivity]. unfold stays.
  destruct (Nat.ltb_spec a (S p)).
  - cbn [orb option_map]. rewrite pos_lt by lia. cbn [shiftIndex]. destruct (Nat.ltb_spec p a); [lia|].
    destruct (Nat.eqb_spec a p) as [->|].
    + rewrite Nat.ltb_irrefl. cbn [orb]. rewrite K. reflexivity.
    + rewrite (proj2 (Nat.ltb_lt a p)) by lia. cbn [orb option_map]. rewrite pos_lt by lia. reflexivity.
  - rewrite (proj2 (Nat.ltb_ge a p)) by lia. cbn [orb]. destruct (removed a) eqn:RA; cbn [negb option_map shiftIndex]; [reflexivity|].
    rewrite pos_rem by (easy || lia). assert (p <= pos p a) by (apply pos_ge; lia).
    destruct (Nat.ltb_spec p (S (pos p a))); [|lia]. f_equal. lia.
Qed.
Lemma removeAt_length {A} k (l : list A) : k < List.length l -> List.length (removeAt k l) = List.length l - 1.
Proof. revert k. induction l as [|x l IH]; intros k L; [cbn in L; lia|]. destruct k; cbn in *; [lia|]. rewrite IH by lia. lia. Qed.

(** *** Variables *)
Variable vs : list vinfo.
Definition eraseV (l : list vinfo) (p : nat) : list vinfo := if removed p then map (shiftVar p) (removeAt p l) else l.
Definition relink (p : nat) (v : vinfo) : vinfo := setDer (setAnti v (opos p (i_anti v))) (opos p (i_der v)).
Definition StV (p : nat) (l : list vinfo) : Prop :=
  List.length l = p + kc p (List.length vs) /\
  forall j v, nth_error vs j = Some v -> stays p j = true -> nth_error l (pos p j) = Some (relink p v).
Lemma setLinks v : setDer (setAnti v (i_anti v)) (i_der v) = v. Proof. now destruct v. Qed.
Lemma opos_all n a : (forall x, a = Some x -> x < n) -> opos n a = a.
Proof.
  intro B. destruct a as [a|]; [|reflexivity]. specialize (B a eq_refl). unfold opos, only, stays.
  rewrite (proj2 (Nat.ltb_lt _ _) B). cbn [orb option_map]. now rewrite pos_lt.
Qed.
Lemma StV_init : linksIn vs -> StV (List.length vs) vs.
Proof.
  intro LI. split; [rewrite kc_same; lia|]. intros j v E _. assert (L := nth_lt _ _ _ E). rewrite pos_lt by lia. rewrite E. f_equal.
  unfold relink. rewrite !opos_all; [now rewrite setLinks| |]; intros x X; apply (LI j v x E); auto.
Qed.
Lemma StV_step p l : p < List.length vs -> StV (S p) l -> StV p (eraseV l p).
Proof.
  intros L (LL & C). unfold eraseV, StV. rewrite (kc_S p) by easy. destruct (removed p) eqn:K.
  - split; [rewrite map_length, removeAt_length; lia|]. intros j v E ST.
    assert (NE : j <> p).
    { intros ->. unfold stays in ST. rewrite Nat.ltb_irrefl, K in ST. discriminate. }
    assert (ST' : stays (S p) j = true).
    { unfold stays in *. destruct (Nat.ltb_spec j (S p)); [reflexivity|]. rewrite (proj2 (Nat.ltb_ge j p)) in ST by lia. exact ST. }
    specialize (C j v E ST'). rewrite nth_error_map, removeAt_nth.
    assert (R : shiftVar p (relink (S p) v) = relink p v).
    { unfold shiftVar, relink. destruct v; cbn. now rewrite !opos_rem. }
    destruct (lt_dec j p).
    + rewrite !pos_lt in * by lia. rewrite (proj2 (Nat.ltb_lt j p)) by lia. rewrite C. cbn [option_map]. now rewrite R.
    + rewrite pos_rem in C by (easy || lia). assert (G := pos_ge p j ltac:(lia)). rewrite (proj2 (Nat.ltb_ge (pos p j) p)) by lia.
      rewrite C. cbn [option_map]. now rewrite R.
  - split; [lia|]. intros j v E ST. rewrite <- pos_keep by easy. rewrite C with (v := v); [|easy|now rewrite stays_keep].
    unfold relink. now rewrite !opos_keep.
Qed.
Lemma StV_all p l : p <= List.length vs -> StV p l -> StV 0 (fold_left eraseV (rev (seq 0 p)) l).
Proof.
  revert l. induction p as [|p IH]; intros l L H; [exact H|]. rewrite seq_S, rev_app_distr. cbn [rev app fold_left plus].
  apply IH; [lia|]. now apply StV_step.
Qed.
Lemma eraseVars_fold ps l b (n : nat) :
  fst (fold_left (fun (s : list vinfo * bool) p =>
      if removed p then
        let l := removeAt p (fst s) in (map (shiftVar p) l, snd s || (List.length l <? n)) else s) ps (l, b)) = fold_left eraseV ps l.
Proof.
  revert l b. induction ps as [|p ps IH]; intros l b; [reflexivity|]. cbn [fold_left]. unfold eraseV at 2.
  destruct (removed p); cbn [fst snd]; cbv zeta; apply IH.
Qed.
Lemma eraseVars_ok : linksIn vs ->
  List.length (fst (eraseVars removed vs)) = keptBefore removed (List.length vs) /\
  forall j v, nth_error vs j = Some v -> removed j = false ->
    nth_error (fst (eraseVars removed vs)) (keptBefore removed j) =
    Some (setDer (setAnti v (option_map (keptBefore removed) (only (fun k => negb (removed k)) (i_anti v))))
                 (option_map (keptBefore removed) (only (fun k => negb (removed k)) (i_der v)))).
Proof.
  intro LI. unfold eraseVars. rewrite eraseVars_fold.
  destruct (StV_all (List.length vs) vs (le_n _) (StV_init LI)) as (A & B). rewrite kept_kc. split; [exact A|].
  intros j v E K. rewrite kept_kc. assert (ST : stays 0 j = true) by (unfold stays; now rewrite K).
  specialize (B j v E ST). unfold pos in B. cbn [Nat.ltb Nat.leb plus] in B. change (j <? 0) with false in B. cbv iota in B. rewrite B.
  assert (OP : forall a, opos 0 a = option_map (keptBefore removed) (only (fun k => negb (removed k)) a)).
  { intros [a|]; [|reflexivity]. unfold opos, only, stays. change (a <? 0) with false. cbn [orb]. destruct (negb (removed a)); [|reflexivity].
    cbn [option_map]. f_equal. unfold pos. change (a <? 0) with false. cbv iota. now rewrite kept_kc. }
  unfold relink. now rewrite !OP.
Qed.
(** *** The access past the end *)
Lemma overrun_fold p l b n : p <= List.length l <= n ->
  snd (fold_left (fun (s : list vinfo * bool) p =>
      if removed p then
        let l := removeAt p (fst s) in (map (shiftVar p) l, snd s || (List.length l <? n)) else s) (rev (seq 0 p)) (l, b)) = b || existsb removed (seq 0 p).
Proof.
  revert l b. induction p as [|p IH]; intros l b L; [cbn; now rewrite orb_false_r|].
  rewrite seq_S, rev_app_distr, existsb_app. cbn [rev app fold_left plus existsb]. destruct (removed p).
  - cbn [fst snd]. cbv zeta. rewrite IH.
    + rewrite removeAt_length by lia. rewrite (proj2 (Nat.ltb_lt _ n)) by lia. now rewrite !orb_true_r.
    + rewrite map_length, removeAt_length by lia. lia.
  - rewrite IH by lia. now rewrite !orb_false_r.
Qed.
Lemma eraseVars_overrun : snd (eraseVars removed vs) = existsb removed (seq 0 (List.length vs)).
Proof. unfold eraseVars. now rewrite overrun_fold by lia. Qed.
End Rem.

(** *** Equations *)
Section RemE.
Variable removed : nat -> bool.
Variable qs : list dinfo.
Variable f : dinfo -> dinfo.
Definition eraseE (l : list dinfo) (p : nat) : list dinfo := if removed p then removeAt p l else upd f p l.
Definition StE (p : nat) (l : list dinfo) : Prop :=
  List.length l = p + kc removed p (List.length qs) /\
  forall j q, nth_error qs j = Some q -> stays removed p j = true -> nth_error l (pos removed p j) = Some (if j <? p then q else f q).
Lemma StE_step p l : p < List.length qs -> StE (S p) l -> StE p (eraseE l p).
Proof.
  intros L (LL & C). unfold eraseE. unfold StE. rewrite (kc_S removed p) by easy. destruct (removed p) eqn:K.
  - split; [rewrite removeAt_length; lia|]. intros j v E ST.
    assert (NE : j <> p).
    { intros ->. unfold stays in ST. rewrite Nat.ltb_irrefl, K in ST. discriminate. }
    assert (ST' : stays removed (S p) j = true).
    { unfold stays in *. destruct (Nat.ltb_spec j (S p)); [reflexivity|]. rewrite (proj2 (Nat.ltb_ge j p)) in ST by lia. exact ST. }
    specialize (C j v E ST'). rewrite removeAt_nth. destruct (lt_dec j p).
    + rewrite !pos_lt in * by lia. rewrite (proj2 (Nat.ltb_lt j p)) by lia. rewrite (proj2 (Nat.ltb_lt j (S p))) in C by lia. exact C.
    + rewrite pos_rem in C by (easy || lia). assert (G := pos_ge removed p j ltac:(lia)). rewrite (proj2 (Nat.ltb_ge (pos removed p j) p)) by lia.
      rewrite (proj2 (Nat.ltb_ge j p)) by lia. rewrite (proj2 (Nat.ltb_ge j (S p))) in C by lia. exact C.
  - split; [rewrite upd_length; lia|]. intros j v E ST. rewrite <- pos_keep by easy.
    specialize (C j v E). rewrite stays_keep in C by easy. specialize (C ST). destruct (Nat.eq_dec j p) as [->|NE].
    + rewrite pos_lt in * by lia. rewrite (upd_same _ _ _ _ C). rewrite Nat.ltb_irrefl. now rewrite (proj2 (Nat.ltb_lt p (S p))) by lia.
    + rewrite upd_other.
      * rewrite C. destruct (Nat.ltb_spec j (S p)), (Nat.ltb_spec j p); try lia; reflexivity.
      * destruct (lt_dec j p); [rewrite pos_lt; lia|]. assert (G := pos_ge removed (S p) j ltac:(lia)). lia.
Qed.
Lemma StE_all p l : p <= List.length qs -> StE p l -> StE 0 (fold_left eraseE (rev (seq 0 p)) l).
Proof.
  revert l. induction p as [|p IH]; intros l L H; [exact H|]. rewrite seq_S, rev_app_distr. cbn [rev app fold_left plus].
  apply IH; [lia|]. now apply StE_step.
Qed.
Lemma StE_init : StE (List.length qs) qs.
Proof.
  split; [rewrite kc_same; lia|]. intros j v E _. assert (L := nth_lt _ _ _ E). rewrite pos_lt by lia. rewrite E.
  now rewrite (proj2 (Nat.ltb_lt _ _) L).
Qed.
End RemE.
Lemma eraseEqs_ok removed varMap eqMap qs :
  let f q := setEqAnti (setVar q (short varMap (d_var q))) (short eqMap (d_anti q)) in
  List.length (eraseEqs removed varMap eqMap qs) = keptBefore removed (List.length qs) /\
  forall j q, nth_error qs j = Some q -> removed j = false -> nth_error (eraseEqs removed varMap eqMap qs) (keptBefore removed j) = Some (f q).
Proof.
  intro f. destruct (StE_all removed qs f (List.length qs) qs (le_n _) (StE_init removed qs f)) as (A & B).
  rewrite kept_kc. split; [exact A|]. intros j q E K. rewrite kept_kc. specialize (B j q E).
  assert (ST : stays removed 0 j = true) by (unfold stays; now rewrite K). specialize (B ST). unfold pos in B. change (j <? 0) with false in B.
  exact B.
Qed.

(** ** Positions that are kept are different and all positions are of something that is kept *)
Lemma kept_mono removed a b : a <= b -> keptBefore removed a <= keptBefore removed b.
Proof.
  intro L. rewrite !kept_kc. induction L as [|b L IH]; [lia|]. rewrite kc_S_r by lia. lia.
Qed.
Lemma kept_inj removed a b : removed a = false -> removed b = false -> keptBefore removed a = keptBefore removed b -> a = b.
Proof.
  intros A B E. destruct (lt_eq_lt_dec a b) as [[L| ->]|L]; [|reflexivity|]; exfalso.
  - assert (M := kept_mono removed (S a) b L). rewrite !kept_kc in *. rewrite kc_S_r, A in M by lia. lia.
  - assert (M := kept_mono removed (S b) a L). rewrite !kept_kc in *. rewrite kc_S_r, B in M by lia. lia.
Qed.
Lemma kept_onto removed n p : p < keptBefore removed n -> exists j, j < n /\ removed j = false /\ keptBefore removed j = p.
Proof.
  rewrite kept_kc. induction n as [|n IH]; [rewrite kc_same; lia|]. rewrite kc_S_r by lia. intro L.
  destruct (lt_dec p (kc removed 0 n)) as [L'|G].
  - destruct (IH L') as (j & A & B). exists j. split; [lia|exact B].
  - destruct (removed n) eqn:R; [lia|]. exists n. split; [lia|]. split; [easy|]. rewrite kept_kc. lia.
Qed.

(** ** Another order *)
Lemma reorderVars_nth vo vs p o v : nth_error vo p = Some o -> nth_error vs o = Some v ->
  nth_error (reorderVars vo vs) p = Some (setDer (setAnti v (option_map (fun a => posOf a vo) (i_anti v))) (option_map (fun d => posOf d vo) (i_der v))).
Proof. intros A B. unfold reorderVars. rewrite nth_error_map, A. cbn [option_map]. now rewrite B. Qed.
Lemma reorderEqs_nth vo eo qs p o q : nth_error eo p = Some o -> nth_error qs o = Some q ->
  nth_error (reorderEqs vo eo qs) p = Some (setVar q (option_map (fun a => posOf a vo) (d_var q))).
Proof. intros A B. unfold reorderEqs. rewrite nth_error_map, A. cbn [option_map]. now rewrite B. Qed.

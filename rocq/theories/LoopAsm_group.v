(** * The groups of loops: one iteration, all the iterations, all the loops *)
From Coq Require Import List Arith Bool NArith ZArith Sorting.Sorted Sorting.Permutation Lia.
From Verif Require Import Pool_model Pool_proofs Graph_model Codegen_model Index_model Range_model Range_spec LoopCond_model Assemble_model Assemble_proofs
  LoopAsm_model LoopAsm_spec LoopAsm_maps LoopAsm_run.
Import ListNotations.
Local Open Scope nat_scope.

(** ** Directions by number of elements *)
Definition counted (km : keymap) : list (nat * (nat * nat)) :=
  map (fun q => (length (snd (snd q)), (fst q, fst (snd q)))) (combine (seq 0 (length km)) km).
Lemma byCount_push km : byCount km = pushAll (counted km).
Proof.
  unfold byCount, pushAll, counted. generalize (@nil (nat * list (nat * nat))). induction (combine (seq 0 (length km)) km) as [|q l IH]; intros m; cbn [fold_left map fst snd]; [reflexivity|]. apply IH.
Qed.
Lemma nth_combine_seq {A} (l : list A) : forall st i a, nth_error (combine (seq st (length l)) l) i = Some a <-> fst a = st + i /\ nth_error l i = Some (snd a).
Proof.
  induction l as [|x l IH]; intros st i [b a]; cbn [length seq combine fst snd].
  - split; [destruct i; discriminate|]. intros [_ H]. destruct i; discriminate.
  - destruct i as [|i]; cbn [nth_error].
    + split; [intros E; injection E as <- <-; split; [lia|reflexivity]|]. intros [-> E]. injection E as ->. f_equal. f_equal. lia.
    + rewrite IH. cbn [fst snd]. split; intros [H1 H2]; (split; [lia|exact H2]).
Qed.
Lemma counted_In km c i k : In (c, (i, k)) (counted km) <-> exists s, nth_error km i = Some (k, s) /\ length s = c.
Proof.
  unfold counted. rewrite in_map_iff. split.
  - intros ([b [k' s]] & E & I). cbn [fst snd] in E. injection E as <- -> ->. apply In_nth_error in I. destruct I as [j Hj]. apply nth_combine_seq in Hj. cbn [fst snd] in Hj. destruct Hj as [-> Hj].
    exists s. split; [exact Hj|reflexivity].
  - intros (s & H & L). exists (i, (k, s)). cbn [fst snd]. split; [rewrite L; reflexivity|]. apply (nth_error_In _ i). apply nth_combine_seq. cbn [fst snd]. split; [lia|exact H].
Qed.
Lemma ofKey_In {A} k (qs : list (nat * A)) a : In a (ofKey k qs) <-> In (k, a) qs.
Proof.
  unfold ofKey. rewrite in_map_iff. split.
  - intros ([k' a'] & <- & I). apply filter_In in I. destruct I as [I E]. cbn [fst] in E. apply Nat.eqb_eq in E. subst k'. exact I.
  - intros I. exists (k, a). split; [reflexivity|]. apply filter_In. split; [exact I|cbn [fst]; apply Nat.eqb_refl].
Qed.
(** localIt goes up *)
Lemma counted_sorted km c : StronglySorted lt (map fst (ofKey c (counted km))).
Proof.
  unfold ofKey, counted. generalize 0 as st. induction km as [|[k s] km IH]; intros st; cbn [length seq combine map filter fst snd]; [constructor|].
  destruct (length s =? c); [|exact (IH (S st))]. cbn [map fst snd]. constructor; [exact (IH (S st))|]. rewrite Forall_forall. intros x Hx.
  apply in_map_iff in Hx. destruct Hx as ([a b] & <- & Hx). apply in_map_iff in Hx. destruct Hx as ([c' [a' b']] & E & Hx). cbn [snd] in E. injection E as -> ->.
  apply filter_In in Hx. destruct Hx as [Hx _]. apply in_map_iff in Hx. destruct Hx as ([q [k' s']] & E & Hx). cbn [fst snd] in E. injection E as _ -> _. apply in_combine_l in Hx. apply in_seq in Hx. cbn [fst]. lia.
Qed.

Lemma posAt_In km k s : NoDup (map fst km) -> In (k, s) km -> posAt km k = Some s.
Proof.
  unfold posAt. induction km as [|[k0 s0] km IH]; intros N I; [destruct I|]. cbn [find fst]. cbn [map fst] in N. inversion N as [|? ? N1 N2]; subst.
  destruct I as [E|I].
  - injection E as -> ->. rewrite Nat.eqb_refl. reflexivity.
  - destruct (Nat.eqb_spec k0 k) as [->|Hx]; [|exact (IH N2 I)]. exfalso. apply N1. apply (in_map fst) in I. exact I.
Qed.

Lemma mapO_fst {B} (f : nat * nat -> option (nat * B)) l : forall bs, mapO f l = Some bs -> (forall p b, f p = Some b -> fst b = fst p) -> map fst bs = map fst l.
Proof.
  induction l as [|a l IH]; intros bs H Hf; cbn [mapO] in H; [injection H as <-; reflexivity|].
  destruct (f a) as [b|] eqn:E; [|discriminate]. destruct (mapO f l) as [r|]; [|discriminate]. injection H as <-. cbn [map]. rewrite (IH r eq_refl Hf), (Hf _ _ E). reflexivity.
Qed.

Lemma filter_len {A} (f : A -> bool) l : length (filter f l) <= length l.
Proof. induction l as [|a l IH]; cbn [filter length]; [lia|]. destruct (f a); cbn [length]; lia. Qed.

Section Group.
Variable V : Type.
Variable zero : V.
Variable add : V -> V -> V.
Hypothesis Hmon : monoid V zero add.
Variables ks vs : list nat.
Hypothesis Hlen : length ks = length vs.
Hypothesis Hnd : NoDup (combine ks vs).
Variable is : list info.
Hypothesis Hent : entries ks vs = Some is.
Let n := length ks.
Let M := maxCompressed is.
Variable noLoop : nat -> option (list V).
Variable loopFn : nat -> nat -> option (list (nat * V)).
Variable LV : nat -> nat -> nat -> V.

(** what is known of an ArrayGroup *)
Definition made (g : lgroup) (a : agroup) : Prop := arrayGroup is g = Some a.

Lemma allOrdered_spec kl : (forall k, In k kl -> In k ks) ->
  (allOrdered is kl = Some true /\ forall k, In k kl -> together ks k) \/ (allOrdered is kl = Some false /\ exists k, In k kl /\ ~ together ks k).
Proof.
  induction kl as [|k kl IH]; intros H; cbn [allOrdered]; [left; split; [reflexivity|intros k []]|].
  destruct (infoAt_ok ks vs Hlen is Hent k (H k (or_introl eq_refl))) as (i & Ei & _). rewrite Ei.
  pose proof (ordered_together ks vs Hlen Hnd is Hent k i Ei (H k (or_introl eq_refl))) as O. destruct (i_ord i).
  - destruct IH as [[E T]|[E T]]; [intros k' I; apply H; right; exact I| |].
    + left. split; [exact E|]. intros k' [<-|I]; [apply O; reflexivity|exact (T k' I)].
    + right. split; [exact E|]. destruct T as (k' & I & T). exists k'. split; [right; exact I|exact T].
  - right. split; [reflexivity|]. exists k. split; [left; reflexivity|]. intros T. apply O in T. discriminate.
Qed.

Section OneGroup.
Variable g : lgroup.
Hypothesis Hg : group_ok ks g.
Let km := lg_keys g.

Lemma km_NoDup : NoDup (map fst km).
Proof. apply sorted_NoDup. exact (proj1 (proj1 Hg)). Qed.

(** one element group: patterns of the elements of one iteration *)
Lemma elementGroup_ok c its : In (c, its) (byCount km) ->
  exists eg, elementGroup is km (c, its) = Some eg /\ eg_keys eg = map snd its /\
  forall i k s, nth_error km i = Some (k, s) -> length s = c ->
    Forall2 (fun rc pe => patAt (fst rc) (idxOf (length km) i) = Some (fst pe) /\ patAt (snd rc) (idxOf (length km) i) = Some (snd pe)) (eg_pats eg)
      (map (fun e => (match locationOf is k e with Some p => p | None => 0 end, e)) s).
Proof.
  intros I. rewrite byCount_push in I. apply (proj2 (pushAll_spec _)) in I. destruct I as [Eits Nits].
  assert (Hin : forall i k, In (i, k) its <-> exists s, nth_error km i = Some (k, s) /\ length s = c).
  { intros i k. rewrite Eits, ofKey_In. apply counted_In. }
  destruct Hg as [[Sk Hk] _]. fold km in Sk, Hk.
  assert (Hpos : forall i k, In (i, k) its -> exists s, nth_error km i = Some (k, s) /\ length s = c /\ posAt km k = Some s).
  { intros i k J. apply Hin in J. destruct J as (s & E & L). exists s. split; [exact E|]. split; [exact L|]. apply posAt_In; [exact km_NoDup|exact (nth_error_In _ _ E)]. }
  set (fr := fun e (p : nat * nat) => match posAt km (snd p) with
                 | Some s => match nth_error s e with
                             | Some c => match locationOf is (snd p) c with Some l => Some (fst p, l) | None => None end
                             | None => None end
                 | None => None end).
  set (fc := fun e (p : nat * nat) => match posAt km (snd p) with
                 | Some s => match nth_error s e with Some c => Some (fst p, c) | None => None end
                 | None => None end).
  assert (Hf : forall e i k, e < c -> In (i, k) its -> exists s x, nth_error km i = Some (k, s) /\ nth_error s e = Some x /\ fc e (i, k) = Some (i, x) /\
    fr e (i, k) = Some (i, match locationOf is k x with Some p => p | None => 0 end)).
  { intros e i k Le J. destruct (Hpos i k J) as (s & E & L & P). unfold fc, fr. cbn [fst snd]. rewrite P.
    destruct (nth_error s e) as [x|] eqn:Ex; [|apply nth_error_None in Ex; lia]. exists s, x.
    destruct (Hk k s (nth_error_In _ _ E)) as (K1 & _ & _ & K2). destruct (locationOf_ok ks vs Hlen Hnd is Hent k x K1 (K2 x (nth_error_In _ _ Ex))) as (p & Ep & _). rewrite Ep. auto. }
  assert (Hmr : forall e, e < c -> exists r cp, resultPos is km its e = Some r /\ compressPos km its e = Some cp /\ map fst r = map fst its /\ map fst cp = map fst its /\
    forall i k s x, nth_error km i = Some (k, s) -> length s = c -> nth_error s e = Some x -> In (i, match locationOf is k x with Some p => p | None => 0 end) r /\ In (i, x) cp).
  { intros e Le. unfold resultPos, compressPos. fold (fr e). fold (fc e).
    destruct (mapO_some (fr e) its) as (r & Er). { intros [i k] J. destruct (Hf e i k Le J) as (s & x & _ & _ & _ & X). eexists. exact X. }
    destruct (mapO_some (fc e) its) as (cp & Ec). { intros [i k] J. destruct (Hf e i k Le J) as (s & x & _ & _ & X & _). eexists. exact X. }
    exists r, cp. split; [exact Er|]. split; [exact Ec|].
    split. { apply (mapO_fst (fr e) its r Er). intros p b. unfold fr. destruct (posAt km (snd p)); [|discriminate]. destruct (nth_error l e); [|discriminate]. destruct (locationOf is (snd p) n0); [|discriminate]. intros X. injection X as <-. reflexivity. }
    split. { apply (mapO_fst (fc e) its cp Ec). intros p b. unfold fc. destruct (posAt km (snd p)); [|discriminate]. destruct (nth_error l e); [|discriminate]. intros X. injection X as <-. reflexivity. }
    intros i k s x E L Ex. assert (J : In (i, k) its) by (apply Hin; exists s; auto).
    destruct (Hf e i k Le J) as (s' & x' & E' & Ex' & Xc & Xr). rewrite E in E'. injection E' as <-. rewrite Ex in Ex'. injection Ex' as <-.
    apply In_nth_error in J. destruct J as [j Hj]. split.
    - destruct (proj2 (mapO_spec _ _ _ Er) j _ Hj) as (b & Hb & Eb). rewrite Xr in Eb. injection Eb as <-. exact (nth_error_In _ _ Hb).
    - destruct (proj2 (mapO_spec _ _ _ Ec) j _ Hj) as (b & Hb & Eb). rewrite Xc in Eb. injection Eb as <-. exact (nth_error_In _ _ Hb). }
  assert (Sits : StronglySorted lt (map fst its)) by (rewrite Eits; apply counted_sorted).
  assert (Lits : length its <= length km).
  { rewrite Eits. unfold ofKey, counted. rewrite map_length. eapply Nat.le_trans; [apply filter_len|]. rewrite map_length, combine_length, seq_length. lia. }
  unfold elementGroup. cbn [fst snd].
  destruct (mapO_some (fun e => match resultPos is km its e, compressPos km its e with Some r, Some c => Some (detectM r, detectM c) | _, _ => None end) (seq 0 c)) as (ps & Ep).
  { intros e Ie. apply in_seq in Ie. destruct (Hmr e ltac:(lia)) as (r & cp & -> & -> & _). eexists. reflexivity. }
  rewrite Ep. eexists. split; [reflexivity|]. split; [reflexivity|]. cbn [eg_pats]. destruct (mapO_spec _ _ _ Ep) as [Lp Pp]. rewrite seq_length in Lp.
  intros i k s E L.
  assert (G : forall (A B : Type) (P : A -> B -> Prop) la lb, length la = length lb -> (forall j a b, nth_error la j = Some a -> nth_error lb j = Some b -> P a b) -> Forall2 P la lb).
  { clear. intros A B P. induction la as [|a la IH]; intros [|b lb] L H; try discriminate; constructor; [exact (H 0 a b eq_refl eq_refl)|].
    apply IH; [cbn [length] in L; lia|]. intros j a0 b0 Ha Hb. exact (H (S j) a0 b0 Ha Hb). }
  apply G; [rewrite map_length; lia|]. intros j rc pe Hrc Hpe. rewrite nth_error_map in Hpe. destruct (nth_error s j) as [x|] eqn:Ex; [|discriminate]. injection Hpe as <-.
  assert (Lj : j < c) by (rewrite <- L; apply nth_error_Some; rewrite Ex; discriminate).
  destruct (Pp j j) as (b & Hb & Eb). { rewrite (nth_error_nth' _ 0) by (rewrite seq_length; exact Lj). rewrite seq_nth by exact Lj. reflexivity. }
  rewrite Hrc in Hb. injection Hb as <-. destruct (Hmr j Lj) as (r & cp & Er & Ec & Sr & Sc & X). rewrite Er, Ec in Eb. injection Eb as <-. cbn [fst snd].
  destruct (X i k s x E L Ex) as [X1 X2]. split; apply patAt_map_it.
  - rewrite Sr. exact Sits.
  - exact X1.
  - rewrite <- (map_length fst r), Sr, map_length. exact Lits.
  - rewrite Sc. exact Sits.
  - exact X2.
  - rewrite <- (map_length fst cp), Sc, map_length. exact Lits.
Qed.

Lemma arrayGroup_ok : exists a, arrayGroup is g = Some a /\ ag_fn a = lg_fn g /\ ag_map a = km.
Proof.
  destruct Hg as [[Sk Hk] _]. fold km in Sk, Hk.
  assert (Hin : forall k, In k (map fst km) -> In k ks). { intros k I. apply in_map_iff in I. destruct I as ([k' s] & <- & I). exact (proj1 (Hk k' s I)). }
  unfold arrayGroup. fold km. destruct (allOrdered_spec (map fst km) Hin) as [[E _]|[E _]]; rewrite E.
  - destruct (mapO_some (fun k => locationOf is k 0) (map fst km)) as (ss & Es).
    { intros k I. destruct (locationOf_ok ks vs Hlen Hnd is Hent k 0 (Hin k I) (count_pos ks vs Hlen k (Hin k I))) as (p & Ep & _). exists p. exact Ep. }
    rewrite Es. eexists. split; [reflexivity|]. split; reflexivity.
  - destruct (mapO_some (elementGroup is km) (byCount km)) as (els & Ee).
    { intros [c its] I. destruct (elementGroup_ok c its I) as (eg & E1 & _). exists eg. exact E1. }
    rewrite Ee. eexists. split; [reflexivity|]. split; reflexivity.
Qed.

(** ** One iteration of one group *)
Hypothesis Hfit : fits ks g.
Hypothesis Hf : loopFn_ok V zero add LV [g] loopFn.

Lemma group_step a i k s m F lastC : arrayGroup is g = Some a -> nth_error km i = Some (k, s) -> st V ks is m F lastC ->
  exists m' F', lrun V zero add noLoop loopFn (idxOf (length km) i) (emitGroup M (length km) lastC a) m = Some m' /\ st V ks is m' F' (isCompressed a) /\
    forall p, p < n -> F' p = add (F p) (part V zero ks (LV (lg_fn g)) k s p).
Proof.
  intros Ea Ei (HA & HM & HP). fold n in HA. fold M in HM.
  pose proof (nth_error_In _ _ Ei) as Iks. destruct (Hf g k s (or_introl eq_refl) Iks) as (l & El & Nl & Pl).
  pose proof Hg as [[Sk Hk] _]. fold km in Sk, Hk. destruct (Hk k s Iks) as (Kin & Nes & Ss & Bs).
  assert (Hin : forall k, In k (map fst km) -> In k ks). { intros k0 I. apply in_map_iff in I. destruct I as ([k' s'] & <- & I). exact (proj1 (Hk k' s' I)). }
  assert (Ikm : In k (map fst km)) by (apply (in_map fst) in Iks; exact Iks).
  assert (Ni : nth_error (map fst km) i = Some k) by (rewrite nth_error_map, Ei; reflexivity).
  (* the call: any place *)
  assert (Hcall : forall m1, exists key', (1 <? length km = true -> key' = Some k) /\
    lrun V zero add noLoop loopFn (idxOf (length km) i) (if 1 <? length km then [SKey (detectV (map fst km)); SLoop (lg_fn g) None] else [SLoop (lg_fn g) (Some (hd 0 (map fst km)))]) m1
    = writeTo V (fun a p => addAll V add a p l) (mkLM V (m_result V m1) (m_compressed V m1) (m_place V m1) key')).
  { intros m1. destruct (1 <? length km) eqn:E1.
    - exists (Some k). split; [reflexivity|]. cbn [lrun lstep]. rewrite <- (map_length fst km). rewrite (patAt_vec_it _ i k Ni). cbn [m_key]. rewrite El.
      destruct (writeTo V _ _); reflexivity.
    - exists (m_key V m1). split; [discriminate|]. cbn [lrun lstep]. apply Nat.ltb_ge in E1.
      destruct km as [|[k0 s0] [|? ?]] eqn:Ekm; [destruct i; discriminate| |cbn [length] in E1; lia]. destruct i as [|i]; [|destruct i; discriminate]. cbn [nth_error] in Ei. injection Ei as -> ->. cbn [map hd fst].
      rewrite El. destruct m1 as [r1 c1 p1 q1]. cbn [m_result m_compressed m_place m_key]. destruct (writeTo V _ _); reflexivity. }
  unfold arrayGroup in Ea. fold km in Ea. destruct (allOrdered_spec (map fst km) Hin) as [[E T]|[E T]]; rewrite E in Ea.
  - (* direct *)
    destruct (mapO (fun k => locationOf is k 0) (map fst km)) as [ss|] eqn:Es; [|discriminate]. injection Ea as <-.
    unfold emitGroup. cbn [ag_start ag_fn ag_map ag_pattern ag_els isCompressed]. rewrite app_nil_r.
    destruct (proj2 (mapO_spec _ _ _ Es) i k Ni) as (p0 & Ep & E0).
    destruct (infoAt_ok ks vs Hlen is Hent k Kin) as (inf & Einf & _).
    assert (Ord : i_ord inf = true) by (apply (ordered_together ks vs Hlen Hnd is Hent k inf Einf Kin); exact (T k Ikm)).
    destruct (direct_loc ks vs Hlen Hnd is Hent k inf Einf Kin Ord) as (p1 & E1 & D). rewrite E0 in E1. injection E1 as <-.
    cbn [app lrun lstep].
    assert (Lss : length ss = length km) by (rewrite (proj1 (mapO_spec _ _ _ Es)), map_length; reflexivity).
    pose proof (patAt_vec_it ss i p0 Ep) as Xss. rewrite Lss in Xss. rewrite Xss. destruct (Hcall (mkLM V (m_result V m) (m_compressed V m) (PResult p0) (m_key V m))) as (key' & _ & ->).
    unfold writeTo. cbn [m_place m_result m_compressed m_key].
    destruct (addAll_sum V zero add Hmon n l (m_result V m) F p0 HA) as (a' & F' & E' & H' & P' & Q').
    { intros e v I. pose proof (Nl e v I) as Ie. unfold n. exact (place_lt _ _ _ _ (D e (Bs e Ie))). }
    rewrite E'. eexists; exists F'. split; [reflexivity|]. split; [split; [exact H'|split; [exact HM|discriminate]]|].
    intros p Hp. destruct (in_dec Nat.eq_dec p (map (fun e => p0 + e) s)) as [Ip|Ip].
    + apply in_map_iff in Ip. destruct Ip as (e & <- & Ie). rewrite (P' e), (Pl e Ie). f_equal. symmetry. apply part_in; [exact (D e (Bs e Ie))|exact Ie].
    + rewrite Q'; [|intros e v I X; apply Ip; apply in_map_iff; exists e; split; [congruence|exact (Nl e v I)]]. rewrite part_out; [symmetry; apply (addR _ _ _ Hmon)|].
      intros e Pe Ie. apply Ip. apply in_map_iff. exists e. split; [|exact Ie].
      destruct (info_loc ks vs Hlen Hnd is Hent k inf e Einf Kin (Bs e Ie)) as (q & _ & _ & U). rewrite (U _ Pe). apply U. exact (D e (Bs e Ie)).
  - (* through compressed *)
    destruct (mapO (elementGroup is km) (byCount km)) as [els|] eqn:Ee; [|discriminate]. injection Ea as <-.
    unfold emitGroup. cbn [ag_start ag_fn ag_map ag_pattern ag_els isCompressed].
    assert (LM : count ks k <= M).
    { destruct T as (k1 & I1 & T1). destruct Hfit as [X|X]; [exfalso; exact (T1 (X k1 I1))|]. destruct (X k Ikm) as (k' & I' & T' & L').
      destruct (infoAt_ok ks vs Hlen is Hent k' I') as (inf & Einf & _).
      pose proof (ordered_together ks vs Hlen Hnd is Hent k' inf Einf I') as O. destruct (i_ord inf) eqn:Eo; [exfalso; apply T', O; reflexivity|].
      pose proof (maxCompressed_ge ks vs Hlen is Hent k' inf Einf I' Eo). unfold M. lia. }
    (* cleared *)
    destruct (writeAll_ok V M (repeat zero M) (m_compressed V m) (fun p => nth p (m_compressed V m) zero) 0) as (c & G & Ec & Hc & Pc & _).
    { rewrite <- HM. apply list_fun. }
    { rewrite repeat_length. lia. }
    assert (R1 : lrun V zero add noLoop loopFn (idxOf (length km) i) ((if lastC then [] else [SCompressed]) ++ [SClear M]) m = Some (mkLM V (m_result V m) c PCompressed (m_key V m))).
    { destruct lastC; cbn [app lrun lstep m_compressed m_result m_place m_key]; [rewrite Ec, (HP eq_refl); reflexivity|rewrite Ec; reflexivity]. }
    rewrite lrun_app, R1, lrun_app. destruct (Hcall (mkLM V (m_result V m) c PCompressed (m_key V m))) as (key' & Hkey & ->). unfold writeTo. cbn [m_place m_result m_compressed m_key].
    destruct (addAll_sum V zero add Hmon M l c G 0 Hc) as (c' & G' & Ec' & Hc' & Pc' & _).
    { intros e v I. pose proof (Nl e v I) as Ie. pose proof (Bs e Ie). lia. }
    rewrite Ec'.
    assert (Cs : forall e, In e s -> nth_error c' e = Some (LV (lg_fn g) k e)).
    { intros e Ie. destruct Hc' as [_ Hc']. pose proof (Bs e Ie) as Be. rewrite Hc' by lia. f_equal. pose proof (Pc' e) as X. cbn [Nat.add] in X. rewrite X, (Pl e Ie).
      assert (Y : G e = zero) by (apply (Pc e zero); apply nth_error_repeat; lia). rewrite Y. apply (mo_zero _ _ _ Hmon). }
    (* the branch *)
    set (tg := map (fun e => (match locationOf is k e with Some p => p | None => 0 end, e)) s).
    set (m2 := mkLM V (m_result V m) c' PCompressed key').
    assert (Hbr : exists eg, Forall2 (fun rc pe => patAt (fst rc) (idxOf (length km) i) = Some (fst pe) /\ patAt (snd rc) (idxOf (length km) i) = Some (snd pe)) (eg_pats eg) tg /\
      lrun V zero add noLoop loopFn (idxOf (length km) i) (copiesOf km els) m2 = copyAll V add (idxOf (length km) i) (eg_pats eg) m2).
    { pose proof (pushAll_spec (counted km)) as [Sp Pp]. rewrite <- byCount_push in Sp, Pp.
      assert (Ient : In (length s, ofKey (length s) (counted km)) (byCount km)).
      { apply Pp. split; [reflexivity|]. intros X. assert (Y : In (i, k) (ofKey (length s) (counted km))) by (apply ofKey_In, counted_In; exists s; auto). rewrite X in Y. destruct Y. }
      destruct (In_nth_error _ _ Ient) as [j Hj]. destruct (mapO_spec _ _ _ Ee) as [Le Pe]. destruct (Pe j _ Hj) as (eg & Heg & Eeg).
      destruct (elementGroup_ok _ _ Ient) as (eg' & Eeg' & Keg & Peg). rewrite Eeg in Eeg'. injection Eeg' as <-.
      exists eg. split; [exact (Peg i k s Ei eq_refl)|].
      assert (Hkeys : forall j' eg', nth_error els j' = Some eg' -> exists c0 its0, nth_error (byCount km) j' = Some (c0, its0) /\ eg_keys eg' = map snd its0 /\ its0 <> [] /\
        forall i0 k0, In (i0, k0) its0 <-> exists s0, nth_error km i0 = Some (k0, s0) /\ length s0 = c0).
      { intros j' eg' H'. destruct (nth_error (byCount km) j') as [[c0 its0]|] eqn:Eb.
        - destruct (Pe j' _ Eb) as (eg2 & H2 & E2). rewrite H' in H2. injection H2 as <-. exists c0, its0. split; [reflexivity|].
          pose proof (nth_error_In _ _ Eb) as Ib. destruct (elementGroup_ok c0 its0 Ib) as (eg3 & E3 & K3 & _). rewrite E2 in E3. injection E3 as <-. split; [exact K3|].
          apply Pp in Ib. destruct Ib as [Eo No]. split; [exact No|]. intros i0 k0. rewrite Eo, ofKey_In. apply counted_In.
        - exfalso. apply nth_error_None in Eb. assert (j' < length els) by (apply nth_error_Some; rewrite H'; discriminate). lia. }
      assert (Hik : In k (eg_keys eg)). { rewrite Keg. apply (in_map snd _ (i, k)). apply ofKey_In, counted_In. exists s. auto. }
      assert (Hgen : forall eg1 eg2 els', els = eg1 :: eg2 :: els' ->
         ifAll V add (idxOf (length km) i) k (branchesOf (last (map fst km) 0) (map N.of_nat (unused 0 (map fst km))) els) m2 = copyAll V add (idxOf (length km) i) (eg_pats eg) m2).
      { intros eg1 eg2 els' Els. apply (branches_select V add (idxOf (length km) i) k m2 (last (map fst km) 0)) with (j := j).
        - destruct Hg as (_ & Hne & Hmx). fold km in Hne, Hmx. apply Hmx. destruct (exists_last (l := map fst km)) as (l' & z & El'); [destruct km; [contradiction|discriminate]|]. rewrite El', last_last. apply in_app_iff. right. left. reflexivity.
        - exact Heg.
        - exact Hik.
        - intros j' eg' H' I'. destruct (Hkeys j' eg' H') as (c0 & its0 & Eb & K0 & _ & P0). rewrite K0 in I'. apply in_map_iff in I'. destruct I' as ([i0 k0] & Ek & I0). cbn [snd] in Ek. subst k0.
          apply P0 in I0. destruct I0 as (s0 & E0 & L0).
          assert (i0 = i). { pose proof km_NoDup as ND. rewrite NoDup_nth_error in ND. apply ND; [rewrite map_length; apply nth_error_Some; rewrite E0; discriminate|]. rewrite Ni, nth_error_map, E0. reflexivity. }
          subst i0. rewrite Ei in E0. injection E0 as <-. subst c0.
          pose proof (inc_NoDup _ _ Sp) as ND2. rewrite NoDup_nth_error in ND2. apply ND2; [rewrite map_length; apply nth_error_Some; rewrite Eb; discriminate|]. rewrite !nth_error_map, Eb, Hj. reflexivity.
        - intros eg' k' I1 I2. apply In_nth_error in I1. destruct I1 as [j' H']. destruct (Hkeys j' eg' H') as (c0 & its0 & _ & K0 & _ & P0). rewrite K0 in I2. apply in_map_iff in I2. destruct I2 as ([i0 k0] & Ek & I0). cbn [snd] in Ek. subst k0.
          apply P0 in I0. destruct I0 as (s0 & E0 & _). apply last_max; [exact Sk|]. apply nth_error_In in E0. apply (in_map fst) in E0. exact E0.
        - intros eg' I1. apply In_nth_error in I1. destruct I1 as [j' H']. destruct (Hkeys j' eg' H') as (c0 & its0 & _ & K0 & N0 & _). rewrite K0. intros X. apply map_eq_nil in X. contradiction.
        - intros u Iu. apply in_map_iff in Iu. destruct Iu as (x & <- & Ix). destruct (unused_spec (map fst km) 0 x Sk ltac:(intros; lia)) as [U|U]; [apply U in Ix; lia|]. rewrite U in Ikm. destruct Ikm.
        - intros Iu. apply in_map_iff in Iu. destruct Iu as (x & Ex & Ix). apply Nat2N.inj in Ex. subst x. destruct (unused_spec (map fst km) 0 k Sk ltac:(intros; lia)) as [U|U]; [apply U in Ix; tauto|]. rewrite U in Ikm. destruct Ikm. }
      unfold copiesOf. destruct els as [|eg1 [|eg2 els']] eqn:Els.
      - destruct j; discriminate.
      - destruct j as [|j]; [|destruct j; discriminate]. injection Heg as ->. cbn [lrun lstep]. destruct (copyAll V add (idxOf (length km) i) (eg_pats eg) m2); reflexivity.
      - assert (L1 : 1 <? length km = true).
        { apply Nat.ltb_lt. assert (2 <= length (byCount km)) by (rewrite <- Le; cbn [length]; lia).
          assert (Hb : length (byCount km) <= length km).
          { rewrite byCount_push. assert (G1 : length (pushAll (counted km)) <= length (flat_map snd (pushAll (counted km)))).
            { assert (NE : forall q, In q (pushAll (counted km)) -> snd q <> []) by (intros [c0 its0] Iq; apply (proj2 (pushAll_spec (counted km))) in Iq; exact (proj2 Iq)).
              revert NE. clear. induction (pushAll (counted km)) as [|q l IH]; intros NE; cbn [flat_map length]; [lia|]. rewrite app_length. pose proof (NE q (or_introl eq_refl)) as Hq.
              pose proof (IH (fun q' I => NE q' (or_intror I))). destruct (snd q); [congruence|cbn [length]; lia]. }
            rewrite (Permutation_length (pushAll_perm (counted km))) in G1. rewrite map_length in G1. unfold counted in G1 at 2. rewrite map_length, combine_length, seq_length in G1. lia. }
          lia. }
        cbn [lrun lstep]. unfold m2 at 1. cbn [m_key]. rewrite (Hkey L1). rewrite (Hgen eg1 eg2 els' eq_refl). destruct (copyAll V add (idxOf (length km) i) (eg_pats eg) m2); reflexivity. }
    destruct Hbr as (eg & F2 & ->).
    assert (Htg : forall p e, In (p, e) tg <-> In e s /\ isPlace ks k e p).
    { intros p e. unfold tg. rewrite in_map_iff. split.
      - intros (x & X & Ix). injection X as <- ->. split; [exact Ix|]. destruct (locationOf_ok ks vs Hlen Hnd is Hent k e Kin (Bs e Ix)) as (q & Eq & Pq & _). rewrite Eq. exact Pq.
      - intros [Ie Pe]. exists e. split; [|exact Ie]. destruct (locationOf_ok ks vs Hlen Hnd is Hent k e Kin (Bs e Ie)) as (q & Eq & _ & U). rewrite Eq, (U _ Pe). reflexivity. }
    destruct (copyAll_ok V add n (idxOf (length km) i) (fun e => LV (lg_fn g) k e) (eg_pats eg) tg m2 F F2) as (a' & F' & E' & H' & P' & Q').
    + exact HA.
    + assert (Nt : forall p e e', In (p, e) tg -> In (p, e') tg -> e = e').
      { intros p e e' I1 I2. apply Htg in I1, I2. destruct I1 as [_ [_ R1']], I2 as [_ [_ R2']]. congruence. }
      assert (Ns : NoDup (map snd tg)). { unfold tg. rewrite map_map. cbn [snd]. rewrite map_id. apply sorted_NoDup. exact Ss. }
      revert Nt Ns. clear. induction tg as [|[p e] tg IH]; intros Nt Ns; cbn [map fst snd] in *; constructor.
      * intros I. apply in_map_iff in I. destruct I as ([p' e'] & X & I). cbn [fst] in X. subst p'. inversion Ns as [|? ? N1 _]; subst. apply N1.
        rewrite (Nt p e e' (or_introl eq_refl) (or_intror I)). apply (in_map snd) in I. exact I.
      * inversion Ns; subst. apply IH; [|assumption]. intros p0 e0 e1 I1 I2. exact (Nt p0 e0 e1 (or_intror I1) (or_intror I2)).
    + intros p e I. apply Htg in I. destruct I as [Ie Pe]. split; [exact (place_lt _ _ _ _ Pe)|]. exact (Cs e Ie).
    + exists (mkLM V a' (m_compressed V m2) (m_place V m2) (m_key V m2)), F'. split; [exact E'|]. split; [split; [exact H'|split; [exact (proj1 Hc')|reflexivity]]|].
      intros p Hp. destruct (in_dec Nat.eq_dec p (map fst tg)) as [Ip|Ip].
      * apply in_map_iff in Ip. destruct Ip as ([p' e] & <- & I). cbn [fst]. rewrite (P' _ _ I). apply Htg in I. destruct I as [Ie Pe]. f_equal. symmetry. apply part_in; assumption.
      * rewrite (Q' p Ip). rewrite part_out; [symmetry; apply (addR _ _ _ Hmon)|]. intros e Pe Ie. apply Ip. apply in_map_iff. exists (p, e). split; [reflexivity|]. apply Htg. auto.
Qed.
End OneGroup.
End Group.

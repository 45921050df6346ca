(** * All the loops; the whole function *)
From Coq Require Import List Arith Bool NArith ZArith Sorting.Sorted Sorting.Permutation Lia.
From Verif Require Import Pool_model Pool_proofs Graph_model Codegen_model Index_model Range_model Assemble_model Assemble_proofs
  LoopAsm_model LoopAsm_spec LoopAsm_maps LoopAsm_run LoopAsm_group.
Import ListNotations.
Local Open Scope nat_scope.

Lemma nth_ext' {A} : forall a b : list A, (forall p, nth_error a p = nth_error b p) -> a = b.
Proof.
  induction a as [|x a IH]; intros [|y b] H; [reflexivity|specialize (H 0); discriminate|specialize (H 0); discriminate|].
  pose proof (H 0) as H0. injection H0 as ->. f_equal. apply IH. intros p. exact (H (S p)).
Qed.

Section Main.
Variable V : Type.
Variable zero : V.
Variable add : V -> V -> V.
Hypothesis Hmon : monoid V zero add.
Variables ks vs : list nat.
Hypothesis Hlen : length ks = length vs.
Hypothesis Hnd : NoDup (combine ks vs).
Variable is : list info.
Hypothesis Hent : entries ks vs = Some is.
Variable noLoop : nat -> option (list V).
Variable loopFn : nat -> nat -> option (list (nat * V)).
Variable LV : nat -> nat -> nat -> V.
Let n := length ks.
Let M := maxCompressed is.

Definition gpart (a : agroup) (p i : nat) : V :=
  match nth_error (ag_map a) i with Some (k, s) => part V zero ks (LV (ag_fn a)) k s p | None => zero end.
Definition good (N : nat) (a : agroup) : Prop :=
  exists g, arrayGroup is g = Some a /\ ag_fn a = lg_fn g /\ ag_map a = lg_keys g /\ length (lg_keys g) = N /\ group_ok ks g /\ fits ks g /\ loopFn_ok V zero add LV [g] loopFn.

Lemma st_weaken m F b : st V ks is m F b -> st V ks is m F false.
Proof. intros (A & B & _). split; [exact A|]. split; [exact B|discriminate]. Qed.

Lemma groups_ok N ags : (forall a, In a ags -> good N a) -> forall lastC t b, emitGroups M N lastC ags = (t, b) ->
  forall i m F, i < N -> st V ks is m F lastC ->
  exists m' F', lrun V zero add noLoop loopFn (idxOf N i) t m = Some m' /\ st V ks is m' F' b /\
    forall p, p < n -> F' p = add (F p) (total V zero add (map (fun a => gpart a p i) ags)).
Proof.
  induction ags as [|a ags IH]; intros G lastC t b E i m F Li H; cbn [emitGroups] in E.
  - injection E as <- <-. exists m, F. split; [reflexivity|]. split; [exact H|]. intros p _. symmetry. apply (addR _ _ _ Hmon).
  - destruct (emitGroups M N (isCompressed a) ags) as [t1 b1] eqn:E1. injection E as <- <-.
    destruct (G a (or_introl eq_refl)) as (g & Ea & Ef & Em & EN & Hg & Hfit & Hf).
    destruct (nth_error (lg_keys g) i) as [[k s]|] eqn:Ei; [|apply nth_error_None in Ei; lia].
    destruct (group_step V zero add Hmon ks vs Hlen Hnd is Hent noLoop loopFn LV g Hg Hfit Hf a i k s m F lastC Ea Ei H) as (m1 & F1 & R1 & H1 & P1). rewrite EN in R1.
    destruct (IH (fun a' I => G a' (or_intror I)) _ _ _ E1 i m1 F1 Li H1) as (m' & F' & R' & H' & P').
    exists m', F'. split; [rewrite lrun_app; unfold M; rewrite R1; exact R'|]. split; [exact H'|]. intros p Hp. rewrite (P' p Hp), (P1 p Hp). cbn [map total fold_right].
    unfold gpart at 2. rewrite Em, Ei, Ef. symmetry. apply (mo_assoc _ _ _ Hmon).
Qed.

Lemma lruns_ok N ags : (forall a, In a ags -> good N a) -> forall lastC t b, emitGroups M N lastC ags = (t, b) ->
  forall its m F, its <> [] -> (lastC = true -> length its <= 1) -> (forall i, In i its -> i < N) -> st V ks is m F lastC ->
  exists m' F', lruns V zero add noLoop loopFn (map (idxOf N) its) t m = Some m' /\ st V ks is m' F' b /\
    forall p, p < n -> F' p = add (F p) (total V zero add (map (fun i => total V zero add (map (fun a => gpart a p i) ags)) its)).
Proof.
  intros G lastC t b E its. induction its as [|i its IH]; intros m F Hne Hc HB H; [congruence|]. cbn [map lruns].
  destruct (groups_ok N ags G lastC t b E i m F (HB i (or_introl eq_refl)) H) as (m1 & F1 & R1 & H1 & P1). rewrite R1.
  destruct its as [|i' its].
  - exists m1, F1. split; [reflexivity|]. split; [exact H1|]. intros p Hp. rewrite (P1 p Hp). cbn [map total fold_right]. rewrite (addR _ _ _ Hmon). reflexivity.
  - destruct lastC; [specialize (Hc eq_refl); cbn [length] in Hc; lia|].
    destruct (IH m1 F1) as (m' & F' & R' & H' & P'); [discriminate|discriminate|intros x I; apply HB; right; exact I|exact (st_weaken _ _ _ H1)|].
    exists m', F'. split; [exact R'|]. split; [exact H'|]. intros p Hp. rewrite (P' p Hp), (P1 p Hp). cbn [map total fold_right]. symmetry. apply (mo_assoc _ _ _ Hmon).
Qed.

Lemma iterations_seq N : 0 < N -> iterations N = map (idxOf N) (seq 0 N).
Proof.
  intros H. unfold iterations, idxOf. destruct (Nat.ltb_spec 1 N); [apply map_ext_in; intros i _; reflexivity|]. replace N with 1 by lia. reflexivity.
Qed.

Lemma lloops_ok mm : forall lastC, (forall N ags, In (N, ags) mm -> 0 < N /\ forall a, In a ags -> good N a) ->
  forall m F, st V ks is m F lastC ->
  exists m' F', lloops V zero add noLoop loopFn (emitLoops M lastC mm) m = Some m' /\ st V ks is m' F' false /\
    forall p, p < n -> F' p = add (F p) (total V zero add (map (fun q => total V zero add (map (fun i => total V zero add (map (fun a => gpart a p i) (snd q))) (seq 0 (fst q)))) mm)).
Proof.
  induction mm as [|[N ags] mm IH]; intros lastC G m F H; cbn [emitLoops].
  - exists m, F. split; [reflexivity|]. split; [exact (st_weaken _ _ _ H)|]. intros p _. symmetry. apply (addR _ _ _ Hmon).
  - destruct (G N ags (or_introl eq_refl)) as [HN Ga]. destruct (emitGroups M N (if 1 <? N then false else lastC) ags) as [t b] eqn:E. cbn [lloops]. rewrite (iterations_seq N HN).
    destruct (lruns_ok N ags Ga _ _ _ E (seq 0 N) m F) as (m1 & F1 & R1 & H1 & P1).
    + destruct N; [lia|discriminate].
    + rewrite seq_length. destruct (Nat.ltb_spec 1 N); [discriminate|intros _; lia].
    + intros i I. apply in_seq in I. lia.
    + destruct (1 <? N); [exact (st_weaken _ _ _ H)|exact H].
    + rewrite R1. destruct (IH b (fun N0 a0 I => G N0 a0 (or_intror I)) m1 F1 H1) as (m' & F' & R' & H' & P'). exists m', F'. split; [exact R'|]. split; [exact H'|].
      intros p Hp. rewrite (P' p Hp), (P1 p Hp). cbn [map total fold_right fst snd]. symmetry. apply (mo_assoc _ _ _ Hmon).
Qed.

Lemma total_ext {A} (f h : A -> V) l : (forall a, In a l -> f a = h a) -> total V zero add (map f l) = total V zero add (map h l).
Proof. intros H. f_equal. apply map_ext_in. exact H. Qed.
Lemma gpart_all a p : total V zero add (map (gpart a p) (seq 0 (length (ag_map a)))) = total V zero add (map (fun q => part V zero ks (LV (ag_fn a)) (fst q) (snd q) p) (ag_map a)).
Proof.
  unfold gpart. generalize (LV (ag_fn a)). intros f. generalize (ag_map a). intros l.
  assert (X : forall l pre, map (fun i => match nth_error (pre ++ l) i with Some (k, s) => part V zero ks f k s p | None => zero end) (seq (length pre) (length l))
    = map (fun q => part V zero ks f (fst q) (snd q) p) l).
  { clear. induction l as [|[k s] l IH]; intros pre; cbn [length seq map]; [reflexivity|]. rewrite nth_error_app2 by lia. rewrite Nat.sub_diag. cbn [nth_error fst snd]. f_equal.
    replace (pre ++ (k, s) :: l) with ((pre ++ [(k, s)]) ++ l) by (rewrite <- app_assoc; reflexivity). replace (S (length pre)) with (length (pre ++ [(k, s)])) by (rewrite app_length; cbn [length]; lia). apply IH. }
  f_equal. exact (X l []).
Qed.
Lemma part_parts f p k km : nth_error ks p = Some k ->
  total V zero add (map (fun q => part V zero ks f (fst q) (snd q) p) km) = total V zero add (parts V f k (rank ks p) km).
Proof.
  intros H. unfold parts. rewrite (total_flat V zero add Hmon). apply total_ext. intros [k' s] _. cbn [fst snd]. unfold part. rewrite H, (Nat.eqb_sym k k').
  destruct (Nat.eqb_spec k' k) as [->|]; [|reflexivity]. cbn [andb]. destruct (existsb _ s); [|reflexivity]. cbn [total fold_right]. symmetry. apply (addR _ _ _ Hmon).
Qed.

Variable NL : nat -> nat -> V.
Variables (nl : keymap) (gs : list lgroup).
Hypothesis Hnl : keymap_ok ks nl.
Hypothesis Hgs : forall g, In g gs -> group_ok ks g /\ fits ks g.
Hypothesis Hno : noLoop_ok V zero NL ks nl noLoop.
Hypothesis Hlo : loopFn_ok V zero add LV gs loopFn.

Lemma loopCalls_ok : exists mm ags, loopCalls is gs = Some mm /\ mapO (arrayGroup is) gs = Some ags /\ Permutation (flat_map snd mm) ags /\
  forall N l, In (N, l) mm -> 0 < N /\ forall a, In a l -> good N a.
Proof.
  destruct (mapO_some (arrayGroup is) gs) as (ags & E).
  { intros g I. destruct (arrayGroup_ok V ks vs Hlen Hnd is Hent noLoop loopFn LV g (proj1 (Hgs g I))) as (a & Ea & _). exists a. exact Ea. }
  unfold loopCalls. rewrite E. eexists; exists ags. split; [reflexivity|]. split; [reflexivity|].
  assert (X : fold_left (fun m a => mpush (length (ag_map a)) a m) ags [] = pushAll (map (fun a => (length (ag_map a), a)) ags)).
  { unfold pushAll. generalize (@nil (nat * list agroup)). clear. induction ags as [|a ags IH]; intros m; cbn [fold_left map fst snd]; [reflexivity|]. apply IH. }
  rewrite X. split.
  - rewrite pushAll_perm, map_map. cbn [snd]. rewrite map_id. reflexivity.
  - intros N l I.
    assert (Hall : forall a, In a l -> good N a).
    { intros a Ia. apply (proj2 (pushAll_spec _)) in I. destruct I as [-> _]. apply ofKey_In in Ia. apply in_map_iff in Ia. destruct Ia as (a' & Ea & Ia). injection Ea as <- ->.
      apply In_nth_error in Ia. destruct Ia as [j Hj]. destruct (mapO_spec _ _ _ E) as [Le Pe].
      destruct (nth_error gs j) as [g|] eqn:Eg; [|apply nth_error_None in Eg; assert (j < length ags) by (apply nth_error_Some; rewrite Hj; discriminate); lia].
      destruct (Pe j g Eg) as (b & Hb & Eb). rewrite Hj in Hb. injection Hb as <-. pose proof (nth_error_In _ _ Eg) as Ig. destruct (Hgs g Ig) as [G1 G2].
      destruct (arrayGroup_ok V ks vs Hlen Hnd is Hent noLoop loopFn LV g G1) as (a1 & E1 & F1 & M1). rewrite Eb in E1. injection E1 as <-.
      exists g. split; [exact Eb|]. split; [exact F1|]. split; [exact M1|]. split; [rewrite M1; reflexivity|]. split; [exact G1|]. split; [exact G2|].
      intros g' k s [<-|[]] Ik. exact (Hlo g k s Ig Ik). }
    split; [|exact Hall]. apply (proj2 (pushAll_spec _)) in I. destruct I as [_ Nl]. destruct l as [|a l]; [congruence|].
    destruct (Hall a (or_introl eq_refl)) as (g & _ & _ & _ & <- & (_ & Ne & _) & _). destruct (lg_keys g); [congruence|cbn [length]; lia].
Qed.

Theorem assemble_ok : exists prog, assemble ks vs nl gs = Some prog /\ lp_size prog = maxCompressed is /\ forall garbage result, lp_size prog <= length garbage -> length result = length ks ->
  exists res, runAssemble V zero add noLoop loopFn prog garbage result = Some res /\ length res = length ks /\
  forall p k, nth_error ks p = Some k -> nth_error res p = Some (expected V zero add NL LV nl gs k (rank ks p)).
Proof.
  unfold assemble. rewrite Hent. destruct loopCalls_ok as (mm & ags & Em & Ea & Perm & Gm).
  assert (Z0 : arr V n (repeat zero n) (fun _ => zero)). { split; [apply repeat_length|]. intros p Hp. apply nth_error_repeat. exact Hp. }
  assert (Hrun : forall garbage, M <= length garbage -> exists t b, emitNoLoop is false nl = Some (t, b) /\ exists m' F',
    lrun V zero add noLoop loopFn None t (mkLM V (repeat zero n) (firstn M garbage) PNowhere None) = Some m' /\ st V ks is m' F' b /\
    forall p, p < n -> F' p = add zero (total V zero add (map (fun q => part V zero ks NL (fst q) (snd q) p) nl))).
  { intros garbage Lg. apply (noLoop_all V zero add Hmon ks vs Hlen Hnd is Hent noLoop loopFn NL nl false) with (F := fun _ => zero).
    - apply sorted_NoDup. exact (proj1 Hnl).
    - intros k s I. destruct (proj2 Hnl k s I) as (A & _ & B & C). split; [exact A|]. split; [apply sorted_NoDup; exact B|exact C].
    - exact Hno.
    - split; [exact Z0|]. split; [cbn [m_compressed]; rewrite firstn_length; unfold M in *; lia|discriminate].
    - reflexivity. }
  destruct (Hrun (repeat zero M)) as (t & b & Et & _); [rewrite repeat_length; lia|]. rewrite Et, Em. eexists. split; [reflexivity|]. split; [reflexivity|]. cbn [lp_size].
  intros garbage result Lg Lr. destruct (Hrun garbage Lg) as (t' & b' & Et' & m1 & F1 & R1 & H1 & P1). rewrite Et in Et'. injection Et' as <- <-.
  unfold runAssemble. cbn [lp_nnz lp_size lp_noloop lp_loops].
  assert (W : writeAll V result 0 (repeat zero (length ks)) = Some (repeat zero n)).
  { destruct (writeAll_ok V n (repeat zero (length ks)) result (fun p => nth p result zero) 0) as (a' & F' & E' & [L' H'] & P' & _).
    { unfold n. rewrite <- Lr. apply list_fun. }
    { rewrite repeat_length. unfold n. lia. }
    rewrite E'. f_equal. apply nth_ext'. intros p. destruct (Nat.lt_ge_cases p n) as [L|L].
    - rewrite (H' p L), nth_error_repeat by exact L. f_equal. apply (P' p zero). apply nth_error_repeat. exact L.
    - rewrite (proj2 (nth_error_None _ _)) by lia. symmetry. apply nth_error_None. rewrite repeat_length. lia. }
  rewrite W. fold M. rewrite R1. destruct (lloops_ok mm b Gm m1 F1 H1) as (m' & F' & R' & ([La Ha] & _ & _) & P'). fold M. rewrite R'. cbn [option_map].
  exists (m_result V m'). split; [reflexivity|]. split; [exact La|]. intros p k Hp.
  assert (Lp : p < n) by (unfold n; apply nth_error_Some; rewrite Hp; discriminate). rewrite (Ha p Lp). f_equal. rewrite (P' p Lp), (P1 p Lp), (mo_zero _ _ _ Hmon).
  unfold expected. rewrite (total_app V zero add Hmon). f_equal; [exact (part_parts NL p k nl Hp)|].
  assert (S1 : total V zero add (map (fun q => total V zero add (map (fun i => total V zero add (map (fun a => gpart a p i) (snd q))) (seq 0 (fst q)))) mm)
    = total V zero add (map (fun a => total V zero add (map (fun q => part V zero ks (LV (ag_fn a)) (fst q) (snd q) p) (ag_map a))) (flat_map snd mm))).
  { rewrite <- flat_map_concat_map || idtac. assert (X : forall l : list (nat * list agroup), map (fun a => total V zero add (map (fun q => part V zero ks (LV (ag_fn a)) (fst q) (snd q) p) (ag_map a))) (flat_map snd l)
      = flat_map (fun q => map (fun a => total V zero add (map (fun q => part V zero ks (LV (ag_fn a)) (fst q) (snd q) p) (ag_map a))) (snd q)) l).
    { clear. induction l as [|q l IH]; cbn [flat_map map]; [reflexivity|]. rewrite map_app, IH. reflexivity. }
    rewrite X, (total_flat V zero add Hmon). apply total_ext. intros [N l] I. cbn [fst snd].
    rewrite (total_swap V zero add Hmon (fun i a => gpart a p i) (seq 0 N) l). apply total_ext. intros a Ia. destruct (proj2 (Gm N l I) a Ia) as (g & _ & _ & Mg & <- & _).
    rewrite <- gpart_all, Mg. reflexivity. }
  rewrite S1. rewrite (total_perm V zero add Hmon _ _ (Permutation_map _ Perm)). rewrite (total_flat V zero add Hmon).
  assert (S2 : forall gs0 ags0, (forall g, In g gs0 -> group_ok ks g) -> mapO (arrayGroup is) gs0 = Some ags0 -> total V zero add (map (fun a => total V zero add (map (fun q => part V zero ks (LV (ag_fn a)) (fst q) (snd q) p) (ag_map a))) ags0)
    = total V zero add (map (fun g => total V zero add (parts V (LV (lg_fn g)) k (rank ks p) (lg_keys g))) gs0)).
  { clear -Hmon Hlen Hnd Hent Hp noLoop loopFn. induction gs0 as [|g gs0 IH]; intros ags0 Hg E; cbn [mapO] in E; [injection E as <-; reflexivity|].
    destruct (arrayGroup_ok V ks vs Hlen Hnd is Hent noLoop loopFn LV g (Hg g (or_introl eq_refl))) as (a & Ea & Fa & Ma). rewrite Ea in E. destruct (mapO (arrayGroup is) gs0) as [r|] eqn:Er; [|discriminate]. injection E as <-.
    cbn [map total fold_right]. specialize (IH r (fun g' I => Hg g' (or_intror I)) eq_refl). unfold total in IH at 1 3. rewrite IH. f_equal. rewrite Fa, Ma. exact (part_parts _ p k _ Hp). }
  exact (S2 gs ags (fun g I => proj1 (Hgs g I)) Ea).
Qed.
End Main.

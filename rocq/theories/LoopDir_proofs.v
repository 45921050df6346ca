(** * Directional derivatives of models with loops: proofs *)
From Coq Require Import List Arith Bool NArith Sorting.Sorted Lia.
From Verif Require Import Pool_model Pool_proofs Assemble_model Assemble_proofs Assemble_thm Drivers_model Drivers_proofs Drivers_thm
  LoopAsm_model LoopAsm_spec LoopAsm_maps LoopAsm_run LoopAsm_group LoopAsm_main LoopDir_model.
Import ListNotations.
Local Open Scope nat_scope.

Lemma count_cons a ks k : count (a :: ks) k = (if k =? a then 1 else 0) + count ks k.
Proof. unfold count. cbn [filter]. destruct (k =? a); reflexivity. Qed.
Lemma rank_S a ks p k : nth_error ks p = Some k -> rank (a :: ks) (S p) = (if k =? a then 1 else 0) + rank ks p.
Proof. intros H. unfold rank. cbn [firstn nth]. rewrite (nth_error_nth _ _ 0 H), count_cons. reflexivity. Qed.

Lemma elsOf_place k : forall ks vs e v, nth_error (elsOf k (combine ks vs)) e = Some v -> exists p, nth_error ks p = Some k /\ nth_error vs p = Some v /\ rank ks p = e.
Proof.
  unfold elsOf. induction ks as [|a ks IH]; intros vs e v H; [destruct e; discriminate|]. destruct vs as [|b vs]; [destruct e; discriminate|]. cbn [combine filter fst] in H.
  destruct (Nat.eqb_spec a k) as [->|N].
  - cbn [map snd] in H. destruct e as [|e].
    + injection H as ->. exists 0. split; [reflexivity|]. split; reflexivity.
    + destruct (IH vs e v H) as (p & A & B & C). exists (S p). split; [exact A|]. split; [exact B|]. rewrite (rank_S _ _ _ _ A), Nat.eqb_refl, C. reflexivity.
  - destruct (IH vs e v H) as (p & A & B & C). exists (S p). split; [exact A|]. split; [exact B|]. rewrite (rank_S _ _ _ _ A), C. destruct (Nat.eqb_spec k a); [congruence|reflexivity].
Qed.
Lemma elsOf_count k : forall ks vs, length ks = length vs -> length (elsOf k (combine ks vs)) = count ks k.
Proof.
  unfold elsOf. intros ks vs L. rewrite map_length. unfold count. revert vs L. induction ks as [|a ks IH]; intros [|b vs] L; try discriminate; [reflexivity|]. cbn [combine filter fst length].
  injection L as L. rewrite (Nat.eqb_sym k a). destruct (a =? k); cbn [length]; rewrite IH by exact L; reflexivity.
Qed.
Lemma hasKey_In km k : hasKey km k = true <-> In k (map fst km).
Proof.
  unfold hasKey. rewrite existsb_exists, in_map_iff. split; intros (q & A & B); exists q; [apply Nat.eqb_eq in B; split; assumption|split; [exact B|apply Nat.eqb_eq; exact A]].
Qed.
Lemma elsOf_key k : forall ks vs, length ks = length vs -> elsOf k (combine ks vs) <> [] <-> In k ks.
Proof.
  unfold elsOf. induction ks as [|a ks IH]; intros [|b vs] L; try discriminate; [split; [intros H; exfalso; apply H; reflexivity|intros []]|]. cbn [combine filter fst In]. injection L as L. destruct (Nat.eqb_spec a k).
  - split; [intros _; left; assumption|intros _; discriminate].
  - rewrite (IH vs L). split; [intros H; right; exact H|intros [H|H]; [congruence|exact H]].
Qed.
Lemma group_hasKey ks vs k : length ks = length vs -> hasKey (group ks vs) k = true <-> In k ks.
Proof.
  intros L. rewrite hasKey_In, <- (elsOf_key k ks vs L). destruct (groupOf_spec (combine ks vs)) as [_ S]. rewrite <- group_groupOf in S. split.
  - intros I. apply in_map_iff in I. destruct I as ([k' els] & E & I). cbn [fst] in E. subst k'. apply S in I. destruct I as [<- N]. exact N.
  - intros N. apply in_map_iff. exists (k, elsOf k (combine ks vs)). split; [reflexivity|]. apply S. split; [reflexivity|exact N].
Qed.

Lemma scanned_keys V ks vs (Hlen : length ks = length vs) (isz : V -> bool) seedOf js : forall j, In j (filter (selected V isz ks vs seedOf) js) -> In j ks.
Proof.
  intros j I. apply filter_In in I. destruct I as [_ I]. unfold selected in I. destruct (seedOf j); [|discriminate]. apply (elsOf_key j ks vs Hlen). intros X.
  rewrite X in I. destruct (isz v); discriminate.
Qed.
Lemma firstn_enough V ks vs (Hlen : length ks = length vs) mx (garbage : list V) j : length (elsOf j (combine ks vs)) <= mx -> length ks <= length garbage ->
  length (elsOf j (combine ks vs)) <= length (firstn mx garbage).
Proof.
  intros A B. rewrite firstn_length. assert (length (elsOf j (combine ks vs)) <= length ks). { rewrite (elsOf_count j ks vs Hlen). unfold count. apply filter_len. } lia.
Qed.

Section Dir.
Variable V : Type.
Variable zero : V.
Variable add : V -> V -> V.
Hypothesis Hmon : monoid V zero add.

Lemma parts_key (f : nat -> nat -> V) k e : forall km s, NoDup (map fst km) -> In (k, s) km -> parts V f k e km = if existsb (Nat.eqb e) s then [f k e] else [].
Proof.
  unfold parts. induction km as [|[k' s'] km IH]; intros s N I; [destruct I|]. cbn [map fst] in N. inversion N as [|? ? N1 N2]; subst. cbn [flat_map fst snd].
  destruct I as [X|I].
  - injection X as -> ->. rewrite Nat.eqb_refl. cbn [andb]. assert (Z : flat_map (fun q : nat * list nat => if (fst q =? k) && existsb (Nat.eqb e) (snd q) then [f k e] else []) km = []).
    { clear -N1. induction km as [|[k1 s1] km IH]; [reflexivity|]. cbn [flat_map fst snd map] in *. destruct (Nat.eqb_spec k1 k) as [->|]; [exfalso; apply N1; left; reflexivity|]. cbn [andb app]. apply IH. intros I. apply N1. right. exact I. }
    rewrite Z. apply app_nil_r.
  - destruct (Nat.eqb_spec k' k) as [->|]; [exfalso; apply N1; exact (in_map fst _ _ I)|]. cbn [andb app]. exact (IH s N2 I).
Qed.
Lemma parts_nokey (f : nat -> nat -> V) k e km : ~ In k (map fst km) -> parts V f k e km = [].
Proof.
  unfold parts. induction km as [|[k1 s1] km IH]; intros N1; [reflexivity|]. cbn [flat_map fst snd map] in *. destruct (Nat.eqb_spec k1 k) as [->|]; [exfalso; apply N1; left; reflexivity|]. cbn [andb app]. apply IH. intros I. apply N1. right. exact I.
Qed.

Variables ks vs : list nat.
Hypothesis Hlen : length ks = length vs.
Hypothesis Hd : distinct ks vs.
Variables (nl : keymap) (gs : list lgroup).
Hypothesis Hnl : keymap_ok ks nl.
Hypothesis Hgs : forall g, In g gs -> keymap_ok ks (lg_keys g).
Variable noLoop : nat -> V -> option (list V).
Variable loopFn : nat -> nat -> V -> option (list (nat * V)).
Variable NL : V -> nat -> nat -> V.
Variable LV : V -> nat -> nat -> nat -> V.
Hypothesis Hno : forall s, noLoop_ok V zero (NL s) ks nl (fun k => noLoop k s).
Hypothesis Hlo : forall s, loopFn_ok V zero add (LV s) gs (fun f k => loopFn f k s).
Let want (s : V) (k e : nat) : V := expected V zero add (NL s) (LV s) nl gs k e.

Lemma loops_ok s k N : count ks k <= N -> forall l, (forall g, In g l -> In g gs) -> forall comp F, arr V N comp F ->
  exists comp' F', callsRun V add noLoop loopFn s (flat_map (fun g => if hasKey (lg_keys g) k then [DLoop (lg_fn g) k] else []) l) comp = Some comp' /\ arr V N comp' F' /\
    (forall e, e < count ks k -> F' e = add (F e) (total V zero add (flat_map (fun g => parts V (LV s (lg_fn g)) k e (lg_keys g)) l))) /\
    (forall e, count ks k <= e -> F' e = F e).
Proof.
  intros Lc. induction l as [|g l IH]; intros Hin comp F A; cbn [flat_map].
  - exists comp, F. split; [reflexivity|]. split; [exact A|]. split; [intros e _; symmetry; apply (addR _ _ _ Hmon)|reflexivity].
  - destruct (hasKey (lg_keys g) k) eqn:Hk.
    + apply hasKey_In in Hk. apply in_map_iff in Hk. destruct Hk as ([k' sg] & E & I). cbn [fst] in E. subst k'.
      destruct (Hgs g (Hin g (or_introl eq_refl))) as [Ss Bs]. destruct (Bs k sg I) as (_ & _ & _ & Be).
      destruct (Hlo s g k sg (Hin g (or_introl eq_refl)) I) as (o & Eo & No & Po). cbn [app callsRun callRun]. rewrite Eo.
      destruct (addAll_sum V zero add Hmon N o comp F 0 A) as (c1 & F1 & E1 & A1 & P1 & Q1). { intros e v Ie. apply No in Ie. pose proof (Be e Ie). cbn [plus]. lia. }
      rewrite E1. destruct (IH (fun g' I' => Hin g' (or_intror I')) c1 F1 A1) as (c' & F' & E' & A' & P' & Q'). exists c', F'. split; [exact E'|]. split; [exact A'|].
      assert (X : forall e, F1 e = add (F e) (total V zero add (parts V (LV s (lg_fn g)) k e (lg_keys g)))).
      { intros e. rewrite (parts_key _ _ _ _ _ (sorted_NoDup _ Ss) I). destruct (existsb (Nat.eqb e) sg) eqn:Ee.
        - apply existsb_In in Ee. cbn [total fold_right]. rewrite (addR _ _ _ Hmon). rewrite <- (Po e Ee). apply (P1 e).
        - cbn [total fold_right]. rewrite (addR _ _ _ Hmon). apply Q1. intros e' v' Ie ->. cbn [plus] in Ee. apply No in Ie. apply not_true_iff_false in Ee. apply Ee. apply existsb_In. exact Ie. }
      split.
      * intros e He. rewrite (P' e He), X, (total_app V zero add Hmon). symmetry. apply (mo_assoc _ _ _ Hmon).
      * intros e He. rewrite (Q' e He). apply Q1. intros e' v' Ie ->. apply No in Ie. pose proof (Be e' Ie). cbn [plus] in He. lia.
    + cbn [app]. destruct (IH (fun g' I' => Hin g' (or_intror I')) comp F A) as (c' & F' & E' & A' & P' & Q').
      exists c', F'. split; [exact E'|]. split; [exact A'|]. split; [|exact Q']. intros e He. rewrite (P' e He), parts_nokey; [reflexivity|]. intros X. apply hasKey_In in X. congruence.
Qed.

(** One call of the function of all the directions, whatever the work array has. *)
Lemma dirRun_ok k s N comp F : In k ks -> count ks k <= N -> arr V N comp F ->
  exists comp' F', dirRun V add noLoop loopFn ks vs nl gs k s comp = DirDone comp' /\ arr V N comp' F' /\
    (forall e, e < count ks k -> F' e = add (if hasKey nl k then zero else F e) (want s k e)) /\
    (forall e, count ks k <= e -> F' e = F e).
Proof.
  intros Hk Lc A. unfold dirRun, dirCalls. rewrite (proj2 (group_hasKey ks vs k Hlen) Hk). destruct (hasKey nl k) eqn:Hn.
  - apply hasKey_In in Hn. apply in_map_iff in Hn. destruct Hn as ([k' sn] & E & I). cbn [fst] in E. subst k'.
    destruct Hnl as [Ss Bs]. destruct (Hno s k sn I) as (o & Eo & Lo & P1 & P2). cbn [app callsRun callRun]. rewrite Eo.
    destruct (writeAll_ok V N o comp F 0 A) as (c1 & F1 & E1 & A1 & W1 & W2); [lia|]. rewrite E1.
    destruct (loops_ok s k N Lc gs (fun g I => I) c1 F1 A1) as (c' & F' & E' & A' & P' & Q'). rewrite E'. exists c', F'. split; [reflexivity|]. split; [exact A'|]. split.
    + intros e He. rewrite (P' e He). unfold want, expected. rewrite (total_app V zero add Hmon), (mo_zero _ _ _ Hmon). f_equal. rewrite (parts_key _ _ _ _ _ (sorted_NoDup _ Ss) I).
      destruct (existsb (Nat.eqb e) sn) eqn:Ee.
      * apply existsb_In in Ee. cbn [total fold_right]. rewrite (addR _ _ _ Hmon). exact (W1 e _ (P1 e Ee)).
      * cbn [total fold_right]. apply (W1 e). apply (P2 e He). intros X. apply existsb_In in X. congruence.
    + intros e He. rewrite (Q' e He). apply W2. right. lia.
  - cbn [app]. destruct (loops_ok s k N Lc gs (fun g I => I) comp F A) as (c' & F' & E' & A' & P' & Q'). rewrite E'. exists c', F'. split; [reflexivity|]. split; [exact A'|]. split; [|exact Q'].
    intros e He. rewrite (P' e He). unfold want, expected. rewrite parts_nokey; [reflexivity|]. intros X. apply hasKey_In in X. congruence.
Qed.
Lemma dirRun_fails k s comp : ~ In k ks -> dirRun V add noLoop loopFn ks vs nl gs k s comp = DirFails.
Proof. intros N. unfold dirRun, dirCalls. destruct (hasKey (group ks vs) k) eqn:E; [|reflexivity]. apply (group_hasKey ks vs k Hlen) in E. contradiction. Qed.

Variable D : nat -> nat -> V -> V.
Hypothesis HD : forall p k v s, nth_error ks p = Some k -> nth_error vs p = Some v -> D k v s = want s k (rank ks p).
Let els k := elsOf k (combine ks vs).
Let vals k s := map (fun v => D k v s) (els k).

Lemma vals_nth k s e : e < count ks k -> nth_error (vals k s) e = Some (want s k e).
Proof.
  intros H. unfold vals. destruct (nth_error (els k) e) as [v|] eqn:E.
  - destruct (elsOf_place k ks vs e v E) as (p & A & B & C). apply map_nth_error with (f := fun v => D k v s) in E. rewrite E, (HD p k v s A B), C. reflexivity.
  - apply nth_error_None in E. unfold els in E. rewrite (elsOf_count k ks vs Hlen) in E. lia.
Qed.
Lemma vals_length k s : length (vals k s) = count ks k.
Proof. unfold vals. rewrite map_length. apply (elsOf_count k ks vs Hlen). Qed.

(** with a buffer which is zero, or with a function outside of loops, the result is as if all the values were assigned *)
Lemma dir_assigns k s c c0 : In k ks -> count ks k <= length c -> length c0 = length c ->
  (forall e, count ks k <= e -> nth_error c0 e = nth_error c e) -> (hasKey nl k = false -> forall e, e < count ks k -> nth_error c0 e = Some zero) ->
  exists c', dirRun V add noLoop loopFn ks vs nl gs k s c0 = DirDone c' /\ writeAll V c 0 (vals k s) = Some c' /\ length c' = length c.
Proof.
  intros Hk Lc L0 Hrest Hz.
  assert (A : arr V (length c) c0 (fun e => nth e c0 zero)). { rewrite <- L0. apply list_fun. }
  destruct (dirRun_ok k s (length c) c0 _ Hk Lc A) as (c' & F' & E' & [La A'] & P' & Q'). exists c'. split; [exact E'|].
  destruct (writeAll_ok V (length c) (vals k s) c (fun e => nth e c zero) 0 (list_fun V c zero)) as (c2 & F2 & E2 & [L2 A2] & W1 & W2); [rewrite vals_length; exact Lc|]. split; [|exact La].
  rewrite E2. f_equal. apply nth_ext'. intros e. destruct (Nat.lt_ge_cases e (length c)) as [Le|Le].
  - rewrite (A2 e Le), (A' e Le). f_equal. destruct (Nat.lt_ge_cases e (count ks k)) as [He|He].
    + rewrite (P' e He). pose proof (W1 e _ (vals_nth k s e He)) as W0. cbn [plus] in W0. rewrite W0. replace (if hasKey nl k then zero else nth e c0 zero) with zero; [symmetry; apply (mo_zero _ _ _ Hmon)|].
      destruct (hasKey nl k); [reflexivity|]. symmetry. apply nth_error_nth. exact (Hz eq_refl e He).
    + rewrite (Q' e He). rewrite W2 by (right; rewrite vals_length; lia). symmetry. apply nth_error_nth. rewrite (Hrest e He). apply nth_error_nth'. exact Le.
  - rewrite (proj2 (nth_error_None c2 e)) by lia. symmetry. apply nth_error_None. lia.
Qed.

Lemma clearBuf k c : count ks k <= length c -> exists c0, writeAll V c 0 (repeat zero (count ks k)) = Some c0 /\ length c0 = length c /\
  (forall e, count ks k <= e -> nth_error c0 e = nth_error c e) /\ (forall e, e < count ks k -> nth_error c0 e = Some zero).
Proof.
  intros L. destruct (writeAll_ok V (length c) (repeat zero (count ks k)) c (fun e => nth e c zero) 0 (list_fun V c zero)) as (c0 & F0 & E0 & [L0 A0] & W1 & W2); [rewrite repeat_length; exact L|].
  rewrite repeat_length in *. exists c0. split; [exact E0|]. split; [exact L0|]. split.
  - intros e He. destruct (Nat.lt_ge_cases e (length c)) as [Le|Le]; [|rewrite !(proj2 (nth_error_None _ e)) by lia; reflexivity].
    rewrite (A0 e Le), W2 by (right; cbn [plus]; exact He). symmetry. apply nth_error_nth'. exact Le.
  - intros e He. rewrite (A0 e) by lia. f_equal. apply (W1 e zero). apply nth_error_repeat. exact He.
Qed.

Lemma eachDirection_same f seedOf : forall pos comp out, (forall j, In j pos -> In j ks) -> (forall j, In j pos -> length (els j) <= length comp) ->
  eachDirectionL V zero add noLoop loopFn ks vs nl gs f seedOf pos (Some comp) out = eachDirection V zero add D false ks vs f seedOf pos (Some comp) out.
Proof.
  induction pos as [|j pos IH]; intros comp out Hk Hc; [reflexivity|]. cbn [eachDirectionL eachDirection]. destruct (seedOf j) as [s|]; [|reflexivity]. rewrite sparsityOf_ok.
  pose proof (Hk j (or_introl eq_refl)) as Kj. pose proof (Hc j (or_introl eq_refl)) as Cj. unfold els in Cj. rewrite (elsOf_count j ks vs Hlen) in Cj |- *.
  destruct (clearBuf j comp Cj) as (c0 & E0 & L0 & R0 & Z0). rewrite E0. destruct (dir_assigns j s comp c0 Kj Cj L0 R0 (fun _ => Z0)) as (c' & E1 & E2 & L1). rewrite E1.
  rewrite (direction_ok zero D false ks vs j s Hd) by (apply elsOf_key; assumption). fold (els j) (vals j s). rewrite E2.
  destruct (accumulate V add f _ c' out) as [out'|]; [|reflexivity]. apply IH.
  - intros j' I. exact (Hk j' (or_intror I)).
  - intros j' I. rewrite L1. exact (Hc j' (or_intror I)).
Qed.

Lemma directional_same isz ok garbage f nDir nOut seedOf out : (forall k, k < nDir -> seedOf k <> None) -> length ks <= length garbage ->
  directionalL V zero add isz noLoop loopFn ks vs nl gs ok garbage f nDir nOut seedOf out = directional V zero add isz D false ks vs ok true garbage f nDir nOut seedOf out.
Proof.
  intros Hs Lg. unfold directionalL, directional.
  destruct (scan_ok V isz ks vs ok seedOf (seq 0 nDir)) with (pos := @nil nat) (nnzMax := 0) as [[mx [E L]]|[_ E]].
  - intros j I. apply in_seq in I. apply Hs. lia.
  - intros j [].
  - rewrite E. destruct (clear V zero f (seq 0 nOut) out) as [out'|]; [|reflexivity]. cbn [app] in L |- *. destruct (filter _ (seq 0 nDir)) as [|j pos] eqn:Ef; [reflexivity|].
    apply eachDirection_same.
    + intros j' I. apply (scanned_keys V ks vs Hlen isz seedOf (seq 0 nDir)). rewrite Ef. exact I.
    + intros j' I. apply (firstn_enough V ks vs Hlen); [exact (L j' I)|exact Lg].
  - rewrite E. reflexivity.
Qed.

(** the methods with sparse arguments, when all the directions have a function outside of loops *)
Lemma sparseLoop_same : forall idx seeds comp out, (forall k, In k idx -> In k (map fst nl)) -> (forall k, In k idx -> count ks k <= length comp) ->
  match sparseLoop V zero add D false ks vs idx seeds comp out with
  | MDone out' => exists comp', sparseLoopL V add noLoop loopFn ks vs nl gs idx seeds comp out = LDone comp' out'
  | MThrow => sparseLoopL V add noLoop loopFn ks vs nl gs idx seeds comp out = LThrow
  | MUndef => sparseLoopL V add noLoop loopFn ks vs nl gs idx seeds comp out = LUndef
  end.
Proof.
  induction idx as [|k idx IH]; intros seeds comp out Hk Hc; cbn [sparseLoop sparseLoopL]; [exists comp; reflexivity|]. destruct seeds as [|s seeds]; [exists comp; reflexivity|]. rewrite sparsityOf_ok.
  assert (Kk : In k ks). { pose proof (Hk k (or_introl eq_refl)) as I. apply in_map_iff in I. destruct I as ([k' sn] & <- & I). exact (proj1 (proj2 Hnl k' sn I)). }
  assert (Hh : hasKey nl k = true) by (apply hasKey_In; exact (Hk k (or_introl eq_refl))).
  destruct (dir_assigns k s comp comp Kk (Hc k (or_introl eq_refl)) eq_refl (fun _ _ => eq_refl)) as (c' & E1 & E2 & L1); [congruence|].
  rewrite (direction_ok zero D false ks vs k s Hd) by (apply elsOf_key; assumption). fold (els k) (vals k s). rewrite E1, E2.
  destruct (accumulate V add _ _ c' out) as [out'|]; [|reflexivity]. apply IH; [intros k' I; exact (Hk k' (or_intror I))|]. intros k' I. rewrite L1. exact (Hc k' (or_intror I)).
Qed.
End Dir.

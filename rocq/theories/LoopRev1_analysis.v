(** * First order reverse mode of a model with loops: the elements of the equations, and what the analysis finds *)
From Coq Require Import List Bool Arith NArith ZArith Reals Sorted Lia Permutation Lra.
From Verif Require Import Pool_model Graph_model Codegen_model CSyntax Index_model Range_model LoopCond_model LoopCond_spec Assemble_model Assemble_proofs Assemble_thm
  LoopAsm_model LoopAsm_spec LoopJac_model LoopJac_spec LoopJac_maps LoopJac_row LoopJac_state LoopJac_analysis LoopJac_run LoopJac_main LoopDir_proofs LoopRev1_model.
Import ListNotations.
Local Open Scope nat_scope.

(** ** Maps which are filled one element after the other *)
Lemma build_spec {B A} (key : B -> nat) (val : B -> option A) l :
  (forall b b', In b l -> In b' l -> val b <> None -> val b' <> None -> key b = key b' -> b = b') ->
  let r := fold_left (fun mp b => match val b with Some a => mput (key b) a mp | None => mp end) l [] in
  keyed r /\ forall k a, In (k, a) r <-> exists b, In b l /\ key b = k /\ val b = Some a.
Proof.
  induction l as [|b l IH] using rev_ind; intros H; cbn zeta.
  - split; [constructor|]. intros k a. split; [intros []|intros (b & [] & _)].
  - rewrite fold_left_app. cbn [fold_left]. destruct IH as [K I]. { intros b1 b2 I1 I2. apply H; apply in_app_iff; left; assumption. }
    cbn zeta in K, I. set (r := fold_left _ l []) in *. destruct (val b) as [a0|] eqn:Ev.
    + split; [apply mput_keyed, K|]. intros k a. rewrite (mget_In _ _ _ (mput_keyed _ _ _ K)), (mget_put _ _ _ _ K). destruct (Nat.eqb_spec k (key b)) as [->|Ne].
      * split; [intros X; injection X as <-; exists b; split; [apply in_app_iff; right; left; reflexivity|auto]|]. intros (b' & Ib & Ek & E). assert (b' = b); [|subst; congruence].
        apply H; [exact Ib|apply in_app_iff; right; left; reflexivity|congruence|congruence|exact Ek].
      * rewrite <- (mget_In _ _ _ K), I. split; intros (b' & Ib & Ek & E); exists b'; (split; [|auto]); [apply in_app_iff; auto|]. apply in_app_iff in Ib. destruct Ib as [Ib|[<-|[]]]; [exact Ib|congruence].
    + split; [exact K|]. intros k a. rewrite I. split; intros (b' & Ib & Ek & E); exists b'; (split; [|auto]); [apply in_app_iff; auto|]. apply in_app_iff in Ib. destruct Ib as [Ib|[<-|[]]]; [exact Ib|congruence].
Qed.
Lemma fold_left_same {A B} (f g : A -> B -> A) : (forall a b, f a b = g a b) -> forall l a, fold_left f l a = fold_left g l a.
Proof. intros H. induction l as [|b l IH]; intros a; cbn [fold_left]; [reflexivity|]. rewrite H. apply IH. Qed.
Lemma sins_fold {B} (val : B -> option nat) l :
  let r := fold_left (fun acc b => match val b with Some e => sins e acc | None => acc end) l [] in
  StronglySorted lt r /\ forall e, In e r <-> exists b, In b l /\ val b = Some e.
Proof.
  induction l as [|b l IH] using rev_ind; cbn zeta; [split; [constructor|]; intros e; split; [intros []|intros (b & [] & _)]|].
  rewrite fold_left_app. cbn [fold_left]. destruct IH as [S I]. set (r := fold_left _ l []) in *. destruct (val b) as [e0|] eqn:Ev.
  - split; [apply sins_sorted, S|]. intros e. rewrite sins_In, I. split.
    + intros [->|(b' & Ib & E)]; [exists b|exists b']; (split; [apply in_app_iff|]); auto. right. left. reflexivity.
    + intros (b' & Ib & E). apply in_app_iff in Ib. destruct Ib as [Ib|[<-|[]]]; [right; exists b'; auto|left; congruence].
  - split; [exact S|]. intros e. rewrite I. split; intros (b' & Ib & E); exists b'; (split; [|auto]); [apply in_app_iff; auto|]. apply in_app_iff in Ib. destruct Ib as [Ib|[<-|[]]]; [exact Ib|congruence].
Qed.

(** ** The elements of an equation *)
Lemma place_elsOf k : forall ks vs p v, nth_error ks p = Some k -> nth_error vs p = Some v -> nth_error (elsOf k (combine ks vs)) (rank ks p) = Some v.
Proof.
  unfold elsOf. induction ks as [|a ks IH]; intros vs p v H1 H2; [destruct p; discriminate|]. destruct vs as [|b vs]; [destruct p; discriminate|]. cbn [combine filter fst]. destruct p as [|p]; cbn [nth_error] in *.
  - injection H1 as ->. injection H2 as ->. rewrite Nat.eqb_refl. reflexivity.
  - rewrite (rank_S _ _ _ _ H1). destruct (Nat.eqb_spec a k) as [->|N].
    + rewrite Nat.eqb_refl. cbn [map snd plus nth_error]. apply IH; assumption.
    + destruct (Nat.eqb_spec k a); [congruence|]. cbn [plus]. apply IH; assumption.
Qed.
Section Local.
Variables rows cols : list nat.
Hypothesis Honce : forall p, ~ Assemble_thm.repeated rows cols p.
Definition els (i : nat) : list nat := elsOf i (combine rows cols).

Lemma els_NoDup i : NoDup (els i).
Proof.
  apply NoDup_nth_error. intros e e' L E. unfold els in *. destruct (nth_error (elsOf i (combine rows cols)) e) as [v|] eqn:E1; [|apply nth_error_None in E1; lia]. symmetry in E.
  destruct (elsOf_place _ _ _ _ _ E1) as (p & A & B & <-). destruct (elsOf_place _ _ _ _ _ E) as (q & C & D & <-). destruct (Nat.lt_trichotomy p q) as [L1|[->|L1]]; [|reflexivity|]; exfalso.
  - apply (Honce q). exists p, i, v. repeat split; assumption.
  - apply (Honce p). exists q, i, v. repeat split; assumption.
Qed.
Lemma local_In e i j : In (e, (i, j)) (localElements rows cols) <-> nth_error (els i) e = Some j.
Proof.
  unfold localElements. destruct (groupOf_spec (combine rows cols)) as [_ S]. rewrite <- group_groupOf in S. rewrite in_flat_map. split.
  - intros ([k vs] & I & J). cbn [fst snd] in J. apply S in I. destruct I as [-> _]. apply in_map_iff in J. destruct J as ([e' j'] & X & J). cbn [fst snd] in X. injection X as <- <- <-. apply numbered_nth in J. exact J.
  - intros H. exists (i, els i). split.
    + apply S. split; [reflexivity|]. intros X. rewrite X in H. destruct e; discriminate.
    + cbn [fst snd]. apply in_map_iff. exists (e, j). split; [reflexivity|]. apply numbered_nth. exact H.
Qed.
Lemma inc_ge b l : inc b l -> forall k, In k l -> b <= k.
Proof. revert b. induction l as [|a l IH]; intros b H k I; [destruct I|]. cbn [inc] in H. destruct I as [<-|I]; [lia|]. specialize (IH _ (proj2 H) k I). lia. Qed.
Lemma NoDup_app_iff_lemma {A} (a b : list A) : NoDup a -> NoDup b -> (forall x, In x a -> In x b -> False) -> NoDup (a ++ b).
Proof.
  intros Ha Hb H. induction Ha as [|x a N Ha IH]; cbn [app]; [exact Hb|]. constructor; [|apply IH; intros y I J; exact (H y (or_intror I) J)].
  intros I. apply in_app_iff in I. destruct I as [I|I]; [contradiction|]. exact (H x (or_introl eq_refl) I).
Qed.
Lemma local_NoDup : NoDup (map snd (localElements rows cols)).
Proof.
  unfold localElements. destruct (groupOf_spec (combine rows cols)) as [N S]. rewrite <- group_groupOf in N, S. set (g := group rows cols) in *.
  assert (E : forall k vs, In (k, vs) g -> NoDup vs). { intros k vs I. apply S in I. destruct I as [-> _]. apply els_NoDup. }
  clear S. revert N. generalize 0. induction g as [|[k vs] g IH]; intros b N; cbn [flat_map map]; [constructor|]. cbn [map fst inc] in N. rewrite map_app. cbn [fst snd].
  assert (X : map snd (map (fun ej : nat * nat => (fst ej, (k, snd ej))) (numbered vs)) = map (fun j => (k, j)) vs).
  { rewrite map_map. cbn [snd]. unfold numbered. generalize 0. clear. induction vs as [|v vs IHv]; intros q; cbn [length seq combine map snd]; [reflexivity|]. rewrite IHv. reflexivity. }
  rewrite X. apply NoDup_app_iff_lemma; [| |].
  - apply FinFun.Injective_map_NoDup; [intros a c H; congruence|]. exact (E k vs (or_introl eq_refl)).
  - apply (IH (fun k' vs' I => E k' vs' (or_intror I)) (S k)). exact (proj2 N).
  - intros [k1 j1] I1 I2. apply in_map_iff in I1. destruct I1 as (j & Y & _). injection Y as <- <-. apply in_map_iff in I2. destruct I2 as ([e2 [k2 j2]] & Y & I2). cbn [snd] in Y. injection Y as -> ->.
    apply in_flat_map in I2. destruct I2 as ([k3 vs3] & I3 & I4). apply in_map_iff in I4. destruct I4 as (? & Y & _). cbn [fst] in Y. injection Y as _ -> _.
    pose proof (inc_ge _ _ (proj2 N) k (in_map fst _ _ I3)). lia.
Qed.
End Local.

(** ** Which derivatives of the equations outside of loops are evaluated *)
Lemma rfold_inv {A S} (T : S -> Prop) (f : S -> A -> res S) : (forall s a s', T s -> f s a = Ok s' -> T s') -> forall l s s', T s -> rfold f l s = Ok s' -> T s'.
Proof.
  intros H. induction l as [|a l IH]; intros s s' Ht E; cbn [rfold] in E; [injection E as <-; exact Ht|]. destruct (f s a) as [s1| |] eqn:E1; try discriminate. cbn [rbind] in E.
  exact (IH s1 s' (H s a s1 Ht E1) E).
Qed.
Lemma loopElement_ev md l tapeI it j e r ev r' ev' : loopElement md l tapeI it j e r ev = Ok (r', ev') -> forall il, il < eqCount md -> ev' il = ev il.
Proof.
  unfold loopElement. destruct (nth_error (l_row l) tapeI) as [row|]; [|discriminate]. destruct (rfold (indexed1 l row it e) _ r) as [r1| |]; try discriminate. cbn [rbind].
  destruct (nonIndexed1 l row it j e r1) as [rb| |]; try discriminate. cbn [rbind]. unfold eqCount. destruct (m_free md) as [f|]; [|intros E; injection E as <- <-; reflexivity].
  destruct (rfold (temporary1 l f it j e) _ _) as [s| |] eqn:E1; try discriminate. cbn [rbind]. intros E. injection E as <- <-.
  refine (rfold_inv (fun s => forall il, il < length (f_eqs f) -> snd (fst s) il = ev il) _ _ _ _ _ _ E1); [|reflexivity].
  clear. intros [[r1 ev1] b] t s' H E. cbn [fst snd] in *. unfold temporary1 in E. destruct (nth_error (l_tmp l) _) as [k|]; [|discriminate]. destruct (nth_error (f_row f) _) as [sp|]; [|discriminate].
  destruct (mem j sp); [|injection E as <-; exact H]. destruct (if b then Ok (nonIndexedPositions r1) else _) as [m| |]; try discriminate. cbn [rbind] in E. injection E as <-. cbn [fst snd].
  intros il L. unfold upd. destruct (Nat.eqb_spec il (length (f_eqs f) + k)); [lia|]. apply H, L.
Qed.
Definition evOk (md : model) (s : state) : Prop :=
  forall il, il < eqCount md -> StronglySorted lt (noLoopEval s il) /\ forall j, In j (noLoopEval s il) -> noLoopLocs s il j <> [].
Lemma sins_ne k l : sins k l <> [].
Proof. destruct l as [|a l]; cbn [sins]; [discriminate|]. destruct (k <? a); [discriminate|]. destruct (k =? a); discriminate. Qed.
Lemma element1_ev md s a s' : evOk md s -> element1 md s a = Ok s' -> evOk md s'.
Proof.
  destruct a as [e [i j]]. unfold element1. destruct (findLoop i (m_loops md)) as [[n [t it]]|].
  - destruct (nth_error (m_loops md) n) as [l|]; [|discriminate]. destruct (loopElement md l t it j e (infos s n t) (noLoopEval s)) as [[r ev]| |] eqn:E1; try discriminate. cbn [rbind fst snd]. intros H E. injection E as <-.
    intros il L. cbn [noLoopEval noLoopLocs]. rewrite (loopElement_ev _ _ _ _ _ _ _ _ _ _ E1 il L). exact (H il L).
  - destruct (m_free md) as [f|]; [|discriminate]. destruct (indexOf (Nat.eqb i) (f_eqs f)) as [il0|]; [|discriminate]. intros H E. injection E as <-. intros il L. destruct (H il L) as [S N].
    cbn [noLoopEval noLoopLocs]. unfold upd. destruct (Nat.eqb_spec il il0) as [->|]; [|split; assumption]. split; [apply sins_sorted, S|]. intros j' I. destruct (Nat.eqb_spec j' j) as [->|Ne]; [apply sins_ne|].
    apply sins_In in I. destruct I as [|I]; [congruence|exact (N j' I)].
Qed.

Section Analysis.
Variable md : model.
Hypothesis Hg : good md.
Variables rows cols : list nat.
Hypothesis Hlen : length rows = length cols.
Hypothesis Honce : forall p, ~ Assemble_thm.repeated rows cols p.
Hypothesis Hplace : forall i, In i rows -> exists p, place_of md i p.

Lemma els_row i e j : nth_error (els rows cols i) e = Some j -> In i rows.
Proof. intros H. destruct (elsOf_place _ _ _ _ _ H) as (p & A & _). exact (nth_error_In _ _ A). Qed.
Lemma els_count i e j : nth_error (els rows cols i) e = Some j -> e < count rows i.
Proof. intros H. rewrite <- (elsOf_count i rows cols Hlen). apply nth_error_Some. unfold els in H. congruence. Qed.
Lemma analyseLocal_spec : exists s, analyseLocal md rows cols = Ok s /\ Inv md (localElements rows cols) s /\ evOk md s.
Proof.
  destruct (fold_clean md Hg (localElements rows cols) [] state0 (Inv0 md)) as (s & E & HI).
  - intros e i j I. apply local_In in I. apply Hplace. exact (els_row i e j I).
  - cbn [app]. intros A e i j B E _ (e' & I). pose proof (local_NoDup rows cols Honce) as N. rewrite E, map_app in N. cbn [map snd] in N. apply NoDup_remove_2 in N. apply N. apply in_app_iff. left.
    exact (in_map snd _ _ I).
  - exists s. split; [exact E|]. split; [exact HI|]. refine (rfold_inv (evOk md) _ (fun s a s' H X => element1_ev md s a s' H X) _ _ _ _ E).
    intros il L. cbn [state0 noLoopEval noLoopLocs]. split; [constructor|intros j []].
Qed.

(** ** The row of an equation outside of loops *)
Variable s : state.
Hypothesis HI : Inv md (localElements rows cols) s.
Hypothesis HE : evOk md s.
Variable dG : nat -> nat -> (nat -> R) -> R.
Variable x : nat -> R.
Section Free.
Variable f : freeM.
Hypothesis Hf : m_free md = Some f.
Variables il i : nat.
Hypothesis Hil : nth_error (f_eqs f) il = Some i.

Lemma il_lt : il < eqCount md.
Proof. unfold eqCount. rewrite Hf. apply nth_error_Some. congruence. Qed.
Lemma locs_In j e : In e (noLoopLocs s il j) <-> nth_error (els rows cols i) e = Some j.
Proof.
  rewrite (v_locs md _ _ HI). split.
  - intros (i' & f' & I & E & E2). assert (f' = f) by congruence. subst f'. assert (i' = i) by congruence. subst i'. apply local_In. exact I.
  - intros H. exists i, f. split; [apply local_In; exact H|]. auto.
Qed.
Lemma eval_In j : In j (noLoopEval s il) <-> In j (els rows cols i).
Proof.
  split.
  - intros I. pose proof (proj2 (HE il il_lt) j I) as N. destruct (noLoopLocs s il j) as [|e r] eqn:E; [congruence|]. assert (X : In e (noLoopLocs s il j)) by (rewrite E; left; reflexivity).
    apply locs_In in X. exact (nth_error_In _ _ X).
  - intros I. apply In_nth_error in I. destruct I as (e & I). apply locs_In in I. exact (v_eval md _ _ HI _ _ _ I).
Qed.
Lemma locs_hd j : In j (els rows cols i) -> exists e r, noLoopLocs s il j = e :: r /\ nth_error (els rows cols i) e = Some j.
Proof.
  intros I. apply eval_In in I. pose proof (proj2 (HE il il_lt) j I) as N. destruct (noLoopLocs s il j) as [|e r] eqn:E; [congruence|]. exists e, r. split; [reflexivity|]. apply locs_In. rewrite E. left. reflexivity.
Qed.
Lemma eval_length : length (noLoopEval s il) = count rows i.
Proof.
  rewrite <- (elsOf_count i rows cols Hlen). fold (els rows cols i). apply Permutation_length, NoDup_Permutation; [apply LoopJac_maps.sorted_NoDup, (HE il il_lt)|apply els_NoDup, Honce|].
  intros j. apply eval_In.
Qed.
Lemma noLoopRow_spec py : exists row, noLoopRow dG x s il py = Ok row /\ length row = count rows i /\
  forall e j, nth_error (els rows cols i) e = Some j -> nth_error row e = Some (dG il j x * py)%R.
Proof.
  unfold noLoopRow. rewrite eval_length.
  assert (X : forall js row, NoDup js -> (forall j, In j js -> In j (els rows cols i)) -> length row = count rows i -> exists row', fold_left (noLoopStep dG x s il py) js (Ok row) = Ok row' /\ length row' = count rows i /\
    forall e j, nth_error (els rows cols i) e = Some j -> nth_error row' e = if mem j js then Some (dG il j x * py)%R else nth_error row e).
  { induction js as [|j js IH]; intros row N Hj L; cbn [fold_left].
    - exists row. split; [reflexivity|]. split; [exact L|]. reflexivity.
    - inversion N as [|? ? N1 N2]; subst. destruct (locs_hd j (Hj j (or_introl eq_refl))) as (e & r & E & Ee). unfold noLoopStep at 2. cbn [rbind]. rewrite E.
      assert (Le : e < length row) by (rewrite L; exact (els_count i e j Ee)). replace (e <? length row) with true by (symmetry; apply Nat.ltb_lt; exact Le).
      destruct (IH (set_nth e (dG il j x * py)%R row) N2 (fun j' I => Hj j' (or_intror I))) as (row' & E' & L' & H'); [rewrite set_nth_length; exact L|].
      exists row'. split; [exact E'|]. split; [exact L'|]. intros e' j' X'. rewrite (H' e' j' X'). change (mem j' (j :: js)) with ((j' =? j) || mem j' js). rewrite (nth_set_nth _ _ _ _ Le).
      destruct (Nat.eqb_spec j' j) as [->|Ne]; cbn [orb].
      + assert (e' = e). { eapply NoDup_nth_error; [exact (els_NoDup rows cols Honce i)|apply nth_error_Some; congruence|congruence]. } subst e'. rewrite Nat.eqb_refl. destruct (mem j js); reflexivity.
      + destruct (mem j' js); [reflexivity|]. destruct (Nat.eqb_spec e' e) as [->|]; [congruence|reflexivity]. }
  destruct (X (noLoopEval s il) (repeat 0%R (count rows i))) as (row & E & L & H).
  - apply LoopJac_maps.sorted_NoDup, (HE il il_lt).
  - intros j. apply eval_In.
  - apply repeat_length.
  - exists row. split; [exact E|]. split; [exact L|]. intros e j Y. rewrite (H e j Y). replace (mem j (noLoopEval s il)) with true; [reflexivity|]. symmetry. apply mem_In, eval_In. exact (nth_error_In _ _ Y).
Qed.
Lemma noLoopSet_spec : StronglySorted lt (noLoopSet s il) /\ forall e, In e (noLoopSet s il) <-> exists j, nth_error (els rows cols i) e = Some j.
Proof.
  unfold noLoopSet. pose proof (sins_fold (fun j => match noLoopLocs s il j with e :: _ => Some e | [] => None end) (noLoopEval s il)) as [S I].
  rewrite (fold_left_same _ (fun acc b => match match noLoopLocs s il b with e :: _ => Some e | [] => None end with Some e => sins e acc | None => acc end)) by (intros a b; destruct (noLoopLocs s il b); reflexivity).
  split; [exact S|]. intros e. rewrite I. split.
  - intros (j & Ij & E). exists j. apply eval_In, locs_hd in Ij. destruct Ij as (e' & r & E' & X). rewrite E' in E. injection E as ->. exact X.
  - intros (j & X). exists j. pose proof (nth_error_In _ _ X) as Ij. split; [apply eval_In, Ij|]. destruct (locs_hd j Ij) as (e' & r & E' & X'). rewrite E'. f_equal.
    eapply NoDup_nth_error; [exact (els_NoDup rows cols Honce i)|apply nth_error_Some; congruence|congruence].
Qed.
End Free.

(** the map of the equations outside of loops *)
Lemma noLoopMap_spec : keyed (noLoopMap md s) /\ forall k es, In (k, es) (noLoopMap md s) <->
  exists f il, m_free md = Some f /\ nth_error (f_eqs f) il = Some k /\ es = noLoopSet s il /\ es <> [].
Proof.
  unfold noLoopMap. rewrite (fold_left_same _ (fun mp b => match match noLoopSet s (fst b) with [] => None | es => Some es end with Some a => mput (snd b) a mp | None => mp end)) by (intros a b; destruct (noLoopSet s (fst b)); reflexivity).
  destruct (build_spec snd (fun b : nat * nat => match noLoopSet s (fst b) with [] => None | es => Some es end) (numbered (freeEqs md))) as [K I].
  - intros [a b] [a' b'] I1 I2 _ _ E. cbn [snd] in E. subst b'. f_equal. apply numbered_nth in I1. apply numbered_nth in I2. unfold freeEqs in *. destruct (m_free md) as [f|] eqn:Ef; [|destruct a; discriminate].
    eapply NoDup_nth_error; [exact (proj1 (g_free md Hg f Ef))|apply nth_error_Some; congruence|congruence].
  - split; [exact K|]. intros k es. rewrite I. split.
    + intros ([il k'] & I1 & E & V1). cbn [snd fst] in *. subst k'. apply numbered_nth in I1. unfold freeEqs in I1. destruct (m_free md) as [f|] eqn:Ef; [|destruct il; discriminate]. exists f, il.
      split; [reflexivity|]. split; [exact I1|]. destruct (noLoopSet s il) as [|a r]; [discriminate|]. injection V1 as <-. split; [reflexivity|discriminate].
    + intros (f & il & Ef & E & Es & N). exists (il, k). cbn [fst snd]. split; [apply numbered_nth; unfold freeEqs; rewrite Ef; exact E|]. split; [reflexivity|]. rewrite <- Es. destruct es; [congruence|reflexivity].
Qed.
End Analysis.

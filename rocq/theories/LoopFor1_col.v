(** * First order forward mode of a model with loops: the elements of a variable, and what the equations of a loop give for it *)
From Coq Require Import List Bool Arith NArith ZArith Reals Sorted Lia Permutation Lra.
From Verif Require Import Pool_model Graph_model Codegen_model CSyntax Index_model Range_model LoopCond_model LoopCond_spec Assemble_model Assemble_proofs Assemble_thm
  LoopAsm_model LoopAsm_spec LoopJac_model LoopJac_spec LoopJac_maps LoopJac_row LoopJac_state LoopJac_analysis LoopJac_run LoopJac_main LoopDir_proofs LoopRev1_model LoopRev1_analysis
  LoopFor1_model.
Import ListNotations.
Local Open Scope nat_scope.

Lemma once_swap rows cols : (forall p, ~ Assemble_thm.repeated rows cols p) -> forall p, ~ Assemble_thm.repeated cols rows p.
Proof. intros H p (q & i & j & L & [A B] & [C D]). apply (H p). exists q, j, i. repeat split; assumption. Qed.

Section Analysis.
Variable md : model.
Hypothesis Hg : good md.
Variables rows cols : list nat.
Hypothesis Hlen : length rows = length cols.
Hypothesis Honce : forall p, ~ Assemble_thm.repeated rows cols p.
(** the equations of the elements of variable [j] *)
Definition eqsOf (j : nat) : list nat := els cols rows j.
Lemma column_In e i j : In (e, (i, j)) (columnElements rows cols) <-> nth_error (eqsOf j) e = Some i.
Proof.
  unfold columnElements, eqsOf. rewrite in_map_iff, <- local_In. split.
  - intros ([e' [j' i']] & X & I). cbn [fst snd] in X. injection X as -> -> ->. exact I.
  - intros I. exists (e, (j, i)). auto.
Qed.
Lemma column_NoDup : NoDup (map snd (columnElements rows cols)).
Proof.
  unfold columnElements. rewrite map_map. cbn [snd]. rewrite <- (map_map snd (fun q : nat * nat => (snd q, fst q))). apply FinFun.Injective_map_NoDup; [intros [a b] [c d] H; cbn [fst snd] in H; congruence|].
  apply local_NoDup, once_swap, Honce.
Qed.
Lemma eqsOf_row j e i : nth_error (eqsOf j) e = Some i -> In i rows.
Proof. intros H. destruct (elsOf_place _ _ _ _ _ H) as (p & _ & A & _). exact (nth_error_In _ _ A). Qed.
Lemma eqsOf_col j e i : nth_error (eqsOf j) e = Some i -> In j cols.
Proof. exact (els_row cols rows j e i). Qed.
Lemma eqsOf_count j e i : nth_error (eqsOf j) e = Some i -> e < count cols j.
Proof. exact (els_count cols rows (eq_sym Hlen) j e i). Qed.
Lemma eqsOf_length j : length (eqsOf j) = count cols j.
Proof. exact (elsOf_count j cols rows (eq_sym Hlen)). Qed.
Lemma eqsOf_NoDup j : NoDup (eqsOf j).
Proof. apply els_NoDup, once_swap, Honce. Qed.
Lemma eqsOf_one j e e' i : nth_error (eqsOf j) e = Some i -> nth_error (eqsOf j) e' = Some i -> e = e'.
Proof. intros A B. eapply NoDup_nth_error; [apply eqsOf_NoDup|apply nth_error_Some; rewrite A; discriminate|congruence]. Qed.
Lemma analyseColumns_spec : (forall i, In i rows -> exists p, place_of md i p) -> exists s, analyseColumns md rows cols = Ok s /\ Inv md (columnElements rows cols) s /\ evOk md s.
Proof.
  intros Hplace. destruct (fold_clean md Hg (columnElements rows cols) [] state0 (Inv0 md)) as (s & E & HI).
  - intros e i j I. apply column_In in I. apply Hplace. exact (eqsOf_row j e i I).
  - cbn [app]. intros A e i j B E _ (e' & I). pose proof column_NoDup as N. rewrite E, map_app in N. cbn [map snd] in N. apply NoDup_remove_2 in N. apply N. apply in_app_iff. left. exact (in_map snd _ _ I).
  - exists s. split; [exact E|]. split; [exact HI|]. refine (rfold_inv (evOk md) _ (fun s a s' H X => element1_ev md s a s' H X) _ _ _ _ E).
    intros il L. cbn [state0 noLoopEval noLoopLocs]. split; [constructor|intros j []].
Qed.

(** ** The column of a variable outside of loops *)
Variable s : state.
Hypothesis HI : Inv md (columnElements rows cols) s.
Hypothesis HE : evOk md s.
Variable dG : nat -> nat -> (nat -> R) -> R.
Variable x : nat -> R.
Definition freeAt (il i : nat) : Prop := exists f, m_free md = Some f /\ nth_error (f_eqs f) il = Some i.
Lemma freeAt_lt il i : freeAt il i -> il < eqCount md.
Proof. intros (f & Ef & E). unfold eqCount. rewrite Ef. apply nth_error_Some. rewrite E. discriminate. Qed.
Lemma lt_freeAt il : il < eqCount md -> exists i, freeAt il i.
Proof. unfold eqCount. intros L. destruct (m_free md) as [f|] eqn:Ef; [|lia]. destruct (nth_error (f_eqs f) il) as [i|] eqn:E; [exists i, f; auto|]. apply nth_error_None in E. lia. Qed.
Lemma freeAt_fun il i i' : freeAt il i -> freeAt il i' -> i = i'.
Proof. intros (f & Ef & E) (f' & Ef' & E'). congruence. Qed.
Lemma freeAt_one il il' i : freeAt il i -> freeAt il' i -> il = il'.
Proof.
  intros (f & Ef & E) (f' & Ef' & E'). assert (f' = f) by congruence. subst f'. eapply NoDup_nth_error; [exact (proj1 (g_free md Hg f Ef))|apply nth_error_Some; rewrite E; discriminate|congruence].
Qed.
Lemma locs_col il i j e : freeAt il i -> (In e (noLoopLocs s il j) <-> nth_error (eqsOf j) e = Some i).
Proof.
  intros (f & Ef & E). rewrite (v_locs md _ _ HI). split.
  - intros (i' & f' & I & Ef' & E'). assert (i' = i) by congruence. subst i'. apply column_In. exact I.
  - intros H. exists i, f. split; [apply column_In; exact H|]. auto.
Qed.
Lemma eval_col il i j : freeAt il i -> In j (noLoopEval s il) -> exists e r, noLoopLocs s il j = e :: r /\ nth_error (eqsOf j) e = Some i.
Proof.
  intros F I. pose proof (proj2 (HE il (freeAt_lt il i F)) j I) as N. destruct (noLoopLocs s il j) as [|e r] eqn:E; [destruct (N eq_refl)|]. exists e, r. split; [reflexivity|]. apply (locs_col il i j e F). rewrite E. left. reflexivity.
Qed.
Lemma col_eval il i j e : freeAt il i -> nth_error (eqsOf j) e = Some i -> In j (noLoopEval s il).
Proof. intros F H. apply (v_eval md _ _ HI il j e). apply (locs_col il i j e F). exact H. Qed.
Lemma noLoopCol_spec j dx : exists col, noLoopCol dG md x cols s j dx = Ok col /\ length col = count cols j /\
  forall e i, nth_error (eqsOf j) e = Some i -> (forall il, freeAt il i -> nth_error col e = Some (dG il j x * dx)%R) /\ ((forall il, ~ freeAt il i) -> nth_error col e = Some 0%R).
Proof.
  unfold noLoopCol. change (length (filter (Nat.eqb j) cols)) with (count cols j).
  assert (X : forall ils col, NoDup ils -> (forall il, In il ils -> il < eqCount md) -> length col = count cols j ->
    exists col', fold_left (noLoopColStep dG x s j dx) ils (Ok col) = Ok col' /\ length col' = count cols j /\
    forall e i, nth_error (eqsOf j) e = Some i -> (forall il, In il ils -> freeAt il i -> nth_error col' e = Some (dG il j x * dx)%R) /\ ((forall il, In il ils -> ~ freeAt il i) -> nth_error col' e = nth_error col e)).
  { induction ils as [|il ils IH]; intros col N Hi L; cbn [fold_left]; [exists col; split; [reflexivity|split; [exact L|]]; intros e i _; split; [intros il []|reflexivity]|].
    inversion N as [|? ? N1 N2]; subst. destruct (lt_freeAt il (Hi il (or_introl eq_refl))) as (i0 & F0). unfold noLoopColStep at 2. cbn [rbind]. destruct (mem j (noLoopEval s il)) eqn:Em.
    - apply mem_In in Em. destruct (eval_col il i0 j F0 Em) as (e0 & r & E0 & Ee). rewrite E0. assert (Le : e0 < length col) by (rewrite L; exact (eqsOf_count j e0 i0 Ee)). rewrite (proj2 (Nat.ltb_lt _ _) Le).
      destruct (IH (set_nth e0 (dG il j x * dx)%R col) N2 (fun a I => Hi a (or_intror I))) as (col' & E' & L' & H'); [rewrite set_nth_length; exact L|]. exists col'. split; [exact E'|]. split; [exact L'|].
      intros e i Y. destruct (H' e i Y) as [A B]. split.
      + intros il1 [<-|I1] F1; [|exact (A il1 I1 F1)]. assert (i = i0) by exact (freeAt_fun _ _ _ F1 F0). subst i. rewrite B.
        * rewrite (eqsOf_one j e e0 i0 Y Ee). rewrite (nth_set_nth _ _ _ _ Le), Nat.eqb_refl. reflexivity.
        * intros il2 I2 F2. rewrite (freeAt_one _ _ _ F2 F0) in I2. contradiction.
      + intros Z. rewrite (B (fun a I => Z a (or_intror I))), (nth_set_nth _ _ _ _ Le). destruct (Nat.eqb_spec e e0) as [->|]; [|reflexivity]. exfalso. apply (Z il (or_introl eq_refl)). assert (i = i0) by congruence. subst i. exact F0.
    - apply mem_nIn in Em. destruct (IH col N2 (fun a I => Hi a (or_intror I)) L) as (col' & E' & L' & H'). exists col'. split; [exact E'|]. split; [exact L'|]. intros e i Y. destruct (H' e i Y) as [A B]. split.
      + intros il1 [<-|I1] F1; [|exact (A il1 I1 F1)]. exfalso. apply Em. exact (col_eval il i j e F1 Y).
      + intros Z. exact (B (fun a I => Z a (or_intror I))). }
  destruct (X (seq 0 (nEq md)) (repeat 0%R (count cols j))) as (col & E & L & H).
  - apply seq_NoDup.
  - intros il I. apply in_seq in I. rewrite nEq_eq in I. lia.
  - apply repeat_length.
  - exists col. split; [exact E|]. split; [exact L|]. intros e i Y. destruct (H e i Y) as [A B]. split.
    + intros il F. apply A; [|exact F]. apply in_seq. rewrite nEq_eq. pose proof (freeAt_lt il i F). lia.
    + intros Z. rewrite B by (intros; apply Z). pose proof (eqsOf_count j e i Y) as Le. revert Le. generalize (count cols j). clear. intros c. revert e. induction c as [|c IH]; intros e Le; [lia|]. destruct e as [|e]; cbn; [reflexivity|]. apply IH. lia.
Qed.
Lemma noLoopColSet_spec j : StronglySorted lt (noLoopColSet md s j) /\ forall e, In e (noLoopColSet md s j) <-> exists i il, nth_error (eqsOf j) e = Some i /\ freeAt il i.
Proof.
  unfold noLoopColSet. set (val := fun il => match (if mem j (noLoopEval s il) then noLoopLocs s il j else []) with e :: _ => Some e | [] => None end).
  rewrite (fold_left_same _ (fun acc b => match val b with Some e => sins e acc | None => acc end)) by (intros a b; unfold val; destruct (if mem j (noLoopEval s b) then noLoopLocs s b j else []); reflexivity).
  destruct (sins_fold val (seq 0 (nEq md))) as [S I]. split; [exact S|]. intros e. rewrite I. unfold val. split.
  - intros (il & Ii & E). apply in_seq in Ii. rewrite nEq_eq in Ii. destruct (lt_freeAt il) as (i & F); [lia|]. destruct (mem j (noLoopEval s il)) eqn:Em; [|discriminate]. apply mem_In in Em.
    destruct (eval_col il i j F Em) as (e0 & r & E0 & Ee). rewrite E0 in E. injection E as ->. exists i, il. auto.
  - intros (i & il & Y & F). exists il. split; [apply in_seq; rewrite nEq_eq; pose proof (freeAt_lt il i F); lia|]. pose proof (col_eval il i j e F Y) as Em. destruct (eval_col il i j F Em) as (e0 & r & E0 & Ee).
    apply mem_In in Em. rewrite Em, E0, (eqsOf_one j e e0 i Y Ee). reflexivity.
Qed.
Lemma noLoopColMap_spec nx : keyed (noLoopColMap md nx s) /\ forall j es, In (j, es) (noLoopColMap md nx s) <-> j < nx /\ es = noLoopColSet md s j /\ es <> [].
Proof.
  unfold noLoopColMap. rewrite (fold_left_same _ (fun mp b => match match noLoopColSet md s b with [] => None | es => Some es end with Some a => mput b a mp | None => mp end)) by (intros a b; destruct (noLoopColSet md s b); reflexivity).
  destruct (build_spec (fun b : nat => b) (fun b => match noLoopColSet md s b with [] => None | es => Some es end) (seq 0 nx)) as [K I]; [intros; assumption|]. split; [exact K|]. intros j es. rewrite I. split.
  - intros (b & Ib & -> & V1). apply in_seq in Ib. split; [lia|]. destruct (noLoopColSet md s j); [discriminate|]. injection V1 as <-. split; [reflexivity|discriminate].
  - intros (L & -> & N). exists j. split; [apply in_seq; lia|]. split; [reflexivity|]. destruct (noLoopColSet md s j); [destruct (N eq_refl)|reflexivity].
Qed.
End Analysis.

(** * Pantelides' method: initial state, regular structures *)
From Coq Require Import List Arith Bool Lia.
From Verif Require Import Match_model Match_spec Match_proofs Match_struct Match_thm Match_pant Match_loop Match_init.
Import ListNotations.

Lemma model_St g : model_graph g -> St g.
Proof. intros H. apply MG_model in H. apply H. Qed.

Lemma model_Inv g : model_graph g -> Inv g.
Proof.
  intros H. assert (HS := model_St g H). destruct H as [M1 M2 M3 M4 M5 M6 M7 M8].
  assert (A : forall v, asgV g v = None) by (intros v; apply M8).
  assert (D : forall e, e_der (ge g e) = None) by (intros v; apply M7).
  constructor; auto.
  - intros v e. rewrite A. unfold asgE. destruct (M7 e) as [_ ->]. split; discriminate.
  - intros v e. rewrite A. discriminate.
  - intros v e. rewrite A. discriminate.
  - intros v e. rewrite A. discriminate.
  - intros e d. rewrite D. discriminate.
  - intros e d. rewrite D. discriminate.
Qed.

Lemma model_Cur g : model_graph g -> 0 < ne g -> Cur (ne g) 0 0 g.
Proof.
  intros H L. destruct H as [M1 M2 M3 M4 M5 M6 M7 M8]. constructor; try lia.
  - apply M7.
  - apply M7.
  - intros e _ _. destruct (M7 e). auto.
Qed.

(** ** Chains of derivatives *)
Lemma up_app g n : forall m v u w, up g n v u -> up g m u w -> up g (n + m) v w.
Proof.
  induction n as [|n IH]; intros m v u w; cbn [up plus]; [intros -> H; exact H|].
  intros (x & D & U) H. exists x. split; [exact D|]. eapply IH; eauto.
Qed.
Lemma derived_up g v w : derived g v w <-> exists n, up g n v w.
Proof.
  split.
  - induction 1 as [|u w H [n IH] D]; [exists 0; reflexivity|]. exists (S n). eapply up_snoc; eauto.
  - intros [n H]. revert v H. assert (T : forall u v w, derived g u v -> derived g v w -> derived g u w).
    { intros u v0 w0 A B. induction B; [exact A|]. econstructor; eauto. }
    induction n as [|n IH]; cbn [up]; intros v; [intros ->; constructor|].
    intros (u & D & U). eapply T; [|apply IH; exact U]. econstructor; [constructor|exact D].
Qed.
Lemma up_last g n : forall v w, up g (S n) v w -> exists u, up g n v u /\ v_der (gv g u) = Some w.
Proof.
  induction n as [|n IH]; intros v w.
  - cbn [up]. intros (u & D & ->). exists v. auto.
  - intros (u & D & U). destruct (IH u w U) as (x & X & Dx). exists x. split; [exists u; auto|exact Dx].
Qed.
(** two variables with a common derivative are on one chain *)
Lemma up_meet g : (forall v w x, v_der (gv g v) = Some x -> v_der (gv g w) = Some x -> v = w) ->
  forall n m v w x, n <= m -> up g n v x -> up g m w x -> derived g w v.
Proof.
  intros Inj n. induction n as [|n IH]; intros m v w x L A B.
  - cbn [up] in A. subst x. apply derived_up. eauto.
  - destruct m as [|m]; [lia|]. apply up_last in A. apply up_last in B.
    destruct A as (a & A & Da), B as (b & B & Db). assert (a = b) by (eapply Inj; eauto). subst b.
    eapply IH; [|exact A|exact B]. lia.
Qed.
(** the end of a chain is unique *)
Lemma up_leaf g n : forall m v x y, up g n v x -> up g m v y ->
  v_der (gv g x) = None -> v_der (gv g y) = None -> x = y.
Proof.
  induction n as [|n IH]; intros m v x y.
  - cbn [up]. intros -> B N _. destruct m; [exact B|]. destruct B as (u & D & _). congruence.
  - intros (u & D & U) B Nx Ny. destruct m as [|m].
    + cbn [up] in B. subst y. congruence.
    + destruct B as (u' & D' & U'). assert (u' = u) by congruence. subst u'. eapply IH; eauto.
Qed.

Fixpoint leaf (g : graph) (fuel v : nat) : nat * nat :=
  match fuel with
  | O => (v, 0)
  | S f => match v_der (gv g v) with
           | Some w => let '(x, n) := leaf g f w in (x, S n)
           | None => (v, 0)
           end
  end.
Lemma leaf_ok g : St g -> forall fuel v, v < nv g -> nv g - v <= fuel ->
  up g (snd (leaf g fuel v)) v (fst (leaf g fuel v)) /\ v_der (gv g (fst (leaf g fuel v))) = None /\
  snd (leaf g fuel v) < nv g.
Proof.
  intros HS fuel. assert (Hb : forall v, v < nv g -> nv g - v <= fuel ->
     up g (snd (leaf g fuel v)) v (fst (leaf g fuel v)) /\ v_der (gv g (fst (leaf g fuel v))) = None /\
     snd (leaf g fuel v) < nv g - v); [|intros v L1 L2; destruct (Hb v L1 L2) as (? & ? & ?); split; [|split]; auto; lia].
  induction fuel as [|f IH]; intros v L1 L2; [lia|]. cbn [leaf].
  destruct (v_der (gv g v)) as [w|] eqn:D.
  - destruct (s_lt g HS v w D) as [La Lb]. destruct (IH w) as (A & B & C); [lia|lia|].
    destruct (leaf g f w) as [x n]. cbn [fst snd] in *. split; [exists w; auto|]. split; [exact B|lia].
  - cbn [fst snd up]. split; [reflexivity|]. split; [exact D|lia].
Qed.

Lemma model_Track g t : model_graph g -> transversal g t ->
  exists sl, Track (ne g) g (fun f => f) t (fun f => fst (leaf g (nv g) (t f))) sl /\
    total (ne g) sl <= ne g * nv g.
Proof.
  intros H [T1 T2]. assert (HS := model_St g H).
  assert (Lt : forall f, f < ne g -> t f < nv g) by (intros f L; apply (s_or g HS f), T1, L).
  assert (Lf : forall f, f < ne g -> up g (snd (leaf g (nv g) (t f))) (t f) (fst (leaf g (nv g) (t f))) /\
       v_der (gv g (fst (leaf g (nv g) (t f)))) = None /\ snd (leaf g (nv g) (t f)) < nv g).
  { intros f L. apply leaf_ok; [exact HS|apply Lt; exact L|lia]. }
  exists (fun f => snd (leaf g (nv g) (t f))). split.
  - constructor.
    + intros f L. split; [exact L|apply H].
    + exact T1.
    + intros f L. destruct (Lf f L) as (A & B & _). auto.
    + intros f f' L L' E. apply T2; auto.
      destruct (Lf f L) as (A & _), (Lf f' L') as (B & _). rewrite <- E in B.
      assert (Inj : forall v w x, v_der (gv g v) = Some x -> v_der (gv g w) = Some x -> v = w).
      { intros v w x X Y. apply (s_der g HS) in X. apply (s_der g HS) in Y. congruence. }
      destruct (le_ge_dec (snd (leaf g (nv g) (t f))) (snd (leaf g (nv g) (t f')))) as [Q|Q].
      * right. eapply up_meet; eauto.
      * left. eapply up_meet; [exact Inj| |exact B|exact A]. lia.
    + intros e L _. exists e. auto.
  - unfold total.
    assert (G : forall l, (forall f, In f l -> f < ne g) -> list_sum (map (fun f => snd (leaf g (nv g) (t f))) l) <= length l * nv g).
    { induction l as [|a l IH]; intros Hl; [cbn; lia|].
      change (list_sum (map (fun f => snd (leaf g (nv g) (t f))) (a :: l)))
        with (snd (leaf g (nv g) (t a)) + list_sum (map (fun f => snd (leaf g (nv g) (t f))) l)).
      cbn [length]. rewrite Nat.mul_succ_l.
      destruct (Lf a) as (_ & _ & B); [apply Hl; left; reflexivity|].
      specialize (IH (fun f I => Hl f (or_intror I))). lia. }
    rewrite <- (seq_length (ne g) 0) at 2. apply G. intros f I. apply in_seq in I. lia.
Qed.

(** ** From the result back to the model *)
Fixpoint upE (g : graph) (n : nat) (v w : nat) : Prop :=
  match n with
  | O => v = w
  | S n => exists u, e_der (ge g v) = Some u /\ upE g n u w
  end.
Lemma upE_exists g : St g -> forall n e, e < ne g -> ne g - e <= n ->
  exists m d, upE g m e d /\ d < ne g /\ e_der (ge g d) = None.
Proof.
  intros HS. induction n as [|n IH]; intros e L1 L2; [lia|].
  destruct (e_der (ge g e)) as [d|] eqn:D.
  - destruct (s_ede g HS e d D) as (La & Lb & _). destruct (IH d) as (m & x & A & B & C); [lia|lia|].
    exists (S m), x. split; [exists d; auto|auto].
  - exists 0, e. split; [reflexivity|auto].
Qed.
Lemma upE_last g n : forall v w, upE g (S n) v w -> exists u, upE g n v u /\ e_der (ge g u) = Some w.
Proof.
  induction n as [|n IH]; intros v w.
  - cbn [upE]. intros (u & D & ->). exists v. auto.
  - intros (u & D & U). destruct (IH u w U) as (x & X & Dx). exists x. split; [exists u; auto|exact Dx].
Qed.
Lemma upE_meet g : St g -> forall n m v w x, n <= m -> upE g n v x -> upE g m w x -> exists k, upE g k w v.
Proof.
  intros HS n. induction n as [|n IH]; intros m v w x L A B.
  - cbn [upE] in A. subst x. eauto.
  - destruct m as [|m]; [lia|]. apply upE_last in A. apply upE_last in B.
    destruct A as (a & A & Da), B as (b & B & Db). assert (a = b) by (eapply der_inj; eauto). subst b.
    eapply IH; [|exact A|exact B]. lia.
Qed.
(** a variable of a derivative of an equation derives from one of its variables *)
Lemma upE_var g : Inv g -> forall n e d w, upE g n e d -> In w (e_orig (ge g d)) ->
  exists v, In v (e_orig (ge g e)) /\ derived g v w.
Proof.
  intros HI. induction n as [|n IH]; intros e d w.
  - cbn [upE]. intros -> I. exists w. split; [exact I|constructor].
  - intros U I. destruct U as (u & D & U). destruct (IH u d w U I) as (v & Iv & Dv).
    destruct (i_dn g HI e u D v Iv) as [Q|(x & Ix & Dx)]; [eauto|].
    exists x. split; [exact Ix|]. apply derived_up in Dv. destruct Dv as [k Dv].
    apply derived_up. exists (S k). exists v. auto.
Qed.

Lemma choose_below (P : nat -> nat -> Prop) : forall n, (forall e, e < n -> exists x, P e x) ->
  exists t, forall e, e < n -> P e (t e).
Proof.
  induction n as [|n IH]; intros H; [exists (fun _ => 0); lia|].
  destruct IH as [t Ht]; [intros e L; apply H; lia|]. destruct (H n) as [x Hx]; [lia|].
  exists (fun e => if e =? n then x else t e). intros e L. destruct (Nat.eqb_spec e n) as [->|N]; [exact Hx|].
  apply Ht. lia.
Qed.

Lemma final_transversal g g' : model_graph g -> Final g' -> keeps_original g g' ->
  exists t, transversal g t.
Proof.
  intros H [HI HF] (K1 & K2 & K3 & K4 & K5 & K6 & K7).
  assert (HS := model_St g H). assert (HS' := i_st _ HI).
  assert (E : forall f, f < ne g -> exists x, In x (e_orig (ge g f)) /\
     exists n d w, upE g' n f d /\ e_asg (ge g' d) = Some w /\ v_der (gv g' w) = None /\ derived g' x w).
  { intros f L. destruct (upE_exists g' HS' (ne g') f) as (n & d & U & Ld & Nd); [lia|lia|].
    assert (A := HF d Ld Nd). destruct (e_asg (ge g' d)) as [w|] eqn:Aw; [|congruence].
    assert (Av : asgV g' w = Some d) by (apply (i_mt _ HI); exact Aw).
    destruct (upE_var g' HI n f d w U (i_in _ HI w d Av)) as (x & Ix & Dx).
    rewrite K3 in Ix; [|exact L]. exists x. split; [exact Ix|]. exists n, d, w.
    split; [exact U|]. split; [exact Aw|]. split; [|exact Dx]. apply (i_dd _ HI w d Av). exact Nd. }
  apply choose_below in E. destruct E as [t Ht]. exists t. split; [intros f L; apply Ht; exact L|].
  assert (Half : forall f f', f < ne g -> f' < ne g -> derived g (t f) (t f') -> f = f').
  { intros f f' L L' D.
    destruct (Ht f L) as (_ & n & d & w & U & A & N & X), (Ht f' L') as (_ & n' & d' & w' & U' & A' & N' & X').
    apply derived_up in D. destruct D as [k D].
    assert (D' : up g' k (t f) (t f')) by (revert D; apply up_mono; exact K4).
    apply derived_up in X. apply derived_up in X'. destruct X as [a X], X' as [b X'].
    assert (w = w').
    { eapply up_leaf; [exact X|eapply up_app; [exact D'|exact X']|exact N|exact N']. }
    subst w'.
    assert (d = d').
    { apply (i_mt _ HI) in A. apply (i_mt _ HI) in A'. congruence. }
    subst d'.
    assert (New : forall a b k, a < ne g -> b < ne g -> upE g' k a b -> a = b).
    { intros x y q Lx Ly Q. destruct q as [|q]; [exact Q|]. apply upE_last in Q. destruct Q as (u & _ & Du).
      destruct (K7 u y Du) as [Z|Z]; [|lia]. destruct (mg_new g H u). congruence. }
    destruct (le_ge_dec n n') as [Q|Q].
    - destruct (upE_meet g' HS' n n' f f' d Q U U') as [q Hq]. symmetry. eapply New; eauto.
    - destruct (upE_meet g' HS' n' n f' f d) as [q Hq]; auto. eapply New; eauto. }
  intros f f' L L' [D|D]; [apply Half; auto|]. symmetry. apply Half; auto.
Qed.

Lemma pant_ok fuel g : model_graph g -> 0 < ne g ->
  match pantelides fuel g with
  | PDone g' => Final g' /\ keeps_original g g'
  | PThrow _ => True
  | PNull => False
  | PFuel => forall t, transversal g t -> fuel <= ne g * nv g + ne g
  end.
Proof.
  intros H L. unfold pantelides. destruct (ne g) as [|n] eqn:En; [lia|]. rewrite <- En in *.
  pose proof (loop_ok (ne g) fuel 0 0 g (model_Inv g H) (model_Cur g H L)) as K.
  destruct (pantelides_from fuel (ne g) 0 0 g) as [g'|g'| |]; auto.
  - destruct K as (A & B & _). auto.
  - intros t T. destruct (model_Track g t H T) as (sl & Tr & Le). specialize (K _ _ _ _ Tr). lia.
Qed.

(** * Proofs: what holds of the graph during the choice *)
From Coq Require Import List Bool Arith Lia.
From Verif Require Import Match_model Match_spec Elim_model Elim_spec.
Import ListNotations.

Lemma mem_In n l : mem n l = true <-> In n l.
Proof. unfold mem. rewrite existsb_exists. split; [intros (x & A & B); apply Nat.eqb_eq in B; subst; exact A|intros A; exists n; rewrite Nat.eqb_refl; auto]. Qed.
Lemma is_none_true {A} (o : option A) : is_none o = true <-> o = None.
Proof. destruct o; cbn; split; congruence. Qed.
Lemma is_none_false {A} (o : option A) : is_none o = false <-> o <> None.
Proof. destruct o; cbn; split; congruence. Qed.

Lemma remove1_In j l v : In v (remove1 j l) -> In v l.
Proof. induction l as [|a l IH]; cbn; [tauto|]. destruct (a =? j); cbn; tauto. Qed.
Lemma remove1_NoDup j l : NoDup l -> NoDup (remove1 j l).
Proof.
  induction l as [|a l IH]; cbn; intros H; [constructor|]. inversion H; subst. destruct (a =? j); [assumption|].
  constructor; [intros B; apply remove1_In in B; tauto|auto].
Qed.
Lemma remove1_gone j l : NoDup l -> ~ In j (remove1 j l).
Proof.
  induction l as [|a l IH]; cbn; intros H; [tauto|]. inversion H; subst. destruct (a =? j) eqn:E; [apply Nat.eqb_eq in E; subst; assumption|].
  apply Nat.eqb_neq in E. cbn. intros [B|B]; [congruence|]. apply IH; assumption.
Qed.
Lemma remove1_keep j l v : v <> j -> In v l -> In v (remove1 j l).
Proof.
  intros N. induction l as [|a l IH]; cbn; [tauto|]. destruct (a =? j) eqn:E; cbn; [apply Nat.eqb_eq in E; subst; intros [B|B]; [congruence|exact B]|].
  intros [B|B]; [left; exact B|right; auto].
Qed.

(** the graph of [m] equations between variables of [vs] *)
Record gok (vs : list nat) (m : nat) (g : graph) : Prop := {
  o_ne : ne g = m;
  o_in : forall v e, In v (e_vars (ge g e)) -> In e (v_eqs (gv g v)) /\ v_del (gv g v) = false /\ In v vs /\ In v (e_orig (ge g e));
  o_nd : forall e, NoDup (e_vars (ge g e));
  o_rng : forall v e, In e (v_eqs (gv g v)) -> e < m }.
(** same assignments and deletions *)
Definition same_asg (g g' : graph) : Prop :=
  (forall v, v_asg (gv g' v) = v_asg (gv g v) /\ v_del (gv g' v) = v_del (gv g v)) /\ (forall e, e_asg (ge g' e) = e_asg (ge g e)).
Lemma same_asg_refl g : same_asg g g. Proof. split; auto. Qed.
Lemma same_asg_trans g1 g2 g3 : same_asg g1 g2 -> same_asg g2 g3 -> same_asg g1 g3.
Proof. intros [A B] [C D]. split; [intros v; destruct (A v), (C v); split; congruence|intros e; congruence]. Qed.

Ltac at_node x y := let Q := fresh "Q" in destruct (x =? y) eqn:Q; [apply Nat.eqb_eq in Q; subst|apply Nat.eqb_neq in Q].

Lemma add_ok vs m g a v : gok vs m g -> a < m -> In v vs -> gok vs m (add_variable g a v) /\ same_asg g (add_variable g a v).
Proof.
  intros G Ha Hv. unfold add_variable. destruct (existsb (Nat.eqb v) (e_orig (ge g a))) eqn:O; [split; [exact G|apply same_asg_refl]|].
  assert (NO : ~ In v (e_orig (ge g a))) by (intros B; apply mem_In in B; unfold mem in B; congruence).
  assert (NV : ~ In v (e_vars (ge g a))) by (intros B; apply (o_in _ _ _ G) in B; tauto).
  cbn [upde gv]. destruct (v_del (gv g v)) eqn:D.
  - split.
    + split; cbn [upde ne gv ge]; [exact (o_ne _ _ _ G)| | |exact (o_rng _ _ _ G)].
      * intros w e. at_node e a; cbn [e_vars e_orig]; intros B; pose proof (o_in _ _ _ G _ _ B) as (B1 & B2 & B3 & B4); rewrite ?in_app_iff; tauto.
      * intros e. at_node e a; cbn [e_vars]; apply (o_nd _ _ _ G).
    + split; cbn [upde gv ge]; [auto|]. intros e. at_node e a; reflexivity.
  - split.
    + split; cbn [upde updv ne gv ge]; [exact (o_ne _ _ _ G)| | |].
      * intros w e. rewrite Nat.eqb_sym. at_node a e.
        -- rewrite ?Nat.eqb_refl. cbn [e_vars e_orig]. rewrite in_app_iff. cbn [In]. intros [B|[B|[]]].
           ++ pose proof (o_in _ _ _ G _ _ B) as (B1 & B2 & B3 & B4). at_node w v; [contradiction|]. rewrite in_app_iff. tauto.
           ++ subst w. rewrite Nat.eqb_refl. cbn [v_eqs v_del]. rewrite !in_app_iff. cbn [In]. tauto.
        -- destruct (e =? a) eqn:E'; [apply Nat.eqb_eq in E'; congruence|].
           intros B. pose proof (o_in _ _ _ G _ _ B) as (B1 & B2 & B3 & B4). at_node w v; cbn [v_eqs v_del]; rewrite ?in_app_iff; tauto.
      * intros e. at_node e a; rewrite ?Nat.eqb_refl; cbn [e_vars]; [|apply (o_nd _ _ _ G)].
        pose proof (o_nd _ _ _ G a) as N. clear -N NV. induction (e_vars (ge g a)) as [|b l IH]; cbn; [constructor; [tauto|constructor]|].
        inversion N; subst. constructor; [rewrite in_app_iff; cbn [In] in *; intros [B|[B|[]]]; [tauto|subst; tauto]|apply IH; [cbn [In] in NV; tauto|assumption]].
      * intros w e. at_node w v; cbn [v_eqs]; [|apply (o_rng _ _ _ G)]. rewrite in_app_iff. cbn [In]. intros [B|[B|[]]]; [apply (o_rng _ _ _ G) in B; exact B|lia].
    + split; cbn [upde updv gv ge].
      * intros w. at_node w v; auto.
      * intros e. at_node e a; rewrite ?Nat.eqb_refl; reflexivity.
Qed.
Lemma del_ok vs m g a v : gok vs m g -> gok vs m (upde g a (e_delete v)) /\ same_asg g (upde g a (e_delete v)).
Proof.
  intros G. split.
  - split; cbn [upde ne gv ge]; [exact (o_ne _ _ _ G)| | |exact (o_rng _ _ _ G)].
    + intros w e. at_node e a; cbn [e_delete e_vars e_orig]; intros B; [apply remove1_In in B|]; exact (o_in _ _ _ G _ _ B).
    + intros e. at_node e a; cbn [e_delete e_vars]; [apply remove1_NoDup|]; apply (o_nd _ _ _ G).
  - split; cbn [upde gv ge]; [auto|]. intros e. at_node e a; reflexivity.
Qed.
Lemma fold_ok {A} vs m (f : graph -> A -> graph) (P : A -> Prop) :
  (forall g a, gok vs m g -> P a -> gok vs m (f g a) /\ same_asg g (f g a)) ->
  forall l g, gok vs m g -> (forall a, In a l -> P a) -> gok vs m (fold_left f l g) /\ same_asg g (fold_left f l g).
Proof.
  intros H. induction l as [|a l IH]; cbn; intros g G L; [split; [exact G|apply same_asg_refl]|].
  destruct (H g a G (L a (or_introl eq_refl))) as [G1 S1]. destruct (IH _ G1 (fun b B => L b (or_intror B))) as [G2 S2].
  split; [exact G2|exact (same_asg_trans _ _ _ S1 S2)].
Qed.

(** deleting a variable *)
Lemma fold_delete j l : forall g,
  let g' := fold_left (fun g i => upde g i (e_delete j)) l g in
  ne g' = ne g /\ gv g' = gv g /\
  (forall e, e_asg (ge g' e) = e_asg (ge g e) /\ e_orig (ge g' e) = e_orig (ge g e)) /\
  (forall e v, In v (e_vars (ge g' e)) -> In v (e_vars (ge g e))) /\
  ((forall e, NoDup (e_vars (ge g e))) -> (forall e, NoDup (e_vars (ge g' e))) /\ forall e, In e l -> ~ In j (e_vars (ge g' e))).
Proof.
  induction l as [|i l IH]; cbn [fold_left]; intros g; cbv zeta; [repeat split; auto; intros e []|].
  specialize (IH (upde g i (e_delete j))). cbv zeta in IH. destruct IH as (A & B & C & D & F).
  cbn [upde ne gv ge] in A, B, C, D, F. repeat split.
  - exact A.
  - exact B.
  - destruct (C e) as [C1 _]. rewrite C1. at_node e i; reflexivity.
  - destruct (C e) as [_ C1]. rewrite C1. at_node e i; reflexivity.
  - intros e v H. apply D in H. revert H. at_node e i; cbn [e_delete e_vars]; [apply remove1_In|auto].
  - intros e. apply F. intros e'. at_node e' i; cbn [e_delete e_vars]; [apply remove1_NoDup|]; apply H.
  - assert (N : forall e, NoDup (e_vars (if e =? i then e_delete j (ge g e) else ge g e))) by
      (intros e'; at_node e' i; cbn [e_delete e_vars]; [apply remove1_NoDup|]; apply H).
    destruct (F N) as [F1 F2]. intros e [Q|Q]; [subst e|exact (F2 e Q)].
    intros R. apply D in R. rewrite Nat.eqb_refl in R. cbn [e_delete e_vars] in R. exact (remove1_gone _ _ (H i) R).
Qed.
Lemma delete_ok vs m g j : gok vs m g ->
  gok vs m (delete_node g j) /\ (forall v, v_asg (gv (delete_node g j) v) = v_asg (gv g v)) /\ (forall e, e_asg (ge (delete_node g j) e) = e_asg (ge g e)) /\
  (forall v, v_del (gv (delete_node g j) v) = (v =? j) || v_del (gv g v)).
Proof.
  intros G. unfold delete_node. pose proof (fold_delete j (v_eqs (gv g j)) g) as F. cbv zeta in F.
  destruct F as (A & B & C & D & F). destruct (F (o_nd _ _ _ G)) as [F1 F2]. set (g' := fold_left _ _ _) in *.
  split; [split|split; [|split]]; cbn [updv ne gv ge].
  - rewrite A. exact (o_ne _ _ _ G).
  - intros v e Q. pose proof (D _ _ Q) as Q'. pose proof (o_in _ _ _ G _ _ Q') as (B1 & B2 & B3 & B4).
    destruct (C e) as [_ Ce]. rewrite Ce, B. at_node v j; [exfalso; exact (F2 e B1 Q)|]. tauto.
  - exact F1.
  - intros v e. rewrite B. at_node v j; cbn [v_eqs]; [intros []|apply (o_rng _ _ _ G)].
  - intros v. rewrite B. at_node v j; reflexivity.
  - intros e. apply C.
  - intros v. rewrite B. at_node v j; reflexivity.
Qed.

Lemma set_assign_v g j i v : v_asg (gv (set_assign g j i) v) = if v =? j then Some i else v_asg (gv g v).
Proof. cbn [set_assign upde updv gv ge]. at_node v j; reflexivity. Qed.
Lemma set_assign_e g j i e : e_asg (ge (set_assign g j i) e) = if e =? i then Some j else e_asg (ge g e).
Proof. cbn [set_assign upde updv gv ge]. at_node e i; reflexivity. Qed.
Lemma set_assign_ok vs m g j i : gok vs m g -> gok vs m (set_assign g j i).
Proof.
  intros G. split; cbn [set_assign upde updv ne gv ge]; [exact (o_ne _ _ _ G)| | |].
  - intros v e. at_node e i; at_node v j; cbn [v_eqs v_del e_vars e_orig]; apply (o_in _ _ _ G).
  - intros e. at_node e i; cbn [e_vars]; apply (o_nd _ _ _ G).
  - intros v e. at_node v j; cbn [v_eqs]; apply (o_rng _ _ _ G).
Qed.
Lemma set_assign_del g j i v : v_del (gv (set_assign g j i) v) = v_del (gv g v).
Proof. cbn [set_assign upde updv gv ge]. at_node v j; reflexivity. Qed.

(** equations without variable *)
Definition open (g : graph) (m : nat) : nat := length (filter (fun e => is_none (e_asg (ge g e))) (seq 0 m)).
Lemma open_le g m : open g m <= m.
Proof. unfold open. rewrite <- (seq_length m 0) at 2. induction (seq 0 m) as [|a l IH]; cbn; [lia|]. destruct (is_none _); cbn; lia. Qed.
Lemma open_same g g' m : (forall e, e_asg (ge g' e) = e_asg (ge g e)) -> open g' m = open g m.
Proof. intros H. unfold open. f_equal. apply filter_ext. intros e. rewrite H. reflexivity. Qed.
Lemma open_lt g g' m i : i < m -> e_asg (ge g i) = None -> e_asg (ge g' i) <> None -> (forall e, e <> i -> e_asg (ge g' e) = e_asg (ge g e)) -> open g' m < open g m.
Proof.
  intros Hi A B C. unfold open.
  assert (Q : forall l, NoDup l ->
     length (filter (fun e => is_none (e_asg (ge g' e))) l) + (if mem i l then 1 else 0) = length (filter (fun e => is_none (e_asg (ge g e))) l)).
  { induction l as [|a l IH]; intros N; [reflexivity|]. inversion N; subst. specialize (IH H2). cbn [filter mem existsb].
    destruct (Nat.eq_dec a i) as [->|Q].
    - assert (M : mem i l = false) by (destruct (mem i l) eqn:M; [apply mem_In in M; contradiction|reflexivity]). rewrite M in IH.
      rewrite Nat.eqb_refl, A. apply is_none_false in B. rewrite B. cbn [is_none length orb]. lia.
    - rewrite (C a Q). assert (i =? a = false) as -> by (apply Nat.eqb_neq; congruence). cbn [orb]. fold (mem i l). destruct (is_none _); cbn [length]; lia. }
  specialize (Q _ (seq_NoDup m 0)). assert (mem i (seq 0 m) = true) as M by (apply mem_In, in_seq; lia). rewrite M in Q. lia.
Qed.

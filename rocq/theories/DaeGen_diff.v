(** * Differentiation with time_var is differentiation along a trajectory *)
From Coq Require Import List Arith Bool ZArith Lia Reals Lra.
From Verif Require Import DaeGen_model DaeGen_spec.
Import ListNotations.
Local Open Scope nat_scope.

Section Sub.
Context {K : Type}.
Variables k0 k1 : K.
Variable vs : list vinfo.
Variable t : nat.
Let p := prepare (K := K) vs t.

Lemma strip_noTime (e : ex K) : noTime e -> strip e = e.
Proof. induction e; cbn [noTime strip]; intros H; try tauto; try (destruct H as (H1 & H2); rewrite IHe1, IHe2 by assumption; reflexivity); now rewrite IHe. Qed.
Lemma strip_p j : strip (p j) = EVar j.
Proof. unfold p, prepare. destruct (nth_error vs j) as [v|]; [destruct (i_der v)|]; reflexivity. Qed.
Lemma strip_prepare (e : ex K) : noTime e -> strip (subst p e) = e.
Proof.
  induction e; cbn [noTime strip subst]; intros H; try tauto; try apply strip_p;
    try (destruct H as (H1 & H2); rewrite IHe1, IHe2 by assumption; reflexivity). now rewrite IHe.
Qed.
Lemma strip_is_noTime (e : ex K) : noTime (strip e). Proof. induction e; cbn; auto. Qed.
Lemma diff_noTime (e : ex K) : noTime (diff k0 k1 t e).
Proof.
  induction e; cbn [diff noTime]; auto using strip_is_noTime.
  - destruct (j =? t); exact Logic.I.
Qed.
Lemma subst_id (s : nat -> ex K) (e : ex K) : (forall j, occurs j e -> s j = EVar j) -> subst s e = e.
Proof.
  induction e; cbn [occurs subst]; intros H; auto; try (rewrite IHe1, IHe2 by (intros; apply H; auto); reflexivity).
  - rewrite IHe by auto. reflexivity.
  - rewrite IHe1, IHe2, IHe3 by (intros; apply H; auto). reflexivity.
Qed.
(** The derivative of an equation: reverseTimeDiff *)
Definition der (e : ex K) : ex K := let f := subst p e in if constant f then ECst k0 else diff k0 k1 t f.
Lemma der_noTime e : noTime (der e). Proof. unfold der. destruct (constant _); [exact Logic.I|apply diff_noTime]. Qed.
Lemma diff_occurs (e : ex K) j : noTime e -> occurs j (diff k0 k1 t (subst p e)) ->
  occurs j e \/ exists i v, occurs i e /\ nth_error vs i = Some v /\ i_der v = Some j.
Proof.
  induction e; cbn [noTime subst diff occurs]; intros NT H; try tauto.
  - unfold p, prepare in H. destruct (nth_error vs j0) as [v|] eqn:E; [destruct (i_der v) as [d|] eqn:D|].
    + cbn [diff strip occurs] in H. rewrite Nat.eqb_refl in H. destruct (j0 =? t); cbn [occurs] in H; destruct H as [[]|[<-|[]]]; right; eauto.
    + cbn [diff] in H. destruct (j0 =? t); destruct H.
    + cbn [diff] in H. destruct (j0 =? t); destruct H.
  - destruct NT as (N1 & N2). destruct H as [H|H]; [destruct (IHe1 N1 H) as [|(i & v & X & Y)]|destruct (IHe2 N2 H) as [|(i & v & X & Y)]]; auto; right; exists i, v; auto.
  - destruct NT as (N1 & N2). destruct H as [H|H]; [destruct (IHe1 N1 H) as [|(i & v & X & Y)]|destruct (IHe2 N2 H) as [|(i & v & X & Y)]]; auto; right; exists i, v; auto.
  - destruct NT as (N1 & N2). rewrite !strip_prepare in H by auto.
    destruct H as [[H|H]|[H|H]]; auto; [destruct (IHe1 N1 H) as [|(i & v & X & Y)]|destruct (IHe2 N2 H) as [|(i & v & X & Y)]]; auto; right; exists i, v; auto.
  - rewrite strip_prepare in H by auto. destruct H as [H|H]; auto.
  - destruct NT as (N1 & N2). rewrite !strip_prepare in H by auto.
    destruct H as [[[H|H]|H]|[[H|H]|H]]; auto; [destruct (IHe1 N1 H) as [|(i & v & X & Y)]|destruct (IHe2 N2 H) as [|(i & v & X & Y)]]; auto; right; exists i, v; auto.
Qed.
Lemma der_occurs (e : ex K) j : noTime e -> occurs j (der e) ->
  occurs j e \/ exists i v, occurs i e /\ nth_error vs i = Some v /\ i_der v = Some j.
Proof. unfold der. intros NT. destruct (constant _); [intros []|now apply diff_occurs]. Qed.

Variable cst : K -> R.
Variable F1 : nat -> nat -> R -> R.
Variable F2 : nat -> nat -> nat -> R -> R -> R.
Hypothesis c0 : cst k0 = 0%R.
Hypothesis c1 : cst k1 = 1%R.
Let v_ := ev cst F1 F2.

Lemma constant_ev (e : ex K) : constant (subst p e) = true -> forall x y, v_ x e = v_ y e.
Proof.
  unfold v_. induction e; cbn [subst constant ev]; intros C x y; auto; try (apply andb_prop in C as (C1 & C2); rewrite (IHe1 C1 x y), (IHe2 C2 x y); reflexivity).
  - exfalso. unfold p, prepare in C. destruct (nth_error vs j) as [w|]; [destruct (i_der w)|]; discriminate.
  - now rewrite (IHe C x y).
  - apply andb_prop in C as (C & C3). apply andb_prop in C as (C1 & C2). exact (IHe1 C1 x y).
Qed.
(** What is needed of the variables of an expression: those which depend on time have a derivative; [t] is the time. *)
Definition ready (e : ex K) : Prop := forall j, occurs j e -> exists v, nth_error vs j = Some v /\
  (i_fun v = true -> i_der v <> None) /\ (i_fun v = false -> i_der v = None /\ i_int v = (j =? t)) /\ (i_fun v = true -> j <> t).

Lemma diff_ok (x : nat -> R -> R) (s : R) : follows vs x s -> forall e : ex K, noTime e -> ready e -> regular cst F1 F2 (at_ x s) e ->
  derivable_pt_lim (fun s => v_ (at_ x s) e) s (v_ (at_ x s) (diff k0 k1 t (subst p e))).
Proof.
  intros Fo e. unfold v_. induction e; cbn [noTime regular subst diff ev]; intros NT Rd Rg.
  - rewrite c0. apply derivable_pt_lim_const.
  - destruct (Rd j eq_refl) as (v & E & A & B & C). destruct (Fo j v E) as (F & G). unfold p, prepare. rewrite E. change (fun s => at_ x s j) with (x j).
    destruct (i_der v) as [d|] eqn:D.
    + cbn [diff strip ev]. rewrite Nat.eqb_refl. destruct (j =? t) eqn:J.
      * apply Nat.eqb_eq in J. destruct (i_fun v) eqn:Fv; [exfalso; now apply C|]. destruct (B eq_refl). discriminate.
      * cbn [ev]. rewrite c0, c1. replace (0 + at_ x s d * 1)%R with (x d s) by (unfold at_; ring). now apply F.
    + destruct (i_fun v) eqn:Fv; [exfalso; now apply A|]. cbn [diff]. specialize (G eq_refl). destruct (B eq_refl) as (_ & B'). rewrite B' in G.
      destruct (j =? t); cbn [ev]; [now rewrite c1|now rewrite c0].
  - destruct NT. destruct Rg. apply derivable_pt_lim_plus; [apply IHe1|apply IHe2]; auto; intros j J; apply Rd; cbn; auto.
  - destruct NT. destruct Rg. apply derivable_pt_lim_minus; [apply IHe1|apply IHe2]; auto; intros j J; apply Rd; cbn; auto.
  - destruct NT. destruct Rg. rewrite !strip_prepare by auto.
    apply (derivable_pt_lim_mult (fun s => ev cst F1 F2 (at_ x s) e1) (fun s => ev cst F1 F2 (at_ x s) e2)); [apply IHe1|apply IHe2]; auto; intros j J; apply Rd; cbn; auto.
  - destruct Rg as (R1 & R2). rewrite strip_prepare by auto.
    apply (derivable_pt_lim_comp (fun s => ev cst F1 F2 (at_ x s) e) (F1 f o)); [apply IHe; auto|exact R2].
  - destruct NT. destruct Rg as (R1 & R2 & R3). rewrite !strip_prepare by auto.
    apply (R3 (fun s => ev cst F1 F2 (at_ x s) e1) (fun s => ev cst F1 F2 (at_ x s) e2)); auto; [apply IHe1|apply IHe2]; auto; intros j J; apply Rd; cbn; auto.
  - tauto.
Qed.
Lemma der_ok (x : nat -> R -> R) (s : R) (e : ex K) : follows vs x s -> noTime e -> ready e -> regular cst F1 F2 (at_ x s) e ->
  derivable_pt_lim (fun s => v_ (at_ x s) e) s (v_ (at_ x s) (der e)).
Proof.
  intros Fo NT Rd Rg. unfold der. destruct (constant (subst p e)) eqn:C; [|now apply diff_ok].
  unfold v_ at 2. cbn [ev]. rewrite c0. assert (X := derivable_pt_lim_const (v_ (at_ x s) e) s).
  intros eps Eps. destruct (X eps Eps) as (d & D). exists d. intros h H H'. rewrite (constant_ev e C (at_ x (s + h)) (at_ x s)). exact (D h H H').
Qed.
End Sub.

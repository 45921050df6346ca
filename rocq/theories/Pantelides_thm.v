(** * Pantelides' method (pantelides.hpp): what the reduction delivers *)
From Coq Require Import List Arith Bool Lia.
From Verif Require Import Match_model Match_spec Match_proofs Match_struct Match_thm Match_pant Match_loop
  Match_init Pantelides_proofs Pantelides_endless.
Import ListNotations.

(** The result: the variables assigned to the equations that were not
    differentiated form a matching into the highest derivatives, the new
    equations have the variables of derivatives, and the original model is
    kept. *)
Theorem C44_result_is_an_index_one_matching : forall fuel g g',
  model_graph g -> 0 < ne g -> pantelides fuel g = PDone g' ->
  index_one_matching g' /\ derivatives_of_equations g' /\ keeps_original g g'.
Proof.
  intros fuel g g' H L E. pose proof (pant_ok fuel g H L) as K. rewrite E in K.
  destruct K as [[HI HF] HK]. split; [|split; [|exact HK]].
  - split; [exact (i_mt _ HI)|]. intros e Le De.
    assert (A := HF e Le De). destruct (e_asg (ge g' e)) as [v|] eqn:Av; [|congruence]. exists v.
    assert (Vv : asgV g' v = Some e) by (apply (i_mt _ HI); exact Av).
    split; [reflexivity|]. split; [apply (i_in _ HI); exact Vv|apply (i_dd _ HI v e Vv); exact De].
  - intros e d D. destruct (s_ede _ (i_st _ HI) e d D) as (A & B & C).
    split; [exact A|]. split; [exact B|]. split; [exact C|]. split; [apply (i_up _ HI e d D)|apply (i_dn _ HI e d D)].
Qed.
Print Assumptions C44_result_is_an_index_one_matching.

(** No null pointer is dereferenced. *)
Theorem C44_no_null_pointer : forall fuel g,
  model_graph g -> 0 < ne g -> pantelides fuel g <> PNull.
Proof. intros fuel g H L E. pose proof (pant_ok fuel g H L) as K. rewrite E in K. exact K. Qed.
Print Assumptions C44_no_null_pointer.

(** The method ends when the structure is regular, within a number of passes
    bounded by the size of the model. *)
Theorem C45_ends_on_regular_structures : forall fuel g t,
  model_graph g -> 0 < ne g -> transversal g t ->
  ne g * nv g + ne g < fuel -> pantelides fuel g <> PFuel.
Proof.
  intros fuel g t H L T Lf E. pose proof (pant_ok fuel g H L) as K. rewrite E in K. specialize (K t T). lia.
Qed.
Print Assumptions C45_ends_on_regular_structures.

(** When it delivers a result the structure is regular. *)
Theorem C45_success_means_regular : forall fuel g g',
  model_graph g -> 0 < ne g -> pantelides fuel g = PDone g' -> exists t, transversal g t.
Proof.
  intros fuel g g' H L E. pose proof (pant_ok fuel g H L) as K. rewrite E in K.
  destruct K as [HF HK]. eapply final_transversal; eauto.
Qed.
Print Assumptions C45_success_means_regular.

(** ** A model for which it works: a pendulum (index 3).
    Variables x y vx vy T, then dx dy dvx dvy; equations dx=vx, dy=vy, dvx=T x,
    dvy=T y-g, x^2+y^2=l^2. *)
Definition pendulum : graph :=
  init_graph [None; None; None; None; None; Some 0; Some 1; Some 2; Some 3]
             [[2; 5]; [3; 6]; [0; 4; 7]; [1; 4; 8]; [0; 1]].
Definition outcome (r : pres) : nat * nat * nat :=
  match r with PDone g => (1, nv g, ne g) | PThrow g => (2, nv g, ne g) | PNull => (3, 0, 0) | PFuel => (4, 0, 0) end.

Example pendulum_model : model_graph pendulum /\ 0 < ne pendulum /\ well_determined pendulum.
Proof.
  split; [|split; [cbn; lia|reflexivity]].
  apply (init_MG [None; None; None; None; None; Some 0; Some 1; Some 2; Some 3]
             [[2; 5]; [3; 6]; [0; 4; 7]; [1; 4; 8]; [0; 1]]).
  - split.
    + intros j a. do 9 (destruct j as [|j]; [cbn; intros Q; inversion Q; lia|]). cbn. destruct j; discriminate.
    + intros j j' a. do 9 (destruct j as [|j]; [cbn; try discriminate; intros Q; inversion Q; subst;
        do 9 (destruct j' as [|j']; [cbn; intros Q'; inversion Q'; reflexivity|]); destruct j'; discriminate|]).
      cbn. destruct j; discriminate.
  - intros r Hr j Hj. cbn [In length] in *. intuition (subst; cbn [In] in *; intuition lia).
Qed.

(** The length of the pendulum is differentiated twice and the first two
    equations once: nine equations, eleven variables. *)
Example pendulum_reduced : outcome (pantelides 60 pendulum) = (1, 11, 9).
Proof. vm_compute. reflexivity. Qed.

(** so the pendulum meets the hypotheses of all four theorems *)
Example pendulum_regular : exists t, transversal pendulum t.
Proof.
  destruct pendulum_model as (M & L & _).
  assert (O := pendulum_reduced).
  destruct (pantelides 60 pendulum) as [g'|g'| |] eqn:E; [|exfalso; cbn [outcome] in O; inversion O..].
  exact (C45_success_means_regular 60 pendulum g' M L E).
Qed.
Example pendulum_ends : forall fuel, 50 < fuel -> pantelides fuel pendulum <> PFuel.
Proof.
  intros fuel Lf. destruct pendulum_model as (M & L & _). destruct pendulum_regular as [t T].
  apply (C45_ends_on_regular_structures fuel pendulum t M L T).
  assert (N : ne pendulum = 5) by (vm_compute; reflexivity).
  assert (N' : nv pendulum = 9) by (vm_compute; reflexivity). rewrite N, N'. lia.
Qed.

(** ** What does not hold *)

(** Without regularity the method need not end, although the model passes the
    check made when the graph is built: two equations in one variable. *)
Theorem C45_ends_refuted : exists g,
  model_graph g /\ 0 < ne g /\ well_determined g /\ forall fuel, pantelides fuel g = PFuel.
Proof.
  exists twice. split; [exact twice_model|]. split; [cbn; lia|]. split; [reflexivity|exact twice_endless].
Qed.
Print Assumptions C45_ends_refuted.

(** A regular model may be refused: one equation in [x] where the derivative
    of [x] is declared but occurs in no equation.  The error "Invalid
    equation structure" is thrown at the second pass. *)
Definition declared_derivative : graph := init_graph [None; Some 0] [[0]].
Theorem C45_regular_accepted_refuted : exists g t,
  model_graph g /\ 0 < ne g /\ well_determined g /\ transversal g t /\
  forall fuel, exists g', pantelides (2 + fuel) g = PThrow g'.
Proof.
  exists declared_derivative, (fun _ => 0).
  assert (N : ne declared_derivative = 1) by (vm_compute; reflexivity).
  split; [|split; [rewrite N; lia|split; [reflexivity|split]]].
  - apply (init_MG [None; Some 0] [[0]]).
    + split.
      * intros j a. do 2 (destruct j as [|j]; [cbn; intros Q; inversion Q; lia|]). cbn. destruct j; discriminate.
      * intros j j' a. do 2 (destruct j as [|j]; [cbn; try discriminate; intros Q; inversion Q; subst;
          do 2 (destruct j' as [|j']; [cbn; intros Q'; inversion Q'; reflexivity|]); destruct j'; discriminate|]).
        cbn. destruct j; discriminate.
    + intros r Hr j Hj. cbn [In length] in *. intuition (subst; cbn [In] in *; intuition lia).
  - split; [|rewrite N; lia]. rewrite N. intros f L. assert (f = 0) by lia. subst f. vm_compute. auto.
  - intros fuel.
    assert (F : match pantelides (2 + fuel) declared_derivative with PThrow _ => true | _ => false end = true).
    { vm_compute. reflexivity. }
    destruct (pantelides (2 + fuel) declared_derivative) as [g'|g'| |]; try discriminate. exists g'. reflexivity.
Qed.
Print Assumptions C45_regular_accepted_refuted.

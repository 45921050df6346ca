(** * C62: the structural index reduction of Soares and Secchi *)
From Coq Require Import List Arith Bool Lia Permutation.
From Verif Require Import Match_model Match_spec Match_proofs Match_struct Match_thm Match_pant Match_loop Match_init Pantelides_proofs Pantelides_endless Pantelides_thm
  Soares_model Soares_spec Soares_path Soares_diff Soares_pass Soares_proofs.
Import ListNotations.

Lemma soares_ok fuel ord g : orders ord -> model_graph g -> uncoloured g ->
  match soares fuel ord g with
  | SDone g' last' => Done g g' last'
  | SThrow g' => keeps_original g g' /\ ((forall e, e_der (ge g' e) = None) ->
      ~ exists r, representatives (any_variable g) g (fun e => e < ne g) r)
  | SNull => False
  | SFuel => fuel = 0 \/ fuel + ne g <= nv g + cnt (algb g) (nv g) + 1
  | SDepth => False
  end.
Proof.
  intros HO HM HU. destruct (model_PI g HM HU) as (A & B & C). apply soares_loop; auto.
Qed.

(** ** The result *)

(** Whatever the order in which the marked equations are differentiated: when
    the method returns, the graph has the structure of an ordinary
    differential equation, the equations and variables of the user are kept,
    each added equation has exactly the derivatives of the variables of its
    equation, and what [reduceIndex] removes afterwards are derivatives which
    were not differentiated themselves (so no null pointer is followed).  With
    as many equations as variables without derivative no algebraic variable
    remains. *)
Theorem C62_result : forall fuel ord g g' last,
  orders ord -> model_graph g -> uncoloured g ->
  soares fuel ord g = SDone g' last ->
  ode_structure g' /\ total_derivatives g' /\ keeps_original g g' /\
  removable g' (last_added g' last) /\ (square g -> determined g').
Proof.
  intros fuel ord g g' last HO HM HU E. pose proof (soares_ok fuel ord g HO HM HU) as H. rewrite E in H.
  split; [eapply Done_ode; eauto|]. split; [eapply Done_total; eauto|]. split; [apply H|].
  split; [eapply Done_removable; eauto|eapply Done_determined; eauto].
Qed.
Print Assumptions C62_result.

(** No null pointer is followed and the searches end. *)
Theorem C62_defined : forall fuel ord g,
  orders ord -> model_graph g -> uncoloured g ->
  soares fuel ord g <> SNull /\ soares fuel ord g <> SDepth.
Proof.
  intros fuel ord g HO HM HU. pose proof (soares_ok fuel ord g HO HM HU) as H.
  destruct (soares fuel ord g); try contradiction; split; discriminate.
Qed.
Print Assumptions C62_defined.

Lemma cnt_le p n : cnt p n <= n.
Proof. induction n as [|n IH]; [apply Nat.le_0_l|]. rewrite cnt_S. destruct (p n); lia. Qed.

(** It ends for every structure, singular or not: the number of passes is at
    most twice the number of variables plus one. *)
Theorem C62_ends : forall fuel ord g,
  orders ord -> model_graph g -> uncoloured g -> 2 * nv g + 1 < fuel ->
  soares fuel ord g <> SFuel.
Proof.
  intros fuel ord g HO HM HU L E. pose proof (soares_ok fuel ord g HO HM HU) as H. rewrite E in H.
  pose proof (cnt_le (algb g) (nv g)). lia.
Qed.
Print Assumptions C62_ends.

(** Only regular structures are accepted: if it returns, then some choice of
    variables serves all equations, no two of the same chain of derivatives. *)
Theorem C62_success_means_regular : forall fuel ord g g' last,
  orders ord -> model_graph g -> uncoloured g ->
  soares fuel ord g = SDone g' last -> exists t, transversal g t.
Proof.
  intros fuel ord g g' last HO HM HU E. pose proof (soares_ok fuel ord g HO HM HU) as H. rewrite E in H.
  apply (final_transversal g g' HM); [eapply Done_Final; eauto|apply H].
Qed.
Print Assumptions C62_success_means_regular.

(** So a structure which is not regular is refused, after finitely many
    passes and without undefined behaviour. *)
Theorem C62_singular_refused : forall fuel ord g,
  orders ord -> model_graph g -> uncoloured g -> 2 * nv g + 1 < fuel ->
  (forall t, ~ transversal g t) -> exists g', soares fuel ord g = SThrow g'.
Proof.
  intros fuel ord g HO HM HU L N. destruct (soares fuel ord g) as [g' last|g'| | |] eqn:E.
  - exfalso. destruct (C62_success_means_regular fuel ord g g' last HO HM HU E) as [t T]. exact (N t T).
  - eauto.
  - exfalso. apply (proj1 (C62_defined fuel ord g HO HM HU)). exact E.
  - exfalso. apply (C62_ends fuel ord g HO HM HU L). exact E.
  - exfalso. apply (proj2 (C62_defined fuel ord g HO HM HU)). exact E.
Qed.
Print Assumptions C62_singular_refused.

(** The converse is true in the first pass only: "Singular system detected."
    thrown before any equation was differentiated means that no choice of
    distinct variables serves the equations, in particular the structure is
    not regular.  Missing: the same for later passes, which is false, see
    [C62_regular_accepted_refuted]. *)
Theorem C62_regular_accepted_partial : forall fuel ord g g',
  orders ord -> model_graph g -> uncoloured g ->
  soares fuel ord g = SThrow g' -> (forall e, e_der (ge g' e) = None) ->
  (~ exists r, representatives (any_variable g) g (fun e => e < ne g) r) /\ forall t, ~ transversal g t.
Proof.
  intros fuel ord g g' HO HM HU E ND. pose proof (soares_ok fuel ord g HO HM HU) as H. rewrite E in H.
  destruct H as [_ H]. specialize (H ND). split; [exact H|]. intros t [T1 T2]. apply H. exists t. split.
  - intros e L. split; [|exact I]. unfold occurs. rewrite (mg_vars g HM). apply T1. exact L.
  - intros e e' L L' Q. apply T2; auto. rewrite Q. left. constructor.
Qed.
Print Assumptions C62_regular_accepted_partial.

(** ** The graph of a model has no colours *)
Lemma add_uncoloured g i j : uncoloured g -> uncoloured (add_variable g i j).
Proof.
  intros [A B]. unfold add_variable. destruct (existsb (Nat.eqb j) (e_orig (ge g i))); [split; assumption|].
  cbv zeta. change (gv (upde g i _) j) with (gv g j). destruct (v_del (gv g j)); split; cbn [updv upde gv ge]; intros x;
    repeat match goal with |- context [?a =? ?b] => destruct (a =? b); cbn [e_col v_col] end; auto.
Qed.
Lemma init_uncoloured anti rows : uncoloured (init_graph anti rows).
Proof.
  unfold init_graph. set (g0 := Gr _ _ _ _). assert (H0 : uncoloured g0) by (split; reflexivity). clearbody g0.
  generalize (seq 0 (length rows)). intros l. revert g0 H0. induction l as [|i l IH]; intros g H; cbn [fold_left]; [exact H|].
  apply IH. generalize (nth i rows []). intros r. revert g H. induction r as [|j r IHr]; intros g H; cbn [fold_left]; [exact H|].
  apply IHr. apply add_uncoloured. exact H.
Qed.

(** ** Cases *)
Definition soutcome (r : sres) : nat * nat * nat * list nat :=
  match r with
  | SDone g l => (1, nv g, ne g, l) | SThrow g => (2, nv g, ne g, []) | SNull => (3, 0, 0, [])
  | SFuel => (4, 0, 0, []) | SDepth => (5, 0, 0, [])
  end.
Definition first_order (_ : nat) (l : list nat) : list nat := l.
Definition reversed (_ : nat) (l : list nat) : list nat := rev l.
Example first_order_orders : orders first_order.
Proof. intros p l. apply Permutation_refl. Qed.
Example reversed_orders : orders reversed.
Proof. intros p l. apply Permutation_sym, Permutation_rev. Qed.


(** The pendulum (index 3): the method returns, whatever the order of two
    choices; the last five equations are removed again, nine are left. *)
Example pendulum_soares :
  soutcome (soares 30 first_order pendulum) = (1, 16, 14, [2; 3; 6; 7; 8]) /\
  soutcome (soares 30 reversed pendulum) = (1, 16, 14, [2; 3; 6; 7; 8]).
Proof. split; vm_compute; reflexivity. Qed.
Lemma square_ne g : model_graph g -> length (filter (fun v => is_none (v_der (gv g v))) (seq 0 (nv g))) = ne g -> square g.
Proof.
  intros H E. unfold square. rewrite E. rewrite <- (seq_length (ne g) 0) at 1. f_equal. symmetry.
  assert (F : forall l, filter (fun e => is_none (e_der (ge g e))) l = l).
  { induction l as [|a l IH]; [reflexivity|]. cbn [filter]. destruct (mg_new g H a) as [-> _]. cbn [is_none]. rewrite IH. reflexivity. }
  apply F.
Qed.
Example C62_pendulum : exists g' last, soares 30 first_order pendulum = SDone g' last /\
  ode_structure g' /\ determined g' /\ removable g' (last_added g' last) /\ ne g' = 14.
Proof.
  destruct pendulum_model as (M & _ & _). destruct pendulum_soares as [O _].
  assert (Sq : square pendulum) by (apply square_ne; [exact M|vm_compute; reflexivity]).
  destruct (soares 30 first_order pendulum) as [g' last|g'| | |] eqn:E; try discriminate O.
  destruct (C62_result 30 first_order pendulum g' last first_order_orders M (init_uncoloured _ _) E) as (A & _ & _ & B & C).
  exists g', last. split; [reflexivity|]. split; [exact A|]. split; [exact (C Sq)|]. split; [exact B|].
  cbn [soutcome] in O. inversion O. reflexivity.
Qed.

(** Two equations in one variable, on which the method of Pantelides does not
    end ([C45_ends_refuted]), are refused. *)
Example C62_twice : soutcome (soares 2 first_order twice) = (2, 2, 2, []).
Proof. vm_compute. reflexivity. Qed.

(** ** What does not hold *)

(** Variables x0 to x4, the derivatives 5 of x0, 6 of x2 and 7 of x3;
    equations E0(x4, dx2), E1(x2, dx0), E2(x0), E3(x1, dx3) and E4(x2, x3):
    x0 is given by E2, then x2 by E1, x3 by E4, x4 by E0 and x1 by E3.  In the
    first pass E2 and E4 are marked, and E4, which is given x2, keeps the
    colour it gets in its successful search: only the colours of variables are
    taken away afterwards.  In the second pass E4 has a derivative, so that its
    colour is not taken away with those of the marked equations, and the
    search for the derivative of E2 comes to E1 and x2 and does not go on
    through E4, as if E4 had been visited, although E4 could be given x3. *)
Definition given_in_turn : graph :=
  init_graph [None; None; None; None; None; Some 0; Some 2; Some 3] [[4; 6]; [2; 5]; [0]; [1; 7]; [2; 3]].

Tactic Notation "init_small" integer(n) :=
  split;
  [ intros j a; do n (destruct j as [|j]; [cbn; intros Q; inversion Q; lia|]); cbn; destruct j; discriminate
  | intros j j' a; do n (destruct j as [|j]; [cbn; try discriminate; intros Q; inversion Q; subst;
      do n (destruct j' as [|j']; [cbn; intros Q'; inversion Q'; reflexivity|]); destruct j'; discriminate|]);
    cbn; destruct j; discriminate ].

Lemma given_model : model_graph given_in_turn /\ nv given_in_turn = 8 /\ ne given_in_turn = 5.
Proof.
  apply (init_MG [None; None; None; None; None; Some 0; Some 2; Some 3] [[4; 6]; [2; 5]; [0]; [1; 7]; [2; 3]]).
  - init_small 8.
  - intros r Hr j Hj. cbn [In length] in *. intuition (subst; cbn [In] in *; intuition lia).
Qed.

Definition first_pass : graph :=
  match visits (seq 0 5) given_in_turn [] with VOk g _ => g | _ => given_in_turn end.
Lemma given_first : visits (seq 0 5) given_in_turn [] = VOk first_pass [2; 4].
Proof.
  assert (O : match visits (seq 0 5) given_in_turn [] with VOk _ m => Some m | _ => None end = Some [2; 4]) by (vm_compute; reflexivity).
  unfold first_pass. destruct (visits (seq 0 5) given_in_turn []) as [g m|g| |]; [|discriminate O..].
  injection O as ->. reflexivity.
Qed.
Lemma given_second l : l = [2; 4] \/ l = [4; 2] ->
  exists g, visits (seq 0 (ne (differentiate l first_pass))) (differentiate l first_pass) [] = VThrow g.
Proof.
  intros H.
  assert (O : match visits (seq 0 (ne (differentiate l first_pass))) (differentiate l first_pass) [] with VThrow _ => true | _ => false end = true).
  { destruct H as [-> | ->]; vm_compute; reflexivity. }
  destruct (visits (seq 0 (ne (differentiate l first_pass))) (differentiate l first_pass) []) as [g m|g| |]; [discriminate O| |discriminate O..].
  exists g. reflexivity.
Qed.

Ltac given_ways NE :=
  split;
  [ rewrite NE; intros f L; repeat (destruct f as [|f]; [vm_compute; tauto|]); lia
  | rewrite NE; intros f f' L L' [D|D]; apply derived_up in D; destruct D as [n D];
        repeat (destruct f as [|f]; [|try lia]); try lia; repeat (destruct f' as [|f']; [|try lia]); try lia; try reflexivity; exfalso;
        repeat (destruct n as [|n]; [cbn [up] in D; lia|]; let u := fresh "u" in let Du := fresh "Du" in
                destruct D as (u & Du & D); vm_compute in Du; try discriminate Du; injection Du as <-) ].

(** A regular structure with as many equations as variables without
    derivative, and as checked when the graph is built, is refused with
    "Singular system detected.", for every order of the marked equations. *)
Theorem C62_regular_accepted_refuted : exists g t,
  model_graph g /\ uncoloured g /\ square g /\ well_determined g /\ transversal g t /\
  forall ord fuel, orders ord -> exists g', soares (2 + fuel) ord g = SThrow g'.
Proof.
  destruct given_model as (M & NV & NE).
  exists given_in_turn, (fun e => match e with 0 => 4 | 1 => 2 | 2 => 0 | 3 => 1 | _ => 3 end).
  split; [exact M|]. split; [apply init_uncoloured|].
  split; [apply square_ne; [exact M|vm_compute; reflexivity]|]. split; [reflexivity|]. split.
  - given_ways NE.
  - intros ord fuel HO. unfold soares. cbn [plus soares_from]. rewrite NE, given_first.
    assert (P := HO 0 [2; 4]).
    destruct (given_second (ord 0 [2; 4])) as [g' E].
    + apply Permutation_length_2_inv. apply Permutation_sym. exact P.
    + rewrite E. exists g'. reflexivity.
Qed.
Print Assumptions C62_regular_accepted_refuted.

(** Variables a, x, b and the derivative of x; equations F(a, dx) = 0,
    G(x) = 0, H(a, b) = 0.  Both G and H are differentiated after the first
    pass.  When the derivative of H comes first, its successful search takes
    the colour of H away, and the structure is accepted; when the derivative
    of G comes first, it is refused.  The order is that of the addresses of
    the equations. *)
Definition by_address : graph := init_graph [None; None; None; Some 1] [[0; 3]; [1]; [0; 2]].

Lemma by_address_model : model_graph by_address /\ nv by_address = 4 /\ ne by_address = 3.
Proof.
  apply (init_MG [None; None; None; Some 1] [[0; 3]; [1]; [0; 2]]).
  - init_small 4.
  - intros r Hr j Hj. cbn [In length] in *. intuition (subst; cbn [In] in *; intuition lia).
Qed.

(** The answer does not depend on the structure only. *)
Theorem C62_order_refuted : exists g ord ord' g1 g2 last,
  model_graph g /\ uncoloured g /\ square g /\ well_determined g /\ (exists t, transversal g t) /\
  orders ord /\ orders ord' /\
  soares 10 ord g = SThrow g1 /\ soares 10 ord' g = SDone g2 last.
Proof.
  destruct by_address_model as (M & NV & NE).
  assert (O1 : fst (fst (fst (soutcome (soares 10 first_order by_address)))) = 2) by (vm_compute; reflexivity).
  assert (O2 : fst (fst (fst (soutcome (soares 10 reversed by_address)))) = 1) by (vm_compute; reflexivity).
  destruct (soares 10 first_order by_address) as [x l|g1| | |] eqn:E1; [discriminate O1| |discriminate O1..].
  destruct (soares 10 reversed by_address) as [g2 last|x| | |] eqn:E2; [|discriminate O2..].
  exists by_address, first_order, reversed, g1, g2, last.
  split; [exact M|]. split; [apply init_uncoloured|].
  split; [apply square_ne; [exact M|vm_compute; reflexivity]|]. split; [reflexivity|]. split.
  { exists (fun e => match e with 0 => 0 | 1 => 1 | _ => 2 end). given_ways NE. }
  split; [exact first_order_orders|]. split; [exact reversed_orders|]. split; [exact E1|exact E2].
Qed.
Print Assumptions C62_order_refuted.

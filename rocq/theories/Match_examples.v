(** * Cases meeting the hypotheses of the theorems of Match_thm.v *)
From Coq Require Import List Arith Bool Lia.
From Verif Require Import Match_model Match_spec Match_proofs Match_struct Match_thm Match_init.
Import ListNotations.

(** two equations, the first already assigned the only variable of the second:
    [dx0] and [dx1] in the first, [dx0] in the second *)
Definition chain_graph : graph :=
  set_assign (init_graph [None; None; Some 0; Some 1] [[2; 3]; [2]]) 2 0.
(** the same without [dx1]: no augmenting path *)
Definition stuck_graph : graph :=
  set_assign (init_graph [None; None; Some 0; Some 1] [[2]; [2]]) 2 0.

Definition hypotheses (g : graph) : Prop :=
  matching g /\ in_range g /\ 1 < ne g /\ ~ matched g 1 /\ uncoloured g /\
  (forall K e v, procedure K -> e_asg (ge g e) = Some v -> occurs g v e /\ allowed K g v).
Lemma init_uncoloured anti rows : uncoloured (init_graph anti rows).
Proof.
  unfold init_graph. set (g0 := Gr _ _ _ _).
  assert (H0 : uncoloured g0) by (split; reflexivity). clearbody g0. revert g0 H0.
  generalize (seq 0 (length rows)). induction l as [|i l IH]; intros g H; cbn [fold_left]; [exact H|].
  apply IH. revert g H. generalize (nth i rows []). induction l0 as [|j r IHr]; intros g H; cbn [fold_left]; [exact H|].
  apply IHr. destruct H as [H1 H2]. unfold add_variable.
  destruct (existsb (Nat.eqb j) (e_orig (ge g i))); [split; assumption|].
  assert (U : forall e, e_col (ge (upde g i (fun n => EN (e_orig n ++ [j]) (e_vars n) (e_der n) (e_of n) (e_asg n) (e_col n))) e) = false).
  { intros e. cbn [upde ge]. destruct (e =? i); cbn [e_col]; apply H2. }
  destruct (v_del _).
  - split; [exact H1|exact U].
  - split.
    + intros v. cbn [updv upde gv]. destruct (v =? j); cbn [v_col]; apply H1.
    + intros e. cbn [updv upde ge]. destruct (e =? i); cbn [e_col]; apply H2.
Qed.
Lemma example_anti : well_numbered [None; None; Some 0; Some 1].
Proof.
  split.
  - intros j a. do 4 (destruct j as [|j]; [cbn; intros Q; inversion Q; lia|]). cbn. destruct j; discriminate.
  - intros j j' a. do 4 (destruct j as [|j]; [cbn; try discriminate; intros Q; inversion Q; subst;
      do 4 (destruct j' as [|j']; [cbn; intros Q'; inversion Q'; reflexivity|]); destruct j'; discriminate|]).
    cbn. destruct j; discriminate.
Qed.
Lemma example_hyps r : In r [[2; 3]; [2]] ->
  hypotheses (set_assign (init_graph [None; None; Some 0; Some 1] [r; [2]]) 2 0).
Proof.
  intros Hr.
  destruct (init_MG [None; None; Some 0; Some 1] [r; [2]] example_anti) as (M & _ & N).
  { intros q Hq j Hj. cbn [In length] in *. intuition (subst; cbn [In] in *; intuition lia). }
  assert (U := init_uncoloured [None; None; Some 0; Some 1] [r; [2]]).
  assert (E : In 2 (e_vars (ge (init_graph [None; None; Some 0; Some 1] [r; [2]]) 0)) /\
     v_der (gv (init_graph [None; None; Some 0; Some 1] [r; [2]]) 2) = None /\
     v_anti (gv (init_graph [None; None; Some 0; Some 1] [r; [2]]) 2) <> None).
  { destruct Hr as [<-|[<-|[]]]; (split; [|split]; [vm_compute; auto|vm_compute; reflexivity|vm_compute; discriminate]). }
  set (g0 := init_graph _ _) in *. clearbody g0. cbn [length] in N.
  set (g := set_assign g0 2 0).
  assert (A : forall v, v_asg (gv g v) = if v =? 2 then Some 0 else None).
  { intros v. unfold g, set_assign. cbn [updv upde gv]. destruct (v =? 2); [reflexivity|]. apply (mg_free g0 M). }
  assert (B : forall e, e_asg (ge g e) = if e =? 0 then Some 2 else None).
  { intros e. unfold g, set_assign. cbn [updv upde ge]. destruct (e =? 0); [reflexivity|]. apply (mg_new g0 M). }
  assert (C : uncoloured g).
  { split; [intros v|intros e]; unfold g, set_assign; cbn [updv upde gv ge].
    - destruct (v =? 2); apply U.
    - destruct (e =? 0); apply U. }
  assert (D : ne g = 2) by exact N.
  assert (E' : In 2 (e_vars (ge g 0)) /\ v_der (gv g 2) = None /\ v_anti (gv g 2) <> None) by exact E.
  clearbody g. split; [|split; [|split; [|split; [|split]]]].
  - intros v e. rewrite A, B. destruct (Nat.eqb_spec v 2), (Nat.eqb_spec e 0); subst; split; congruence.
  - intros v e. rewrite A, D. destruct (v =? 2); [|discriminate]. intros Q; inversion Q. lia.
  - lia.
  - unfold matched. rewrite B. cbn. congruence.
  - exact C.
  - intros K e v HK. rewrite B. destruct (Nat.eqb_spec e 0) as [->|]; [|discriminate].
    intros Q; inversion Q; subst v. split; [apply E'|]. destruct HK as [->| ->]; [exact I|]. apply E'.
Qed.
Example chain_graph_hyps : hypotheses chain_graph.
Proof. apply (example_hyps [2; 3]). left. reflexivity. Qed.
Example stuck_graph_hyps : hypotheses stuck_graph.
Proof. apply (example_hyps [2]). right. left. reflexivity. Qed.

(** the assignment of each equation after the call *)
Definition assignments (r : res) : option (bool * list (option nat)) :=
  match r with Ret g b => Some (b, map (fun e => e_asg (ge g e)) (seq 0 (ne g))) | _ => None end.
Example chain_graph_augmented : forall K, procedure K ->
  assignments (augment K 3 1 chain_graph) = Some (true, [Some 3; Some 2]).
Proof. intros K [->| ->]; vm_compute; reflexivity. Qed.
Example stuck_graph_refused : forall K, procedure K ->
  assignments (augment K 3 1 stuck_graph) = Some (false, [Some 2; None]).
Proof. intros K [->| ->]; vm_compute; reflexivity. Qed.

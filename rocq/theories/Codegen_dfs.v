(** * Generic facts about the graph navigation loops: termination and invariants *)
From Coq Require Import List Bool Arith Lia.
From Verif Require Import Graph_model Graph_spec Codegen_model Codegen_spec.
Import ListNotations.

Section Generic.
Context {St : Type}.

(** an invariant preserved by each step holds at the end *)
Lemma dfs_inv (pre : option nat -> nat -> St -> outcome (St * list el * bool)) post (I : list el -> St -> Prop) :
  (forall p i rest st st' pushed c, I (mkEl p i Analyze :: rest) st -> pre p i st = Done (st', pushed, c) ->
     I (pushed ++ mkEl p i (if c then ChildrenVisited else Exit) :: rest) st') ->
  (forall p i rest st, I (mkEl p i ChildrenVisited :: rest) st -> I rest (post p i st)) ->
  (forall p i rest st, I (mkEl p i Exit :: rest) st -> I rest st) ->
  forall fuel stack st st', dfs pre post fuel stack st = Done st' -> I stack st -> I [] st'.
Proof.
  intros H1 H2 H3. induction fuel as [|fuel IH]; intros stack st st' E HI; [discriminate|].
  cbn [dfs] in E. destruct stack as [|[p i s] rest].
  - injection E as <-. exact HI.
  - cbn [el_step el_par el_node] in E. destruct s.
    + destruct (pre p i st) as [[[st1 pushed] c]| |] eqn:Ep; try discriminate.
      eapply IH; [exact E|]. eapply H1; eassumption.
    + eapply IH; [exact E|]. apply H2 with (1 := HI).
    + eapply IH; [exact E|]. eapply H3; exact HI.
Qed.

Lemma sdfs_inv (an : option nat -> nat -> St -> St * list (option nat * nat)) (I : list (option nat * nat) -> St -> Prop) :
  (forall p i rest st st' pushed, I ((p, i) :: rest) st -> an p i st = (st', pushed) -> I (pushed ++ rest) st') ->
  forall fuel stack st st', sdfs an fuel stack st = Done st' -> I stack st -> I [] st'.
Proof.
  intros H1. induction fuel as [|fuel IH]; intros stack st st' E HI; [discriminate|].
  cbn [sdfs] in E. destruct stack as [|[p i] rest].
  - injection E as <-. exact HI.
  - destruct (an p i st) as [st1 pushed] eqn:Ea. eapply IH; [exact E|]. eapply H1; eassumption.
Qed.
End Generic.

Section Cost.
Context {B : Type} {O : BaseOps B}.
Variable g : heap B.

Lemma nargs_edge i j : In j (nargs g i) <-> edge g i j.
Proof.
  unfold nargs, gargs, edge. destruct (nth_error g i) as [n|].
  - split.
    + intros H. exists n; split; [reflexivity|]. induction (n_args n) as [|[k|b] l IH]; cbn [anodes] in H.
      * destruct H.
      * destruct H as [->|H]; [left; reflexivity|right; apply IH, H].
      * right; apply IH, H.
    + intros (n' & [= <-] & H). induction (n_args n) as [|[k|b] l IH]; cbn [anodes].
      * destruct H.
      * destruct H as [[= ->]|H]; [left; reflexivity|right; apply IH, H].
      * destruct H as [H|H]; [discriminate|apply IH, H].
  - split; [intros []|intros (n & [=] & _)].
Qed.

Fixpoint cst (k i : nat) : nat :=
  match k with 0 => 3 | S k => 3 + list_sum (map (cst k) (nargs g i)) end.

Lemma cst_stable (r : nat -> nat) : (forall i j, edge g i j -> r j < r i) ->
  forall k i k', r i < k -> r i < k' -> cst k i = cst k' i.
Proof.
  intros Hr. induction k as [|k IH]; intros i k' H1 H2; [lia|].
  destruct k' as [|k']; [lia|]. cbn [cst].
  enough (map (cst k) (nargs g i) = map (cst k') (nargs g i)) as -> by reflexivity.
  apply map_ext_in. intros j Hj. apply nargs_edge in Hj. specialize (Hr _ _ Hj). apply IH; lia.
Qed.

(** a cost that pays for the exploration of everything below a node *)
Lemma cost_exists : acyclic g -> exists c : nat -> nat, forall i, 3 + list_sum (map c (nargs g i)) <= c i.
Proof.
  intros [r Hr]. exists (fun i => cst (S (r i)) i). intros i. cbn [cst].
  apply Nat.eq_le_incl.
  enough (map (fun j => 3 + list_sum (map (cst (r j)) (nargs g j))) (nargs g i) = map (cst (r i)) (nargs g i)) as <- by reflexivity.
  apply map_ext_in. intros j Hj. apply nargs_edge in Hj. pose proof (Hr _ _ Hj).
  change (3 + list_sum (map (cst (r j)) (nargs g j))) with (cst (S (r j)) j).
  apply (cst_stable r); [exact Hr|lia|lia].
Qed.

Definition isum (c : nat -> nat) (l : list nat) : nat := list_sum (map c l).
Lemma isum_app c l l' : isum c (l ++ l') = isum c l + isum c l'.
Proof. unfold isum. rewrite map_app. apply list_sum_app. Qed.
Lemma isum_cons c a l : isum c (a :: l) = c a + isum c l.
Proof. reflexivity. Qed.
Lemma isum_in c l i : In i l -> c i <= isum c l.
Proof. induction l as [|a l IH]; intros []; rewrite isum_cons; [subst; lia|specialize (IH H); lia]. Qed.
Lemma isum_rev c l : isum c (rev l) = isum c l.
Proof.
  induction l as [|a l IHl]; [reflexivity|]. cbn [rev]. rewrite isum_app, IHl, !isum_cons.
  change (isum c []) with 0. lia.
Qed.
Lemma isum_filter c f l : isum c (filter f l) <= isum c l.
Proof. induction l as [|a l IH]; [apply le_n|]. cbn [filter]. destruct (f a); rewrite ?isum_cons; lia. Qed.

Variable c : nat -> nat.
Hypothesis Hc : forall i, 3 + isum c (nargs g i) <= c i.

Definition ecost (e : el) : nat := match el_step e with Analyze => c (el_node e) | _ => 1 end.
Definition scost (l : list el) : nat := list_sum (map ecost l).
Lemma scost_app l l' : scost (l ++ l') = scost l + scost l'.
Proof. unfold scost. rewrite map_app. apply list_sum_app. Qed.

Definition snodes (l : list el) : list nat := map el_node l.

(** the navigation ends within the fuel given by the cost of its stack *)
Lemma dfs_terminates {St} (pre : option nat -> nat -> St -> outcome (St * list el * bool)) post (P : nat -> Prop) :
  (forall i j, P i -> edge g i j -> P j) ->
  (forall p i st, P i -> exists st' pushed b, pre p i st = Done (st', pushed, b) /\
      scost pushed <= isum c (nargs g i) /\ Forall (fun e => P (el_node e)) pushed) ->
  forall fuel stack st, Forall (fun e => P (el_node e)) stack -> scost stack < fuel ->
  exists st', dfs pre post fuel stack st = Done st'.
Proof.
  intros HP Hpre. induction fuel as [|fuel IH]; intros stack st HF Hm; [lia|].
  cbn [dfs]. destruct stack as [|[p i s] rest]; [eexists; reflexivity|].
  apply Forall_cons_iff in HF. destruct HF as [Hi HF]. cbn [el_node] in Hi.
  change (scost (mkEl p i s :: rest)) with (ecost (mkEl p i s) + scost rest) in Hm.
  unfold ecost in Hm. cbn [el_step el_par el_node] in *. destruct s.
  - destruct (Hpre p i st Hi) as (st' & pushed & b & -> & Hs & Hf).
    apply IH.
    + apply Forall_app; split; [exact Hf|]. constructor; [exact Hi|exact HF].
    + rewrite scost_app. change (scost (?e :: rest)) with (ecost e + scost rest).
      assert (ecost (mkEl p i (if b then ChildrenVisited else Exit)) = 1) as -> by (destruct b; reflexivity).
      specialize (Hc i). lia.
  - apply IH; [exact HF|lia].
  - apply IH; [exact HF|lia].
Qed.

Lemma sdfs_terminates {St} (an : option nat -> nat -> St -> St * list (option nat * nat)) :
  (forall p i st, isum c (map snd (snd (an p i st))) <= isum c (nargs g i)) ->
  forall fuel stack st, isum c (map snd stack) < fuel -> exists st', sdfs an fuel stack st = Done st'.
Proof.
  intros Han. induction fuel as [|fuel IH]; intros stack st Hm; [lia|].
  cbn [sdfs]. destruct stack as [|[p i] rest]; [eexists; reflexivity|].
  specialize (Han p i st). destruct (an p i st) as [st' pushed]. cbn [snd map] in *.
  apply IH. rewrite map_app, isum_app. rewrite isum_cons in Hm. specialize (Hc i). lia.
Qed.

Lemma scost_pushArgs i : scost (pushArgs g i) = isum c (nargs g i).
Proof. unfold scost, pushArgs, isum. rewrite map_map. reflexivity. Qed.
Lemma scost_analyze p l : scost (map (fun j => mkEl p j Analyze) l) = isum c l.
Proof. unfold scost, isum. rewrite map_map. reflexivity. Qed.
Lemma spushArgs_nodes i : map snd (spushArgs g i) = nargs g i.
Proof. unfold spushArgs. rewrite map_map. apply map_id. Qed.
End Cost.

(** * Deciding the conditions on patterns, for the examples *)
From Coq Require Import List Arith Bool Lia.
From Verif Require Import LoopTape_model LoopTape_spec LoopTape_graph LoopTape_find.
Import ListNotations.
Local Open Scope nat_scope.

Section Check.
Context {V : Type}.
Variable g : graph V.
Hypothesis W : recordedGraph g.

Fixpoint pairs (fuel r s : nat) : list (nat * nat) :=
  match fuel with
  | 0 => []
  | S fuel =>
      (r, s) :: match nth_error g r, nth_error g s with
                | Some nr, Some ns =>
                    concat (map (fun e => match e with
                                          | (AN r', AN s') => if isInv g r' then [] else pairs fuel r' s'
                                          | _ => []
                                          end) (combine (n_args nr) (n_args ns)))
                | _, _ => []
                end
  end.
Lemma below_first r0 s0 p : below g (r0, s0) p -> p = (r0, s0) \/ exists a r s, argAt g r0 a = Some (AN r) /\ argAt g s0 a = Some (AN s) /\ isInv g r = false /\ below g (r, s) p.
Proof.
  intros H. remember (r0, s0) as q eqn:Eq. induction H as [q|q r s a r' s' Hb IH A1 A2 I]; [left; reflexivity|]. right. destruct (IH Eq) as [E|[b [r1 [s1 [B1 [B2 [B3 B4]]]]]]].
  - rewrite Eq in E. injection E as <- <-. exists a, r', s'. repeat (split; [assumption|]). constructor.
  - exists b, r1, s1. repeat (split; [assumption|]). apply (B_step g _ r s a); assumption.
Qed.
Lemma nth_combine {A B} (l : list A) (k : list B) i a b : nth_error l i = Some a -> nth_error k i = Some b -> nth_error (combine l k) i = Some (a, b).
Proof. revert k i. induction l as [|x l IH]; intros [|y k] [|i] H1 H2; try discriminate; cbn in *; [congruence|apply IH; assumption]. Qed.
Lemma combine_nth_inv {A B} (l : list A) (k : list B) i a b : nth_error (combine l k) i = Some (a, b) -> nth_error l i = Some a /\ nth_error k i = Some b.
Proof. revert k i. induction l as [|x l IH]; intros [|y k] [|i] H; try discriminate; cbn in *; [injection H as -> ->; auto|apply IH; assumption]. Qed.
Lemma pairs_ok : forall fuel r0 s0 r s, r0 < fuel -> (below g (r0, s0) (r, s) <-> In (r, s) (pairs fuel r0 s0)).
Proof.
  induction fuel as [|fuel IH]; intros r0 s0 r s Hf; [lia|]. cbn [pairs In]. split.
  - intros H. apply below_first in H. destruct H as [E|[a [r' [s' [A1 [A2 [I Hb]]]]]]]; [left; congruence|right].
    destruct (argAt_lt g r0 a r' W A1) as [L _]. unfold argAt in A1, A2. destruct (nth_error g r0) as [nr|]; [|discriminate]. destruct (nth_error g s0) as [ns|]; [|discriminate].
    apply in_concat. eexists. split; [apply in_map_iff; exists (AN r', AN s'); split; [reflexivity|apply nth_error_In with (n := a), nth_combine; assumption]|].
    rewrite I. apply IH; [lia|exact Hb].
  - intros [E|H]; [injection E as <- <-; constructor|]. destruct (nth_error g r0) as [nr|] eqn:Er; [|destruct H]. destruct (nth_error g s0) as [ns|] eqn:Es; [|destruct H].
    apply in_concat in H. destruct H as [l [Hl Hi]]. apply in_map_iff in Hl. destruct Hl as [[x y] [<- Hc]]. apply In_nth_error in Hc. destruct Hc as [a Ha].
    apply combine_nth_inv in Ha. destruct Ha as [H1 H2]. destruct x as [v|r']; [destruct Hi|]. destruct y as [w|s']; [destruct Hi|]. destruct (isInv g r') eqn:I; [destruct Hi|].
    assert (A1 : argAt g r0 a = Some (AN r')) by (unfold argAt; rewrite Er; exact H1). assert (A2 : argAt g s0 a = Some (AN s')) by (unfold argAt; rewrite Es; exact H2).
    destruct (argAt_lt g r0 a r' W A1) as [L _]. apply IH in Hi; [|lia]. apply (below_trans g _ (r', s')); [|exact Hi]. apply (B_step g _ r0 s0 a); [constructor|assumption..].
Qed.

Definition usesL (r s : nat) : list (nat * nat * nat) :=
  concat (map (fun e => match nth_error g (snd e) with
                        | Some n => concat (map (fun a => match nth_error (n_args n) a with
                                                          | Some (AN j) => if isInv g j then [(fst e, a, j)] else []
                                                          | _ => []
                                                          end) (seq 0 (List.length (n_args n))))
                        | None => []
                        end) (pairs (S r) r s)).
Lemma usesL_ok r s o a j : uses g r s o a j <-> In (o, a, j) (usesL r s).
Proof.
  unfold usesL. rewrite in_concat. split.
  - intros [t [Hb [A I]]]. apply (pairs_ok (S r) r s o t (Nat.lt_succ_diag_r r)) in Hb. eexists. split; [apply in_map_iff; exists (o, t); split; [reflexivity|exact Hb]|].
    cbn [fst snd]. unfold argAt in A. destruct (nth_error g t) as [n|]; [|discriminate]. apply in_concat. exists [(o, a, j)]. split; [|left; reflexivity].
    apply in_map_iff. exists a. rewrite A, I. split; [reflexivity|]. apply in_seq. split; [lia|]. apply nth_error_Some. rewrite A. discriminate.
  - intros [l [Hl Hi]]. apply in_map_iff in Hl. destruct Hl as [[o' t] [<- Hp]]. cbn [fst snd] in Hi. destruct (nth_error g t) as [n|] eqn:Et; [|destruct Hi].
    apply in_concat in Hi. destruct Hi as [l [Hl Hi]]. apply in_map_iff in Hl. destruct Hl as [b [<- _]]. destruct (nth_error (n_args n) b) as [[v|i]|] eqn:Eb; [destruct Hi| |destruct Hi].
    destruct (isInv g i) eqn:I; [|destruct Hi]. destruct Hi as [E|[]]. injection E as <- <- <-. exists t. split; [apply (pairs_ok (S r) r s); [lia|exact Hp]|].
    split; [unfold argAt; rewrite Et; exact Eb|exact I].
Qed.

Definition consistentB (r s : nat) : bool :=
  let l := usesL r s in
  forallb (fun e => forallb (fun e' => let '(o, a, j) := e in let '(o', a', j') := e' in negb ((o =? o') && (a =? a')) || (j =? j')) l) l.
Lemma consistentB_ok r s : consistentB r s = true -> consistent g r s.
Proof.
  intros H o a j j' U U'. apply usesL_ok in U, U'. unfold consistentB in H. cbv zeta in H. rewrite forallb_forall in H. specialize (H _ U). cbv beta in H. rewrite forallb_forall in H. specialize (H _ U').
  cbn in H. rewrite !Nat.eqb_refl in H. apply Nat.eqb_eq, H.
Qed.
Definition alignedB (r s : nat) : bool :=
  let l := pairs (S r) r s in forallb (fun e => (fst e =? snd e) || forallb (fun e' => negb (fst e' =? snd e)) l) l.
Lemma alignedB_ok r s : alignedB r s = true -> aligned g r s.
Proof.
  intros H k t u B1 Hne B2. apply (pairs_ok (S r) r s _ _ (Nat.lt_succ_diag_r r)) in B1, B2. unfold alignedB in H. cbv zeta in H. rewrite forallb_forall in H. specialize (H _ B1). cbn [fst snd] in H.
  apply orb_true_iff in H. destruct H as [H|H]; [apply Nat.eqb_eq in H; congruence|]. rewrite forallb_forall in H. specialize (H _ B2). cbn [fst snd] in H. rewrite Nat.eqb_refl in H. discriminate.
Qed.

Variable deps : list (arg V).
Definition opOf (d : nat) : option nat := match nth_error deps d with Some (AN r) => Some r | _ => None end.
Lemma opOf_ok d r : nth_error deps d = Some (AN r) <-> opOf d = Some r.
Proof. unfold opOf. destruct (nth_error deps d) as [[v|k]|]; split; congruence. Qed.
Definition usableB (p : pattern) : bool :=
  forallb (fun d => (d =? p_ref p) || match opOf (p_ref p), opOf d with Some r, Some s => consistentB r s && alignedB r s | _, _ => true end) (p_deps p).
Lemma usableB_ok p : usableB p = true -> usable g deps p.
Proof.
  intros H d r s Hd Hne Er Es. unfold usableB in H. rewrite forallb_forall in H. specialize (H d Hd). apply opOf_ok in Er, Es. rewrite Er, Es in H.
  apply orb_true_iff in H. destruct H as [H|H]; [apply Nat.eqb_eq in H; congruence|]. apply andb_true_iff in H. destruct H as [H1 H2].
  split; [apply consistentB_ok, H1|apply alignedB_ok, H2].
Qed.

(** The independents of a pattern for its dependent [d], and the positions which change. *)
Definition usesD (p : pattern) (d : nat) : list (nat * nat * nat) := match opOf (p_ref p), opOf d with Some r, Some s => usesL r s | _, _ => [] end.
Definition variesB (p : pattern) (o a : nat) : bool :=
  let l := concat (map (usesD p) (p_deps p)) in
  existsb (fun e => existsb (fun e' => let '(o1, a1, j) := e in let '(o2, a2, j') := e' in
    (o1 =? o) && (a1 =? a) && (o2 =? o) && (a2 =? a) && negb (j =? j')) l) l.
Lemma usesD_ok p d o a j : In (o, a, j) (usesD p d) <-> exists r s, nth_error deps (p_ref p) = Some (AN r) /\ nth_error deps d = Some (AN s) /\ uses g r s o a j.
Proof.
  unfold usesD. split.
  - intros H. destruct (opOf (p_ref p)) as [r|] eqn:Er; [|destruct H]. destruct (opOf d) as [s|] eqn:Es; [|destruct H]. apply opOf_ok in Er, Es. exists r, s.
    rewrite usesL_ok. auto.
  - intros [r [s [Er [Es U]]]]. apply opOf_ok in Er, Es. rewrite Er, Es. apply usesL_ok, U.
Qed.
Lemma variesB_ok p o a : variesB p o a = true <-> varies g deps p o a.
Proof.
  unfold variesB. cbv zeta. rewrite existsb_exists. split.
  - intros [[[o1 a1] j] [I1 H]]. apply existsb_exists in H. destruct H as [[[o2 a2] j'] [I2 H]].
    repeat (apply andb_true_iff in H; destruct H as [H ?]). apply Nat.eqb_eq in H, H1, H2, H3. subst. apply negb_true_iff, Nat.eqb_neq in H0.
    apply in_concat in I1, I2. destruct I1 as [l1 [L1 I1]], I2 as [l2 [L2 I2]]. apply in_map_iff in L1, L2. destruct L1 as [d [<- D1]], L2 as [d' [<- D2]].
    apply usesD_ok in I1, I2. destruct I1 as [r [s [Er [Es U]]]], I2 as [r' [s' [Er' [Es' U']]]]. rewrite Er in Er'. injection Er' as <-.
    exists d, d', r, s, s', j, j'. repeat (split; [assumption|]). exact H0.
  - intros [d [d' [r [s [s' [j [j' [D1 [D2 [Er [Es [Es' [U [U' N]]]]]]]]]]]]]]. exists (o, a, j). split.
    + apply in_concat. exists (usesD p d). split; [apply in_map, D1|]. apply usesD_ok. eauto.
    + apply existsb_exists. exists (o, a, j'). split.
      * apply in_concat. exists (usesD p d'). split; [apply in_map, D2|]. apply usesD_ok. eauto.
      * rewrite !Nat.eqb_refl. cbn [andb]. apply negb_true_iff, Nat.eqb_neq, N.
Qed.

Definition agreeB (ps : list pattern) (iters : list (list nat)) : bool :=
  forallb (fun p => forallb (fun q => forallb (fun it => forallb (fun d => forallb (fun e =>
    negb (mem d (p_deps p)) || negb (mem e (p_deps q)) ||
    forallb (fun u => forallb (fun v => let '(o, a, j) := u in let '(o', a', j') := v in
      negb ((o =? o') && (a =? a')) || ((j =? j') && Bool.eqb (variesB p o a) (variesB q o a))) (usesD q e)) (usesD p d)) it) it) iters) ps) ps.
Lemma agreeB_ok ps iters : agreeB ps iters = true -> agreeAll g deps ps iters.
Proof.
  intros H p q d e it r s r' s' op a j j' Hp Hq Hi Hd He Dp Dq Er Es Er' Es' U U'. unfold agreeB in H.
  rewrite forallb_forall in H. specialize (H p Hp). cbv beta in H. rewrite forallb_forall in H. specialize (H q Hq). cbv beta in H. rewrite forallb_forall in H. specialize (H it Hi). cbv beta in H.
  rewrite forallb_forall in H. specialize (H d Hd). cbv beta in H. rewrite forallb_forall in H. specialize (H e He). apply mem_In in Dp, Dq. rewrite Dp, Dq in H. cbn [negb orb] in H.
  assert (X : In (op, a, j) (usesD p d)) by (apply usesD_ok; eauto). assert (Y : In (op, a, j') (usesD q e)) by (apply usesD_ok; eauto).
  rewrite forallb_forall in H. specialize (H _ X). cbv beta in H. rewrite forallb_forall in H. specialize (H _ Y). cbn in H. rewrite !Nat.eqb_refl in H. cbn in H.
  apply andb_true_iff in H. destruct H as [H1 H2]. apply Nat.eqb_eq in H1. apply eqb_prop in H2. split; [exact H1|]. rewrite <- !variesB_ok, H2. tauto.
Qed.
End Check.

(** Recorded graphs and iterations. *)
Definition recordedB {V} (g : graph V) : bool :=
  forallb (fun k => match nth_error g k with
    | None => true
    | Some n => forallb (fun a => match a with AN j => j <? k | AC _ => true end) (n_args n) &&
      match n_op n with
      | OInv => match n_args n with [] => true | _ => false end
      | OAlias => match n_args n with [AN j] => isInv g j | _ => false end
      | _ => true end end) (seq 0 (List.length g)).
Lemma recordedB_ok {V} (g : graph V) : recordedB g = true -> recordedGraph g.
Proof.
  intros H k n E. unfold recordedB in H. rewrite forallb_forall in H. assert (L : k < List.length g) by (apply nth_error_Some; rewrite E; discriminate).
  specialize (H k (proj2 (in_seq _ _ _) (conj (Nat.le_0_l k) L))). cbv beta in H. rewrite E in H. apply andb_true_iff in H. destruct H as [H1 H2]. split; [|split].
  - intros j Hj. rewrite forallb_forall in H1. specialize (H1 _ Hj). apply Nat.ltb_lt, H1.
  - intros O. rewrite O in H2. destruct (n_args n); [reflexivity|discriminate].
  - intros O. rewrite O in H2. destruct (n_args n) as [|[v|j] [|b l]]; try discriminate. exists j. auto.
Qed.
Definition iterationsB (ps : list pattern) (iters : list (list nat)) : bool :=
  forallb (fun p => forallb (fun d => existsb (mem d) iters) (p_deps p)) ps &&
  forallb (fun i => forallb (fun i' => (i =? i') || forallb (fun d => negb (mem d (nth i' iters []))) (nth i iters [])) (seq 0 (List.length iters))) (seq 0 (List.length iters)) &&
  forallb (fun s => forallb (fun d => existsb (fun p => mem d (p_deps p)) ps) s) iters &&
  forallb (fun s => forallb (fun p => forallb (fun d => forallb (fun d' => (d =? d') || negb (mem d (p_deps p) && mem d' (p_deps p))) s) s) ps) iters.
Lemma iterationsB_ok ps iters : iterationsB ps iters = true -> iterations ps iters.
Proof.
  intros H. unfold iterationsB in H. apply andb_true_iff in H. destruct H as [H H4]. apply andb_true_iff in H. destruct H as [H H3]. apply andb_true_iff in H. destruct H as [H1 H2].
  split; [|split; [|split]].
  - intros p d Hp Hd. rewrite forallb_forall in H1. specialize (H1 p Hp). cbv beta in H1. rewrite forallb_forall in H1. specialize (H1 d Hd). apply existsb_exists in H1.
    destruct H1 as [s [Hs Hm]]. apply In_nth_error in Hs. destruct Hs as [i Hi]. exists i, s. split; [exact Hi|apply mem_In, Hm].
  - intros i i' s s' d Hi Hi' Hd Hd'. rewrite forallb_forall in H2. assert (L : i < List.length iters) by (apply nth_error_Some; rewrite Hi; discriminate).
    assert (L' : i' < List.length iters) by (apply nth_error_Some; rewrite Hi'; discriminate). specialize (H2 i (proj2 (in_seq _ _ _) (conj (Nat.le_0_l i) L))). cbv beta in H2.
    rewrite forallb_forall in H2. specialize (H2 i' (proj2 (in_seq _ _ _) (conj (Nat.le_0_l i') L'))). cbv beta in H2.
    apply orb_true_iff in H2. destruct H2 as [H2|H2]; [apply Nat.eqb_eq, H2|]. rewrite (nth_error_nth _ _ _ Hi), (nth_error_nth _ _ _ Hi') in H2.
    rewrite forallb_forall in H2. specialize (H2 d Hd). apply negb_true_iff in H2. apply mem_In in Hd'. congruence.
  - intros s d Hs Hd. rewrite forallb_forall in H3. specialize (H3 s Hs). cbv beta in H3. rewrite forallb_forall in H3. specialize (H3 d Hd). apply existsb_exists in H3.
    destruct H3 as [p [Hp Hm]]. exists p. split; [exact Hp|apply mem_In, Hm].
  - intros s p d d' Hs Hp Hd Hd' D D'. rewrite forallb_forall in H4. specialize (H4 s Hs). cbv beta in H4. rewrite forallb_forall in H4. specialize (H4 p Hp). cbv beta in H4.
    rewrite forallb_forall in H4. specialize (H4 d Hd). cbv beta in H4. rewrite forallb_forall in H4. specialize (H4 d' Hd'). cbv beta in H4. apply mem_In in D, D'. rewrite D, D' in H4.
    apply orb_true_iff in H4. destruct H4 as [H4|H4]; [apply Nat.eqb_eq, H4|discriminate].
Qed.

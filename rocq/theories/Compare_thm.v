(** * C31: orderings handed to the standard library *)
From Coq Require Import List Arith ZArith Bool Lia Sorted.
From Verif Require Import Compare_model.
Import ListNotations.
Local Open Scope nat_scope.

(** ** Specification *)

(** The requirements of std::sort and of the ordered containers on a comparison,
    for the values in [D]. *)
Definition strict_weak {A : Type} (D : A -> Prop) (lt : A -> A -> bool) : Prop :=
  (forall a, D a -> lt a a = false) /\
  (forall a b c, D a -> D b -> D c -> lt a b = true -> lt b c = true -> lt a c = true) /\
  (forall a b c, D a -> D b -> D c -> lt a b = false -> lt b a = false -> lt b c = false -> lt c b = false ->
     lt a c = false /\ lt c a = false).

(** Moreover, values which are not ordered are the same value, so that a container
    never merges two different keys. *)
Definition strict_total {A : Type} (D : A -> Prop) (lt : A -> A -> bool) : Prop :=
  strict_weak D lt /\ forall a b, D a -> D b -> lt a b = false -> lt b a = false -> a = b.

Definition any {A : Type} (_ : A) : Prop := True.

(** ** Proofs *)

Lemma total_intro {A : Type} (D : A -> Prop) (lt : A -> A -> bool) :
  (forall a, D a -> lt a a = false) ->
  (forall a b c, D a -> D b -> D c -> lt a b = true -> lt b c = true -> lt a c = true) ->
  (forall a b, D a -> D b -> lt a b = false -> lt b a = false -> a = b) -> strict_total D lt.
Proof.
  intros H1 H2 H3. split; [|assumption]. split; [assumption|]. split; [assumption|].
  intros a b c Da Db Dc E1 E2 E3 E4. assert (a = b) by (apply H3; assumption). assert (b = c) by (apply H3; assumption). subst. auto.
Qed.

Lemma asym {A : Type} (D : A -> Prop) (lt : A -> A -> bool) : strict_weak D lt -> forall a b, D a -> D b -> lt a b = true -> lt b a = true -> False.
Proof. intros [H1 [H2 _]] a b Da Db E1 E2. assert (lt a a = true) by (apply (H2 a b a); assumption). rewrite H1 in H; [discriminate|assumption]. Qed.

(** Two orders one after the other. *)
Definition lex {A B : Type} (l1 : A -> A -> bool) (l2 : B -> B -> bool) (x y : A * B) : bool :=
  if l1 (fst x) (fst y) then true else if l1 (fst y) (fst x) then false else l2 (snd x) (snd y).

Lemma lex_total {A B : Type} (l1 : A -> A -> bool) (l2 : B -> B -> bool) :
  strict_total any l1 -> strict_total any l2 -> strict_total any (lex l1 l2).
Proof.
  intros [[I1 [T1 W1]] E1] [[I2 [T2 W2]] E2]. unfold any in *. apply total_intro; unfold any, lex.
  - intros a _. rewrite (I1 _ I). apply (I2 _ I).
  - intros [a1 a2] [b1 b2] [c1 c2] _ _ _. cbn [fst snd].
    destruct (l1 a1 b1) eqn:X1.
    + intros _. destruct (l1 b1 c1) eqn:X2; [intros _; rewrite (T1 a1 b1 c1 I I I X1 X2); reflexivity|].
      destruct (l1 c1 b1) eqn:X3; [discriminate|]. assert (b1 = c1) by (apply E1; auto). subst c1. rewrite X1. reflexivity.
    + destruct (l1 b1 a1) eqn:X2; [discriminate|]. assert (a1 = b1) by (apply E1; auto). subst b1. intros H1.
      destruct (l1 a1 c1); [reflexivity|]. destruct (l1 c1 a1); [discriminate|]. intros H2. apply (T2 a2 b2 c2 I I I H1 H2).
  - intros [a1 a2] [b1 b2] _ _. cbn [fst snd]. destruct (l1 a1 b1) eqn:X1; destruct (l1 b1 a1) eqn:X2; try discriminate. intros H1 H2.
    f_equal; [apply E1; auto|apply E2; auto].
Qed.

Lemma total_ext {A : Type} (D : A -> Prop) (l1 l2 : A -> A -> bool) : (forall a b, l1 a b = l2 a b) -> strict_total D l1 -> strict_total D l2.
Proof.
  intros H [[H1 [H2 H3]] H4]. apply total_intro; intros *; rewrite <- !H; [apply H1|apply H2|apply H4].
Qed.

Lemma total_map {A B : Type} (f : A -> B) (l : B -> B -> bool) : (forall a b, f a = f b -> a = b) ->
  strict_total any l -> strict_total any (fun a b => l (f a) (f b)).
Proof.
  intros Inj [[H1 [H2 H3]] H4]. apply total_intro; unfold any in *.
  - intros a _. auto.
  - intros a b c _ _ _. apply H2; exact I.
  - intros a b _ _ E1 E2. apply Inj, H4; auto.
Qed.

Lemma nat_total : strict_total any Nat.ltb.
Proof.
  apply total_intro; unfold any.
  - intros a _. apply Nat.ltb_irrefl.
  - intros a b c _ _ _. rewrite !Nat.ltb_lt. lia.
  - intros a b _ _. rewrite !Nat.ltb_ge. lia.
Qed.

Lemma pair_total : strict_total any pairLt.
Proof.
  apply (total_ext any (lex Nat.ltb Nat.ltb)); [|apply lex_total; apply nat_total].
  intros a b. unfold lex, pairLt. destruct (fst a <? fst b); [reflexivity|]. destruct (fst b <? fst a); reflexivity.
Qed.

Section CompareTotal.
  Context {T : Type} (lt : T -> T -> bool) (Ht : strict_total any lt).

  Lemma elems_cases : forall l1 l2, compareElems lt l1 l2 = (-1)%Z \/ compareElems lt l1 l2 = 0%Z \/ compareElems lt l1 l2 = 1%Z.
  Proof. induction l1 as [|x l1 IH]; intros [|y l2]; cbn; auto. destruct (lt x y); auto. destruct (lt y x); auto. Qed.

  Lemma elems_opp : forall l1 l2, compareElems lt l2 l1 = (- compareElems lt l1 l2)%Z.
  Proof.
    induction l1 as [|x l1 IH]; intros [|y l2]; cbn [compareElems]; try reflexivity.
    destruct (lt x y) eqn:E1; destruct (lt y x) eqn:E2; [|reflexivity|reflexivity|apply IH].
    exfalso. apply (asym any lt (proj1 Ht) x y I I E1 E2).
  Qed.

  Lemma elems_zero : forall l1 l2, List.length l1 = List.length l2 -> (compareElems lt l1 l2 = 0%Z <-> l1 = l2).
  Proof.
    induction l1 as [|x l1 IH]; intros [|y l2] HL; try discriminate; cbn [compareElems].
    - split; auto.
    - injection HL as HL. destruct (lt x y) eqn:E1; [|destruct (lt y x) eqn:E2].
      + split; [discriminate|]. intros E. injection E as -> ->. rewrite (proj1 (proj1 Ht)) in E1 by exact I. discriminate.
      + split; [discriminate|]. intros E. injection E as -> ->. rewrite (proj1 (proj1 Ht)) in E2 by exact I. discriminate.
      + assert (x = y) by (apply (proj2 Ht); auto; exact I). subst y. rewrite (IH l2 HL). split; [intros ->; reflexivity|intros E; injection E; auto].
  Qed.

  Lemma elems_trans : forall l1 l2 l3, List.length l1 = List.length l2 -> List.length l2 = List.length l3 ->
    compareElems lt l1 l2 = (-1)%Z -> compareElems lt l2 l3 = (-1)%Z -> compareElems lt l1 l3 = (-1)%Z.
  Proof.
    destruct Ht as [[I1 [T1 W1]] E1]. unfold any in *.
    induction l1 as [|x l1 IH]; intros [|y l2] [|z l3] L1 L2; try discriminate; cbn [compareElems].
    injection L1 as L1. injection L2 as L2.
    destruct (lt x y) eqn:X1.
    - intros _. destruct (lt y z) eqn:X2.
      + intros _. rewrite (T1 x y z I I I X1 X2). reflexivity.
      + destruct (lt z y) eqn:X3; [discriminate|]. assert (y = z) by (apply E1; auto). subst. rewrite X1. reflexivity.
    - destruct (lt y x) eqn:X2; [discriminate|]. assert (x = y) by (apply E1; auto). subst y.
      destruct (lt x z) eqn:X3; [reflexivity|]. destruct (lt z x) eqn:X4; [discriminate|]. apply IH; assumption.
  Qed.

  Lemma compare_cases s1 s2 : compare lt s1 s2 = (-1)%Z \/ compare lt s1 s2 = 0%Z \/ compare lt s1 s2 = 1%Z.
  Proof. unfold compare. destruct (_ <? _); auto. destruct (_ <? _); auto. apply elems_cases. Qed.

  Lemma compare_opp s1 s2 : compare lt s2 s1 = (- compare lt s1 s2)%Z.
  Proof.
    unfold compare. destruct (Nat.ltb_spec (List.length s1) (List.length s2)); destruct (Nat.ltb_spec (List.length s2) (List.length s1)); try lia; try reflexivity.
    apply elems_opp.
  Qed.

  Lemma compare_zero s1 s2 : compare lt s1 s2 = 0%Z <-> s1 = s2.
  Proof.
    unfold compare. destruct (Nat.ltb_spec (List.length s1) (List.length s2)).
    - split; [discriminate|]. intros ->. lia.
    - destruct (Nat.ltb_spec (List.length s2) (List.length s1)); [split; [discriminate|]; intros ->; lia|]. apply elems_zero. lia.
  Qed.

  Lemma setComparator_total : strict_total any (setComparator lt).
  Proof.
    apply total_intro; unfold any, setComparator.
    - intros a _. rewrite (proj2 (compare_zero a a) eq_refl). reflexivity.
    - intros a b c _ _ _. rewrite !Z.eqb_eq. unfold compare.
      destruct (Nat.ltb_spec (List.length a) (List.length b)); destruct (Nat.ltb_spec (List.length b) (List.length a)); try lia;
      destruct (Nat.ltb_spec (List.length b) (List.length c)); destruct (Nat.ltb_spec (List.length c) (List.length b)); try lia;
      destruct (Nat.ltb_spec (List.length a) (List.length c)); destruct (Nat.ltb_spec (List.length c) (List.length a)); try lia.
      apply elems_trans; lia.
    - intros a b _ _ E1 E2. apply compare_zero. rewrite (compare_opp a b) in E2. apply Z.eqb_neq in E1. apply Z.eqb_neq in E2.
      destruct (compare_cases a b) as [C|[C|C]]; [congruence|assumption|]. rewrite C in E2. cbn in E2. congruence.
  Qed.

  (** "if (c != 0) return c == -1;" before another comparison is the lexicographic
      order. *)
  Lemma compare_first {B : Type} (l2 : B -> B -> bool) s1 s2 b1 b2 :
    (if negb (compare lt s1 s2 =? 0)%Z then (compare lt s1 s2 =? -1)%Z else l2 b1 b2) = lex (setComparator lt) l2 (s1, b1) (s2, b2).
  Proof.
    unfold lex, setComparator. cbn [fst snd]. rewrite (compare_opp s1 s2).
    destruct (compare_cases s1 s2) as [C|[C|C]]; rewrite C; reflexivity.
  Qed.
End CompareTotal.

(** ** Theorems *)

(** compare: the three answers mean lower, the same set, and greater. *)
Theorem C31_compare_of_sets (s1 s2 : list nat) :
  (compare Nat.ltb s1 s2 = 0%Z <-> s1 = s2) /\
  compare Nat.ltb s2 s1 = (- compare Nat.ltb s1 s2)%Z /\
  (compare Nat.ltb s1 s2 = (-1)%Z \/ compare Nat.ltb s1 s2 = 0%Z \/ compare Nat.ltb s1 s2 = 1%Z).
Proof.
  split; [apply compare_zero, nat_total|]. split; [apply compare_opp, nat_total|apply compare_cases].
Qed.
Print Assumptions C31_compare_of_sets.

(** The keys of the maps built with sets, rows with iterations, and contributions
    to Jacobians and Hessians. *)
Theorem C31_keys_of_loops :
  strict_total any (setComparator Nat.ltb) /\ strict_total any (setComparator pairLt) /\
  strict_total any rowItersLt /\ strict_total any jacobianContribLt /\ strict_total any hessianContribLt.
Proof.
  assert (S1 := setComparator_total Nat.ltb nat_total). assert (S2 := setComparator_total pairLt pair_total).
  split; [assumption|]. split; [assumption|]. split; [|split].
  - apply (total_ext any (lex Nat.ltb (setComparator Nat.ltb))); [|apply lex_total; [apply nat_total|assumption]]. reflexivity.
  - set (none := fun _ _ : unit => false).
    assert (N : strict_total any none) by (apply total_intro; unfold none; [reflexivity|discriminate|intros [] []; reflexivity]).
    apply (total_ext any (fun a b => lex (setComparator Nat.ltb) (lex (setComparator Nat.ltb) none) (fst a, (snd a, tt)) (fst b, (snd b, tt)))).
    + intros [a1 a2] [b1 b2]. unfold jacobianContribLt. cbn [fst snd].
      rewrite (compare_first Nat.ltb nat_total (fun x y : unit => false) a2 b2 tt tt).
      exact (eq_sym (compare_first Nat.ltb nat_total (lex (setComparator Nat.ltb) none) a1 b1 (a2, tt) (b2, tt))).
    + apply total_map; [intros [? ?] [? ?] E; cbn in E; congruence|]. apply lex_total; [assumption|]. apply lex_total; assumption.
  - set (none := fun _ _ : unit => false).
    assert (N : strict_total any none) by (apply total_intro; unfold none; [reflexivity|discriminate|intros [] []; reflexivity]).
    set (L := lex (setComparator pairLt) (lex (setComparator pairLt) (lex (setComparator pairLt) (lex (setComparator pairLt) (lex (setComparator pairLt) (lex (setComparator pairLt) none)))))).
    set (f := fun h => (indexedIndexed h, (indexedNonIndexed h, (indexedTemp h, (nonIndexedIndexed h, (nonIndexedNonIndexed h, (tempIndexed h, tt))))))).
    apply (total_ext any (fun a b => L (f a) (f b))).
    + intros [a1 a2 a3 a4 a5 a6] [b1 b2 b3 b4 b5 b6]. unfold hessianContribLt, L, f. cbn [indexedIndexed indexedNonIndexed indexedTemp nonIndexedIndexed nonIndexedNonIndexed tempIndexed].
      rewrite (compare_first pairLt pair_total (fun x y : unit => false) a6 b6 tt tt).
      rewrite (compare_first pairLt pair_total _ a5 b5 (a6, tt) (b6, tt)).
      rewrite (compare_first pairLt pair_total _ a4 b4 (a5, (a6, tt)) (b5, (b6, tt))).
      rewrite (compare_first pairLt pair_total _ a3 b3 (a4, (a5, (a6, tt))) (b4, (b5, (b6, tt)))).
      rewrite (compare_first pairLt pair_total _ a2 b2 (a3, (a4, (a5, (a6, tt)))) (b3, (b4, (b5, (b6, tt))))).
      rewrite (compare_first pairLt pair_total _ a1 b1 (a2, (a3, (a4, (a5, (a6, tt))))) (b2, (b3, (b4, (b5, (b6, tt)))))). reflexivity.
    + apply total_map; [intros [] [] E; unfold f in E; cbn in E; congruence|]. unfold L. repeat (apply lex_total; [assumption|]). assumption.
Qed.
Print Assumptions C31_keys_of_loops.

(** Pairs of equations: the pair does not depend on the order of its arguments and
    the order is total on the indices. *)
Theorem C31_equation_pairs :
  (forall e1 e2, equationPair e1 e2 = equationPair e2 e1) /\ strict_total any equationPairLt.
Proof.
  split; [|exact pair_total]. intros e1 e2. unfold equationPair.
  destruct (Nat.ltb_spec e1 e2); destruct (Nat.ltb_spec e2 e1); try lia; [reflexivity|reflexivity|]. assert (e1 = e2) by lia. subst. reflexivity.
Qed.
Print Assumptions C31_equation_pairs.

(** Independent variables of loops; [None] is a variable which is not used in an
    iteration. *)
Theorem C31_independents n :
  strict_total any independentNodeLt /\
  strict_total (fun l => List.length l = n) indexedIndepLt.
Proof.
  split.
  - apply total_intro; unfold any, independentNodeLt.
    + intros [a|] _; [apply Nat.ltb_irrefl|reflexivity].
    + intros [a|] [b|] [c|] _ _ _; rewrite ?Nat.ltb_lt; try lia; try discriminate; auto.
    + intros [a|] [b|] _ _; rewrite ?Nat.ltb_ge; try discriminate; [intros; f_equal; lia|reflexivity].
  - apply total_intro.
    + intros a _. clear n. induction a as [|[x|] a IH]; cbn [indexedIndepLt]; [reflexivity| |assumption]. rewrite Nat.ltb_irrefl. assumption.
    + revert n. intros n a. revert n. induction a as [|x a IH]; intros n [|y b] [|z c] Ha Hb Hc; cbn [List.length] in *; try lia; [discriminate|].
      cbn [indexedIndepLt]. destruct x as [x|], y as [y|], z as [z|]; try discriminate; try (intros; reflexivity).
      * destruct (Nat.ltb_spec x y); destruct (Nat.ltb_spec y z); destruct (Nat.ltb_spec x z); try lia; try (intros; reflexivity);
        destruct (Nat.ltb_spec y x); destruct (Nat.ltb_spec z y); destruct (Nat.ltb_spec z x); try lia; try discriminate; try (intros; reflexivity).
        apply (IH (pred n)); lia.
      * apply (IH (pred n)); lia.
    + intros a. revert n. induction a as [|x a IH]; intros n [|y b] Ha Hb; cbn [List.length] in *; try lia; [reflexivity|].
      cbn [indexedIndepLt]. destruct x as [x|], y as [y|]; try discriminate.
      * destruct (Nat.ltb_spec x y); destruct (Nat.ltb_spec y x); try lia; try discriminate. intros H1 H2.
        f_equal; [f_equal; lia|]. apply (IH (pred n)); [lia|lia|assumption|assumption].
      * intros H1 H2. f_equal. apply (IH (pred n)); [lia|lia|assumption|assumption].
Qed.
Print Assumptions C31_independents.

(** Variables of a DAE: a strict weak order on orders, and a total one on the
    records of different variables. *)
Theorem C31_dae_variables :
  strict_weak any vnodesByOrder /\ strict_weak any variablesByOrder /\
  (forall i j, variablesByOrder i j = false -> variablesByOrder j i = false -> vo_index i = vo_index j).
Proof.
  split; [|split].
  - unfold strict_weak, any, vnodesByOrder. split; [intros; apply Nat.ltb_irrefl|]. split; intros *; intros _ _ _; rewrite ?Nat.ltb_lt, ?Nat.ltb_ge; lia.
  - unfold strict_weak, any, variablesByOrder. split; [|split].
    + intros a _. rewrite Z.ltb_irrefl, eqb_reflx. apply Nat.ltb_irrefl.
    + intros a b c _ _ _.
      destruct (Z.ltb_spec (vo_order b) (vo_order a)); destruct (Z.ltb_spec (vo_order a) (vo_order b)); try lia;
      destruct (Z.ltb_spec (vo_order c) (vo_order b)); destruct (Z.ltb_spec (vo_order b) (vo_order c)); try lia;
      destruct (Z.ltb_spec (vo_order c) (vo_order a)); destruct (Z.ltb_spec (vo_order a) (vo_order c)); try lia; try (intros; congruence).
      destruct (vo_hasDerivatives a), (vo_hasDerivatives b), (vo_hasDerivatives c); cbn [Bool.eqb]; try (intros; congruence); rewrite ?Nat.ltb_lt; try lia.
    + intros a b c _ _ _.
      destruct (Z.ltb_spec (vo_order b) (vo_order a)); destruct (Z.ltb_spec (vo_order a) (vo_order b)); try lia; try discriminate;
      destruct (Z.ltb_spec (vo_order c) (vo_order b)); destruct (Z.ltb_spec (vo_order b) (vo_order c)); try lia; try discriminate;
      destruct (Z.ltb_spec (vo_order c) (vo_order a)); destruct (Z.ltb_spec (vo_order a) (vo_order c)); try lia; try (intros; congruence).
      destruct (vo_hasDerivatives a), (vo_hasDerivatives b), (vo_hasDerivatives c); cbn [Bool.eqb]; try (intros; congruence); rewrite ?Nat.ltb_ge; try lia; try (intros; discriminate); auto.
  - intros i j. unfold variablesByOrder.
    destruct (Z.ltb_spec (vo_order j) (vo_order i)); destruct (Z.ltb_spec (vo_order i) (vo_order j)); try lia; try discriminate.
    destruct (vo_hasDerivatives i), (vo_hasDerivatives j); cbn [Bool.eqb]; try (intros; congruence); rewrite ?Nat.ltb_ge; try lia.
Qed.
Print Assumptions C31_dae_variables.

(** The order of the equations of a DAE is not one: an algebraic equation which is
    not a derivative comes before itself, and equations derived twice are not
    ordered by a strict weak order. *)
Theorem C31_dae_equations_refuted :
  (exists i, eo_differential i = false /\ eo_index0 i = eo_index i /\ equationsByOrder i i = true) /\
  ~ strict_weak any equationsByOrder.
Proof.
  split.
  - exists (mkEO 0 0 false (-1)). split; [reflexivity|]. split; reflexivity.
  - intros [H _]. specialize (H (mkEO 0 0 false (-1)) I). discriminate.
Qed.
Print Assumptions C31_dae_equations_refuted.

(** More generally it orders every algebraic equation which is not a derivative
    before itself, so std::sort is used outside its requirements whenever a DAE
    has one. *)
Theorem C31_dae_equations_always_refuted i :
  eo_differential i = false -> eo_index i = eo_index0 i -> equationsByOrder i i = true.
Proof. intros H1 H2. unfold equationsByOrder. rewrite H1, H2, !Nat.eqb_refl. reflexivity. Qed.
Print Assumptions C31_dae_equations_always_refuted.

(** What the order lacks is only this case: on the other algebraic equations and
    the differential ones it is irreflexive. *)
Theorem C31_dae_equations_irreflexive_partial i :
  eo_differential i = true \/ eo_index i <> eo_index0 i -> equationsByOrder i i = false.
Proof.
  intros H. unfold equationsByOrder. destruct (eo_differential i); [apply Z.ltb_irrefl|]. destruct H as [H|H]; [discriminate|].
  rewrite Nat.eqb_refl. apply Nat.eqb_neq, H.
Qed.
Print Assumptions C31_dae_equations_irreflexive_partial.

(** The order of the elements of paths is not asymmetric. *)
Theorem C31_path_nodes_refuted :
  exists a b, pathNodeLt a b = true /\ pathNodeLt b a = true.
Proof. exists (0, 1), (1, 0). split; reflexivity. Qed.
Print Assumptions C31_path_nodes_refuted.

(** Elements which are not ordered are still the same one, so looking up in a map
    with one key is right. *)
Theorem C31_path_nodes_single_key_partial a b :
  pathNodeLt a b = false -> pathNodeLt b a = false -> a = b.
Proof.
  destruct a as [a1 a2], b as [b1 b2]. unfold pathNodeLt. cbn [fst snd]. rewrite !orb_false_iff, !Nat.ltb_ge. intros. f_equal; lia.
Qed.
Print Assumptions C31_path_nodes_single_key_partial.

Example C31_case :
  rowItersLt (2, [1; 5]) (2, [1; 7]) = true /\ rowItersLt (2, [9]) (2, [1; 7]) = true /\
  jacobianContribLt ([1], [3]) ([1], [4]) = true /\ jacobianContribLt ([1; 2], []) ([5], [4]) = false /\
  indexedIndepLt [Some 1; None] [Some 1; Some 7] = false.
Proof. repeat split; reflexivity. Qed.

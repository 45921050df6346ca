(** * Directional derivatives of the generated models: the theorems (C53) *)
From Coq Require Import List Arith Bool Lia ZArith QArith Qcanon.
From Verif Require Import Pool_model Pool_proofs Assemble_model Assemble_proofs Assemble_thm Drivers_model Drivers_proofs.
Import ListNotations.
Local Open Scope nat_scope.

(** ** Specification *)

(** Whether the element (k, v) was requested. *)
Definition wanted (ks vs : list nat) (k v : nat) : bool := existsb (fun p => (fst p =? k) && (snd p =? v)) (combine ks vs).

(** What the directions 0, ..., nDir - 1 contribute to the output v: the requested elements of the directions whose seed
    is not zero, in the order of the directions. *)
Definition terms {V} (isz : V -> bool) (D : nat -> nat -> V -> V) (ks vs : list nat) (seedOf : nat -> option V) (nDir v : nat) : list V :=
  flat_map (fun k => match seedOf k with Some s => if negb (isz s) && wanted ks vs k v then [D k v s] else [] | None => [] end) (seq 0 nDir).

Definition sumOf {V} (add : V -> V -> V) (zero : V) (l : list V) : V := fold_left add l zero.

(** The outputs at the positions f(0), ..., f(nOut - 1) have the given values and the others are as before. *)
Definition outputs {V} (f : nat -> nat) (nOut : nat) (value : nat -> V) (out out' : list V) : Prop :=
  length out' = length out /\ (forall v, v < nOut -> nth_error out' (f v) = Some (value v)) /\
  (forall p, (forall v, v < nOut -> p <> f v) -> nth_error out' p = nth_error out p).

(** ** Proofs *)
Lemma wanted_els ks vs k v : wanted ks vs k v = existsb (Nat.eqb v) (elsOf k (combine ks vs)).
Proof.
  unfold wanted, elsOf. induction (combine ks vs) as [|[k0 v0] l IH]; [reflexivity|]. cbn [existsb filter fst snd]. destruct (k0 =? k) eqn:E.
  - cbn [map snd existsb andb]. rewrite IH. rewrite (Nat.eqb_sym v v0). reflexivity.
  - exact IH.
Qed.
Lemma terms_els {V} isz (D : nat -> nat -> V -> V) ks vs seedOf nDir v :
  terms isz D ks vs seedOf nDir v =
  flat_map (fun k => match seedOf k with Some s => if negb (isz s) && existsb (Nat.eqb v) (elsOf k (combine ks vs)) then [D k v s] else [] | None => [] end) (seq 0 nDir).
Proof. unfold terms. apply flat_map_ext. intros k. destruct (seedOf k); [|reflexivity]. rewrite wanted_els. reflexivity. Qed.

Lemma weights_ok {V} (isz : V -> bool) py is : (forall i, In i is -> i * 2 + 1 < length py) ->
  ((exists i p, In i is /\ nth_error py (i * 2) = Some p /\ isz p = false) /\ weights V isz py is = Some None) \/
  ((forall i p, In i is -> nth_error py (i * 2) = Some p -> isz p = true) /\
   exists w, weights V isz py is = Some (Some w) /\ map Some w = map (fun i => nth_error py (i * 2 + 1)) is).
Proof.
  induction is as [|i is IH]; intros B; cbn [weights map].
  - right. split; [intros i p []|]. exists []. split; reflexivity.
  - pose proof (B i (or_introl eq_refl)) as Bi. destruct (nth_error py (i * 2)) as [p0|] eqn:E0; [|apply nth_error_None in E0; lia].
    destruct (isz p0) eqn:Z.
    + destruct (nth_error py (i * 2 + 1)) as [p1|] eqn:E1; [|apply nth_error_None in E1; lia].
      destruct (IH (fun j I => B j (or_intror I))) as [[[j [p [I [E F]]]] W]|[A [w [W M]]]].
      * left. split; [exists j, p; split; [right; exact I|split; assumption]|]. rewrite W. reflexivity.
      * right. split; [intros j p [<-|I] E; [congruence|exact (A j p I E)]|]. rewrite W. exists (p1 :: w). split; [reflexivity|]. cbn [map]. rewrite M. reflexivity.
    + left. split; [|reflexivity]. exists i, p0. split; [left; reflexivity|split; assumption].
Qed.

Lemma els_length ks vs k nOut : distinct ks vs -> (forall v, In v vs -> v < nOut) -> length (elsOf k (combine ks vs)) <= nOut.
Proof.
  intros Hd B. pose proof (elsOf_NoDup k _ (distinct_NoDup _ _ Hd)) as N.
  assert (H : incl (elsOf k (combine ks vs)) (seq 0 nOut)).
  { intros v I. apply elsOf_In in I. destruct I as [e [_ E]]. apply in_seq. pose proof (B v (nth_error_In _ _ E)). lia. }
  pose proof (NoDup_incl_length N H) as L. rewrite seq_length in L. exact L.
Qed.

Lemma sparseLoop_ok {V} (zero : V) add D atomics ks vs nOut : distinct ks vs -> (forall v, In v vs -> v < nOut) ->
  forall idx seeds comp out, length seeds = length idx -> (forall k, In k idx -> exists v, wanted ks vs k v = true) ->
  nOut <= length comp -> nOut <= length out ->
  exists out', sparseLoop V zero add D atomics ks vs idx seeds comp out = MDone out' /\ length out' = length out /\
    (forall v o, nth_error out v = Some o -> nth_error out' v =
       Some (fold_left add (flat_map (fun p => if wanted ks vs (fst p) v then [D (fst p) v (snd p)] else []) (combine idx seeds)) o)) /\
    (forall p, nOut <= p -> nth_error out' p = nth_error out p).
Proof.
  intros Hd B. induction idx as [|k idx IH]; intros seeds comp out L W Lc Lo; cbn [sparseLoop].
  - exists out. split; [reflexivity|]. split; [reflexivity|]. split; [intros v o E; exact E|reflexivity].
  - destruct seeds as [|s seeds]; [discriminate|]. cbn [length] in L. injection L as L. rewrite sparsityOf_ok.
    destruct (W k (or_introl eq_refl)) as [v0 W0]. rewrite wanted_els in W0.
    assert (N : elsOf k (combine ks vs) <> []) by (intros X; rewrite X in W0; discriminate).
    assert (Bo : forall v, In v (elsOf k (combine ks vs)) -> v < nOut).
    { intros v I. apply elsOf_In in I. destruct I as [e [_ E]]. exact (B v (nth_error_In _ _ E)). }
    pose proof (els_length ks vs k nOut Hd B) as Le.
    destruct (oneDirection V zero add D atomics ks vs Hd (fun i => i) (fun a b H => H) k s comp out N) as [comp' [out1 [E1 [E2 [L1 [E3 [L2 [P Q]]]]]]]].
    + lia.
    + intros v I. specialize (Bo v I). lia.
    + rewrite E1, E2, E3. destruct (IH seeds comp' out1 L (fun k' I => W k' (or_intror I))) as [out' [A [L3 [P' Q']]]]; [lia|lia|].
      exists out'. split; [exact A|]. split; [congruence|]. split.
      * intros v o E. rewrite (P' v _ (P v o E)). cbn [combine flat_map fst snd]. rewrite fold_left_app. rewrite wanted_els. reflexivity.
      * intros p Hp. rewrite Q' by exact Hp. apply Q. intros v I ->. specialize (Bo v I). lia.
Qed.

(** ** The theorems *)

(** ForwardOne: for any model, any requested elements (without repetitions), any point, any direction, any previous
    content of the arrays and any failure of realloc: either memory was missing, and nothing was written, or the second
    element of each equation is the sum of the requested elements times the seeds and nothing else changes. *)
Theorem C53_forward_one_partial : forall V (zero : V) add isz D atomics rows cols ok garbage n m tx ty,
  (forall p, ~ repeated rows cols p) -> (forall i, In i rows -> i < m) ->
  2 * n <= length tx -> 2 * m <= length ty -> length cols <= length garbage ->
  (exists ty', forwardOne V zero add isz D atomics cols rows ok true garbage n m tx ty = Ret Done ty' /\
     outputs (fun i => 2 * i + 1) m (fun i => sumOf add zero (terms isz D cols rows (fun j => nth_error tx (2 * j + 1)) n i)) ty ty') \/
  ((exists r, ok r = false) /\ forwardOne V zero add isz D atomics cols rows ok true garbage n m tx ty = Ret NoMemory ty).
Proof.
  intros V zero add isz D atomics rows cols ok garbage n m tx ty Hd B L1 L2 Lg. unfold forwardOne.
  destruct (directional_ok V zero add isz D atomics cols rows) with (f := fun i => i * 2 + 1) (ok := ok) (garbage := garbage) (nDir := n) (nOut := m)
    (seedOf := fun j => nth_error tx (j * 2 + 1)) (out := ty) as [[out' [E [L [P Q]]]]|[O E]].
  - intros p X. apply (Hd p). apply repeated_flip. exact X.
  - intros a b H. lia.
  - exact B.
  - intros k Hk. apply nth_error_Some. lia.
  - intros v Hv. lia.
  - exact Lg.
  - left. exists out'. split; [exact E|]. split; [exact L|]. split.
    + intros v Hv. replace (2 * v + 1) with (v * 2 + 1) by lia. rewrite (P v Hv). unfold sumOf. rewrite terms_els. do 2 f_equal.
      apply flat_map_ext. intros k. replace (2 * k + 1) with (k * 2 + 1) by lia. reflexivity.
    + intros p N. apply Q. intros v Hv X. apply (N v Hv). lia.
  - right. split; assumption.
Qed.
Print Assumptions C53_forward_one_partial.

(** ReverseOne. *)
Theorem C53_reverse_one_partial : forall V (zero : V) add isz D atomics rows cols ok garbage n m px py,
  (forall p, ~ repeated rows cols p) -> (forall j, In j cols -> j < n) ->
  n <= length px -> m <= length py -> length rows <= length garbage ->
  (exists px', reverseOne V zero add isz D atomics rows cols ok true garbage n m px py = Ret Done px' /\
     outputs (fun j => j) n (fun j => sumOf add zero (terms isz D rows cols (fun i => nth_error py i) m j)) px px') \/
  ((exists r, ok r = false) /\ reverseOne V zero add isz D atomics rows cols ok true garbage n m px py = Ret NoMemory px).
Proof.
  intros V zero add isz D atomics rows cols ok garbage n m px py Hd B L1 L2 Lg. unfold reverseOne.
  destruct (directional_ok V zero add isz D atomics rows cols) with (f := fun j : nat => j) (ok := ok) (garbage := garbage) (nDir := m) (nOut := n)
    (seedOf := fun i => nth_error py i) (out := px) as [[out' [E [L [P Q]]]]|[O E]].
  - exact Hd.
  - intros a b H. exact H.
  - exact B.
  - intros k Hk. apply nth_error_Some. lia.
  - intros v Hv. lia.
  - exact Lg.
  - left. exists out'. split; [exact E|]. split; [exact L|]. split; [|exact Q]. intros v Hv. rewrite (P v Hv). unfold sumOf. rewrite terms_els. reflexivity.
  - right. split; assumption.
Qed.
Print Assumptions C53_reverse_one_partial.

(** ReverseTwo.  A weight of first order different from zero makes it fail before anything is written; with no memory
    the outputs are zero; otherwise the first element of each variable is the sum, and nothing else changes.  When all
    the weights are zero the result is zero and the functions of the directions are not called. *)
Theorem C53_reverse_two_partial : forall V (zero : V) add isz D atomics rows cols ok garbage n m tx px py,
  (forall p, ~ repeated rows cols p) -> (forall j, In j cols -> j < n) ->
  2 * n <= length tx -> 2 * n <= length px -> 2 * m <= length py -> length rows <= length garbage ->
  let result := reverseTwo V zero add isz D atomics rows cols ok true garbage n m tx px py in
  ((exists i p, i < m /\ nth_error py (2 * i) = Some p /\ isz p = false) /\ result = Ret Failed px) \/
  ((forall i p, i < m -> nth_error py (2 * i) = Some p -> isz p = true) /\
   exists w, length w = m /\ (forall i, i < m -> nth_error w i = nth_error py (2 * i + 1)) /\
   ((exists px', result = Ret Done px' /\
      outputs (fun j => 2 * j) n (fun j => if forallb isz w then zero else
        sumOf add zero (terms isz (D w) rows cols (fun j => nth_error tx (2 * j + 1)) n j)) px px') \/
    ((exists r, ok r = false) /\ exists px', result = Ret NoMemory px' /\ outputs (fun j => 2 * j) n (fun _ => zero) px px'))).
Proof.
  intros V zero add isz D atomics rows cols ok garbage n m tx px py Hd B L1 L2 L3 Lg result. unfold result, reverseTwo.
  destruct (weights_ok isz py (seq 0 m)) as [[[i [p [I [E Z]]]] W]|[A [w [W M]]]]; [intros i I; apply in_seq in I; lia| |]; rewrite W.
  - left. split; [|reflexivity]. exists i, p. apply in_seq in I. replace (2 * i) with (i * 2) by lia. split; [lia|split; assumption].
  - right. split; [intros i p Hi E; apply (A i p); [apply in_seq; lia|replace (i * 2) with (2 * i) by lia; exact E]|].
    assert (Lw : length w = m) by (apply (f_equal (@length _)) in M; rewrite !map_length, seq_length in M; exact M).
    exists w. split; [exact Lw|]. split.
    { intros i Hi. apply (f_equal (fun l => nth_error l i)) in M. rewrite !nth_error_map in M. rewrite (nth_error_nth' (seq 0 m) 0) in M by (rewrite seq_length; exact Hi).
      rewrite seq_nth in M by exact Hi. cbn [option_map] in M. replace (2 * i + 1) with ((0 + i) * 2 + 1) by lia.
      destruct (nth_error w i) as [x|] eqn:X; [|apply nth_error_None in X; lia]. cbn [option_map] in M. congruence. }
    assert (Inj : forall a b, a * 2 = b * 2 -> a = b) by (intros; lia).
    destruct (clear_ok V zero (fun j => j * 2) Inj (seq 0 n) px) as [px1 [E1 [Lp [P1 Q1]]]]; [intros i I; apply in_seq in I; lia|]. rewrite E1.
    assert (O1 : outputs (fun j => 2 * j) n (fun _ => zero) px px1).
    { split; [exact Lp|]. split; [intros v Hv; replace (2 * v) with (v * 2) by lia; apply P1; apply in_seq; lia|]. intros p N. apply Q1. intros i I X. apply in_seq in I. apply (N i); lia. }
    destruct (forallb isz w) eqn:Fw; [left; exists px1; split; [reflexivity|exact O1]|].
    destruct (scan_ok V isz rows cols ok (fun j => nth_error tx (j * 2 + 1)) (seq 0 n)) with (pos := @nil nat) (nnzMax := 0) as [[mx [E L]]|[O E]];
      [intros j I; apply in_seq in I; apply nth_error_Some; lia|intros j []| |].
    + left. rewrite E. cbn [app] in L |- *.
      destruct (afterLoop V zero add isz (D w) atomics rows cols Hd (fun j => j * 2) Inj (fun j => nth_error tx (j * 2 + 1)) n n _ garbage mx px1 B eq_refl L Lg) as [px' [A' [L' [P Q]]]].
      { intros v Hv. apply P1. apply in_seq. lia. }
      exists px'. split.
      * destruct (filter _ (seq 0 n)); exact A'.
      * split; [congruence|]. split.
        -- intros v Hv. replace (2 * v) with (v * 2) by lia. rewrite (P v Hv). unfold sumOf. rewrite terms_els. do 2 f_equal.
           apply flat_map_ext. intros k. replace (2 * k + 1) with (k * 2 + 1) by lia. reflexivity.
        -- intros p N. rewrite Q; [|intros v Hv X; apply (N v Hv); lia]. apply Q1. intros i I X. apply in_seq in I. apply (N i); lia.
    + right. split; [exact O|]. exists px1. rewrite E. split; [reflexivity|exact O1].
Qed.
Print Assumptions C53_reverse_two_partial.

(** The methods with sparse arguments (ForwardOne, ReverseOne and ReverseTwo of the model class), for any list of
    directions, in any order and with repetitions, as long as each one has requested elements. *)
Theorem C53_sparse_arguments_partial : forall V (zero : V) add D atomics ks vs nOut comp idx seeds out,
  (forall p, ~ repeated ks vs p) -> (forall v, In v vs -> v < nOut) -> nOut <= length out -> nOut <= length comp ->
  length seeds = length idx -> (forall k, In k idx -> exists v, wanted ks vs k v = true) ->
  exists out', sparseMethod V zero add D atomics ks vs nOut comp idx seeds out = MDone out' /\
    outputs (fun v => v) nOut
      (fun v => sumOf add zero (flat_map (fun p => if wanted ks vs (fst p) v then [D (fst p) v (snd p)] else []) (combine idx seeds))) out out'.
Proof.
  intros V zero add D atomics ks vs nOut comp idx seeds out Hd B Lo Lc Ls W. unfold sparseMethod.
  replace (nOut <=? length out) with true by (symmetry; apply Nat.leb_le; exact Lo). cbn [negb].
  destruct (clear_ok V zero (fun i => i) (fun a b H => H) (seq 0 nOut) out) as [out1 [E1 [L1 [P1 Q1]]]]; [intros i I; apply in_seq in I; lia|]. rewrite E1.
  destruct (sparseLoop_ok zero add D atomics ks vs nOut Hd B idx seeds (firstn nOut comp) out1 Ls W) as [out' [A [L [P Q]]]]; [rewrite firstn_length; lia|lia|].
  exists out'. split; [exact A|]. split; [congruence|]. split.
  - intros v Hv. apply P. apply P1. apply in_seq. lia.
  - intros p N. assert (nOut <= p). { destruct (le_lt_dec nOut p) as [H|H]; [exact H|]. exfalso. exact (N p H eq_refl). }
    rewrite Q by exact H. apply Q1. intros i I X. apply in_seq in I. lia.
Qed.
Print Assumptions C53_sparse_arguments_partial.

(** ** The products, in exact arithmetic *)
Definition qzero (x : Qc) : bool := Qc_eq_bool x 0.

(** The product of a row of a matrix and a vector of n elements. *)
Definition product (n : nat) (a s : nat -> Qc) : Qc := fold_left Qcplus (map (fun k => (a k * s k)%Qc) (seq 0 n)) 0%Qc.

Lemma terms_product ks vs (A : nat -> nat -> Qc) seedOf (s : nat -> Qc) v js :
  (forall k, wanted ks vs k v = false -> A k v = 0%Qc) -> (forall k, In k js -> seedOf k = Some (s k)) -> forall acc,
  fold_left Qcplus (flat_map (fun k => match seedOf k with Some x => if negb (qzero x) && wanted ks vs k v then [(A k v * x)%Qc] else [] | None => [] end) js) acc =
  fold_left Qcplus (map (fun k => (A k v * s k)%Qc) js) acc.
Proof.
  intros Z. induction js as [|k js IH]; intros S acc; [reflexivity|]. cbn [flat_map map fold_left]. rewrite (S k (or_introl eq_refl)).
  rewrite fold_left_app. rewrite IH by (intros k' I; apply S; right; exact I). f_equal.
  destruct (qzero (s k)) eqn:E; cbn [negb andb fold_left].
  - apply Qc_eq_bool_correct in E. rewrite E, Qcmult_0_r. symmetry. apply Qcplus_0_r.
  - destruct (wanted ks vs k v) eqn:W; cbn [fold_left]; [reflexivity|]. rewrite (Z k W), Qcmult_0_l. symmetry. apply Qcplus_0_r.
Qed.

(** When all the elements of the Jacobian which are not zero are requested, ForwardOne gives the product of the Jacobian
    by tx1 and ReverseOne the product of py by the Jacobian. *)
Theorem C53_jacobian_products_partial : forall (J : nat -> nat -> Qc) atomics rows cols garbage n m tx ty px py,
  (forall p, ~ repeated rows cols p) -> (forall i, In i rows -> i < m) -> (forall j, In j cols -> j < n) ->
  (forall i j, J i j <> 0%Qc -> exists p, requested rows cols p i j) ->
  2 * n <= length tx -> 2 * m <= length ty -> n <= length px -> m <= length py -> length rows <= length garbage -> length cols <= length garbage ->
  (exists ty', forwardOne Qc 0%Qc Qcplus qzero (fun j i s => (J i j * s)%Qc) atomics cols rows (fun _ => true) true garbage n m tx ty = Ret Done ty' /\
     outputs (fun i => 2 * i + 1) m (fun i => product n (fun j => J i j) (fun j => nth (2 * j + 1) tx 0%Qc)) ty ty') /\
  (exists px', reverseOne Qc 0%Qc Qcplus qzero (fun i j s => (J i j * s)%Qc) atomics rows cols (fun _ => true) true garbage n m px py = Ret Done px' /\
     outputs (fun j => j) n (fun j => product m (fun i => J i j) (fun i => nth i py 0%Qc)) px px').
Proof.
  intros J atomics rows cols garbage n m tx ty px py Hd B1 B2 HJ L1 L2 L3 L4 G1 G2.
  assert (W : forall i j, wanted cols rows j i = false -> J i j = 0%Qc).
  { intros i j X. destruct (Qc_eq_dec (J i j) 0%Qc) as [E|E]; [exact E|]. exfalso. destruct (HJ i j E) as [p [P1 P2]]. apply not_true_iff_false in X. apply X.
    unfold wanted. apply existsb_exists. exists (j, i). cbn [fst snd]. rewrite !Nat.eqb_refl. split; [|reflexivity].
    apply (nth_error_In _ p). apply combine_nth_iff. split; assumption. }
  assert (W' : forall i j, wanted rows cols i j = false -> J i j = 0%Qc).
  { intros i j X. destruct (Qc_eq_dec (J i j) 0%Qc) as [E|E]; [exact E|]. exfalso. destruct (HJ i j E) as [p [P1 P2]]. apply not_true_iff_false in X. apply X.
    unfold wanted. apply existsb_exists. exists (i, j). cbn [fst snd]. rewrite !Nat.eqb_refl. split; [|reflexivity].
    apply (nth_error_In _ p). apply combine_nth_iff. split; assumption. }
  split.
  - destruct (C53_forward_one_partial Qc 0%Qc Qcplus qzero (fun j i s => (J i j * s)%Qc) atomics rows cols (fun _ => true) garbage n m tx ty Hd B1 L1 L2 G2)
      as [[ty' [E [L [P Q]]]]|[[r O] _]]; [|discriminate].
    exists ty'. split; [exact E|]. split; [exact L|]. split; [|exact Q]. intros i Hi. rewrite (P i Hi). f_equal. unfold sumOf, terms, product.
    apply (terms_product cols rows (fun j i => J i j)); [intros k X; exact (W i k X)|]. intros k I. apply in_seq in I. apply nth_error_nth'. lia.
  - destruct (C53_reverse_one_partial Qc 0%Qc Qcplus qzero (fun i j s => (J i j * s)%Qc) atomics rows cols (fun _ => true) garbage n m px py Hd B2 L3 L4 G1)
      as [[px' [E [L [P Q]]]]|[[r O] _]]; [|discriminate].
    exists px'. split; [exact E|]. split; [exact L|]. split; [|exact Q]. intros j Hj. rewrite (P j Hj). f_equal. unfold sumOf, terms, product.
    apply (terms_product rows cols (fun i j => J i j)); [intros k X; exact (W' k j X)|]. intros k I. apply in_seq in I. apply nth_error_nth'. lia.
Qed.
Print Assumptions C53_jacobian_products_partial.

(** When all the elements of the Hessians which are not zero are requested, ReverseTwo gives the product of the Hessian of
    the sum of the equations with the weights py[2 i + 1] by tx1. *)
Theorem C53_hessian_product_partial : forall (H : nat -> nat -> nat -> Qc) atomics rows cols garbage n m tx px py,
  (forall p, ~ repeated rows cols p) -> (forall j, In j cols -> j < n) ->
  (forall i j k, H i j k <> 0%Qc -> exists p, requested rows cols p j k) ->
  2 * n <= length tx -> 2 * n <= length px -> 2 * m <= length py -> length rows <= length garbage ->
  (forall i, i < m -> nth (2 * i) py 0%Qc = 0%Qc) ->
  exists px', reverseTwo Qc 0%Qc Qcplus qzero (fun w j k s => (product m (fun i => H i j k) (fun i => nth i w 0%Qc) * s)%Qc) atomics rows cols
                (fun _ => true) true garbage n m tx px py = Ret Done px' /\
    outputs (fun k => 2 * k) n (fun k => product n (fun j => product m (fun i => H i j k) (fun i => nth (2 * i + 1) py 0%Qc))
                                                   (fun j => nth (2 * j + 1) tx 0%Qc)) px px'.
Proof.
  intros H atomics rows cols garbage n m tx px py Hd B HH L1 L2 L3 Lg Z.
  destruct (C53_reverse_two_partial Qc 0%Qc Qcplus qzero (fun w j k s => (product m (fun i => H i j k) (fun i => nth i w 0%Qc) * s)%Qc) atomics rows cols
    (fun _ => true) garbage n m tx px py Hd B L1 L2 L3 Lg) as [[[i [p [Hi [E F]]]] _]|[_ [w [Lw [Pw [[px' [E [L [P Q]]]]|[[r O] _]]]]]]]; [| |discriminate].
  - exfalso. pose proof (Z i Hi) as Zi. rewrite (nth_error_nth py (2 * i) 0%Qc E) in Zi. subst p. discriminate.
  - exists px'. split; [exact E|]. split; [exact L|]. split; [|exact Q]. intros k Hk. rewrite (P k Hk). f_equal.
    assert (Ew : forall i, i < m -> nth i w 0%Qc = nth (2 * i + 1) py 0%Qc).
    { intros i Hi. destruct (nth_error w i) as [x|] eqn:X; [|apply nth_error_None in X; lia]. rewrite (nth_error_nth _ _ _ X). rewrite (Pw i Hi) in X. symmetry. apply nth_error_nth. exact X. }
    assert (Ep : forall j k, product m (fun i => H i j k) (fun i => nth i w 0%Qc) = product m (fun i => H i j k) (fun i => nth (2 * i + 1) py 0%Qc)).
    { intros j k'. unfold product. f_equal. apply map_ext_in. intros i I. apply in_seq in I. rewrite Ew by lia. reflexivity. }
    assert (E0 : forall (g : nat -> Qc) l, (forall x, In x l -> g x = 0%Qc) -> fold_left Qcplus (map g l) 0%Qc = 0%Qc).
    { intros g. induction l as [|x l IHl]; intros Hg; [reflexivity|]. cbn [map fold_left]. rewrite (Hg x (or_introl eq_refl)), Qcplus_0_l. apply IHl. intros y I. apply Hg. right. exact I. }
    destruct (forallb qzero w) eqn:Fw.
    + symmetry. unfold product at 1. apply E0. intros j _. rewrite <- Ep. unfold product. rewrite E0; [apply Qcmult_0_l|].
      intros i I. apply in_seq in I. rewrite forallb_forall in Fw. assert (Iw : In (nth i w 0%Qc) w) by (apply nth_In; lia). apply Fw in Iw.
      apply Qc_eq_bool_correct in Iw. rewrite Iw. apply Qcmult_0_r.
    + transitivity (product n (fun j => product m (fun i => H i j k) (fun i => nth i w 0%Qc)) (fun j => nth (2 * j + 1) tx 0%Qc)).
      * unfold sumOf, terms. unfold product at 2.
        apply (terms_product rows cols (fun j k => product m (fun i => H i j k) (fun i => nth i w 0%Qc))).
        -- intros j X. unfold product. apply E0. intros i _. destruct (Qc_eq_dec (H i j k) 0%Qc) as [Y|Y]; [rewrite Y; apply Qcmult_0_l|]. exfalso.
           destruct (HH i j k Y) as [p [P1 P2]]. apply not_true_iff_false in X. apply X. unfold wanted. apply existsb_exists. exists (j, k). cbn [fst snd]. rewrite !Nat.eqb_refl.
           split; [|reflexivity]. apply (nth_error_In _ p). apply combine_nth_iff. split; assumption.
        -- intros j I. apply in_seq in I. apply nth_error_nth'. lia.
      * unfold product at 1 3. f_equal. apply map_ext. intros j. rewrite Ep. reflexivity.
Qed.
Print Assumptions C53_hessian_product_partial.

(** Non-vacuity: two equations and three variables, the elements in no special order and a variable (the second one)
    without elements, whose seed is not zero. *)
Example C53_case :
  let J := fun i j => nth j (nth i [[2; 0; 3]; [0; 0; 5]]%Z []) 0%Z in
  forwardOne Z 0%Z Z.add (Z.eqb 0) (fun j i s => (J i j * s)%Z) false [2; 0; 2] [1; 0; 0] (fun _ => true) true (repeat (-9)%Z 3) 3 2
    [7; 10; 8; 20; 9; 30]%Z [1; 1; 1; 1]%Z = Ret Done [1; 110; 1; 150]%Z /\
  reverseOne Z 0%Z Z.add (Z.eqb 0) (fun i j s => (J i j * s)%Z) true [1; 0; 0] [2; 0; 2] (fun _ => true) true (repeat (-9)%Z 3) 3 2
    [1; 1; 1]%Z [10; 20]%Z = Ret Done [20; 0; 130]%Z /\
  reverseTwo Z 0%Z Z.add (Z.eqb 0) (fun w j k s => (nth 0 w 0 * J j k * s)%Z) true [1; 0; 0] [2; 0; 2] (fun _ => true) true (repeat (-9)%Z 3) 3 1
    [7; 10; 8; 20; 9; 30]%Z [1; 1; 1; 1; 1; 1]%Z [0; 4]%Z = Ret Done [80; 1; 0; 1; 520; 1]%Z /\
  sparseMethod Z 0%Z Z.add (fun j i s => (J i j * s)%Z) false [2; 0; 2] [1; 0; 0] 2 (repeat (-9)%Z 2) [2; 0; 2] [1; 10; 1]%Z [1; 1]%Z
    = MDone [26; 10]%Z /\
  forwardOne Z 0%Z Z.add (Z.eqb 0) (fun j i s => (J i j * s)%Z) false [2; 0; 2] [1; 0; 0] (fun r => r =? 0) true (repeat (-9)%Z 3) 3 2
    [7; 10; 8; 20; 9; 30]%Z [1; 1; 1; 1]%Z = Ret NoMemory [1; 1; 1; 1]%Z.
Proof. vm_compute. repeat split; reflexivity. Qed.

(** ** What does not hold *)

(** An element which is requested twice is added twice by the models with atomic functions: the product is wrong. *)
Theorem C53_repeated_element_is_added_twice_refuted :
  exists (J : nat -> nat -> Qc) rows cols garbage tx ty ty',
    (forall i j, J i j <> 0%Qc -> exists p, requested rows cols p i j) /\ (forall i, In i rows -> i < 1) /\ (forall j, In j cols -> j < 1) /\
    length cols <= length garbage /\ length tx = 2 /\ length ty = 2 /\
    forwardOne Qc 0%Qc Qcplus qzero (fun j i s => (J i j * s)%Qc) true cols rows (fun _ => true) true garbage 1 1 tx ty = Ret Done ty' /\
    nth_error ty' 1 <> Some (product 1 (fun j => J 0 j) (fun j => nth (2 * j + 1) tx 0%Qc)).
Proof.
  exists (fun i j => if (i =? 0) && (j =? 0) then 1%Qc else 0%Qc), [0; 0], [0; 0], [0%Qc; 0%Qc], [0%Qc; 1%Qc], [0%Qc; 0%Qc], [0%Qc; (0 + 1 + 1)%Qc].
  split; [intros [|i] [|j] X; cbn [Nat.eqb andb] in X; try congruence; exists 0; split; reflexivity|]. split; [intros i [<-|[<-|[]]]; lia|]. split; [intros i [<-|[<-|[]]]; lia|].
  split; [cbn [length]; lia|]. split; [reflexivity|]. split; [reflexivity|]. split; [vm_compute; reflexivity|]. vm_compute. discriminate.
Qed.
Print Assumptions C53_repeated_element_is_added_twice_refuted.

(** The malloc of the array compressed is not tested: when it fails, every call with a direction which has elements and
    a seed writes through a null pointer. *)
Theorem C53_no_memory_is_not_detected : forall V (zero : V) add isz D atomics rows cols garbage n m tx ty,
  (forall p, ~ repeated rows cols p) -> 2 * n <= length tx -> 2 * m <= length ty ->
  (exists p i j s, requested rows cols p i j /\ j < n /\ nth_error tx (2 * j + 1) = Some s /\ isz s = false) ->
  forwardOne V zero add isz D atomics cols rows (fun _ => true) false garbage n m tx ty = Undef.
Proof.
  intros V zero add isz D atomics rows cols garbage n m tx ty Hd L1 L2 [p [i [j [s [[R1 R2] [Hj [Es Zs]]]]]]]. unfold forwardOne, directional.
  destruct (scan_ok V isz cols rows (fun _ => true) (fun j => nth_error tx (j * 2 + 1)) (seq 0 n)) with (pos := @nil nat) (nnzMax := 0) as [[mx [E L]]|[[r O] E]];
    [intros k I; apply in_seq in I; apply nth_error_Some; lia|intros k []| |discriminate].
  rewrite E. cbn [app] in L |- *.
  assert (Inj : forall a b, a * 2 + 1 = b * 2 + 1 -> a = b) by (intros; lia).
  destruct (clear_ok V zero (fun i => i * 2 + 1) Inj (seq 0 m) ty) as [ty1 [E1 _]]; [intros i0 I; apply in_seq in I; lia|]. rewrite E1.
  set (sel := filter (selected V isz cols rows (fun j => nth_error tx (j * 2 + 1))) (seq 0 n)) in *.
  assert (Ij : In j sel).
  { unfold sel. apply filter_In. split; [apply in_seq; lia|]. unfold selected. replace (j * 2 + 1) with (2 * j + 1) by lia. rewrite Es, Zs. cbn [negb andb].
    assert (X : In i (elsOf j (combine cols rows))) by (apply elsOf_In; exists p; split; assumption).
    destruct (elsOf j (combine cols rows)); [destruct X|reflexivity]. }
  assert (Hs : forall k, In k sel -> nth_error tx (k * 2 + 1) <> None /\ elsOf k (combine cols rows) <> []).
  { intros k I. unfold sel in I. apply filter_In in I. destruct I as [_ I]. unfold selected in I. destruct (nth_error tx (k * 2 + 1)); [|discriminate]. split; [discriminate|].
    apply andb_true_iff in I. destruct I as [_ I]. intros X. rewrite X in I. discriminate. }
  destruct sel as [|k r]; [destruct Ij|]. cbn [eachDirection]. destruct (Hs k (or_introl eq_refl)) as [N1 N2]. destruct (nth_error tx (k * 2 + 1)) as [x|]; [|congruence].
  rewrite sparsityOf_ok. rewrite direction_ok; [reflexivity| |exact N2]. intros q X. apply (Hd q). apply repeated_flip. exact X.
Qed.
Print Assumptions C53_no_memory_is_not_detected.

Theorem C53_no_memory_refuted : exists (J : nat -> nat -> Qc) rows cols garbage tx ty,
  (forall p, ~ repeated rows cols p) /\ (forall i, In i rows -> i < 1) /\ (forall j, In j cols -> j < 1) /\ length tx = 2 /\ length ty = 2 /\
  forwardOne Qc 0%Qc Qcplus qzero (fun j i s => (J i j * s)%Qc) false cols rows (fun _ => true) false garbage 1 1 tx ty = Undef.
Proof.
  exists (fun _ _ => 1%Qc), [0], [0], [0%Qc], [0%Qc; 1%Qc], [0%Qc; 0%Qc].
  assert (Hd : forall p, ~ repeated [0] [0] p).
  { intros p [q [i [j [Hq [_ [R _]]]]]]. destruct p as [|p]; [lia|]. destruct p; discriminate R. }
  split; [exact Hd|]. split; [intros i [<-|[]]; lia|]. split; [intros i [<-|[]]; lia|]. split; [reflexivity|]. split; [reflexivity|].
  apply C53_no_memory_is_not_detected; [exact Hd|cbn [length]; lia|cbn [length]; lia|]. exists 0, 0, 0, 1%Qc. repeat split; try reflexivity. lia.
Qed.
Print Assumptions C53_no_memory_refuted.

(** The methods with sparse arguments throw for a direction without elements, whose contribution is zero and which the
    methods with dense arguments accept. *)
Theorem C53_sparse_arguments_throw : forall V (zero : V) add D atomics ks vs nOut comp k s out,
  (forall v, wanted ks vs k v = false) -> nOut <= length out ->
  sparseMethod V zero add D atomics ks vs nOut comp [k] [s] out = MThrow.
Proof.
  intros V zero add D atomics ks vs nOut comp k s out W Lo. unfold sparseMethod. replace (nOut <=? length out) with true by (symmetry; apply Nat.leb_le; exact Lo). cbn [negb].
  destruct (clear_ok V zero (fun i => i) (fun a b H => H) (seq 0 nOut) out) as [out1 [E1 _]]; [intros i I; apply in_seq in I; lia|]. rewrite E1.
  cbn [sparseLoop]. rewrite sparsityOf_ok. rewrite direction_none; [reflexivity|].
  destruct (elsOf k (combine ks vs)) as [|v r] eqn:E; [reflexivity|]. specialize (W v). rewrite wanted_els, E in W. cbn [existsb] in W. rewrite Nat.eqb_refl in W. discriminate.
Qed.
Print Assumptions C53_sparse_arguments_throw.

(** The same call with dense arguments works. *)
Theorem C53_sparse_arguments_throw_refuted : exists (J : nat -> nat -> Z),
  methodForwardOne Z 0%Z Z.add (Z.eqb 0) (fun j i s => (J i j * s)%Z) false [2; 0; 2] [1; 0; 0] (fun _ => true) true (repeat (-9)%Z 3) 3 2
    [7; 0; 8; 20; 9; 0]%Z [1; 1; 1; 1]%Z = MDone [1; 0; 1; 0]%Z /\
  sparseMethod Z 0%Z Z.add (fun j i s => (J i j * s)%Z) false [2; 0; 2] [1; 0; 0] 2 (repeat (-9)%Z 2) [1] [20]%Z [1; 1]%Z = MThrow.
Proof. exists (fun i j => nth j (nth i [[2; 0; 3]; [0; 0; 5]]%Z []) 0%Z). vm_compute. split; reflexivity. Qed.
Print Assumptions C53_sparse_arguments_throw_refuted.

(** The methods with sparse arguments write out of the bounds of their array when elements are repeated: more elements
    are requested in a direction than there are outputs. *)
Theorem C53_sparse_arguments_overflow : forall V (zero : V) add D ks vs nOut comp k s out,
  nOut < length (elsOf k (combine ks vs)) -> nOut <= length out -> length comp = nOut ->
  sparseMethod V zero add D true ks vs nOut comp [k] [s] out = MUndef.
Proof.
  intros V zero add D ks vs nOut comp k s out L Lo Lc. unfold sparseMethod. replace (nOut <=? length out) with true by (symmetry; apply Nat.leb_le; exact Lo). cbn [negb].
  destruct (clear_ok V zero (fun i => i) (fun a b H => H) (seq 0 nOut) out) as [out1 [E1 _]]; [intros i I; apply in_seq in I; lia|]. rewrite E1.
  cbn [sparseLoop]. rewrite sparsityOf_ok.
  assert (N : elsOf k (combine ks vs) <> []) by (intros X; rewrite X in L; cbn [length] in L; lia).
  destruct (groupOf_spec (combine ks vs)) as [S1 S2]. rewrite <- group_groupOf in S1, S2.
  assert (I : In (k, elsOf k (combine ks vs)) (group ks vs)) by (apply S2; split; [reflexivity|exact N]).
  unfold direction, functions. rewrite (find_key _ _ _ S1 _ I). unfold outAtomics. cbn [snd].
  assert (X : forall (l : list V) c p, length c < p + length l -> l <> [] -> writeAll V c p l = None).
  { induction l as [|x l IH]; intros c p H H0; [congruence|]. cbn [writeAll]. destruct (p <? length c) eqn:C; [|reflexivity]. apply Nat.ltb_lt in C.
    cbn [length] in H. apply IH; [rewrite setNth_length; lia|]. intros ->. cbn [length] in H. lia. }
  rewrite X; [reflexivity| |].
  - rewrite map_length, firstn_length. lia.
  - intros Y. apply map_eq_nil in Y. exact (N Y).
Qed.
Print Assumptions C53_sparse_arguments_overflow.

Theorem C53_sparse_arguments_overflow_refuted : exists (D : nat -> nat -> Z -> Z) ks vs comp k s out,
  (forall v, In v vs -> v < 1) /\ length out = 1 /\ length comp = 1 /\ (exists v, wanted ks vs k v = true) /\
  sparseMethod Z 0%Z Z.add D true ks vs 1 comp [k] [s] out = MUndef.
Proof.
  exists (fun _ _ s => s), [0; 0], [0; 0], [0%Z], 0, 1%Z, [0%Z]. split; [intros v [<-|[<-|[]]]; lia|]. split; [reflexivity|]. split; [reflexivity|]. split; [exists 0; reflexivity|].
  apply C53_sparse_arguments_overflow; vm_compute; [constructor|constructor|reflexivity].
Qed.
Print Assumptions C53_sparse_arguments_overflow_refuted.

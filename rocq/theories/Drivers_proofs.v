(** * Directional derivatives of the generated models: proofs *)
From Coq Require Import List Arith Bool Lia.
From Verif Require Import Pool_model Pool_proofs Assemble_model Assemble_proofs Assemble_thm Drivers_model Sparsity_lists.
Import ListNotations.

(** ** The sparsity functions *)
Definition filledMap (m : list (nat * list nat)) : Prop := forall k els, In (k, els) m -> els <> [].

Definition maxStep (a : nat) (g : nat * list nat) : nat := match snd g with [] => a | _ => S (fst g) end.
Lemma maxIndex_fold m : maxIndex m = fold_left maxStep m 0.
Proof. reflexivity. Qed.

Lemma maxStep_spec m : filledMap m -> forall b a, inc b (map fst m) -> a <= b ->
  a <= fold_left maxStep m a /\ (forall k, In k (map fst m) -> k < fold_left maxStep m a).
Proof.
  induction m as [|[k els] m IH]; intros F b a H L; cbn [fold_left map]; [split; [lia|intros k []]|].
  cbn [map fst inc] in H. destruct H as [H1 H2].
  assert (E : maxStep a (k, els) = S k). { unfold maxStep. cbn [snd fst]. destruct els; [exfalso; exact (F k [] (or_introl eq_refl) eq_refl)|reflexivity]. }
  rewrite E. destruct (IH (fun k' e' I => F k' e' (or_intror I)) (S k) (S k) H2 (le_n _)) as [A B].
  split; [lia|]. intros k' [<-|I]; [cbn [fst]; lia|apply B; exact I].
Qed.

Definition nnzStep (a : list nat) (g : nat * list nat) : list nat := match snd g with [] => a | els => setNth a (fst g) (length els) end.
Lemma nnzsArray_fold m : nnzsArray m = fold_left nnzStep m (repeat 0 (maxIndex m)).
Proof. reflexivity. Qed.
Lemma nnzStep_spec m : filledMap m -> forall b a, inc b (map fst m) -> (forall k, In k (map fst m) -> k < length a) ->
  length (fold_left nnzStep m a) = length a /\
  (forall k els, In (k, els) m -> nth_error (fold_left nnzStep m a) k = Some (length els)) /\
  (forall k, ~ In k (map fst m) -> nth_error (fold_left nnzStep m a) k = nth_error a k).
Proof.
  induction m as [|[k els] m IH]; intros F b a H L; cbn [fold_left map]; [split; [reflexivity|split; [intros k els []|reflexivity]]|].
  cbn [map fst inc] in H. destruct H as [H1 H2].
  assert (E : nnzStep a (k, els) = setNth a k (length els)). { unfold nnzStep. cbn [snd fst]. destruct els; [exfalso; exact (F k [] (or_introl eq_refl) eq_refl)|reflexivity]. }
  rewrite E. destruct (IH (fun k' e' I => F k' e' (or_intror I)) (S k) (setNth a k (length els)) H2) as [A [B C]].
  { intros k' I. rewrite setNth_length. apply L. right. exact I. }
  rewrite setNth_length in A. split; [exact A|]. split.
  - intros k' els' [X|X].
    + injection X as <- <-. rewrite C; [|intro I; pose proof (inc_In _ _ _ H2 I); lia]. apply nth_set_eq. apply L. left. reflexivity.
    + apply B. exact X.
  - intros k' N. rewrite C; [|intro I; apply N; right; exact I]. apply nth_set_ne. intros ->. apply N. left. reflexivity.
Qed.

Lemma elsArray_spec cnt : forall i it p, inc i (map fst it) -> p < cnt ->
  nth_error (elsArray cnt i it) p = Some (if existsb (Nat.eqb (i + p)) (map fst it) then Some (i + p) else None).
Proof.
  induction cnt as [|cnt IH]; intros i it p H L; [lia|]. cbn [elsArray]. destruct it as [|[k els] it].
  - destruct p as [|p]; cbn [nth_error]; [reflexivity|]. rewrite IH; [|exact I|lia]. reflexivity.
  - cbn [map fst inc] in H. destruct H as [H1 H2]. destruct (i =? k) eqn:E.
    + apply Nat.eqb_eq in E. subst k. destruct p as [|p]; cbn [nth_error map fst existsb].
      * rewrite Nat.add_0_r, Nat.eqb_refl. reflexivity.
      * rewrite IH; [|exact H2|lia]. replace (i + S p =? i) with false by (symmetry; apply Nat.eqb_neq; lia). cbn [orb].
        replace (S i + p) with (i + S p) by lia. reflexivity.
    + apply Nat.eqb_neq in E. destruct p as [|p]; cbn [nth_error].
      * replace (existsb (Nat.eqb (i + 0)) (map fst ((k, els) :: it))) with false; [reflexivity|]. symmetry.
        apply not_true_iff_false. intros X. apply existsb_exists in X. destruct X as [y [Iy Ey]]. apply Nat.eqb_eq in Ey. rewrite Nat.add_0_r in Ey. subst y.
        destruct Iy as [Iy|Iy]; [cbn [fst] in Iy; congruence|]. pose proof (inc_In _ _ _ H2 Iy). lia.
      * rewrite IH; [|cbn [map fst inc]; split; [lia|exact H2]|lia]. replace (S i + p) with (i + S p) by lia. reflexivity.
Qed.

Lemma find_key (m : list (nat * list nat)) k : forall b, inc b (map fst m) -> forall els, In (k, els) m -> find (fun g : nat * list nat => fst g =? k) m = Some (k, els).
Proof.
  induction m as [|[k0 e0] m IH]; intros b H els I; [destruct I|]. cbn [map fst inc] in H. destruct H as [H1 H2]. cbn [find fst].
  destruct I as [X|X].
  - injection X as -> ->. rewrite Nat.eqb_refl. reflexivity.
  - pose proof (inc_In _ _ _ H2 (in_map fst _ _ X)) as Y. cbn [fst] in Y. replace (k0 =? k) with false by (symmetry; apply Nat.eqb_neq; lia). exact (IH _ H2 _ X).
Qed.

Lemma group_no_key ks vs k : elsOf k (combine ks vs) = [] -> ~ In k (map fst (group ks vs)).
Proof.
  intros E I. apply in_map_iff in I. destruct I as [[k' els] [X I]]. cbn [fst] in X. subst k'.
  destruct (groupOf_spec (combine ks vs)) as [_ S2]. apply S2 in I. destruct I as [-> N]. congruence.
Qed.

(** The elements of each direction are the requested ones, in the order of the request. *)
Lemma sparsityOf_ok ks vs k : sparsityOf ks vs k = Some (elsOf k (combine ks vs), length (elsOf k (combine ks vs))).
Proof.
  unfold sparsityOf, sparsity1D. destruct (groupOf_spec (combine ks vs)) as [S1 S2]. rewrite <- group_groupOf in S1, S2.
  assert (F : filledMap (group ks vs)) by (intros k' e' I; apply S2 in I; exact (proj2 I)).
  destruct (maxStep_spec _ F 0 0 S1 (le_n _)) as [_ M]. rewrite <- maxIndex_fold in M.
  destruct (nnzStep_spec _ F 0 (repeat 0 (maxIndex (group ks vs))) S1) as [_ [N1 N2]]; [intros k' I; rewrite repeat_length; apply M; exact I|].
  destruct (elsOf k (combine ks vs)) as [|v r] eqn:E.
  - pose proof (group_no_key _ _ _ E) as NK. destruct (0 <? maxIndex (group ks vs)); [|reflexivity].
    destruct (k <? maxIndex (group ks vs)) eqn:L; [|reflexivity]. apply Nat.ltb_lt in L.
    rewrite (elsArray_spec _ 0 _ k S1 L). rewrite Nat.add_0_l.
    replace (existsb (Nat.eqb k) (map fst (group ks vs))) with false.
    + rewrite nnzsArray_fold.
      rewrite (N2 k NK). rewrite nth_error_repeat by exact L. reflexivity.
    + symmetry. apply not_true_iff_false. intros X. apply existsb_exists in X. destruct X as [y [Iy Ey]]. apply Nat.eqb_eq in Ey. subst y. exact (NK Iy).
  - assert (I : In (k, v :: r) (group ks vs)) by (apply S2; split; [symmetry; exact E|discriminate]).
    pose proof (M k (in_map fst _ _ I)) as L. cbn [fst] in L. replace (0 <? maxIndex (group ks vs)) with true by (symmetry; apply Nat.ltb_lt; lia).
    replace (k <? maxIndex (group ks vs)) with true by (symmetry; apply Nat.ltb_lt; lia).
    rewrite (elsArray_spec _ 0 _ k S1 L). rewrite Nat.add_0_l.
    replace (existsb (Nat.eqb k) (map fst (group ks vs))) with true.
    + rewrite nnzsArray_fold.
      rewrite (N1 k _ I). unfold declared. rewrite (find_key _ _ _ S1 _ I). reflexivity.
    + symmetry. apply existsb_exists. exists k. split; [exact (in_map fst _ _ I)|apply Nat.eqb_refl].
Qed.

(** ** The functions of the directions *)
Definition distinct (ks vs : list nat) : Prop := forall p, ~ repeated ks vs p.

Lemma distinct_NoDup ks vs : distinct ks vs -> NoDup (combine ks vs).
Proof.
  intros D. apply NoDup_nth_error. intros i j L E. destruct (nth_error (combine ks vs) i) as [[k v]|] eqn:X; [|apply nth_error_None in X; lia].
  symmetry in E. apply combine_nth_iff in X. apply combine_nth_iff in E.
  destruct (lt_eq_lt_dec i j) as [[H|H]|H]; [|exact H|]; exfalso.
  - apply (D j). exists i, k, v. split; [exact H|]. split; [exact X|exact E].
  - apply (D i). exists j, k, v. split; [exact H|]. split; [exact E|exact X].
Qed.

Lemma elsOf_NoDup k ps : NoDup ps -> NoDup (elsOf k ps).
Proof.
  unfold elsOf. induction 1 as [|[k0 v0] ps N _ IH]; cbn [filter map]; [constructor|]. cbn [fst]. destruct (k0 =? k) eqn:E; [|exact IH].
  cbn [map snd]. constructor; [|exact IH]. intro I. apply N. apply in_map_iff in I. destruct I as [[k1 v1] [X Y]]. cbn [snd] in X. subst v1.
  apply filter_In in Y. destruct Y as [Y Z]. cbn [fst] in Z. apply Nat.eqb_eq in Z, E. subst. exact Y.
Qed.

Lemma direction_ok {V} (zero : V) D atomics ks vs k s : distinct ks vs -> elsOf k (combine ks vs) <> [] ->
  direction V zero D atomics ks vs k s = Some (map (fun v => D k v s) (elsOf k (combine ks vs))).
Proof.
  intros Di N. destruct (mkEntry_ok ks vs k _ eq_refl N) as [i [_ [O K]]]. destruct (functions_ok zero (fun k v => D k v s) atomics ks vs i O) as [out [E [L G]]].
  unfold direction. rewrite K in E, G. rewrite E. f_equal. destruct O as [A _]. rewrite K in A. rewrite A in L, G.
  pose proof (elsOf_NoDup k _ (distinct_NoDup _ _ Di)) as ND. apply nth_ext_local. intros e. destruct (nth_error (elsOf k (combine ks vs)) e) as [v|] eqn:X.
  - rewrite (map_nth_error _ _ _ X). apply G; [exact X|]. intros e' He Y. rewrite NoDup_nth_error in ND.
    assert (e = e'); [|lia]. apply ND; [apply nth_error_Some; congruence|congruence].
  - rewrite nth_error_map, X. cbn [option_map]. apply nth_error_None. apply nth_error_None in X. lia.
Qed.

Lemma direction_none {V} (zero : V) D atomics ks vs k s : elsOf k (combine ks vs) = [] -> direction V zero D atomics ks vs k s = None.
Proof.
  intros E. unfold direction, functions. destruct (find (fun g => fst g =? k) (group ks vs)) as [[k' els]|] eqn:X; [|reflexivity].
  exfalso. apply find_some in X. destruct X as [I Y]. cbn [fst] in Y. apply Nat.eqb_eq in Y. subst k'. exact (group_no_key _ _ _ E (in_map fst _ _ I)).
Qed.

(** ** The loops *)
Section Loops.
Variable V : Type.
Variable zero : V.
Variable add : V -> V -> V.
Variable isz : V -> bool.
Variable D : nat -> nat -> V -> V.
Variable atomics : bool.
Variables ks vs : list nat.
Hypothesis Hd : distinct ks vs.
Let els (k : nat) := elsOf k (combine ks vs).

Definition selected (seedOf : nat -> option V) (k : nat) : bool :=
  match seedOf k with Some s => negb (isz s) && negb (length (els k) =? 0) | None => false end.

Lemma scan_ok ok seedOf js : (forall j, In j js -> seedOf j <> None) -> forall pos nnzMax, (forall j, In j pos -> length (els j) <= nnzMax) ->
  (exists nnzMax', scan V isz ks vs ok seedOf js pos nnzMax = Scanned (pos ++ filter (selected seedOf) js) nnzMax' /\
     forall j, In j (pos ++ filter (selected seedOf) js) -> length (els j) <= nnzMax') \/
  ((exists i, ok i = false) /\ scan V isz ks vs ok seedOf js pos nnzMax = ScanNoMemory).
Proof.
  induction js as [|j js IH]; intros S pos nnzMax L; cbn [scan filter].
  - left. exists nnzMax. rewrite app_nil_r. split; [reflexivity|exact L].
  - assert (S' : forall j, In j js -> seedOf j <> None) by (intros j' I; apply S; right; exact I).
    destruct (seedOf j) as [s|] eqn:E; [|exfalso; exact (S j (or_introl eq_refl) E)].
    replace (selected seedOf j) with (negb (isz s) && negb (length (els j) =? 0)) by (unfold selected; rewrite E; reflexivity).
    destruct (isz s) eqn:Z; cbn [negb andb]; [apply IH; assumption|].
    rewrite sparsityOf_ok. fold (els j). destruct (nnzMax <? length (els j)) eqn:C.
    + apply Nat.ltb_lt in C. replace (length (els j) =? 0) with false by (symmetry; apply Nat.eqb_neq; lia). cbn [negb].
      destruct (ok (length pos)) eqn:O; [|right; split; [exists (length pos); exact O|reflexivity]].
      destruct (IH S' (pos ++ [j]) (length (els j))) as [[m [A B]]|B].
      * intros j' I. apply in_app_or in I. destruct I as [I|[<-|[]]]; [specialize (L j' I); lia|lia].
      * left. exists m. rewrite <- app_assoc in A, B. split; [exact A|exact B].
      * right. exact B.
    + apply Nat.ltb_ge in C. destruct (length (els j) =? 0) eqn:C0; cbn [negb]; [apply IH; assumption|].
      destruct (ok (length pos)) eqn:O; [|right; split; [exists (length pos); exact O|reflexivity]].
      destruct (IH S' (pos ++ [j]) nnzMax) as [[m [A B]]|B].
      * intros j' I. apply in_app_or in I. destruct I as [I|[<-|[]]]; [exact (L j' I)|lia].
      * left. exists m. rewrite <- app_assoc in A, B. split; [exact A|exact B].
      * right. exact B.
Qed.

Variable f : nat -> nat.
Hypothesis Hf : forall a b, f a = f b -> a = b.

Lemma clear_ok is : forall out, (forall i, In i is -> f i < length out) ->
  exists out', clear V zero f is out = Some out' /\ length out' = length out /\
    (forall i, In i is -> nth_error out' (f i) = Some zero) /\
    (forall p, (forall i, In i is -> p <> f i) -> nth_error out' p = nth_error out p).
Proof.
  induction is as [|i is IH]; intros out B; cbn [clear].
  - exists out. split; [reflexivity|]. split; [reflexivity|]. split; [intros i []|reflexivity].
  - replace (f i <? length out) with true by (symmetry; apply Nat.ltb_lt; apply B; left; reflexivity).
    destruct (IH (setNth out (f i) zero)) as [out' [E [L [P Q]]]]; [intros j I; rewrite setNth_length; apply B; right; exact I|].
    rewrite setNth_length in L. exists out'. split; [exact E|]. split; [exact L|]. split.
    + intros j [<-|I]; [|apply P; exact I]. destruct (in_dec Nat.eq_dec i is) as [I|I]; [apply P; exact I|].
      rewrite Q; [apply nth_set_eq; apply B; left; reflexivity|]. intros j Ij X. apply Hf in X. subst j. exact (I Ij).
    + intros p N. rewrite Q; [|intros j I; apply N; right; exact I]. apply nth_set_ne. intros X. apply (N i (or_introl eq_refl)). congruence.
Qed.

Lemma accumulate_ok (g : nat -> V) es : NoDup es -> forall rest out, (forall v, In v es -> f v < length out) ->
  exists out', accumulate V add f es (map g es ++ rest) out = Some out' /\ length out' = length out /\
    (forall v o, In v es -> nth_error out (f v) = Some o -> nth_error out' (f v) = Some (add o (g v))) /\
    (forall p, (forall v, In v es -> p <> f v) -> nth_error out' p = nth_error out p).
Proof.
  induction 1 as [|v es N ND IH]; intros rest out B; cbn [accumulate map app].
  - exists out. split; [reflexivity|]. split; [reflexivity|]. split; [intros v o []|reflexivity].
  - destruct (nth_error out (f v)) as [o|] eqn:E; [|apply nth_error_None in E; specialize (B v (or_introl eq_refl)); lia].
    destruct (IH rest (setNth out (f v) (add o (g v)))) as [out' [A [L [P Q]]]]; [intros w I; rewrite setNth_length; apply B; right; exact I|].
    rewrite setNth_length in L. exists out'. split; [exact A|]. split; [exact L|]. split.
    + intros w o' [<-|I] X.
      * rewrite Q; [|intros w I Y; apply Hf in Y; subst w; exact (N I)]. rewrite nth_set_eq by (apply B; left; reflexivity). congruence.
      * apply P; [exact I|]. rewrite nth_set_ne; [exact X|]. intros Y. apply Hf in Y. subst w. exact (N I).
    + intros p M. rewrite Q; [|intros w I; apply M; right; exact I]. apply nth_set_ne. intros X. apply (M v (or_introl eq_refl)). congruence.
Qed.

(** What the directions js add to the output v. *)
Definition contrib (seedOf : nat -> option V) (js : list nat) (v : nat) : list V :=
  flat_map (fun k => if existsb (Nat.eqb v) (els k) then match seedOf k with Some s => [D k v s] | None => [] end else []) js.

Lemma existsb_In v l : existsb (Nat.eqb v) l = true <-> In v l.
Proof.
  rewrite existsb_exists. split; [intros [x [I E]]; apply Nat.eqb_eq in E; subst x; exact I|intros I; exists v; split; [exact I|apply Nat.eqb_refl]].
Qed.

(** One direction. *)
Lemma oneDirection k s comp out : els k <> [] -> length (els k) <= length comp -> (forall v, In v (els k) -> f v < length out) ->
  exists comp' out', direction V zero D atomics ks vs k s = Some (map (fun v => D k v s) (els k)) /\
    writeAll V comp 0 (map (fun v => D k v s) (els k)) = Some comp' /\ length comp' = length comp /\
    accumulate V add f (firstn (length (els k)) (els k)) comp' out = Some out' /\ length out' = length out /\
    (forall v o, nth_error out (f v) = Some o ->
       nth_error out' (f v) = Some (fold_left add (if existsb (Nat.eqb v) (els k) then [D k v s] else []) o)) /\
    (forall p, (forall v, In v (els k) -> p <> f v) -> nth_error out' p = nth_error out p).
Proof.
  intros N L B. set (outs := map (fun v => D k v s) (els k)).
  assert (Lo : length outs <= length comp) by (unfold outs; rewrite map_length; exact L).
  pose proof (writeAll_prefix outs [] comp Lo) as W. cbn [app length] in W.
  destruct (accumulate_ok (fun v => D k v s) (els k) (elsOf_NoDup k _ (distinct_NoDup _ _ Hd)) (skipn (length outs) comp) out B) as [out' [A [L' [P Q]]]].
  exists (outs ++ skipn (length outs) comp), out'. split; [apply direction_ok; assumption|]. split; [exact W|]. split.
  { rewrite app_length, skipn_length. lia. }
  rewrite firstn_all. split; [exact A|]. split; [exact L'|]. split; [|exact Q].
  intros v o E. destruct (existsb (Nat.eqb v) (els k)) eqn:X.
  - apply existsb_In in X. cbn [fold_left]. apply P; assumption.
  - cbn [fold_left]. rewrite Q; [exact E|]. intros w I Y. apply Hf in Y. subst w. apply existsb_In in I. congruence.
Qed.

Lemma eachDirection_ok seedOf pos : (forall j, In j pos -> seedOf j <> None /\ els j <> []) ->
  forall comp out, (forall j, In j pos -> length (els j) <= length comp) -> (forall j v, In j pos -> In v (els j) -> f v < length out) ->
  exists out', eachDirection V zero add D atomics ks vs f seedOf pos (Some comp) out = Ret Done out' /\ length out' = length out /\
    (forall v o, nth_error out (f v) = Some o -> nth_error out' (f v) = Some (fold_left add (contrib seedOf pos v) o)) /\
    (forall p, (forall j v, In j pos -> In v (els j) -> p <> f v) -> nth_error out' p = nth_error out p).
Proof.
  induction pos as [|j pos IH]; intros S comp out L B; cbn [eachDirection].
  - exists out. split; [reflexivity|]. split; [reflexivity|]. split; [intros v o H; exact H|reflexivity].
  - destruct (S j (or_introl eq_refl)) as [S1 S2]. destruct (seedOf j) as [s|] eqn:E; [|congruence]. rewrite sparsityOf_ok. fold (els j).
    destruct (oneDirection j s comp out S2 (L j (or_introl eq_refl)) (fun v => B j v (or_introl eq_refl))) as [comp' [out1 [E1 [E2 [L1 [E3 [L2 [P Q]]]]]]]].
    rewrite E1, E2, E3. destruct (IH (fun j' I => S j' (or_intror I)) comp' out1) as [out' [A [L3 [P' Q']]]].
    + intros j' I. rewrite L1. apply L. right. exact I.
    + intros j' v I Iv. rewrite L2. apply (B j' v); [right; exact I|exact Iv].
    + exists out'. split; [exact A|]. split; [congruence|]. split.
      * intros v o X. rewrite (P' v _ (P v o X)). unfold contrib. cbn [flat_map]. rewrite E. rewrite fold_left_app. reflexivity.
      * intros p N. rewrite Q' by (intros j' v I; apply N; right; exact I). apply Q. intros v. apply N. left. reflexivity.
Qed.

Lemma contrib_selected seedOf js v :
  contrib seedOf (filter (selected seedOf) js) v =
  flat_map (fun k => match seedOf k with Some s => if negb (isz s) && existsb (Nat.eqb v) (els k) then [D k v s] else [] | None => [] end) js.
Proof.
  unfold contrib. induction js as [|j js IH]; cbn [filter flat_map]; [reflexivity|]. unfold selected at 1. destruct (seedOf j) as [s|] eqn:E; [|exact IH].
  destruct (isz s); cbn [negb andb]; [exact IH|]. destruct (els j) as [|w r] eqn:X.
  - cbn [length Nat.eqb negb existsb app]. exact IH.
  - cbn [length Nat.eqb negb flat_map]. rewrite E, X, IH. reflexivity.
Qed.

(** The outputs, all set to zero, after the loop over the selected directions. *)
Lemma afterLoop seedOf nDir nOut pos garbage nnzMax out :
  (forall v, In v vs -> v < nOut) -> pos = filter (selected seedOf) (seq 0 nDir) ->
  (forall j, In j pos -> length (els j) <= nnzMax) -> length ks <= length garbage -> (forall v, v < nOut -> nth_error out (f v) = Some zero) ->
  exists out', eachDirection V zero add D atomics ks vs f seedOf pos (Some (firstn nnzMax garbage)) out = Ret Done out' /\ length out' = length out /\
    (forall v, v < nOut -> nth_error out' (f v) = Some (fold_left add
       (flat_map (fun k => match seedOf k with Some s => if negb (isz s) && existsb (Nat.eqb v) (els k) then [D k v s] else [] | None => [] end) (seq 0 nDir)) zero)) /\
    (forall p, (forall v, v < nOut -> p <> f v) -> nth_error out' p = nth_error out p).
Proof.
  intros Bv Ep Lp Lg Z. assert (Bo : forall j v, In v (els j) -> v < nOut).
  { intros j v I. apply elsOf_In in I. destruct I as [e [_ E]]. apply Bv. eapply nth_error_In. exact E. }
  destruct (eachDirection_ok seedOf pos) with (comp := firstn nnzMax garbage) (out := out) as [out' [A [L [P Q]]]].
  - intros j I. rewrite Ep in I. apply filter_In in I. destruct I as [_ I]. unfold selected in I. destruct (seedOf j); [|discriminate]. split; [discriminate|].
    apply andb_true_iff in I. destruct I as [_ I]. intros X. rewrite X in I. discriminate.
  - intros j I. rewrite firstn_length. apply Nat.min_glb; [apply Lp; exact I|]. etransitivity; [|exact Lg].
    unfold els, elsOf. rewrite map_length. pose proof (combine_length ks vs) as Lcb.
    assert (length (filter (fun p => fst p =? j) (combine ks vs)) <= length (combine ks vs)); [|lia].
    clear. induction (combine ks vs) as [|a l IH]; cbn [filter length]; [lia|]. destruct (fst a =? j); cbn [length]; lia.
  - intros j v _ I. apply nth_error_Some. rewrite Z by (eapply Bo; exact I). discriminate.
  - exists out'. split; [exact A|]. split; [exact L|]. split.
    + intros v Hv. rewrite (P v zero (Z v Hv)). rewrite Ep, contrib_selected. reflexivity.
    + intros p N. apply Q. intros j v _ I. apply N. eapply Bo. exact I.
Qed.

Lemma directional_ok ok garbage nDir nOut seedOf out :
  (forall v, In v vs -> v < nOut) -> (forall k, k < nDir -> seedOf k <> None) -> (forall v, v < nOut -> f v < length out) -> length ks <= length garbage ->
  (exists out', directional V zero add isz D atomics ks vs ok true garbage f nDir nOut seedOf out = Ret Done out' /\ length out' = length out /\
    (forall v, v < nOut -> nth_error out' (f v) = Some (fold_left add
       (flat_map (fun k => match seedOf k with Some s => if negb (isz s) && existsb (Nat.eqb v) (els k) then [D k v s] else [] | None => [] end) (seq 0 nDir)) zero)) /\
    (forall p, (forall v, v < nOut -> p <> f v) -> nth_error out' p = nth_error out p)) \/
  ((exists i, ok i = false) /\ directional V zero add isz D atomics ks vs ok true garbage f nDir nOut seedOf out = Ret NoMemory out).
Proof.
  intros Bv S B Lg. unfold directional.
  destruct (scan_ok ok seedOf (seq 0 nDir)) with (pos := @nil nat) (nnzMax := 0) as [[m [E L]]|[O E]]; [intros j I; apply S; apply in_seq in I; lia|intros j []| |].
  - left. rewrite E. cbn [app] in L |- *.
    destruct (clear_ok (seq 0 nOut) out) as [out1 [E1 [L1 [P1 Q1]]]]; [intros i I; apply B; apply in_seq in I; lia|].
    rewrite E1. destruct (afterLoop seedOf nDir nOut _ garbage m out1 Bv eq_refl L Lg) as [out' [A [L2 [P Q]]]].
    { intros v Hv. apply P1. apply in_seq. lia. }
    exists out'. split.
    + destruct (filter (selected seedOf) (seq 0 nDir)); [exact A|exact A].
    + split; [congruence|]. split; [exact P|]. intros p N. rewrite Q by exact N. apply Q1. intros i I. apply N. apply in_seq in I. lia.
  - right. split; [exact O|]. rewrite E. reflexivity.
Qed.

End Loops.

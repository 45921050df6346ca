(** * The clones *)
From Coq Require Import List Arith Bool Lia.
From Verif Require Import LoopTape_model LoopTape_spec LoopTape_graph LoopTape_cmp LoopTape_find LoopTape_path.
Import ListNotations.
Local Open Scope nat_scope.

Section Clone.
Context {V : Type}.
Variable sem : opc -> list nat -> list V -> V.
Variable dflt : V.
Notation value := (valueOf sem dflt).

Definition ordered (h : graph V) : Prop := forall k n j, nth_error h k = Some n -> In (AN j) (n_args n) -> j < k.
Lemma value_app (h t : graph V) env (a : arg V) : (forall j, a = AN j -> j < List.length h) -> value (h ++ t) env a = value h env a.
Proof.
  intros H. unfold valueOf, argVal. destruct a as [v|j]; [reflexivity|]. unfold values. apply foldG_nth_app. apply H. reflexivity.
Qed.
Lemma value_last (h : graph V) env n : value (h ++ [n]) env (AN (List.length h)) = nodeVal sem dflt env (List.length h) n (values sem dflt h env).
Proof.
  unfold valueOf, argVal, values. rewrite foldG_app, app_nth2 by (rewrite foldG_len; lia). rewrite foldG_len, Nat.sub_diag. reflexivity.
Qed.

Variable g : graph V.
Hypothesis W : recordedGraph g.
Variable m : marks.
Variable l : indexes.
Variable count : nat.
Variable paired : nat -> nat -> nat -> Prop.
Hypothesis A0 : forall it k t, paired it k t -> it < count.
Hypothesis A1 : forall it k t, paired it k t -> k < List.length g /\ t < List.length g /\ isInv g k = false /\ shapeOf g (AN k) = shapeOf g (AN t).
Hypothesis A2 : forall it k t a k' t', paired it k t -> argAt g k a = Some (AN k') -> argAt g t a = Some (AN t') -> isInv g k' = false -> paired it k' t'.
Hypothesis A3 : forall it k t a j0 j, paired it k t -> argAt g k a = Some (AN j0) -> argAt g t a = Some (AN j) -> isInv g j0 = true -> isInv g j = true ->
  if hasPos l k a then idxAt l k a it = Some j else j = j0.
Hypothesis A4 : forall it k t x, paired it k t -> marked m k = false -> value g x (AN t) = value g x (AN k).

(** The inputs of the tape. *)
Definition src (it : nat) (x : nat -> V) (c : clones V) (env : nat -> V) : Prop :=
  (forall o k i, In (o, k, i) (c_idx c) -> env i = match nth it o None with Some j => x (indexOf g j) | None => dflt end) /\
  (forall j k i, In (j, k, i) (c_non c) -> env i = x (indexOf g j)) /\
  (forall k i, In (k, i) (c_tmp c) -> env i = value g x (AN k)).
Definition okVal (it : nat) (x : nat -> V) (k : nat) (v : V) : Prop := forall t, paired it k t -> v = value g x (AN t).
Definition okArg (it : nat) (x : nat -> V) (k a : nat) (v : V) : Prop :=
  forall t, paired it k t -> exists z, argAt g t a = Some z /\ v = value g x z.

Record cinv (c : clones V) : Prop := mkCI {
  ci_ord : ordered (c_g c);
  ci_idx : forall o k i, In (o, k, i) (c_idx c) -> nth_error (c_g c) k = Some (mkN OInv [i] []);
  ci_non : forall j k i, In (j, k, i) (c_non c) -> nth_error (c_g c) k = Some (mkN OInv [i] []);
  ci_lt : forall i, In i (map snd (c_idx c) ++ map snd (c_non c) ++ map snd (c_tmp c)) -> i < c_n c;
  ci_nd : NoDup (map snd (c_idx c) ++ map snd (c_non c) ++ map snd (c_tmp c));
  ci_id : forall k kc, In (k, kc) (c_id c) -> kc < List.length (c_g c) /\ forall it x env, src it x c env -> okVal it x k (value (c_g c) env (AN kc))
}.
Definition cext (c c' : clones V) : Prop :=
  (exists h, c_g c' = c_g c ++ h) /\ incl (c_idx c) (c_idx c') /\ incl (c_non c) (c_non c') /\ incl (c_tmp c) (c_tmp c').
Lemma cext_refl c : cext c c.
Proof. split; [exists []; rewrite app_nil_r; reflexivity|]. split; [apply incl_refl|]. split; apply incl_refl. Qed.
Lemma cext_trans a b c : cext a b -> cext b c -> cext a c.
Proof.
  intros [[h1 E1] [X1 [Y1 Z1]]] [[h2 E2] [X2 [Y2 Z2]]]. split; [exists (h1 ++ h2); rewrite E2, E1, app_assoc; reflexivity|].
  split; [apply (incl_tran X1 X2)|]. split; [apply (incl_tran Y1 Y2)|apply (incl_tran Z1 Z2)].
Qed.
Lemma src_ext it x c c' env : cext c c' -> src it x c' env -> src it x c env.
Proof.
  intros [_ [X [Y Z]]] [S1 [S2 S3]]. split; [intros o k i H; apply (S1 o k i), X, H|]. split; [intros j k i H; apply (S2 j k i), Y, H|intros k i H; apply S3, Z, H].
Qed.
Lemma cext_len c c' : cext c c' -> List.length (c_g c) <= List.length (c_g c').
Proof. intros [[h ->] _]. rewrite app_length. lia. Qed.
Lemma value_ext c c' env a : cext c c' -> (forall j, a = AN j -> j < List.length (c_g c)) -> value (c_g c') env a = value (c_g c) env a.
Proof. intros [[h ->] _] H. apply value_app, H. Qed.

(** What is known of a clone which is the argument [a] of [k]. *)
Definition cargOk (c : clones V) (k a : nat) (y : arg V) : Prop :=
  (forall j, y = AN j -> j < List.length (c_g c)) /\ forall it x env, src it x c env -> okArg it x k a (value (c_g c) env y).
Lemma cargOk_ext c c' k a y : cext c c' -> cargOk c k a y -> cargOk c' k a y.
Proof.
  intros E [H1 H2]. split; [intros j Hj; pose proof (cext_len c c' E); specialize (H1 j Hj); lia|].
  intros it x env S. rewrite (value_ext c c' env y E H1). apply H2, (src_ext it x c c' env E S).
Qed.
Definition cvalOk (c : clones V) (k kc : nat) : Prop :=
  kc < List.length (c_g c) /\ forall it x env, src it x c env -> okVal it x k (value (c_g c) env (AN kc)).

(** A new independent. *)
Lemma ordered_app h n : ordered h -> (forall j, In (AN j) (n_args n) -> j < List.length h) -> ordered (h ++ [n]).
Proof.
  intros O H k n' j E I. destruct (Nat.lt_ge_cases k (List.length h)) as [L|L].
  - rewrite nth_error_app1 in E by exact L. apply (O k n' j E I).
  - assert (k = List.length h). { assert (k < List.length (h ++ [n])) by (apply nth_error_Some; rewrite E; discriminate). rewrite app_length in *. cbn in *. lia. }
    subst k. rewrite nth_error_app2, Nat.sub_diag in E by lia. injection E as <-. apply H, I.
Qed.
Lemma nth_app_some {A} (h t : list A) k n : nth_error h k = Some n -> nth_error (h ++ t) k = Some n.
Proof. intros E. rewrite nth_error_app1; [exact E|]. apply nth_error_Some. rewrite E. discriminate. Qed.
Lemma value_inv_c (h : graph V) env k i : ordered h -> nth_error h k = Some (mkN OInv [i] []) -> value h env (AN k) = env i.
Proof.
  intros _ E. destruct (nth_error_split h k E) as [h1 [h2 [-> L]]]. change (mkN OInv [i] [] :: h2) with ([mkN OInv [i] []] ++ h2).
  rewrite app_assoc, value_app by (intros j Hj; injection Hj as <-; rewrite app_length; cbn; lia). rewrite <- L, value_last. reflexivity.
Qed.
Lemma order_eqb_ok a b : order_eqb a b = true -> a = b.
Proof.
  revert b. induction a as [|[x|] a IH]; intros [|[y|] b] H; cbn in H; try discriminate; try reflexivity.
  - apply andb_true_iff in H. destruct H as [H1 H2]. apply Nat.eqb_eq in H1. rewrite H1, (IH b H2). reflexivity.
  - rewrite (IH b H). reflexivity.
Qed.

(** The state after an independent is added to one of the three lists. *)
Lemma fresh_nd (a b : list nat) n : NoDup (a ++ b) -> (forall i, In i (a ++ b) -> i < n) -> NoDup (a ++ n :: b).
Proof.
  intros N H. apply NoDup_Add with (a := n) (l := a ++ b); [apply Add_app|]. split; [exact N|]. intros K. specialize (H n K). lia.
Qed.
Lemma cloneIndexed_ok k a c : cinv c -> exists kc c', cloneIndexed l count k a c = (kc, c') /\ cinv c' /\ cext c c' /\ kc < List.length (c_g c') /\
  isInv (c_g c') kc = true /\
  forall it x env, src it x c' env -> it < count -> value (c_g c') env (AN kc) = match idxAt l k a it with Some j => x (indexOf g j) | None => dflt end.
Proof.
  intros C. unfold cloneIndexed. set (o := orderOf l count k a).
  assert (No : forall it, it < count -> nth it o None = idxAt l k a it).
  { intros it Hi. unfold o, orderOf. rewrite (nth_indep _ None (idxAt l k a 0)) by (rewrite map_length, seq_length; exact Hi).
    rewrite (map_nth (fun it => idxAt l k a it)), seq_nth by exact Hi. reflexivity. }
  destruct (find (fun e => order_eqb (fst (fst e)) o) (c_idx c)) as [[[o' kc] i]|] eqn:F.
  - apply find_some in F. destruct F as [I E]. cbn in E. apply order_eqb_ok in E. subst o'. exists kc, c. split; [reflexivity|]. split; [exact C|].
    split; [apply cext_refl|]. pose proof (ci_idx c C _ _ _ I) as En. split; [apply nth_error_Some; rewrite En; discriminate|].
    split; [unfold isInv; rewrite En; reflexivity|].
    intros it x env S Hi. rewrite (value_inv_c _ env kc i (ci_ord c C) En). destruct S as [S1 _]. rewrite (S1 _ _ _ I), (No it Hi). reflexivity.
  - set (c' := mkC (newIndep c) (S (c_n c)) (c_id c) ((o, List.length (c_g c), c_n c) :: c_idx c) (c_non c) (c_tmp c)).
    exists (List.length (c_g c)), c'. split; [reflexivity|].
    assert (X : cext c c').
    { split; [exists [mkN OInv [c_n c] []]; reflexivity|]. split; [intros e He; right; exact He|]. split; apply incl_refl. }
    assert (Nl : nth_error (c_g c') (List.length (c_g c)) = Some (mkN OInv [c_n c] [])).
    { cbn [c' c_g]. unfold newIndep. rewrite nth_error_app2, Nat.sub_diag by lia. reflexivity. }
    assert (C' : cinv c').
    { constructor.
      - apply ordered_app; [apply (ci_ord c C)|intros j []].
      - intros o' k' i [E|E]; [injection E as <- <- <-; exact Nl|]. apply nth_app_some, (ci_idx c C _ _ _ E).
      - intros j k' i E. apply nth_app_some, (ci_non c C _ _ _ E).
      - intros i. cbn [c' c_idx c_non c_tmp c_n map snd app In]. intros [<-|H]; [lia|]. specialize (ci_lt c C i H). lia.
      - cbn [c' c_idx c_non c_tmp map snd app]. apply (fresh_nd []); [apply (ci_nd c C)|apply (ci_lt c C)].
      - intros k' kc E. destruct (ci_id c C k' kc E) as [L H]. split; [pose proof (cext_len c c' X); lia|]. intros it x env S.
        rewrite (value_ext c c' env (AN kc) X) by (intros j Hj; injection Hj as <-; exact L). apply H, (src_ext it x c c' env X S). }
    split; [exact C'|]. split; [exact X|]. split; [cbn [c' c_g]; unfold newIndep; rewrite app_length; cbn; lia|].
    split; [unfold isInv; rewrite Nl; reflexivity|].
    intros it x env S Hi. rewrite (value_inv_c _ env _ _ (ci_ord c' C') Nl). destruct S as [S1 _].
    rewrite (S1 o (List.length (c_g c)) (c_n c) (or_introl eq_refl)), (No it Hi). reflexivity.
Qed.
Lemma cloneNonIndexed_ok j c : cinv c -> exists kc c', cloneNonIndexed j c = (kc, c') /\ cinv c' /\ cext c c' /\ kc < List.length (c_g c') /\
  isInv (c_g c') kc = true /\
  forall it x env, src it x c' env -> value (c_g c') env (AN kc) = x (indexOf g j).
Proof.
  intros C. unfold cloneNonIndexed. destruct (find (fun e => fst (fst e) =? j) (c_non c)) as [[[j' kc] i]|] eqn:F.
  - apply find_some in F. destruct F as [I E]. cbn in E. apply Nat.eqb_eq in E. subst j'. exists kc, c. split; [reflexivity|]. split; [exact C|].
    split; [apply cext_refl|]. pose proof (ci_non c C _ _ _ I) as En. split; [apply nth_error_Some; rewrite En; discriminate|].
    split; [unfold isInv; rewrite En; reflexivity|].
    intros it x env S. rewrite (value_inv_c _ env kc i (ci_ord c C) En). destruct S as [_ [S2 _]]. apply (S2 _ _ _ I).
  - set (c' := mkC (newIndep c) (S (c_n c)) (c_id c) (c_idx c) ((j, List.length (c_g c), c_n c) :: c_non c) (c_tmp c)).
    exists (List.length (c_g c)), c'. split; [reflexivity|].
    assert (X : cext c c').
    { split; [exists [mkN OInv [c_n c] []]; reflexivity|]. split; [apply incl_refl|]. split; [intros e He; right; exact He|apply incl_refl]. }
    assert (Nl : nth_error (c_g c') (List.length (c_g c)) = Some (mkN OInv [c_n c] [])).
    { cbn [c' c_g]. unfold newIndep. rewrite nth_error_app2, Nat.sub_diag by lia. reflexivity. }
    assert (C' : cinv c').
    { constructor.
      - apply ordered_app; [apply (ci_ord c C)|intros j' []].
      - intros o' k' i E. apply nth_app_some, (ci_idx c C _ _ _ E).
      - intros j' k' i [E|E]; [injection E as <- <- <-; exact Nl|]. apply nth_app_some, (ci_non c C _ _ _ E).
      - intros i H. cbn [c' c_idx c_non c_tmp c_n map snd] in *. apply in_app_or in H. pose proof (ci_lt c C i) as L. rewrite in_app_iff in L.
        cbn [app In] in H. destruct H as [H|[<-|H]]; [|lia|]; assert (i < c_n c) by (apply L; auto); lia.
      - cbn [c' c_idx c_non c_tmp map snd app]. apply fresh_nd; [apply (ci_nd c C)|apply (ci_lt c C)].
      - intros k' kc E. destruct (ci_id c C k' kc E) as [L H]. split; [pose proof (cext_len c c' X); lia|]. intros it x env S.
        rewrite (value_ext c c' env (AN kc) X) by (intros j' Hj; injection Hj as <-; exact L). apply H, (src_ext it x c c' env X S). }
    split; [exact C'|]. split; [exact X|]. split; [cbn [c' c_g]; unfold newIndep; rewrite app_length; cbn; lia|].
    split; [unfold isInv; rewrite Nl; reflexivity|].
    intros it x env S. rewrite (value_inv_c _ env _ _ (ci_ord c' C') Nl). destruct S as [_ [S2 _]].
    apply (S2 j (List.length (c_g c)) (c_n c)). left. reflexivity.
Qed.

(** An independent argument. *)
Lemma cloneIndep_ok k a j c : cinv c -> argAt g k a = Some (AN j) -> isInv g j = true ->
  exists kc c', cloneIndep l count k a j c = (kc, c') /\ cinv c' /\ cext c c' /\ cargOk c' k a (AN kc).
Proof.
  intros C A I.
  assert (Ht : forall it t, paired it k t -> exists j', argAt g t a = Some (AN j') /\ isInv g j' = true).
  { intros it t P. destruct (A1 it k t P) as [Lk [Lt [Ik Sh]]]. destruct (shape_arg g k t a (AN j) W Lk Lt Ik Sh A) as [y [Ay Sy]].
    rewrite (shape_inv g j W I) in Sy. destruct y as [v|j']; [discriminate|]. exists j'. split; [exact Ay|].
    apply shape_TX; [exact W| |auto]. destruct (argAt_lt g t a j' W Ay). lia. }
  unfold cloneIndep. destruct (hasPos l k a) eqn:Hp.
  - destruct (cloneIndexed_ok k a c C) as [kc [c' [E [C' [X [L [_ H]]]]]]]. exists kc, c'. split; [exact E|]. split; [exact C'|]. split; [exact X|].
    split; [intros j' Hj; injection Hj as <-; exact L|]. intros it x env S t P. destruct (Ht it t P) as [j' [At It]]. exists (AN j'). split; [exact At|].
    pose proof (A3 it k t a j j' P A At I It) as K. rewrite Hp in K. rewrite (H it x env S (A0 it k t P)), K. symmetry. apply value_inv; assumption.
  - destruct (cloneNonIndexed_ok j c C) as [kc [c' [E [C' [X [L [_ H]]]]]]]. exists kc, c'. split; [exact E|]. split; [exact C'|]. split; [exact X|].
    split; [intros j' Hj; injection Hj as <-; exact L|]. intros it x env S t P. destruct (Ht it t P) as [j' [At It]]. exists (AN j'). split; [exact At|].
    pose proof (A3 it k t a j j' P A At I It) as K. rewrite Hp in K. subst j'. rewrite (H it x env S). symmetry. apply value_inv; assumption.
Qed.

(** Arguments *)
Definition recC (rec : nat -> clones V -> pout (nat * clones V)) (k : nat) : Prop :=
  forall j c, j < k -> isInv g j = false -> cinv c -> exists kc c', rec j c = POk (kc, c') /\ cinv c' /\ cext c c' /\ cvalOk c' j kc.
Lemma cloneArgs_ok rec k n : nth_error g k = Some n -> recC rec k ->
  forall args pre c, n_args n = pre ++ args -> cinv c ->
  exists ys c', cloneArgs rec g l count k (List.length pre) args c = POk (ys, c') /\ cinv c' /\ cext c c' /\ List.length ys = List.length args /\
    forall i y, nth_error ys i = Some y -> cargOk c' k (List.length pre + i) y.
Proof.
  intros En Hrec. induction args as [|z args IH]; intros pre c E C.
  - exists [], c. split; [reflexivity|]. split; [exact C|]. split; [apply cext_refl|]. split; [reflexivity|]. intros [|i] y H; discriminate.
  - assert (E' : n_args n = (pre ++ [z]) ++ args) by (rewrite <- app_assoc; exact E).
    assert (EL : List.length (pre ++ [z]) = S (List.length pre)) by (rewrite app_length; cbn; lia).
    specialize (IH (pre ++ [z])). rewrite EL in IH.
    assert (Az : argAt g k (List.length pre) = Some z) by (unfold argAt; rewrite En, E, nth_error_app2, Nat.sub_diag by lia; reflexivity).
    assert (Lk : k < List.length g) by (apply nth_error_Some; rewrite En; discriminate).
    assert (St : exists y c1, cloneArgs rec g l count k (List.length pre) (z :: args) c =
                  pbind (cloneArgs rec g l count k (S (List.length pre)) args c1) (fun o => POk (y :: fst o, snd o)) /\
                  cinv c1 /\ cext c c1 /\ cargOk c1 k (List.length pre) y).
    { destruct z as [v|j]; cbn [cloneArgs].
      - exists (AC v), c. split; [reflexivity|]. split; [exact C|]. split; [apply cext_refl|]. split; [discriminate|]. intros it x env S t P.
        destruct (A1 it k t P) as [_ [Lt [Ik Sh]]]. destruct (shape_arg g k t _ (AC v) W Lk Lt Ik Sh Az) as [y [Ay Sy]]. exists y. split; [exact Ay|].
        destruct y as [w|j]; [|exfalso].
        + assert (v = w) by (cbn in Sy; congruence). subst. reflexivity.
        + destruct (argAt_lt g t _ j W Ay) as [L1 L2]. destruct (nth_error g j) as [nj|] eqn:Ej; [|apply nth_error_None in Ej; lia].
          rewrite (shape_eq g j nj W Ej) in Sy. destruct (n_op nj); discriminate.
      - destruct (isInv g j) eqn:Ij.
        + destruct (cloneIndep_ok k (List.length pre) j c C Az Ij) as [kc [c1 [Ei [C1 [X1 K1]]]]]. exists (AN kc), c1. rewrite Ei. cbn [pbind fst snd].
          split; [reflexivity|]. auto.
        + destruct (argAt_lt g k _ j W Az) as [Lj _]. destruct (Hrec j c Lj Ij C) as [kc [c1 [Er [C1 [X1 [L1 K1]]]]]]. exists (AN kc), c1. rewrite Er. cbn [pbind fst snd].
          split; [reflexivity|]. split; [exact C1|]. split; [exact X1|]. split; [intros j' Hj; injection Hj as <-; exact L1|].
          intros it x env S t P. destruct (A1 it k t P) as [_ [Lt [Ik Sh]]]. destruct (shape_arg g k t _ (AN j) W Lk Lt Ik Sh Az) as [y [Ay Sy]]. exists y. split; [exact Ay|].
          destruct y as [w|t']; [exfalso|].
          * destruct (nth_error g j) as [nj|] eqn:Ej; [|apply nth_error_None in Ej; lia]. rewrite (shape_eq g j nj W Ej) in Sy. destruct (n_op nj); discriminate.
          * apply (K1 it x env S t'). apply (A2 it k t _ j t' P Az Ay Ij). }
    destruct St as [y [c1 [Est [C1 [X1 K1]]]]]. destruct (IH c1 E' C1) as [ys [c' [Eq [C' [X' [L' K']]]]]].
    exists (y :: ys), c'. split.
    + rewrite Est, Eq. reflexivity.
    + split; [exact C'|]. split; [apply (cext_trans c c1 c' X1 X')|]. split; [cbn; lia|]. intros [|i] y' H.
      * injection H as <-. rewrite Nat.add_0_r. apply (cargOk_ext c1 c' _ _ _ X' K1).
      * rewrite Nat.add_succ_r. apply (K' i y' H).
Qed.

Lemma args_value t nt (h : graph V) env x ys : nth_error g t = Some nt -> List.length ys = List.length (n_args nt) ->
  (forall i y, nth_error ys i = Some y -> exists z, nth_error (n_args nt) i = Some z /\ value h env y = value g x z) ->
  map (value h env) ys = map (value g x) (n_args nt).
Proof.
  intros _. revert ys. induction (n_args nt) as [|z zs IH]; intros [|y ys] L H; try discriminate; [reflexivity|]. cbn [map]. f_equal.
  - destruct (H 0 y eq_refl) as [z' [E K]]. injection E as <-. exact K.
  - apply IH; [cbn in L; lia|]. intros i y' Hi. apply (H (S i) y' Hi).
Qed.

Lemma clone_ok : forall fuel k c, k < fuel -> k < List.length g -> isInv g k = false -> cinv c ->
  exists kc c', clone fuel g m l count k c = POk (kc, c') /\ cinv c' /\ cext c c' /\ cvalOk c' k kc.
Proof.
  induction fuel as [|fuel IH]; intros k c Hf Lk Ik C; [lia|]. cbn [clone].
  destruct (find (fun e => fst e =? k) (c_id c)) as [[k' kc]|] eqn:F.
  - apply find_some in F. destruct F as [I E]. cbn in E. apply Nat.eqb_eq in E. subst k'. exists kc, c. split; [reflexivity|]. split; [exact C|].
    split; [apply cext_refl|]. apply (ci_id c C k kc I).
  - destruct (nth_error g k) as [n|] eqn:En; [|apply nth_error_None in En; lia].
    destruct (marked m k || opc_eqb (n_op n) OArray) eqn:Hm.
    + assert (Hrec : recC (clone fuel g m l count) k) by (intros j c0 Lj Ij C0; apply IH; auto; lia).
      destruct (cloneArgs_ok _ k n En Hrec (n_args n) [] c eq_refl C) as [ys [c1 [E1 [C1 [X1 [L1 K1]]]]]]. cbn [List.length] in E1. rewrite E1. cbn [pbind fst snd].
      set (nc := mkN (n_op n) (n_info n) ys).
      set (c' := mkC (c_g c1 ++ [nc]) (c_n c1) ((k, List.length (c_g c1)) :: c_id c1) (c_idx c1) (c_non c1) (c_tmp c1)).
      exists (List.length (c_g c1)), c'. split; [reflexivity|].
      assert (X : cext c1 c').
      { split; [exists [nc]; reflexivity|]. split; [apply incl_refl|]. split; apply incl_refl. }
      assert (Hv : cvalOk c' k (List.length (c_g c1))).
      { split; [cbn [c' c_g]; rewrite app_length; cbn; lia|]. intros it x env S t P. cbn [c' c_g]. rewrite value_last.
        destruct (A1 it k t P) as [_ [Lt [_ Sh]]]. destruct (nth_error g t) as [nt|] eqn:Et; [|apply nth_error_None in Et; lia].
        destruct (shape_node g k t n nt W En Et Ik Sh) as [It [Eo [Ei Em]]]. rewrite (value_op sem dflt g x t nt W Et It).
        unfold nodeVal. cbn [nc n_op n_info n_args]. rewrite <- Eo, <- Ei.
        assert (Ma : map (argVal dflt (values sem dflt (c_g c1) env)) ys = map (valueOf sem dflt g x) (n_args nt)).
        { change (map (value (c_g c1) env) ys = map (value g x) (n_args nt)). apply (args_value t nt); [exact Et| |].
          - rewrite L1, <- (map_length (shapeOf g) (n_args n)), Em, map_length. reflexivity.
          - intros i y Hy. destruct (K1 i y Hy) as [_ K]. destruct (K it x env (src_ext it x c1 c' env X S) t P) as [z [Az Kz]].
            cbn [List.length Nat.add] in Az. unfold argAt in Az. rewrite Et in Az. exists z. auto. }
        rewrite Ma. unfold isInv in Ik. rewrite En in Ik. destruct (n_op n); [discriminate|reflexivity..]. }
      split; [|split; [apply (cext_trans c c1 c' X1 X)|exact Hv]]. constructor.
      * apply ordered_app; [apply (ci_ord c1 C1)|]. intros j Hj. cbn [nc n_args] in Hj. apply In_nth_error in Hj. destruct Hj as [i Hi].
        destruct (K1 i _ Hi) as [K _]. apply K. reflexivity.
      * intros o' k' i E. apply nth_app_some, (ci_idx c1 C1 _ _ _ E).
      * intros j' k' i E. apply nth_app_some, (ci_non c1 C1 _ _ _ E).
      * apply (ci_lt c1 C1).
      * apply (ci_nd c1 C1).
      * intros k' kc [E|E]; [injection E as <- <-; exact Hv|]. destruct (ci_id c1 C1 k' kc E) as [L H]. split; [pose proof (cext_len c1 c' X); lia|].
        intros it x env S. rewrite (value_ext c1 c' env (AN kc) X) by (intros j' Hj; injection Hj as <-; exact L). apply H, (src_ext it x c1 c' env X S).
    + apply orb_false_iff in Hm. destruct Hm as [Hm _]. unfold cloneTemp.
      set (c' := mkC (newIndep c) (S (c_n c)) ((k, List.length (c_g c)) :: c_id c) (c_idx c) (c_non c) ((k, c_n c) :: c_tmp c)).
      exists (List.length (c_g c)), c'. split; [reflexivity|].
      assert (X : cext c c').
      { split; [exists [mkN OInv [c_n c] []]; reflexivity|]. split; [apply incl_refl|]. split; [apply incl_refl|intros e He; right; exact He]. }
      assert (Nl : nth_error (c_g c') (List.length (c_g c)) = Some (mkN OInv [c_n c] [])).
      { cbn [c' c_g]. unfold newIndep. rewrite nth_error_app2, Nat.sub_diag by lia. reflexivity. }
      assert (Oc : ordered (c_g c')) by (apply ordered_app; [apply (ci_ord c C)|intros j []]).
      assert (Hv : cvalOk c' k (List.length (c_g c))).
      { split; [cbn [c' c_g]; unfold newIndep; rewrite app_length; cbn; lia|]. intros it x env S t P.
        rewrite (value_inv_c _ env _ _ Oc Nl). destruct S as [_ [_ S3]]. rewrite (S3 k (c_n c) (or_introl eq_refl)). symmetry. apply (A4 it k t x P Hm). }
      split; [|split; [exact X|exact Hv]]. constructor.
      * exact Oc.
      * intros o' k' i E. apply nth_app_some, (ci_idx c C _ _ _ E).
      * intros j' k' i E. apply nth_app_some, (ci_non c C _ _ _ E).
      * intros i H. cbn [c' c_idx c_non c_tmp c_n map snd] in *. pose proof (ci_lt c C i) as L. rewrite !in_app_iff in L, H.
        cbn [In] in H. destruct H as [H|[H|[<-|H]]]; [| |lia|]; assert (i < c_n c) by (apply L; auto); lia.
      * cbn [c' c_idx c_non c_tmp map snd]. rewrite app_assoc. apply fresh_nd; rewrite <- app_assoc; [apply (ci_nd c C)|apply (ci_lt c C)].
      * intros k' kc [E|E]; [injection E as <- <-; exact Hv|]. destruct (ci_id c C k' kc E) as [L H]. split; [pose proof (cext_len c c' X); lia|].
        intros it x env S. rewrite (value_ext c c' env (AN kc) X) by (intros j' Hj; injection Hj as <-; exact L). apply H, (src_ext it x c c' env X S).
Qed.
End Clone.

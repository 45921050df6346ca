(** * Calls of atomic functions: proofs *)
From Coq Require Import List Bool Arith Lia.
From Verif Require Import Pool_model Pool_proofs AtomicRec_model.
Import ListNotations.

Section P.
Variable V : Type.
Variable zero : V.
Variable isz : V -> bool.
Variable add : V -> V -> V.
Notation el := (el V zero).

(** the value of an operand when the nodes have the values rho *)
Definition den (rho : nat -> V) (c : cg V) : V := match c with Par v => v | Node id _ => rho id end.

Lemma evalArg_as rho c : evalArg V rho (asArgument V c) = den rho c.
Proof. destruct c; reflexivity. Qed.

Lemma divmod n p pos : pos < n * S p -> pos / S p < n /\ pos mod S p < S p /\ pos / S p * S p + pos mod S p = pos.
Proof.
  intros H. pose proof (Nat.div_mod pos (S p) ltac:(discriminate)). pose proof (Nat.mod_upper_bound pos (S p) ltac:(discriminate)).
  repeat split; [|assumption|lia]. apply Nat.div_lt_upper_bound; [discriminate|lia].
Qed.
Lemma unpos n p i k : i < n -> k < S p -> i * S p + k < n * S p /\ (i * S p + k) / S p = i /\ (i * S p + k) mod S p = k.
Proof.
  intros Hi Hk. split; [nia|]. rewrite Nat.div_add_l by discriminate. rewrite Nat.div_small by assumption.
  split; [lia|]. rewrite Nat.add_comm, Nat.mod_add by discriminate. apply Nat.mod_small. assumption.
Qed.

Lemma fold_at (g : nat -> V) l j acc :
  fold_left (fun acc (e : nat * V) => if fst e =? j then snd e else acc) (map (fun i => (i, g i)) l) acc =
  if existsb (Nat.eqb j) l then g j else acc.
Proof.
  revert acc. induction l as [|i l IH]; intros acc; [reflexivity|]. cbn [map fold_left existsb fst snd].
  rewrite IH. rewrite (Nat.eqb_sym j i). destruct (Nat.eqb_spec i j) as [->|_]; cbn [orb]; destruct (existsb _ l); reflexivity.
Qed.

Lemma existsb_eq j l : existsb (Nat.eqb j) l = true <-> In j l.
Proof. rewrite existsb_exists. split; [intros [x [I E]]; apply Nat.eqb_eq in E; subst; exact I|intros I; exists j; split; [exact I|apply Nat.eqb_refl]]. Qed.

Hypothesis isz_ok : forall v, isz v = true -> v = zero.

Lemma rget_dense rho n tx p k j : j < n -> rget V zero (evalArr V rho (makeArray V zero n tx p k)) j = den rho (el tx p j k).
Proof.
  intros H. unfold makeArray, evalArr, rget. rewrite map_map.
  rewrite (nth_indep _ zero (evalArg V rho (asArgument V (el tx p 0 k)))) by (rewrite map_length, seq_length; exact H).
  rewrite (map_nth (fun x => evalArg V rho (asArgument V (el tx p x k)))).
  rewrite seq_nth by exact H. apply evalArg_as.
Qed.
Lemma rget_sparse rho n tx p k j : j < n -> rget V zero (evalArr V rho (makeSparseArray V zero isz n tx p k)) j = den rho (el tx p j k).
Proof.
  intros H. unfold makeSparseArray, evalArr, rget. rewrite map_map. cbn [fst snd].
  rewrite (fold_at (fun i => evalArg V rho (asArgument V (el tx p i k)))).
  destruct (existsb _ _) eqn:E; [apply evalArg_as|].
  destruct (isIdenticalZero V isz (el tx p j k)) eqn:Z.
  - unfold isIdenticalZero in Z. destruct (el tx p j k) as [v|id o]; [|discriminate]. cbn [den]. symmetry. apply isz_ok. exact Z.
  - exfalso. assert (I : In j (filter (fun i => negb (isIdenticalZero V isz (el tx p i k))) (seq 0 n))).
    { apply filter_In. split; [apply in_seq; lia|]. rewrite Z. reflexivity. }
    apply existsb_eq in I. congruence.
Qed.

Lemma nth_map_seq {A B} (g : A -> B) (f : nat -> A) n k d : k < n -> nth k (map g (map f (seq 0 n))) d = g (f k).
Proof.
  intros H. rewrite map_map. rewrite (nth_indep _ d (g (f 0))) by (rewrite map_length, seq_length; exact H).
  rewrite (map_nth (fun x => g (f x))). rewrite seq_nth by exact H. reflexivity.
Qed.
Lemma nth_seq_map {B} (f : nat -> B) n k d : k < n -> nth k (map f (seq 0 n)) d = f k.
Proof. intros H. rewrite (nth_indep _ d (f 0)) by (rewrite map_length, seq_length; exact H). rewrite (map_nth f). rewrite seq_nth by exact H. reflexivity. Qed.
Lemma nth_error_seq_map {B} (f : nat -> B) n k : k < n -> nth_error (map f (seq 0 n)) k = Some (f k).
Proof. intros H. rewrite (nth_error_nth' _ (f 0)) by (rewrite map_length, seq_length; exact H). rewrite nth_seq_map by exact H. reflexivity. Qed.

(** What the function gets at run time are the values of the operands. *)
Lemma convert_ok rho n p tx mk :
  length tx = n * S p ->
  (forall k, k <= p -> mk k = makeArray V zero n tx p k \/ mk k = makeSparseArray V zero isz n tx p k) ->
  convert V zero (map (evalArr V rho) (map mk (seq 0 (S p)))) n p = map (den rho) tx.
Proof.
  intros L M. unfold convert. apply nth_ext with (d := zero) (d' := den rho (Par zero)); [rewrite !map_length, seq_length; symmetry; exact L|].
  intros pos H. rewrite map_length, seq_length in H. rewrite nth_seq_map by exact H. rewrite map_nth.
  destruct (divmod n p pos H) as [Hj [Hk E]]. rewrite nth_map_seq by exact Hk.
  replace (nth pos tx (Par zero)) with (el tx p (pos / S p) (pos mod S p)) by (unfold AtomicRec_model.el; rewrite E; reflexivity).
  destruct (M (pos mod S p) ltac:(lia)) as [->| ->]; [apply rget_dense; exact Hj|apply rget_sparse; exact Hj].
Qed.
Lemma size_first rho n p tx mk : mk 0 = makeArray V zero n tx p 0 \/ mk 0 = makeSparseArray V zero isz n tx p 0 ->
  rsize V (nth 0 (map (evalArr V rho) (map mk (seq 0 (S p)))) (RDense [])) = n.
Proof.
  intros M. rewrite nth_map_seq by lia. destruct M as [->| ->]; cbn [makeArray makeSparseArray evalArr rsize]; [rewrite !map_length, seq_length|]; reflexivity.
Qed.

Lemma zeroArray rho m : dense V (evalArr V rho (makeZeroArray V zero m)) = repeat zero m.
Proof. cbn [makeZeroArray evalArr dense]. induction m as [|m IH]; [reflexivity|]. cbn [repeat map evalArg]. rewrite IH. reflexivity. Qed.

Hypothesis add_zero : forall v, add zero v = v.

Lemma nth_repeat_zero m i : nth i (repeat zero m) zero = zero.
Proof. revert i. induction m as [|m IH]; intros [|i]; cbn [repeat nth]; [reflexivity..|apply IH]. Qed.
Lemma convertAdd_ok from m p k i : i < m -> (p = 0 -> k = 0) ->
  nth_error (convertAdd V zero add from (repeat zero m) m p k) i = Some (nth (i * S p + k) from zero).
Proof.
  intros H P. unfold convertAdd. destruct p as [|p].
  - rewrite nth_error_app1 by (rewrite map_length, seq_length; exact H). rewrite nth_error_seq_map by exact H.
    rewrite P by reflexivity. do 2 f_equal. lia.
  - rewrite nth_error_app1 by (rewrite map_length, seq_length; exact H). rewrite nth_error_seq_map by exact H.
    rewrite nth_repeat_zero. rewrite add_zero. reflexivity.
Qed.

Variable fn : atomic V.

(** the call of forward *)
Lemma runForward_ok q p n m tx rho i :
  length tx = n * S p -> i < m ->
  resValue V (runForward V zero add fn rho
      (mkF V q p (map (fun k => if k =? 0 then makeArray V zero n tx p k else makeSparseArray V zero isz n tx p k) (seq 0 (S p)))
               (map (fun _ => makeZeroArray V zero m) (seq 0 (S p))))) (RElem p i None)
  = Some (nth (i * S p + p) (snd (a_forward V fn q p (map (den rho) tx) (repeat zero (m * S p)))) zero).
Proof.
  intros L H. unfold resValue, runForward. cbn [f_p f_q f_tx f_ty]. rewrite nth_error_seq_map by lia. rewrite Nat.eqb_refl.
  rewrite nth_seq_map by lia. rewrite zeroArray. unfold wrapForward. rewrite repeat_length.
  rewrite size_first with (n := n) (p := p) (tx := tx) by (left; reflexivity).
  rewrite convert_ok with (tx := tx); [|exact L|intros k _; destruct (k =? 0); [left|right]; reflexivity].
  destruct (a_forward V fn q p (map (den rho) tx) (repeat zero (m * S p))) as [b l]. cbn [snd]. apply convertAdd_ok; [exact H|].
  intros ->. reflexivity.
Qed.

Lemma runReverse_ok debug p n m tx ty py rho j :
  length tx = n * S p -> length py = m * S p -> j < n ->
  (forall pp txb tyb tyb' pyb, a_reverse V fn pp txb tyb pyb = a_reverse V fn pp txb tyb' pyb) ->
  (debug = true -> fst (a_forward V fn p p (map (den rho) tx) (repeat zero (m * S p))) = true) ->
  resValue V (runReverse V zero add fn debug rho
      (mkR V p (map (fun k => if k =? 0 then makeArray V zero n tx p k else makeSparseArray V zero isz n tx p k) (seq 0 (S p)))
              ty
              (map (fun k => if k =? 0 then makeZeroArray V zero n else makeEmptySparseArray V n) (seq 0 (S p)))
              (map (fun k => if k =? 0 then makeSparseArray V zero isz m py p k else makeArray V zero m py p k) (seq 0 (S p))))) (RElem 0 j None)
  = Some (nth (j * S p) (snd (a_reverse V fn p (map (den rho) tx) [] (map (den rho) py))) zero).
Proof.
  intros L Lp H I D. unfold resValue, runReverse. cbn [r_p r_tx r_ty r_px r_py]. rewrite nth_error_seq_map by lia. cbn [Nat.eqb].
  rewrite nth_seq_map by lia. cbn [Nat.eqb]. rewrite zeroArray. unfold wrapReverse.
  rewrite size_first with (n := n) (p := p) (tx := tx) by (left; reflexivity).
  rewrite size_first with (n := m) (p := p) (tx := py) by (right; reflexivity).
  rewrite convert_ok with (tx := tx); [|exact L|intros k _; destruct (k =? 0); [left|right]; reflexivity].
  rewrite convert_ok with (tx := py); [|exact Lp|intros k _; destruct (k =? 0); [right|left]; reflexivity].
  assert (E : fst (if debug then a_forward V fn p p (map (den rho) tx) (repeat zero (m * S p)) else (true, repeat zero (m * S p))) = true).
  { destruct debug; [apply D; reflexivity|reflexivity]. }
  destruct (if debug then _ else _) as [ok tyb]. cbn [fst] in E. subst ok.
  rewrite (I p _ tyb []). destruct (a_reverse V fn p (map (den rho) tx) [] (map (den rho) py)) as [b l]. cbn [snd].
  rewrite convertAdd_ok; [|exact H|reflexivity]. do 2 f_equal. lia.
Qed.
End P.

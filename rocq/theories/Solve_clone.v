(** * The value of a cloned expression *)
From Coq Require Import List Bool Arith Lia.
From Verif Require Import Graph_model Graph_spec CGArith_model CGArith_spec CGArith_proofs Codegen_spec
  Eval_model Eval_spec Eval_proofs Eval_inst
  Path_model Path_spec Path_proofs Path_graph Solve_model Solve_spec Solve_proofs Solve_total.
Import ListNotations.

Section Clone.
Context {B : Type} {O : BaseOps B}.

(** [le x y]: if [x] is a value then [y] is that value *)
Definition le (x y : option B) : Prop := forall b, x = Some b -> y = Some b.
Lemma le_refl x : le x x. Proof. now intros b. Qed.

Lemma lift1_le f x x' : le x x' -> le (lift1 f x) (lift1 f x').
Proof. intros H b. destruct x; cbn; [|discriminate]. rewrite (H _ eq_refl). auto. Qed.
Lemma lift2_le f x x' y y' : le x x' -> le y y' -> le (lift2 f x y) (lift2 f x' y').
Proof. intros H1 H2 b. destruct x, y; cbn; try discriminate. rewrite (H1 _ eq_refl), (H2 _ eq_refl). auto. Qed.
Lemma odiv_le x x' y y' : le x x' -> le y y' -> le (odiv x y) (odiv x' y').
Proof. intros H1 H2 b. destruct x, y; cbn; try discriminate. rewrite (H1 _ eq_refl), (H2 _ eq_refl). auto. Qed.
Lemma ocond_le c l l' r r' t t' f f' : le l l' -> le r r' -> le t t' -> le f f' -> le (ocond c l r t f) (ocond c l' r' t' f').
Proof.
  intros H1 H2 H3 H4 b. destruct l, r; cbn; try discriminate. rewrite (H1 _ eq_refl), (H2 _ eq_refl).
  cbn [ocond]. match goal with |- context[bcmp c ?x ?y] => destruct (bcmp c x y) end; intros E; [apply H3|apply H4]; exact E.
Qed.
Lemma opval_le env env' h h' o a a' : isInv o = false -> Forall2 le a a' -> le (opval env h o a) (opval env' h' o a').
Proof.
  intros HI F. destruct o; try discriminate; cbn [opval];
    repeat match goal with H : Forall2 _ ?l _ |- context[match ?l with _ => _ end] => destruct H; try (intros ?; discriminate) end;
    auto using lift1_le, lift2_le, odiv_le, ocond_le.
Qed.

Variable decide : spath -> nat -> decision (B := B).
Variable ord : nat -> nat -> list nat.
Variable inds : list nat.

Lemma all_some_spec {T} (l : list (option T)) vs : all_some l = Some vs -> Forall2 (fun o v => o = Some v) l vs.
Proof.
  revert vs. induction l as [|[x|] l IH]; intros vs H; cbn in H; try discriminate.
  - injection H as <-. constructor.
  - destruct (all_some l) as [w|] eqn:E; [|discriminate]. injection H as <-. constructor; auto.
Qed.

Section Value.
Variable L : BaseLaws B.
Variable g0 : heap B.                   (* the graph before cloning *)
Variable visit : spath -> nat -> Prop.  (* where the evaluator gets to *)

(** what the decisions must satisfy for the clone to have the values [e] *)
Definition respects (env : nat -> nat -> B) (sol e : nat -> option B) : Prop :=
  forall pre i, visit pre i ->
    match decide pre i with
    | DReplace x => le (e i) (sv sol x)
    | DKeep => le (e i) (sol i)
    | DClone => exists d, nth_error g0 i = Some d /\
        match n_op d with
        | GInv _ => le (e i) (sol i)
        | _ => le (e i) (opval env (n_handler d) (n_op d) (map (sval e) (n_args d)))
        end
    end.
Hypothesis visit_in : forall pre i, visit pre i -> i < length g0.
Hypothesis visit_next : forall pre i d p j, visit pre i -> decide pre i = DClone -> nth_error g0 i = Some d ->
  nth_error (n_args d) p = Some (ANode j) -> visit (pre ++ [(i, Some p)]) j.

Definition memo_ok (sol e : nat -> option B) (s : cstate) : Prop := forall j v, c_memo s j = Some v -> le (e j) (sv sol v).

Definition clone_good (sol e : nat -> option B) (i : nat) (s s' : cstate) (v : cg B) : Prop :=
  memo_ok sol e s -> memo_ok sol e s' /\ le (e i) (sv sol v).

Lemma save_good sol e i (s : cstate) v : memo_ok sol e s -> le (e i) (sv sol v) ->
  memo_ok sol e (mkC (fun j => if Nat.eqb j i then Some v else c_memo s j) (c_heap s)).
Proof.
  intros M V j w. cbn. destruct (Nat.eqb_spec j i) as [->|]; [intros [= <-]; auto|]. apply M.
Qed.

Lemma cloneArgs_good env f args : forall ps acc s s' acc',
  cloneArgs f args ps acc s = SOk (s', acc') ->
  (forall p j s s' v, nth_error args p = Some (ANode j) -> f p j s = SOk (s', v) -> ext g0 (c_heap s) ->
     ext (c_heap s) (c_heap s') /\
     forall sol e, solves env (c_heap s') sol -> respects env sol e -> clone_good sol e j s s' v) ->
  ext g0 (c_heap s) ->
  ext (c_heap s) (c_heap s') /\
  forall sol e, solves env (c_heap s') sol -> respects env sol e -> memo_ok sol e s ->
    (forall p v a, acc p = Some v -> nth_error args p = Some a -> le (sval e a) (sv sol v)) ->
    memo_ok sol e s' /\ (forall p v a, acc' p = Some v -> nth_error args p = Some a -> le (sval e a) (sv sol v)).
Proof.
  induction ps as [|p ps IH]; intros acc s s' acc' H F X; cbn [cloneArgs] in H.
  - injection H as <- <-. split; [apply ext_refl|]. auto.
  - destruct (nth_error args p) as [[j|b]|] eqn:E; [| |discriminate].
    + apply sbind_ok in H. destruct H as [[s1 v] [E1 H]].
      destruct (F p j s s1 v E E1 X) as [X1 G1].
      destruct (IH _ _ _ _ H F (ext_trans _ _ _ X X1)) as [X2 G2]. split; [eapply ext_trans; eauto|].
      intros sol e S R M A. pose proof (solves_ext _ _ _ _ X2 S) as S1.
      destruct (G1 sol e S1 R M) as [M1 V1]. apply (G2 sol e S R M1).
      intros q w a. destruct (Nat.eqb_spec q p) as [->|]; [|apply A].
      intros [= <-] Ha. rewrite E in Ha. injection Ha as <-. exact V1.
    + cbn [sbind] in H. destruct (IH _ _ _ _ H F X) as [X2 G2]. split; auto.
      intros sol e S R M A. apply (G2 sol e S R M).
      intros q w a. destruct (Nat.eqb_spec q p) as [->|]; [|apply A].
      intros [= <-] Ha. rewrite E in Ha. injection Ha as <-. intros u. cbn. auto.
Qed.

Lemma cloneOps_good env : forall fuel pre i s s' v, cloneOps decide ord inds fuel pre i s = SOk (s', v) ->
  visit pre i -> ext g0 (c_heap s) ->
  ext (c_heap s) (c_heap s') /\
  forall sol e, solves env (c_heap s') sol -> respects env sol e -> clone_good sol e i s s' v.
Proof.
  induction fuel as [|fuel IH]; intros pre i s s' v H Vi X; [discriminate|]. cbn [cloneOps] in H.
  destruct (c_memo s i) as [w|] eqn:EM.
  { injection H as <- <-. split; [apply ext_refl|]. intros sol e S R M. split; auto. }
  destruct (decide pre i) as [x| |] eqn:ED.
  - injection H as <- <-. split; [apply ext_refl|]. cbn [fst snd c_heap]. intros sol e S R M.
    assert (V : le (e i) (sv sol x)). { specialize (R pre i Vi). now rewrite ED in R. }
    split; auto. now apply save_good.
  - destruct (nth_error (c_heap s) i) as [d|] eqn:EN; [|discriminate].
    assert (EN0 : nth_error g0 i = Some d).
    { destruct (nth_error g0 i) as [d'|] eqn:E; [|apply nth_error_None in E; specialize (visit_in _ _ Vi); lia].
      rewrite (ext_nth _ _ _ _ X E) in EN. congruence. }
    destruct (handled (n_op d)) eqn:EH; cbn [negb] in H; [|discriminate].
    destruct (isInv (n_op d)) eqn:EI.
    + destruct (n_op d) eqn:EO; try discriminate. destruct (indepIndex inds i); [|discriminate].
      injection H as <- <-. split; [apply ext_refl|]. cbn [fst snd c_heap]. intros sol e S R M.
      assert (V : le (e i) (sv sol (Var i None))).
      { specialize (R pre i Vi). rewrite ED in R. destruct R as [d' [E R]].
        rewrite EN0 in E. injection E as <-. rewrite EO in R. exact R. }
      split; auto. now apply save_good.
    + assert (H' : sbind (cloneArgs (fun p j s' => cloneOps decide ord inds fuel (pre ++ [(i, Some p)]) j s') (n_args d) (ord i (length (n_args d)))
                     (fun _ => None) s) (fun '(s1, acc) =>
                match all_some (map acc (seq 0 (length (n_args d)))) with
                | None => SUndef
                | Some vs =>
                    match cg_op (n_op d) vs (c_heap s1) with
                    | Throw => SThrow
                    | Ok (g', v) => SOk (mkC (fun j => if Nat.eqb j i then Some v else c_memo s1 j) g', v)
                    end
                end) = SOk (s', v)).
      { revert H. destruct (n_op d); try discriminate; auto. }
      clear H. apply sbind_ok in H'. destruct H' as [[s1 acc] [E1 H]].
      destruct (all_some (map acc (seq 0 (length (n_args d))))) as [vs|] eqn:EA; [|discriminate].
      destruct (cg_op (n_op d) vs (c_heap s1)) as [[g' w]|] eqn:EC; [|discriminate]. injection H as <- <-. cbn [c_heap].
      destruct (cloneArgs_good env _ _ _ _ _ _ _ E1) as [X1 G1].
      { intros p j s2 s2' v2 Ha E2 X2. apply (IH _ _ _ _ _ E2); auto. eapply visit_next; eauto. }
      { auto. }
      destruct (cg_op_computes L (c_heap s1) (n_op d) vs env (n_handler d) EI g' w EC) as [X2 G2].
      split; [eapply ext_trans; eauto|]. intros sol e S R M.
      destruct (G1 sol e (solves_ext _ _ _ _ X2 S) R M) as [M1 A1]; [discriminate|].
      assert (V : le (e i) (sv sol w)).
      { intros b Hb. apply (G2 env sol b S).
        specialize (R pre i Vi). rewrite ED in R. destruct R as [d' [E R]]. rewrite EN0 in E. injection E as <-.
        assert (R' : le (e i) (opval env (n_handler d) (n_op d) (map (sval e) (n_args d)))).
        { revert R EI. destruct (n_op d); auto. discriminate. }
        refine (opval_le env env _ _ _ _ _ EI _ b (R' b Hb)).
        apply all_some_spec in EA. clear -EA A1.
        assert (Q : forall k l vs, Forall2 (fun o v => o = Some v) (map acc (seq k (length l))) vs ->
                  (forall p v a, acc (k + p) = Some v -> nth_error l p = Some a -> le (sval e a) (sv sol v)) ->
                  Forall2 le (map (sval e) l) (map (sv sol) vs)).
        { intros k l. revert k. induction l as [|a l IHl]; intros k us F A; cbn in F |- *; inversion F; subst; [constructor|].
          cbn. constructor.
          - apply (A 0 y a); [now rewrite Nat.add_0_r|reflexivity].
          - apply (IHl (S k)); auto. intros p u c Hp. apply (A (S p)). now rewrite Nat.add_succ_r. }
        apply (Q 0); auto. }
      split; auto. apply (save_good sol e i (mkC (c_memo s1) g')); auto.
  - injection H as <- <-. split; [apply ext_refl|]. cbn [fst snd c_heap]. intros sol e S R M.
    assert (V : le (e i) (sv sol (Var i None))). { specialize (R pre i Vi). now rewrite ED in R. }
    split; auto. now apply save_good.
Qed.

Lemma cloneEval_good fuel root g' v : cloneEval decide ord inds fuel g0 root = SOk (g', v) -> visit [] root ->
  ext g0 g' /\ forall env sol e, solves env g' sol -> respects env sol e -> le (e root) (sv sol v).
Proof.
  intros H Vi. unfold cloneEval in H. apply sbind_ok in H. destruct H as [[s1 w] [E H]]. injection H as <- <-.
  split.
  - apply (cloneOps_good (fun _ _ => b0) _ _ _ _ _ _ E Vi). apply ext_refl.
  - intros env sol e S R. destruct (cloneOps_good env _ _ _ _ _ _ E Vi (ext_refl _)) as [_ G].
    destruct (G sol e S R) as [_ V]; auto. intros j u. discriminate.
Qed.
End Value.
End Clone.

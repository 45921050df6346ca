(** * Cloning and collecting end, and keep invariants *)
From Coq Require Import List Bool Arith Lia Permutation.
From Verif Require Import Graph_model Graph_spec Graph_proofs CGArith_model CGArith_spec CGArith_proofs Codegen_spec
  Eval_model Eval_spec Eval_proofs Eval_inst Path_model Path_spec Path_proofs Path_graph Solve_model Solve_spec Solve_proofs
  Solve_total Solve_once Solve_clone Solve_fuel.
Import ListNotations.

Section Keep.
Context {B : Type} {O : BaseOps B}.
Implicit Type g : heap B.
Variable h : nat.
Variable nice : heap B -> Prop.
Variable okv : heap B -> cg B -> Prop.
Hypothesis K : invariant h nice okv.

Section Clone.
Variable decide : spath -> nat -> decision (B := B).
Variable ord : nat -> nat -> list nat.
Hypothesis ord_all : forall i n, Permutation (ord i n) (seq 0 n).
Variable inds : list nat.
Variable g0 : heap B.
Hypothesis NI : nice g0.
Hypothesis WA : wf_arity g0.
Variable r : nat -> nat.
Variable visit : spath -> nat -> Prop.
Hypothesis visit_in : forall pre i, visit pre i -> i < length g0.
Hypothesis visit_next : forall pre i d p j, visit pre i -> decide pre i = DClone -> nth_error g0 i = Some d ->
  nth_error (n_args d) p = Some (ANode j) -> visit (pre ++ [(i, Some p)]) j /\ r j < r i.
Hypothesis visit_ok : forall pre i, visit pre i ->
  match decide pre i with
  | DReplace x => okv g0 x
  | DKeep => okv g0 (Var i None)
  | DClone => forall d k, nth_error g0 i = Some d -> n_op d = GInv k -> okv g0 (Var i None)
  end.

Record fine (s : cstate) : Prop := {
  F_ext : ext g0 (c_heap s);
  F_nice : nice (c_heap s);
  F_memo : forall j v, c_memo s j = Some v -> okv (c_heap s) v
}.
Definition goes (s : cstate) (res : sres (cstate * cg B)) : Prop :=
  res = SThrow \/ exists s' v, res = SOk (s', v) /\ ext (c_heap s) (c_heap s') /\ fine s' /\ okv (c_heap s') v.

Lemma okv_up s x : fine s -> okv g0 x -> okv (c_heap s) x.
Proof. intros F. apply (K_ext _ _ _ K); auto; apply F. Qed.
Lemma save_fine s g' i v : fine s -> ext (c_heap s) g' -> nice g' -> okv g' v ->
  fine (mkC (fun j => if Nat.eqb j i then Some v else c_memo s j) g').
Proof.
  intros F X N V. constructor; cbn; auto.
  - eapply ext_trans; [apply F|auto].
  - intros j w. destruct (Nat.eqb j i); [intros [= <-]; auto|]. intros H. apply (K_ext _ _ _ K (c_heap s)); auto; [apply F|].
    eapply F_memo; eauto.
Qed.

Lemma cloneArgs_goes f args : (forall p j s, nth_error args p = Some (ANode j) -> fine s -> goes s (f p j s)) ->
  forall ps acc s, fine s -> (forall p, In p ps -> p < length args) -> (forall p v, acc p = Some v -> okv (c_heap s) v) ->
  cloneArgs f args ps acc s = SThrow \/
  exists s' acc', cloneArgs f args ps acc s = SOk (s', acc') /\ ext (c_heap s) (c_heap s') /\ fine s' /\
    (forall p v, acc' p = Some v -> okv (c_heap s') v) /\ (forall p, In p ps \/ acc p <> None -> acc' p <> None).
Proof.
  intros F. induction ps as [|p ps IH]; intros acc s FS HP HA; cbn [cloneArgs].
  - right. exists s, acc. split; auto. split; [apply ext_refl|]. split; auto. split; auto. intros p [[]|]; auto.
  - destruct (nth_error args p) as [[j|b]|] eqn:E.
    + destruct (F p j s E FS) as [->|[s1 [v [-> [X1 [F1 V1]]]]]]; [now left|]. cbn [sbind].
      destruct (IH (fun q => if Nat.eqb q p then Some v else acc q) s1 F1) as [->|[s2 [acc2 [-> [X2 [F2 [A2 C2]]]]]]].
      * intros q Hq. apply HP. now right.
      * intros q w. destruct (Nat.eqb q p); [intros [= <-]; auto|]. intros Hw. apply (K_ext _ _ _ K (c_heap s)); auto; try apply FS; try apply F1.
        eapply HA; eauto.
      * now left.
      * right. exists s2, acc2. split; auto. split; [eapply ext_trans; eauto|]. split; auto. split; auto.
        intros q [[->|Hq]|Hq]; apply C2; auto.
        -- right. now rewrite Nat.eqb_refl.
        -- right. destruct (Nat.eqb q p); [discriminate|auto].
    + cbn [sbind].
      destruct (IH (fun q => if Nat.eqb q p then Some (Par b) else acc q) s FS) as [->|[s2 [acc2 [-> [X2 [F2 [A2 C2]]]]]]].
      * intros q Hq. apply HP. now right.
      * intros q w. destruct (Nat.eqb q p); [intros [= <-]; apply (K_par _ _ _ K)|]. apply HA.
      * now left.
      * right. exists s2, acc2. split; auto. split; auto. split; auto. split; auto.
        intros q [[->|Hq]|Hq]; apply C2; auto.
        -- right. now rewrite Nat.eqb_refl.
        -- right. destruct (Nat.eqb q p); [discriminate|auto].
    + exfalso. apply nth_error_None in E. specialize (HP p (or_introl eq_refl)). lia.
Qed.

Lemma all_some_total {T} (acc : nat -> option T) (P : T -> Prop) : (forall p v, acc p = Some v -> P v) ->
  forall l, (forall p, In p l -> acc p <> None) ->
  exists vs, all_some (map acc l) = Some vs /\ Forall P vs /\ length vs = length l.
Proof.
  intros HP. induction l as [|p l IH]; intros HL; cbn.
  - exists []. auto.
  - destruct (acc p) as [v|] eqn:E; [|exfalso; apply (HL p); [now left|auto]].
    destruct IH as [vs [-> [F1 F2]]]; [intros; apply HL; now right|]. exists (v :: vs). split; auto. split; [constructor; eauto|].
    cbn. congruence.
Qed.

Lemma cloneOps_goes : forall fuel pre i s, r i < fuel -> visit pre i -> fine s -> goes s (cloneOps decide ord inds fuel pre i s).
Proof.
  induction fuel as [|fuel IH]; intros pre i s HF Vi FS; [lia|]. cbn [cloneOps].
  destruct (c_memo s i) as [w|] eqn:EM.
  { right. exists s, w. split; auto. split; [apply ext_refl|]. split; auto. eapply F_memo; eauto. }
  pose proof (visit_ok pre i Vi) as VO. destruct (decide pre i) as [x| |] eqn:ED.
  - right. do 2 eexists. split; [reflexivity|]. cbn [c_heap fst snd]. split; [apply ext_refl|].
    pose proof (okv_up s x FS VO). split; auto. apply save_fine; auto; [apply ext_refl|apply FS].
  - pose proof (visit_in _ _ Vi) as Hi. destruct (nth_error g0 i) as [d|] eqn:EN0; [|apply nth_error_None in EN0; lia].
    rewrite (ext_nth _ _ _ _ (F_ext _ FS) EN0).
    destruct (handled (n_op d)) eqn:EH; cbn [negb]; [|now left].
    destruct (isInv (n_op d)) eqn:EI.
    + destruct (n_op d) eqn:EO; try discriminate. destruct (indepIndex inds i); [|now left].
      right. do 2 eexists. split; [reflexivity|]. cbn [c_heap fst snd]. split; [apply ext_refl|].
      pose proof (okv_up s (Var i None) FS (VO d k eq_refl EO)). split; auto. apply save_fine; auto; [apply ext_refl|apply FS].
    + assert (AR : length (n_args d) = arity (n_op d)).
      { unfold wf_arity in WA. rewrite Forall_forall in WA. apply WA. eapply nth_error_In; eauto. }
      match goal with |- goes s ?X => assert (E : X = sbind (cloneArgs (fun p j s' => cloneOps decide ord inds fuel (pre ++ [(i, Some p)]) j s') (n_args d) (ord i (length (n_args d)))
                     (fun _ => None) s) (fun '(s1, acc) =>
                match all_some (map acc (seq 0 (length (n_args d)))) with
                | None => SUndef
                | Some vs =>
                    match cg_op (n_op d) vs (c_heap s1) with
                    | Throw => SThrow
                    | Ok (g', v) => SOk (mkC (fun j => if Nat.eqb j i then Some v else c_memo s1 j) g', v)
                    end
                end)) by (destruct (n_op d); try discriminate; auto); rewrite E; clear E end.
      destruct (cloneArgs_goes (fun p j s' => cloneOps decide ord inds fuel (pre ++ [(i, Some p)]) j s') (n_args d)) with
        (ps := ord i (length (n_args d))) (acc := fun _ : nat => @None (cg B)) (s := s) as [->|[s1 [acc [-> [X1 [F1 [A1 C1]]]]]]]; auto.
      * intros p j s' Ha FS'. destruct (visit_next pre i d p j Vi ED EN0 Ha) as [Vj Rj]. apply IH; auto. lia.
      * intros p Hp. eapply Permutation_in in Hp; [|apply ord_all]. apply in_seq in Hp. lia.
      * discriminate.
      * now left.
      * cbn [sbind].
        destruct (all_some_total acc (okv (c_heap s1)) A1 (seq 0 (length (n_args d)))) as [vs [-> [F2 L2]]].
        { intros p Hp. apply C1. left. eapply Permutation_in; [apply Permutation_sym, ord_all|auto]. }
        destruct (cg_op_keeps h nice okv K (c_heap s1) (n_op d) vs EI) as [g' [v [-> [X2 [N2 V2]]]]]; auto; [|apply F1|].
        { now rewrite L2, seq_length. }
        right. do 2 eexists. split; [reflexivity|]. cbn [c_heap]. split; [eapply ext_trans; eauto|]. split; auto.
        apply save_fine; auto.
  - right. do 2 eexists. split; [reflexivity|]. cbn [c_heap fst snd]. split; [apply ext_refl|].
    pose proof (okv_up s (Var i None) FS VO). split; auto. apply save_fine; auto; [apply ext_refl|apply FS].
Qed.

Lemma cloneEval_goes fuel root : r root < fuel -> visit [] root ->
  cloneEval decide ord inds fuel g0 root = SThrow \/
  exists g' v, cloneEval decide ord inds fuel g0 root = SOk (g', v) /\ ext g0 g' /\ nice g' /\ okv g' v.
Proof.
  intros HF Vi. unfold cloneEval.
  destruct (cloneOps_goes fuel [] root (mkC (fun _ => None) g0) HF Vi) as [->|[s' [v [-> [X [F V]]]]]].
  - constructor; cbn; auto; [apply ext_refl|discriminate].
  - now left.
  - right. cbn [sbind]. exists (c_heap s'), v. split; auto. split; auto. split; auto. apply F.
Qed.
End Clone.

(** ** The coefficient *)
Lemma coefSteps_goes g0 : nice g0 -> wf_arity g0 -> forall p g prev c n var, ext g0 g -> down_path g0 n p var ->
  (forall n i d k a, In (n, Some i) p -> nth_error g0 n = Some d -> k <> i -> nth_error (n_args d) k = Some a -> okv g0 (toCG a)) ->
  collectable g0 p = SOk tt -> nice g -> okv g c ->
  exists g' x, coefSteps g prev p c = SOk (g', x) /\ ext g g' /\ nice g' /\ okv g' x.
Proof.
  intros N0 WA. induction p as [|[n' i'] p IH]; intros g prev c n var X D OTH HC NG V; [inversion D|].
  inversion D as [m E1 E2|n2 i j p' m Lk D' E1 E2 E3]; subst.
  - exists g, c. split; auto. split; [apply ext_refl|auto].
  - destruct Lk as [d [Hn Ha]]. cbn [coefSteps]. cbn [collectable] in HC.
    destruct p as [|q p]; [inversion D'|]. rewrite Hn in HC. rewrite (ext_nth _ _ _ _ X Hn).
    assert (AR : length (n_args d) = arity (n_op d)).
    { unfold wf_arity in WA. rewrite Forall_forall in WA. apply WA. eapply nth_error_In; eauto. }
    assert (LI : i < length (n_args d)) by (apply nth_error_Some; congruence).
    assert (AG : forall k, k < length (n_args d) -> k <> i -> exists x, argCG (n_args d) k = SOk x /\ okv g x).
    { intros k Hk Hki. unfold argCG. destruct (nth_error (n_args d) k) as [a|] eqn:E; [|apply nth_error_None in E; lia].
      exists (toCG a). split; auto. apply (K_ext _ _ _ K g0); auto. eapply OTH; eauto. now left. }
    assert (NEXT : forall g1 c1, ext g g1 -> nice g1 -> okv g1 c1 -> collectable g0 (q :: p) = SOk tt ->
      exists g' x, coefSteps g1 (Some i) (q :: p) c1 = SOk (g', x) /\ ext g g' /\ nice g' /\ okv g' x).
    { intros g1 c1 X1 N1 V1 HC1. destruct (IH g1 (Some i) c1 j var) as [g' [x [E [X2 [N2 V2]]]]]; auto.
      - eapply ext_trans; eauto.
      - intros n0 i0 d0 k a Hin. apply OTH. now right.
      - exists g', x. split; auto. split; auto. eapply ext_trans; eauto. }
    assert (KEEP : forall res, keeps nice okv g res -> collectable g0 (q :: p) = SOk tt ->
      exists g' x, sbind (ofres res) (fun '(g1, c1) => coefSteps g1 (Some i) (q :: p) c1) = SOk (g', x) /\ ext g g' /\ nice g' /\ okv g' x).
    { intros res [g1 [c1 [-> [X1 [N1 V1]]]]] HC1. cbn [ofres sbind]. now apply NEXT. }
    destruct (n_op d) eqn:EO; try discriminate HC; cbn [arity] in AR; cbn [sbind]; try (apply NEXT; auto; apply ext_refl).
    + destruct (oeqb prev (Some 1)); [apply KEEP; auto; eapply cneg_keeps; eauto|]. cbn [sbind]. apply NEXT; auto. apply ext_refl.
    + destruct (AG (if isFirst (Some i) then 1 else 0)) as [x [-> Vx]]; [destruct i; cbn; lia|destruct i; cbn; lia|].
      cbn [sbind]. apply KEEP; auto. eapply casg_keeps; eauto.
    + destruct (isFirst (Some i)) eqn:EF; [|discriminate HC]. destruct i; [|discriminate].
      destruct (AG 1) as [x [-> Vx]]; [lia|lia|].
      cbn [sbind]. apply KEEP; auto. eapply casg_keeps; eauto.
    + apply KEEP; auto. eapply cneg_keeps; eauto.
Qed.
End Keep.

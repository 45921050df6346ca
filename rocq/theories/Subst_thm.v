(** * Substituting independent variables (C35) *)
From Coq Require Import List Bool Arith Lia Permutation Reals Lra Qcanon.
From Verif Require Import Graph_model Graph_spec CGArith_model CGArith_spec CGArith_proofs Codegen_spec Eval_model Eval_proofs
  Path_model Path_spec Path_proofs Path_graph Solve_model Solve_spec Solve_proofs Solve_total Solve_once Solve_thm Solve_collect_thm
  Solve_fuel Solve_keep Solve_many Solve_loop Solve_plain Solve_many_thm Solve_grow Pool_model Pool_proofs Subst_model Graph_Qc Graph_R.
Import ListNotations.
Local Open Scope nat_scope.

(** ** Specification *)

(** [g'] is [g] where node [n] is an alias of [e] *)
Definition aliased {B} (g : heap B) (n : nat) (e : cg B) (g' : heap B) : Prop :=
  length g' = length g /\ (forall m, m <> n -> nth_error g' m = nth_error g m) /\
  exists d, nth_error g n = Some d /\ nth_error g' n = Some (mkNode (n_handler d) GAlias [match e with Par b => APar b | Var i _ => ANode i end]).

(** the values [env] of the independent variables, but [v] for variable [k] of handler [h] *)
Definition with_value {B} (env : nat -> nat -> B) (h k : nat) (v : B) : nat -> nat -> B :=
  fun h' k' => if Nat.eqb h' h && Nat.eqb k' k then v else env h' k'.

(** [indep] is an independent variable of handler [h], with number [k], which no other node has *)
Definition independent {B} (g : heap B) (h indep k : nat) : Prop :=
  nth_error g indep = Some (mkNode h (GInv k) []) /\
  forall n d, nth_error g n = Some d -> n_handler d = h -> n_op d = GInv k -> n = indep.

Section Proofs.
Context {B : Type} {O : BaseOps B}.
Implicit Type g : heap B.

Lemma nth_setNth {A} (l : list A) : forall i j a, nth_error (setNth l i a) j = if Nat.eqb i j then option_map (fun _ => a) (nth_error l j) else nth_error l j.
Proof.
  induction l as [|x l IH]; intros i j a.
  - destruct i, j; cbn; auto; destruct (Nat.eqb i j); reflexivity.
  - destruct i, j; cbn; auto. 
Qed.

Lemma setNth_aliased g n d e : nth_error g n = Some d -> aliased g n e (setNth g n (mkNode (n_handler d) GAlias [argument e])).
Proof.
  intros E. split; [apply setNth_length|]. split.
  - intros m N. rewrite nth_setNth. destruct (Nat.eqb_spec n m); [congruence|auto].
  - exists d. split; auto. rewrite nth_setNth, Nat.eqb_refl, E. destruct e; reflexivity.
Qed.

Lemma solves_unique g env s1 s2 : no_cycle g -> closed g -> solves env g s1 -> solves env g s2 -> forall n, n < length g -> s1 n = s2 n.
Proof.
  intros [r RK] C H1 H2.
  enough (H : forall k n, r n < k -> n < length g -> s1 n = s2 n) by (intros n; apply (H (S (r n))); lia).
  induction k as [|k IH]; intros n Hk Hn; [lia|].
  destruct (nth_error g n) as [d|] eqn:E; [|apply nth_error_None in E; lia].
  rewrite (H1 n d E), (H2 n d E). f_equal. apply map_ext_in. intros [j|b] Hj; cbn; auto.
  apply In_nth_error in Hj. destruct Hj as [i Hi].
  assert (L : link g n i j) by (exists d; auto). apply IH; [apply RK in L; lia|]. eapply C; [exact E|]. eapply nth_error_In; eauto.
Qed.

(** a new link from [indep] to an expression without [indep] makes no cycle *)
Lemma alias_handler_nodes h g indep e g' : handler_nodes h g -> valid g e -> free_of g indep e -> aliased g indep e g' -> handler_nodes h g'.
Proof.
  intros HG VE FE (AL & AO & d & Ed & EA).
  assert (N : forall n d', nth_error g' n = Some d' -> (n = indep /\ d' = mkNode (n_handler d) GAlias [argument e]) \/ nth_error g n = Some d').
  { intros n d' H. destruct (Nat.eq_dec n indep) as [->|NE]; [left; split; auto; destruct e; cbn; congruence|right; rewrite <- AO; auto]. }
  assert (HO := Hn_owned _ _ HG). unfold owned_by in HO. rewrite Forall_forall in HO.
  assert (HA := Hn_arity _ _ HG). unfold wf_arity in HA. rewrite Forall_forall in HA.
  constructor.
  - apply Forall_forall. intros d' H. apply In_nth_error in H. destruct H as [n H]. apply N in H. destruct H as [[_ ->]|H].
    + cbn. apply HO. eapply nth_error_In; eauto.
    + apply HO. eapply nth_error_In; eauto.
  - intros n d' j H Hj. rewrite AL. apply N in H. destruct H as [[_ ->]|H]; [|eapply (Hn_closed _ _ HG); eauto].
    cbn in Hj. destruct Hj as [Hj|[]]. destruct e; cbn in Hj; [discriminate|]. injection Hj as <-. exact VE.
  - destruct (Hn_cycle _ _ HG) as [r RK].
    (* above indep: everything which contains it *)
    assert (DEC : forall n, {occurs g n indep} + {~ occurs g n indep}).
    { (* by the search itself *)
      intros n. destruct (findPathGraph g (S (r n)) n indep 0 None) as [[G b]| |] eqn:E.
      2,3: exfalso; destruct (findPathGraph_ok g r RK n indep (S (r n)) None (le_n _)) as [G [b [E' _]]]; congruence.
      destruct (pg_contains G n) eqn:C.
      - left. destruct (findPathGraph_ok g r RK n indep (S (r n)) None (le_n _)) as [G' [b' [E' [P _]]]]. rewrite E in E'. injection E' as <- <-.
        apply (PG_between _ _ _ _ P) in C. apply C.
      - right. intros Oc. destruct (findPathGraph_ok g r RK n indep (S (r n)) None (le_n _)) as [G' [b' [E' [P [CG _]]]]]. rewrite E in E'. injection E' as <- <-.
        specialize (CG eq_refl). rewrite (CG_between _ _ _ _ CG) in C; [discriminate|]. split; auto. apply occurs_refl. }
    assert (BD : exists M, forall j, match e with Var i _ => j = i | Par _ => False end -> r j < M).
    { destruct e as [b|i v]; [exists 0; tauto|exists (S (r i)); intros j ->; lia]. }
    destruct BD as [M BD].
    exists (fun n => if DEC n then M + r n else r n). intros n i j [d' [Hn Ha]]. apply N in Hn. destruct Hn as [[-> ->]|Hn].
    + cbn in Ha. destruct i as [|i]; [|destruct i; discriminate]. cbn in Ha. destruct e as [b|i v]; cbn in Ha; [discriminate|]. injection Ha as <-.
      destruct (DEC i) as [D|_]; [exfalso; apply FE; exact D|]. destruct (DEC indep) as [_|D]; [|exfalso; apply D, occurs_refl].
      specialize (BD i eq_refl). lia.
    + assert (L : link g n i j) by (exists d'; auto). pose proof (RK _ _ _ L).
      destruct (DEC j) as [D|D], (DEC n) as [D'|D']; try lia. exfalso. apply D'. eapply occurs_trans; [eapply occurs_link; eauto|auto].
  - apply Forall_forall. intros d' H. apply In_nth_error in H. destruct H as [n H]. apply N in H. destruct H as [[_ ->]|H]; [reflexivity|].
    apply HA. eapply nth_error_In; eauto.
Qed.

(** a solution of the new graph solves the old one, the variable having the value of the expression *)
Lemma alias_solves env h g indep k e g' sol v : independent g h indep k -> aliased g indep e g' -> solves env g' sol -> sv sol e = Some v ->
  solves (with_value env h k v) g sol.
Proof.
  intros [EI UI] (AL & AO & d & Ed & EA) S V n d' Hn.
  destruct (Nat.eq_dec n indep) as [->|NE].
  - rewrite EI in Hn. injection Hn as <-. rewrite (S indep _ EA). cbn. unfold with_value. rewrite !Nat.eqb_refl. cbn.
    destruct e; cbn in *; auto.
  - rewrite (S n d'); [|rewrite AO; auto]. destruct (n_op d') eqn:EO; try reflexivity. cbn. destruct (map (sval sol) (n_args d')); auto.
    unfold with_value. destruct (Nat.eqb_spec (n_handler d') h) as [E1|]; auto. destruct (Nat.eqb_spec k0 k) as [->|]; auto.
    exfalso. apply NE. eapply UI; eauto.
Qed.

Lemma independent_grows g g' h indep k : independent g h indep k -> grows g g' -> independent g' h indep k.
Proof.
  intros [E U] [t [-> F]]. assert (L : indep < length g) by (apply nth_error_Some; congruence).
  split; [now rewrite nth_error_app1|]. intros n d Hn Hh Ho. destruct (Nat.lt_ge_cases n (length g)) as [LT|GE].
  - rewrite nth_error_app1 in Hn by auto. eauto.
  - rewrite nth_error_app2 in Hn by auto. apply nth_error_In in Hn. rewrite Forall_forall in F. apply F in Hn. rewrite Ho in Hn. discriminate.
Qed.

Lemma setNth_undo {A} (l : list A) n x y : nth_error l n = Some x -> setNth (setNth l n y) n x = l.
Proof. revert n. induction l as [|z l IH]; intros [|n] E; cbn in *; try discriminate; [congruence|]. f_equal. now apply IH. Qed.

Lemma index_in l n : (exists k, indepIndex l n = Some k) <-> In n l.
Proof.
  induction l as [|m l IH]; cbn; [split; [intros [? ?]; discriminate|tauto]|].
  destruct (Nat.eqb_spec m n) as [->|NE]; [split; eauto|]. destruct IH as [I1 I2]. split.
  - intros [k H]. destruct (indepIndex l n); [|discriminate]. right. apply I1. eauto.
  - intros [H|H]; [congruence|]. destruct (I2 H) as [k ->]. cbn. eauto.
Qed.
Lemma erase_filter l n k : NoDup l -> indepIndex l n = Some k -> eraseNth l k = filter (fun m => negb (Nat.eqb m n)) l.
Proof.
  revert k. induction l as [|m l IH]; intros k ND H; [discriminate|]. inversion ND as [|? ? NI ND']; subst. cbn in H |- *.
  destruct (Nat.eqb_spec m n) as [->|NE]; cbn.
  - injection H as <-. symmetry. clear -NI. induction l as [|x l IH]; cbn; auto. destruct (Nat.eqb_spec x n) as [->|]; cbn.
    + exfalso. apply NI. now left.
    + f_equal. apply IH. intros Hn. apply NI. now right.
  - destruct (indepIndex l n) as [k'|]; [|discriminate]. injection H as <-. f_equal. now apply IH.
Qed.
End Proofs.

(** ** C35 *)

(** Substituting always ends, with an exception or with a new graph.  In the new graph the independent variable is an alias
    of an expression [e] which does not contain it; some nodes were added; there is no cycle, and all other nodes are as
    before.  Wherever the variable has a value [v], the value of every node is that of the original expression with the
    variable having the value [v] ([with_value]).  The variable is dropped from the independent variables exactly when this is asked for. *)
Theorem C35_substitution_replaces_the_variable : forall {B} {O : BaseOps B} half h (s : gstate B) indep k dep remove ord max,
  handler_nodes h (gs_heap s) -> independent (gs_heap s) h indep k -> dep < length (gs_heap s) -> dep <> indep ->
  NoDup (gs_inds s) -> (forall i n, Permutation (ord i n) (seq 0 n)) ->
  match max with None => True | Some M => 1 <= M /\ at_most_paths (gs_heap s) dep indep M end ->
  exists N out,
    (forall fuel loops, N <= fuel -> N <= loops -> substituteIndependent half h max loops fuel ord s indep dep remove = out) /\
    (out = SThrow \/
     exists s' added e, out = SOk s' /\ In indep (gs_inds s) /\
       aliased (gs_heap s ++ added) indep e (gs_heap s') /\ free_of (gs_heap s ++ added) indep e /\ handler_nodes h (gs_heap s') /\
       gs_inds s' = (if remove then filter (fun m => negb (Nat.eqb m indep)) (gs_inds s) else gs_inds s) /\
       forall env env0 sol sol0 v, solves env (gs_heap s') sol -> sol indep = Some v ->
         env0 = with_value env h k v -> solves env0 (gs_heap s) sol0 ->
         forall n, n < length (gs_heap s) -> sol n = sol0 n).
Proof.
  intros B O half h [g inds nm] indep k dep remove ord max HG HI LD NE ND OA HM. cbn [gs_heap gs_inds gs_names] in *.
  pose proof HI as [EI UI]. assert (LI : indep < length g) by (apply nth_error_Some; congruence).
  destruct (C46_solveFor_returns_or_throws half h g dep indep ord inds max HG LD LI NE OA HM) as [N [out [HN HO]]].
  destruct (indepIndex inds indep) as [ix|] eqn:EX.
  2:{ exists 0, SThrow. split; [|now left]. intros. unfold substituteIndependent. cbn [gs_inds]. now rewrite EX. }
  assert (II : In indep inds) by (apply index_in; eauto).
  destruct (nth_error g dep) as [d|] eqn:ED; [|apply nth_error_None in ED; lia].
  assert (HD : n_handler d = h).
  { pose proof (Hn_owned _ _ HG) as W. unfold owned_by in W. rewrite Forall_forall in W. apply W. eapply nth_error_In; eauto. }
  assert (EQ : forall fuel loops, N <= fuel -> N <= loops ->
    substituteIndependent half h max loops fuel ord (mkG g inds nm) indep dep remove =
    sbind out (fun '(g1, dummyExp) =>
            let s1 := makeAlias (mkG g1 inds nm) indep (argument dummyExp) in
            SOk (if remove then mkG (gs_heap s1) (eraseNth (gs_inds s1) ix) (gs_names s1) else s1))).
  { intros fuel loops HF HL. unfold substituteIndependent. cbn [gs_inds gs_heap gs_names]. rewrite EX, ED, HD, Nat.eqb_refl, HN by auto. reflexivity. }
  destruct HO as [->|[g1 [e [-> [VE [FE [HG1 [added ->]]]]]]]]; cbn [sbind] in EQ.
  - exists N, SThrow. split; auto.
  - assert (EI1 : nth_error (g ++ added) indep = Some (mkNode h (GInv k) [])) by (rewrite nth_error_app1; auto).
    exists N. eexists. split; [exact EQ|]. right.
    set (g2 := setNth (g ++ added) indep (mkNode h GAlias [argument e])).
    assert (AL : aliased (g ++ added) indep e g2) by exact (setNth_aliased (g ++ added) indep _ e EI1).
    eexists. exists added, e. split; [reflexivity|]. split; auto.
    assert (Q : makeAlias (mkG (g ++ added) inds nm) indep (argument e) = mkG g2 inds (fun j => if Nat.eqb j indep then None else nm j)).
    { unfold makeAlias. cbn [gs_heap gs_inds gs_names]. rewrite EI1. reflexivity. }
    rewrite Q. cbn [gs_heap gs_inds gs_names].
    assert (H2 : gs_heap (if remove then mkG g2 (eraseNth inds ix) (fun j => if Nat.eqb j indep then None else nm j) else mkG g2 inds (fun j => if Nat.eqb j indep then None else nm j)) = g2)
      by (destruct remove; reflexivity).
    rewrite H2. split; [exact AL|]. split; auto. split; [eapply alias_handler_nodes; eauto|]. split.
    + destruct remove; cbn; auto. now apply erase_filter.
    + intros env env0 sol sol0 v S Hv -> S0 n Hn.
      assert (VV : sv sol e = Some v).
      { destruct AL as (_ & _ & d0 & E0 & EA). rewrite (S _ _ EA) in Hv. cbn in Hv. destruct e; cbn in *; auto. }
      assert (S1 : solves (with_value env h k v) g sol).
      { intros m dm Hm. destruct (Nat.eq_dec m indep) as [->|NM].
        - rewrite EI in Hm. injection Hm as <-. rewrite Hv. cbn. unfold with_value. now rewrite !Nat.eqb_refl.
        - destruct AL as (_ & AO & _). assert (Hm2 : nth_error g2 m = Some dm).
          { rewrite AO; auto. rewrite nth_error_app1; auto. apply nth_error_Some. congruence. }
          rewrite (S m dm Hm2). destruct (n_op dm) eqn:EO; try reflexivity. cbn. destruct (map (sval sol) (n_args dm)); auto.
          unfold with_value. destruct (Nat.eqb_spec (n_handler dm) h) as [E1|]; auto. destruct (Nat.eqb_spec k0 k) as [->|]; auto.
          exfalso. apply NM. eapply UI; eauto. }
      apply (solves_unique g (with_value env h k v)); auto; apply HG.
Qed.
Print Assumptions C35_substitution_replaces_the_variable.

(** The substituted equation holds: when the variable occurs once in the equation, and the functions inverted along the way
    are used within their domains, the equation is zero in the new graph, whatever the values of the remaining variables. *)
Theorem C35_substituted_equation_holds : forall {B} {O : BaseOps B} half (L : BaseLaws B), is_field B -> inverse_laws B half ->
  forall h (s : gstate B) indep k dep ord max,
  handler_nodes h (gs_heap s) -> independent (gs_heap s) h indep k -> dep < length (gs_heap s) -> dep <> indep ->
  once (gs_heap s) dep indep -> max <> Some 0 ->
  exists N, forall fuel loops remove s' p env sol v x, N <= fuel -> 1 <= loops ->
    substituteIndependent half h max loops fuel ord s indep dep remove = SOk s' ->
    solves env (gs_heap s') sol -> sol indep = Some v ->
    down_path (gs_heap s) dep p indep -> back half sol (gs_heap s) p b0 x ->
    v = x /\ sol dep = Some b0.
Proof.
  intros B O half L FL IL h [g inds nm] indep k dep ord max HG HI LD NE HO MX. cbn [gs_heap gs_inds gs_names] in *.
  pose proof HI as [EI UI]. assert (LI : indep < length g) by (apply nth_error_Some; congruence).
  destruct (C21_solution_makes_expression_zero half L FL IL g dep indep (Hn_cycle _ _ HG) (Hn_closed _ _ HG) HO NE) as [N1 H1].
  destruct (C21_solution_without_the_variable half h g dep indep HG HO NE) as [N2 H2].
  exists (Nat.max N1 N2). intros fuel loops remove s' p env sol v x HF HL HS S Hv D Bk.
  unfold substituteIndependent in HS. cbn [gs_heap gs_inds gs_names] in HS.
  destruct (indepIndex inds indep) as [ix|]; [|discriminate].
  destruct (nth_error g dep) as [d|]; [|discriminate].
  destruct (negb (n_handler d =? h)); [discriminate|].
  apply sbind_ok in HS. destruct HS as [[g1 e] [ES HS]].
  destruct (H2 fuel loops max ord inds g1 e ltac:(lia) HL MX ES) as [FE [HG1 [added ->]]].
  assert (EI1 : nth_error (g ++ added) indep = Some (mkNode h (GInv k) [])) by (rewrite nth_error_app1; auto).
  set (g2 := setNth (g ++ added) indep (mkNode h GAlias [argument e])).
  assert (AL : aliased (g ++ added) indep e g2) by exact (setNth_aliased (g ++ added) indep _ e EI1).
  assert (G2 : gs_heap s' = g2).
  { unfold makeAlias in HS. cbn [gs_heap] in HS. rewrite EI1 in HS. injection HS as <-. destruct remove; reflexivity. }
  rewrite G2 in S.
  assert (VV : sv sol e = Some v).
  { destruct AL as (_ & _ & d0 & E0 & EA). rewrite (S _ _ EA) in Hv. cbn in Hv. destruct e; cbn in *; auto. }
  assert (S1 : solves (with_value env h k v) (g ++ added) sol).
  { apply (alias_solves env h (g ++ added) indep k e g2); auto. eapply independent_grows; [exact HI|]. eapply solveFor_grows; eauto. }
  destruct (H1 fuel loops max ord inds (g ++ added) e ltac:(lia) HL MX ES p _ sol _ sol x D S1 (solves_ext _ g (g ++ added) sol (ex_intro _ added eq_refl) S1)) as [V1 V2]; auto.
  { intros n d0 k0 _ _ _. reflexivity. }
  rewrite VV in V1. injection V1 as ->. auto.
Qed.
Print Assumptions C35_substituted_equation_holds.

(** Undoing a substitution restores the nodes, besides those which were added, and the independent variables.  Undoing throws
    when the variable was removed from the independent variables. *)
Theorem C35_undo_restores : forall {B} {O : BaseOps B} half h key (s : gstate B) indep dep ord max loops fuel remove s',
  independent (gs_heap s) h indep (key indep) -> NoDup (gs_inds s) ->
  substituteIndependent half h max loops fuel ord s indep dep remove = SOk s' ->
  (remove = false -> exists s'' added, undoSubstituteIndependent key s' indep = SOk s'' /\
     gs_heap s'' = gs_heap s ++ added /\ gs_inds s'' = gs_inds s) /\
  (remove = true -> undoSubstituteIndependent key s' indep = SThrow).
Proof.
  intros B O half h key [g inds nm] indep dep ord max loops fuel remove s' [EI UI] ND H. cbn [gs_heap gs_inds gs_names] in *.
  unfold substituteIndependent in H. cbn [gs_heap gs_inds gs_names] in H.
  destruct (indepIndex inds indep) as [ix|] eqn:EX; [|discriminate].
  destruct (nth_error g dep) as [d|]; [|discriminate].
  destruct (negb (n_handler d =? h)); [discriminate|].
  apply sbind_ok in H. destruct H as [[g1 e] [ES H]].
  destruct (solveFor_grows _ _ _ _ _ _ _ _ _ _ _ ES) as [added [-> _]].
  assert (LI : indep < length g) by (apply nth_error_Some; congruence).
  assert (EI1 : nth_error (g ++ added) indep = Some (mkNode h (GInv (key indep)) [])) by (rewrite nth_error_app1; auto).
  unfold makeAlias in H. cbn [gs_heap gs_inds gs_names] in H. rewrite EI1 in H. injection H as <-.
  split; intros ->; unfold undoSubstituteIndependent; cbn [gs_heap gs_inds gs_names].
  - rewrite EX. unfold setOperation. cbn [gs_heap gs_inds gs_names]. rewrite nth_setNth, Nat.eqb_refl, EI1. cbn [option_map n_handler].
    eexists. exists added. split; [reflexivity|]. cbn [gs_heap gs_inds]. split; auto.
    now apply setNth_undo.
  - rewrite (erase_filter _ _ _ ND EX).
    destruct (indepIndex (filter (fun m => negb (Nat.eqb m indep)) inds) indep) as [k'|] eqn:E; auto. exfalso.
    assert (Q : In indep (filter (fun m => negb (Nat.eqb m indep)) inds)) by (apply index_in; eauto).
    apply filter_In in Q. rewrite Nat.eqb_refl in Q. destruct Q as [_ Q]. discriminate.
Qed.
Print Assumptions C35_undo_restores.

(** removeIndependent throws unless the node is an alias in the list of independent variables; otherwise it drops exactly this
    variable, keeping the order of the others, and changes no node. *)
Theorem C35_remove_drops_one_variable : forall {B} (s : gstate B) indep,
  indep < length (gs_heap s) -> NoDup (gs_inds s) ->
  let alias := exists d, nth_error (gs_heap s) indep = Some d /\ n_op d = GAlias in
  (removeIndependent s indep = SThrow <-> ~ (alias /\ In indep (gs_inds s))) /\
  forall s', removeIndependent s indep = SOk s' ->
    gs_heap s' = gs_heap s /\ gs_inds s' = filter (fun m => negb (Nat.eqb m indep)) (gs_inds s).
Proof.
  intros B [g inds nm] indep LI ND alias. cbn [gs_heap gs_inds] in *. unfold removeIndependent. cbn [gs_heap gs_inds gs_names].
  destruct (nth_error g indep) as [d|] eqn:E; [|apply nth_error_None in E; lia].
  assert (NA : n_op d <> GAlias -> ~ alias) by (intros N [d' [E' Q]]; try rewrite E in E'; congruence).
  assert (AA : n_op d = GAlias -> alias) by (intros Q; exists d; auto).
  destruct (n_op d); try (split; [split; auto; intros _ [Q _]; revert Q; apply NA; discriminate|discriminate]).
  destruct (indepIndex inds indep) as [k|] eqn:EX.
  - split.
    + split; [discriminate|]. intros N. exfalso. apply N. split; auto. apply index_in. eauto.
    + intros s' [= <-]. cbn [gs_heap gs_inds]. split; auto. now apply erase_filter.
  - split; [|discriminate]. split; auto. intros _ [_ Q]. apply index_in in Q. destruct Q as [k Q]. congruence.
Qed.
Print Assumptions C35_remove_drops_one_variable.

(** Substituting and removing at once is the same as removing afterwards. *)
Theorem C35_remove_later : forall {B} {O : BaseOps B} half h (s : gstate B) indep dep ord max loops fuel,
  indep < length (gs_heap s) ->
  sbind (substituteIndependent half h max loops fuel ord s indep dep false) (fun s1 => removeIndependent s1 indep) =
  substituteIndependent half h max loops fuel ord s indep dep true.
Proof.
  intros B O half h [g inds nm] indep dep ord max loops fuel LI. cbn [gs_heap] in LI.
  unfold substituteIndependent. cbn [gs_heap gs_inds gs_names].
  destruct (indepIndex inds indep) as [ix|] eqn:EX; auto.
  destruct (nth_error g dep) as [d|]; auto. destruct (negb (n_handler d =? h)); auto.
  destruct (solveFor half max loops fuel ord inds g dep indep) as [[g1 e]| | |] eqn:ES; auto. cbn [sbind].
  destruct (solveFor_grows _ _ _ _ _ _ _ _ _ _ _ ES) as [added [-> _]].
  destruct (nth_error (g ++ added) indep) as [di|] eqn:EI; [|apply nth_error_None in EI; rewrite app_length in EI; lia].
  unfold makeAlias. cbn [gs_heap gs_inds gs_names]. rewrite EI. unfold removeIndependent. cbn [gs_heap gs_inds gs_names].
  rewrite nth_setNth, Nat.eqb_refl, EI. cbn [option_map n_op]. now rewrite EX.
Qed.
Print Assumptions C35_remove_later.

(** ** Cases *)

(** in exp(2 x) - y = 0 (case_graph), x is replaced by log(y) / 2 *)
Definition sub_state : gstate R := mkG case_graph [0; 1] (fun n => Some n).
Definition sub_heap : heap R := setNth case_result 0 (mkNode 0 GAlias [ANode 6]).
Example C35_case : forall x y, (0 < y)%R ->
  handler_nodes 0 (gs_heap sub_state) /\ independent (gs_heap sub_state) 0 0 0 /\ NoDup (gs_inds sub_state) /\
  once (gs_heap sub_state) 4 0 /\
  (forall max loops ord remove, max <> Some 0 -> exists s',
     substituteIndependent (/ 2)%R 0 max (S loops) 10 ord sub_state 0 4 remove = SOk s' /\ gs_heap s' = sub_heap) /\
  solves (fun _ k => if Nat.eqb k 0 then x else y) sub_heap (case_values (ln y / 2) y) /\
  back (/ 2)%R (case_values (ln y / 2) y) (gs_heap sub_state) case_path b0 (ln y / 2)%R.
Proof.
  intros x y Hy. split; [apply case_nodes|]. split; [|split; [|split; [apply case_once|split; [|split]]]].
  - split; [reflexivity|]. intros n d Hn _ Ho. destruct n as [|[|[|[|[|n]]]]]; cbn in Hn; [reflexivity|injection Hn as <-; discriminate..|].
    destruct n; discriminate.
  - repeat constructor; cbn; intuition discriminate.
  - intros max loops ord remove MX. unfold substituteIndependent. cbn [gs_inds sub_state gs_heap indepIndex Nat.eqb case_graph nth_error n_handler negb gs_names].
    change [mkNode 0 (GInv 0) []; mkNode 0 (GInv 1) []; mkNode 0 GMul [APar 2%R; ANode 0]; mkNode 0 (GFun Exp) [ANode 2]; mkNode 0 GSub [ANode 3; ANode 1]] with case_graph.
    rewrite case_solved by auto. cbn [sbind]. eexists. split; [reflexivity|]. destruct remove; reflexivity.
  - intros n d H. destruct n as [|[|[|[|[|[|[|n]]]]]]]; cbn in H; [injection H as <-; try reflexivity..|].
    + cbn. destruct (Req_EM_T 2 0); [lra|reflexivity].
    + destruct n; discriminate.
  - apply case_back; auto.
Qed.

(** substituteIndependent(x, x) makes x an alias of itself: the graph gets a cycle *)
Theorem C35_substituting_itself_refuted : exists (s : gstate Qc) indep, 
  handler_nodes 0 (gs_heap s) /\ independent (gs_heap s) 0 indep 0 /\
  forall half max loops fuel ord, exists s',
    substituteIndependent half 0 max loops fuel ord s indep indep false = SOk s' /\ ~ no_cycle (gs_heap s').
Proof.
  exists (mkG [mkNode 0 (GInv 0) []] [0] (fun _ => None)), 0. cbn [gs_heap].
  split; [apply nodes_ok_spec; reflexivity|]. split.
  - split; [reflexivity|]. intros n d Hn _ _. destruct n as [|n]; auto. destruct n; discriminate.
  - intros. eexists. split; [reflexivity|]. cbn. intros [r RK]. assert (r 0 < r 0); [|lia]. apply (RK 0 0 0). eexists. split; reflexivity.
Qed.
Print Assumptions C35_substituting_itself_refuted.

(** the name of the variable is lost: makeAlias drops it and undoing does not bring it back (operation_node.hpp 76) *)
Theorem C35_undo_loses_the_name_refuted : exists (s : gstate Qc) indep dep,
  handler_nodes 0 (gs_heap s) /\ independent (gs_heap s) 0 indep 0 /\ gs_names s indep <> None /\
  forall half max ord, max <> Some 0 -> exists s' s'',
    substituteIndependent half 0 max 1 10 ord s indep dep false = SOk s' /\ undoSubstituteIndependent (fun _ => 0) s' indep = SOk s'' /\
    gs_names s'' indep = None.
Proof.
  exists (mkG [mkNode 0 (GInv 0) []; mkNode 0 (GInv 1) []; mkNode 0 GAdd [ANode 0; ANode 1]] [0; 1] (fun _ => Some 7)), 0, 2. cbn [gs_heap gs_names].
  split; [apply nodes_ok_spec; reflexivity|]. split; [|split; [discriminate|]].
  - split; [reflexivity|]. intros n d Hn _ Ho. destruct n as [|[|[|n]]]; auto; cbn in Hn; [injection Hn as <-; discriminate..|destruct n; discriminate].
  - intros half max ord MX. destruct max as [[|m]|]; [congruence| |]; do 2 eexists; (split; [vm_compute; reflexivity|]); split; vm_compute; reflexivity.
Qed.
Print Assumptions C35_undo_loses_the_name_refuted.

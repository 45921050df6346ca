(** * Solving along a path *)
From Coq Require Import List Bool Arith Lia Field_theory Ring_theory Field.
From Verif Require Import Graph_model Graph_spec Graph_proofs CGArith_model CGArith_spec CGArith_proofs Codegen_spec
  Eval_model Eval_spec Eval_proofs Eval_inst Path_model Path_spec Path_proofs Solve_model Solve_spec.
Import ListNotations.

Section Values.
Context {B : Type} {O : BaseOps B}.
Implicit Type g : heap B.

Definition ext g g' : Prop := exists t, g' = g ++ t.
Lemma ext_refl g : ext g g. Proof. exists []. now rewrite app_nil_r. Qed.
Lemma ext_trans g1 g2 g3 : ext g1 g2 -> ext g2 g3 -> ext g1 g3.
Proof. intros [t ->] [u ->]. exists (t ++ u). now rewrite app_assoc. Qed.
Lemma ext_nth g g' n d : ext g g' -> nth_error g n = Some d -> nth_error g' n = Some d.
Proof. intros [t ->] H. rewrite nth_error_app1; auto. apply nth_error_Some. congruence. Qed.
Lemma solves_ext env g g' sol : ext g g' -> solves env g' sol -> solves env g sol.
Proof. intros E S i n H. apply S. eapply ext_nth; eauto. Qed.

Lemma sval_argument sol (x : cg B) : sval sol (argument x) = sv sol x.
Proof. destruct x; reflexivity. Qed.
Lemma sv_toCG sol (a : arg B) : sv sol (toCG a) = sval sol a.
Proof. destruct a; reflexivity. Qed.

Lemma shape_ext chk g ops res g' x : shape chk g ops res -> res = Ok (g', x) -> ext g g'.
Proof. intros S E. destruct (S g' x E) as [[-> _]|[h [o [-> _]]]]; [apply ext_refl|eexists; reflexivity]. Qed.

Lemma new_value env g h o args sol : solves env (g ++ [mkNode h o args]) sol ->
  sol (length g) = opval env h o (map (sval sol) args).
Proof. intros S. apply (S (length g) (mkNode h o args)). now rewrite nth_error_app2, Nat.sub_diag by lia. Qed.

(** an operation on CG objects: what it adds to the heap and the value of its result *)
Definition computes (g : heap B) (res : result (heap B * cg B)) (f : (nat -> option B) -> option B) : Prop :=
  forall g' x, res = Ok (g', x) -> ext g g' /\
    forall env sol v, solves env g' sol -> f sol = Some v -> sv sol x = Some v.

Section Laws.
Variable L : BaseLaws B.

Ltac inj := intros ? ? [= <- <-].
Lemma computes_old g x f : (forall sol v, f sol = Some v -> sv sol x = Some v) -> computes g (Ok (g, x)) f.
Proof. intros H. inj. split; [apply ext_refl|]. intros; auto. Qed.
Lemma computes_new g h o args v f : (forall env sol, f sol = opval env h o (map (sval sol) args)) ->
  computes g (Ok (newnode g h o args v)) f.
Proof.
  intros H g' x E. unfold newnode, makeNode in E. injection E as <- <-. split; [eexists; reflexivity|].
  intros env sol w S F. cbn. rewrite (new_value _ _ _ _ _ _ S). now rewrite <- H.
Qed.
Lemma mkBin_computes g o l r : computes g (mkBin g o l r) (fun sol => rbin o (sv sol l) (sv sol r)).
Proof.
  unfold mkBin. destruct (getHandler g l r); [|now intros ? ?].
  apply computes_new. intros env sol. cbn [map]. rewrite !sval_argument. now destruct o.
Qed.
Lemma mkAsg_computes g o l r : computes g (mkAsg g o l r) (fun sol => rbin o (sv sol l) (sv sol r)).
Proof.
  unfold mkAsg. destruct (asgHandler g l r); [|now intros ? ?].
  apply computes_new. intros env sol. cbn [map]. rewrite !sval_argument. now destruct o.
Qed.

Lemma isz a : bisz a = true -> a = b0. Proof. apply (L_isz L). Qed.
Lemma iso a : biso a = true -> a = b1. Proof. apply (L_iso L). Qed.
Lemma eqb0 a : bcmp CEq a b0 = false -> a <> b0.
Proof. intros H E. apply (L_eq L) in E. congruence. Qed.

Ltac shortc :=
  apply computes_old; intros ? ? H; unfold rbin, lift2, odiv, sv in *;
  repeat match goal with
  | E : bisz _ = true |- _ => apply isz in E; subst
  | E : biso _ = true |- _ => apply iso in E; subst
  | E : Nat.eqb _ _ = true |- _ => apply Nat.eqb_eq in E; subst
  | H : context[match ?x with _ => _ end] |- _ => destruct x eqn:?; try discriminate
  end; try injection H as <-;
  repeat match goal with E : bcmp CEq _ b0 = false |- _ => apply eqb0 in E end;
  rewrite ?(L_add0l L), ?(L_add0r L), ?(L_sub0r L), ?(L_mul0l L), ?(L_mul0r L), ?(L_mul1l L), ?(L_mul1r L),
    ?(L_div1r L), ?(L_div0l L), ?(L_divxx L) by assumption; try congruence; auto.

Lemma cbin_computes g o l r : computes g (cbin g o l r) (fun sol => rbin o (sv sol l) (sv sol r)).
Proof.
  destruct o, l as [a|i vl], r as [b|j vr]; cbn [cbin cadd csub cmul cdiv];
    repeat match goal with |- context[if ?c then _ else _] => destruct c eqn:? end;
    try (now apply mkBin_computes); shortc.
Qed.
Lemma casg_computes g o l r : computes g (casg g o l r) (fun sol => rbin o (sv sol l) (sv sol r)).
Proof.
  destruct o, l as [a|i vl], r as [b|j vr]; cbn [casg];
    repeat match goal with |- context[if ?c then _ else _] => destruct c eqn:? end;
    try (now apply mkAsg_computes); shortc.
Qed.
Lemma mkUn_computes g o f f' x : (forall env h y, opval env h o [y] = lift1 f' y) -> (forall a, f a = f' a) ->
  computes g (mkUn g o f x) (fun sol => lift1 f' (sv sol x)).
Proof.
  intros H _. unfold mkUn. destruct (getCodeHandler g x); [|now intros ? ?]. apply computes_new. intros env sol.
  cbn [map]. now rewrite sval_argument, H.
Qed.
Lemma cfun_computes g f x : computes g (cfun g f x) (fun sol => lift1 (bfun f) (sv sol x)).
Proof. destruct x; cbn [cfun]; [apply computes_old; auto|]. now apply mkUn_computes. Qed.
Lemma cneg_computes g x : computes g (cneg g x) (fun sol => lift1 bneg (sv sol x)).
Proof. destruct x; cbn [cneg]; [apply computes_old; auto|]. now apply mkUn_computes. Qed.
Lemma csign_computes g x : computes g (csign g x) (fun sol => lift1 sgn (sv sol x)).
Proof.
  destruct x; cbn [csign].
  - apply computes_old. intros sol v. cbn. rewrite (signValue_sgn L). auto.
  - apply mkUn_computes; auto. apply (signValue_sgn L).
Qed.
Lemma cpow_computes g x y : computes g (cpow g x y) (fun sol => lift2 bpow (sv sol x) (sv sol y)).
Proof.
  destruct x as [a|i vi], y as [b|j vj]; unfold cpow;
    repeat match goal with |- context[if ?c then _ else _] => destruct c eqn:? end;
    try match goal with |- context[match ?h with Some _ => _ | None => Throw end] => destruct h; [|now intros ? ?] end;
    try (apply computes_new; intros; cbn [map]; now rewrite !sval_argument).
  all: apply computes_old; intros sol v H; unfold lift2, sv in *;
    repeat match goal with
    | E : bisz _ = true |- _ => apply isz in E; subst
    | E : biso _ = true |- _ => apply iso in E; subst
    | H : context[match ?x with _ => _ end] |- _ => destruct x eqn:?; try discriminate
    end; try injection H as <-; rewrite ?(L_pow0 L), ?(L_pow1 L); auto.
Qed.
Lemma ccond_computes g c l r t f : computes g (ccond g c l r t f) (fun sol => ocond c (sv sol l) (sv sol r) (sv sol t) (sv sol f)).
Proof.
  assert (GEN : computes g (if isSameExpression t f then Ok (g, t)
    else match findCodeHandler g l r t f with
      | Throw => Throw
      | Ok h =>
        let v := match cvalue l, cvalue r with
                 | Some a, Some b => if bcmp c a b then cvalue t else cvalue f
                 | _, _ => None
                 end in
        Ok (newnode g h (GCom c) [argument l; argument r; argument t; argument f] v)
      end) (fun sol => ocond c (sv sol l) (sv sol r) (sv sol t) (sv sol f))).
  { destruct (isSameExpression t f) eqn:E.
    - apply computes_old. intros sol v H. unfold ocond in H.
      assert (EQ : sv sol f = sv sol t).
      { destruct t, f; cbn in E |- *; try discriminate.
        - apply (L_eq L) in E. congruence.
        - apply Nat.eqb_eq in E. congruence. }
      destruct (sv sol l), (sv sol r); try discriminate. rewrite EQ in H. now destruct (bcmp c _ _).
    - destruct (findCodeHandler g l r t f); [|now intros ? ?]. apply computes_new. intros. cbn [map]. now rewrite !sval_argument. }
  unfold ccond. destruct l as [a|i vi], r as [b|j vj]; auto.
  destruct (bcmp c a b) eqn:E; apply computes_old; intros sol v; cbn; rewrite E; auto.
Qed.

(** the operations of the evaluator *)
Lemma cg_op_computes g o vs env0 h0 : isInv o = false ->
  computes g (cg_op o vs g) (fun sol => opval env0 h0 o (map (sv sol) vs)).
Proof.
  intros HI. destruct o; try discriminate; destruct vs as [|a [|b [|c0 [|e [|]]]]]; cbn [cg_op]; try (intros ? ?; discriminate).
  - apply (cbin_computes g BAdd).
  - apply (cbin_computes g BSub).
  - apply (cbin_computes g BMul).
  - apply (cbin_computes g BDiv).
  - apply cpow_computes.
  - apply cneg_computes.
  - apply csign_computes.
  - apply computes_old; auto.
  - apply computes_old; auto.
  - apply cfun_computes.
  - apply ccond_computes.
Qed.

(** ** One inverted operation *)
Variable half : B.
Hypothesis FL : is_field B.
Hypothesis IL : inverse_laws B half.
Let FT : field_theory b0 b1 badd bmul bsub bneg bdiv (bdiv b1) (@eq B) := FL.
Add Field Bfield : FT.

Lemma sbind_ok {A C} (x : sres A) (f : A -> sres C) c : sbind x f = SOk c -> exists a, x = SOk a /\ f a = SOk c.
Proof. destruct x; cbn; try discriminate. eauto. Qed.
Lemma ofres_ok {A} (x : result A) a : ofres x = SOk a -> x = Ok a.
Proof. destruct x; cbn; congruence. Qed.
Lemma argCG_ok (args : list (arg B)) k x : argCG args k = SOk x -> exists a, nth_error args k = Some a /\ x = toCG a.
Proof. unfold argCG. destruct (nth_error args k); [|discriminate]. intros [= <-]. eauto. Qed.

Lemma neq_eqb a : a <> b0 -> bcmp CEq a b0 = false.
Proof. intros H. destruct (bcmp CEq a b0) eqn:E; auto. apply (L_eq L) in E. contradiction. Qed.

Definition inverts (g : heap B) (d : node B) (i : option nat) (rhs : cg B) (g' : heap B) (rhs' : cg B) : Prop :=
  ext g g' /\ forall env sol k w x, i = Some k -> solves env g' sol -> sv sol rhs = Some w ->
    inverse half sol (n_op d) (n_args d) k w x -> sv sol rhs' = Some x.

Ltac sok := repeat match goal with
  | H : sbind _ _ = SOk _ |- _ => apply sbind_ok in H; let p := fresh "p" in let E := fresh "E" in destruct H as [p [E H]]
  | H : ofres _ = SOk _ |- _ => apply ofres_ok in H
  | H : argCG _ _ = SOk _ |- _ => apply argCG_ok in H; let a := fresh "a" in let E := fresh "Ea" in destruct H as [a [E ->]]
  | p : hc |- _ => destruct p
  | p : heap B * cg B |- _ => destruct p
  end.
Ltac chainx :=
  repeat match goal with E : ext ?a ?b |- ext ?a ?c => first [exact E | refine (ext_trans _ _ _ E _)] end.

Lemma casg_c g o l r g' x : casg g o l r = Ok (g', x) -> ext g g' /\
  forall env sol v, solves env g' sol -> rbin o (sv sol l) (sv sol r) = Some v -> sv sol x = Some v.
Proof. apply casg_computes. Qed.
Lemma cbin_c g o l r g' x : cbin g o l r = Ok (g', x) -> ext g g' /\
  forall env sol v, solves env g' sol -> rbin o (sv sol l) (sv sol r) = Some v -> sv sol x = Some v.
Proof. apply cbin_computes. Qed.
Lemma cfun_c g f r g' x : cfun g f r = Ok (g', x) -> ext g g' /\
  forall env sol v, solves env g' sol -> lift1 (bfun f) (sv sol r) = Some v -> sv sol x = Some v.
Proof. apply cfun_computes. Qed.


Ltac usev := repeat match goal with H : sval ?sol ?a = Some _ |- context[sval ?sol ?a] => rewrite H end.
Ltac fin I Ea := inversion I; subst; cbn in Ea; injection Ea as <-; cbn [rbin]; usev; cbn [odiv lift2]; rewrite ?neq_eqb by auto; reflexivity.

Lemma invert_value g d i rhs g' rhs' : invert half g d i rhs = SOk (g', rhs') -> inverts g d i rhs g' rhs'.
Proof.
  destruct d as [h o args]. unfold invert, inverts. cbn [n_op n_args].
  destruct o as [| | | | | | | | | |[]|]; try discriminate; intros H.
  - (* Add *) sok. destruct (casg_c _ _ _ _ _ _ H) as [X V]. split; auto. intros env sol k w x -> S W I.
    apply (V env sol x S). rewrite W, sv_toCG. fin I Ea.
  - (* Sub *) destruct i as [[|i]|]; cbn [isFirst] in H; sok.
    + destruct (casg_c _ _ _ _ _ _ H) as [X V]. split; auto. intros env sol k w x [= <-] S W I.
      apply (V env sol x S). rewrite W, sv_toCG. fin I Ea.
    + destruct (cbin_c _ _ _ _ _ _ H) as [X V]. split; auto. intros env sol k w x [= <-] S W I.
      apply (V env sol x S). rewrite W, sv_toCG. fin I Ea.
    + destruct (cbin_c _ _ _ _ _ _ H) as [X V]. split; auto. discriminate.
  - (* Mul *) sok. destruct (casg_c _ _ _ _ _ _ H) as [X V]. split; auto. intros env sol k w x -> S W I.
    apply (V env sol x S). rewrite W, sv_toCG. fin I Ea.
  - (* Div *) destruct i as [[|i]|]; cbn [isFirst] in H; sok.
    + destruct (casg_c _ _ _ _ _ _ H) as [X V]. split; auto. intros env sol k w x [= <-] S W I.
      apply (V env sol x S). rewrite W, sv_toCG. fin I Ea.
    + destruct (cbin_c _ _ _ _ _ _ H) as [X V]. split; auto. intros env sol k w x [= <-] S W I.
      apply (V env sol x S). rewrite W, sv_toCG. fin I Ea.
    + destruct (cbin_c _ _ _ _ _ _ H) as [X V]. split; auto. discriminate.
  - (* Pow *) destruct i as [[|i]|]; cbn [isFirst] in H.
    + destruct (nth_error args 1) as [[]|] eqn:E1; try discriminate. destruct (bcmp CEq b b0); [discriminate|].
      destruct (bcmp CEq b b1); [|discriminate]. injection H as <- <-. split; [apply ext_refl|].
      intros env sol k w x [= <-] S W I. inversion I; subst. auto.
    + sok. destruct (cfun_c _ _ _ _ _ E0) as [X0 V0]. destruct (cfun_c _ _ _ _ _ E) as [X1 V1].
      destruct (cbin_c _ _ _ _ _ _ H) as [X V]. split; [chainx|]. intros env sol k w x [= <-] S W I.
      apply (V env sol x S). inversion I; subst. cbn in Ea. injection Ea as <-. cbn [rbin].
      assert (S1 := solves_ext _ _ _ _ X S). assert (S0 := solves_ext _ _ _ _ X1 S1).
      rewrite (V0 env sol (bfun Log w) S0) by (now rewrite W).
      erewrite (V1 env sol _ S1) by (rewrite sv_toCG; usev; reflexivity).
      cbn [odiv]. rewrite neq_eqb; auto. now apply (IL_pow _ IL _ w).
    + sok. destruct (cfun_c _ _ _ _ _ E0) as [X0 V0]. destruct (cfun_c _ _ _ _ _ E) as [X1 V1].
      destruct (cbin_c _ _ _ _ _ _ H) as [X V]. split; [chainx|]. discriminate.
  - (* UnMinus *) sok. destruct (casg_c _ _ _ _ _ _ H) as [X V]. split; auto. intros env sol k w x -> S W I.
    apply (V env sol x S). rewrite W. inversion I; subst. cbn. f_equal. ring.
  - (* Alias *) injection H as <- <-. split; [apply ext_refl|]. intros env sol k w x -> S W I. inversion I; subst. auto.
  - (* Cosh *) sok. destruct (cbin_c _ _ _ _ _ _ E) as [X0 V0]. destruct (cbin_c _ _ _ _ _ _ E0) as [X1 V1].
    destruct (cfun_c _ _ _ _ _ E1) as [X2 V2]. destruct (cbin_c _ _ _ _ _ _ E2) as [X3 V3]. destruct (cfun_c _ _ _ _ _ H) as [X V].
    split; [chainx|]. intros env sol k w x -> S W I. inversion I; subst.
    assert (S3 := solves_ext _ _ _ _ X S). assert (S2 := solves_ext _ _ _ _ X3 S3). assert (S1 := solves_ext _ _ _ _ X2 S2).
    assert (S0 := solves_ext _ _ _ _ X1 S1).
    apply (V env sol _ S). rewrite (V3 env sol (badd w (bfun Sqrt (bsub (bmul w w) b1))) S3); [reflexivity|].
    rewrite W, (V2 env sol (bfun Sqrt (bsub (bmul w w) b1)) S2); [reflexivity|].
    rewrite (V1 env sol (bsub (bmul w w) b1) S1); [reflexivity|]. rewrite (V0 env sol (bmul w w) S0); [reflexivity|]. now rewrite W.
  - (* Exp *) sok. destruct (cfun_c _ _ _ _ _ H) as [X V]. split; auto. intros env sol k w x -> S W I. inversion I; subst.
    apply (V env sol _ S). now rewrite W.
  - (* Log *) sok. destruct (cfun_c _ _ _ _ _ H) as [X V]. split; auto. intros env sol k w x -> S W I. inversion I; subst.
    apply (V env sol _ S). now rewrite W.
  - (* Sinh *) sok. destruct (cbin_c _ _ _ _ _ _ E) as [X0 V0]. destruct (cbin_c _ _ _ _ _ _ E0) as [X1 V1].
    destruct (cfun_c _ _ _ _ _ E1) as [X2 V2]. destruct (cbin_c _ _ _ _ _ _ E2) as [X3 V3]. destruct (cfun_c _ _ _ _ _ H) as [X V].
    split; [chainx|]. intros env sol k w x -> S W I. inversion I; subst.
    assert (S3 := solves_ext _ _ _ _ X S). assert (S2 := solves_ext _ _ _ _ X3 S3). assert (S1 := solves_ext _ _ _ _ X2 S2).
    assert (S0 := solves_ext _ _ _ _ X1 S1).
    apply (V env sol _ S). rewrite (V3 env sol (badd w (bfun Sqrt (badd (bmul w w) b1))) S3); [reflexivity|].
    rewrite W, (V2 env sol (bfun Sqrt (badd (bmul w w) b1)) S2); [reflexivity|].
    rewrite (V1 env sol (badd (bmul w w) b1) S1); [reflexivity|]. rewrite (V0 env sol (bmul w w) S0); [reflexivity|]. now rewrite W.
  - (* Sqrt *) sok. destruct (casg_c _ _ _ _ _ _ H) as [X V]. split; auto. intros env sol k w x -> S W I. inversion I; subst.
    apply (V env sol _ S). now rewrite W.
  - (* Tanh *) sok. destruct (cbin_c _ _ _ _ _ _ E) as [X0 V0]. destruct (cfun_c _ _ _ _ _ E0) as [X1 V1].
    destruct (cbin_c _ _ _ _ _ _ E1) as [X2 V2]. destruct (cfun_c _ _ _ _ _ E2) as [X3 V3]. destruct (cbin_c _ _ _ _ _ _ E3) as [X4 V4].
    destruct (cbin_c _ _ _ _ _ _ H) as [X V].
    split; [chainx|]. intros env sol k w x -> S W I. inversion I; subst.
    assert (S4 := solves_ext _ _ _ _ X S). assert (S3 := solves_ext _ _ _ _ X4 S4). assert (S2 := solves_ext _ _ _ _ X3 S3).
    assert (S1 := solves_ext _ _ _ _ X2 S2). assert (S0 := solves_ext _ _ _ _ X1 S1).
    apply (V env sol _ S). rewrite (V4 env sol (bsub (bfun Log (badd b1 w)) (bfun Log (bsub b1 w))) S4); [reflexivity|].
    rewrite (V1 env sol (bfun Log (badd b1 w)) S1). 2:{ rewrite (V0 env sol (badd b1 w) S0); [reflexivity|]. now rewrite W. }
    rewrite (V3 env sol (bfun Log (bsub b1 w)) S3). 2:{ rewrite (V2 env sol (bsub b1 w) S2); [reflexivity|]. now rewrite W. }
    reflexivity.
Qed.

(** the value of the inverse is indeed an inverse *)
Lemma inverse_sound env h sol o args i w x a : inverse half sol o args i w x -> nth_error args i = Some a ->
  sval sol a = Some x -> opval env h o (map (sval sol) args) = Some w.
Proof.
  intros I Ha Hx.
  destruct I; cbn in Ha; injection Ha as ->; cbn [map opval]; rewrite ?Hx; usev; cbn [lift1 lift2 odiv sval].
  - f_equal. ring.
  - f_equal. ring.
  - f_equal. ring.
  - f_equal. ring.
  - f_equal. field. auto.
  - f_equal. field. auto.
  - rewrite neq_eqb by auto. f_equal. field. auto.
  - assert (NZ : bdiv c w <> b0).
    { intros E. apply H0. transitivity (bmul (bdiv c w) w); [field; auto|]. rewrite E. ring. }
    rewrite neq_eqb by auto. f_equal. field. auto.
  - f_equal. ring.
  - reflexivity.
  - f_equal. now apply (IL_exp_log _ IL).
  - f_equal. now apply (IL_log_exp _ IL).
  - f_equal. apply (L_pow1 L).
  - f_equal. now apply (IL_pow _ IL).
  - f_equal. now apply (IL_sqrt _ IL).
  - f_equal. now apply (IL_cosh _ IL).
  - f_equal. now apply (IL_sinh _ IL).
  - f_equal. now apply (IL_tanh _ IL).
Qed.

Lemma solveSteps_ext p : forall g rhs g' rhs', solveSteps half g p rhs = SOk (g', rhs') -> ext g g'.
Proof.
  induction p as [|[n i] p IH]; intros g rhs g' rhs'; [discriminate|]. cbn [solveSteps]. destruct p as [|q p].
  - intros [= <- <-]. apply ext_refl.
  - destruct (nth_error g n) as [d|]; [|discriminate]. intros H. sok.
    destruct (invert_value _ _ _ _ _ _ E) as [X _]. eapply ext_trans; eauto.
Qed.

Lemma solveSteps_value p : forall g0 g rhs g' rhs' root var, ext g0 g -> down_path g0 root p var ->
  solveSteps half g p rhs = SOk (g', rhs') ->
  forall env sol w x, solves env g' sol -> sv sol rhs = Some w -> back half sol g0 p w x ->
    sv sol rhs' = Some x /\ (sol var = Some x -> sol root = Some w).
Proof.
  induction p as [|[n i] p IH]; intros g0 g rhs g' rhs' root var X0 D; [inversion D|].
  inversion D as [m E1 E2|n' i' j p' m Lk D' E1 E2 E3]; subst.
  - cbn [solveSteps]. intros [= <- <-] env sol w x S W Bk. inversion Bk; subst. split; auto.
  - destruct Lk as [d [Hn Ha]]. pose proof (ext_nth _ _ _ _ X0 Hn) as Hn'.
    assert (NE : exists q p1, p = q :: p1) by (destruct p; [inversion D'|eauto]).
    destruct NE as [q [p1 EP]]. cbn [solveSteps]. rewrite EP at 1. rewrite Hn'. intros H env sol w x S W Bk. sok.
    destruct (invert_value _ _ _ _ _ _ E) as [X1 V1].
    inversion Bk as [|n2 i2 d2 p2 w2 w1 x2 Hn2 I Bk']; subst. assert (d2 = d) as -> by congruence.
    pose proof (solveSteps_ext _ _ _ _ _ H) as X2.
    destruct (IH g0 h c g' rhs' j var (ext_trans _ _ _ X0 X1) D' H env sol w1 x S) as [R1 R2]; auto.
    { apply (V1 env sol i' w w1 eq_refl); auto. eapply solves_ext; eauto. }
    split; auto. intros Hv. specialize (R2 Hv).
    rewrite (S n d) by (eapply ext_nth; [exact X2|]; eapply ext_nth; eauto).
    eapply inverse_sound; eauto.
Qed.
End Laws.
End Values.

From Coq Require Import List Bool Arith Lia.
From Verif Require Import Graph_model Graph_spec Graph_proofs CGArith_model CGArith_spec.
Import ListNotations.

Section P.
Context {B : Type} {O : BaseOps B}.
Implicit Types g : heap B.
Implicit Type env : nat -> nat -> B.

Definition valid g (x : cg B) : Prop := match x with Par _ => True | Var i _ => i < length g end.

(** an operation result: the heap grows at the end, stays acyclic, only gets non-independent nodes, the result is valid *)
Definition grow g g' : Prop := exists t, g' = g ++ t /\ Forall (fun n => match n_op n with GInv _ => False | _ => True end) t.

Lemma grow_refl g : grow g g.
Proof. exists []. now rewrite app_nil_r. Qed.
Lemma grow_trans g1 g2 g3 : grow g1 g2 -> grow g2 g3 -> grow g1 g3.
Proof.
  intros [t1 [-> F1]] [t2 [-> F2]]. exists (t1 ++ t2). rewrite app_assoc. split; auto. now apply Forall_app.
Qed.
Lemma grow_length g g' : grow g g' -> length g <= length g'.
Proof. intros [t [-> _]]. rewrite app_length. lia. Qed.
Lemma grow_count g g' h : grow g g' -> indepCount g' h = indepCount g h.
Proof.
  intros [t [-> F]]. unfold indepCount. rewrite filter_app, app_length.
  replace (filter (is_inv_of h) t) with (@nil (node B)); [cbn; lia|].
  symmetry. induction F as [|n t Hn F IH]; auto. cbn. unfold is_inv_of at 1.
  destruct (n_op n); try contradiction; rewrite andb_false_r; auto.
Qed.
Lemma valid_grow g g' x : length g <= length g' -> valid g x -> valid g' x.
Proof. destruct x; cbn; auto. lia. Qed.
Lemma cgval_app env g t x : valid g x -> cgval env (g ++ t) x = cgval env g x.
Proof. destruct x; cbn; auto. intros. now apply denote_app. Qed.
Lemma cgval_grow env g g' x : grow g g' -> valid g x -> cgval env g' x = cgval env g x.
Proof. intros [t [-> _]]. apply cgval_app. Qed.
Lemma valid_arg g x : valid g x -> arg_below (length g) (argument x).
Proof. destruct x; cbn; auto. Qed.
Lemma aval_arg env g x : aval (vals env g) (argument x) = cgval env g x.
Proof. destruct x; reflexivity. Qed.

(** the two relations maintained: the graph value agrees with the reference value when that is defined; the stored
    value agrees with the graph value when that is defined *)
Definition okv env g (x : cg B) (rv : option B) : Prop := forall v, rv = Some v -> cgval env g x = Some v.
Definition oks env g (x : cg B) : Prop := forall v w, cgval env g x = Some v -> cvalue x = Some w -> w = v.

Lemma oks_par env g b : oks env g (Par b).
Proof. intros v w [= <-] [= <-]. reflexivity. Qed.
Hint Resolve oks_par : core.

Lemma newnode_ok g h o args v g' x : (match o with GInv _ => False | _ => True end) ->
  wf_heap g -> Forall (arg_below (length g)) args ->
  newnode g h o args v = (g', x) -> grow g g' /\ wf_heap g' /\ valid g' x /\
   cvalue x = v /\ g' = g ++ [mkNode h o args] /\ (forall env, cgval env g' x = opval env h o (map (aval (vals env g)) args)).
Proof.
  intros Ho W F H. unfold newnode, makeNode in H. injection H as <- <-. repeat split.
  - exists [mkNode h o args]. split; auto.
  - apply wf_heap_snoc; auto.
  - cbn. rewrite app_length. cbn. lia.
  - intros env. cbn [cgval]. rewrite denote_new. reflexivity.
Qed.

Lemma opval_bin env h o x y : opval env h (bopcode o) [x; y] = rbin o x y.
Proof. destruct o; reflexivity. Qed.

Lemma rbin_some o a b v : rbin o a b = Some v -> exists x y, a = Some x /\ b = Some y /\ v = bapply o x y /\ (o = BDiv -> bcmp CEq y b0 = false).
Proof.
  destruct o, a as [x|], b as [y|]; cbn; try discriminate; intros H; try (injection H as <-; exists x, y; repeat split; discriminate).
  destruct (bcmp CEq y b0) eqn:E; [discriminate|]. injection H as <-. exists x, y. auto.
Qed.
Lemma rbin_val o x y : (o = BDiv -> bcmp CEq y b0 = false) -> rbin o (Some x) (Some y) = Some (bapply o x y).
Proof. destruct o; cbn; auto. intros ->; auto. Qed.

(** full correctness of a binary operation result *)
Definition bin_ok g (l r : cg B) (sem : option B -> option B -> option B) (res : result (heap B * cg B)) : Prop :=
  forall g' x, res = Ok (g', x) ->
   grow g g' /\ wf_heap g' /\ valid g' x /\
   (forall env rl rr, okv env g l rl -> okv env g r rr -> okv env g' x (sem rl rr)) /\
   (forall env, oks env g l -> oks env g r -> oks env g' x).

Lemma value2_ok env g f (l r : cg B) a b w : oks env g l -> oks env g r -> cgval env g l = Some a -> cgval env g r = Some b ->
  value2 f l r = Some w -> w = f a b.
Proof.
  unfold value2. intros Hl Hr Ea Eb H.
  destruct (cvalue l) eqn:El; [|discriminate]. destruct (cvalue r) eqn:Er; [|discriminate].
  injection H as <-. rewrite (Hl a _ Ea El), (Hr b _ Eb Er). reflexivity.
Qed.

Ltac okinj H E := match type of H with Ok ?a = Ok ?b => assert (E : a = b) by congruence end; clear H.

Lemma mk_generic g h o l r : wf_heap g -> valid g l -> valid g r ->
  bin_ok g l r (rbin o) (Ok (newnode g h (bopcode o) [argument l; argument r] (value2 (bapply o) l r))).
Proof.
  intros W Vl Vr g' x H. okinj H E.
  destruct (newnode_ok g h (bopcode o) [argument l; argument r] (value2 (bapply o) l r) g' x) as [G [W' [V' [C [_ S]]]]];
    [now destruct o|auto|repeat constructor; now apply valid_arg|auto|].
  split; [auto|split; [auto|split; [auto|split]]].
  - intros env rl rr Hl Hr v Hv. rewrite S. cbn [map]. rewrite opval_bin, !aval_arg.
    destruct (rbin_some _ _ _ _ Hv) as [a [b [-> [-> [-> D]]]]].
    rewrite (Hl a eq_refl), (Hr b eq_refl). now apply rbin_val.
  - intros env Hl Hr v w Hv Hw. rewrite S in Hv. cbn [map] in Hv. rewrite opval_bin, !aval_arg in Hv.
    destruct (rbin_some _ _ _ _ Hv) as [a [b [Ea [Eb [-> D]]]]].
    rewrite C in Hw. exact (value2_ok _ _ _ _ _ _ _ _ Hl Hr Ea Eb Hw).
Qed.

Lemma mkBin_ok g o l r : wf_heap g -> valid g l -> valid g r -> bin_ok g l r (rbin o) (mkBin g o l r).
Proof.
  intros. unfold mkBin. destruct (getHandler g l r); [now apply mk_generic|]. intros ? ? [=].
Qed.
Lemma mkAsg_ok g o l r : wf_heap g -> valid g l -> valid g r -> bin_ok g l r (rbin o) (mkAsg g o l r).
Proof.
  intros. unfold mkAsg. destruct (asgHandler g l r); [now apply mk_generic|]. intros ? ? [=].
Qed.

Section WithLaws.
Variable L : BaseLaws B.

Lemma beq_b0_false y : bcmp CEq y b0 = false -> y <> b0.
Proof. intros H ->. assert (bcmp CEq b0 b0 = true) by now apply L. congruence. Qed.
Hint Resolve beq_b0_false : core.

(** a shortcut which returns [x] without recording *)
Lemma shortcut_ok g l r sem x : wf_heap g -> valid g x ->
  (forall env rl rr v, okv env g l rl -> okv env g r rr -> sem rl rr = Some v -> cgval env g x = Some v) ->
  (x = l \/ x = r \/ exists b, x = Par b) ->
  bin_ok g l r sem (Ok (g, x)).
Proof.
  intros W V H1 H2 g' y H. injection H as <- <-.
  split; [apply grow_refl|split; [auto|split; [auto|split]]].
  - intros env rl rr Hl Hr v Hv. eauto.
  - intros env Hl Hr. destruct H2 as [-> | [-> | [b ->]]]; auto.
Qed.

Ltac zero_one := repeat match goal with
  | H : bisz _ = true |- _ => apply (L_isz L) in H
  | H : biso _ = true |- _ => apply (L_iso L) in H
  end; subst.

Ltac shortcut :=
  apply shortcut_ok;
  [ assumption | first [assumption | exact I] |
    intros env rl rr v Hl Hr Hv; destruct (rbin_some _ _ _ _ Hv) as [a' [b' [-> [-> [-> D]]]]];
    pose proof (Hl _ eq_refl) as El; pose proof (Hr _ eq_refl) as Er; cbn [cgval] in El, Er |- *
  | first [left; reflexivity | right; left; reflexivity | right; right; eexists; reflexivity] ].

Ltac fin :=
  cbn [bapply];
  repeat match goal with
  | H : Some _ = Some _ |- _ => injection H as H
  | H : ?x = BDiv -> _ |- _ => specialize (H eq_refl)
  | H : bcmp CEq _ b0 = false |- _ => apply beq_b0_false in H
  end; subst; cbn [bapply];
  rewrite ?(L_add0l L), ?(L_add0r L), ?(L_sub0r L), ?(L_mul0l L), ?(L_mul0r L), ?(L_mul1l L), ?(L_mul1r L),
    ?(L_div1r L); auto.

Ltac samenode :=
  match goal with H : Nat.eqb _ _ = true |- _ => apply Nat.eqb_eq in H; subst end;
  match goal with E1 : ?t = Some _, E2 : ?t = Some _ |- _ => rewrite E1 in E2; injection E2 as <- end.

Lemma cbin_ok g o l r : wf_heap g -> valid g l -> valid g r -> bin_ok g l r (rbin o) (cbin g o l r).
Proof.
  intros W Vl Vr. destruct o, l as [a|i vl], r as [b|j vr]; cbn [cbin cadd csub cmul cdiv];
    repeat match goal with |- context[if ?c then _ else _] => destruct c eqn:? end;
    try (now apply mkBin_ok); zero_one; shortcut; fin.
  - f_equal. symmetry. apply (L_div0l L); auto.
  - samenode. f_equal. symmetry. apply (L_divxx L); auto.
Qed.

Lemma casg_ok g o l r : wf_heap g -> valid g l -> valid g r -> bin_ok g l r (rbin o) (casg g o l r).
Proof.
  intros W Vl Vr. destruct o, l as [a|i vl], r as [b|j vr]; cbn [casg];
    repeat match goal with |- context[if ?c then _ else _] => destruct c eqn:? end;
    try (now apply mkAsg_ok); zero_one; shortcut; fin.
  - f_equal. symmetry. apply (L_div0l L); auto.
Qed.

(** unary operations *)
Definition un_ok g (x : cg B) (sem : option B -> option B) (res : result (heap B * cg B)) : Prop :=
  forall g' y, res = Ok (g', y) ->
   grow g g' /\ wf_heap g' /\ valid g' y /\
   (forall env rv, okv env g x rv -> okv env g' y (sem rv)) /\
   (forall env, oks env g x -> oks env g' y).

Lemma mkUn_ok g o f f' x : (match o with GInv _ => False | _ => True end) ->
  (forall env h a, opval env h o [a] = lift1 f' a) -> (forall a, f a = f' a) ->
  wf_heap g -> valid g x -> un_ok g x (lift1 f') (mkUn g o f x).
Proof.
  intros Ho Hs Hf W V g' y H. unfold mkUn in H. destruct (getCodeHandler g x); [|discriminate].
  okinj H E.
  destruct (newnode_ok g n o [argument x] (option_map f (cvalue x)) g' y) as [G [W' [V' [C [_ S]]]]];
    [auto|auto|repeat constructor; now apply valid_arg|auto|].
  split; [auto|split; [auto|split; [auto|split]]].
  - intros env rv Hx v Hv. destruct rv as [a|]; [|discriminate]. injection Hv as <-.
    rewrite S. cbn [map]. rewrite aval_arg, (Hx a eq_refl). apply Hs.
  - intros env Hx v w Hv Hw. rewrite S in Hv. cbn [map] in Hv. rewrite aval_arg, Hs in Hv.
    destruct (cgval env g x) as [a|] eqn:Ea; [|discriminate]. injection Hv as <-.
    rewrite C in Hw. destruct (cvalue x) eqn:Ec; [|discriminate]. injection Hw as <-.
    rewrite (Hx _ _ Ea Ec). apply Hf.
Qed.

Lemma par1_ok g f f' b : (forall a, f a = f' a) -> wf_heap g -> un_ok g (Par b) (lift1 f') (Ok (g, Par (f b))).
Proof.
  intros Hf W g' y H. injection H as <- <-.
  split; [apply grow_refl|split; [auto|split; [exact I|split]]].
  - intros env rv Hx v Hv. destruct rv as [a|]; [|discriminate]. injection Hv as <-.
    specialize (Hx a eq_refl). injection Hx as ->. cbn. now rewrite Hf.
  - auto.
Qed.

Lemma cneg_ok g x : wf_heap g -> valid g x -> un_ok g x (lift1 bneg) (cneg g x).
Proof. intros. destruct x; cbn [cneg]; [now apply par1_ok|]. apply mkUn_ok; auto. Qed.
Lemma cfun_ok g f x : wf_heap g -> valid g x -> un_ok g x (lift1 (bfun f)) (cfun g f x).
Proof. intros. destruct x; cbn [cfun]; [now apply par1_ok|]. apply mkUn_ok; auto. Qed.

Lemma signValue_sgn a : signValue a = sgn a.
Proof.
  unfold signValue, sgn. destruct (bcmp CGt a b0) eqn:G; auto.
  destruct (bcmp CEq a b0) eqn:E.
  - apply (L_eq L) in E. subst. now rewrite (L_lt_irrefl L).
  - rewrite (L_tri L); auto.
Qed.
Lemma csign_ok g x : wf_heap g -> valid g x -> un_ok g x (lift1 sgn) (csign g x).
Proof.
  intros. destruct x; cbn [csign]; [apply par1_ok|apply mkUn_ok]; auto using signValue_sgn.
Qed.

Lemma clog10_ok g x : wf_heap g -> valid g x ->
  un_ok g x (fun v => odiv (lift1 (bfun Log) v) (Some (bfun Log b10))) (clog10 g x).
Proof.
  intros W V g' y H. unfold clog10 in H. destruct (cfun g Log x) as [[g1 z]|] eqn:E; [|discriminate].
  destruct (cfun_ok g Log x W V g1 z E) as [G1 [W1 [V1 [S1 T1]]]].
  destruct (cbin_ok g1 BDiv z (Par (bfun Log b10)) W1 V1 I g' y H) as [G2 [W2 [V2 [S2 T2]]]].
  split; [eapply grow_trans; eauto|split; [auto|split; [auto|split]]].
  - intros env rv Hx. apply S2; [now apply S1|]. intros v [= <-]. reflexivity.
  - intros env Hx. apply (T2 env); auto.
Qed.

Lemma lift2_some (f : B -> B -> B) a b v : lift2 f a b = Some v -> exists x y, a = Some x /\ b = Some y /\ v = f x y.
Proof. destruct a, b; cbn; try discriminate. intros [= <-]. eauto. Qed.

Lemma cpow_ok g x y : wf_heap g -> valid g x -> valid g y -> bin_ok g x y (lift2 bpow) (cpow g x y).
Proof.
  intros W Vx Vy.
  assert (MK : forall oh, bin_ok g x y (lift2 bpow)
     match oh with None => Throw | Some h => Ok (newnode g h GPow [argument x; argument y] (value2 bpow x y)) end).
  { intros [h|] g' z H; [|discriminate].
    okinj H E.
    destruct (newnode_ok g h GPow [argument x; argument y] (value2 bpow x y) g' z) as [G [W' [V' [C [_ S]]]]];
      [exact I|auto|repeat constructor; now apply valid_arg|auto|].
    split; [auto|split; [auto|split; [auto|split]]].
    - intros env rl rr Hl Hr v Hv. rewrite S. cbn [map opval]. rewrite !aval_arg.
      destruct (lift2_some _ _ _ _ Hv) as [a [b [-> [-> ->]]]].
      rewrite (Hl a eq_refl), (Hr b eq_refl). reflexivity.
    - intros env Hl Hr v w Hv Hw. rewrite S in Hv. cbn [map opval] in Hv. rewrite !aval_arg in Hv.
      destruct (lift2_some _ _ _ _ Hv) as [a [b [Ea [Eb ->]]]].
      rewrite C in Hw. exact (value2_ok _ _ _ _ _ _ _ _ Hl Hr Ea Eb Hw). }
  destruct x as [a|i vi], y as [b|j vj]; unfold cpow; try exact (MK _).
  - apply shortcut_ok; [auto|exact I| |eauto].
    intros env rl rr v Hl Hr Hv. destruct (lift2_some _ _ _ _ Hv) as [a' [b' [-> [-> ->]]]].
    specialize (Hl _ eq_refl). specialize (Hr _ eq_refl). cbn in *. congruence.
  - destruct (bisz b) eqn:Z; [|destruct (biso b) eqn:U; [|exact (MK _)]]; zero_one.
    + apply shortcut_ok; [auto|exact I| |eauto].
      intros env rl rr v Hl Hr Hv. destruct (lift2_some _ _ _ _ Hv) as [a' [b' [-> [-> ->]]]].
      specialize (Hr _ eq_refl). cbn in *. injection Hr as <-. now rewrite (L_pow0 L).
    + apply shortcut_ok; [auto|auto| |eauto].
      intros env rl rr v Hl Hr Hv. destruct (lift2_some _ _ _ _ Hv) as [a' [b' [-> [-> ->]]]].
      specialize (Hr _ eq_refl). specialize (Hl _ eq_refl). cbn in *. injection Hr as <-. now rewrite (L_pow1 L).
Qed.

(** conditional expressions *)
Definition cond_ok g (c : cmp) (l r t f : cg B) (res : result (heap B * cg B)) : Prop :=
  forall g' x, res = Ok (g', x) ->
   grow g g' /\ wf_heap g' /\ valid g' x /\
   (forall env rl rr rt rf, okv env g l rl -> okv env g r rr -> okv env g t rt -> okv env g f rf ->
      okv env g' x (ocond c rl rr rt rf)) /\
   (forall env, oks env g l -> oks env g r -> oks env g t -> oks env g f -> oks env g' x).

Lemma ocond_some c (l r t f : option B) v : ocond c l r t f = Some v ->
  exists a b, l = Some a /\ r = Some b /\ (if bcmp c a b then t else f) = Some v.
Proof. destruct l, r; cbn; try discriminate. eauto. Qed.

Lemma ccond_ok g c l r t f : wf_heap g -> valid g l -> valid g r -> valid g t -> valid g f ->
  cond_ok g c l r t f (ccond g c l r t f).
Proof.
  intros W Vl Vr Vt Vf.
  assert (GEN : cond_ok g c l r t f
    (if isSameExpression t f then Ok (g, t)
    else match findCodeHandler g l r t f with
      | Throw => Throw
      | Ok h =>
        let v := match cvalue l, cvalue r with
                 | Some a, Some b => if bcmp c a b then cvalue t else cvalue f
                 | _, _ => None
                 end in
        Ok (newnode g h (GCom c) [argument l; argument r; argument t; argument f] v)
      end)).
  { destruct (isSameExpression t f) eqn:S.
    - intros g' x H. injection H as <- <-.
      split; [apply grow_refl|split; [auto|split; [auto|split]]]; [|auto].
      intros env rl rr rt rf Hl Hr Ht Hf v Hv. destruct (ocond_some _ _ _ _ _ _ Hv) as [a [b [-> [-> E]]]].
      destruct (bcmp c a b); [now apply Ht|]. specialize (Hf _ E).
      destruct t as [p|i vi], f as [q|j vj]; cbn in S |- *; try discriminate.
      + apply (L_eq L) in S. now subst.
      + apply Nat.eqb_eq in S. now subst.
    - destruct (findCodeHandler g l r t f) as [h|]; [|intros ? ? [=]].
      intros g' x H. cbv zeta in H. okinj H E.
      match type of E with newnode _ _ _ ?args ?v = _ =>
        destruct (newnode_ok g h (GCom c) args v g' x) as [G [W' [V' [C [_ SS]]]]] end;
      [exact I|auto|repeat constructor; now apply valid_arg|auto|].
      split; [auto|split; [auto|split; [auto|split]]].
      + intros env rl rr rt rf Hl Hr Ht Hf v Hv. destruct (ocond_some _ _ _ _ _ _ Hv) as [a [b [-> [-> EE]]]].
        rewrite SS. cbn [map opval]. rewrite !aval_arg, (Hl _ eq_refl), (Hr _ eq_refl). cbn [ocond].
        destruct (bcmp c a b); auto.
      + intros env Hl Hr Ht Hf v w Hv Hw. rewrite SS in Hv. cbn [map opval] in Hv. rewrite !aval_arg in Hv.
        destruct (ocond_some _ _ _ _ _ _ Hv) as [a [b [Ea [Eb EE]]]].
        rewrite C in Hw. destruct (cvalue l) eqn:El; [|discriminate]. destruct (cvalue r) eqn:Er; [|discriminate].
        rewrite (Hl _ _ Ea El), (Hr _ _ Eb Er) in Hw. destruct (bcmp c a b); eauto. }
  destruct l as [a|], r as [b|]; try exact GEN. cbn [ccond].
  assert (Q : forall y, y = (if bcmp c a b then t else f) -> cond_ok g c (Par a) (Par b) t f (Ok (g, y))).
  { intros y -> g' x H. injection H as <- <-.
    split; [apply grow_refl|split; [auto|split; [destruct (bcmp c a b); auto|split]]].
    - intros env rl rr rt rf Hl Hr Ht Hf v Hv. destruct (ocond_some _ _ _ _ _ _ Hv) as [a' [b' [-> [-> E]]]].
      specialize (Hl _ eq_refl). specialize (Hr _ eq_refl). cbn in Hl, Hr. injection Hl as <-. injection Hr as <-.
      destruct (bcmp c a b); auto.
    - intros env Hl Hr Ht Hf. destruct (bcmp c a b); auto. }
  destruct (bcmp c a b) eqn:E; apply Q; now rewrite ?E.
Qed.

(** ** one step *)
Record Inv env (s : state B) (r : rstate (B:=B)) : Prop := {
  I_wf : wf_heap (s_heap s);
  I_cnt : forall h, indepCount (s_heap s) h = r_count r h;
  I_val : forall k, valid (s_heap s) (s_reg s k);
  I_ok : forall k, okv env (s_heap s) (s_reg s k) (r_reg r k)
}.
Definition SInv env (s : state B) : Prop := forall k, oks env (s_heap s) (s_reg s k).

Lemma setreg_inv env s r d g' x rv :
  Inv env s r -> grow (s_heap s) g' -> wf_heap g' -> valid g' x -> okv env g' x rv ->
  Inv env (setreg s d (g', x)) (rset r d rv).
Proof.
  intros [W C V K] G W' V' K'. constructor; cbn [setreg rset s_heap s_reg r_reg r_count fst snd].
  - auto.
  - intros h. rewrite (grow_count _ _ h G). auto.
  - intros k. destruct (Nat.eqb k d); auto. exact (valid_grow _ _ _ (grow_length _ _ G) (V k)).
  - intros k. destruct (Nat.eqb k d); auto. intros v Hv. rewrite (cgval_grow env _ _ _ G); auto. now apply K.
Qed.
Lemma setreg_sinv env s d g' x : (forall k, valid (s_heap s) (s_reg s k)) -> SInv env s -> grow (s_heap s) g' -> oks env g' x ->
  SInv env (setreg s d (g', x)).
Proof.
  intros V S G K k. cbn. destruct (Nat.eqb k d); auto. intros v w Hv Hw.
  rewrite (cgval_grow env _ _ _ G) in Hv by auto. eapply S; eauto.
Qed.

Lemma grow_indep_count g h k : indepCount (g ++ [mkNode h (GInv (indepCount g h)) []]) k =
  if Nat.eqb k h then S (indepCount g h) else indepCount g k.
Proof.
  unfold indepCount at 1. rewrite filter_app, app_length. cbn. unfold is_inv_of at 2. cbn.
  rewrite andb_true_r, (Nat.eqb_sym k h). destruct (Nat.eqb_spec h k) as [->|N]; cbn; unfold indepCount; lia.
Qed.

Lemma step_inv env s r i s' : Inv env s r -> step s i = Ok s' -> Inv env s' (rstep env r i) /\
  ((forall d h b, i = IIndep d h (Some b) -> env h (r_count r h) = b) -> SInv env s -> SInv env s').
Proof.
  intros I H. pose proof I as [W C V K].
  assert (BIND : forall d res rv,
     (forall g' x, res = Ok (g', x) -> grow (s_heap s) g' /\ wf_heap g' /\ valid g' x /\ okv env g' x rv /\ (SInv env s -> oks env g' x)) ->
     bindr s d res = Ok s' -> Inv env s' (rset r d rv) /\ (SInv env s -> SInv env s')).
  { intros d res rv HH E. destruct res as [[g' x]|]; [|discriminate]. cbn in E. injection E as <-.
    destruct (HH g' x eq_refl) as [G [W' [V' [K' S']]]]. split; [now apply setreg_inv|].
    intros S. apply setreg_sinv; auto. }
  assert (BIND' : forall d res rv,
     (forall g' x, res = Ok (g', x) -> grow (s_heap s) g' /\ wf_heap g' /\ valid g' x /\ okv env g' x rv /\ (SInv env s -> oks env g' x)) ->
     bindr s d res = Ok s' -> Inv env s' (rset r d rv) /\
      ((forall d h b, i = IIndep d h (Some b) -> env h (r_count r h) = b) -> SInv env s -> SInv env s')).
  { intros d res rv HH E. destruct (BIND d res rv HH E). auto. }
  destruct i; cbn [step rstep] in *.
  - apply (BIND' d (Ok (s_heap s, Par b))); auto. intros g' x [= <- <-].
    split; [apply grow_refl|split; [auto|split; [exact Logic.I|split; [|auto]]]]. intros v [= <-]. reflexivity.
  - injection H as <-. split; [constructor|]; cbn [setreg makeIndep newnode makeNode s_heap s_reg r_reg r_count fst snd].
    + apply wf_heap_snoc; auto. constructor.
    + intros k. rewrite grow_indep_count, !C. reflexivity.
    + intros k. destruct (Nat.eqb k d).
      * cbn. rewrite app_length. cbn. lia.
      * eapply valid_grow; [|apply V]. rewrite app_length; lia.
    + intros k. destruct (Nat.eqb k d); intros w Hw.
      * injection Hw as <-. cbn [cgval]. rewrite denote_new. cbn. now rewrite C.
      * rewrite cgval_app by auto. now apply K.
    + intros Hd S k. cbn. destruct (Nat.eqb k d); intros x w Hx Hw.
      * cbn in Hw. subst v. cbn [cgval] in Hx. rewrite denote_new in Hx. cbn in Hx. injection Hx as <-.
        rewrite C. symmetry. eapply Hd. reflexivity.
      * rewrite cgval_app in Hx by auto. eapply S; eauto.
  - apply (BIND' d (Ok (s_heap s, s_reg s a))); auto. intros g' x [= <- <-].
    split; [apply grow_refl|split; [auto|split; [auto|split]]]; auto.
  - apply (BIND' d (cbin (s_heap s) o (s_reg s a) (s_reg s b))); auto. intros g' x E.
    destruct (cbin_ok _ o _ _ W (V a) (V b) _ _ E) as [G [W' [V' [S T]]]]. eauto 10.
  - apply (BIND' d (casg (s_heap s) o (s_reg s d) (s_reg s a))); auto. intros g' x E.
    destruct (casg_ok _ o _ _ W (V d) (V a) _ _ E) as [G [W' [V' [S T]]]]. eauto 10.
  - apply (BIND' d (cneg (s_heap s) (s_reg s a))); auto. intros g' x E.
    destruct (cneg_ok _ _ W (V a) _ _ E) as [G [W' [V' [S T]]]]. eauto 10.
  - apply (BIND' d (cfun (s_heap s) f (s_reg s a))); auto. intros g' x E.
    destruct (cfun_ok _ f _ W (V a) _ _ E) as [G [W' [V' [S T]]]]. eauto 10.
  - apply (BIND' d (clog10 (s_heap s) (s_reg s a))); auto. intros g' x E.
    destruct (clog10_ok _ _ W (V a) _ _ E) as [G [W' [V' [S T]]]].
    split; [auto|split; [auto|split; [auto|split; [|auto]]]]. exact (S env _ (K a)).
  - apply (BIND' d (cpow (s_heap s) (s_reg s a) (s_reg s b))); auto. intros g' x E.
    destruct (cpow_ok _ _ _ W (V a) (V b) _ _ E) as [G [W' [V' [S T]]]]. eauto 10.
  - apply (BIND' d (csign (s_heap s) (s_reg s a))); auto. intros g' x E.
    destruct (csign_ok _ _ W (V a) _ _ E) as [G [W' [V' [S T]]]]. eauto 10.
  - apply (BIND' d (ccond (s_heap s) c (s_reg s l) (s_reg s r0) (s_reg s t) (s_reg s f))); auto. intros g' x E.
    destruct (ccond_ok _ c _ _ _ _ W (V l) (V r0) (V t) (V f) _ _ E) as [G [W' [V' [S T]]]].
    split; [auto|split; [auto|split; [auto|split; [auto|]]]]. intros. apply T; auto.
Qed.

Lemma init_inv env : Inv env init rinit.
Proof. constructor; cbn; auto using wf_heap_nil. intros k v [= <-]. reflexivity. Qed.
Lemma init_sinv env : SInv env init.
Proof. intros k. apply oks_par. Qed.

Lemma run_inv env p : forall s r s', Inv env s r -> run s p = Ok s' -> Inv env s' (fold_left (rstep env) p r).
Proof.
  induction p as [|i p IH]; cbn; intros s r s' I H.
  - injection H as <-. auto.
  - destruct (step s i) as [s1|] eqn:E; [|discriminate]. eapply IH; [|eassumption].
    eapply step_inv; eauto.
Qed.

Lemma run_sinv env p : forall s r s', Inv env s r -> SInv env s ->
  (forall h k b, In (h, k, b) (declared (r_count r) p) -> env h k = b) -> run s p = Ok s' -> SInv env s'.
Proof.
  induction p as [|i p IH]; cbn [run]; intros s r s' I S D H.
  - injection H as <-. auto.
  - destruct (step s i) as [s1|] eqn:E; [|discriminate].
    destruct (step_inv env s r i s1 I E) as [I1 S1]. eapply IH; [exact I1| | |eassumption].
    + apply S1; auto. intros d h b ->. apply D. cbn. auto.
    + intros h k b Hin. apply D. destruct i; cbn in Hin |- *; auto. apply in_or_app. now right.
Qed.
End WithLaws.

(** ** Structure of the results, without any law on Base (C03, C04) *)
Definition shape (chk : bool) g (ops : list (cg B)) (res : result (heap B * cg B)) : Prop :=
  forall g' x, res = Ok (g', x) ->
   (g' = g /\ (In x ops \/ exists b, x = Par b)) \/
   (exists h o, g' = g ++ [mkNode h o (map argument ops)] /\ (exists v, x = Var (length g) v) /\
      length ops = arity o /\ (match o with GInv _ => False | _ => True end) /\
      (chk = true -> forall y, In y ops -> owner g y = None \/ owner g y = Some h)).

Lemma getCodeHandler_owner g x : getCodeHandler g x = owner g x.
Proof. destruct x; reflexivity. Qed.

Lemma getHandler_owner g l r h : getHandler g l r = Ok h ->
  (owner g l = None \/ owner g l = Some h) /\ (owner g r = None \/ owner g r = Some h).
Proof.
  unfold getHandler. rewrite (getCodeHandler_owner g l), (getCodeHandler_owner g r). destruct (owner g l), (owner g r); try discriminate.
  - destruct (Nat.eqb_spec n n0); [|discriminate]. intros [= <-]; subst; auto.
  - intros [= <-]; auto.
  - intros [= <-]; auto.
Qed.

Ltac newn := right; do 2 eexists; split; [reflexivity|split; [eexists; reflexivity|]].
Ltac old := left; split; [reflexivity|]; first [left; cbn; tauto | right; eexists; reflexivity].

Lemma mkBin_shape g o l r : shape true g [l; r] (mkBin g o l r).
Proof.
  intros g' x H. unfold mkBin in H. destruct (getHandler g l r) eqn:E; [|discriminate].
  injection H as <- <-. newn. split; [now destruct o|split; [now destruct o|]].
  intros _ y [<-|[<-|[]]]; apply (getHandler_owner _ _ _ _ E).
Qed.
Lemma mkAsg_shape g o l r : shape false g [l; r] (mkAsg g o l r).
Proof.
  intros g' x H. unfold mkAsg in H. destruct (asgHandler g l r) eqn:E; [|discriminate].
  injection H as <- <-. newn. split; [now destruct o|split; [now destruct o|]]. discriminate.
Qed.
Lemma cbin_shape g o l r : shape true g [l; r] (cbin g o l r).
Proof.
  destruct o, l as [a|i vl], r as [b|j vr]; cbn [cbin cadd csub cmul cdiv];
    repeat match goal with |- context[if ?c then _ else _] => destruct c eqn:? end;
    try (now apply mkBin_shape); intros g' x [= <- <-]; old.
Qed.
Lemma casg_shape g o l r : shape false g [l; r] (casg g o l r).
Proof.
  destruct o, l as [a|i vl], r as [b|j vr]; cbn [casg];
    repeat match goal with |- context[if ?c then _ else _] => destruct c eqn:? end;
    try (now apply mkAsg_shape); intros g' x [= <- <-]; old.
Qed.
Lemma mkUn_shape g o f x : arity o = 1 -> shape true g [x] (mkUn g o f x).
Proof.
  intros A g' y H. unfold mkUn in H. rewrite getCodeHandler_owner in H. destruct (owner g x) eqn:E; [|discriminate].
  injection H as <- <-. newn. split; [now rewrite A|split; [now destruct o|]]. intros _ z [<-|[]]. auto.
Qed.
Lemma cneg_shape g x : shape true g [x] (cneg g x).
Proof. destruct x; cbn [cneg]; [intros g' y [= <- <-]; old|now apply mkUn_shape]. Qed.
Lemma cfun_shape g f x : shape true g [x] (cfun g f x).
Proof. destruct x; cbn [cfun]; [intros g' y [= <- <-]; old|now apply mkUn_shape]. Qed.
Lemma csign_shape g x : shape true g [x] (csign g x).
Proof. destruct x; cbn [csign]; [intros g' y [= <- <-]; old|now apply mkUn_shape]. Qed.
Lemma cpow_shape g x y : shape false g [x; y] (cpow g x y).
Proof.
  destruct x as [a|i vi], y as [b|j vj]; unfold cpow;
   repeat match goal with |- context[if ?c then _ else _] => destruct c eqn:? end;
   rewrite ?getCodeHandler_owner;
   repeat match goal with |- context[owner ?g ?z] => destruct (owner g z) eqn:? end;
   intros g' z [= <- <-]; first [old | newn; repeat split; discriminate].
Qed.
Lemma differs_owner g h x : differs g h x = false -> owner g x = None \/ owner g x = Some h.
Proof.
  unfold differs. rewrite getCodeHandler_owner. destruct (owner g x); auto. intros H.
  apply negb_false_iff, Nat.eqb_eq in H. subst. auto.
Qed.
Lemma ccond_shape g c l r t f : shape true g [l; r; t; f] (ccond g c l r t f).
Proof.
  assert (GEN : shape true g [l; r; t; f]
    (if isSameExpression t f then Ok (g, t)
    else match findCodeHandler g l r t f with
      | Throw => Throw
      | Ok h =>
        let v := match cvalue l, cvalue r with
                 | Some a, Some b => if bcmp c a b then cvalue t else cvalue f
                 | _, _ => None
                 end in
        Ok (newnode g h (GCom c) [argument l; argument r; argument t; argument f] v)
      end)).
  { destruct (isSameExpression t f); [intros g' x [= <- <-]; old|].
    destruct (findCodeHandler g l r t f) as [h|] eqn:E; [|intros ? ? [=]].
    intros g' x H. cbv zeta in H. injection H as <- <-. newn. split; [reflexivity|split; [exact I|]].
    unfold findCodeHandler in E. cbv zeta in E. rewrite (getCodeHandler_owner g l), (getCodeHandler_owner g r), (getCodeHandler_owner g t), (getCodeHandler_owner g f) in E.
    set (fst := match owner g l with Some h => Some h | None => _ end) in E.
    destruct fst as [h'|] eqn:F; [|discriminate].
    destruct (differs g h' r) eqn:D1; [discriminate|]. destruct (differs g h' t) eqn:D2; [discriminate|].
    destruct (differs g h' f) eqn:D3; [discriminate|]. cbn in E. injection E as <-.
    intros _ y [<-|[<-|[<-|[<-|[]]]]]; try (now apply differs_owner).
    subst fst. destruct (owner g l); auto. }
  destruct l as [a|], r as [b|]; try exact GEN. cbn [ccond].
  destruct (bcmp c a b); intros g' x [= <- <-]; old.
Qed.

(** what one step does to the heap *)
Definition link_ok g (n : node B) : Prop :=
  forall j, In (ANode j) (n_args n) -> exists m, nth_error g j = Some m /\ n_handler m = n_handler n.

Definition SI (chk : bool) (s : state B) : Prop :=
  wf_heap (s_heap s) /\ (forall k, valid (s_heap s) (s_reg s k)) /\ wf_arity (s_heap s) /\
  (chk = true -> one_handler (s_heap s)).

Lemma shape_SI chk chk' s d ops res s' : (chk' = true -> chk = true) -> SI chk' s -> (forall y, In y ops -> valid (s_heap s) y) ->
  shape chk (s_heap s) ops res -> bindr s d res = Ok s' ->
  SI chk' s' /\ exists t, s_heap s' = s_heap s ++ t /\ length t <= 1.
Proof.
  intros CC [W [V [A HO]]] VO SH H. destruct res as [[g' x]|]; [|discriminate]. cbn in H. injection H as <-.
  destruct (SH g' x eq_refl) as [[-> X]|[h [o [-> [[v ->] [Ar [NI CH]]]]]]].
  - split; [|exists []; cbn; rewrite app_nil_r; auto]. split; [auto|split; [|auto]]. cbn [setreg s_heap s_reg fst snd].
    intros k. destruct (Nat.eqb k d); auto. destruct X as [X|[b ->]]; [auto|exact I].
  - split; [|eexists; cbn [setreg s_heap fst]; split; [reflexivity|cbn; lia]].
    cbn [setreg s_heap s_reg fst snd]. repeat split; cbn [setreg s_heap s_reg fst snd].
    + apply wf_heap_snoc; auto. cbn [n_args]. apply Forall_forall. intros a Ha. apply in_map_iff in Ha.
      destruct Ha as [y [<- Hy]]. apply valid_arg. auto.
    + intros k. destruct (Nat.eqb k d).
      * cbn. rewrite app_length. cbn. lia.
      * eapply valid_grow; [|apply V]. rewrite app_length. lia.
    + apply Forall_app. split; [auto|]. constructor; [|constructor]. cbn. now rewrite map_length.
    + intros Hc i n j m Hn Hj Hm. specialize (HO Hc).
      destruct (lt_dec i (length (s_heap s))) as [Li|Li].
      * rewrite nth_error_app1 in Hn by auto.
        assert (Lj : j < length (s_heap s)).
        { pose proof (W _ _ Hn) as F. rewrite Forall_forall in F. specialize (F _ Hj). cbn in F. lia. }
        rewrite nth_error_app1 in Hm by auto. eapply HO; eauto.
      * rewrite nth_error_app2 in Hn by lia. destruct (i - length (s_heap s)) as [|q]; cbn in Hn; [|destruct q; discriminate].
        injection Hn as <-. cbn [n_args n_handler] in *. apply in_map_iff in Hj. destruct Hj as [y [Ey Hy]].
        destruct y as [b|j' w]; [discriminate|]. injection Ey as ->.
        specialize (VO _ Hy). cbn in VO. rewrite nth_error_app1 in Hm by auto.
        destruct (CH (CC Hc) _ Hy) as [CH'|CH']; cbn in CH'; rewrite Hm in CH'; [discriminate|]. now injection CH'.
Qed.

Lemma step_SI chk s i s' : (chk = true -> checked i = true) -> SI chk s -> step s i = Ok s' ->
  SI chk s' /\ exists t, s_heap s' = s_heap s ++ t /\ length t <= 2.
Proof.
  intros CI HS H. pose proof HS as [W [V [A HO]]].
  assert (ONE : forall c d ops res, (chk = true -> c = true) -> (forall y, In y ops -> valid (s_heap s) y) ->
    shape c (s_heap s) ops res -> bindr s d res = Ok s' -> SI chk s' /\ exists t, s_heap s' = s_heap s ++ t /\ length t <= 2).
  { intros c d ops res Hc Hv Sh E. destruct (shape_SI c chk s d ops res s' Hc HS Hv Sh E) as [X [t [Y Z]]].
    split; auto. exists t. split; auto; lia. }
  destruct i; cbn [step] in H; cbn [checked] in CI.
  - eapply (ONE true d [] (Ok (s_heap s, Par b))); [auto|intros ? []| |exact H]. intros g' x [= <- <-]. old.
  - injection H as <-. split; [|eexists; cbn [setreg makeIndep newnode makeNode s_heap fst]; split; [reflexivity|cbn; lia]].
    repeat split; cbn [setreg makeIndep newnode makeNode s_heap s_reg fst snd].
    + apply wf_heap_snoc; auto. constructor.
    + intros k. destruct (Nat.eqb k d).
      * cbn. rewrite app_length. cbn. lia.
      * eapply valid_grow; [|apply V]. rewrite app_length. lia.
    + apply Forall_app. split; [auto|]. constructor; [|constructor]. reflexivity.
    + intros Hc i n j m Hn Hj Hm. specialize (HO Hc).
      destruct (lt_dec i (length (s_heap s))) as [Li|Li].
      * rewrite nth_error_app1 in Hn by auto.
        assert (Lj : j < length (s_heap s)).
        { pose proof (W _ _ Hn) as F. rewrite Forall_forall in F. specialize (F _ Hj). cbn in F. lia. }
        rewrite nth_error_app1 in Hm by auto. eapply HO; eauto.
      * rewrite nth_error_app2 in Hn by lia. destruct (i - length (s_heap s)) as [|q]; cbn in Hn; [|destruct q; discriminate].
        injection Hn as <-. destruct Hj.
  - eapply (ONE true d [s_reg s a] (Ok (s_heap s, s_reg s a))); [auto| |intros g' x [= <- <-]; old|exact H]. intros y [<-|[]]; auto.
  - eapply (ONE true d [s_reg s a; s_reg s b]); [auto| |apply cbin_shape|exact H]. intros y [<-|[<-|[]]]; auto.
  - eapply (ONE false d [s_reg s d; s_reg s a]); [auto| |apply casg_shape|exact H]. intros y [<-|[<-|[]]]; auto.
  - eapply (ONE true d [s_reg s a]); [auto| |apply cneg_shape|exact H]. intros y [<-|[]]; auto.
  - eapply (ONE true d [s_reg s a]); [auto| |apply cfun_shape|exact H]. intros y [<-|[]]; auto.
  - unfold clog10 in H. destruct (cfun (s_heap s) Log (s_reg s a)) as [[g1 z]|] eqn:E; [|discriminate].
    assert (E' : bindr s d (cfun (s_heap s) Log (s_reg s a)) = Ok (setreg s d (g1, z))) by (rewrite E; reflexivity).
    assert (VO1 : forall y, In y [s_reg s a] -> valid (s_heap s) y) by (intros y [<-|[]]; auto).
    destruct (shape_SI true chk s d [s_reg s a] _ _ (fun _ => eq_refl) HS VO1 (cfun_shape _ _ _) E') as [S1 [t1 [T1 L1]]].
    cbn [setreg s_heap fst] in T1.
    destruct (cdiv g1 z (Par (bfun Log b10))) as [[g2 z2]|] eqn:E2; [|discriminate]. cbn in H. injection H as <-.
    assert (H' : bindr (setreg s d (g1, z)) d (cbin g1 BDiv z (Par (bfun Log b10))) = Ok (setreg (setreg s d (g1, z)) d (g2, z2)))
      by (cbn [cbin]; rewrite E2; reflexivity).
    assert (VO2 : forall y, In y [z; Par (bfun Log b10)] -> valid g1 y).
    { destruct S1 as [_ [V1 _]]. specialize (V1 d). cbn in V1. rewrite Nat.eqb_refl in V1.
      intros y [<-|[<-|[]]]; [auto|exact I]. }
    destruct (shape_SI true chk _ d [z; Par (bfun Log b10)] _ _ (fun _ => eq_refl) S1 VO2 (cbin_shape _ _ _ _) H') as [S2 [t2 [T2 L2]]].
    cbn [setreg s_heap fst] in T2. split.
    + destruct S2 as [W2 [V2 R2]]. split; [exact W2|split; [|exact R2]]. intros k. specialize (V2 k).
      cbn in V2 |- *. destruct (Nat.eqb k d); auto.
    + exists (t1 ++ t2). cbn [setreg s_heap fst]. rewrite T2, T1, app_assoc, app_length. split; [auto|lia].
  - eapply (ONE false d [s_reg s a; s_reg s b]); [auto| |apply cpow_shape|exact H]. intros y [<-|[<-|[]]]; auto.
  - eapply (ONE true d [s_reg s a]); [auto| |apply csign_shape|exact H]. intros y [<-|[]]; auto.
  - eapply (ONE true d [s_reg s l; s_reg s r; s_reg s t; s_reg s f]); [auto| |apply ccond_shape|exact H].
    intros y [<-|[<-|[<-|[<-|[]]]]]; auto.
Qed.

Lemma init_SI chk : SI chk init.
Proof.
  split; [apply wf_heap_nil|split; [intros k; exact I|split; [constructor|]]]. intros _ i n j m H. destruct i; discriminate.
Qed.

Lemma run_SI chk p : forall s s', (chk = true -> forallb checked p = true) -> SI chk s -> run s p = Ok s' ->
  SI chk s' /\ exists t, s_heap s' = s_heap s ++ t.
Proof.
  induction p as [|i p IH]; cbn [run forallb]; intros s s' C S H.
  - injection H as <-. split; auto. exists []. now rewrite app_nil_r.
  - destruct (step s i) as [s1|] eqn:E; [|discriminate].
    destruct (step_SI chk s i s1) as [S1 [t1 [T1 _]]]; auto.
    { intros Hc. specialize (C Hc). apply andb_true_iff in C. tauto. }
    destruct (IH s1 s') as [S2 [t2 T2]]; auto.
    { intros Hc. specialize (C Hc). apply andb_true_iff in C. tauto. }
    split; auto. exists (t1 ++ t2). rewrite T2, T1, app_assoc. reflexivity.
Qed.

(** ** when operations throw *)
Lemma mkBin_throws g o l r : (owner g l <> None \/ owner g r <> None) -> (mkBin g o l r = Throw <-> foreign g l r).
Proof.
  intros Hn. unfold mkBin, getHandler, foreign. rewrite (getCodeHandler_owner g l), (getCodeHandler_owner g r).
  destruct (owner g l) as [h|], (owner g r) as [k|]; cbn.
  - destruct (Nat.eqb_spec h k) as [->|N]; split; try discriminate.
    + intros [h [k' [[= <-] [[= <-] N]]]]. congruence.
    + intros _. eauto.
    + auto.
  - split; [discriminate|]. intros [? [? [_ [? _]]]]. discriminate.
  - split; [discriminate|]. intros [? [? [? _]]]. discriminate.
  - tauto.
Qed.

Lemma owner_var g i v : valid g (Var i v) -> exists h, owner g (Var i v) = Some h.
Proof.
  cbn. intros H. destruct (nth_error g i) eqn:E; [eauto|]. apply nth_error_None in E. lia.
Qed.
Lemma foreign_par_l g b r : ~ foreign g (Par b) r.
Proof. intros [? [? [? _]]]. discriminate. Qed.
Lemma foreign_par_r g b l : ~ foreign g l (Par b).
Proof. intros [? [? [_ [? _]]]]. discriminate. Qed.

Lemma cbin_throws g o l r : valid g l -> valid g r -> (cbin g o l r = Throw <-> foreign g l r).
Proof.
  intros Vl Vr.
  assert (T : forall x : heap B * cg B, ~ foreign g l r -> (Ok x = Throw <-> foreign g l r)).
  { intros x N. split; [discriminate|tauto]. }
  destruct l as [a|i vl], r as [b|j vr].
  - destruct o; cbn; apply T, foreign_par_l.
  - destruct (owner_var _ _ _ Vr) as [h Hh].
    assert (M : forall o, mkBin g o (Par a) (Var j vr) = Throw <-> foreign g (Par a) (Var j vr)).
    { intros o'. apply mkBin_throws. rewrite Hh. right. discriminate. }
    destruct o; cbn [cbin cadd csub cmul cdiv];
      repeat match goal with |- context[if ?c then _ else _] => destruct c end; auto; apply T, foreign_par_l.
  - destruct (owner_var _ _ _ Vl) as [h Hh].
    assert (M : forall o, mkBin g o (Var i vl) (Par b) = Throw <-> foreign g (Var i vl) (Par b)).
    { intros o'. apply mkBin_throws. rewrite Hh. left. discriminate. }
    destruct o; cbn [cbin cadd csub cmul cdiv];
      repeat match goal with |- context[if ?c then _ else _] => destruct c end; auto; apply T, foreign_par_r.
  - destruct (owner_var _ _ _ Vl) as [h Hh].
    assert (M : forall o, mkBin g o (Var i vl) (Var j vr) = Throw <-> foreign g (Var i vl) (Var j vr)).
    { intros o'. apply mkBin_throws. rewrite Hh. left. discriminate. }
    destruct o; cbn [cbin cadd csub cmul cdiv]; auto.
    destruct (Nat.eqb_spec i j) as [->|]; auto. apply T.
    intros [h1 [h2 [E1 [E2 N]]]]. cbn in E1, E2. congruence.
Qed.

Lemma findCodeHandler_throws g l r t f : (exists y, In y [l; r; t; f] /\ owner g y <> None) ->
  (findCodeHandler g l r t f = Throw <-> exists x y, In x [l; r; t; f] /\ In y [l; r; t; f] /\ foreign g x y).
Proof.
  intros HN. unfold findCodeHandler. cbv zeta.
  rewrite (getCodeHandler_owner g l), (getCodeHandler_owner g r), (getCodeHandler_owner g t), (getCodeHandler_owner g f).
  set (fst := match owner g l with Some h => Some h | None => _ end).
  destruct fst as [h|] eqn:F.
  - assert (HH : exists x, In x [l; r; t; f] /\ owner g x = Some h).
    { subst fst. destruct (owner g l) eqn:E1; [exists l; cbn; split; [auto|congruence]|].
      destruct (owner g r) eqn:E2; [exists r; cbn; split; [auto|congruence]|].
      destruct (owner g t) eqn:E3; [exists t; cbn; split; [auto|congruence]|].
      exists f. cbn. auto 10. }
    assert (HL : owner g l = None \/ owner g l = Some h).
    { subst fst. destruct (owner g l); auto. }
    assert (DD : forall z, differs g h z = true -> exists k, owner g z = Some k /\ h <> k).
    { intros z. unfold differs. rewrite getCodeHandler_owner. destruct (owner g z) as [k|]; [|discriminate].
      intros Hz. apply negb_true_iff, Nat.eqb_neq in Hz. eauto. }
    destruct HH as [x [Hx Ox]].
    destruct (differs g h r || differs g h t || differs g h f) eqn:D.
    + split; [intros _|auto].
      assert (exists z, In z [l; r; t; f] /\ differs g h z = true) as [z [Hz Dz]].
      { apply orb_true_iff in D. destruct D as [D|D]; [apply orb_true_iff in D; destruct D as [D|D]|]; eexists; (split; [|exact D]); cbn; auto 10. }
      destruct (DD _ Dz) as [k [Ok' Nk]]. exists x, z. split; [auto|split; [auto|]]. exists h, k. auto.
    + split; [discriminate|]. apply orb_false_iff in D. destruct D as [D D3]. apply orb_false_iff in D. destruct D as [D1 D2].
      assert (ALL : forall z, In z [l; r; t; f] -> owner g z = None \/ owner g z = Some h).
      { intros z [<-|[<-|[<-|[<-|[]]]]]; auto; now apply differs_owner. }
      intros [y [z [Hy [Hz [h1 [h2 [E1 [E2 N]]]]]]]]. exfalso.
      destruct (ALL _ Hy), (ALL _ Hz); congruence.
  - exfalso. destruct HN as [y [Hy NN]]. subst fst. destruct (owner g l) eqn:?; [discriminate|].
    destruct (owner g r) eqn:?; [discriminate|]. destruct (owner g t) eqn:?; [discriminate|].
    destruct Hy as [<-|[<-|[<-|[<-|[]]]]]; congruence.
Qed.

Lemma ccond_throws g c l r t f : valid g l -> valid g r -> valid g t -> valid g f ->
  (ccond g c l r t f = Throw <->
    (owner g l <> None \/ owner g r <> None) /\ isSameExpression t f = false /\
    exists x y, In x [l; r; t; f] /\ In y [l; r; t; f] /\ foreign g x y).
Proof.
  intros Vl Vr Vt Vf.
  assert (GEN : (owner g l <> None \/ owner g r <> None) ->
    ((if isSameExpression t f then Ok (g, t)
    else match findCodeHandler g l r t f with
      | Throw => Throw
      | Ok h =>
        let v := match cvalue l, cvalue r with
                 | Some a, Some b => if bcmp c a b then cvalue t else cvalue f
                 | _, _ => None
                 end in
        Ok (newnode g h (GCom c) [argument l; argument r; argument t; argument f] v)
      end) = Throw <->
    (owner g l <> None \/ owner g r <> None) /\ isSameExpression t f = false /\
    exists x y, In x [l; r; t; f] /\ In y [l; r; t; f] /\ foreign g x y)).
  { intros N. destruct (isSameExpression t f); [split; [discriminate|intros [_ [? _]]; discriminate]|].
    assert (N' : exists y, In y [l; r; t; f] /\ owner g y <> None).
    { destruct N; eexists; (split; [|eassumption]); cbn; auto. }
    pose proof (findCodeHandler_throws g l r t f N') as FT.
    destruct (findCodeHandler g l r t f) as [h|]; split; try discriminate; try tauto.
    intros [_ [_ X]]. apply FT in X. discriminate. }
  destruct l as [a|i vi].
  - destruct r as [b|j vj].
    + cbn [ccond]. split; [destruct (bcmp c a b); discriminate|]. intros [[X|X] _]; cbn in X; congruence.
    + apply GEN. right. destruct (owner_var _ _ _ Vr) as [h ->]. discriminate.
  - assert (N : owner g (Var i vi) <> None \/ owner g r <> None).
    { left. destruct (owner_var _ _ _ Vl) as [h ->]. discriminate. }
    destruct r; exact (GEN N).
Qed.
End P.

(** * When solving succeeds *)
From Coq Require Import List Bool Arith Lia.
From Verif Require Import Graph_model Graph_spec Graph_proofs CGArith_model CGArith_spec CGArith_proofs Codegen_spec
  Eval_model Eval_spec Eval_proofs Eval_inst Path_model Path_spec Path_proofs Path_graph Solve_model Solve_spec Solve_proofs.
Import ListNotations.

Section Total.
Context {B : Type} {O : BaseOps B}.
Implicit Type g : heap B.
Variable h : nat.

Lemma ext_length g g' : ext g g' -> length g <= length g'.
Proof. intros [t ->]. rewrite app_length. lia. Qed.
Lemma valid_ext g g' x : ext g g' -> valid g x -> valid g' x.
Proof. intros E. apply ext_length in E. destruct x; cbn; auto. lia. Qed.

(** Invariants of the handler's nodes ([nice]) and of the CG objects ([okv]) which recording an operation keeps *)
Record invariant (nice : heap B -> Prop) (okv : heap B -> cg B -> Prop) : Prop := {
  K_owned : forall g, nice g -> owned_by h g;
  K_valid : forall g x, okv g x -> valid g x;
  K_par : forall g b, okv g (Par b);
  K_ext : forall g g' x, nice g -> nice g' -> ext g g' -> okv g x -> okv g' x;
  K_new : forall g o ops v, nice g -> Forall (okv g) ops -> isInv o = false -> length ops = arity o ->
     nice (g ++ [mkNode h o (map argument ops)]) /\ okv (g ++ [mkNode h o (map argument ops)]) (Var (length g) v)
}.
Section Keep.
Variable nice : heap B -> Prop.
Variable okv : heap B -> cg B -> Prop.
Hypothesis K : invariant nice okv.

Definition keeps g (res : result (heap B * cg B)) : Prop :=
  exists g' x, res = Ok (g', x) /\ ext g g' /\ nice g' /\ okv g' x.

Lemma owned_owner g i v : nice g -> okv g (Var i v) -> getCodeHandler g (Var i v) = Some h.
Proof.
  intros HO V. apply (K_owned _ _ K) in HO. apply (K_valid _ _ K) in V.
  cbn in *. unfold nodeHandler. destruct (nth_error g i) as [d|] eqn:E.
  - cbn. f_equal. unfold owned_by in HO. rewrite Forall_forall in HO. apply HO. eapply nth_error_In; eauto.
  - apply nth_error_None in E. lia.
Qed.

Lemma keeps_old g x : nice g -> okv g x -> keeps g (Ok (g, x)).
Proof. intros. exists g, x. split; auto. split; [apply ext_refl|]. auto. Qed.
Lemma okv_par g b : okv g (Par b). Proof. apply (K_par _ _ K). Qed.
Hint Resolve okv_par : core.
Lemma keeps_new g o ops v : nice g -> Forall (okv g) ops -> isInv o = false -> length ops = arity o ->
  keeps g (Ok (newnode g h o (map argument ops) v)).
Proof.
  intros HO HV HI HL. unfold newnode, makeNode. do 2 eexists. split; [reflexivity|]. split; [eexists; reflexivity|].
  now apply (K_new _ _ K).
Qed.
Lemma isInv_bop o : isInv (bopcode o) = false. Proof. now destruct o. Qed.
Lemma arity_bop o : arity (bopcode o) = 2. Proof. now destruct o. Qed.
Lemma new1 g o x v : nice g -> okv g x -> isInv o = false -> arity o = 1 -> keeps g (Ok (newnode g h o [argument x] v)).
Proof. intros. apply (keeps_new g o [x]); auto. Qed.
Lemma new2 g o x y v : nice g -> okv g x -> okv g y -> isInv o = false -> arity o = 2 ->
  keeps g (Ok (newnode g h o [argument x; argument y] v)).
Proof. intros. apply (keeps_new g o [x; y]); auto. Qed.
Lemma new4 g o x y z w v : nice g -> okv g x -> okv g y -> okv g z -> okv g w -> isInv o = false -> arity o = 4 ->
  keeps g (Ok (newnode g h o [argument x; argument y; argument z; argument w] v)).
Proof. intros. apply (keeps_new g o [x; y; z; w]); auto. Qed.
Hint Resolve isInv_bop arity_bop : core.
Ltac knew := first [apply new4 | apply new2 | apply new1]; auto.

Lemma mkBin_keeps g o l r : nice g -> okv g l -> okv g r ->
  (exists i v, l = Var i v) \/ (exists i v, r = Var i v) -> keeps g (mkBin g o l r).
Proof.
  intros HO Vl Vr HV. unfold mkBin, getHandler.
  destruct l as [a|i vl], r as [b|j vr].
  - destruct HV as [[? [? ?]]|[? [? ?]]]; discriminate.
  - rewrite (owned_owner g j vr) by auto. cbn [getCodeHandler]. knew.
  - rewrite (owned_owner g i vl) by auto. cbn [getCodeHandler]. knew.
  - rewrite (owned_owner g j vr), (owned_owner g i vl), Nat.eqb_refl by auto. knew.
Qed.
Lemma mkAsg_keeps g o l r : nice g -> okv g l -> okv g r ->
  (exists i v, l = Var i v) \/ (exists i v, r = Var i v) -> keeps g (mkAsg g o l r).
Proof.
  intros HO Vl Vr HV. unfold mkAsg, asgHandler.
  destruct l as [a|i vl], r as [b|j vr].
  - destruct HV as [[? [? ?]]|[? [? ?]]]; discriminate.
  - rewrite (owned_owner g j vr) by auto. knew.
  - change (nodeHandler g i) with (getCodeHandler g (Var i vl)). rewrite (owned_owner g i vl) by auto. knew.
  - change (nodeHandler g i) with (getCodeHandler g (Var i vl)). rewrite (owned_owner g i vl) by auto. knew.
Qed.
Lemma cbin_keeps g o l r : nice g -> okv g l -> okv g r -> keeps g (cbin g o l r).
Proof.
  intros HO Vl Vr. destruct o, l as [a|i vl], r as [b|j vr]; cbn [cbin cadd csub cmul cdiv];
    repeat match goal with |- context[if ?c then _ else _] => destruct c end;
    first [apply keeps_old; auto; fail | apply mkBin_keeps; eauto].
Qed.
Lemma casg_keeps g o l r : nice g -> okv g l -> okv g r -> keeps g (casg g o l r).
Proof.
  intros HO Vl Vr. destruct o, l as [a|i vl], r as [b|j vr]; cbn [casg];
    repeat match goal with |- context[if ?c then _ else _] => destruct c end;
    first [apply keeps_old; auto; fail | apply mkAsg_keeps; eauto].
Qed.
Lemma mkUn_keeps g o f i v : isInv o = false -> arity o = 1 -> nice g -> okv g (Var i v) -> keeps g (mkUn g o f (Var i v)).
Proof. intros HI HA HO V. unfold mkUn. rewrite (owned_owner g i v) by auto. knew. Qed.
Lemma cneg_keeps g x : nice g -> okv g x -> keeps g (cneg g x).
Proof. intros HO V. destruct x; cbn [cneg]; [apply keeps_old; auto|now apply mkUn_keeps]. Qed.
Lemma csign_keeps g x : nice g -> okv g x -> keeps g (csign g x).
Proof. intros HO V. destruct x; cbn [csign]; [apply keeps_old; auto|now apply mkUn_keeps]. Qed.
Lemma cfun_keeps g f x : nice g -> okv g x -> keeps g (cfun g f x).
Proof. intros HO V. destruct x; cbn [cfun]; [apply keeps_old; auto|now apply mkUn_keeps]. Qed.
Lemma cpow_keeps g l r : nice g -> okv g l -> okv g r -> keeps g (cpow g l r).
Proof.
  intros HO Vl Vr. destruct l as [a|i vl], r as [b|j vr]; unfold cpow.
  - apply keeps_old; auto.
  - rewrite (owned_owner g j vr) by auto. knew.
  - destruct (bisz b); [apply keeps_old; auto|]. destruct (biso b); [apply keeps_old; auto|].
    rewrite (owned_owner g i vl) by auto. knew.
  - rewrite (owned_owner g j vr) by auto. knew.
Qed.
Lemma differs_no g x : nice g -> okv g x -> differs g h x = false.
Proof.
  intros HO V. unfold differs. destruct x as [b|i v]; [reflexivity|]. rewrite (owned_owner g i v) by auto.
  now rewrite Nat.eqb_refl.
Qed.
Lemma ccond_keeps g c l r t f : nice g -> okv g l -> okv g r -> okv g t -> okv g f ->
  keeps g (ccond g c l r t f).
Proof.
  intros HO Vl Vr Vt Vf.
  assert (KK : (exists i v, l = Var i v) \/ (exists i v, r = Var i v) -> forall v,
    keeps g (if isSameExpression t f then Ok (g, t) else
      match findCodeHandler g l r t f with
      | Ok h0 => Ok (newnode g h0 (GCom c) [argument l; argument r; argument t; argument f] v)
      | Throw => Throw end)).
  { intros HV v. destruct (isSameExpression t f); [now apply keeps_old|]. unfold findCodeHandler.
    destruct l as [a|i vl], r as [b|j vr].
    - destruct HV as [[? [? ?]]|[? [? ?]]]; discriminate.
    - cbn [getCodeHandler]. change (nodeHandler g j) with (getCodeHandler g (Var j vr)).
      rewrite (owned_owner g j vr), !differs_no by auto. knew.
    - rewrite (owned_owner g i vl), !differs_no by (cbn; auto). knew.
    - rewrite (owned_owner g i vl), !differs_no by auto. knew. }
  unfold ccond. destruct l as [a|i vl], r as [b|j vr]; try (apply KK; eauto).
  destruct (bcmp c a b); now apply keeps_old.
Qed.

Lemma cg_op_keeps g o vs : isInv o = false -> length vs = arity o -> nice g -> Forall (okv g) vs ->
  keeps g (cg_op o vs g).
Proof.
  intros HI HL HO HV.
  destruct o; try discriminate; destruct vs as [|a [|b [|c0 [|e [|]]]]]; try discriminate;
    repeat match goal with H : Forall _ (_ :: _) |- _ => inversion H; clear H; subst end; cbn [cg_op].
  1-4: now apply cbin_keeps.
  - now apply cpow_keeps.
  - now apply cneg_keeps.
  - now apply csign_keeps.
  - now apply keeps_old.
  - now apply keeps_old.
  - now apply cfun_keeps.
  - now apply ccond_keeps.
Qed.

(** ** A path *)
Variable half : B.

(** [invert] decides as [invertible] does, and has no other failure *)
Definition inverts_as g (d : node B) (i : option nat) (rhs : cg B) : Prop :=
  match invertible d i with
  | Some true => exists g' x, invert half g d i rhs = SOk (g', x) /\ ext g g' /\ nice g' /\ okv g' x
  | Some false => invert half g d i rhs = SThrow
  | None => False
  end.

Lemma ofres_keeps g res : keeps g res -> exists g' x, ofres res = SOk (g', x) /\ ext g g' /\ nice g' /\ okv g' x.
Proof. intros [g' [x [-> H]]]. exists g', x. auto. Qed.
Lemma bind_keeps g g1 res (f : hc -> sres hc) : ext g g1 -> keeps g1 res ->
  (forall g2 x, ext g1 g2 -> ext g g2 -> nice g2 -> okv g2 x ->
     exists g' y, f (g2, x) = SOk (g', y) /\ ext g g' /\ nice g' /\ okv g' y) ->
  exists g' y, sbind (ofres res) f = SOk (g', y) /\ ext g g' /\ nice g' /\ okv g' y.
Proof. intros X [g2 [x [-> [X2 [H1 H2]]]]] F. cbn. apply F; auto. eapply ext_trans; eauto. Qed.
Lemma last_keeps g g1 res : ext g g1 -> keeps g1 res ->
  exists g' y, ofres res = SOk (g', y) /\ ext g g' /\ nice g' /\ okv g' y.
Proof. intros X [g2 [x [-> [X2 [H1 H2]]]]]. exists g2, x. cbn. split; auto. split; [eapply ext_trans; eauto|auto]. Qed.

Lemma okv_ext g g' x : nice g -> nice g' -> ext g g' -> okv g x -> okv g' x.
Proof. apply (K_ext _ _ K). Qed.
Ltac vv := auto; eauto using okv_ext, ext_trans.
Ltac stepk := cbn beta iota; match goal with
  | |- exists _ _, sbind (ofres (cfun ?g1 _ _)) _ = _ /\ ext ?g _ /\ _ => apply (bind_keeps g g1)
  | |- exists _ _, sbind (ofres (cbin ?g1 _ _ _)) _ = _ /\ ext ?g _ /\ _ => apply (bind_keeps g g1)
  end; [try apply ext_refl; auto| |intros ? ? ? ? ? ?].
Ltac lastk := cbn beta iota; match goal with
  | |- exists _ _, ofres (cfun ?g1 _ _) = _ /\ ext ?g _ /\ _ => apply (last_keeps g g1)
  | |- exists _ _, ofres (cbin ?g1 _ _ _) = _ /\ ext ?g _ /\ _ => apply (last_keeps g g1)
  end; [try apply ext_refl; auto|].
Lemma invert_as g d i rhs : i < arity (n_op d) -> length (n_args d) = arity (n_op d) ->
  (forall k a, k <> i -> nth_error (n_args d) k = Some a -> okv g (toCG a)) ->
  nice g -> okv g rhs -> inverts_as g d (Some i) rhs.
Proof.
  intros LT AR OTH HO V. unfold inverts_as, invertible, invert.
  assert (AG : forall k, k < arity (n_op d) -> k <> i -> exists x, argCG (n_args d) k = SOk x /\ okv g x).
  { intros k Hk Hki. unfold argCG. destruct (nth_error (n_args d) k) as [a|] eqn:E; [eauto|].
    apply nth_error_None in E. lia. }
  destruct (n_op d) as [| | | | | | | | | |[]|] eqn:EO; auto; cbn [arity] in AG, LT.
  - destruct (AG (if isFirst (Some i) then 1 else 0)) as [x [-> Vx]]; [destruct i; cbn; lia|destruct i; cbn; lia|]. cbn [sbind].
    apply ofres_keeps, casg_keeps; auto.
  - destruct i as [|i]; cbn [isFirst].
    + destruct (AG 1) as [x [-> Vx]]; [lia|lia|]. cbn [sbind]. apply ofres_keeps, casg_keeps; auto.
    + destruct (AG 0) as [x [-> Vx]]; [lia|lia|]. cbn [sbind]. apply ofres_keeps, cbin_keeps; auto.
  - destruct (AG (if isFirst (Some i) then 1 else 0)) as [x [-> Vx]]; [destruct i; cbn; lia|destruct i; cbn; lia|]. cbn [sbind].
    apply ofres_keeps, casg_keeps; auto.
  - destruct i as [|i]; cbn [isFirst].
    + destruct (AG 1) as [x [-> Vx]]; [lia|lia|]. cbn [sbind]. apply ofres_keeps, casg_keeps; auto.
    + destruct (AG 0) as [x [-> Vx]]; [lia|lia|]. cbn [sbind]. apply ofres_keeps, cbin_keeps; auto.
  - destruct i as [|i]; cbn [isFirst].
    + destruct (AG 1) as [x [E _]]; [lia|lia|]. unfold argCG in E. destruct (nth_error (n_args d) 1) as [[]|]; auto; [|discriminate].
      destruct (bcmp CEq b b0); auto. destruct (bcmp CEq b b1); auto.
      exists g, rhs. split; auto. split; [apply ext_refl|auto].
    + destruct (AG 0) as [x [-> Vx]]; [lia|lia|]. cbn [sbind].
      stepk; [apply cfun_keeps; auto|]. stepk; [apply cfun_keeps; vv|]. lastk. apply cbin_keeps; vv.
  - apply ofres_keeps, casg_keeps; vv.
  - exists g, rhs. split; auto. split; [apply ext_refl|auto].
  - stepk; [apply cbin_keeps; vv|]. stepk; [apply cbin_keeps; vv|]. stepk; [apply cfun_keeps; vv|].
    stepk; [apply cbin_keeps; vv|]. lastk. apply cfun_keeps; vv.
  - apply ofres_keeps, cfun_keeps; auto.
  - apply ofres_keeps, cfun_keeps; auto.
  - stepk; [apply cbin_keeps; vv|]. stepk; [apply cbin_keeps; vv|]. stepk; [apply cfun_keeps; vv|].
    stepk; [apply cbin_keeps; vv|]. lastk. apply cfun_keeps; vv.
  - apply ofres_keeps, casg_keeps; auto.
  - stepk; [apply cbin_keeps; vv|]. stepk; [apply cfun_keeps; vv|]. stepk; [apply cbin_keeps; vv|].
    stepk; [apply cfun_keeps; vv|]. stepk; [apply cbin_keeps; vv|]. lastk. apply cbin_keeps; vv.
Qed.

Lemma solveSteps_cons g n i p rhs : p <> [] -> solveSteps half g ((n, i) :: p) rhs =
  match nth_error g n with None => SUndef
  | Some d => sbind (invert half g d i rhs) (fun '(g1, rhs1) => solveSteps half g1 p rhs1) end.
Proof. now destruct p. Qed.
Lemma isSolvablePath_cons g n i p : p <> [] -> isSolvablePath g ((n, i) :: p) =
  match nth_error g n with None => SUndef
  | Some d => match invertible d i with None => SUndef | Some false => SOk false | Some true => isSolvablePath g p end end.
Proof. now destruct p. Qed.

Lemma solveSteps_as g0 : nice g0 -> wf_arity g0 -> forall p g rhs root var, ext g0 g -> down_path g0 root p var ->
  (forall n i d k a, In (n, Some i) p -> nth_error g0 n = Some d -> k <> i -> nth_error (n_args d) k = Some a -> okv g0 (toCG a)) ->
  nice g -> okv g rhs ->
  (isSolvablePath g0 p = SOk true /\ exists g' x, solveSteps half g p rhs = SOk (g', x) /\ ext g g' /\ nice g' /\ okv g' x) \/
  (isSolvablePath g0 p = SOk false /\ solveSteps half g p rhs = SThrow).
Proof.
  intros HC HA. induction p as [|[n i] p IH]; intros g rhs root var X D OTH HO V; [inversion D|].
  inversion D as [m E1 E2|n' i' j p' m Lk D' E1 E2 E3]; subst.
  - left. split; auto. exists g, rhs. split; auto. split; [apply ext_refl|auto].
  - destruct Lk as [d [Hn Ha]]. pose proof (ext_nth _ _ _ _ X Hn) as Hn'.
    assert (NE : p <> []) by (destruct p; [inversion D'|congruence]).
    assert (AR : length (n_args d) = arity (n_op d)).
    { unfold wf_arity in HA. rewrite Forall_forall in HA. apply HA. eapply nth_error_In; eauto. }
    assert (IA : inverts_as g d (Some i') rhs).
    { apply invert_as; auto.
      - rewrite <- AR. apply nth_error_Some. congruence.
      - intros k a Hk Hka. apply (okv_ext g0 g); auto. eapply OTH; eauto. now left. }
    unfold inverts_as in IA.
    rewrite isSolvablePath_cons, solveSteps_cons, Hn, Hn' by auto.
    destruct (invertible d (Some i')) as [[]|]; [| |contradiction].
    + destruct IA as [g1 [x [-> [X1 [HO1 V1]]]]]. cbn [sbind].
      destruct (IH g1 x j var (ext_trans _ _ _ X X1) D') as [[S1 [g' [y [S2 [X2 S3]]]]]|[S1 S2]]; auto.
      * intros n0 i0 d0 k0 a0 Hin. apply OTH. now right.
      * left. split; [exact S1|]. exists g', y. split; auto. split; auto. eapply ext_trans; eauto.
    + right. rewrite IA. auto.
Qed.
End Keep.

(** ** Two invariants *)

Lemma link_closed g n i j : closed g -> link g n i j -> j < length g /\ n < length g.
Proof.
  intros C [d [Hn Ha]]. split; [eapply C; eauto; eapply nth_error_In; eauto|]. apply nth_error_Some. congruence.
Qed.
Lemma link_ext g g' n i j : ext g g' -> link g n i j -> link g' n i j.
Proof. intros X [d [Hn Ha]]. exists d. split; auto. eapply ext_nth; eauto. Qed.
Lemma link_old g g' n i j : ext g g' -> n < length g -> link g' n i j -> link g n i j.
Proof. intros [t ->] Hn [d [Hd Ha]]. exists d. split; auto. now rewrite nth_error_app1 in Hd. Qed.
Lemma occurs_old g g' n m : ext g g' -> closed g -> n < length g -> occurs g' n m -> occurs g n m.
Proof.
  intros X C Hn [l Hl]. revert Hn. induction Hl as [|n i j l m Lk Hl IH]; intros Hn; [apply occurs_refl|].
  pose proof (link_old _ _ _ _ _ X Hn Lk) as L0. eapply occurs_trans; [eapply occurs_link; eauto|]. apply IH.
  now apply (link_closed _ _ _ _ C L0).
Qed.
Lemma occurs_ext g g' n m : ext g g' -> occurs g n m -> occurs g' n m.
Proof. intros X [l Hl]. exists l. induction Hl; econstructor; eauto using link_ext. Qed.

Lemma node_new g d n : nth_error (g ++ [d]) n = Some d \/ nth_error (g ++ [d]) n = nth_error g n \/ length g < n.
Proof.
  destruct (Nat.lt_trichotomy n (length g)) as [H|[->|H]]; auto.
  - right. left. now apply nth_error_app1.
  - left. now rewrite nth_error_app2, Nat.sub_diag by lia.
Qed.
Lemma nth_error_snoc g (d d' : node B) n : nth_error (g ++ [d]) n = Some d' ->
  (n < length g /\ nth_error g n = Some d') \/ (n = length g /\ d' = d).
Proof.
  intros H. destruct (Nat.lt_ge_cases n (length g)) as [L|L].
  - left. rewrite nth_error_app1 in H; auto.
  - right. rewrite nth_error_app2 in H by auto. destruct (n - length g) as [|k] eqn:E; cbn in H.
    + split; [lia|congruence].
    + destruct k; discriminate.
Qed.
Lemma argument_node (ops : list (cg B)) j : In (ANode j) (map argument ops) -> exists v, In (Var j v) ops.
Proof. intros H. apply in_map_iff in H. destruct H as [[b|i v] [E Hi]]; cbn in E; [discriminate|]. injection E as ->. eauto. Qed.

Lemma sane_new g o ops : handler_nodes h g -> Forall (valid g) ops -> length ops = arity o ->
  handler_nodes h (g ++ [mkNode h o (map argument ops)]).
Proof.
  intros [S1 S2 [r S3] S4] HV HL. rewrite Forall_forall in HV.
  assert (VO : forall j, In (ANode j) (map argument ops) -> j < length g).
  { intros j Hj. apply argument_node in Hj. destruct Hj as [v Hj]. apply (HV _ Hj). }
  constructor.
  - apply Forall_app. auto.
  - intros n d j Hn Hj. rewrite app_length. cbn. apply nth_error_snoc in Hn. destruct Hn as [[L Hn]|[-> ->]].
    + specialize (S2 _ _ _ Hn Hj). lia.
    + cbn in Hj. apply VO in Hj. lia.
  - exists (fun n => if n <? length g then r n else S (fold_right Nat.max 0 (map r (seq 0 (length g))))).
    intros n i j [d [Hn Ha]]. apply nth_error_snoc in Hn. destruct Hn as [[L Hn]|[-> ->]].
    + assert (Lj : j < length g) by (eapply S2; eauto; eapply nth_error_In; eauto).
      apply Nat.ltb_lt in L, Lj. rewrite L, Lj. apply S3 with i. exists d. auto.
    + cbn in Ha. apply nth_error_In, VO in Ha.
      rewrite Nat.ltb_irrefl. pose proof Ha as Hb. apply Nat.ltb_lt in Ha. rewrite Ha. apply Nat.lt_succ_r.
      assert (MX : forall l x, In x l -> x <= fold_right Nat.max 0 l).
      { induction l as [|y l IH]; cbn; [easy|]. intros x [->|Hx]; [lia|]. specialize (IH _ Hx). lia. }
      apply MX. apply in_map. apply in_seq. lia.
  - apply Forall_app. split; auto. constructor; auto. cbn. now rewrite map_length.
Qed.

Lemma invariant_sane : invariant (handler_nodes h) valid.
Proof.
  constructor.
  - apply Hn_owned.
  - auto.
  - cbn. auto.
  - intros. eapply valid_ext; eauto.
  - intros g o ops v HS HV _ HL. split; [now apply sane_new|]. cbn. rewrite app_length. cbn. lia.
Qed.

Lemma invariant_free var : invariant (fun g => handler_nodes h g /\ var < length g) (fun g x => valid g x /\ free_of g var x).
Proof.
  constructor.
  - intros g [S _]. now apply Hn_owned.
  - tauto.
  - cbn. auto.
  - intros g g' x [S _] _ X [V F]. split; [eapply valid_ext; eauto|]. destruct x as [b|i v]; cbn in *; auto.
    intros Oc. apply F. eapply occurs_old; eauto using Hn_closed.
  - intros g o ops v [HS Hv] HV _ HL.
    assert (HV1 : Forall (valid g) ops) by (eapply Forall_impl; [|exact HV]; intros a [? ?]; auto).
    split; [split|split].
    + now apply sane_new.
    + rewrite app_length. lia.
    + cbn. rewrite app_length. cbn. lia.
    + cbn. intros Oc. apply occurs_inv in Oc. destruct Oc as [Eq|[i [j [[d [Hn Ha]] Oc]]]]; [lia|].
      rewrite nth_error_app2, Nat.sub_diag in Hn by lia. injection Hn as <-. cbn in Ha.
      apply nth_error_In, argument_node in Ha. destruct Ha as [w Ha].
      rewrite Forall_forall in HV. destruct (HV _ Ha) as [V F]. cbn in V, F. apply F.
      eapply occurs_old; eauto using Hn_closed. eexists; reflexivity.
Qed.
End Total.

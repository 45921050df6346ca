(** * Graphs recorded by operations on CG objects can be given to generateCode *)
From Coq Require Import List Bool Arith Lia.
From Verif Require Import Graph_model Graph_spec Graph_proofs CGArith_model CGArith_spec CGArith_proofs Codegen_model Codegen_spec.
Import ListNotations.

Section Link.
Context {B : Type} {O : BaseOps B}.

(** the program only declares independent variables of handler [h] *)
Definition handler_of (h : nat) (i : instr B) : Prop := match i with IIndep _ h' _ => h' = h | _ => True end.

(** CodeHandler::_independentVariables: the independents in the order they were declared *)
Definition indepNodes (g : heap B) : list nat :=
  filter (fun i => match nth_error g i with Some n => match n_op n with GInv _ => true | _ => false end | None => false end)
         (seq 0 (length g)).

Definition plain (o : gop) (args : list (arg B)) : Prop :=
  match o with
  | GInv _ | GAlias | GAssign => False
  | GSign => exists j, args = [ANode j]
  | GCom _ => forall x y t f, args = [x; y; APar t; APar f] -> bcmp CEq t f = false
  | _ => True
  end.
Definition hom (h : nat) (g : heap B) : Prop := Forall (fun n => n_handler n = h) g.
Definition ext1 (h : nat) (g g' : heap B) : Prop :=
  g' = g \/ exists o args, g' = g ++ [mkNode h o args] /\ plain o args.
Definition exts (h : nat) (g : heap B) (r : result (heap B * cg B)) : Prop :=
  forall g' x, r = Ok (g', x) -> ext1 h g g'.

Lemma gch h g x h' : hom h g -> getCodeHandler g x = Some h' -> h' = h.
Proof.
  intros H. destruct x as [b|i v]; [discriminate|]. cbn [getCodeHandler]. unfold nodeHandler.
  destruct (nth_error g i) as [n|] eqn:E; [|discriminate]. cbn. intros [= <-]. apply nth_error_In in E.
  exact (proj1 (Forall_forall _ _) H _ E).
Qed.
Lemma gh h g l r h' : hom h g -> getHandler g l r = Ok h' -> h' = h.
Proof.
  intros H. unfold getHandler. destruct (getCodeHandler g l) eqn:El, (getCodeHandler g r) eqn:Er; try discriminate.
  - destruct (Nat.eqb n n0); [|discriminate]. intros [= <-]. eapply gch; eassumption.
  - intros [= <-]. eapply gch; eassumption.
  - intros [= <-]. eapply gch; eassumption.
Qed.

Lemma mkBin_ext h g o l r : hom h g -> exts h g (mkBin g o l r).
Proof.
  intros H g' x E. unfold mkBin in E. destruct (getHandler g l r) eqn:Eh; [|discriminate]. injection E as <- _.
  rewrite (gh _ _ _ _ _ H Eh). right. do 2 eexists. split; [reflexivity|]. destruct o; exact I.
Qed.
Lemma mkAsg_ext h g o l r : hom h g -> exts h g (mkAsg g o l r).
Proof.
  intros H g' x E. unfold mkAsg in E. destruct (asgHandler g l r) as [h'|] eqn:Eh; [|discriminate]. injection E as <- _.
  assert (h' = h) as ->.
  { destruct l as [b|i v]; cbn [asgHandler] in Eh; [eapply gch; eassumption|]. exact (gch h g (Var i v) h' H Eh). }
  right. do 2 eexists. split; [reflexivity|]. destruct o; exact I.
Qed.
Ltac same := intros ? ? [= <- <-]; left; reflexivity.
Lemma cbin_ext h g o l r : hom h g -> exts h g (cbin g o l r).
Proof.
  intros H. destruct o, l as [a|i vl], r as [b|j vr]; cbn [cbin cadd csub cmul cdiv];
    repeat match goal with |- context[if ?c then _ else _] => destruct c eqn:? end;
    try (now apply mkBin_ext); same.
Qed.
Lemma casg_ext h g o l r : hom h g -> exts h g (casg g o l r).
Proof.
  intros H. destruct o, l as [a|i vl], r as [b|j vr]; cbn [casg];
    repeat match goal with |- context[if ?c then _ else _] => destruct c eqn:? end;
    try (now apply mkAsg_ext); same.
Qed.
Lemma mkUn_ext h g o f i v : hom h g -> plain o [ANode i] -> exts h g (mkUn g o f (Var i v)).
Proof.
  intros H Hp g' y E. unfold mkUn in E. destruct (getCodeHandler g (Var i v)) as [h'|] eqn:Eh; [|discriminate].
  injection E as <- _. rewrite (gch _ _ _ _ H Eh). right. do 2 eexists. split; [reflexivity|exact Hp].
Qed.
Lemma cneg_ext h g x : hom h g -> exts h g (cneg g x).
Proof. intros H. destruct x; cbn [cneg]; [same|now apply mkUn_ext]. Qed.
Lemma cfun_ext h g f x : hom h g -> exts h g (cfun g f x).
Proof. intros H. destruct x; cbn [cfun]; [same|now apply mkUn_ext]. Qed.
Lemma csign_ext h g x : hom h g -> exts h g (csign g x).
Proof. intros H. destruct x; cbn [csign]; [same|]. apply mkUn_ext; [exact H|]. eexists; reflexivity. Qed.
Lemma cpow_ext h g x y : hom h g -> exts h g (cpow g x y).
Proof.
  intros H. unfold cpow.
  assert (M : forall z, exts h g (match getCodeHandler g z with
     | None => Throw | Some h => Ok (newnode g h GPow [argument x; argument y] (value2 bpow x y)) end)).
  { intros z g' w E. destruct (getCodeHandler g z) as [h'|] eqn:Eh; [|discriminate]. injection E as <- _.
    rewrite (gch _ _ _ _ H Eh). right. do 2 eexists. split; [reflexivity|exact I]. }
  destruct x as [a|i vi], y as [b|j vj];
   repeat match goal with |- context[if ?c then _ else _] => destruct c eqn:? end;
   try same; apply M.
Qed.
Lemma findh h g l r t f h' : hom h g -> findCodeHandler g l r t f = Ok h' -> h' = h.
Proof.
  intros H. unfold findCodeHandler.
  destruct (getCodeHandler g l) as [k|] eqn:El.
  { destruct (_ || _); [discriminate|]. intros [= <-]. eapply gch; eassumption. }
  destruct (getCodeHandler g r) as [k|] eqn:Er.
  { destruct (_ || _); [discriminate|]. intros [= <-]. eapply gch; eassumption. }
  destruct (getCodeHandler g t) as [k|] eqn:Et.
  { destruct (_ || _); [discriminate|]. intros [= <-]. eapply gch; eassumption. }
  destruct (getCodeHandler g f) as [k|] eqn:Ef; [|discriminate].
  destruct (_ || _); [discriminate|]. intros [= <-]. eapply gch; eassumption.
Qed.
Lemma ccond_ext h g c l r t f : hom h g -> exts h g (ccond g c l r t f).
Proof.
  intros H. unfold ccond. cbv zeta.
  set (general := if isSameExpression t f then _ else _).
  assert (G : exts h g general).
  { unfold general. destruct (isSameExpression t f) eqn:Esame; [same|]. destruct (findCodeHandler g l r t f) as [h'|] eqn:E; [|intros ? ? ?; discriminate].
    rewrite (findh _ _ _ _ _ _ _ H E). intros g' x Ex. unfold newnode, makeNode in Ex. injection Ex as <- _. right. do 2 eexists. split; [reflexivity|].
    intros x' y' t' f' Et. injection Et as _ _ Et Ef. destruct t, f; try discriminate. injection Et as <-. injection Ef as <-. exact Esame. }
  destruct l as [a|i vl]; [|exact G]. destruct r as [b|j vr]; [|exact G]. destruct (bcmp c a b); same.
Qed.

(** state of the recorded graph *)
Definition HI (h : nat) (g : heap B) : Prop :=
  hom h g /\ forall i n, nth_error g i = Some n ->
    match n_op n with
    | GInv k => k = indepCount (firstn i g) h
    | o => plain o (n_args n)
    end.

Lemma ext1_HI h g g' : HI h g -> ext1 h g g' -> HI h g'.
Proof.
  intros [H1 H2] [->|(o & args & -> & Hp)]; [split; assumption|]. split.
  - apply Forall_app. split; [exact H1|]. constructor; [reflexivity|constructor].
  - intros i n E. destruct (Nat.lt_ge_cases i (length g)) as [Hl|Hl].
    + rewrite nth_error_app1 in E by exact Hl. specialize (H2 i n E).
      destruct (n_op n); try exact H2. rewrite firstn_app. replace (i - length g) with 0 by lia. rewrite app_nil_r. exact H2.
    + rewrite nth_error_app2 in E by exact Hl. destruct (i - length g) as [|k] eqn:Ek; [|destruct k; discriminate].
      injection E as <-. cbn [n_op n_args]. destruct o; try exact Hp. destruct Hp.
Qed.

Lemma step_HI h s i s' : handler_of h i -> HI h (s_heap s) -> step s i = Ok s' -> HI h (s_heap s').
Proof.
  intros Hh HH E. assert (One : forall d r, exts h (s_heap s) r -> bindr s d r = Ok s' -> HI h (s_heap s')).
  { intros d r He Eb. destruct r as [[g' x]|]; [|discriminate]. cbn in Eb. injection Eb as <-. cbn [setreg s_heap fst].
    eapply ext1_HI; [exact HH|]. eapply He. reflexivity. }
  pose proof (proj1 HH) as Hm.
  destruct i; cbn [step] in E.
  - injection E as <-. exact HH.
  - injection E as <-. cbn [handler_of] in Hh. subst h0. cbn [setreg makeIndep newnode makeNode s_heap fst]. split.
    + apply Forall_app. split; [exact Hm|]. constructor; [reflexivity|constructor].
    + intros i n En. destruct (Nat.lt_ge_cases i (length (s_heap s))) as [Hl|Hl].
      * rewrite nth_error_app1 in En by exact Hl. pose proof (proj2 HH i n En) as H2.
        destruct (n_op n); try exact H2. rewrite firstn_app. replace (i - length (s_heap s)) with 0 by lia. rewrite app_nil_r. exact H2.
      * rewrite nth_error_app2 in En by exact Hl. destruct (i - length (s_heap s)) as [|k] eqn:Ek; [|destruct k; discriminate].
        injection En as <-. cbn [n_op]. replace i with (length (s_heap s)) by lia.
        rewrite firstn_app, firstn_all, Nat.sub_diag. cbn [firstn]. rewrite app_nil_r. reflexivity.
  - injection E as <-. exact HH.
  - eapply One; [|exact E]. now apply cbin_ext.
  - eapply One; [|exact E]. now apply casg_ext.
  - eapply One; [|exact E]. now apply cneg_ext.
  - eapply One; [|exact E]. now apply cfun_ext.
  - unfold clog10 in E. destruct (cfun (s_heap s) Log (s_reg s a)) as [[g1 y]|] eqn:E1; [|discriminate].
    pose proof (ext1_HI _ _ _ HH (cfun_ext _ _ _ _ Hm _ _ E1)) as H1.
    destruct (cdiv g1 y (Par (bfun Log b10))) as [[g2 z]|] eqn:E2; [|discriminate]. cbn in E. injection E as <-. cbn [setreg s_heap fst].
    exact (ext1_HI _ _ _ H1 (cbin_ext h g1 BDiv y _ (proj1 H1) _ _ E2)).
  - eapply One; [|exact E]. now apply cpow_ext.
  - eapply One; [|exact E]. now apply csign_ext.
  - eapply One; [|exact E]. now apply ccond_ext.
Qed.

Lemma run_HI h p : Forall (handler_of h) p -> forall s s', HI h (s_heap s) -> run s p = Ok s' -> HI h (s_heap s').
Proof.
  induction 1 as [|i p Hi Hp IH]; cbn [run]; intros s s' HH E; [injection E as <-; exact HH|].
  destruct (step s i) as [s1|] eqn:E1; [|discriminate]. eapply IH; [|exact E]. eapply step_HI; eassumption.
Qed.

(** ** numbering of the independents *)
Lemma indepNodes_snoc g n : indepNodes (g ++ [n]) = indepNodes g ++ match n_op n with GInv _ => [length g] | _ => [] end.
Proof.
  unfold indepNodes. rewrite app_length. cbn [length]. rewrite Nat.add_1_r, seq_S, filter_app. cbn [Nat.add]. f_equal.
  - apply filter_ext_in. intros i Hi. apply in_seq in Hi. rewrite nth_error_app1 by lia. reflexivity.
  - cbn [filter]. rewrite nth_error_app2, Nat.sub_diag by lia. cbn [nth_error]. destruct (n_op n); reflexivity.
Qed.
Lemma indepNodes_len h g : hom h g -> length (indepNodes g) = indepCount g h.
Proof.
  induction g as [|n g IH] using rev_ind; intros H; [reflexivity|]. apply Forall_app in H. destruct H as [H Hn]. inversion Hn; subst.
  rewrite indepNodes_snoc, app_length, IH by exact H. unfold indepCount. rewrite filter_app, app_length. f_equal.
  cbn [filter]. unfold is_inv_of at 1. rewrite Nat.eqb_refl. cbn [andb]. destruct (n_op n); reflexivity.
Qed.
Lemma indepNodes_nth h g : HI h g -> forall p i, nth_error (indepNodes g) p = Some i ->
  exists n, nth_error g i = Some n /\ n_op n = GInv p /\ n_handler n = h.
Proof.
  induction g as [|m g IH] using rev_ind; intros HH p i E; [destruct p; discriminate|].
  assert (Hg : HI h g).
  { destruct HH as [H1 H2]. apply Forall_app in H1. split; [tauto|]. intros k n En.
    assert (Hk : k < length g) by (apply nth_error_Some; congruence).
    specialize (H2 k n). rewrite nth_error_app1 in H2 by exact Hk. specialize (H2 En). destruct (n_op n); try exact H2.
    rewrite firstn_app in H2. replace (k - length g) with 0 in H2 by lia. rewrite app_nil_r in H2. exact H2. }
  rewrite indepNodes_snoc in E. destruct (Nat.lt_ge_cases p (length (indepNodes g))) as [Hp|Hp].
  - rewrite nth_error_app1 in E by exact Hp. destruct (IH Hg p i E) as (n & En & Hn). exists n. split; [|exact Hn].
    rewrite nth_error_app1; [exact En|]. apply nth_error_Some. congruence.
  - rewrite nth_error_app2 in E by exact Hp. destruct HH as [H1 H2]. apply Forall_app in H1. destruct H1 as [H1 Hm]. inversion Hm; subst.
    assert (Em : nth_error (g ++ [m]) (length g) = Some m) by (rewrite nth_error_app2, Nat.sub_diag by lia; reflexivity).
    specialize (H2 _ _ Em).
    destruct (n_op m) eqn:Eo; try (destruct (p - length (indepNodes g)); discriminate).
    destruct (p - length (indepNodes g)) as [|k'] eqn:Ek; [|destruct k'; discriminate]. injection E as <-.
    exists m. split; [exact Em|]. split; [|reflexivity]. rewrite Eo. f_equal. rewrite H2.
    rewrite firstn_app, firstn_all, Nat.sub_diag. cbn [firstn]. rewrite app_nil_r, <- (indepNodes_len _ g H1). lia.
Qed.

Lemma record_gen_input h p s (outs : list nat) : Forall (handler_of h) p -> run init p = Ok s ->
  gen_input (s_heap s) (indepNodes (s_heap s)) (map (fun r => argument (s_reg s r)) outs).
Proof.
  intros Hh E.
  assert (HH : HI h (s_heap s)).
  { eapply run_HI; [exact Hh| |exact E]. split; [constructor|]. intros i n En. destruct i; discriminate. }
  destruct (run_SI false p init s) as [[W [V [A _]]] _]; [discriminate|apply init_SI|exact E|].
  set (g := s_heap s) in *. set (deps := map _ outs).
  assert (He : forall i j, edge g i j -> j < i).
  { intros i j (n & En & Hj). pose proof (W i n En) as F. rewrite Forall_forall in F. exact (F _ Hj). }
  assert (Hnoalias : forall i, ~ has_op g i GAlias).
  { intros i (n & En & Ho). pose proof (proj2 HH i n En) as F. rewrite Ho in F. exact F. }
  constructor.
  - exists (fun i => i). exact He.
  - induction 1 as [i Hi|i j Hi IH Hj].
    + unfold deps in Hi. apply in_map_iff in Hi. destruct Hi as (r & Er & _). specialize (V r). unfold argument in Er.
      destruct (s_reg s r); [discriminate|]. injection Er as <-. exact V.
    + specialize (He _ _ Hj). lia.
  - intros i n _ En. apply nth_error_In in En. exact (proj1 (Forall_forall _ _) A _ En).
  - apply NoDup_filter, seq_NoDup.
  - intros i Hi. apply filter_In in Hi. destruct Hi as [_ Hi]. destruct (nth_error g i) as [n|] eqn:En; [|discriminate].
    destruct (n_op n) eqn:Eo; try discriminate. exists k, n. auto.
  - intros i k _ (n & En & Eo). apply filter_In. split.
    + apply in_seq. assert (i < length g) by (apply nth_error_Some; congruence). lia.
    + rewrite En, Eo. reflexivity.
  - intros i n _ En Eo. pose proof (proj2 HH i n En) as F. rewrite Eo in F. destruct F as [j Hj]. exists j. split; [exact Hj|apply Hnoalias].
  - intros i n _ En Eo. exfalso. apply (Hnoalias i). exists n. auto.
  - intros i _. apply Hnoalias.
Qed.

Lemma record_branches h p s (outs : list nat) : Forall (handler_of h) p -> run init p = Ok s ->
  branches_ok (s_heap s) (map (fun r => argument (s_reg s r)) outs).
Proof.
  intros Hh E.
  assert (HH : HI h (s_heap s)).
  { eapply run_HI; [exact Hh| |exact E]. split; [constructor|]. intros i n En. destruct i; discriminate. }
  intros i n c x y t f _ En Eo Ea Et. pose proof (proj2 HH i n En) as F. rewrite Eo in F. specialize (F x y t f Ea). congruence.
Qed.

Lemma record_indep h p s env : Forall (handler_of h) p -> run init p = Ok s ->
  forall k i, nth_error (indepNodes (s_heap s)) k = Some i -> denote env (s_heap s) i = Some (env h k).
Proof.
  intros Hh E k i Ek.
  assert (HH : HI h (s_heap s)).
  { eapply run_HI; [exact Hh| |exact E]. split; [constructor|]. intros j n En. destruct j; discriminate. }
  destruct (run_SI false p init s) as [[W [_ [A _]]] _]; [discriminate|apply init_SI|exact E|].
  destruct (indepNodes_nth h _ HH k i Ek) as (n & En & Eo & Eh). rewrite (denote_unfold env _ i n W En), Eo, Eh.
  apply nth_error_In in En. pose proof (proj1 (Forall_forall _ _) A _ En) as L. cbv beta in L. rewrite Eo in L.
  destruct (n_args n); [reflexivity|discriminate].
Qed.
End Link.

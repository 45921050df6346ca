(** * C10: types of the generated expressions *)
From Coq Require Import List Bool Arith Lia ZArith String QArith Qcanon SpecFloat.
From Verif Require Import Graph_model Graph_spec Graph_Qc Graph_Double CGArith_model CGArith_spec Codegen_model Codegen_spec Codegen_thm
  CSyntax CSyntax_proofs CText CTyped CPrint_model CPrint_spec CPrint_thm.
Import ListNotations.
Local Open Scope list_scope.
Local Open Scope nat_scope.

Section Proofs.
Context {B : Type} {O : BaseOps B} {I : IntOps B}.
Variable libm : string -> option cfun.
Hypothesis HI : IntLaws B.
Notation ceval := (ceval libm).
Notation teval := (@teval B O I libm).

Lemma ind0 (P : cexpr (catom B) -> Prop) : (forall a, P (EAtom a)) -> (forall e, P e -> P (ENeg e)) -> (forall o a b, P a -> P b -> P (EBin o a b)) ->
  (forall c t f, P c -> P t -> P f -> P (ECond c t f)) -> (forall f l, Forall P l -> P (ECall f l)) -> forall e, P e.
Proof.
  intros H1 H2 H3 H4 H5. fix IH 1. intros [a|e|o a b|c t f|f l].
  - apply H1.
  - apply H2, IH.
  - apply H3; apply IH.
  - apply H4; apply IH.
  - apply H5. induction l as [|a l IHl]; constructor; [apply IH|exact IHl].
Qed.
Definition kids (P : cexpr (catom B) -> Prop) (e : cexpr (catom B)) : Prop := match e with EBin _ a b => P a /\ P b | _ => True end.
Lemma ind' (P : cexpr (catom B) -> Prop) : (forall a, P (EAtom a)) -> (forall e, P e -> P (ENeg e)) -> (forall o a b, P a -> P b -> P (EBin o a b)) ->
  (forall c t f, kids P c -> P t -> P f -> P (ECond c t f)) -> (forall f l, Forall P l -> P (ECall f l)) -> forall e, P e.
Proof.
  intros H1 H2 H3 H4 H5 e. enough (H : P e /\ kids P e) by apply H.
  induction e as [a|e IH|o a b IHa IHb|c t f IHc IHt IHf|f l IH] using ind0; cbn [kids]; (split; [|try exact Logic.I]).
  - apply H1.
  - apply H2, IH.
  - apply H3; [apply IHa|apply IHb].
  - split; [apply IHa|apply IHb].
  - apply H4; [apply IHc|apply IHt|apply IHf].
  - apply H5. eapply Forall_impl; [|exact IH]. intros a H; apply H.
Qed.

Definition vtype (v : @cval B) : bool := match v with VI _ => true | VF _ => false end.
Lemma toF_sub z : @inInt B z = Some (VI z) \/ @inInt B z = None.
Proof. unfold inInt. destruct (_ && _); auto. Qed.

(** values have the static type *)
Lemma teval_type m e : base_typed e = true -> forall v, teval m e = Some v -> vtype v = intTyped e.
Proof.
  induction e as [[l|b]|e IH|o a b IHa IHb|c t f IHc IHt IHf|f l IH] using ind'; intros Hb v E; cbn [CTyped.teval intTyped base_typed] in *.
  - destruct (m l); [injection E as <-|discriminate]. reflexivity.
  - injection E as <-. destruct (spelledInt b); reflexivity.
  - apply andb_true_iff in Hb. destruct Hb as [Hb _]. destruct (teval m e) as [[z|b]|]; try discriminate.
    + rewrite <- (IH Hb _ eq_refl). unfold inInt in E. destruct (_ && _); [injection E as <-; reflexivity|discriminate].
    + rewrite <- (IH Hb _ eq_refl). injection E as <-. reflexivity.
  - rewrite !andb_true_iff in Hb. destruct Hb as [[Ha Hb] Hn]. unfold tarith in E.
    destruct (teval m a) as [u|]; [|discriminate]. destruct (teval m b) as [w|]; [|destruct u; discriminate].
    specialize (IHa Ha _ eq_refl). specialize (IHb Hb _ eq_refl). rewrite <- IHa, <- IHb in Hn |- *.
    destruct u as [z|x], w as [z'|y]; cbn [vtype andb negb] in Hn |- *; try discriminate;
      destruct o; cbn [option_map odiv] in E; try discriminate; try (injection E as <-; reflexivity);
      destruct (bcmp CEq _ _); try discriminate; injection E as <-; reflexivity.
  - rewrite !andb_true_iff in Hb. destruct Hb as [[Hc Ht] Hf]. destruct c as [|?|o x y|?|?]; try discriminate.
    destruct (cmpOf o) as [cc|]; [|discriminate]. destruct (teval m x) as [u|]; [|discriminate]. destruct (teval m y) as [w|]; [|discriminate].
    destruct (intTyped t && intTyped f) eqn:Ei.
    + apply andb_true_iff in Ei. destruct (tcmp cc u w); [rewrite (IHt Ht _ E)|rewrite (IHf Hf _ E)]; tauto.
    + destruct (if tcmp cc u w then teval m t else teval m f); [injection E as <-; reflexivity|discriminate].
  - destruct l as [|a [|b [|]]]; try discriminate.
    + destruct (libm f) as [[]|]; try discriminate. destruct (teval m a); [injection E as <-; reflexivity|discriminate].
    + destruct (libm f) as [[]|]; try discriminate. destruct (teval m a); [|discriminate]. destruct (teval m b); [injection E as <-; reflexivity|discriminate].
Qed.

Lemma spelled_value b z : ok_lit b -> spelledInt b = Some z -> ofZ z = b.
Proof.
  intros [H0 H1] E. unfold spelledInt in E. destruct (bcmp CEq b b0); [injection E as <-; rewrite (I_0 HI); auto using eq_sym|].
  destruct (bcmp CEq b b1); [injection E as <-; rewrite (I_1 HI); auto using eq_sym|discriminate].
Qed.

(** typed and untyped values agree *)
Lemma teval_value m e : ok_lits e -> base_typed e = true -> option_map toF (teval m e) = ceval m e.
Proof.
  induction e as [[l|b]|e IH|o a b IHa IHb|c t f IHc IHt IHf|f l IH] using ind'; intros Hl Hb; cbn [CTyped.teval CText.ceval base_typed ok_lits] in *.
  - destruct (m l); reflexivity.
  - cbn [option_map]. f_equal. destruct (spelledInt b) as [z|] eqn:E; [|reflexivity]. apply spelled_value; assumption.
  - apply andb_true_iff in Hb. destruct Hb as [Hb Ho]. rewrite <- (IH Hl Hb).
    destruct (teval m e) as [v|] eqn:E; [|reflexivity]. pose proof (teval_type m e Hb v E) as Hv.
    destruct v as [z|b]; [|reflexivity]. cbn [vtype] in Hv. rewrite <- Hv in Ho. cbn [negb orb] in Ho. unfold litOne in Ho.
    destruct e as [[?|b]|?|?|?|?]; try discriminate. cbn [CTyped.teval] in E. injection E as E. unfold spelledInt in E.
    apply andb_true_iff in Ho. destruct Ho as [H0 H1]. rewrite negb_true_iff in H0. rewrite H0, H1 in E. injection E as <-.
    change (Some (@ofZ B I (-1)) = Some (bneg (ofZ 1))). rewrite (I_m1 HI), (I_1 HI). reflexivity.
  - destruct Hl as [Hla Hlb]. rewrite !andb_true_iff in Hb. destruct Hb as [[Ha Hb] Hn]. rewrite <- (IHa Hla Ha), <- (IHb Hlb Hb).
    unfold tarith. destruct (teval m a) as [u|] eqn:Eu; [|destruct o; reflexivity].
    pose proof (teval_type m a Ha u Eu) as Hu.
    destruct (teval m b) as [w|] eqn:Ew; [|destruct u; destruct o; reflexivity].
    pose proof (teval_type m b Hb w Ew) as Hw. rewrite <- Hu, <- Hw in Hn.
    destruct u as [z|x], w as [z'|y]; cbn [vtype andb negb] in Hn; try discriminate;
      destruct o; cbn [option_map lift2 odiv toF]; try reflexivity; destruct (bcmp CEq _ _); reflexivity.
  - destruct Hl as (Hlc & Hlt & Hlf). rewrite !andb_true_iff in Hb. destruct Hb as [[Hc Ht] Hf]. destruct c as [|?|o x y|?|?]; try reflexivity.
    cbn [ok_lits base_typed] in Hlc, Hc. destruct (cmpOf o) as [cc|] eqn:Eo; [|reflexivity].
    destruct IHc as [IHx IHy]. rewrite !andb_true_iff in Hc. destruct Hc as [[Hx Hy] Hn]. destruct Hlc as [Hlx Hly].
    rewrite <- (IHx Hlx Hx), <- (IHy Hly Hy), <- (IHt Hlt Ht), <- (IHf Hlf Hf).
    destruct (teval m x) as [u|] eqn:Eu; [|reflexivity]. pose proof (teval_type m x Hx u Eu) as Hu.
    destruct (teval m y) as [w|] eqn:Ew; [|reflexivity]. pose proof (teval_type m y Hy w Ew) as Hw. rewrite <- Hu, <- Hw in Hn.
    assert (Hcmp : tcmp cc u w = bcmp cc (toF u) (toF w)) by (destruct u, w; cbn [vtype andb negb] in Hn; try discriminate; reflexivity).
    rewrite Hcmp. cbn [option_map ocond]. destruct (bcmp cc (toF u) (toF w)).
    + destruct (intTyped t && intTyped f); [reflexivity|]. destruct (teval m t); reflexivity.
    + destruct (intTyped t && intTyped f); [reflexivity|]. destruct (teval m f); reflexivity.
  - destruct l as [|a [|b [|]]]; try reflexivity; cbn [fold_right forallb] in Hl, Hb.
    + inversion IH as [|? ? Ia _]. rewrite andb_true_r in Hb. rewrite <- (Ia (proj1 Hl) Hb). destruct (libm f) as [[]|]; try reflexivity.
      destruct (teval m a); reflexivity.
    + inversion IH as [|? ? Ia I']. inversion I' as [|? ? Ib _]. rewrite andb_true_r in Hb. apply andb_true_iff in Hb. destruct Hb as [Hb1 Hb2].
      rewrite <- (Ia (proj1 Hl) Hb1), <- (Ib (proj1 (proj2 Hl)) Hb2). destruct (libm f) as [[]|]; try reflexivity.
      destruct (teval m a); [|reflexivity]. destruct (teval m b); reflexivity.
Qed.

Lemma ttest_value m e : ok_lits e -> base_typed e = true -> @ttest B O I libm m e = ctest libm m e.
Proof.
  destruct e as [|?|o x y|?|?]; try reflexivity. cbn [ok_lits base_typed ttest ctest]. intros [Hlx Hly] H.
  rewrite !andb_true_iff in H. destruct H as [[Hx Hy] Hn]. destruct (cmpOf o); [|reflexivity].
  rewrite <- (teval_value m x Hlx Hx), <- (teval_value m y Hly Hy).
  destruct (teval m x) as [u|] eqn:Eu; [|reflexivity]. pose proof (teval_type m x Hx u Eu) as Hu.
  destruct (teval m y) as [w|] eqn:Ew; [|reflexivity]. pose proof (teval_type m y Hy w Ew) as Hw. rewrite <- Hu, <- Hw in Hn.
  destruct u, w; cbn [vtype andb negb] in Hn; try discriminate; reflexivity.
Qed.
Lemma texec1_value s : ok_lits_stmt s -> base_typed_stmt s = true -> forall m, @texec1 B O I libm m s = cexec1 libm m s.
Proof.
  induction s as [l a e|c s1 IH1 s2 IH2|n]; cbn [ok_lits_stmt base_typed_stmt texec1 cexec1]; intros Hl Hb m.
  - rewrite teval_value by assumption. reflexivity.
  - rewrite !andb_true_iff in Hb. destruct Hl as (Hc & H1 & H2), Hb as [[Bc B1] B2]. rewrite ttest_value, IH1, IH2 by assumption. reflexivity.
  - reflexivity.
Qed.
End Proofs.

(** Full statement: every sub-expression of a generated assignment is evaluated in the base type.  It is false for texts with
    a sign function among the operands (below).  Proved for the texts which satisfy [base_typed_stmt]: the rules of C for int and
    floating operands then give the values which C08 and C09 speak about. *)
Theorem C10_base_typed_texts_have_the_base_type_value_partial :
  forall (B : Type) (O : BaseOps B) (I : IntOps B) (libm : string -> option cfun), IntLaws B ->
  forall (p : list (cstmt B)), (forall s, In s p -> ok_lits_stmt s) -> forallb base_typed_stmt p = true ->
  forall m, texec libm m p = cexec libm m p.
Proof.
  intros B O I libm HI p. unfold texec, cexec. induction p as [|s p IH]; intros Hl Hb m; [reflexivity|].
  cbn [forallb fold_left] in *. apply andb_true_iff in Hb. destruct Hb as [Hs Hb].
  rewrite (texec1_value libm HI) by (auto; apply Hl; left; reflexivity). apply IH; [|exact Hb]. intros; apply Hl; right; assumption.
Qed.
Print Assumptions C10_base_typed_texts_have_the_base_type_value_partial.

#[export] Instance DoubleInt : IntOps spec_float := fun z => binary_normalize prec emax z 0 false.
Lemma DoubleIntLaws : IntLaws spec_float.
Proof. constructor; reflexivity. Qed.
(** y[0] = 1 / x[0] + x[1] * sign(x[0]); if( x[0] < 0 ) { y[1] += -1; } else { y[1] += sin(sign(x[1])); } is base typed,
    1 / (sign(x[0]) + sign(x[1])) is not *)
Definition l0 : cexpr (catom spec_float) := EAtom (ALit (S754_zero false)).
Definition l1 : cexpr (catom spec_float) := EAtom (ALit sf_one).
Definition csign (i : nat) : cexpr (catom spec_float) := ECond (EBin Gt (el i) l0) l1 (ECond (EBin Lt (el i) l0) (ENeg l1) l0).
Definition c10_ex : list (cstmt spec_float) :=
  [CAssign (LY 0) ASet (EBin Plus (EBin Slash l1 (el 0)) (EBin Star (el 1) (csign 0)));
   CIf (EBin Lt (el 0) l0) (CAssign (LY 1) AAdd (ENeg l1)) (CAssign (LY 1) AAdd (ECall "sin" [csign 1]))].
Example C10_ex : IntLaws spec_float /\ (forall s, In s c10_ex -> ok_lits_stmt s) /\ forallb base_typed_stmt c10_ex = true /\
  base_typed_stmt (CAssign (LY 0) ASet (EBin Slash l1 (EBin Plus (csign 0) (csign 1)))) = false.
Proof.
  split; [exact DoubleIntLaws|]. split; [|split; reflexivity].
  assert (H0 : ok_lit (S754_zero false)) by (split; [reflexivity|intros H; discriminate H]).
  assert (H1 : ok_lit sf_one) by (split; [intros H; discriminate H|reflexivity]).
  intros s [<-|[<-|[]]]; cbn; tauto.
Qed.

(** 1 / (sign(x0) + sign(x1)): the C text divides the int 1 by the int 2 and assigns 0, the recorded expression is 0.5 *)
Definition signs : list (instr spec_float) :=
  [IIndep 0 7 None; IIndep 1 7 None; ISign 2 0; ISign 3 1; IBin BAdd 5 2 3; IConst 6 sf_one; IBin BDiv 4 6 5].
Lemma rd_up {A} n n' t (e : cexpr A) : n <= n' -> G n' t e -> G n t e.
Proof. intros; eapply G_ups; eassumption. Qed.
Definition tsign (i : nat) : list (tok (catom spec_float)) :=
  [TLP; ld i; TOp Gt; TAtom (ALit (S754_zero false)); TQuest; TAtom (ALit sf_one); TColon;
   TLP; ld i; TOp Lt; TAtom (ALit (S754_zero false)); TQuest; TOp Minus; TAtom (ALit sf_one); TColon; TAtom (ALit (S754_zero false)); TRP; TRP].
Lemma csign_reads i : G 8 (tsign i) (csign i).
Proof.
  apply (G_paren [ld i; TOp Gt; TAtom (ALit (S754_zero false)); TQuest; TAtom (ALit sf_one); TColon;
   TLP; ld i; TOp Lt; TAtom (ALit (S754_zero false)); TQuest; TOp Minus; TAtom (ALit sf_one); TColon; TAtom (ALit (S754_zero false)); TRP]).
  apply (G_cond [ld i; TOp Gt; TAtom (ALit (S754_zero false))] [TAtom (ALit sf_one)]).
  - apply (rd_up 1 4); [lia|]. apply (G_bin Gt [ld i] [TAtom (ALit (S754_zero false))]); (eapply rd_up; [|apply G_atom]); cbn; lia.
  - eapply rd_up; [|apply G_atom]; lia.
  - eapply rd_up; [|apply (G_paren [ld i; TOp Lt; TAtom (ALit (S754_zero false)); TQuest; TOp Minus; TAtom (ALit sf_one); TColon; TAtom (ALit (S754_zero false))])]; [lia|].
    apply (G_cond [ld i; TOp Lt; TAtom (ALit (S754_zero false))] [TOp Minus; TAtom (ALit sf_one)] [TAtom (ALit (S754_zero false))]).
    + apply (rd_up 1 4); [lia|]. apply (G_bin Lt [ld i] [TAtom (ALit (S754_zero false))]); (eapply rd_up; [|apply G_atom]); cbn; lia.
    + apply (rd_up 0 7); [lia|]. apply G_neg. eapply rd_up; [|apply G_atom]; lia.
    + eapply rd_up; [|apply G_atom]; lia.
Qed.
Theorem C10_quotient_of_signs_is_an_integer_division_refuted :
  exists ge t cp m, c09_gen signs [4] = Done (ge, t) /\ text_of t cp /\
    exec m (ge_prog ge) (LY 0) = Some (dbl 1 (-1)) /\ texec libm_double m cp (LY 0) = Some (dbl 0 0).
Proof.
  do 2 eexists. exists [CAssign (LY 0) ASet (EBin Slash l1 (EBin Plus (csign 0) (csign 1)))], (xmem (dbl 3 0) (dbl 5 0) (dbl 0 0)).
  split; [vm_compute; reflexivity|]. split; [|split; vm_compute; reflexivity].
  split; [reflexivity|]. match goal with |- reads ?X _ => let Y := eval vm_compute in X in change (reads Y [CAssign (LY 0) ASet (EBin Slash l1 (EBin Plus (csign 0) (csign 1)))]) end.
  pose (k := TAtom (ALit sf_one) :: TOp Slash :: TLP :: (tsign 0 ++ TOp Plus :: tsign 1) ++ [TRP]).
  change (reads ((PT (TAtom (ALoc (LY 0))) :: aopTok ASet :: map PT k ++ [PSemi]) ++ []) [CAssign (LY 0) ASet (EBin Slash l1 (EBin Plus (csign 0) (csign 1)))]).
  apply R_cons; [|constructor]. apply R_assign. apply (rd_up 0 6); [lia|].
  apply (G_bin Slash [TAtom (ALit sf_one)]); [eapply rd_up; [|apply G_atom]; cbn; lia|]. eapply rd_up; [|apply G_paren]; [cbn; lia|].
  apply (rd_up 0 5); [lia|]. apply (G_bin Plus); (eapply rd_up; [|apply csign_reads]); cbn; lia.
Qed.
Print Assumptions C10_quotient_of_signs_is_an_integer_division_refuted.

(** the constant -0.0 is written "-0", an integer constant whose value is +0: 1 / (x0 * -0.0 ...) changes sign; here y = -0.0 alone *)
Theorem C10_negative_zero_loses_its_sign_refuted :
  exists t cp, generateText fname_double [] 10 10 (mkOpts 100 true false false ASet) [] [APar (S754_zero true)] noNames = Done t /\ text_of t cp /\
    texec libm_double (fun _ => None) cp (LY 0) = Some (S754_zero false).
Proof.
  eexists. exists [CAssign (LY 0) ASet (ENeg l0)]. split; [vm_compute; reflexivity|]. split; [|vm_compute; reflexivity].
  split; [reflexivity|]. cbn [strip filter blank negb].
  apply (R_cons [PT (TAtom (ALoc (LY 0))); PSet; PT (TOp Minus); PT (TAtom (ALit (S754_zero false))); PSemi] _ [] []); [|constructor].
  apply (R_assign (LY 0) ASet [TOp Minus; TAtom (ALit (S754_zero false))]). apply (rd_up 0 7); [lia|]. apply G_neg. eapply rd_up; [|apply G_atom]; lia.
Qed.
Print Assumptions C10_negative_zero_loses_its_sign_refuted.

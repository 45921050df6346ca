(** * Proofs for CPrint: the text of an expression reads as an expression of the same value *)
From Coq Require Import List Bool Arith Lia String.
From Verif Require Import Graph_model Graph_spec Codegen_model Codegen_spec Codegen_dfs CSyntax CSyntax_proofs CText CPrint_model CPrint_spec
  Stream_model Stream_spec Stream_thm.
Import ListNotations.
Local Open Scope list_scope.
Local Open Scope nat_scope.

Lemma obind_done' {A C} (x : outcome A) (f : A -> outcome C) y : obind x f = Done y -> exists a, x = Done a /\ f a = Done y.
Proof. destruct x; cbn; try discriminate. eauto. Qed.

Section Proofs.
Context {B : Type} {O : BaseOps B} {PO : PrintOps B}.
Variable libm : string -> option cfun.
Variable fname : ufun -> string.
Hypothesis HF : names_functions libm fname.
Hypothesis HSign : SignLaws B.
Notation ceval := (ceval libm).

(** ** Texts *)
Lemma strip_app (a b : list (ptok B)) : strip (a ++ b) = strip a ++ strip b.
Proof. apply filter_app. Qed.

Definition neutral (x : ptok B) : Prop := word x = false /\ oper x = false.
Lemma separated_cons2 (a b : ptok B) t : separated (a :: b :: t) = negb (fuses a b) && separated (b :: t).
Proof. reflexivity. Qed.
Lemma fuses_nl (a b : ptok B) : neutral a -> fuses a b = false.
Proof. intros [H1 H2]. unfold fuses. rewrite H1, H2. reflexivity. Qed.
Lemma fuses_nr (a b : ptok B) : neutral b -> fuses a b = false.
Proof. intros [H1 H2]. unfold fuses. rewrite H1, H2, !andb_false_r. reflexivity. Qed.
Lemma separated_cons (x : ptok B) t : neutral x -> separated t = true -> separated (x :: t) = true.
Proof. intros Hx Ht. destruct t; [reflexivity|]. rewrite separated_cons2, fuses_nl by exact Hx. exact Ht. Qed.
Lemma separated_app (t1 : list (ptok B)) x t2 : separated t1 = true -> neutral x -> separated t2 = true -> separated (t1 ++ x :: t2) = true.
Proof.
  intros H1 Hx H2. induction t1 as [|a t1 IH]; cbn [app]; [apply separated_cons; assumption|].
  destruct t1 as [|b t1]; cbn [app] in *.
  - rewrite separated_cons2, fuses_nr by exact Hx. apply separated_cons; assumption.
  - rewrite separated_cons2 in *. apply andb_true_iff in H1. destruct H1 as [-> H1]. apply IH, H1.
Qed.

(** text [t] reads, at level [n], as the expression [a] *)
Definition Rd (n : nat) (t : list (ptok B)) (a : cexpr (catom B)) : Prop :=
  separated t = true /\ exists toks, strip t = map PT toks /\ G n toks a.

Lemma Rd_ups n m t a : n <= m -> Rd m t a -> Rd n t a.
Proof. intros H [H1 (k & H2 & H3)]. split; [exact H1|]. exists k. split; [exact H2|]. eapply G_ups; eassumption. Qed.
Lemma Rd_loc l : Rd 8 [tLoc l] (EAtom (ALoc l)).
Proof. split; [reflexivity|]. exists [TAtom (ALoc l)]. split; [reflexivity|apply G_atom]. Qed.
Lemma Rd_param b : exact b -> exists a, Rd 7 (param b) a /\ forall m, ceval m a = Some b.
Proof.
  unfold exact, param. intros H. destruct (pneg b).
  - exists (ENeg (EAtom (ALit (pmag b)))). split.
    + split; [reflexivity|]. exists [TOp Minus; TAtom (ALit (pmag b))]. split; [reflexivity|].
      apply G_neg. apply G_up; [lia|]. apply G_atom.
    + intros m. cbn. congruence.
  - exists (EAtom (ALit (pmag b))). split.
    + split; [reflexivity|]. exists [TAtom (ALit (pmag b))]. split; [reflexivity|]. apply G_up; [lia|]. apply G_atom.
    + intros m. cbn. congruence.
Qed.
Lemma Rd_paren n t a : Rd n t a -> Rd 8 (PT TLP :: t ++ [PT TRP]) a.
Proof.
  intros H. apply (Rd_ups 0) in H; [|lia]. destruct H as [H1 (k & H2 & H3)]. split.
  - apply separated_cons; [split; reflexivity|]. apply separated_app; [exact H1|split; reflexivity|reflexivity].
  - exists (TLP :: k ++ [TRP]). split.
    + cbn [strip filter blank negb]. fold (strip (t ++ [PT TRP])). rewrite strip_app, H2. cbn [map]. rewrite map_app. reflexivity.
    + apply G_paren. exact H3.
Qed.
(** two texts with a binary operator between blanks; [join] is any way of reading the tokens *)
Lemma Rd_infix t1 t2 op n a : separated t1 = true -> separated t2 = true ->
  forall k1 k2, strip t1 = map PT k1 -> strip t2 = map PT k2 -> G n (k1 ++ TOp op :: k2) a ->
  Rd n (t1 ++ [PB; tOp op; PB] ++ t2) a.
Proof.
  intros H1 H2 k1 k2 E1 E2 H. split.
  - cbn [app]. apply separated_app; [exact H1|split; reflexivity|]. apply (separated_app [tOp op]); [reflexivity|split; reflexivity|exact H2].
  - exists (k1 ++ TOp op :: k2). split; [|exact H]. rewrite strip_app, E1. cbn [app strip filter blank negb tOp]. fold (strip t2).
    rewrite E2, map_app. reflexivity.
Qed.
Lemma Rd_bin op t1 t2 a b : Rd (lv op) t1 a -> Rd (S (lv op)) t2 b -> Rd (lv op) (t1 ++ [PB; tOp op; PB] ++ t2) (EBin op a b).
Proof.
  intros [H1 (k1 & E1 & G1)] [H2 (k2 & E2 & G2)]. eapply Rd_infix; [exact H1|exact H2|exact E1|exact E2|]. apply G_bin; assumption.
Qed.

(** ** Where parentheses are left out *)
Definition samev (a : cexpr (catom B)) (v : @mem B -> option B) : Prop := forall m, ceval m a = v m.

(** unary minus in front of a product goes to the first factor *)
Lemma neg_prod n k a : G n k a -> n = 6 -> exists a', G 6 (TOp Minus :: k) a' /\ samev a' (fun m => lift1 bneg (ceval m a)).
Proof.
  intros H. induction H as [n t e Hn H IH|o t1 t2 a b H1 IH1 H2 IH2|t t1 t2 a b c H1 IH1 H2 IH2 H3 IH3|t a H IH|a|t e H IH|f t es H];
    intros En; try discriminate.
  - subst n. exists (ENeg e). split; [|intros m; reflexivity]. apply G_up; [lia|]. apply G_neg. exact H.
  - destruct (IH1 En) as (a' & Ha & Hv). destruct o; try discriminate.
    + exists (EBin Star a' b). split; [exact (G_bin Star (TOp Minus :: t1) t2 a' b Ha H2)|]. intros m. cbn [CText.ceval]. rewrite Hv.
      destruct (ceval m a) as [va|], (ceval m b) as [vb|]; cbn; try reflexivity. rewrite (S_neg_mul HSign). reflexivity.
    + exists (EBin Slash a' b). split; [exact (G_bin Slash (TOp Minus :: t1) t2 a' b Ha H2)|]. intros m. cbn [CText.ceval]. rewrite Hv.
      destruct (ceval m a) as [va|], (ceval m b) as [vb|]; cbn; try reflexivity. destruct (bcmp CEq vb b0) eqn:E; [reflexivity|]. cbn.
      rewrite (S_neg_div HSign) by exact E. reflexivity.
Qed.

Section Assoc.
Hypothesis HA : AssocLaws B.
Lemma mul_assoc k1 a1 : G 6 k1 a1 -> forall n k2 a2, G n k2 a2 -> n = 6 ->
  exists a, G 6 (k1 ++ TOp Star :: k2) a /\ samev a (fun m => lift2 bmul (ceval m a1) (ceval m a2)).
Proof.
  intros G1 n k2 a2 H. induction H as [n t e Hn H IH|o t1 t2 a b H1 IH1 H2 IH2|t t1 t2 a b c H1 IH1 H2 IH2 H3 IH3|t a H IH|a|t e H IH|f t es H];
    intros En; try discriminate.
  - subst n. exists (EBin Star a1 e). split; [exact (G_bin Star k1 t a1 e G1 H)|intros m; reflexivity].
  - destruct (IH1 En) as (a' & Ha & Hv). destruct o; try discriminate.
    + exists (EBin Star a' b). split.
      * pose proof (G_bin Star _ t2 a' b Ha H2) as H. rewrite <- app_assoc in H. exact H.
      * intros m. cbn [CText.ceval]. rewrite Hv. destruct (ceval m a1) as [v1|], (ceval m a) as [va|], (ceval m b) as [vb|]; cbn; try reflexivity.
        rewrite (A_mul_mul HA). reflexivity.
    + exists (EBin Slash a' b). split.
      * pose proof (G_bin Slash _ t2 a' b Ha H2) as H. rewrite <- app_assoc in H. exact H.
      * intros m. cbn [CText.ceval]. rewrite Hv. destruct (ceval m a1) as [v1|], (ceval m a) as [va|], (ceval m b) as [vb|]; cbn; try reflexivity;
        destruct (bcmp CEq vb b0) eqn:E; try reflexivity. cbn. rewrite (A_mul_div HA) by exact E. reflexivity.
Qed.
Lemma add_assoc k1 a1 : G 5 k1 a1 -> forall n k2 a2, G n k2 a2 -> n = 5 ->
  exists a, G 5 (k1 ++ TOp Plus :: k2) a /\ samev a (fun m => lift2 badd (ceval m a1) (ceval m a2)).
Proof.
  intros G1 n k2 a2 H. induction H as [n t e Hn H IH|o t1 t2 a b H1 IH1 H2 IH2|t t1 t2 a b c H1 IH1 H2 IH2 H3 IH3|t a H IH|a|t e H IH|f t es H];
    intros En; try discriminate.
  - subst n. exists (EBin Plus a1 e). split; [exact (G_bin Plus k1 t a1 e G1 H)|intros m; reflexivity].
  - destruct (IH1 En) as (a' & Ha & Hv). destruct o; try discriminate.
    + exists (EBin Plus a' b). split.
      * pose proof (G_bin Plus _ t2 a' b Ha H2) as H. rewrite <- app_assoc in H. exact H.
      * intros m. cbn [CText.ceval]. rewrite Hv. destruct (ceval m a1) as [v1|], (ceval m a) as [va|], (ceval m b) as [vb|]; cbn; try reflexivity.
        rewrite (A_add_add HA). reflexivity.
    + exists (EBin Minus a' b). split.
      * pose proof (G_bin Minus _ t2 a' b Ha H2) as H. rewrite <- app_assoc in H. exact H.
      * intros m. cbn [CText.ceval]. rewrite Hv. destruct (ceval m a1) as [v1|], (ceval m a) as [va|], (ceval m b) as [vb|]; cbn; try reflexivity.
        rewrite (A_add_sub HA). reflexivity.
Qed.
End Assoc.

(** level at which the text of an expression reads *)
Definition lev (e : cx B) : nat :=
  match e with
  | XLoc _ => 8
  | XPar _ => 7
  | XOp (GAdd | GSub) _ => 5
  | XOp (GMul | GDiv | GUnMinus) _ => 6
  | XOp _ _ => 8
  end.

Definition assoc_ok (e : cx B) : Prop := AssocLaws B \/ left_associated e = true.
Lemma assoc_ok_arg o a x : assoc_ok (XOp o a) -> In x a -> assoc_ok x.
Proof.
  intros [H|H] Hx; [left; exact H|right]. cbn [left_associated] in H. apply andb_true_iff in H. destruct H as [H _].
  rewrite forallb_forall in H. auto.
Qed.

(** reading a text with the value of expression [e] *)
Definition good (n : nat) (t : list (ptok B)) (e : cx B) : Prop := exists a, Rd n t a /\ samev a (fun m => xval m e).
Lemma good_ups n n' t e : n <= n' -> good n' t e -> good n t e.
Proof. intros H (a & Ha & Hv). exists a. split; [eapply Rd_ups; eassumption|exact Hv]. Qed.

(** ** Nodes *)
Section Node.
Variable g : heap B.
Variable o : options.
Variable indeps : list nat.
Variable deps : list (arg B).
Variable pl : plan.
Variable nm : nat -> option loc.
Variable F : nat.
Hypothesis HX0 : exact b0 /\ exact b1 /\ exact (bneg b1).
Hypothesis HX : forall i b, In (APar b) (gargs g i) -> exact b /\ exact (bneg b).
Notation varName := (varName g indeps deps pl nm).
Notation exprOf := (exprOf g indeps deps pl nm).
Notation argExpr := (argExpr g indeps deps pl nm).
Notation push := (push g indeps deps pl nm).
Notation pieces := (pieces fname g o indeps deps pl nm F).
Notation expands := (expands pieces).
Notation expands_all := (expands_all pieces).

Lemma exprOf_S' f i : exprOf (S f) i =
    match opc g i, gargs g i with
    | GInv _, _ => Bad
    | GCom _, _ => Bad
    | GAlias, [a] => argExpr f a
    | GAssign, [a] => argExpr f a
    | GSign, [ANode j] =>
        if Nat.eqb (p_vid pl j) 0 then Bad
        else match varName j with Some l => Done (XOp GSign [XLoc l]) | None => Bad end
    | GSign, _ => Bad
    | (GFun _ | GUnMinus) as op, [a] => obind (argExpr f a) (fun x => Done (XOp op [x]))
    | (GAdd | GSub | GMul | GDiv | GPow) as op, [a; b] =>
        obind (argExpr f a) (fun x => obind (argExpr f b) (fun y => Done (XOp op [x; y])))
    | _, _ => Bad
    end.
Proof. reflexivity. Qed.

(** the node which the parenthesis rules examine is the operation which is printed *)
Lemma enclose_node : forall f a e k, argExpr f a = Done e -> f < k ->
  exists r, encloseNode g pl k a = Done r /\
    match r with None => 7 <= lev e | Some j => exists f', exprOf f' j = Done e end.
Proof.
  induction f as [|f IH]; intros a e k E Hk; (destruct k as [|k]; [lia|]); destruct a as [j|b]; unfold Codegen_model.argExpr in E;
    try (injection E as <-; exists None; split; [reflexivity|cbn; lia]).
  - cbn [encloseNode]. destruct (Nat.eqb (p_vid pl j) 0) eqn:Ev; [discriminate|]. cbn [negb].
    destruct (varName j); [|discriminate]. injection E as <-. exists None. split; [reflexivity|cbn; lia].
  - cbn [encloseNode]. destruct (Nat.eqb (p_vid pl j) 0) eqn:Ev; cbn [negb].
    + destruct (opc g j) eqn:Eo; try (exists (Some j); split; [reflexivity|exists (S f); exact E]).
      rewrite exprOf_S', Eo in E. destruct (gargs g j) as [|a [|]]; try discriminate. apply IH; [exact E|lia].
    + destruct (varName j); [|discriminate]. injection E as <-. exists None. split; [reflexivity|cbn; lia].
Qed.

Lemma enclose_div f a e : argExpr f a = Done e -> f < F ->
  exists r, encloseDiv g pl F a = Done r /\ (r = false -> 7 <= lev e).
Proof.
  intros E Hf. destruct (enclose_node f a e F E Hf) as (r & Er & Hr). unfold encloseDiv. rewrite Er. cbn [obind].
  eexists. split; [reflexivity|]. destruct r as [j|]; [|auto]. destruct Hr as [f' E']. intros H. apply negb_false_iff in H.
  unfold isFunction in H. destruct f' as [|f']; [discriminate|]. rewrite exprOf_S' in E'.
  destruct (opc g j); try discriminate; destruct (gargs g j) as [|a1 [|a2 [|]]]; try discriminate.
  - apply obind_done' in E'. destruct E' as (x & _ & E'). apply obind_done' in E'. destruct E' as (y & _ & E'). injection E' as <-. cbn. lia.
  - apply obind_done' in E'. destruct E' as (x & _ & E'). injection E' as <-. cbn. lia.
Qed.
Lemma enclose_mul f a e : argExpr f a = Done e -> f < F ->
  exists r, encloseMul g pl F a = Done r /\ (r = false -> 6 <= lev e).
Proof.
  intros E Hf. destruct (enclose_node f a e F E Hf) as (r & Er & Hr). unfold encloseMul. rewrite Er. cbn [obind].
  eexists. split; [reflexivity|]. destruct r as [j|]; [|intros _; lia]. destruct Hr as [f' E']. intros H. apply andb_false_iff in H.
  rewrite !negb_false_iff in H. unfold isFunction in H. destruct f' as [|f']; [discriminate|]. rewrite exprOf_S' in E'.
  destruct (opc g j); try (destruct H as [H|H]; discriminate); destruct (gargs g j) as [|a1 [|a2 [|]]]; try discriminate;
    try (apply obind_done' in E'; destruct E' as (x & _ & E')); try (apply obind_done' in E'; destruct E' as (y & _ & E'));
    injection E' as <-; cbn; lia.
Qed.

Lemma expands_txt (t : list (ptok B)) : expands_all (txt t) t.
Proof. induction t; cbn; constructor; assumption. Qed.
Lemma expands_paren r l t : expands_all l t -> expands_all (paren r l) (if r then PT TLP :: t ++ [PT TRP] else t).
Proof.
  intros H. destruct r; [|exact H]. unfold paren. apply (expands_all_app pieces (txt [PT TLP]) _ [PT TLP]); [apply expands_txt|].
  apply expands_all_app; [exact H|apply expands_txt].
Qed.
Lemma good_paren (r : bool) n (e : cx B) t : good (lev e) t e -> (r = false -> n <= lev e) -> n <= 8 ->
  good n (if r then PT TLP :: t ++ [PT TRP] else t) e.
Proof.
  intros (a & Ha & Hv) H Hn. exists a. split; [|exact Hv]. destruct r.
  - eapply Rd_ups; [exact Hn|]. eapply Rd_paren, Ha.
  - eapply Rd_ups; [apply H; reflexivity|exact Ha].
Qed.

(** printing an operand *)
Definition prints (a : arg B) (e : cx B) : Prop :=
  exists l t, push a = Done l /\ expands_all l t /\ good (lev e) t e.

Lemma push_prints f : (forall i e, exprOf f i = Done e -> assoc_ok e -> exists t, expands i t /\ good (lev e) t e) ->
  forall i a e, In a (gargs g i) -> argExpr f a = Done e -> assoc_ok e -> prints a e.
Proof.
  intros IH i a e Hi E Ha. unfold prints. destruct a as [j|b]; unfold Codegen_model.argExpr in E; cbn [CPrint_model.push].
  - destruct (Nat.eqb (p_vid pl j) 0) eqn:Ev.
    + destruct (IH j e E Ha) as (t & Ht & Hg). exists [INode j], t. split; [reflexivity|]. split; [|exact Hg].
      rewrite <- (app_nil_r t). constructor; [exact Ht|constructor].
    + destruct (varName j) as [l|]; [|discriminate]. injection E as <-. exists (txt [tLoc l]), [tLoc l]. split; [reflexivity|].
      split; [apply expands_txt|]. exists (EAtom (ALoc l)). split; [apply Rd_loc|intros m; reflexivity].
  - injection E as <-. exists (txt (param b)), (param b). split; [reflexivity|]. split; [apply expands_txt|].
    destruct (Rd_param b (proj1 (HX _ _ Hi))) as (a & Ha' & Hv). exists a. split; [exact Ha'|exact Hv].
Qed.

Lemma good_bin op t1 t2 x y (e : cx B) : good (lv op) t1 x -> good (S (lv op)) t2 y ->
  (forall a b, samev a (fun m => xval m x) -> samev b (fun m => xval m y) -> samev (EBin op a b) (fun m => xval m e)) ->
  good (lv op) (t1 ++ [PB; tOp op; PB] ++ t2) e.
Proof. intros (a & Ha & Va) (b & Hb & Vb) H. exists (EBin op a b). split; [apply Rd_bin; assumption|]. apply H; assumption. Qed.

Lemma Rd_call f t a : Rd 0 t a -> Rd 8 (PT (TFun f) :: PT TLP :: t ++ [PT TRP]) (ECall f [a]).
Proof.
  intros [H1 (k & E & H)]. split.
  - apply (separated_app [PT (TFun f)]); [reflexivity|split; reflexivity|]. apply separated_app; [exact H1|split; reflexivity|reflexivity].
  - exists (TFun f :: TLP :: k ++ [TRP]). split.
    + cbn [strip filter blank negb]. fold (strip (t ++ [PT TRP])). rewrite strip_app, E. cbn [map]. rewrite map_app. reflexivity.
    + apply G_call. constructor. exact H.
Qed.
Lemma Rd_call2 f t a u b : Rd 0 t a -> Rd 0 u b -> Rd 8 (PT (TFun f) :: PT TLP :: t ++ PT TComma :: PB :: u ++ [PT TRP]) (ECall f [a; b]).
Proof.
  intros [H1 (k & E & H)] [H2 (k2 & E2 & H')]. split.
  - apply (separated_app [PT (TFun f)]); [reflexivity|split; reflexivity|]. apply separated_app; [exact H1|split; reflexivity|].
    apply separated_cons; [split; reflexivity|]. apply separated_app; [exact H2|split; reflexivity|reflexivity].
  - exists (TFun f :: TLP :: (k ++ TComma :: k2) ++ [TRP]). split.
    + cbn [strip filter blank negb]. fold (strip (t ++ PT TComma :: PB :: u ++ [PT TRP])). rewrite strip_app, E.
      cbn [strip filter blank negb]. fold (strip (u ++ [PT TRP])). rewrite strip_app, E2. cbn [map]. rewrite <- app_assoc, !map_app. cbn [app map].
      rewrite ?map_app. reflexivity.
    + apply G_call. apply GL_more; [exact H|constructor; exact H'].
Qed.

(** sign: (n > 0?1:(n < 0?-1:0)) *)
Lemma Rd_cond t a u b v c : Rd 1 t a -> Rd 0 u b -> Rd 0 v c ->
  Rd 0 (t ++ PT TQuest :: u ++ PT TColon :: v) (ECond a b c).
Proof.
  intros [H1 (k1 & E1 & G1)] [H2 (k2 & E2 & G2)] [H3 (k3 & E3 & G3)]. split.
  - apply separated_app; [exact H1|split; reflexivity|]. apply separated_app; [exact H2|split; reflexivity|exact H3].
  - exists (k1 ++ TQuest :: k2 ++ TColon :: k3). split; [|apply G_cond; assumption].
    rewrite strip_app, E1. cbn [strip filter blank negb]. fold (strip (u ++ PT TColon :: v)). rewrite strip_app, E2.
    cbn [strip filter blank negb]. fold (strip v). rewrite E3, !map_app. cbn [map]. rewrite map_app. reflexivity.
Qed.
Lemma sign_good l : good 8 ([PT TLP; tLoc l; PB; tOp Gt; PB] ++ param b0 ++ [PT TQuest] ++ param b1 ++
                           [PT TColon; PT TLP; tLoc l; PB; tOp Lt; PB] ++ param b0 ++ [PT TQuest] ++ param (bneg b1) ++
                           [PT TColon] ++ param b0 ++ [PT TRP; PT TRP]) (XOp GSign [XLoc l]).
Proof.
  destruct HX0 as (X0 & X1 & Xm).
  destruct (Rd_param b0 X0) as (a0 & H0 & V0). destruct (Rd_param b1 X1) as (a1 & H1 & V1). destruct (Rd_param (bneg b1) Xm) as (am & Hm & Vm).
  assert (HL : Rd 0 (([tLoc l] ++ [PB; tOp Lt; PB] ++ param b0) ++ PT TQuest :: param (bneg b1) ++ PT TColon :: param b0)
             (ECond (EBin Lt (EAtom (ALoc l)) a0) am a0)).
  { apply Rd_cond; [|eapply Rd_ups; [|exact Hm]; lia|eapply Rd_ups; [|exact H0]; lia].
    eapply Rd_ups; [|apply (Rd_bin Lt); [eapply Rd_ups; [|apply Rd_loc]|eapply Rd_ups; [|exact H0]]]; cbn [lv]; lia. }
  apply Rd_paren in HL.
  assert (HG : Rd 0 (([tLoc l] ++ [PB; tOp Gt; PB] ++ param b0) ++ PT TQuest :: param b1 ++ PT TColon ::
       (PT TLP :: (([tLoc l] ++ [PB; tOp Lt; PB] ++ param b0) ++ PT TQuest :: param (bneg b1) ++ PT TColon :: param b0) ++ [PT TRP]))
       (ECond (EBin Gt (EAtom (ALoc l)) a0) a1 (ECond (EBin Lt (EAtom (ALoc l)) a0) am a0))).
  { apply Rd_cond; [|eapply Rd_ups; [|exact H1]; lia|eapply Rd_ups; [|exact HL]; lia].
    eapply Rd_ups; [|apply (Rd_bin Gt); [eapply Rd_ups; [|apply Rd_loc]|eapply Rd_ups; [|exact H0]]]; cbn [lv]; lia. }
  apply Rd_paren in HG.
  eexists. split.
  - match goal with |- Rd 8 ?T _ => match type of HG with Rd 8 ?T' _ => replace T with T' end end; [exact HG|].
    cbn [app]. repeat (rewrite <- app_assoc; cbn [app]). reflexivity.
  - intros m. cbn [CText.ceval cmpOf xval map opval]. rewrite V0, V1, Vm. destruct (m l) as [v|]; [|reflexivity].
    cbn [ocond lift1]. unfold sgn. destruct (bcmp CGt v b0); [reflexivity|]. destruct (bcmp CLt v b0); reflexivity.
Qed.

Lemma print_expr : forall f, f <= F -> forall i e, exprOf f i = Done e -> assoc_ok e -> exists t, expands i t /\ good (lev e) t e.
Proof.
  induction f as [|f IHf]; intros Hf i e E Ha; [discriminate|].
  assert (IH : forall a e, In a (gargs g i) -> argExpr f a = Done e -> assoc_ok e -> prints a e).
  { apply push_prints. apply IHf. lia. }
  rewrite exprOf_S' in E.
  assert (Hone : forall a, opc g i = GAlias \/ opc g i = GAssign -> gargs g i = [a] -> argExpr f a = Done e -> exists t, expands i t /\ good (lev e) t e).
  { intros a Ho Ea Ee. destruct (IH a e) as (l & t & El & Ht & Hg); [rewrite Ea; left; reflexivity|exact Ee|exact Ha|].
    exists t. split; [|exact Hg]. apply expands_node with (l := l); [|exact Ht]. unfold CPrint_model.pieces. rewrite Ea. destruct Ho as [-> | ->]; exact El. }
  destruct (opc g i) eqn:Eo; try discriminate;
    destruct (gargs g i) as [|a1 [|a2 [|a3 ls]]] eqn:Ea; try discriminate; try (destruct a1; discriminate);
    try (eapply Hone; [|reflexivity|exact E]; auto; fail);
    try (apply obind_done' in E; destruct E as (x & Ex & E); destruct (enclose_div _ _ _ Ex ltac:(lia)) as (rd1 & Ed1 & Hd1); destruct (enclose_mul _ _ _ Ex ltac:(lia)) as (rm1 & Em1 & Hm1));
    try (apply obind_done' in E; destruct E as (y & Ey & E); destruct (enclose_div _ _ _ Ey ltac:(lia)) as (rd2 & Ed2 & Hd2); destruct (enclose_mul _ _ _ Ey ltac:(lia)) as (rm2 & Em2 & Hm2));
    try (injection E as <-);
    try (destruct (IH a1 x) as (l1 & t1 & El1 & Ht1 & Hg1); [left; reflexivity|exact Ex|eapply assoc_ok_arg; [exact Ha|left; reflexivity]|]);
    try (destruct (IH a2 y) as (l2 & t2 & El2 & Ht2 & Hg2); [right; left; reflexivity|exact Ey|eapply assoc_ok_arg; [exact Ha|right; left; reflexivity]|]).
  - (* Add *)
    assert (Hl5 : good 5 t1 x) by (eapply good_ups; [|exact Hg1]; destruct x as [| |[]]; cbn; lia).
    destruct (isNonNeg a2) eqn:En.
    + exists (t1 ++ [PB; tOp Plus; PB] ++ t2). split.
      * apply expands_node with (l := l1 ++ infix Plus ++ l2).
        -- unfold CPrint_model.pieces. rewrite Eo, Ea, En, El1, El2. reflexivity.
        -- apply expands_all_app; [exact Ht1|]. apply expands_all_app; [apply expands_txt|exact Ht2].
      * assert (Hr5 : good 5 t2 y) by (eapply good_ups; [|exact Hg2]; destruct y as [| |[]]; cbn; lia).
        destruct Ha as [HA|HL].
        -- destruct Hl5 as (a & [S1 (k1 & E1 & G1)] & V1), Hr5 as (b & [S2 (k2 & E2 & G2)] & V2).
           destruct (add_assoc HA k1 a G1 5 k2 b G2 eq_refl) as (c & Hc & Vc). exists c. split.
           ++ eapply Rd_infix; eassumption.
           ++ intros m. rewrite Vc, V1, V2. reflexivity.
        -- cbn [left_associated] in HL. apply andb_true_iff in HL. destruct HL as [_ HL].
           apply (good_bin Plus _ _ x y); [exact Hl5| |].
           ++ eapply good_ups; [|exact Hg2]. destruct y as [| |[]]; try discriminate HL; cbn; lia.
           ++ intros a b Va Vb m. cbn [CText.ceval]. rewrite Va, Vb. reflexivity.
    + destruct a2 as [|b]; [discriminate|]. injection Ey as <-.
      exists (t1 ++ [PB; tOp Minus; PB] ++ param (bneg b)). split.
      * apply expands_node with (l := l1 ++ infix Minus ++ txt (param (bneg b))).
        -- unfold CPrint_model.pieces. rewrite Eo, Ea, En, El1. reflexivity.
        -- apply expands_all_app; [exact Ht1|]. apply expands_all_app; apply expands_txt.
      * destruct (Rd_param (bneg b)) as (p & Hp & Vp); [eapply HX; rewrite Ea; right; left; reflexivity|].
        destruct Hl5 as (a & Ha' & Va). exists (EBin Minus a p). split.
        -- apply (Rd_bin Minus); [exact Ha'|eapply Rd_ups; [|exact Hp]; cbn; lia].
        -- intros m. cbn [CText.ceval xval map opval]. rewrite Va, Vp. destruct (xval m x); cbn; [|reflexivity].
           rewrite (S_sub_neg HSign). reflexivity.
  - (* Sub *)
    assert (Hl5 : good 5 t1 x) by (eapply good_ups; [|exact Hg1]; destruct x as [| |[]]; cbn; lia).
    destruct (isNonNeg a2) eqn:En.
    + exists (t1 ++ [PB; tOp Minus; PB] ++ if rm2 then PT TLP :: t2 ++ [PT TRP] else t2). split.
      * apply expands_node with (l := l1 ++ infix Minus ++ paren rm2 l2).
        -- unfold CPrint_model.pieces. rewrite Eo, Ea, En, Em2. cbn [obind]. rewrite El1, El2. reflexivity.
        -- apply expands_all_app; [exact Ht1|]. apply expands_all_app; [apply expands_txt|]. apply expands_paren, Ht2.
      * apply (good_bin Minus _ _ x y); [exact Hl5| |].
        -- apply good_paren; [exact Hg2|exact Hm2|cbn; lia].
        -- intros a b Va Vb m. cbn [CText.ceval]. rewrite Va, Vb. reflexivity.
    + destruct a2 as [|b]; [discriminate|]. injection Ey as <-.
      exists (t1 ++ [PB; tOp Plus; PB] ++ param (bneg b)). split.
      * apply expands_node with (l := l1 ++ infix Plus ++ txt (param (bneg b))).
        -- unfold CPrint_model.pieces. rewrite Eo, Ea, En, El1. reflexivity.
        -- apply expands_all_app; [exact Ht1|]. apply expands_all_app; apply expands_txt.
      * destruct (Rd_param (bneg b)) as (p & Hp & Vp); [eapply HX; rewrite Ea; right; left; reflexivity|].
        destruct Hl5 as (a & Ha' & Va). exists (EBin Plus a p). split.
        -- apply (Rd_bin Plus); [exact Ha'|eapply Rd_ups; [|exact Hp]; cbn; lia].
        -- intros m. cbn [CText.ceval xval map opval]. rewrite Va, Vp. destruct (xval m x); cbn; [|reflexivity].
           rewrite (S_add_neg HSign). reflexivity.
  - (* Mul *)
    set (u1 := if rm1 then PT TLP :: t1 ++ [PT TRP] else t1). set (u2 := if rm2 then PT TLP :: t2 ++ [PT TRP] else t2).
    exists (u1 ++ [PB; tOp Star; PB] ++ u2). split.
    + apply expands_node with (l := paren rm1 l1 ++ infix Star ++ paren rm2 l2).
      * unfold CPrint_model.pieces. rewrite Eo, Ea, Em1, Em2. cbn [obind]. rewrite El1, El2. reflexivity.
      * apply expands_all_app; [apply expands_paren, Ht1|]. apply expands_all_app; [apply expands_txt|]. apply expands_paren, Ht2.
    + assert (H1 : good 6 u1 x) by (apply good_paren; [exact Hg1|exact Hm1|lia]).
      assert (H2 : good 6 u2 y) by (apply good_paren; [exact Hg2|exact Hm2|lia]).
      destruct Ha as [HA|HL].
      * destruct H1 as (a & [S1 (k1 & E1 & G1)] & V1), H2 as (b & [S2 (k2 & E2 & G2)] & V2).
        destruct (mul_assoc HA k1 a G1 6 k2 b G2 eq_refl) as (c & Hc & Vc). exists c. split.
        -- eapply Rd_infix; eassumption.
        -- intros m. rewrite Vc, V1, V2. reflexivity.
      * cbn [left_associated] in HL. apply andb_true_iff in HL. destruct HL as [_ HL].
        apply (good_bin Star _ _ x y); [exact H1| |].
        -- unfold u2. apply good_paren; [exact Hg2| |cbn; lia]. intros Hr. cbn [lv].
           (* not a product, hence parenthesised unless it is a call *)
           clear - Hr Em2 Ey HL Hf. destruct (enclose_node f a2 y F Ey ltac:(lia)) as (r & Er & Hr').
           unfold encloseMul in Em2. rewrite Er in Em2. cbn [obind] in Em2. injection Em2 as Em2. rewrite Hr in Em2.
           destruct r as [j|]; [|exact Hr'].
           destruct Hr' as [f' E']. destruct f' as [|f']; [discriminate|]. rewrite exprOf_S' in E'.
           unfold isFunction in Em2. apply andb_false_iff in Em2. rewrite !negb_false_iff in Em2.
           destruct (opc g j); try (destruct Em2 as [Em2|Em2]; discriminate); destruct (gargs g j) as [|b1 [|b2 [|]]]; try discriminate;
            try (apply obind_done' in E'; destruct E' as (x' & _ & E')); try (apply obind_done' in E'; destruct E' as (y' & _ & E'));
            injection E' as <-; try discriminate HL; cbn; lia.
        -- intros a b Va Vb m. cbn [CText.ceval]. rewrite Va, Vb. reflexivity.
  - (* Div *)
    exists ((if rd1 then PT TLP :: t1 ++ [PT TRP] else t1) ++ [PB; tOp Slash; PB] ++ (if rd2 then PT TLP :: t2 ++ [PT TRP] else t2)). split.
    + apply expands_node with (l := paren rd1 l1 ++ infix Slash ++ paren rd2 l2).
      * unfold CPrint_model.pieces. rewrite Eo, Ea, Ed1, Ed2. cbn [obind]. rewrite El1, El2. reflexivity.
      * apply expands_all_app; [apply expands_paren, Ht1|]. apply expands_all_app; [apply expands_txt|]. apply expands_paren, Ht2.
    + apply (good_bin Slash _ _ x y).
      * apply good_paren; [exact Hg1| |cbn; lia]. intros H. specialize (Hd1 H). cbn; lia.
      * apply good_paren; [exact Hg2| |cbn; lia]. intros H. specialize (Hd2 H). cbn; lia.
      * intros a b Va Vb m. cbn [CText.ceval]. rewrite Va, Vb. reflexivity.
  - (* Pow *)
    exists (PT (TFun powname) :: PT TLP :: t1 ++ PT TComma :: PB :: t2 ++ [PT TRP]). split.
    + apply expands_node with (l := txt [PT (TFun powname); PT TLP] ++ l1 ++ txt [PT TComma; PB] ++ l2 ++ txt [PT TRP]).
      * unfold CPrint_model.pieces. rewrite Eo, Ea, El1. cbn [obind]. rewrite El2. reflexivity.
      * apply (expands_all_app pieces _ _ [PT (TFun powname); PT TLP]); [apply expands_txt|]. apply expands_all_app; [exact Ht1|].
        apply (expands_all_app pieces _ _ [PT TComma; PB]); [apply expands_txt|]. apply expands_all_app; [exact Ht2|apply expands_txt].
    + destruct Hg1 as (a & Ha' & Va), Hg2 as (b & Hb' & Vb). exists (ECall powname [a; b]). split.
      * apply Rd_call2; [eapply Rd_ups; [|exact Ha']|eapply Rd_ups; [|exact Hb']]; lia.
      * intros m. cbn [CText.ceval xval map opval]. unfold powname. rewrite (proj2 HF), Va, Vb. reflexivity.
  - (* UnMinus *)
    exists (if rm1 then tOp Minus :: PT TLP :: t1 ++ [PT TRP] else tOp Minus :: PB :: t1). split.
    + apply expands_node with (l := txt [tOp Minus] ++ (if rm1 then paren true l1 else txt [PB] ++ l1)).
      * unfold CPrint_model.pieces. rewrite Eo, Ea, Em1. cbn [obind]. rewrite El1. reflexivity.
      * destruct rm1.
        -- apply (expands_all_app pieces _ _ [tOp Minus]); [apply expands_txt|]. exact (expands_paren true l1 t1 Ht1).
        -- apply (expands_all_app pieces _ _ [tOp Minus]); [apply expands_txt|].
           apply (expands_all_app pieces _ _ [PB]); [apply expands_txt|exact Ht1].
    + assert (H1 : good 6 (if rm1 then PT TLP :: t1 ++ [PT TRP] else t1) x) by (apply good_paren; [exact Hg1|exact Hm1|lia]).
      destruct H1 as (a & [S1 (k1 & E1 & G1)] & V1). destruct (neg_prod 6 k1 a G1 eq_refl) as (c & Hc & Vc). exists c. split.
      * cbn [lev]. split.
        -- destruct rm1.
           ++ apply (separated_app [tOp Minus]); [reflexivity|split; reflexivity|]. cbn [separated] in S1. destruct (t1 ++ [PT TRP]); [reflexivity|].
              apply andb_true_iff in S1. apply S1.
           ++ apply (separated_app [tOp Minus]); [reflexivity|split; reflexivity|exact S1].
        -- exists (TOp Minus :: k1). split; [|exact Hc]. destruct rm1; cbn [strip filter blank negb tOp map] in *; rewrite <- E1; reflexivity.
      * intros m. rewrite Vc, V1. reflexivity.
  - (* Sign *)
    destruct a1 as [j|]; [|discriminate]. destruct (Nat.eqb (p_vid pl j) 0) eqn:Ev; [discriminate|].
    destruct (varName j) as [l|] eqn:El; [|discriminate]. injection E as <-. eexists. split; [|apply sign_good].
    eapply expands_node; [|apply expands_txt]. unfold CPrint_model.pieces. rewrite Eo, Ea, Ev, El. reflexivity.
  - (* function *)
    exists (PT (TFun (fname f0)) :: PT TLP :: t1 ++ [PT TRP]). split.
    + apply expands_node with (l := txt [PT (TFun (fname f0)); PT TLP] ++ l1 ++ txt [PT TRP]).
      * unfold CPrint_model.pieces. rewrite Eo, Ea, El1. reflexivity.
      * apply (expands_all_app pieces _ _ [PT (TFun (fname f0)); PT TLP]); [apply expands_txt|]. apply expands_all_app; [exact Ht1|apply expands_txt].
    + destruct Hg1 as (a & Ha' & Va). exists (ECall (fname f0) [a]). split.
      * apply Rd_call. eapply Rd_ups; [|exact Ha']; lia.
      * intros m. cbn [CText.ceval xval map opval]. rewrite (proj1 HF), Va. reflexivity.
Qed.
End Node.
End Proofs.

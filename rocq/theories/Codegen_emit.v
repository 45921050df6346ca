(** * Names and statements written by LanguageC (language_c.hpp 663-1287) *)
From Coq Require Import List Bool Arith Lia.
From Verif Require Import Graph_model Graph_spec Codegen_model Codegen_spec Codegen_dfs Codegen_use Codegen_create
  Codegen_order Codegen_reuse Codegen_plan.
Import ListNotations.

Section First.
Context {B : Type}.
(** position of the first dependent which is node [j] *)
Definition isFirst (l : list (arg B)) (j k : nat) : Prop :=
  nth_error l k = Some (ANode j) /\ forall k', k' < k -> nth_error l k' <> Some (ANode j).

Lemma isFirst_ex (l : list (arg B)) j : In (ANode j) l -> exists k, isFirst l j k.
Proof.
  induction l as [|a l IH]; intros H; [destruct H|].
  assert (D : a = ANode j \/ a <> ANode j).
  { destruct a as [k|b]; [|right; discriminate]. destruct (Nat.eq_dec k j) as [->|Hn]; [left; reflexivity|right; congruence]. }
  destruct D as [->|Hn].
  - exists 0. split; [reflexivity|intros; lia].
  - destruct H as [H|H]; [congruence|]. destruct (IH H) as (k & H1 & H2). exists (S k). split; [exact H1|].
    intros [|k'] Hk; cbn [nth_error]; [congruence|apply H2; lia].
Qed.

Lemma isFirst_fun (l : list (arg B)) j k k' : isFirst l j k -> isFirst l j k' -> k = k'.
Proof.
  intros [H1 H2] [H3 H4]. destruct (Nat.lt_trichotomy k k') as [Hl|[->|Hl]]; [|reflexivity|].
  - exfalso. apply (H4 _ Hl H1).
  - exfalso. apply (H2 _ Hl H3).
Qed.

Lemma isFirst_cons_same (l : list (arg B)) j k : isFirst (ANode j :: l) j k -> k = 0.
Proof. intros [H1 H2]. destruct k as [|k]; [reflexivity|]. exfalso. apply (H2 0); [lia|reflexivity]. Qed.

Lemma isFirst_cons_other (l : list (arg B)) a j k : a <> ANode j -> isFirst (a :: l) j k -> exists k', k = S k' /\ isFirst l j k'.
Proof.
  intros Ha [H1 H2]. destruct k as [|k]; [cbn in H1; congruence|]. exists k. split; [reflexivity|]. split; [exact H1|].
  intros k' Hk. apply (H2 (S k')). lia.
Qed.
End First.

Section Emit.
Context {B : Type} {O : BaseOps B}.
Variable g : heap B.
Variable indeps : list nat.
Variable deps : list (arg B).
Hypothesis HG : gen_input g indeps deps.
Variable pl : plan.
Variable cv : cvst.
Variable uc : nat -> nat.
Variable vid0 : nat -> nat.
Variable n0 : nat.
Hypothesis PO : plan_ok g indeps deps pl cv uc vid0 n0.

Notation P := (reach g deps).
Notation vo := (c_q cv).
Notation CR := (po_created _ _ _ _ _ _ _ _ PO).
Notation rd := (rd g (c_vid cv)).

Lemma IDF : idfacts indeps deps vid0 n0.
Proof. apply (ids0 g indeps deps HG vid0 n0 (po_ids _ _ _ _ _ _ _ _ PO)). Qed.

Lemma n0_pos : length indeps < n0.
Proof. apply (idf_min _ _ _ _ IDF). Qed.

Lemma vid_iff i : p_vid pl i = 0 <-> c_vid cv i = 0.
Proof.
  pose proof n0_pos. destruct (Nat.lt_ge_cases (c_vid cv i) n0) as [H1|H1].
  - rewrite (po_nt _ _ _ _ _ _ _ _ PO i H1). tauto.
  - pose proof (po_t _ _ _ _ _ _ _ _ PO i H1). lia.
Qed.

Lemma vid0_keep i : vid0 i <> 0 -> p_vid pl i = vid0 i.
Proof.
  intros H. pose proof (cr_vid0 _ _ _ _ _ _ CR i H) as E. rewrite (po_nt _ _ _ _ _ _ _ _ PO); [exact E|].
  rewrite E. apply (idf_lt _ _ _ _ IDF).
Qed.

Lemma vid_indep p i : nth_error indeps p = Some i -> p_vid pl i = S p.
Proof. intros H. pose proof (idf_indep _ _ _ _ IDF p i H) as E. rewrite vid0_keep; lia. Qed.

Lemma indep_ninv i : isInv g i = false -> ~ In i indeps.
Proof. intros H Hi. apply (indep_inv g indeps deps HG) in Hi. congruence. Qed.

Lemma vid_dep i : In (ANode i) deps -> isInv g i = false -> length indeps < p_vid pl i /\ p_vid pl i < n0.
Proof.
  intros Hd Hi. pose proof (idf_dep _ _ _ _ IDF i Hd) as H0. rewrite vid0_keep by exact H0.
  split; [apply (idf_nonindep _ _ _ _ IDF); [apply indep_ninv, Hi|exact H0]|apply (idf_lt _ _ _ _ IDF)].
Qed.

Lemma vid_temp i : In i vo -> ~ In (ANode i) deps -> n0 <= p_vid pl i /\ n0 <= c_vid cv i.
Proof.
  intros Hq Hd. destruct (cr_q _ _ _ _ _ _ CR i Hq) as (Pi & Hi & _ & Hv).
  destruct (cr_vid _ _ _ _ _ _ CR i Hv) as [H|[_ H]].
  - exfalso. apply H. apply (idf_other _ _ _ _ IDF); [apply indep_ninv, Hi|exact Hd].
  - split; [apply (po_t _ _ _ _ _ _ _ _ PO), H|exact H].
Qed.

Lemma vid_dep_inj i j : In (ANode i) deps -> In (ANode j) deps -> p_vid pl i = p_vid pl j -> i = j.
Proof.
  intros Hi Hj E. pose proof (idf_dep _ _ _ _ IDF i Hi) as H1. pose proof (idf_dep _ _ _ _ IDF j Hj) as H2.
  rewrite !vid0_keep in E by assumption. apply (idf_inj _ _ _ _ IDF); assumption.
Qed.

(** ** Names *)
Inductive atloc (i : nat) : loc -> Prop :=
 | at_x p : isInv g i = true -> nth_error indeps p = Some i -> atloc i (LX p)
 | at_y k : isInv g i = false -> isFirst deps i k -> atloc i (LY k)
 | at_v : In i vo -> ~ In (ANode i) deps -> atloc i (LV (p_vid pl i - n0)).

Lemma atloc_fun i l l' : atloc i l -> atloc i l' -> l = l'.
Proof.
  intros H H'. destruct H as [p Hi Hp|k Hi Hk|Hq Hd]; destruct H' as [p' Hi' Hp'|k' Hi' Hk'|Hq' Hd']; try congruence.
  - f_equal. eapply nodup_nth; [apply (gi_indeps _ _ _ HG)|eassumption|eassumption].
  - exfalso. apply (cr_q _ _ _ _ _ _ CR) in Hq'. destruct Hq' as (_ & H & _). congruence.
  - f_equal. eapply isFirst_fun; eassumption.
  - exfalso. apply Hd'. eapply nth_error_In, Hk.
  - exfalso. apply (cr_q _ _ _ _ _ _ CR) in Hq. destruct Hq as (_ & H & _). congruence.
  - exfalso. apply Hd. eapply nth_error_In, Hk'.
Qed.

Lemma atloc_ex i : P i -> c_vid cv i <> 0 -> exists l, atloc i l.
Proof.
  intros Pi Hv. destruct (isInv g i) eqn:Hi.
  - pose proof (inv_indep g indeps deps HG i Pi Hi) as H. apply In_nth_error in H. destruct H as [p Hp].
    exists (LX p). apply at_x; assumption.
  - destruct (in_dec Nat.eq_dec i (anodes deps)) as [Hd|Hd].
    + apply anodes_in in Hd. destruct (isFirst_ex _ _ Hd) as [k Hk]. exists (LY k). apply at_y; assumption.
    + exists (LV (p_vid pl i - n0)). apply at_v; [|rewrite <- anodes_in; exact Hd].
      destruct (cr_vid _ _ _ _ _ _ CR i Hv) as [H|[H _]]; [|exact H].
      exfalso. apply H, (idf_other _ _ _ _ IDF); [apply indep_ninv, Hi|rewrite <- anodes_in; exact Hd].
Qed.

(** names already present are the right ones *)
Definition names_in (nm : nat -> option loc) : Prop :=
  forall i l l', (In i indeps \/ P i) -> nm i = Some l -> atloc i l' -> l = l'.

Record names_ok (nm : nat -> option loc) : Prop := {
  no_right : forall i l l', (In i indeps \/ P i) -> nm i = Some l -> atloc i l' -> l = l';
  no_indep : forall i, In i indeps -> nm i <> None;
  no_dep : forall i, In (ANode i) deps -> nm i <> None
}.

Lemma nameIndeps_spec : forall l nm, (forall i, In i l -> In i indeps) -> names_in nm ->
  names_in (nameIndeps pl l nm) /\ (forall i, nm i <> None \/ In i l -> nameIndeps pl l nm i <> None).
Proof.
  induction l as [|a l IH]; intros nm Hl Hn; cbn [nameIndeps].
  - split; [exact Hn|]. intros i [H|[]]; exact H.
  - assert (Ha : In a indeps) by (apply Hl; left; reflexivity).
    set (nm1 := match nm a with None => _ | Some _ => _ end).
    assert (H1 : names_in nm1 /\ (forall i, nm i <> None \/ a = i -> nm1 i <> None)).
    { unfold nm1. destruct (nm a) as [la|] eqn:Ea.
      - split; [exact Hn|]. intros i [H|<-]; congruence.
      - split.
        + intros i la la' Hi Hs Hat. destruct (Nat.eq_dec i a) as [->|Hne].
          * rewrite upd_eq in Hs. injection Hs as <-. apply In_nth_error in Ha. destruct Ha as [p Hp].
            rewrite (vid_indep _ _ Hp). replace (S p - 1) with p by lia.
            eapply atloc_fun; [|exact Hat]. apply at_x; [|exact Hp]. apply (indep_inv g indeps deps HG). eapply nth_error_In, Hp.
          * rewrite upd_neq in Hs by exact Hne. eapply Hn; eassumption.
        + intros i Hi. destruct (Nat.eq_dec i a) as [->|Hne]; [rewrite upd_eq; discriminate|rewrite upd_neq by exact Hne].
          destruct Hi as [Hi|Hi]; [exact Hi|congruence]. }
    destruct H1 as [H1 H2]. destruct (IH nm1) as [H3 H4]; [intros; apply Hl; right; assumption|exact H1|].
    split; [exact H3|]. intros i [Hi|[Hi|Hi]]; apply H4; auto.
Qed.

Lemma nameDeps_spec : forall l done nm, deps = done ++ l -> names_in nm ->
  (forall i, In i indeps -> nm i <> None) -> (forall i, In (ANode i) done -> nm i <> None) ->
  let nm' := nameDeps l (length done) nm in
  names_in nm' /\ (forall i, In i indeps -> nm' i <> None) /\ (forall i, In (ANode i) deps -> nm' i <> None).
Proof.
  induction l as [|a l IH]; intros done nm E Hn Hi Hd; cbv zeta; cbn [nameDeps].
  - rewrite app_nil_r in E. subst done. auto.
  - assert (E' : deps = (done ++ [a]) ++ l) by (rewrite <- app_assoc; exact E).
    assert (Hlen : S (length done) = length (done ++ [a])) by (rewrite app_length; cbn; lia).
    destruct a as [j|b].
    + set (nm1 := match nm j with None => _ | Some _ => _ end).
      assert (H1 : names_in nm1 /\ (forall i, nm i <> None \/ j = i -> nm1 i <> None)).
      { unfold nm1. destruct (nm j) as [la|] eqn:Ea.
        - split; [exact Hn|]. intros i [H|<-]; congruence.
        - split.
          + intros i la la' Hp Hs Hat. destruct (Nat.eq_dec i j) as [->|Hne].
            * rewrite upd_eq in Hs. injection Hs as <-. eapply atloc_fun; [|exact Hat].
              assert (Hdj : In (ANode j) deps) by (rewrite E; apply in_or_app; right; left; reflexivity).
              apply at_y.
              -- destruct (isInv g j) eqn:Ej; [|reflexivity]. exfalso.
                 apply (inv_indep g indeps deps HG) in Ej; [|apply reach_dep, Hdj]. apply (Hi _ Ej), Ea.
              -- split.
                 ++ rewrite E, nth_error_app2, Nat.sub_diag by lia. reflexivity.
                 ++ intros k' Hk' Hn'. rewrite E, nth_error_app1 in Hn' by exact Hk'. apply (Hd j); [eapply nth_error_In, Hn'|exact Ea].
            * rewrite upd_neq in Hs by exact Hne. eapply Hn; eassumption.
          + intros i Hx. destruct (Nat.eq_dec i j) as [->|Hne]; [rewrite upd_eq; discriminate|rewrite upd_neq by exact Hne].
            destruct Hx as [Hx|Hx]; [exact Hx|congruence]. }
      destruct H1 as [H1 H2]. rewrite Hlen. apply IH; auto.
      intros i Hx. apply in_app_or in Hx. destruct Hx as [Hx|[Hx|[]]]; [apply H2; left; auto|]. injection Hx as <-. apply H2; auto.
    + rewrite Hlen. apply IH; auto. intros i Hx. apply in_app_or in Hx. destruct Hx as [Hx|[Hx|[]]]; [auto|discriminate].
Qed.

Lemma isDependent_iff i : In i vo -> isDependent indeps pl i = true <-> In (ANode i) deps.
Proof.
  intros Hq. destruct (cr_q _ _ _ _ _ _ CR i Hq) as (Pi & Hi & _ & Hv). unfold isDependent.
  rewrite (po_min _ _ _ _ _ _ _ _ PO). split.
  - intros H. apply andb_true_iff in H. destruct H as [H1 H2]. apply Nat.ltb_lt in H1, H2.
    destruct (in_dec Nat.eq_dec i (anodes deps)) as [Hd|Hd]; [apply anodes_in, Hd|].
    rewrite anodes_in in Hd. destruct (vid_temp i Hq Hd). lia.
  - intros Hd. destruct (vid_dep i Hd Hi). apply andb_true_iff. split; apply Nat.ltb_lt; lia.
Qed.

Lemma nameTemps_spec : forall l nm, (forall i, In i l -> In i vo) -> names_ok nm -> names_ok (nameTemps g indeps pl l nm).
Proof.
  induction l as [|a l IH]; intros nm Hl Hn; cbn [nameTemps]; [exact Hn|].
  assert (Ha : In a vo) by (apply Hl; left; reflexivity).
  apply IH; [intros; apply Hl; right; assumption|].
  destruct (isDependent indeps pl a) eqn:Ed; cbn [negb andb]; [exact Hn|].
  destruct (requiresVariableName g pl a); [|exact Hn].
  assert (Hd : ~ In (ANode a) deps) by (rewrite <- (isDependent_iff a Ha); congruence).
  destruct Hn as [h1 h2 h3]. constructor.
  - intros i la la' Hi Hs Hat. destruct (Nat.eq_dec i a) as [->|Hne].
    + rewrite upd_eq in Hs. injection Hs as <-. rewrite (po_min _ _ _ _ _ _ _ _ PO).
      eapply atloc_fun; [|exact Hat]. apply at_v; assumption.
    + rewrite upd_neq in Hs by exact Hne. eapply h1; eassumption.
  - intros i Hi. destruct (Nat.eq_dec i a) as [->|Hne]; [rewrite upd_eq; discriminate|rewrite upd_neq by exact Hne; auto].
  - intros i Hi. destruct (Nat.eq_dec i a) as [->|Hne]; [rewrite upd_eq; discriminate|rewrite upd_neq by exact Hne; auto].
Qed.

Lemma allNames_ok nm : names_in nm -> names_ok (allNames g indeps deps pl nm).
Proof.
  intros Hn. unfold allNames. rewrite (po_vo _ _ _ _ _ _ _ _ PO). apply nameTemps_spec; [auto|].
  destruct (nameIndeps_spec indeps nm) as [H1 H2]; [auto|exact Hn|].
  destruct (nameDeps_spec deps [] _ eq_refl H1) as (H3 & H4 & H5); [intros i Hi; apply H2; right; exact Hi|intros i []|].
  constructor; auto.
Qed.

Lemma firstDep_spec : forall l d j k, deps = d ++ l -> In (ANode j) deps -> isInv g j = false -> isFirst l j k ->
  forall i, firstDep g pl l i (p_vid pl j) = Some (i + k).
Proof.
  induction l as [|a l IH]; intros d j k E Hj Hi Hk i; [destruct Hk as [Hk _]; destruct k; discriminate|].
  assert (Ha : In a deps) by (rewrite E; apply in_or_app; right; left; reflexivity).
  assert (E' : deps = (d ++ [a]) ++ l) by (rewrite <- app_assoc; exact E).
  cbn [firstDep]. destruct a as [j'|b].
  - destruct (Nat.eq_dec j' j) as [->|Hne].
    + apply isFirst_cons_same in Hk. subst k. rewrite Hi, Nat.eqb_refl. cbn [negb andb]. f_equal. lia.
    + destruct (isFirst_cons_other l (ANode j') j k ltac:(congruence) Hk) as (k' & -> & Hk').
      assert (Nat.eqb (p_vid pl j') (p_vid pl j) = false) as ->.
      { apply Nat.eqb_neq. intros Hv. apply Hne. apply vid_dep_inj; assumption. }
      rewrite andb_false_r. rewrite (IH _ _ _ E' Hj Hi Hk'). f_equal. lia.
  - destruct (isFirst_cons_other l (APar b) j k ltac:(congruence) Hk) as (k' & -> & Hk').
    rewrite (IH _ _ _ E' Hj Hi Hk'). f_equal. lia.
Qed.

Lemma firstDep_ok j : In (ANode j) deps -> isInv g j = false -> exists k, isFirst deps j k /\ firstDep g pl deps 0 (p_vid pl j) = Some k.
Proof.
  intros Hj Hi. destruct (isFirst_ex _ _ Hj) as [k Hk]. exists k. split; [exact Hk|].
  rewrite (firstDep_spec deps [] j k eq_refl Hj Hi Hk 0). reflexivity.
Qed.

Variable nm : nat -> option loc.
Hypothesis NM : names_ok nm.

Lemma varName_ok i : P i -> c_vid cv i <> 0 -> exists l, varName g indeps deps pl nm i = Some l /\ atloc i l.
Proof.
  intros Pi Hv. destruct (atloc_ex i Pi Hv) as [l Hl]. exists l. split; [|exact Hl].
  unfold varName. destruct (nm i) as [l'|] eqn:En; [f_equal; eapply (no_right _ NM); eauto|].
  destruct Hl as [p Hi Hp|k Hi Hk|Hq Hd].
  - exfalso. apply (no_indep _ NM i); [eapply nth_error_In, Hp|exact En].
  - exfalso. apply (no_dep _ NM i); [eapply nth_error_In, Hk|exact En].
  - destruct (vid_temp i Hq Hd) as [H1 _]. pose proof n0_pos. unfold genName. rewrite (po_min _ _ _ _ _ _ _ _ PO).
    assert (Nat.eqb (p_vid pl i) 0 = false) as -> by (apply Nat.eqb_neq; lia).
    assert (Nat.leb (p_vid pl i) (length indeps) = false) as -> by (apply Nat.leb_gt; lia).
    assert (Nat.ltb (p_vid pl i) n0 = false) as -> by (apply Nat.ltb_ge; lia). reflexivity.
Qed.

(** ** Expressions *)
Notation exprOf := (exprOf g indeps deps pl nm).
Notation argExpr := (argExpr g indeps deps pl nm).
Notation varName := (varName g indeps deps pl nm).

Lemma exprOf_S f i : exprOf (S f) i =
    match opc g i, gargs g i with
    | GInv _, _ => Bad
    | GCom _, _ => Bad
    | GAlias, [a] => argExpr f a
    | GAssign, [a] => argExpr f a
    | GSign, [ANode j] =>
        if Nat.eqb (p_vid pl j) 0 then Bad
        else match varName j with Some l => Done (XOp GSign [XLoc l]) | None => Bad end
    | GSign, _ => Bad
    | (GFun _ | GUnMinus) as op, [a] => obind (argExpr f a) (fun x => Done (XOp op [x]))
    | (GAdd | GSub | GMul | GDiv | GPow) as op, [a; b] =>
        obind (argExpr f a) (fun x => obind (argExpr f b) (fun y => Done (XOp op [x; y])))
    | _, _ => Bad
    end.
Proof. reflexivity. Qed.

Lemma opval_env env env' h h' o a : (forall k, o <> GInv k) -> @opval B O env h o a = opval env' h' o a.
Proof. intros H. destruct o; try reflexivity. exfalso. eapply H; reflexivity. Qed.

(** the values of the nodes when the code runs on [m0]; a conditional with two equal branches has the value of the branch *)
Record csolves (inp : nat -> option B) (sol : nat -> option B) : Prop := {
  cs_x : forall p i, nth_error indeps p = Some i -> sol i = inp p;
  cs_op : forall i, P i -> isInv g i = false ->
     sol i = match opc g i, gargs g i with
             | GCom c, [x; y; t; f] => if sameArg t f then sval sol t
                                       else ocond c (sval sol x) (sval sol y) (sval sol t) (sval sol f)
             | o, a => opval (fun _ _ => b0) 0 o (map (sval sol) a)
             end
}.

Lemma rd_arg i j t : In j (nargs g i) -> c_vid cv j = 0 -> rd j t -> rd i t.
Proof.
  intros Hj Hv (n & Hn & Ht & Hvt). exists n. split; [|auto].
  eapply inl_trans; [|exact Hn]. eapply inl_arg; [constructor|exact Hj|exact Hv].
Qed.

Lemma rd_direct i t : In t (nargs g i) -> c_vid cv t <> 0 -> rd i t.
Proof. intros Ht Hv. exists i. split; [constructor|auto]. Qed.

Section Sem.
Variable inp : nat -> option B.
Variable sol : nat -> option B.
Hypothesis HS : csolves inp sol.
Variable m : @mem B.

Definition reads_ok (i : nat) : Prop := forall t l, rd i t -> atloc t l -> m l = sol t.

Lemma exprOf_argExpr f :
  (forall i e, P i -> exprOf f i = Done e -> reads_ok i -> xval m e = sol i) ->
  forall i a e, P i -> In a (gargs g i) -> argExpr f a = Done e -> reads_ok i -> xval m e = sval sol a.
Proof.
  intros IH i a e Pi Ha E Hr. destruct a as [j|b]; cbn [sval]; unfold Codegen_model.argExpr in E.
  - assert (Hj : In j (nargs g i)) by (apply anodes_in; exact Ha).
    assert (Pj : P j) by (eapply P_arg; eassumption).
    destruct (Nat.eqb (p_vid pl j) 0) eqn:Ev.
    + apply Nat.eqb_eq, vid_iff in Ev. apply IH; auto. intros t l Ht. apply Hr. eapply rd_arg; eassumption.
    + apply Nat.eqb_neq in Ev. rewrite vid_iff in Ev. destruct (varName_ok j Pj Ev) as (l & El & Hl). rewrite El in E.
      injection E as <-. cbn [xval]. apply Hr; [apply rd_direct; assumption|exact Hl].
  - injection E as <-. reflexivity.
Qed.

Lemma exprOf_sound f : forall i e, P i -> exprOf f i = Done e -> reads_ok i -> xval m e = sol i.
Proof.
  induction f as [|f IHf]; intros i e Pi E Hr; [discriminate|]. rewrite exprOf_S in E.
  pose proof (exprOf_argExpr f IHf i) as IH. clear IHf.
  assert (Hi : isInv g i = false) by (unfold isInv; destruct (opc g i); try reflexivity; discriminate).
  rewrite (cs_op _ _ HS i Pi Hi).
  destruct (opc g i) eqn:Eo; try discriminate;
  destruct (gargs g i) as [|a1 [|a2 [|a3 l]]] eqn:Ea; try discriminate;
  try (destruct a1; discriminate);
  try (apply obind_done in E; destruct E as (x & Ex & E); apply IH in Ex; [|exact Pi|left; reflexivity|exact Hr]);
  try (apply obind_done in E; destruct E as (y & Ey & E); apply IH in Ey; [|exact Pi|right; left; reflexivity|exact Hr]);
  try (injection E as <-; cbn [xval map]; rewrite ?Ex, ?Ey; reflexivity).
  - destruct a1 as [j|b]; [|discriminate]. destruct (Nat.eqb (p_vid pl j) 0) eqn:Ev; [discriminate|].
    assert (Hj : In j (nargs g i)) by (unfold nargs; rewrite Ea; left; reflexivity).
    apply Nat.eqb_neq in Ev. rewrite vid_iff in Ev. destruct (varName_ok j (P_arg _ _ _ _ Pi Hj) Ev) as (l & El & Hl).
    rewrite El in E. injection E as <-. cbn [xval map sval opval]. rewrite (Hr j l); [reflexivity|apply rd_direct; assumption|exact Hl].
  - cbn [opval map]. apply IH in E; auto. left; reflexivity.
  - cbn [opval map]. apply IH in E; auto. left; reflexivity.
Qed.

Lemma argExpr_sound f i a e : P i -> In a (gargs g i) -> argExpr f a = Done e -> reads_ok i -> xval m e = sval sol a.
Proof. apply exprOf_argExpr. apply exprOf_sound. Qed.
End Sem.
End Emit.

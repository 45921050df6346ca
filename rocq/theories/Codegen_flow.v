(** * Reads, writes, operations and flow of values of the generated assignments *)
From Coq Require Import List Bool Arith Lia.
From Verif Require Import Graph_model Graph_spec Codegen_model Codegen_spec Codegen_dfs Codegen_use Codegen_create
  Codegen_order Codegen_reuse Codegen_plan Codegen_emit Codegen_exec Codegen_sol.
Import ListNotations.

Lemma idx_nth l k i : NoDup l -> nth_error l k = Some i -> idx l i = k.
Proof. intros H E. apply (idx_gen l i 0 k H E). Qed.

Section Flow.
Context {B : Type} {O : BaseOps B}.
Variable g : heap B.
Variable indeps : list nat.
Variable deps : list (arg B).
Hypothesis HG : gen_input g indeps deps.
Variable pl : plan.
Variable cv : cvst.
Variable uc : nat -> nat.
Variable vid0 : nat -> nat.
Variable n0 : nat.
Hypothesis PO : plan_ok g indeps deps pl cv uc vid0 n0.
Variable nm : nat -> option loc.
Hypothesis NM : names_ok g indeps deps pl cv n0 nm.
Variable o : options.

Notation P := (reach g deps).
Notation vo := (c_q cv).
Notation CR := (po_created _ _ _ _ _ _ _ _ PO).
Notation rd := (rd g (c_vid cv)).
Notation inl := (inl g (c_vid cv)).
Notation atloc := (atloc g indeps deps pl cv n0).
Notation stmtOf := (stmtOf g o indeps deps pl nm).
Notation exprOf := (exprOf g indeps deps pl nm).
Notation argExpr := (argExpr g indeps deps pl nm).
Notation varName_ok := (varName_ok g indeps deps HG pl cv uc vid0 n0 PO nm NM).
Notation vid_iff := (vid_iff g indeps deps HG pl cv uc vid0 n0 PO).

(** ** Reads *)
Lemma argExpr_reads_gen f :
  (forall i e l, P i -> exprOf f i = Done e -> In l (xreads e) -> exists t, rd i t /\ atloc t l) ->
  forall i a e l, P i -> In a (gargs g i) -> argExpr f a = Done e -> In l (xreads e) -> exists t, rd i t /\ atloc t l.
Proof.
  intros IH i a e l Pi Ha E Hl. destruct a as [j|b]; unfold Codegen_model.argExpr in E.
  - assert (Hj : In j (nargs g i)) by (apply anodes_in; exact Ha).
    assert (Pj : P j) by (eapply P_arg; eassumption).
    destruct (Nat.eqb (p_vid pl j) 0) eqn:Ev.
    + apply Nat.eqb_eq, vid_iff in Ev. destruct (IH j e l Pj E Hl) as (t & Ht & Hat). exists t. split; [|exact Hat].
      eapply rd_arg; eassumption.
    + apply Nat.eqb_neq in Ev. rewrite vid_iff in Ev. destruct (varName_ok j Pj Ev) as (l' & El & Hl'). rewrite El in E.
      injection E as <-. cbn [xreads] in Hl. destruct Hl as [<-|[]]. exists j. split; [apply rd_direct; assumption|exact Hl'].
  - injection E as <-. destruct Hl.
Qed.

Lemma exprOf_reads f : forall i e l, P i -> exprOf f i = Done e -> In l (xreads e) -> exists t, rd i t /\ atloc t l.
Proof.
  induction f as [|f IHf]; intros i e l Pi E Hl; [discriminate|]. rewrite exprOf_S in E.
  pose proof (argExpr_reads_gen f IHf i) as IH. clear IHf.
  destruct (opc g i) eqn:Eo; try discriminate;
  destruct (gargs g i) as [|a1 [|a2 [|a3 l']]] eqn:Ea; try discriminate;
  try (destruct a1; discriminate);
  try (apply obind_done in E; destruct E as (x & Ex & E));
  try (apply obind_done in E; destruct E as (y & Ey & E));
  try (injection E as <-; cbn [xreads flat_map] in Hl; rewrite ?app_nil_r in Hl;
       try (apply in_app_or in Hl; destruct Hl as [Hl|Hl]);
       first [exact (IH a1 x l Pi ltac:(cbn; auto) Ex Hl) | exact (IH a2 y l Pi ltac:(cbn; auto) Ey Hl)]).
  - destruct a1 as [j|b]; [|discriminate]. destruct (Nat.eqb (p_vid pl j) 0) eqn:Ev; [discriminate|].
    assert (Hj : In j (nargs g i)) by (unfold nargs; rewrite Ea; left; reflexivity).
    apply Nat.eqb_neq in Ev. rewrite vid_iff in Ev. destruct (varName_ok j (P_arg _ _ _ _ Pi Hj) Ev) as (l' & El & Hl').
    rewrite El in E. injection E as <-. cbn [xreads flat_map app] in Hl. destruct Hl as [<-|[]].
    exists j. split; [apply rd_direct; assumption|exact Hl'].
  - eapply IH; eauto. left; reflexivity.
  - eapply IH; eauto. left; reflexivity.
Qed.

Lemma argExpr_reads f i a e l : P i -> In a (gargs g i) -> argExpr f a = Done e -> In l (xreads e) -> exists t, rd i t /\ atloc t l.
Proof. apply argExpr_reads_gen. apply exprOf_reads. Qed.

Lemma stmt_shape f q s : In q vo -> stmtOf f q = Done s ->
  exists l, target s = Some l /\ atloc q l /\ forall l', In l' (sreads s) -> exists t, rd q t /\ atloc t l'.
Proof.
  intros Hq E. destruct (cr_q _ _ _ _ _ _ CR q Hq) as (Pq & Hqi & Hqa & Hqv).
  unfold Codegen_model.stmtOf in E. destruct (varName_ok q Pq Hqv) as (l & El & Hl). rewrite El in E.
  exists l.
  assert (Hgen : forall a, obind (exprOf f q) (fun e => Done (SAssign l a e)) = Done s ->
     target s = Some l /\ atloc q l /\ forall l', In l' (sreads s) -> exists t, rd q t /\ atloc t l').
  { intros a Ea. apply obind_done in Ea. destruct Ea as (e & Ee & [= <-]). split; [reflexivity|]. split; [exact Hl|].
    intros l' Hl'. eapply exprOf_reads; eassumption. }
  destruct (opc g q) eqn:Eo; try (eapply Hgen, E).
  destruct (gargs g q) as [|x [|y [|t [|fl [|z rest]]]]] eqn:Eg; try (eapply Hgen, E).
  assert (Hae : forall b e l', In b (gargs g q) -> argExpr f b = Done e -> In l' (xreads e) -> exists t, rd q t /\ atloc t l').
  { intros b e l' Hb He. eapply argExpr_reads; eassumption. }
  rewrite Eg in Hae. destruct (sameArg t fl).
  - apply obind_done in E. destruct E as (e & Ee & [= <-]). split; [reflexivity|]. split; [exact Hl|].
    intros l' Hl'. eapply Hae; [|exact Ee|exact Hl']. cbn; auto.
  - apply obind_done in E. destruct E as (ex & Ex & E). apply obind_done in E. destruct E as (ey & Ey & E).
    apply obind_done in E. destruct E as (et & Et & E). apply obind_done in E. destruct E as (ef & Ef & [= <-]).
    split; [reflexivity|]. split; [exact Hl|]. cbn [sreads]. intros l' Hl'.
    apply in_app_or in Hl'. destruct Hl' as [Hl'|Hl']; [eapply Hae; [|exact Ex|exact Hl']; cbn; auto|].
    apply in_app_or in Hl'. destruct Hl' as [Hl'|Hl']; [eapply Hae; [|exact Ey|exact Hl']; cbn; auto|].
    apply in_app_or in Hl'. destruct Hl' as [Hl'|Hl']; [eapply Hae; [|exact Et|exact Hl']; cbn; auto|].
    eapply Hae; [|exact Ef|exact Hl']; cbn; auto.
Qed.

Lemma omap_nth {A C} (f : A -> outcome C) : forall l r k s, omap f l = Done r -> nth_error r k = Some s ->
  exists q, nth_error l k = Some q /\ f q = Done s.
Proof.
  induction l as [|q l IH]; intros r k s E H; cbn [omap] in E.
  - injection E as <-. destruct k; discriminate.
  - apply obind_done in E. destruct E as (y & Ey & E). apply obind_done in E. destruct E as (r' & Er & [= <-]).
    destruct k as [|k]; cbn in H; [injection H as <-; exists q; auto|]. exact (IH r' k s Er H).
Qed.
Lemma omap_nth' {A C} (f : A -> outcome C) : forall l r k q, omap f l = Done r -> nth_error l k = Some q ->
  exists s, nth_error r k = Some s /\ f q = Done s.
Proof.
  induction l as [|a l IH]; intros r k q E H; cbn [omap] in E; [destruct k; discriminate|].
  apply obind_done in E. destruct E as (y & Ey & E). apply obind_done in E. destruct E as (r' & Er & [= <-]).
  destruct k as [|k]; cbn in H; [injection H as <-; exists y; auto|]. exact (IH r' k q Er H).
Qed.
Lemma omap_length {A C} (f : A -> outcome C) : forall l r, omap f l = Done r -> length r = length l.
Proof.
  induction l as [|a l IH]; intros r E; cbn [omap] in E; [injection E as <-; reflexivity|].
  apply obind_done in E. destruct E as (y & Ey & E). apply obind_done in E. destruct E as (r' & Er & [= <-]). cbn. f_equal. apply IH, Er.
Qed.

(** what the statements after the queue read *)
Lemma tail_shape k e : In (k, e) (tail g deps pl nm o) ->
  xopl e = [] /\ forall l, In l (xreads e) -> (exists p, p < length indeps /\ l = LX p) \/
     (exists j k', l = LY k' /\ isInv g j = false /\ isFirst deps j k' /\ In j vo).
Proof.
  intros H. apply (in_tail g deps pl nm o) in H. destruct H as (a & Ha & He).
  pose proof (dcase_ok g indeps deps HG pl cv uc vid0 n0 PO nm NM o _ _ Ha) as D.
  inversion D as [j Hi Hf H1 H2|j k' Hi Hf Hne H1 H2|j p Hi Hp H1 H2|b H1 H2|b Hz1 Hz2 H1 H2]; subst a; destruct He as [He|He];
  try congruence.
  - rewrite H1 in He. injection He as <-. split; [reflexivity|]. intros l [<-|[]]. right. exists j, k'. repeat split; auto; try apply Hf.
    apply (cr_dep _ _ _ _ _ _ CR); [|exact Hi]. eapply nth_error_In, Ha.
  - rewrite H2 in He. injection He as <-. split; [reflexivity|]. intros l [<-|[]]. left. exists p. split; [|reflexivity].
    apply nth_error_Some. congruence.
  - rewrite H2 in He. injection He as <-. split; [reflexivity|]. intros l [].
Qed.

Definition prefix : list (stmt B) := match vo with [] => [] | _ => if o_zeroDeps o then [SZero (length deps)] else [] end.

Lemma prefix_none s : In s prefix -> exists n, s = SZero n.
Proof. unfold prefix. destruct vo; [intros []|]. destruct (o_zeroDeps o); [intros [<-|[]]; eauto|intros []]. Qed.

(** every variable read was assigned before *)
Lemma source_reads f prog k s l : source g o indeps deps pl nm f = Done prog -> nth_error prog k = Some s -> In l (sreads s) ->
  (exists p, p < length indeps /\ l = LX p) \/ (exists k' s', k' < k /\ nth_error prog k' = Some s' /\ target s' = Some l).
Proof.
  intros E Hs Hl. destruct (source_split g indeps deps pl cv uc vid0 n0 PO nm o f prog E) as (body & Eb & ->).
  fold prefix in *. pose proof (omap_length _ _ _ Eb) as Lb.
  assert (Hw : forall t lt kt, nth_error vo kt = Some t -> atloc t lt -> exists s', nth_error (prefix ++ body ++ map (tst (o_aop o)) (tail g deps pl nm o)) (length prefix + kt) = Some s' /\ target s' = Some lt).
  { intros t lt kt Hk Hat. destruct (omap_nth' _ _ _ _ _ Eb Hk) as (s' & Hs' & Es').
    exists s'. split.
    - rewrite nth_error_app2 by lia. replace (length prefix + kt - length prefix) with kt by lia.
      rewrite nth_error_app1; [exact Hs'|]. apply nth_error_Some. congruence.
    - destruct (stmt_shape f t s' (nth_error_In _ _ Hk) Es') as (l1 & H1 & H2 & _). rewrite H1. f_equal. eapply atloc_fun; eassumption. }
  destruct (Nat.lt_ge_cases k (length prefix)) as [Hk|Hk].
  { rewrite nth_error_app1 in Hs by exact Hk. apply nth_error_In, prefix_none in Hs. destruct Hs as [n ->]. destruct Hl. }
  rewrite nth_error_app2 in Hs by exact Hk. destruct (Nat.lt_ge_cases (k - length prefix) (length body)) as [Hk2|Hk2].
  - rewrite nth_error_app1 in Hs by exact Hk2. destruct (omap_nth _ _ _ _ _ Eb Hs) as (q & Hq & Eq).
    destruct (stmt_shape f q s (nth_error_In _ _ Hq) Eq) as (_ & _ & _ & Hr). destruct (Hr l Hl) as (t & Ht & Hat).
    destruct (nth_error_split _ _ Hq) as (l1 & l2 & Ev & Ln).
    destruct (rd_before g deps uc vid0 n0 cv CR l1 q l2 t Ev Ht) as [Hi|Hi].
    + left. inversion Hat; subst; [|congruence|].
      * exists p. split; [apply nth_error_Some; congruence|reflexivity].
      * match goal with Hv : In t vo |- _ => apply (cr_q _ _ _ _ _ _ CR) in Hv; destruct Hv as (_ & Hv & _) end. congruence.
    + right. apply In_nth_error in Hi. destruct Hi as [kt Hkt].
      assert (kt < length l1) by (apply nth_error_Some; congruence).
      destruct (Hw t l kt) as (s' & H1 & H2); [rewrite Ev, nth_error_app1; assumption|exact Hat|].
      exists (length prefix + kt), s'. split; [lia|auto].
  - rewrite nth_error_app2 in Hs by exact Hk2. apply nth_error_In in Hs. apply in_map_iff in Hs. destruct Hs as ([i e] & <- & He).
    cbn [tst sreads snd fst] in Hl. destruct (tail_shape i e He) as [_ Hr]. destruct (Hr l Hl) as [(p & H1 & ->)|(j & k' & -> & Hi & Hf & Hv)].
    + left. eauto.
    + right. apply In_nth_error in Hv. destruct Hv as [kt Hkt].
      assert (kt < length vo) by (apply nth_error_Some; congruence).
      destruct (Hw j (LY k') kt Hkt) as (s' & H1 & H2); [apply at_y; assumption|]. exists (length prefix + kt), s'. split; [lia|auto].
Qed.

(** ** Writes *)
Lemma targets_app (p q : list (stmt B)) : targets (p ++ q) = targets p ++ targets q.
Proof. unfold targets. apply flat_map_app. Qed.

Lemma prefix_targets : targets prefix = [].
Proof. unfold prefix. destruct vo; [reflexivity|]. destruct (o_zeroDeps o); reflexivity. Qed.

Lemma tail_targets T : targets (map (tst (o_aop o)) T) = map LY (map (@fst nat (cx B)) T).
Proof. induction T as [|[k e] T IH]; [reflexivity|]. cbn [map]. unfold targets in *. cbn [flat_map tst target fst app]. rewrite IH. reflexivity. Qed.

(** position of the target in the queue *)
Lemma body_targets_gen f : forall l body, (forall q, In q l -> In q vo) -> omap (stmtOf f) l = Done body -> Forall2 atloc l (targets body).
Proof.
  induction l as [|q l IH]; intros body Hin E; cbn [omap] in E.
  - injection E as <-. constructor.
  - apply obind_done in E. destruct E as (s & Es & E). apply obind_done in E. destruct E as (r & Er & [= <-]).
    destruct (stmt_shape f q s (Hin q (or_introl eq_refl)) Es) as (l' & H1 & H2 & _).
    unfold targets. cbn [flat_map]. rewrite H1. cbn [app]. constructor; [exact H2|].
    apply IH; [|exact Er]. intros; apply Hin; right; assumption.
Qed.
Lemma body_targets f body : omap (stmtOf f) vo = Done body -> Forall2 atloc vo (targets body).
Proof. apply body_targets_gen. auto. Qed.

Lemma Forall2_nth {A C} (R : A -> C -> Prop) : forall l l' k x, Forall2 R l l' -> nth_error l' k = Some x -> exists a, nth_error l k = Some a /\ R a x.
Proof.
  intros l l' k x H. revert k. induction H as [|a c l l' Hac H IH]; intros k E; [destruct k; discriminate|].
  destruct k as [|k]; cbn in E; [injection E as ->; exists a; auto|]. apply IH, E.
Qed.

Lemma nodup_app_intro {A} : forall l1 l2 : list A, NoDup l1 -> NoDup l2 -> (forall x, In x l1 -> ~ In x l2) -> NoDup (l1 ++ l2).
Proof.
  induction l1 as [|x l1 IH]; intros l2 H1 H2 H3; [exact H2|]. cbn [app]. apply NoDup_cons_iff in H1. destruct H1 as [H0 H1].
  constructor; [|apply IH; auto; intros y Hy; apply H3; right; exact Hy].
  intros Hx. apply in_app_or in Hx. destruct Hx as [Hx|Hx]; [contradiction|]. apply (H3 x); [left; reflexivity|exact Hx].
Qed.

Lemma atloc_nodup (keep : loc -> bool) : (forall v, keep (LV v) = true -> p_vid pl = c_vid cv) ->
  forall l ys, NoDup l -> (forall q, In q l -> In q vo) -> Forall2 atloc l ys -> NoDup (filter keep ys).
Proof.
  intros Hkeep. induction l as [|q l IH]; intros l' Hn Hv F; inversion F as [|x y xs ys Hxy Fxy]; subst; [constructor|].
  apply NoDup_cons_iff in Hn. destruct Hn as [Hq Hn]. cbn [filter].
  assert (IH' : NoDup (filter keep ys)) by (apply IH; [exact Hn|intros; apply Hv; right; assumption|exact Fxy]).
  destruct (keep y) eqn:Ek; [|exact IH']. constructor; [|exact IH']. intros Hin. apply filter_In in Hin. destruct Hin as [Hin _].
  apply In_nth_error in Hin. destruct Hin as [k Hk]. destruct (Forall2_nth _ _ _ _ _ Fxy Hk) as (t & Ht & Hat).
  apply nth_error_In in Ht. assert (Htq : t <> q) by (intros ->; contradiction).
  assert (Htv : In t vo) by (apply Hv; right; exact Ht).
  inversion Hxy as [p Hi Hp|kk Hi Hkk|Hqv Hd]; subst y; inversion Hat as [p' Hi' Hp'|kk' Hi' Hkk'|Hqv' Hd']; subst; try congruence.
  - destruct Hkk as [Hkk _], Hkk' as [Hkk' _]. congruence.
  - destruct (vid_temp g indeps deps HG pl cv uc vid0 n0 PO q Hqv Hd) as [G1 G2].
    destruct (vid_temp g indeps deps HG pl cv uc vid0 n0 PO t Hqv' Hd') as [G3 G4].
    pose proof (Hkeep _ Ek) as Hpv. rewrite Hpv in *. apply Htq. apply (cr_inj _ _ _ _ _ _ CR); [lia|].
    pose proof (n0_pos g indeps deps HG pl cv uc vid0 n0 PO). lia.
Qed.

(** locations are assigned once: always for dependents, also for temporaries when identifiers are not re-used *)
Lemma source_targets f prog (keep : loc -> bool) : source g o indeps deps pl nm f = Done prog ->
  (forall v, keep (LV v) = true -> p_vid pl = c_vid cv) -> NoDup (filter keep (targets prog)).
Proof.
  intros E Hkeep. destruct (source_split g indeps deps pl cv uc vid0 n0 PO nm o f prog E) as (body & Eb & ->).
  fold prefix. rewrite !targets_app, prefix_targets. cbn [app]. rewrite tail_targets, filter_app.
  pose proof (body_targets f body Eb) as F. apply nodup_app_intro.
  - eapply atloc_nodup; [exact Hkeep| | |exact F]; [|auto]. apply (vo_nodup g indeps deps pl cv uc vid0 n0 PO).
  - apply NoDup_filter. apply FinFun.Injective_map_NoDup; [intros x y [= ->]; reflexivity|].
    apply (tail_nodup g indeps deps HG pl cv uc vid0 n0 PO nm NM).
  - intros x Hx Hy. apply filter_In in Hx, Hy. destruct Hx as [Hx _], Hy as [Hy _].
    apply in_map_iff in Hy. destruct Hy as (i & <- & Hi). apply In_nth_error in Hx. destruct Hx as [k Hk].
    destruct (Forall2_nth _ _ _ _ _ F Hk) as (t & Ht & Hat). inversion Hat; subst.
    eapply (first_not_tail g indeps deps HG pl cv uc vid0 n0 PO nm NM o); eassumption.
Qed.

(** every dependent is assigned, except ignored zeros *)
Lemma source_target_y f prog i a : source g o indeps deps pl nm f = Done prog -> nth_error deps i = Some a ->
  (In (LY i) (targets prog) <-> ~ (exists b, a = APar b /\ o_ignoreZero o = true /\ bisz b = true)).
Proof.
  intros E Ha. destruct (source_split g indeps deps pl cv uc vid0 n0 PO nm o f prog E) as (body & Eb & ->).
  fold prefix. rewrite !targets_app, prefix_targets. cbn [app]. rewrite tail_targets.
  pose proof (body_targets f body Eb) as F.
  assert (Ht : forall e, In (i, e) (tail g deps pl nm o) -> In (LY i) (targets body ++ map LY (map fst (tail g deps pl nm o)))).
  { intros e He. apply in_or_app. right. apply in_map. apply in_map_iff. exists (i, e). auto. }
  pose proof (dcase_ok g indeps deps HG pl cv uc vid0 n0 PO nm NM o _ _ Ha) as D.
  inversion D as [j Hi Hf H1 H2|j k' Hi Hf Hne H1 H2|j p Hi Hp H1 H2|b H1 H2|b Hz1 Hz2 H1 H2]; subst a.
  - split; [intros _ (b & [=] & _)|]. intros _. apply in_or_app. left.
    assert (Hj : In j vo) by (apply (cr_dep _ _ _ _ _ _ CR); [eapply nth_error_In, Ha|exact Hi]).
    enough (G : forall l ys, In j l -> Forall2 atloc l ys -> In (LY i) ys) by (eapply G; eassumption).
    induction l as [|q l IH]; intros ys Hjl Fl; [destruct Hjl|].
    inversion Fl as [|x y xs zs Hxy Fxy]; subst. destruct Hjl as [->|Hjl].
    + left. eapply (atloc_fun g indeps deps HG pl cv uc vid0 n0 PO); [exact Hxy|]. apply at_y; assumption.
    + right. apply IH; assumption.
  - split; [intros _ (b & [=] & _)|]. intros _. eapply Ht. apply in_tail. eauto.
  - split; [intros _ (b & [=] & _)|]. intros _. eapply Ht. apply in_tail. eauto.
  - split.
    + intros _ (b' & [= <-] & Z1 & Z2). unfold hcst in H2. rewrite Z1, Z2 in H2. discriminate.
    + intros _. eapply Ht. apply in_tail. eauto.
  - split; [|intros H; exfalso; apply H; eauto].
    intros Hin. exfalso. apply in_app_or in Hin. destruct Hin as [Hin|Hin].
    + apply In_nth_error in Hin. destruct Hin as [k Hk]. destruct (Forall2_nth _ _ _ _ _ F Hk) as (t & Ht' & Hat).
      inversion Hat; subst. match goal with Hf : isFirst _ _ _ |- _ => destruct Hf as [Hf _] end. congruence.
    + apply in_map_iff in Hin. destruct Hin as (i' & [= <-] & Hin).
      apply (tail_in_fst g deps pl nm o) in Hin. destruct Hin as (a & e & Ha' & He). rewrite Ha in Ha'. injection Ha' as <-.
      destruct He; congruence.
Qed.

(** temporaries are inside of the declared array *)
Lemma source_target_x f prog p : source g o indeps deps pl nm f = Done prog -> ~ In (LX p) (targets prog).
Proof.
  intros E Hv. destruct (source_split g indeps deps pl cv uc vid0 n0 PO nm o f prog E) as (body & Eb & ->).
  fold prefix in Hv. rewrite !targets_app, prefix_targets in Hv. cbn [app] in Hv. rewrite tail_targets in Hv.
  apply in_app_or in Hv. destruct Hv as [Hv|Hv]; [|apply in_map_iff in Hv; destruct Hv as (? & [=] & _)].
  apply In_nth_error in Hv. destruct Hv as [k Hk].
  destruct (Forall2_nth _ _ _ _ _ (body_targets f body Eb) Hk) as (t & Ht & Hat). inversion Hat; subst.
  apply nth_error_In in Ht. apply (cr_q _ _ _ _ _ _ CR) in Ht. destruct Ht as (_ & Hi & _). congruence.
Qed.

Lemma source_target_lt f prog i : source g o indeps deps pl nm f = Done prog -> In (LY i) (targets prog) -> i < length deps.
Proof.
  intros E Hv. destruct (source_split g indeps deps pl cv uc vid0 n0 PO nm o f prog E) as (body & Eb & ->).
  fold prefix in Hv. rewrite !targets_app, prefix_targets in Hv. cbn [app] in Hv. rewrite tail_targets in Hv.
  apply in_app_or in Hv. destruct Hv as [Hv|Hv].
  - apply In_nth_error in Hv. destruct Hv as [k Hk].
    destruct (Forall2_nth _ _ _ _ _ (body_targets f body Eb) Hk) as (t & Ht & Hat). inversion Hat as [|? ? Hf|]; subst.
    destruct Hf as [Hf _]. apply nth_error_Some. congruence.
  - apply in_map_iff in Hv. destruct Hv as (j & [= ->] & Hj). apply in_map_iff in Hj. destruct Hj as ([j e] & Ej & He).
    cbn [fst] in Ej. subst j. apply (in_tail g deps pl nm o) in He. destruct He as (a & Ha & _). apply nth_error_Some. congruence.
Qed.

Lemma source_bound f prog v : source g o indeps deps pl nm f = Done prog -> In (LV v) (targets prog) -> v < p_next pl - p_minTmp pl.
Proof.
  intros E Hv. destruct (source_split g indeps deps pl cv uc vid0 n0 PO nm o f prog E) as (body & Eb & ->).
  fold prefix in Hv. rewrite !targets_app, prefix_targets in Hv. cbn [app] in Hv. rewrite tail_targets in Hv.
  apply in_app_or in Hv. destruct Hv as [Hv|Hv]; [|apply in_map_iff in Hv; destruct Hv as (? & [=] & _)].
  apply In_nth_error in Hv. destruct Hv as [k Hk].
  destruct (Forall2_nth _ _ _ _ _ (body_targets f body Eb) Hk) as (t & Ht & Hat). inversion Hat; subst.
  pose proof (po_next _ _ _ _ _ _ _ _ PO t H0). rewrite (po_min _ _ _ _ _ _ _ _ PO).
  destruct (vid_temp g indeps deps HG pl cv uc vid0 n0 PO t H0 H1). lia.
Qed.
End Flow.

(** * Execution of the generated assignments *)
From Coq Require Import List Bool Arith Lia.
From Verif Require Import Graph_model Graph_spec Codegen_model Codegen_spec Codegen_dfs Codegen_use Codegen_create
  Codegen_order Codegen_reuse Codegen_plan Codegen_emit.
Import ListNotations.

Lemma loc_eqb_eq a b : loc_eqb a b = true <-> a = b.
Proof.
  destruct a, b; cbn [loc_eqb]; rewrite ?Nat.eqb_eq; split; intros H; try discriminate; congruence.
Qed.
Lemma loc_eqb_refl a : loc_eqb a a = true.
Proof. apply loc_eqb_eq. reflexivity. Qed.
Lemma loc_eqb_neq a b : a <> b -> loc_eqb a b = false.
Proof. intros H. destruct (loc_eqb a b) eqn:E; [apply loc_eqb_eq in E; contradiction|reflexivity]. Qed.
Lemma loc_dec (a b : loc) : a = b \/ a <> b.
Proof. destruct (loc_eqb a b) eqn:E; [left; apply loc_eqb_eq, E|right; intros H; apply loc_eqb_eq in H; congruence]. Qed.

Section Assign.
Context {B : Type} {O : BaseOps B}.

Lemma assign_other (m : @mem B) l a v l' : l' <> l -> assign m l a v l' = m l'.
Proof. intros H. unfold assign, setm. rewrite loc_eqb_neq by exact H. reflexivity. Qed.
Lemma assign_same (m : @mem B) l a v : (a = AAdd -> m l = Some b0 /\ forall x, badd b0 x = x) -> assign m l a v l = v.
Proof.
  intros H. unfold assign, setm. rewrite loc_eqb_refl. destruct a; [reflexivity|].
  destruct (H eq_refl) as [-> Hb]. destruct v; cbn [lift2]; [rewrite Hb|]; reflexivity.
Qed.

Definition tst (a : aop) (p : nat * cx B) : stmt B := SAssign (LY (fst p)) a (snd p).

Lemma xval_ext (m m' : @mem B) e : (forall l, In l (xreads e) -> m l = m' l) -> xval m e = xval m' e.
Proof.
  revert e. fix IH 1. intros [l|b|o a] H; cbn [xval xreads] in *; [apply H; left; reflexivity|reflexivity|].
  f_equal. induction a as [|x a IHa]; [reflexivity|]. cbn [map flat_map] in *. f_equal.
  - apply IH. intros l Hl. apply H, in_or_app; left; exact Hl.
  - apply IHa. intros l Hl. apply H, in_or_app; right; exact Hl.
Qed.

Lemma exec_app (m : @mem B) p q : exec m (p ++ q) = exec (exec m p) q.
Proof. unfold exec. apply fold_left_app. Qed.

(** assignments to distinct dependents which read none of these *)
Lemma tail_exec a T : forall m : @mem B, NoDup (map fst T) ->
  (forall k e i, In (k, e) T -> In i (map fst T) -> ~ In (LY i) (xreads e)) ->
  (forall k e, In (k, e) T -> exec m (map (tst a) T) (LY k) = assign m (LY k) a (xval m e) (LY k)) /\
  (forall l, (forall i, In i (map fst T) -> l <> LY i) -> exec m (map (tst a) T) l = m l).
Proof.
  induction T as [|[k0 e0] T IH]; intros m Hn Hr.
  - split; [intros k e []|reflexivity].
  - cbn [map fst] in Hn. apply NoDup_cons_iff in Hn. destruct Hn as [Hk Hn].
    assert (Hr' : forall k e i, In (k, e) T -> In i (map fst T) -> ~ In (LY i) (xreads e)).
    { intros k e i H1 H2. apply (Hr k e i); right; assumption. }
    cbn [map]. unfold exec in *. cbn [fold_left]. set (m' := exec1 m (tst a (k0, e0))).
    assert (Hm' : forall l, l <> LY k0 -> m' l = m l) by (intros l Hl; apply assign_other; exact Hl).
    destruct (IH m' Hn Hr') as [H1 H2]. split.
    + intros k e [[= -> ->]|Hin].
      * rewrite H2; [reflexivity|]. intros i Hi [= ->]. contradiction.
      * rewrite (H1 _ _ Hin). assert (Hne : LY k <> LY k0).
        { intros [= ->]. apply Hk. apply in_map_iff. exists (k0, e). auto. }
        rewrite (xval_ext m' m e).
        -- unfold assign, setm. rewrite loc_eqb_refl, (Hm' _ Hne). reflexivity.
        -- intros l Hl. apply Hm'. intros ->. apply (Hr k e k0); [right; exact Hin|left; reflexivity|exact Hl].
    + intros l Hl. rewrite H2.
      * apply Hm'. apply Hl. left; reflexivity.
      * intros i Hi. apply Hl. right; exact Hi.
Qed.

(** statements chosen by position *)
Fixpoint sel (h : nat -> arg B -> option (cx B)) (l : list (arg B)) (i : nat) : list (nat * cx B) :=
  match l with
  | [] => []
  | a :: l' => match h i a with Some e => (i, e) :: sel h l' (S i) | None => sel h l' (S i) end
  end.
Lemma in_sel h : forall l i k e, In (k, e) (sel h l i) <-> exists d a, k = i + d /\ nth_error l d = Some a /\ h k a = Some e.
Proof.
  induction l as [|x l IH]; intros i k e; cbn [sel].
  - split; [intros []|intros ([|d] & a & _ & H & _); discriminate].
  - split.
    + intros H.
      assert (D : (i, e) = (k, e) /\ h i x = Some e \/ In (k, e) (sel h l (S i))).
      { destruct (h i x) as [e'|] eqn:Eh; [|right; exact H]. destruct H as [[= -> ->]|H]; [left; auto|right; exact H]. }
      destruct D as [[[= ->] Hx]|D].
      * exists 0, x. split; [lia|]. split; [reflexivity|exact Hx].
      * apply IH in D. destruct D as (d & a & -> & Hd & Hh). exists (S d), a. split; [lia|]. split; [exact Hd|exact Hh].
    + intros ([|d] & a & -> & Hd & Hh).
      * cbn in Hd. injection Hd as ->. rewrite Nat.add_0_r in *. rewrite Hh. left; reflexivity.
      * assert (In (i + S d, e) (sel h l (S i))) by (apply IH; exists d, a; split; [lia|split; [exact Hd|exact Hh]]).
        destruct (h i x); [right|]; assumption.
Qed.
Lemma sel_nodup h : forall l i, NoDup (map fst (sel h l i)).
Proof.
  induction l as [|x l IH]; intros i; cbn [sel]; [constructor|]. destruct (h i x); [|apply IH].
  cbn [map fst]. constructor; [|apply IH]. intros H. apply in_map_iff in H. destruct H as ([k e] & Hk & Hin). cbn [fst] in Hk.
  subst k. apply in_sel in Hin. destruct Hin as (d & a & Hd & _). lia.
Qed.
End Assign.

Section Exec.
Context {B : Type} {O : BaseOps B}.
Variable g : heap B.
Variable indeps : list nat.
Variable deps : list (arg B).
Hypothesis HG : gen_input g indeps deps.
Variable pl : plan.
Variable cv : cvst.
Variable uc : nat -> nat.
Variable vid0 : nat -> nat.
Variable n0 : nat.
Hypothesis PO : plan_ok g indeps deps pl cv uc vid0 n0.
Variable nm : nat -> option loc.
Hypothesis NM : names_ok g indeps deps pl cv n0 nm.
Variable o : options.

Notation P := (reach g deps).
Notation vo := (c_q cv).
Notation CR := (po_created _ _ _ _ _ _ _ _ PO).
Notation rd := (rd g (c_vid cv)).
Notation atloc := (atloc g indeps deps pl cv n0).
Notation stmtOf := (stmtOf g o indeps deps pl nm).
Notation reads_ok := (reads_ok g indeps deps pl cv n0).
Notation csolves := (csolves g indeps deps).

Lemma vo_nodup : NoDup vo.
Proof. apply (cr_nodup _ _ _ _ _ _ CR). Qed.

Lemma atloc_y_dep t k : atloc t (LY k) -> nth_error deps k = Some (ANode t) /\ isInv g t = false.
Proof. intros H. inversion H; subst. destruct H2. auto. Qed.

Section Run.
Variable inp : nat -> option B.
Variable sol : nat -> option B.
Hypothesis HS : csolves inp sol.
Hypothesis Hadd : o_aop o = AAdd -> forall x : B, badd b0 x = x.

Lemma stmt_sound f m q s l : In q vo -> stmtOf f q = Done s -> atloc q l -> reads_ok sol m q ->
  (o_aop o = AAdd -> In (ANode q) deps -> m l = Some b0) ->
  exec1 m s l = sol q /\ forall l', l' <> l -> exec1 m s l' = m l'.
Proof.
  intros Hq E Hat Hr Hz. destruct (cr_q _ _ _ _ _ _ CR q Hq) as (Pq & Hqi & Hqa & Hqv).
  unfold Codegen_model.stmtOf in E.
  destruct (varName_ok g indeps deps HG pl cv uc vid0 n0 PO nm NM q Pq Hqv) as (l1 & El & Hl1).
  rewrite El in E. assert (l1 = l) as -> by (eapply atloc_fun; eassumption).
  set (a := if isDependent indeps pl q then o_aop o else ASet) in *.
  assert (Ha : forall v, assign m l a v l = v).
  { intros v. apply assign_same. intros Haa. unfold a in Haa. destruct (isDependent indeps pl q) eqn:Ed; [|discriminate].
    split; [|apply Hadd, Haa]. apply Hz; [exact Haa|].
    eapply (isDependent_iff g indeps deps HG pl cv uc vid0 n0 PO); eassumption. }
  assert (Hgen : forall e, obind (exprOf g indeps deps pl nm f q) (fun e => Done (SAssign l a e)) = Done e ->
      exec1 m e l = sol q /\ forall l', l' <> l -> exec1 m e l' = m l').
  { intros e Ee. apply obind_done in Ee. destruct Ee as (x & Ex & [= <-]). cbn [exec1].
    rewrite (exprOf_sound g indeps deps HG pl cv uc vid0 n0 PO nm NM inp sol HS m f q x Pq Ex Hr).
    split; [apply Ha|]. intros l' Hl'. apply assign_other, Hl'. }
  destruct (opc g q) eqn:Eo; try (apply Hgen, E).
  destruct (gargs g q) as [|x [|y [|t [|fl [|z rest]]]]] eqn:Eg; try (apply Hgen, E).
  pose proof (cs_op _ _ _ _ _ HS q Pq Hqi) as Hsol. rewrite Eo, Eg in Hsol.
  assert (Hae : forall b e, In b (gargs g q) -> argExpr g indeps deps pl nm f b = Done e -> xval m e = sval sol b).
  { intros b e Hb He. eapply (argExpr_sound g indeps deps HG pl cv uc vid0 n0 PO nm NM inp sol HS m f q); eassumption. }
  rewrite Eg in Hae. destruct (sameArg t fl) eqn:Es.
  - apply obind_done in E. destruct E as (e & Ee & [= <-]). cbn [exec1].
    rewrite (Hae t e) by (auto; right; right; left; reflexivity). rewrite Hsol.
    split; [apply Ha|]. intros l' Hl'. apply assign_other, Hl'.
  - apply obind_done in E. destruct E as (ex & Ex & E). apply obind_done in E. destruct E as (ey & Ey & E).
    apply obind_done in E. destruct E as (et & Et & E). apply obind_done in E. destruct E as (ef & Ef & [= <-]).
    cbn [exec1].
    rewrite (Hae x ex), (Hae y ey) by (auto; cbn; auto).
    rewrite Hsol. unfold ocond. destruct (sval sol x) as [vx|]; [destruct (sval sol y) as [vy|]|].
    + destruct (bcmp c vx vy).
      * rewrite (Hae t et) by (auto; cbn; auto). split; [apply Ha|]. intros l' Hl'. apply assign_other, Hl'.
      * rewrite (Hae fl ef) by (auto; cbn; auto). split; [apply Ha|]. intros l' Hl'. apply assign_other, Hl'.
    + unfold setm. rewrite loc_eqb_refl. split; [reflexivity|]. intros l' Hl'. rewrite loc_eqb_neq by exact Hl'. reflexivity.
    + unfold setm. rewrite loc_eqb_refl. split; [reflexivity|]. intros l' Hl'. rewrite loc_eqb_neq by exact Hl'. reflexivity.
Qed.

Variable m1 : @mem B.
Hypothesis Hx1 : forall p, p < length indeps -> m1 (LX p) = inp p.
Hypothesis Hy1 : o_aop o = AAdd -> forall i, i < length deps -> m1 (LY i) = Some b0.

Record MI (l1 : list nat) (m : @mem B) : Prop := {
  mi_x : forall p, m (LX p) = m1 (LX p);
  mi_t : forall t l, In t l1 -> atloc t l ->
     (In (ANode t) deps \/ exists s q, length l1 <= s /\ nth_error vo s = Some q /\ rd q t) -> m l = sol t;
  mi_y : forall i, (forall t, In t l1 -> ~ atloc t (LY i)) -> m (LY i) = m1 (LY i)
}.

Lemma body_step f l1 q l2 m s : vo = l1 ++ q :: l2 -> MI l1 m -> stmtOf f q = Done s -> MI (l1 ++ [q]) (exec1 m s).
Proof.
  intros E H Es.
  assert (Hq : In q vo) by (rewrite E; apply in_or_app; right; left; reflexivity).
  assert (Hnq : nth_error vo (length l1) = Some q) by (rewrite E, nth_error_app2, Nat.sub_diag by lia; reflexivity).
  destruct (cr_q _ _ _ _ _ _ CR q Hq) as (Pq & Hqi & Hqa & Hqv).
  assert (Hql : ~ In q l1).
  { pose proof vo_nodup as Hn. rewrite E in Hn. apply NoDup_remove_2 in Hn. intros Hi. apply Hn, in_or_app; left; exact Hi. }
  destruct (atloc_ex g indeps deps HG pl cv uc vid0 n0 PO q Pq Hqv) as [lq Hlq].
  assert (Hr : reads_ok sol m q).
  { intros t l Ht Hl. destruct (rd_before g deps uc vid0 n0 cv CR l1 q l2 t E Ht) as [Hi|Hi].
    - inversion Hl; subst.
      + rewrite (mi_x _ _ H), Hx1 by (apply nth_error_Some; congruence). symmetry. apply (cs_x _ _ _ _ _ HS). assumption.
      + congruence.
      + match goal with Hv : In t vo |- _ => apply (cr_q _ _ _ _ _ _ CR) in Hv; destruct Hv as (_ & Hv & _) end. congruence.
    - eapply (mi_t _ _ H); [exact Hi|exact Hl|]. right. exists (length l1), q. auto. }
  destruct (stmt_sound f m q s lq Hq Es Hlq Hr) as [S1 S2].
  { intros Ha Hd. inversion Hlq; subst; [congruence| |contradiction].
    rewrite (mi_y _ _ H).
    - apply Hy1; [exact Ha|]. apply nth_error_Some. match goal with Hf : isFirst _ _ _ |- _ => destruct Hf as [Hf _]; rewrite Hf end. discriminate.
    - intros t Ht Hat. apply atloc_y_dep in Hat. destruct Hat as [Hat _].
      match goal with Hf : isFirst _ _ _ |- _ => destruct Hf as [Hf _]; rewrite Hf in Hat end. injection Hat as <-. contradiction. }
  constructor.
  - intros p. rewrite S2; [apply (mi_x _ _ H)|]. intros <-. inversion Hlq; subst. congruence.
  - intros t l Ht Hl Hlive. apply in_app_or in Ht. destruct Ht as [Ht|[<-|[]]].
    + assert (Hne : l <> lq).
      { intros ->. assert (Htq : t <> q) by (intros ->; contradiction).
        assert (Htv : In t vo) by (rewrite E; apply in_or_app; left; exact Ht).
        destruct (cr_q _ _ _ _ _ _ CR t Htv) as (_ & Hti & _).
        inversion Hlq as [p Hi Hp|k Hi Hk|Hv Hd]; subst lq; inversion Hl as [p' Hi' Hp'|k' Hi' Hk'|Hv' Hd']; subst; try congruence.
        - destruct Hk as [Hk _], Hk' as [Hk' _]. congruence.
        - destruct Hlive as [Hlive|(s' & q' & Hs & Hq' & Hrd)]; [contradiction|].
          rewrite app_length in Hs. cbn [length] in Hs.
          apply In_nth_error in Ht. destruct Ht as [k Hk].
          assert (Hkl : k < length l1) by (apply nth_error_Some; congruence).
          assert (Hkv : nth_error vo k = Some t) by (rewrite E, nth_error_app1; assumption).
          destruct (vid_temp g indeps deps HG pl cv uc vid0 n0 PO q Hv Hd) as [G1 G2].
          destruct (vid_temp g indeps deps HG pl cv uc vid0 n0 PO t Hv' Hd') as [G3 G4].
          assert (s' <= length l1); [|lia].
          eapply (po_clash _ _ _ _ _ _ _ _ PO k (length l1) t q s' q'); auto; try assumption. lia. }
      rewrite S2 by exact Hne. eapply (mi_t _ _ H); [exact Ht|exact Hl|].
      destruct Hlive as [Hd|(s' & q' & Hs & Hq' & Hrd)]; [left; exact Hd|right]. exists s', q'.
      rewrite app_length in Hs. split; [lia|auto].
    + assert (l = lq) as -> by (eapply atloc_fun; eassumption). exact S1.
  - intros i Hi. rewrite S2.
    + apply (mi_y _ _ H). intros t Ht. apply Hi, in_or_app; left; exact Ht.
    + intros <-. apply (Hi q); [apply in_or_app; right; left; reflexivity|exact Hlq].
Qed.

Lemma body_exec f : forall l2 l1 m body, vo = l1 ++ l2 -> MI l1 m -> omap (stmtOf f) l2 = Done body -> MI vo (exec m body).
Proof.
  induction l2 as [|q l2 IH]; intros l1 m body E H Hb; cbn [omap] in Hb.
  - injection Hb as <-. rewrite app_nil_r in E. rewrite E. exact H.
  - apply obind_done in Hb. destruct Hb as (s & Es & Hb). apply obind_done in Hb. destruct Hb as (r & Er & [= <-]).
    change (exec m (s :: r)) with (exec (exec1 m s) r).
    eapply (IH (l1 ++ [q])); [rewrite <- app_assoc; exact E| |exact Er]. eapply body_step; eassumption.
Qed.

Lemma body_exec0 f body : omap (stmtOf f) vo = Done body -> MI vo (exec m1 body).
Proof.
  apply (body_exec f vo []); [reflexivity|]. constructor; auto. intros t l [].
Qed.

(** *** repeated, constant and independent dependents *)
Definition hdup (k : nat) (a : arg B) : option (cx B) :=
  match a with
  | ANode j => if negb (isInv g j) && negb (Nat.eqb (p_vid pl j) 0) &&
                  negb (match firstDep g pl deps 0 (p_vid pl j) with Some k' => Nat.eqb k' k | None => true end)
               then match nm j with Some n => Some (XLoc n) | None => None end else None
  | APar _ => None
  end.
Definition hcst (k : nat) (a : arg B) : option (cx B) :=
  match a with
  | APar b => if negb (o_ignoreZero o) || negb (bisz b) then Some (XPar b) else None
  | ANode j => if isInv g j then match nm j with Some n => Some (XLoc n) | None => None end else None
  end.

Lemma duplicates_sel : forall l i r, duplicates g o deps pl nm l i = Done r -> r = map (tst (o_aop o)) (sel hdup l i).
Proof.
  induction l as [|[j|b] l IH]; intros i r E; cbn [duplicates sel hdup] in *.
  - injection E as <-. reflexivity.
  - apply obind_done in E. destruct E as (r' & Er & E). apply IH in Er. subst r'.
    destruct (negb (isInv g j) && negb (Nat.eqb (p_vid pl j) 0) && _); [|injection E as <-; reflexivity].
    destruct (nm j); [|discriminate]. injection E as <-. reflexivity.
  - apply IH, E.
Qed.
Lemma constants_sel : forall l i r, constants g o nm l i = Done r -> r = map (tst (o_aop o)) (sel hcst l i).
Proof.
  induction l as [|[j|b] l IH]; intros i r E; cbn [constants sel hcst] in *.
  - injection E as <-. reflexivity.
  - apply obind_done in E. destruct E as (r' & Er & E). apply IH in Er. subst r'.
    destruct (isInv g j); [|injection E as <-; reflexivity].
    destruct (nm j); [|discriminate]. injection E as <-. reflexivity.
  - apply obind_done in E. destruct E as (r' & Er & E). apply IH in Er. subst r'.
    destruct (negb (o_ignoreZero o) || negb (bisz b)); injection E as <-; reflexivity.
Qed.

Definition tail : list (nat * cx B) := sel hdup deps 0 ++ sel hcst deps 0.

Lemma in_tail k e : In (k, e) tail <-> exists a, nth_error deps k = Some a /\ (hdup k a = Some e \/ hcst k a = Some e).
Proof.
  unfold tail. rewrite in_app_iff, !in_sel. split.
  - intros [(d & a & -> & Hd & He)|(d & a & -> & Hd & He)]; exists a; cbn [Nat.add] in *; auto.
  - intros (a & Ha & [He|He]); [left|right]; exists k, a; auto.
Qed.

Lemma dep_name j k : In (ANode j) deps -> isInv g j = false -> isFirst deps j k -> nm j = Some (LY k).
Proof.
  intros Hd Hi Hk. destruct (nm j) as [l|] eqn:En; [|exfalso; apply (no_dep _ _ _ _ _ _ _ NM j Hd En)].
  f_equal. eapply (no_right _ _ _ _ _ _ _ NM); [right; apply reach_dep, Hd|exact En|]. apply at_y; assumption.
Qed.

Lemma indep_name j p : nth_error indeps p = Some j -> nm j = Some (LX p).
Proof.
  intros Hp. pose proof (nth_error_In _ _ Hp) as Hin. destruct (nm j) as [l|] eqn:En; [|exfalso; apply (no_indep _ _ _ _ _ _ _ NM j Hin En)].
  f_equal. eapply (no_right _ _ _ _ _ _ _ NM); [left; exact Hin|exact En|]. apply at_x; [apply (indep_inv g indeps deps HG), Hin|exact Hp].
Qed.

(** what a position of the dependents vector is *)
Inductive dcase (i : nat) : arg B -> Prop :=
 | dc_first j : isInv g j = false -> isFirst deps j i -> hdup i (ANode j) = None -> hcst i (ANode j) = None -> dcase i (ANode j)
 | dc_dup j k : isInv g j = false -> isFirst deps j k -> k <> i -> hdup i (ANode j) = Some (XLoc (LY k)) -> hcst i (ANode j) = None -> dcase i (ANode j)
 | dc_inv j p : isInv g j = true -> nth_error indeps p = Some j -> hdup i (ANode j) = None -> hcst i (ANode j) = Some (XLoc (LX p)) -> dcase i (ANode j)
 | dc_par b : hdup i (APar b) = None -> hcst i (APar b) = Some (XPar b) -> dcase i (APar b)
 | dc_zero b : o_ignoreZero o = true -> bisz b = true -> hdup i (APar b) = None -> hcst i (APar b) = None -> dcase i (APar b).

Lemma dcase_ok i a : nth_error deps i = Some a -> dcase i a.
Proof.
  intros E. pose proof (nth_error_In _ _ E) as Hin. destruct a as [j|b].
  - destruct (isInv g j) eqn:Ej.
    + pose proof (inv_indep g indeps deps HG j (reach_dep _ _ _ Hin) Ej) as H. apply In_nth_error in H. destruct H as [p Hp].
      apply (dc_inv i j p); auto; unfold hdup, hcst; rewrite Ej; [reflexivity|]. rewrite (indep_name j p Hp). reflexivity.
    + destruct (firstDep_ok g indeps deps HG pl cv uc vid0 n0 PO j Hin Ej) as (k & Hk & Hf).
      assert (Hv : Nat.eqb (p_vid pl j) 0 = false).
      { apply Nat.eqb_neq. destruct (vid_dep g indeps deps HG pl cv uc vid0 n0 PO j Hin Ej). lia. }
      destruct (Nat.eq_dec k i) as [->|Hne].
      * apply dc_first; auto; unfold hdup, hcst; rewrite Ej; [|reflexivity]. rewrite Hv, Hf, Nat.eqb_refl. reflexivity.
      * apply (dc_dup i j k); auto; unfold hdup, hcst; rewrite Ej; [|reflexivity]. rewrite Hv, Hf.
        apply Nat.eqb_neq in Hne. rewrite Hne. cbn [negb andb]. rewrite (dep_name j k Hin Ej Hk). reflexivity.
  - destruct (negb (o_ignoreZero o) || negb (bisz b)) eqn:Ez.
    + apply dc_par; unfold hdup, hcst; rewrite ?Ez; reflexivity.
    + apply orb_false_iff in Ez. destruct Ez as [Z1 Z2]. apply negb_false_iff in Z1, Z2.
      apply dc_zero; auto; unfold hcst; rewrite Z1, Z2; reflexivity.
Qed.

Lemma tail_in_fst i : In i (map fst tail) <-> exists a e, nth_error deps i = Some a /\ (hdup i a = Some e \/ hcst i a = Some e).
Proof.
  rewrite in_map_iff. split.
  - intros ([k e] & <- & H). apply in_tail in H. destruct H as (a & H1 & H2). exists a, e. auto.
  - intros (a & e & H1 & H2). exists (i, e). split; [reflexivity|]. apply in_tail. exists a. auto.
Qed.

Lemma tail_nodup : NoDup (map fst tail).
Proof.
  unfold tail. rewrite map_app.
  assert (H : forall l1 l2 : list nat, NoDup l1 -> NoDup l2 -> (forall x, In x l1 -> ~ In x l2) -> NoDup (l1 ++ l2)).
  { induction l1 as [|x l1 IH]; intros l2 H1 H2 H3; [exact H2|]. cbn [app]. apply NoDup_cons_iff in H1. destruct H1 as [H0 H1].
    constructor; [|apply IH; auto; intros y Hy; apply H3; right; exact Hy].
    intros Hx. apply in_app_or in Hx. destruct Hx as [Hx|Hx]; [contradiction|]. apply (H3 x); [left; reflexivity|exact Hx]. }
  apply H; try apply sel_nodup.
  intros x H1 H2. apply in_map_iff in H1, H2. destruct H1 as ([k1 e1] & <- & H1), H2 as ([k2 e2] & Ek & H2). cbn [fst] in Ek. subst k2.
  apply in_sel in H1, H2. destruct H1 as (d1 & a1 & E1 & N1 & G1), H2 as (d2 & a2 & E2 & N2 & G2). cbn [Nat.add] in *. subst d1 d2.
  rewrite N1 in N2. injection N2 as <-. cbn [fst] in *. destruct (dcase_ok _ _ N1); congruence.
Qed.

Lemma first_not_tail j i : isInv g j = false -> isFirst deps j i -> ~ In i (map fst tail).
Proof.
  intros Hi Hf H. apply tail_in_fst in H. destruct H as (a & e & Ha & He). pose proof (proj1 Hf) as Hn.
  rewrite Ha in Hn. injection Hn as ->. pose proof (dcase_ok _ _ Ha) as D.
  inversion D as [j' Hi' Hf' H1 H2|j' k Hi' Hf' Hne H1 H2|j' p Hi' Hp H1 H2| |]; subst; try (destruct He; congruence).
  apply Hne. eapply isFirst_fun; eassumption.
Qed.

Lemma tail_reads : forall k e i, In (k, e) tail -> In i (map fst tail) -> ~ In (LY i) (xreads e).
Proof.
  intros k e i H Hi Hr. apply in_tail in H. destruct H as (a & Ha & He).
  pose proof (dcase_ok _ _ Ha) as D. inversion D; subst; destruct He as [He|He]; try congruence;
  match goal with H1 : _ = Some ?x |- _ => rewrite He in H1; injection H1 as -> end; cbn [xreads In] in Hr.
  - destruct Hr as [[= ->]|[]]. eapply first_not_tail; eassumption.
  - destruct Hr as [Hr|[]]; discriminate.
  - destruct Hr.
Qed.

Lemma source_split f prog : source g o indeps deps pl nm f = Done prog ->
  exists body, omap (stmtOf f) vo = Done body /\
    prog = (match vo with [] => [] | _ => if o_zeroDeps o then [SZero (length deps)] else [] end) ++ body ++ map (tst (o_aop o)) tail.
Proof.
  intros E. unfold source in E. apply obind_done in E. destruct E as (body & Eb & E). apply obind_done in E. destruct E as (dup & Ed & E).
  apply obind_done in E. destruct E as (cst & Ec & [= <-]). rewrite (po_vo _ _ _ _ _ _ _ _ PO) in *. exists body. split; [exact Eb|].
  rewrite (duplicates_sel _ _ _ Ed), (constants_sel _ _ _ Ec). unfold tail. rewrite map_app. reflexivity.
Qed.

Lemma final_exec f body i a : omap (stmtOf f) vo = Done body -> nth_error deps i = Some a ->
  (forall b, a = APar b -> o_ignoreZero o = true -> bisz b = true -> m1 (LY i) = Some b) ->
  exec (exec m1 body) (map (tst (o_aop o)) tail) (LY i) = sval sol a.
Proof.
  intros Eb Ha Hz. pose proof (body_exec0 f body Eb) as H. set (m2 := exec m1 body) in *.
  destruct (tail_exec (o_aop o) tail m2 tail_nodup tail_reads) as [T1 T2].
  assert (Hlt : i < length deps) by (apply nth_error_Some; congruence).
  (* positions written by the tail still hold their initial value *)
  assert (Hkeep : (forall j, isInv g j = false -> ~ isFirst deps j i) -> m2 (LY i) = m1 (LY i)).
  { intros Hn. apply (mi_y _ _ H). intros t Ht Hat. inversion Hat; subst. eapply Hn; eassumption. }
  assert (Hset : forall e, In (i, e) tail -> (forall j, isInv g j = false -> ~ isFirst deps j i) ->
     exec m2 (map (tst (o_aop o)) tail) (LY i) = xval m2 e).
  { intros e He Hn. rewrite (T1 _ _ He). apply assign_same. intros Hadd'. split; [|apply Hadd, Hadd'].
    rewrite Hkeep by exact Hn. apply Hy1; assumption. }
  pose proof (nth_error_In _ _ Ha) as Hin.
  pose proof (dcase_ok _ _ Ha) as D. inversion D as [j Hi Hf H1 H2|j k Hi Hf Hne H1 H2|j p Hi Hp H1 H2|b H1 H2|b Hz1 Hz2 H1 H2]; subst a; cbn [sval].
  - rewrite T2.
    + eapply (mi_t _ _ H); [|apply at_y; eassumption|left; exact Hin].
      apply (cr_dep _ _ _ _ _ _ CR); assumption.
    + intros i' Hi' [= ->]. eapply first_not_tail; eassumption.
  - rewrite (Hset (XLoc (LY k))).
    + cbn [xval]. eapply (mi_t _ _ H); [|apply at_y; eassumption|left; exact Hin]. apply (cr_dep _ _ _ _ _ _ CR); assumption.
    + apply in_tail. eauto.
    + intros j' Hj' Hf'. pose proof (proj1 Hf') as Hn. rewrite Ha in Hn. injection Hn as <-. apply Hne. eapply isFirst_fun; eassumption.
  - rewrite (Hset (XLoc (LX p))).
    + cbn [xval]. rewrite (mi_x _ _ H), Hx1 by (apply nth_error_Some; congruence). symmetry. apply (cs_x _ _ _ _ _ HS), Hp.
    + apply in_tail. eauto.
    + intros j' Hj' Hf'. pose proof (proj1 Hf') as Hn. rewrite Ha in Hn. injection Hn as <-. congruence.
  - rewrite (Hset (XPar b)).
    + reflexivity.
    + apply in_tail. eauto.
    + intros j' Hj' Hf'. pose proof (proj1 Hf') as Hn. rewrite Ha in Hn. discriminate.
  - rewrite T2.
    + rewrite Hkeep; [apply Hz; auto|]. intros j' Hj' Hf'. pose proof (proj1 Hf') as Hn. rewrite Ha in Hn. discriminate.
    + intros i' Hi' [= ->]. apply tail_in_fst in Hi'. destruct Hi' as (a & e & Ha' & He). rewrite Ha in Ha'. injection Ha' as <-.
      destruct He; congruence.
Qed.
End Run.

(** execution of the whole program *)
Definition cleared (m : @mem B) (i : nat) : Prop := m (LY i) = Some b0 \/ (o_zeroDeps o = true /\ vo <> []).

Lemma source_exec f prog (m : @mem B) sol : source g o indeps deps pl nm f = Done prog ->
  csolves (fun p => m (LX p)) sol ->
  (o_aop o = AAdd -> (forall x : B, badd b0 x = x) /\ forall i, i < length deps -> cleared m i) ->
  forall i a, nth_error deps i = Some a ->
  (forall b, a = APar b -> o_ignoreZero o = true -> bisz b = true -> b = b0 /\ cleared m i) ->
  exec m prog (LY i) = sval sol a.
Proof.
  intros E HS Hadd i a Ha Hz. destruct (source_split f prog E) as (body & Eb & ->).
  rewrite !exec_app. set (pre := match vo with [] => [] | _ => _ end).
  assert (Hlt : i < length deps) by (apply nth_error_Some; congruence).
  assert (Hpx : forall p, exec m pre (LX p) = m (LX p)).
  { intros p. unfold pre. destruct vo; [reflexivity|]. destruct (o_zeroDeps o); reflexivity. }
  assert (Hpy : forall i, i < length deps -> cleared m i -> exec m pre (LY i) = Some b0).
  { intros k Hk [Hc|[Hc1 Hc2]].
    - unfold pre. destruct vo; [exact Hc|]. destruct (o_zeroDeps o); [|exact Hc]. cbn [exec fold_left exec1].
      apply Nat.ltb_lt in Hk. rewrite Hk. reflexivity.
    - unfold pre. destruct vo; [congruence|]. rewrite Hc1. cbn [exec fold_left exec1].
      apply Nat.ltb_lt in Hk. rewrite Hk. reflexivity. }
  eapply (final_exec (fun p => m (LX p)) sol HS); try eassumption.
  - intros Ha'. apply Hadd, Ha'.
  - intros p _. apply Hpx.
  - intros Ha' k Hk. apply Hpy; [exact Hk|]. apply Hadd; assumption.
  - intros b Hb Hi Hs. destruct (Hz b Hb Hi Hs) as [-> Hc]. apply Hpy; assumption.
Qed.

(** ** Everything can be written *)
Variable c : nat -> nat.
Hypothesis Hc : forall i, 3 + isum c (nargs g i) <= c i.

Lemma arg_total f i a : P i -> isInv g i = false ->
  (forall j, In j (nargs g i) -> c_vid cv j = 0 -> exists e, exprOf g indeps deps pl nm f j = Done e) ->
  In a (gargs g i) -> exists e, argExpr g indeps deps pl nm f a = Done e.
Proof.
  intros Pi Hi IH Ha. destruct a as [j|b]; cbn [argExpr]; [|eexists; reflexivity].
  assert (Hj : In j (nargs g i)) by (apply anodes_in; exact Ha).
  destruct (Nat.eqb (p_vid pl j) 0) eqn:Ev.
  - apply Nat.eqb_eq in Ev. apply IH; [exact Hj|]. eapply vid_iff; eassumption.
  - apply Nat.eqb_neq in Ev. assert (Hv : c_vid cv j <> 0) by (intros H0; apply Ev; eapply vid_iff; eassumption).
    destruct (varName_ok g indeps deps HG pl cv uc vid0 n0 PO nm NM j (P_arg _ _ _ _ Pi Hj) Hv) as (l & -> & _). eexists; reflexivity.
Qed.

Lemma P_arity i : P i -> length (gargs g i) = arity (opc g i).
Proof.
  intros Pi. destruct (P_node g indeps deps HG i Pi) as [n En]. pose proof (gi_arity _ _ _ HG i n Pi En) as H.
  unfold gargs, opc. rewrite En. exact H.
Qed.

Lemma inlined_ok i j : P i -> In j (nargs g i) -> c_vid cv j = 0 -> P j /\ isInv g j = false /\ isCom g j = false.
Proof.
  intros Pi Hj Hv. pose proof (P_arg _ _ _ _ Pi Hj) as Pj.
  assert (Hji : isInv g j = false).
  { destruct (isInv g j) eqn:Ej; [|reflexivity]. exfalso. apply (inv_vid g indeps deps HG uc vid0 n0 (po_ids _ _ _ _ _ _ _ _ PO) cv CR j Pj Ej Hv). }
  split; [exact Pj|]. split; [exact Hji|]. destruct (isAlias g j) eqn:Ea.
  - unfold isAlias, isCom in *. destruct (opc g j); congruence.
  - destruct (cr_case _ _ _ _ _ _ CR j Pj Hji Ea) as [Hq|(_ & _ & H & _)]; [|exact H].
    exfalso. apply (cr_q _ _ _ _ _ _ CR) in Hq. tauto.
Qed.

Lemma expr_total f : forall i, P i -> isInv g i = false -> isCom g i = false -> c i <= f ->
  exists e, exprOf g indeps deps pl nm f i = Done e.
Proof.
  induction f as [|f IH]; intros i Pi Hi Hm Hf; [specialize (Hc i); lia|].
  assert (Harg : forall a, In a (gargs g i) -> exists e, argExpr g indeps deps pl nm f a = Done e).
  { intros a. apply arg_total; auto. intros j Hj Hv. destruct (inlined_ok i j Pi Hj Hv) as (Pj & Hji & Hjm).
    apply IH; auto. specialize (Hc i). pose proof (isum_in c _ _ Hj). lia. }
  rewrite exprOf_S. pose proof (P_arity i Pi) as Hl. unfold isInv in Hi. unfold isCom in Hm.
  destruct (opc g i) eqn:Eo; try discriminate;
  destruct (gargs g i) as [|a1 [|a2 [|a3 l]]] eqn:Ea; try discriminate;
  try (destruct (Harg a1 (or_introl eq_refl)) as [e1 E1]);
  try (destruct (Harg a2 (or_intror (or_introl eq_refl))) as [e2 E2]);
  try (rewrite ?E1, ?E2; cbn [obind]; eexists; reflexivity).
  (* the argument of sign is a variable *)
  destruct (P_node g indeps deps HG i Pi) as [n En].
  destruct (gi_sign _ _ _ HG i n Pi En) as (j & Ej & Hal).
  { unfold opc in Eo. rewrite En in Eo. exact Eo. }
  unfold gargs in Ea. rewrite En, Ej in Ea. injection Ea as <-.
  assert (Hj : In j (nargs g i)) by (unfold nargs, gargs; rewrite En, Ej; left; reflexivity).
  assert (Pj : P j) by (eapply P_arg; eassumption).
  assert (Hv : c_vid cv j <> 0).
  { destruct (isInv g j) eqn:Eji; [apply (inv_vid g indeps deps HG uc vid0 n0 (po_ids _ _ _ _ _ _ _ _ PO) cv CR j Pj Eji)|].
    assert (Eja : isAlias g j = false).
    { destruct (isAlias g j) eqn:Eja; [|reflexivity]. exfalso. apply Hal.
      pose proof (opc_has_op g indeps deps HG j Pj) as Ho. unfold isAlias in Eja. destruct (opc g j); try discriminate. exact Ho. }
    destruct (cr_case _ _ _ _ _ _ CR j Pj Eji Eja) as [Hq|(_ & _ & _ & _ & Hs)].
    - apply (cr_q _ _ _ _ _ _ CR) in Hq. tauto.
    - specialize (Hs i Pi Hj). unfold isSign in Hs. rewrite Eo in Hs. discriminate. }
  assert (Nat.eqb (p_vid pl j) 0 = false) as ->.
  { apply Nat.eqb_neq. intros H0. apply Hv. eapply vid_iff; eassumption. }
  destruct (varName_ok g indeps deps HG pl cv uc vid0 n0 PO nm NM j Pj Hv) as (l & -> & _). eexists; reflexivity.
Qed.

Lemma stmt_total f q : In q vo -> c q <= f -> exists s, stmtOf f q = Done s.
Proof.
  intros Hq Hf. destruct (cr_q _ _ _ _ _ _ CR q Hq) as (Pq & Hqi & Hqa & Hqv). unfold Codegen_model.stmtOf.
  destruct (varName_ok g indeps deps HG pl cv uc vid0 n0 PO nm NM q Pq Hqv) as (l & -> & _).
  destruct (isCom g q) eqn:Em.
  - pose proof (P_arity q Pq) as Hl. unfold isCom in Em. destruct (opc g q) eqn:Eo; try discriminate.
    assert (Harg : forall a, In a (gargs g q) -> exists e, argExpr g indeps deps pl nm f a = Done e).
    { intros a. apply arg_total; auto. intros j Hj Hv. destruct (inlined_ok q j Pq Hj Hv) as (Pj & Hji & Hjm).
      apply expr_total; auto. specialize (Hc q). pose proof (isum_in c _ _ Hj). lia. }
    destruct (gargs g q) as [|x [|y [|t [|fl [|z r]]]]] eqn:Eg; try discriminate.
    destruct (Harg x) as [ex Ex]; [cbn; auto|]. destruct (Harg y) as [ey Ey]; [cbn; auto|].
    destruct (Harg t) as [et Et]; [cbn; auto|]. destruct (Harg fl) as [ef Ef]; [cbn; auto|].
    rewrite Ex, Ey, Et, Ef. cbn [obind]. destruct (sameArg t fl); eexists; reflexivity.
  - destruct (expr_total f q Pq Hqi Em Hf) as [e ->]. cbn [obind].
    unfold isCom in Em. destruct (opc g q); try discriminate; eexists; reflexivity.
Qed.

Lemma omap_total {A C} (h : A -> outcome C) l : (forall x, In x l -> exists y, h x = Done y) -> exists r, omap h l = Done r.
Proof.
  induction l as [|x l IH]; intros H; [eexists; reflexivity|]. cbn [omap].
  destruct (H x (or_introl eq_refl)) as [y ->]. destruct IH as [r ->]; [intros; apply H; right; assumption|].
  cbn [obind]. eexists; reflexivity.
Qed.

Lemma dup_total : forall l i, (forall a, In a l -> In a deps) -> exists r, duplicates g o deps pl nm l i = Done r.
Proof.
  induction l as [|a l IH]; intros i Hl; [eexists; reflexivity|].
  assert (Hl' : forall a, In a l -> In a deps) by (intros; apply Hl; right; assumption).
  destruct (IH (S i) Hl') as [r Er]. destruct a as [j|b]; cbn [duplicates]; rewrite Er; [|eexists; reflexivity]. cbn [obind].
  destruct (_ && _); [|eexists; reflexivity].
  destruct (nm j) eqn:En; [eexists; reflexivity|]. exfalso. apply (no_dep _ _ _ _ _ _ _ NM j); [apply Hl; left; reflexivity|exact En].
Qed.

Lemma cst_total : forall l i, (forall a, In a l -> In a deps) -> exists r, constants g o nm l i = Done r.
Proof.
  induction l as [|a l IH]; intros i Hl; [eexists; reflexivity|].
  assert (Hl' : forall a, In a l -> In a deps) by (intros; apply Hl; right; assumption).
  destruct (IH (S i) Hl') as [r Er]. destruct a as [j|b]; cbn [constants]; rewrite Er; cbn [obind].
  - destruct (isInv g j) eqn:Ej; [|eexists; reflexivity]. destruct (nm j) eqn:En; [eexists; reflexivity|].
    exfalso. apply (no_dep _ _ _ _ _ _ _ NM j); [apply Hl; left; reflexivity|exact En].
  - destruct (_ || _); eexists; reflexivity.
Qed.

Lemma source_total f : (forall i, P i -> c i <= f) -> exists prog, source g o indeps deps pl nm f = Done prog.
Proof.
  intros Hf. unfold source. rewrite (po_vo _ _ _ _ _ _ _ _ PO).
  destruct (omap_total (stmtOf f) vo) as [body ->].
  { intros q Hq. apply stmt_total; [exact Hq|]. apply Hf, (cr_q _ _ _ _ _ _ CR), Hq. }
  destruct (dup_total deps 0) as [d ->]; [auto|]. destruct (cst_total deps 0) as [k ->]; [auto|].
  cbn [obind]. eexists; reflexivity.
Qed.
End Exec.

(** * Operations are written once; flow of values through the temporaries *)
From Coq Require Import List Bool Arith Lia.
From Verif Require Import Graph_model Graph_spec Codegen_model Codegen_spec Codegen_dfs Codegen_use Codegen_create
  Codegen_order Codegen_reuse Codegen_plan Codegen_emit Codegen_exec Codegen_sol Codegen_flow.
Import ListNotations.

Section Ops.
Context {B : Type} {O : BaseOps B}.
Variable g : heap B.
Variable indeps : list nat.
Variable deps : list (arg B).
Hypothesis HG : gen_input g indeps deps.
Variable pl : plan.
Variable cv : cvst.
Variable uc : nat -> nat.
Variable vid0 : nat -> nat.
Variable n0 : nat.
Hypothesis PO : plan_ok g indeps deps pl cv uc vid0 n0.
Variable nm : nat -> option loc.
Hypothesis NM : names_ok g indeps deps pl cv n0 nm.
Variable o : options.

Notation P := (reach g deps).
Notation vo := (c_q cv).
Notation vid := (c_vid cv).
Notation CR := (po_created _ _ _ _ _ _ _ _ PO).
Notation rd := (rd g (c_vid cv)).
Notation inl := (inl g (c_vid cv)).
Notation atloc := (atloc g indeps deps pl cv n0).
Notation stmtOf := (stmtOf g o indeps deps pl nm).
Notation exprOf := (exprOf g indeps deps pl nm).
Notation argExpr := (argExpr g indeps deps pl nm).
Notation varName_ok := (varName_ok g indeps deps HG pl cv uc vid0 n0 PO nm NM).
Notation vid_iff := (vid_iff g indeps deps HG pl cv uc vid0 n0 PO).

(** ** A node is written at one place *)
Variable r : nat -> nat.
Hypothesis Hr : forall i j, edge g i j -> r j < r i.
Lemma r_arg i j : In j (nargs g i) -> r j < r i.
Proof. intros H. apply Hr. apply nargs_edge, H. Qed.
Lemma inl_r i n : inl i n -> r n <= r i.
Proof. induction 1 as [|n j H IH Hj Hv]; [lia|]. apply r_arg in Hj. lia. Qed.

Lemma inl_vid i n : vid i = 0 -> inl i n -> vid n = 0.
Proof. intros Hi H. destruct H; assumption. Qed.

Lemma has_args_ninv p n : P p -> In n (nargs g p) -> isInv g p = false.
Proof.
  intros Pp Hn. destruct (isInv g p) eqn:E; [|reflexivity]. rewrite (P_inv_args g indeps deps HG p Pp E) in Hn. destruct Hn.
Qed.

Lemma op_small n : P n -> vid n = 0 -> isInv g n = false -> isAlias g n = false -> uc n <= 1.
Proof.
  intros Pn Hv Hi Ha. destruct (cr_case _ _ _ _ _ _ CR n Pn Hi Ha) as [H|(_ & H & _)]; [|exact H].
  apply (cr_q _ _ _ _ _ _ CR) in H. tauto.
Qed.

Lemma small_parent p n : P p -> vid p = 0 -> In n (nargs g p) -> uc n <= 1 -> uc p <= 1.
Proof.
  intros Pp Hv Hn Hu. destruct (isAlias g p) eqn:Ea.
  - pose proof (po_ucalias _ _ _ _ _ _ _ _ PO p n Pp Ea Hn). lia.
  - apply op_small; auto. eapply has_args_ninv; eassumption.
Qed.

Lemma small_up j n : P j -> vid j = 0 -> inl j n -> uc n <= 1 -> uc j <= 1.
Proof.
  intros Pj Hv H. induction H as [|n k H IH Hk Hvk]; [auto|]. intros Hu. apply IH.
  apply (small_parent n k); [eapply inl_P; eassumption|exact (inl_vid _ _ Hv H)|exact Hk|exact Hu].
Qed.

Lemma comparable j j' n : P j -> P j' -> vid j = 0 -> vid j' = 0 -> inl j n -> inl j' n -> uc n <= 1 -> inl j j' \/ inl j' j.
Proof.
  intros Pj Pj' Vj Vj' H. induction H as [|p n Hp IH Hn Hv]; intros H' Hu; [right; exact H'|].
  inversion H' as [|p' n' Hp' Hn' Hv']; subst.
  - left. eapply inl_arg; eassumption.
  - assert (Pp : P p) by exact (inl_P _ _ _ _ _ Pj Hp). assert (Pp' : P p') by exact (inl_P _ _ _ _ _ Pj' Hp').
    pose proof (po_uc1 _ _ _ _ _ _ _ _ PO n p p' Hu Pp Pp' Hn Hn') as Epp. subst p'.
    apply IH; [exact Hp'|]. eapply small_parent; [exact Pp|exact (inl_vid _ _ Vj Hp)|exact Hn|exact Hu].
Qed.

Lemma sibling i j j' n : P i -> In j (nargs g i) -> In j' (nargs g i) -> vid j = 0 -> vid j' = 0 ->
  inl j n -> inl j' n -> uc n <= 1 -> j = j' /\ uc j <= 1.
Proof.
  intros Pi Hj Hj' Vj Vj' H H' Hu.
  assert (Pj : P j) by exact (P_arg _ _ _ _ Pi Hj). assert (Pj' : P j') by exact (P_arg _ _ _ _ Pi Hj').
  assert (Uj : uc j <= 1) by (eapply small_up; [exact Pj|exact Vj|exact H|exact Hu]).
  assert (Uj' : uc j' <= 1) by (eapply small_up; [exact Pj'|exact Vj'|exact H'|exact Hu]).
  split; [|exact Uj]. destruct (comparable j j' n Pj Pj' Vj Vj' H H' Hu) as [C|C].
  - inversion C as [|p k Hp Hk Hv]; subst; [reflexivity|exfalso].
    assert (Pp : P p) by (eapply inl_P; [|exact Hp]; assumption).
    pose proof (po_uc1 _ _ _ _ _ _ _ _ PO j' p i Uj' Pp Pi Hk Hj') as ->. apply inl_r in Hp. apply r_arg in Hj. lia.
  - inversion C as [|p k Hp Hk Hv]; subst; [reflexivity|exfalso].
    assert (Pp : P p) by (eapply inl_P; [|exact Hp]; assumption).
    pose proof (po_uc1 _ _ _ _ _ _ _ _ PO j p i Uj Pp Pi Hk Hj) as ->. apply inl_r in Hp. apply r_arg in Hj'. lia.
Qed.

Lemma owner_unique q q' n : In q vo -> In q' vo -> inl q n -> inl q' n -> (vid n = 0 -> uc n <= 1) -> q = q'.
Proof.
  intros Hq Hq' H. destruct (cr_q _ _ _ _ _ _ CR q Hq) as (Pq & _ & _ & Vq). destruct (cr_q _ _ _ _ _ _ CR q' Hq') as (Pq' & _ & _ & Vq').
  induction H as [|p n Hp IH Hn Hv]; intros H' Hu.
  - inversion H' as [|p' n' Hp' Hn' Hv']; subst; [reflexivity|]. contradiction.
  - inversion H' as [|p' n' Hp' Hn' Hv']; subst; [contradiction|]. specialize (Hu Hv).
    assert (Pp : P p) by exact (inl_P _ _ _ _ _ Pq Hp). assert (Pp' : P p') by exact (inl_P _ _ _ _ _ Pq' Hp').
    pose proof (po_uc1 _ _ _ _ _ _ _ _ PO n p p' Hu Pp Pp' Hn Hn') as Epp. subst p'.
    apply IH; [exact Hp'|]. intros Vp. eapply small_parent; eassumption.
Qed.

(** ** The nodes of an expression *)
Definition isop (n : nat) : Prop := match opc g n with GInv _ | GAlias | GAssign => False | _ => True end.

Lemma isop_small n : P n -> isop n -> vid n = 0 -> uc n <= 1.
Proof.
  intros Pn Ho Hv. apply op_small; auto; unfold isop, isInv, isAlias in *; destruct (opc g n); try reflexivity; destruct Ho.
Qed.

Definition written (i : nat) (e : cx B) (L : list nat) : Prop :=
  xopl e = map (opc g) L /\ NoDup L /\ forall n, In n L -> inl i n /\ isop n.

Lemma cnt_app l l' j : cnt (l ++ l') j = cnt l j + cnt l' j.
Proof. apply count_occ_app. Qed.

Lemma args_written f i : P i -> (forall j e, P j -> vid j = 0 -> exprOf f j = Done e -> exists L, written j e L) ->
  forall al es, (forall j, cnt (anodes al) j <= cnt (nargs g i) j) -> Forall2 (fun a e => argExpr f a = Done e) al es ->
  exists L, flat_map xopl es = map (opc g) L /\ NoDup L /\
     forall n, In n L -> isop n /\ exists j, In j (anodes al) /\ vid j = 0 /\ inl j n.
Proof.
  intros Pi IH al es Hc F. induction F as [|a e al es Ha F IHF].
  - exists []. split; [reflexivity|]. split; [constructor|intros n []].
  - assert (Hin : forall j, In j (anodes (a :: al)) -> In j (nargs g i)).
    { intros j Hj. apply cnt_in in Hj. specialize (Hc j). apply cnt_in. lia. }
    destruct IHF as (L2 & E2 & N2 & I2).
    { intros j. specialize (Hc j). destruct a as [k|b]; cbn [anodes] in Hc; [|exact Hc]. cbn [count_occ] in Hc. destruct (Nat.eq_dec k j); lia. }
    assert (Old : forall n, In n L2 -> isop n /\ exists j, In j (anodes (a :: al)) /\ vid j = 0 /\ inl j n).
    { intros n Hn. destruct (I2 n Hn) as (H1 & j & H2 & H3). split; [exact H1|]. exists j. split; [|exact H3].
      destruct a; cbn [anodes]; [right|]; exact H2. }
    destruct a as [j|b]; unfold Codegen_model.argExpr in Ha.
    + assert (Hj : In j (nargs g i)) by (apply Hin; left; reflexivity).
      assert (Pj : P j) by exact (P_arg _ _ _ _ Pi Hj).
      destruct (Nat.eqb (p_vid pl j) 0) eqn:Ev.
      * apply Nat.eqb_eq, vid_iff in Ev. destruct (IH j e Pj Ev Ha) as (L1 & E1 & N1 & I1).
        exists (L1 ++ L2). split; [cbn [flat_map]; rewrite map_app, E1, E2; reflexivity|]. split.
        -- apply nodup_app_intro; auto. intros n Hn1 Hn2. destruct (I1 n Hn1) as [Hi1 Ho1]. destruct (I2 n Hn2) as (_ & j' & Hj' & Vj' & Hi2).
           assert (Hj'' : In j' (nargs g i)) by (apply Hin; right; exact Hj').
           assert (Pn : P n) by (eapply inl_P; eassumption).
           assert (Un : uc n <= 1) by (apply isop_small; auto; exact (inl_vid _ _ Ev Hi1)).
           destruct (sibling i j j' n Pi Hj Hj'' Ev Vj' Hi1 Hi2 Un) as [<- Uj].
           pose proof (po_once _ _ _ _ _ _ _ _ PO j i Uj Pi Hj) as C. specialize (Hc j). rewrite C in Hc. cbn [anodes count_occ] in Hc.
           destruct (Nat.eq_dec j j); [|contradiction]. apply cnt_in in Hj'. lia.
        -- intros n Hn. apply in_app_or in Hn. destruct Hn as [Hn|Hn]; [|apply Old, Hn].
           destruct (I1 n Hn) as [H1 H2]. split; [exact H2|]. exists j. split; [left; reflexivity|auto].
      * apply Nat.eqb_neq in Ev. rewrite vid_iff in Ev. destruct (varName_ok j Pj Ev) as (l & El & Hl). rewrite El in Ha.
        injection Ha as <-. exists L2. split; [exact E2|]. split; [exact N2|exact Old].
    + injection Ha as <-. exists L2. split; [exact E2|]. split; [exact N2|exact Old].
Qed.

Lemma args_under f i : P i -> (forall j e, P j -> vid j = 0 -> exprOf f j = Done e -> exists L, written j e L) ->
  forall al es, (forall j, cnt (anodes al) j <= cnt (nargs g i) j) -> Forall2 (fun a e => argExpr f a = Done e) al es ->
  exists L, flat_map xopl es = map (opc g) L /\ NoDup L /\ ~ In i L /\ forall n, In n L -> inl i n /\ isop n.
Proof.
  intros Pi IH al es Hc F. destruct (args_written f i Pi IH al es Hc F) as (L & E & N & I).
  assert (Hin : forall j, In j (anodes al) -> In j (nargs g i)).
  { intros j Hj. apply cnt_in in Hj. specialize (Hc j). apply cnt_in. lia. }
  exists L. split; [exact E|]. split; [exact N|]. split.
  - intros Hi. destruct (I i Hi) as (_ & j & Hj & _ & H). apply inl_r in H. apply Hin, r_arg in Hj. lia.
  - intros n Hn. destruct (I n Hn) as (H1 & j & Hj & Vj & H). split; [|exact H1].
    eapply inl_trans; [|exact H]. eapply inl_arg; [constructor|apply Hin, Hj|exact Vj].
Qed.

Lemma exprOf_written f : forall i e, P i -> exprOf f i = Done e -> exists L, written i e L.
Proof.
  induction f as [|f IHf]; intros i e Pi E; [discriminate|]. rewrite exprOf_S in E.
  assert (IH : forall j e, P j -> vid j = 0 -> exprOf f j = Done e -> exists L, written j e L) by (intros; apply IHf; assumption).
  clear IHf. pose proof (args_under f i Pi IH) as A. unfold nargs in A.
  assert (Hop : forall es op, opc g i = op -> isop i -> (exists L, flat_map xopl es = map (opc g) L /\ NoDup L /\ ~ In i L /\
      forall n, In n L -> inl i n /\ isop n) -> exists L, written i (XOp op es) L).
  { intros es op Eo Hi (L & E1 & N1 & H1 & I1). exists (i :: L). split; [cbn [xopl map]; rewrite E1, Eo; reflexivity|].
    split; [constructor; assumption|]. intros n [<-|Hn]; [split; [constructor|exact Hi]|apply I1, Hn]. }
  assert (Hone : forall a, (forall j, cnt (anodes [a]) j <= cnt (anodes (gargs g i)) j) -> argExpr f a = Done e -> exists L, written i e L).
  { intros a Hc Ea. destruct (A [a] [e] Hc) as (L & E1 & N1 & H1 & I1); [constructor; [exact Ea|constructor]|].
    exists L. cbn [flat_map] in E1. rewrite app_nil_r in E1. split; [exact E1|]. split; [exact N1|exact I1]. }
  unfold isop in Hop at 1.
  destruct (opc g i) eqn:Eo; try discriminate;
  destruct (gargs g i) as [|a1 [|a2 [|a3 l']]] eqn:Ea; try discriminate;
  try (destruct a1; discriminate);
  try (apply obind_done in E; destruct E as (x & Ex & E));
  try (apply obind_done in E; destruct E as (y & Ey & E));
  try (injection E as <-; apply Hop; [reflexivity|exact I|]; 
       first [apply (A [a1; a2] [x; y]) | apply (A [a1] [x])];
       [intros j; lia | repeat (constructor; [first [exact Ex|exact Ey]|]); constructor]).
  - destruct a1 as [j|b]; [|discriminate]. destruct (Nat.eqb (p_vid pl j) 0) eqn:Ev; [discriminate|].
    assert (Hj : In j (nargs g i)) by (unfold nargs; rewrite Ea; left; reflexivity).
    apply Nat.eqb_neq in Ev. rewrite vid_iff in Ev. destruct (varName_ok j (P_arg _ _ _ _ Pi Hj) Ev) as (l' & El & Hl').
    rewrite El in E. injection E as <-. apply Hop; [reflexivity|exact I|]. exists []. split; [reflexivity|].
    split; [constructor|]. split; [intros []|intros n []].
  - apply (Hone a1); [intros j; lia|exact E].
  - apply (Hone a1); [intros j; lia|exact E].
Qed.

Lemma stmt_written f q s : In q vo -> stmtOf f q = Done s ->
  exists L, sopl s = map (opc g) L /\ NoDup L /\ forall n, In n L -> inl q n /\ isop n.
Proof.
  intros Hq E. destruct (cr_q _ _ _ _ _ _ CR q Hq) as (Pq & Hqi & Hqa & Hqv).
  unfold Codegen_model.stmtOf in E. destruct (varName_ok q Pq Hqv) as (l & El & Hl). rewrite El in E.
  assert (Hgen : forall a, obind (exprOf f q) (fun e => Done (SAssign l a e)) = Done s ->
     exists L, sopl s = map (opc g) L /\ NoDup L /\ forall n, In n L -> inl q n /\ isop n).
  { intros a Ea. apply obind_done in Ea. destruct Ea as (e & Ee & [= <-]). exact (exprOf_written f q e Pq Ee). }
  assert (IH : forall j e, P j -> vid j = 0 -> exprOf f j = Done e -> exists L, written j e L) by (intros; eapply exprOf_written; eassumption).
  pose proof (args_under f q Pq IH) as A. unfold nargs in A.
  destruct (opc g q) eqn:Eo; try (eapply Hgen, E).
  destruct (gargs g q) as [|x [|y [|t [|fl [|z rest]]]]] eqn:Eg; try (eapply Hgen, E).
  destruct (sameArg t fl).
  - apply obind_done in E. destruct E as (e & Ee & [= <-]). destruct (A [t] [e]) as (L & E1 & N1 & _ & I1).
    { intros j. destruct x, y, t, fl; cbn [anodes count_occ]; repeat match goal with |- context[Nat.eq_dec ?a ?b] => destruct (Nat.eq_dec a b) end; lia. }
    { constructor; [exact Ee|constructor]. }
    exists L. cbn [flat_map] in E1. rewrite app_nil_r in E1. split; [exact E1|]. auto.
  - apply obind_done in E. destruct E as (ex & Ex & E). apply obind_done in E. destruct E as (ey & Ey & E).
    apply obind_done in E. destruct E as (et & Et & E). apply obind_done in E. destruct E as (ef & Ef & [= <-]).
    destruct (A [x; y; t; fl] [ex; ey; et; ef]) as (L & E1 & N1 & H1 & I1); [intros j; lia|repeat (constructor; [assumption|]); constructor|].
    exists (q :: L). cbn [flat_map] in E1. rewrite app_nil_r in E1. split; [cbn [sopl map]; rewrite E1, Eo; reflexivity|].
    split; [constructor; assumption|]. intros n [<-|Hn]; [|apply I1, Hn]. split; [constructor|]. unfold isop. rewrite Eo. exact I.
Qed.

Lemma body_written f : forall l body, NoDup l -> (forall q, In q l -> In q vo) -> omap (stmtOf f) l = Done body ->
  exists L, flat_map sopl body = map (opc g) L /\ NoDup L /\ forall n, In n L -> isop n /\ exists q, In q l /\ inl q n.
Proof.
  induction l as [|q l IH]; intros body Hn Hin E; cbn [omap] in E.
  - injection E as <-. exists []. split; [reflexivity|]. split; [constructor|intros n []].
  - apply obind_done in E. destruct E as (s & Es & E). apply obind_done in E. destruct E as (b & Eb & [= <-]).
    apply NoDup_cons_iff in Hn. destruct Hn as [Hq Hn].
    destruct (IH b Hn) as (L2 & E2 & N2 & I2); [intros; apply Hin; right; assumption|exact Eb|].
    destruct (stmt_written f q s (Hin q (or_introl eq_refl)) Es) as (L1 & E1 & N1 & I1).
    exists (L1 ++ L2). split; [cbn [flat_map]; rewrite map_app, E1, E2; reflexivity|]. split.
    + apply nodup_app_intro; auto. intros n H1 H2. destruct (I1 n H1) as [G1 G2]. destruct (I2 n H2) as (_ & q' & G3 & G4).
      apply Hq. rewrite (owner_unique q q' n); auto.
      * apply Hin. left; reflexivity.
      * apply Hin. right; exact G3.
      * intros Hv. apply isop_small; auto. eapply inl_P; [|exact G1]. apply (cr_q _ _ _ _ _ _ CR), Hin. left; reflexivity.
    + intros n Hnn. apply in_app_or in Hnn. destruct Hnn as [Hnn|Hnn].
      * destruct (I1 n Hnn). split; [assumption|]. exists q. split; [left; reflexivity|assumption].
      * destruct (I2 n Hnn) as (G1 & q' & G2 & G3). split; [assumption|]. exists q'. split; [right; assumption|assumption].
Qed.

Lemma source_written f prog : source g o indeps deps pl nm f = Done prog ->
  exists L, flat_map sopl prog = map (opc g) L /\ NoDup L /\ forall n, In n L -> P n.
Proof.
  intros E. destruct (source_split g indeps deps pl cv uc vid0 n0 PO nm o f prog E) as (body & Eb & ->).
  destruct (body_written f vo body) as (L & E1 & N1 & I1); [apply (vo_nodup g indeps deps pl cv uc vid0 n0 PO)|auto|exact Eb|].
  exists L. split; [|split; [exact N1|]].
  - rewrite !flat_map_app, E1.
    assert (flat_map sopl (match vo with [] => [] | _ => if o_zeroDeps o then [@SZero B (length deps)] else [] end) = []) as ->.
    { destruct vo; [reflexivity|]. destruct (o_zeroDeps o); reflexivity. }
    assert (H : forall T : list (nat * cx B), (forall k e, In (k, e) T -> xopl e = []) -> flat_map sopl (map (tst (o_aop o)) T) = []).
    { induction T as [|[k e] T IH]; intros HT; [reflexivity|]. cbn [map flat_map tst sopl snd]. rewrite (HT k e) by (left; reflexivity).
      cbn [app]. apply IH. intros k' e' H. apply (HT k'). right; exact H. }
    rewrite H; [rewrite app_nil_r; reflexivity|].
    intros k e Hk. apply (tail_shape g indeps deps HG pl cv uc vid0 n0 PO nm NM o k e Hk).
  - intros n Hn. destruct (I1 n Hn) as (_ & q & Hq & Hi). eapply inl_P; [|exact Hi]. apply (cr_q _ _ _ _ _ _ CR), Hq.
Qed.
End Ops.

(** ** Flow of values *)
Section Canon.
Context {B : Type} {O : BaseOps B}.
Variable g : heap B.
Variable indeps : list nat.
Variable deps : list (arg B).
Hypothesis HG : gen_input g indeps deps.
Variable cv : cvst.
Variable uc : nat -> nat.
Variable n0 : nat.
Variable k0 : nat.     (* number of the first statement of the queue *)

Fixpoint findDep (l : list (arg B)) (k j : nat) : option nat :=
  match l with
  | [] => None
  | ANode i :: l' => if Nat.eqb i j then Some k else findDep l' (S k) j
  | APar _ :: l' => findDep l' (S k) j
  end.
Lemma findDep_first : forall l k p j, isFirst l j p -> findDep l k j = Some (k + p).
Proof.
  induction l as [|a l IH]; intros k p j H; [destruct H as [H _]; destruct p; discriminate|].
  destruct a as [i|b]; cbn [findDep].
  - destruct (Nat.eqb_spec i j) as [->|Hne].
    + apply isFirst_cons_same in H. subst p. f_equal. lia.
    + assert (Ha : ANode i <> @ANode B j) by congruence. destruct (isFirst_cons_other _ _ _ _ Ha H) as (p' & -> & H'). rewrite (IH (S k) p' j H'). f_equal. lia.
  - assert (Ha : APar b <> ANode j) by discriminate. destruct (isFirst_cons_other _ _ _ _ Ha H) as (p' & -> & H'). rewrite (IH (S k) p' j H'). f_equal. lia.
Qed.
Lemma findDep_none : forall l k j, ~ In (ANode j) l -> findDep l k j = None.
Proof.
  induction l as [|[i|b] l IH]; intros k j H; [reflexivity| |]; cbn [findDep].
  - destruct (Nat.eqb_spec i j) as [->|Hne]; [exfalso; apply H; left; reflexivity|]. apply IH. intros Hi. apply H. right; exact Hi.
  - apply IH. intros Hi. apply H. right; exact Hi.
Qed.

(** names which only depend on the queue *)
Definition cnm (i : nat) : option loc :=
  if isInv g i then Some (LX (idx indeps i))
  else match findDep deps 0 i with Some k => Some (LY k) | None => Some (LV (k0 + idx (c_q cv) i)) end.
Definition cpl : plan := mkPlan (c_vid cv) n0 0 (c_q cv) uc.

Section OnePlan.
Variable pl : plan.
Variable vid0 : nat -> nat.
Hypothesis PO : plan_ok g indeps deps pl cv uc vid0 n0.
Variable nm : nat -> option loc.
Hypothesis NM : names_ok g indeps deps pl cv n0 nm.
Variable o : options.
Notation P := (reach g deps).
Notation vo := (c_q cv).
Notation vid := (c_vid cv).
Notation CR := (po_created _ _ _ _ _ _ _ _ PO).
Notation rd := (rd g (c_vid cv)).
Notation atloc := (atloc g indeps deps pl cv n0).
Notation stmtOf := (stmtOf g o indeps deps pl nm).
Notation exprOf := (exprOf g indeps deps pl nm).
Notation argExpr := (argExpr g indeps deps pl nm).
Notation varName_ok := (varName_ok g indeps deps HG pl cv uc vid0 n0 PO nm NM).
Notation vid_iff := (vid_iff g indeps deps HG pl cv uc vid0 n0 PO).

Definition curok (cur : nat -> nat) (i : nat) : Prop := forall t v, rd i t -> atloc t (LV v) -> cur v = k0 + idx vo t.

Lemma cnm_loc (cur : nat -> nat) t l : atloc t l -> (forall v, l = LV v -> cur v = k0 + idx vo t) -> cnm t = Some (on_temp cur l).
Proof.
  intros Hat Hc. unfold cnm. destruct Hat as [p Hi Hp|k Hi Hk|Hq Hd].
  - rewrite Hi. cbn [on_temp]. rewrite (idx_nth _ _ _ (gi_indeps _ _ _ HG) Hp). reflexivity.
  - rewrite Hi, (findDep_first _ _ _ _ Hk). reflexivity.
  - destruct (cr_q _ _ _ _ _ _ CR t Hq) as (_ & Hi & _). rewrite Hi, (findDep_none _ _ _ Hd). cbn [on_temp]. rewrite (Hc _ eq_refl). reflexivity.
Qed.

Lemma flow_arg f (cur : nat -> nat) :
  (forall i e, P i -> exprOf f i = Done e -> curok cur i -> Codegen_model.exprOf g indeps deps cpl cnm f i = Done (xmap (on_temp cur) e)) ->
  forall i a e, P i -> In a (gargs g i) -> argExpr f a = Done e -> curok cur i ->
  Codegen_model.argExpr g indeps deps cpl cnm f a = Done (xmap (on_temp cur) e).
Proof.
  intros IH i a e Pi Ha E Hc. destruct a as [j|b]; unfold Codegen_model.argExpr in *; [|injection E as <-; reflexivity].
  assert (Hj : In j (nargs g i)) by (apply anodes_in; exact Ha).
  assert (Pj : P j) by exact (P_arg _ _ _ _ Pi Hj).
  change (p_vid cpl j) with (vid j). destruct (Nat.eqb (p_vid pl j) 0) eqn:Ev.
  - apply Nat.eqb_eq, vid_iff in Ev. rewrite Ev. apply IH; auto. intros t v Ht. apply Hc. eapply rd_arg; eassumption.
  - apply Nat.eqb_neq in Ev. rewrite vid_iff in Ev. destruct (varName_ok j Pj Ev) as (l & El & Hl). rewrite El in E. injection E as <-.
    apply Nat.eqb_neq in Ev. rewrite Ev. apply Nat.eqb_neq in Ev. unfold varName. rewrite (cnm_loc cur j l Hl); [reflexivity|].
    intros v ->. apply Hc; [apply rd_direct; assumption|exact Hl].
Qed.

Lemma flow_expr f (cur : nat -> nat) : forall i e, P i -> exprOf f i = Done e -> curok cur i ->
  Codegen_model.exprOf g indeps deps cpl cnm f i = Done (xmap (on_temp cur) e).
Proof.
  induction f as [|f IHf]; intros i e Pi E Hc; [discriminate|]. rewrite exprOf_S in E |- *.
  pose proof (flow_arg f cur IHf i) as IH. clear IHf.
  destruct (opc g i) eqn:Eo; try discriminate;
  destruct (gargs g i) as [|a1 [|a2 [|a3 l']]] eqn:Ea; try discriminate;
  try (destruct a1; discriminate);
  try (apply obind_done in E; destruct E as (x & Ex & E); apply IH in Ex; [rewrite Ex; cbn [obind]|exact Pi|left; reflexivity|exact Hc]);
  try (apply obind_done in E; destruct E as (y & Ey & E); apply IH in Ey; [rewrite Ey; cbn [obind]|exact Pi|right; left; reflexivity|exact Hc]);
  try (injection E as <-; reflexivity).
  - destruct a1 as [j|b]; [|discriminate]. destruct (Nat.eqb (p_vid pl j) 0) eqn:Ev; [discriminate|].
    assert (Hj : In j (nargs g i)) by (unfold nargs; rewrite Ea; left; reflexivity).
    apply Nat.eqb_neq in Ev. rewrite vid_iff in Ev. destruct (varName_ok j (P_arg _ _ _ _ Pi Hj) Ev) as (l & El & Hl).
    rewrite El in E. injection E as <-. change (p_vid cpl j) with (vid j).
    apply Nat.eqb_neq in Ev. rewrite Ev. apply Nat.eqb_neq in Ev. unfold varName. rewrite (cnm_loc cur j l Hl); [reflexivity|].
    intros v ->. apply Hc; [apply rd_direct; assumption|exact Hl].
  - apply IH; auto. left; reflexivity.
  - apply IH; auto. left; reflexivity.
Qed.

Lemma cpl_dep q : isDependent indeps cpl q = isDependent indeps pl q.
Proof.
  unfold isDependent. cbn [cpl p_vid p_minTmp]. rewrite (po_min _ _ _ _ _ _ _ _ PO).
  destruct (Nat.lt_ge_cases (vid q) n0) as [H|H].
  - rewrite (po_nt _ _ _ _ _ _ _ _ PO q H). reflexivity.
  - pose proof (po_t _ _ _ _ _ _ _ _ PO q H). assert (Nat.ltb (vid q) n0 = false) as -> by (apply Nat.ltb_ge; lia).
    assert (Nat.ltb (p_vid pl q) n0 = false) as -> by (apply Nat.ltb_ge; lia). rewrite !andb_false_r. reflexivity.
Qed.

Lemma flow_stmt f (cur : nat -> nat) q s : In q vo -> stmtOf f q = Done s -> curok cur q ->
  Codegen_model.stmtOf g o indeps deps cpl cnm f q = Done (smap (on_temp cur) (on_temp (fun _ => k0 + idx vo q)) s).
Proof.
  intros Hq E Hc. destruct (cr_q _ _ _ _ _ _ CR q Hq) as (Pq & Hqi & Hqa & Hqv).
  unfold Codegen_model.stmtOf in *. destruct (varName_ok q Pq Hqv) as (l & El & Hl). rewrite El in E.
  unfold varName at 1. rewrite (cnm_loc (fun _ => k0 + idx vo q) q l Hl) by reflexivity. rewrite cpl_dep.
  set (a := if isDependent indeps pl q then o_aop o else ASet) in *.
  assert (Hgen : obind (exprOf f q) (fun e => Done (SAssign l a e)) = Done s ->
     obind (Codegen_model.exprOf g indeps deps cpl cnm f q) (fun e => Done (SAssign (on_temp (fun _ => k0 + idx vo q) l) a e)) =
     Done (smap (on_temp cur) (on_temp (fun _ => k0 + idx vo q)) s)).
  { intros Ea. apply obind_done in Ea. destruct Ea as (e & Ee & [= <-]). rewrite (flow_expr f cur q e Pq Ee Hc). reflexivity. }
  pose proof (flow_arg f cur (flow_expr f cur) q) as IH.
  destruct (opc g q) eqn:Eo; try (exact (Hgen E)).
  destruct (gargs g q) as [|x [|y [|t [|fl [|z rest]]]]] eqn:Eg; try (exact (Hgen E)).
  destruct (sameArg t fl).
  - apply obind_done in E. destruct E as (e & Ee & [= <-]). rewrite (IH t e) by (auto; cbn; auto). reflexivity.
  - apply obind_done in E. destruct E as (ex & Ex & E). apply obind_done in E. destruct E as (ey & Ey & E).
    apply obind_done in E. destruct E as (et & Et & E). apply obind_done in E. destruct E as (ef & Ef & [= <-]).
    rewrite (IH x ex) by (auto; cbn; auto). cbn [obind]. rewrite (IH y ey) by (auto; cbn; auto). cbn [obind].
    rewrite (IH t et) by (auto; cbn; auto). cbn [obind]. rewrite (IH fl ef) by (auto; cbn; auto). reflexivity.
Qed.

Definition CI (l1 : list nat) (cur : nat -> nat) : Prop :=
  forall t v, In t l1 -> atloc t (LV v) -> (exists s q, length l1 <= s /\ nth_error vo s = Some q /\ rd q t) -> cur v = k0 + idx vo t.

Lemma flow_body f rest : forall l2 l1 cur body, vo = l1 ++ l2 -> CI l1 cur -> omap (stmtOf f) l2 = Done body ->
  exists body0 cur', omap (Codegen_model.stmtOf g o indeps deps cpl cnm f) l2 = Done body0 /\
    flow_from cur (k0 + length l1) (body ++ rest) = body0 ++ flow_from cur' (k0 + length vo) rest.
Proof.
  induction l2 as [|q l2 IH]; intros l1 cur body E H Hb; cbn [omap] in Hb.
  - injection Hb as <-. exists [], cur. split; [reflexivity|]. rewrite app_nil_r in E. rewrite E. reflexivity.
  - apply obind_done in Hb. destruct Hb as (s & Es & Hb). apply obind_done in Hb. destruct Hb as (b & Eb & [= <-]).
    assert (Hq : In q vo) by (rewrite E; apply in_or_app; right; left; reflexivity).
    assert (Hnq : nth_error vo (length l1) = Some q) by (rewrite E, nth_error_app2, Nat.sub_diag by lia; reflexivity).
    destruct (cr_q _ _ _ _ _ _ CR q Hq) as (Pq & Hqi & Hqa & Hqv).
    pose proof (vo_nodup g indeps deps pl cv uc vid0 n0 PO) as Hn.
    assert (Hql : ~ In q l1).
    { rewrite E in Hn. apply NoDup_remove_2 in Hn. intros Hi. apply Hn, in_or_app; left; exact Hi. }
    assert (Hidx : idx vo q = length l1) by (apply idx_nth; assumption).
    assert (Hc : curok cur q).
    { intros t v Ht Hat. destruct (rd_before g deps uc vid0 n0 cv CR l1 q l2 t E Ht) as [Hi|Hi].
      - inversion Hat; subst. match goal with Hv : In t vo |- _ => apply (cr_q _ _ _ _ _ _ CR) in Hv; destruct Hv as (_ & Hv & _) end. congruence.
      - apply H; [exact Hi|exact Hat|]. exists (length l1), q. auto. }
    pose proof (flow_stmt f cur q s Hq Es Hc) as Fs. rewrite Hidx in Fs.
    destruct (stmt_shape g indeps deps HG pl cv uc vid0 n0 PO nm NM o f q s Hq Es) as (lq & Tq & Hlq & _).
    set (cur1 := match target s with Some (LV v) => (fun u => if Nat.eqb u v then k0 + length l1 else cur u) | _ => cur end).
    destruct (IH (l1 ++ [q]) cur1 b) as (body0 & cur' & E0 & F0); [rewrite <- app_assoc; exact E| |exact Eb|].
    + intros t v Ht Hat (s' & q' & Hs & Hq' & Hrd). rewrite app_length in Hs. cbn [length] in Hs. unfold cur1. rewrite Tq.
      apply in_app_or in Ht. destruct Ht as [Ht|[<-|[]]].
      * assert (Hne : lq <> LV v).
        { intros ->. assert (Htq : t <> q) by (intros ->; contradiction).
          inversion Hlq as [| |Hv Hd EL]. inversion Hat as [| |Hv' Hd' EL'].
          apply In_nth_error in Ht. destruct Ht as [k Hk]. assert (Hkl : k < length l1) by (apply nth_error_Some; congruence).
          assert (Hkv : nth_error vo k = Some t) by (rewrite E, nth_error_app1; assumption).
          destruct (vid_temp g indeps deps HG pl cv uc vid0 n0 PO q Hv Hd) as [G1 G2].
          destruct (vid_temp g indeps deps HG pl cv uc vid0 n0 PO t Hv' Hd') as [G3 G4].
          assert (s' <= length l1); [|lia].
          eapply (po_clash _ _ _ _ _ _ _ _ PO k (length l1) t q s' q'); auto; try assumption; lia. }
        assert (Hcur : cur v = k0 + idx vo t).
        { apply H; [exact Ht|exact Hat|]. exists s', q'. split; [lia|auto]. }
        destruct lq as [p|p|p]; try exact Hcur. destruct (Nat.eqb_spec v p) as [->|]; [contradiction|exact Hcur].
      * assert (lq = LV v) as -> by (eapply (atloc_fun g indeps deps HG pl cv uc vid0 n0 PO); eassumption).
        rewrite Nat.eqb_refl, Hidx. reflexivity.
    + exists (smap (on_temp cur) (on_temp (fun _ => k0 + length l1)) s :: body0), cur'. split.
      * cbn [omap]. rewrite Fs. cbn [obind]. rewrite E0. reflexivity.
      * cbn [app flow_from]. f_equal. fold cur1. rewrite app_length in F0. cbn [length] in F0.
        replace (S (k0 + length l1)) with (k0 + (length l1 + 1)) by lia. exact F0.
Qed.

Lemma flow_tail : forall (T : list (nat * cx B)) cur k, (forall i e, In (i, e) T -> forall l, In l (xreads e) -> forall v, l <> LV v) ->
  flow_from cur k (map (tst (o_aop o)) T) = map (tst (o_aop o)) T.
Proof.
  assert (X : forall (cur : nat -> nat) (e : cx B), (forall l, In l (xreads e) -> forall v, l <> LV v) -> xmap (on_temp cur) e = e).
  { intros cur. fix IH 1. intros [l|b|op a] H; cbn [xmap]; [|reflexivity|].
    - destruct l as [i|i|i]; try reflexivity. exfalso. apply (H (LV i)) with (v := i); [left; reflexivity|reflexivity].
    - f_equal. induction a as [|x a IHa]; [reflexivity|]. cbn [map]. f_equal.
      + apply IH. intros l Hl. apply H. cbn [xreads flat_map]. apply in_or_app; left; exact Hl.
      + apply IHa. intros l Hl. apply H. cbn [xreads flat_map]. apply in_or_app; right; exact Hl. }
  induction T as [|[i e] T IH]; intros cur k H; [reflexivity|]. cbn [map flow_from tst fst snd target smap on_temp].
  rewrite (X cur e) by (apply (H i); left; reflexivity). f_equal. apply IH. intros i' e' Hin. apply (H i'). right; exact Hin.
Qed.

Lemma flow_source f prog : k0 = 1 + length (prefix deps cv o) -> source g o indeps deps pl nm f = Done prog ->
  exists body0, omap (Codegen_model.stmtOf g o indeps deps cpl cnm f) vo = Done body0 /\
    flow prog = prefix deps cv o ++ body0 ++ map (tst (o_aop o)) (tail g deps pl nm o).
Proof.
  intros Hk E. destruct (source_split g indeps deps pl cv uc vid0 n0 PO nm o f prog E) as (body & Eb & ->). fold (prefix deps cv o).
  destruct (flow_body f (map (tst (o_aop o)) (tail g deps pl nm o)) vo [] (fun _ => 0) body eq_refl) as (body0 & cur' & E0 & F0).
  { intros t v []. }
  { exact Eb. }
  exists body0. split; [exact E0|].
  rewrite flow_tail in F0.
  - cbn [length] in F0. rewrite Nat.add_0_r in F0. unfold flow.
    assert (F1 : flow_from (fun _ => 0) (1 + length (prefix deps cv o)) (body ++ map (tst (o_aop o)) (tail g deps pl nm o)) =
                 body0 ++ map (tst (o_aop o)) (tail g deps pl nm o)) by (rewrite <- Hk; exact F0).
    clear F0 Hk E0. unfold prefix in *. destruct (c_q cv) as [|q0 l0]; [exact F1|].
    destruct (o_zeroDeps o); cbn [length app Nat.add] in *; [|exact F1].
    cbn [app flow_from smap target]. f_equal. exact F1.
  - intros i e Hi l Hl v. destruct (proj2 (tail_shape g indeps deps HG pl cv uc vid0 n0 PO nm NM o i e Hi) l Hl)
      as [(p & _ & ->)|(j & k' & -> & _)]; discriminate.
Qed.
End OnePlan.

Lemma sel_ext (h h' : nat -> arg B -> option (cx B)) : forall l i, (forall d a, nth_error l d = Some a -> h (i + d) a = h' (i + d) a) ->
  sel h l i = sel h' l i.
Proof.
  induction l as [|a l IH]; intros i H; [reflexivity|]. cbn [sel]. pose proof (H 0 a eq_refl) as H0. rewrite Nat.add_0_r in H0. rewrite H0.
  rewrite (IH (S i)); [reflexivity|]. intros d a' Hd. specialize (H (S d) a' Hd). rewrite Nat.add_succ_r in H. exact H.
Qed.

(** the part after the queue only depends on the dependents *)
Lemma tail_same pl vid0 nm o pl' nm' o' : plan_ok g indeps deps pl cv uc vid0 n0 -> names_ok g indeps deps pl cv n0 nm ->
  plan_ok g indeps deps pl' cv uc vid0 n0 -> names_ok g indeps deps pl' cv n0 nm' -> o_ignoreZero o = o_ignoreZero o' ->
  tail g deps pl nm o = tail g deps pl' nm' o'.
Proof.
  intros PO NM PO' NM' Ho.
  assert (H : forall d a, nth_error deps d = Some a -> hdup g deps pl nm d a = hdup g deps pl' nm' d a /\ hcst g nm o d a = hcst g nm' o' d a).
  { intros d a Ha. pose proof (dcase_ok g indeps deps HG pl cv uc vid0 n0 PO nm NM o _ _ Ha) as D.
    pose proof (dcase_ok g indeps deps HG pl' cv uc vid0 n0 PO' nm' NM' o' _ _ Ha) as D'.
    inversion D as [j Hi Hf H1 H2|j k' Hi Hf Hne H1 H2|j p Hi Hp H1 H2|b H1 H2|b Hz1 Hz2 H1 H2]; subst a;
    inversion D' as [j' Hi' Hf' H1' H2'|j' k'' Hi' Hf' Hne' H1' H2'|j' p' Hi' Hp' H1' H2'|b' H1' H2'|b' Hz1' Hz2' H1' H2']; subst;
    rewrite ?H1, ?H2, ?H1', ?H2'; try (split; reflexivity); try congruence.
    - exfalso. apply Hne'. eapply isFirst_fun; eassumption.
    - exfalso. apply Hne. eapply isFirst_fun; eassumption.
    - split; [|reflexivity]. f_equal. f_equal. f_equal. eapply isFirst_fun; eassumption.
    - split; [reflexivity|]. f_equal. f_equal. f_equal. eapply nodup_nth; [apply (gi_indeps _ _ _ HG)|eassumption|eassumption].
    - exfalso. unfold hcst in H2. rewrite Ho, Hz1', Hz2' in H2. discriminate.
    - exfalso. unfold hcst in H2'. rewrite <- Ho, Hz1, Hz2 in H2'. discriminate. }
  unfold tail. f_equal; apply sel_ext; intros d a Ha; apply H, Ha.
Qed.
End Canon.

(** * What the planning part of generateCode guarantees (code_handler_impl.hpp 264-475) *)
From Coq Require Import List Bool Arith Lia.
From Verif Require Import Graph_model Graph_spec Codegen_model Codegen_spec Codegen_dfs Codegen_use Codegen_create
  Codegen_order Codegen_reuse.
Import ListNotations.

Section Plan.
Context {B : Type} {O : BaseOps B}.
Variable g : heap B.
Variable indeps : list nat.
Variable deps : list (arg B).
Hypothesis HG : gen_input g indeps deps.
Notation P := (reach g deps).

Record plan_ok (pl : plan) (cv : cvst) (uc vid0 : nat -> nat) (n0 : nat) : Prop := {
  po_ids : depIds (anodes deps) (indepIds indeps (fun _ => 0, 1)) = (vid0, n0);
  po_created : created g deps uc vid0 n0 cv;
  po_pos : forall i, P i -> 0 < uc i;
  po_uc1 : forall j n n', uc j <= 1 -> P n -> P n' -> In j (nargs g n) -> In j (nargs g n') -> n = n';
  po_once : forall j n, uc j <= 1 -> P n -> In j (nargs g n) -> cnt (nargs g n) j = 1;
  po_ucalias : forall n j, P n -> isAlias g n = true -> In j (nargs g n) -> uc n <= uc j;
  po_vo : p_vo pl = c_q cv;
  po_min : p_minTmp pl = n0;
  po_uc : p_uc pl = uc;
  po_nt : forall i, c_vid cv i < n0 -> p_vid pl i = c_vid cv i;
  po_t : forall i, n0 <= c_vid cv i -> n0 <= p_vid pl i;
  po_next : forall i, In i (c_q cv) -> p_vid pl i < p_next pl;
  po_next0 : n0 <= p_next pl;
  po_size : p_next pl <= c_next cv;
  (** a temporary is not overwritten before the last statement which reads it *)
  po_clash : forall k k' v v' s q, k < k' -> nth_error (c_q cv) k = Some v -> nth_error (c_q cv) k' = Some v' ->
     n0 <= c_vid cv v -> n0 <= c_vid cv v' -> p_vid pl v = p_vid pl v' ->
     nth_error (c_q cv) s = Some q -> rd g (c_vid cv) q v -> s <= k'
}.

Lemma plan_correct_full fuel o pl : makePlan g fuel o indeps deps = Done pl ->
  exists cv uc vid0 n0, plan_ok pl cv uc vid0 n0 /\
    ofold (markCodeBlockUsed g fuel) (anodes deps) (fun _ => 0) = Done uc /\
    ofold (createForDep g fuel (o_maxOps o) uc) (anodes deps) (mkCv vid0 n0 (fun _ => 0) (fun _ => false) []) = Done cv /\
    (o_reuse o = false -> p_vid pl = c_vid cv /\ p_next pl = c_next cv).
Proof.
  unfold makePlan. destruct (depIds (anodes deps) (indepIds indeps (fun _ => 0, 1))) as [vid0 n0] eqn:Hids.
  intros E. apply obind_done in E. destruct E as (uc & Huc & E). apply obind_done in E. destruct E as (cv & Hcv & E).
  apply obind_done in E. destruct E as (ord & Hord & E).
  pose proof (created_ok g indeps deps HG uc fuel Huc _ vid0 n0 Hids fuel cv Hcv) as CR.
  exists cv, uc, vid0, n0.
  pose proof (uc_alias g indeps deps HG uc fuel Huc) as Hual.
  pose proof (uc_pos g indeps deps HG uc fuel Huc) as Hpos.
  pose proof (uc_one_parent g indeps deps HG uc fuel Huc) as Huc1.
  pose proof (uc_one_once g indeps deps HG uc fuel Huc) as Honce.
  destruct (o_reuse o); (split; [|split; [exact Huc|split; [exact Hcv|]]]).
  - apply obind_done in E. destruct E as ([[vid next] [vo ord']] & E & [= <-]).
    unfold reduceTemporaryVariables in E. apply obind_done in E. destruct E as (r & Er & E).
    pose proof (reorder_noop g indeps deps HG uc vid0 n0 cv CR fuel ord Hord _ _ _ _ Er) as ->. cbn [fst snd] in E.
    apply obind_done in E. destruct E as (lu & Hlu & E).
    destruct (l_ok lu) eqn:Hok; [|discriminate]. cbn [negb] in E.
    destruct (existsb _ _) in E; [discriminate|].
    destruct (redefine n0 (l_last lu) (c_q cv) (c_q cv) 0 (c_vid cv, [], n0)) as [[vid2 freed2] next2] eqn:Erd.
    injection E as -> -> <- <-.
    assert (Hlast : forall k v, nth_error (c_q cv) k = Some v -> n0 <= c_vid cv v -> S (S k) <= l_last lu v).
    { intros k v Ek Hv.
      pose proof (last_gt g indeps deps HG uc vid0 n0 Hids cv CR fuel ord Hord fuel lu Hlu Hok v) as Hgt.
      rewrite (ord_nth g indeps deps HG uc vid0 n0 cv CR fuel ord Hord _ _ Ek) in Hgt.
      apply Hgt; [eapply nth_error_In; exact Ek|exact Hv]. }
    pose proof (redefine_ok n0 (l_last lu) (c_q cv) (c_vid cv) (cr_nodup _ _ _ _ _ _ CR) Hlast _ _ _ Erd) as RIV.
    constructor; auto; cbn [p_vid p_next].
    + intros i Hi. apply (ri_nt _ _ _ _ _ _ _ _ RIV). left. unfold isTemporary. apply Nat.leb_gt. exact Hi.
    + apply (ri_t _ _ _ _ _ _ _ _ RIV).
    + intros i Hi. pose proof (ri_next _ _ _ _ _ _ _ _ RIV) as Hn.
      destruct (isTemporary n0 (c_vid cv) i) eqn:Et.
      * apply In_nth_error in Hi. destruct Hi as [k Hk].
        apply (ri_bound _ _ _ _ _ _ _ _ RIV k i Hk); [|exact Et]. apply nth_error_Some. congruence.
      * rewrite (ri_nt _ _ _ _ _ _ _ _ RIV) by (left; exact Et). unfold isTemporary in Et. apply Nat.leb_gt in Et. lia.
    + apply (ri_next _ _ _ _ _ _ _ _ RIV).
    + pose proof (redefine_size _ _ _ _ _ _ _ _ _ _ _ Erd (le_n _) (cr_nodup _ _ _ _ _ _ CR)) as Hsz.
      set (T := filter (fun v => isTemporary n0 (c_vid cv) v) (c_q cv)) in *.
      assert (HT : NoDup (map (c_vid cv) T)).
      { assert (Hq : forall x, In x T -> c_vid cv x <> 0)
          by (intros x Hx; apply filter_In in Hx; destruct Hx as [Hx _]; apply (cr_q _ _ _ _ _ _ CR) in Hx; tauto).
        assert (Hd : NoDup T) by (apply NoDup_filter, (cr_nodup _ _ _ _ _ _ CR)).
        pose proof (cr_inj _ _ _ _ _ _ CR) as Hinj. revert Hq Hd Hinj. generalize T (c_vid cv). clear.
        intros T f Hq Hd Hinj. induction Hd as [|x l Hx Hd IH]; [constructor|]. cbn [map]. constructor.
        - intros Hi. apply in_map_iff in Hi. destruct Hi as (y & Hy & Hyl). assert (y = x); [|subst; contradiction].
          apply Hinj; [exact Hy|]. apply Hq. right; exact Hyl.
        - apply IH. intros y Hy. apply Hq. right; exact Hy. }
      pose proof (NoDup_incl_length (l' := seq n0 (c_next cv - n0)) HT) as HL. rewrite map_length, seq_length in HL.
      pose proof (cr_next _ _ _ _ _ _ CR).
      enough (length T <= c_next cv - n0) by lia. apply HL. intros x Hx. apply in_map_iff in Hx. destruct Hx as (v & <- & Hv).
      apply filter_In in Hv. destruct Hv as [_ Hv]. unfold isTemporary in Hv. apply Nat.leb_le in Hv. apply in_seq.
      pose proof (cr_lt _ _ _ _ _ _ CR v). lia.
    + intros k k' v v' s q Hk Ev Ev' Tv Tv' Hc Es Hr.
      assert (Hk' : k' < length (c_q cv)) by (apply nth_error_Some; congruence).
      pose proof (ri_clash _ _ _ _ _ _ _ _ RIV k k' v v' Hk Hk' Ev Ev') as Hcl.
      unfold isTemporary in Hcl. specialize (Hcl (proj2 (Nat.leb_le _ _) Tv) (proj2 (Nat.leb_le _ _) Tv') Hc).
      pose proof (last_read g indeps deps HG uc fuel Huc vid0 n0 Hids cv CR fuel ord Hord fuel lu Hlu Hok q v
                   (nth_error_In _ _ Es) Hr) as Hl.
      rewrite (ord_nth g indeps deps HG uc vid0 n0 cv CR fuel ord Hord _ _ Es) in Hl. lia.
  - discriminate.
  - injection E as <-. constructor; auto; cbn [p_vid p_next].
    + intros i _. apply (cr_lt _ _ _ _ _ _ CR).
    + apply (cr_next _ _ _ _ _ _ CR).
    + intros k k' v v' s q Hk Ev Ev' Tv Tv' Hc Es Hr. exfalso.
      assert (v = v').
      { apply (cr_inj _ _ _ _ _ _ CR); [exact Hc|]. apply (cr_q _ _ _ _ _ _ CR). eapply nth_error_In; exact Ev. }
      subst v'. pose proof (nodup_nth _ _ _ _ (cr_nodup _ _ _ _ _ _ CR) Ev Ev'). lia.
  - intros _. injection E as <-. split; reflexivity.
Qed.

Lemma plan_correct fuel o pl : makePlan g fuel o indeps deps = Done pl ->
  exists cv uc vid0 n0, plan_ok pl cv uc vid0 n0.
Proof. intros E. destruct (plan_correct_full fuel o pl E) as (cv & uc & vid0 & n0 & H & _). exists cv, uc, vid0, n0. exact H. Qed.

Lemma plan_total : exists F, forall fuel o, F <= fuel -> exists pl, makePlan g fuel o indeps deps = Done pl.
Proof.
  destruct (cost_exists g (gi_acyclic _ _ _ HG)) as [c Hc]. change (forall i, 3 + isum c (nargs g i) <= c i) in Hc.
  exists (S (isum c (seq 0 (length g)))). intros fuel o Hf.
  assert (HF : forall i, P i -> c i < fuel).
  { intros i Hi. apply (gi_dom _ _ _ HG) in Hi.
    assert (In i (seq 0 (length g))) by (apply in_seq; lia). pose proof (isum_in c _ _ H). lia. }
  assert (HD : forall i, In i (anodes deps) -> P i) by (intros i Hi; apply reach_dep, anodes_in, Hi).
  unfold makePlan. destruct (depIds (anodes deps) (indepIds indeps (fun _ => 0, 1))) as [vid0 n0] eqn:Hids.
  destruct (ofold_total (markCodeBlockUsed g fuel) (anodes deps)) with (a := fun _ : nat => 0) as [uc Huc].
  { intros i a Hi. eapply (mark_total g indeps deps HG c Hc); eauto. }
  rewrite Huc. cbn [obind].
  destruct (ofold_total (createForDep g fuel (o_maxOps o) uc) (anodes deps)) with (a := mkCv vid0 n0 (fun _ => 0) (fun _ => false) [])
    as [cv Hcv].
  { intros i a Hi. apply (create_total g c Hc); auto. }
  rewrite Hcv. cbn [obind].
  pose proof (created_ok g indeps deps HG uc fuel Huc _ vid0 n0 Hids fuel cv Hcv) as CR.
  destruct (setOrders_total g c Hc fuel (c_q cv) 0 (fun _ => 0)) as [ord Hord].
  { intros q Hq. apply Nat.lt_le_incl, HF, (cr_q _ _ _ _ _ _ CR), Hq. }
  rewrite Hord. cbn [obind].
  destruct (o_reuse o); [|eexists; reflexivity].
  unfold reduceTemporaryVariables.
  assert (Hre : exists r, reorderOperations g fuel n0 (c_vid cv) (anodes deps) (c_q cv, ord) = Done r).
  { unfold reorderOperations.
    enough (H : forall l vis, (forall i, In i l -> P i) ->
       exists r, ofold (reorderOperation g fuel n0 (c_vid cv)) l (vis, (c_q cv, ord) : ros) = Done r)
      by (destruct (H (anodes deps) (fun _ => false) HD) as [r Hr]; exists (snd r); rewrite Hr; reflexivity).
    induction l as [|i l IH]; intros vis Hl; [eexists; reflexivity|]. cbn [ofold]. unfold reorderOperation at 1. cbn [fst snd].
    assert (Hm : (if vis i then Done (ord i) else findLastTemporaryLocation g fuel ord i) = Done (ord i)).
    { destruct (vis i); [reflexivity|]. assert (Pi : P i) by (apply Hl; left; reflexivity).
      destruct (findLast_total g c Hc fuel ord i (HF i Pi)) as [m Hm]. rewrite Hm. f_equal.
      eapply (findLast_ok g indeps deps HG uc vid0 n0 cv CR fuel ord Hord); eassumption. }
    rewrite Hm. cbn [obind]. rewrite Nat.eqb_refl. cbn [orb obind]. apply IH. intros; apply Hl; right; assumption. }
  destruct Hre as [r Er]. rewrite Er.
  pose proof (reorder_noop g indeps deps HG uc vid0 n0 cv CR fuel ord Hord _ _ _ _ Er) as ->. cbn [obind fst snd].
  destruct (last_total g indeps deps HG c Hc fuel ord HF) as (lu & Hlu & Hok). rewrite Hlu. cbn [obind].
  rewrite Hok. cbn [negb].
  destruct (existsb _ _) eqn:Ex.
  - exfalso. apply existsb_exists in Ex. destruct Ex as (v & Hv & H). apply andb_true_iff in H. destruct H as [H1 H2].
    apply Nat.eqb_eq in H2. unfold isTemporary in H1. apply Nat.leb_le in H1.
    pose proof (last_gt g indeps deps HG uc vid0 n0 Hids cv CR fuel ord Hord fuel lu Hlu Hok v Hv H1). lia.
  - destruct (redefine _ _ _ _ _ _) as [[vid2 freed2] next2]. cbn [obind]. eexists; reflexivity.
Qed.
End Plan.

(** * checkVariableCreation: the evaluation queue is a topological order of the variables *)
From Coq Require Import List Bool Arith Lia.
From Verif Require Import Graph_model Graph_spec Codegen_model Codegen_spec Codegen_dfs Codegen_use.
Import ListNotations.

(** ** Initial identifiers *)
Section Ids.
Lemma indepIds_spec : forall l vid n vid' n', NoDup l -> indepIds l (vid, n) = (vid', n') ->
  n' = n + length l /\ (forall i, ~ In i l -> vid' i = vid i) /\
  (forall p i, nth_error l p = Some i -> vid' i = n + p).
Proof.
  induction l as [|a l IH]; intros vid n vid' n' Hn E; cbn [indepIds] in E.
  - injection E as <- <-. cbn. split; [lia|]. split; [auto|]. intros [|p] i; discriminate.
  - apply NoDup_cons_iff in Hn. destruct Hn as [Ha Hn]. specialize (IH _ _ _ _ Hn E).
    destruct IH as (H1 & H2 & H3). cbn [length]. split; [lia|]. split.
    + intros i Hi. rewrite H2 by (intros H; apply Hi; right; exact H). apply upd_neq. intros ->. apply Hi; left; reflexivity.
    + intros [|p] i; cbn [nth_error].
      * intros [= <-]. rewrite H2 by exact Ha. rewrite upd_eq. lia.
      * intros Hp. rewrite (H3 _ _ Hp). lia.
Qed.

(** identifiers given to dependents: fresh, distinct *)
Lemma depIds_spec : forall l vid n vid' n', (forall i, vid i < n) -> 0 < n ->
  depIds l (vid, n) = (vid', n') ->
  n <= n' /\ (forall i, vid' i < n') /\ (forall i, vid i <> 0 -> vid' i = vid i) /\
  (forall i, ~ In i l -> vid' i = vid i) /\
  (forall i, In i l -> vid' i <> 0) /\
  (forall i, vid i = 0 -> vid' i <> 0 -> n <= vid' i) /\
  ((forall i j, vid i = vid j -> vid i <> 0 -> i = j) -> (forall i j, vid' i = vid' j -> vid' i <> 0 -> i = j)).
Proof.
  induction l as [|a l IH]; intros vid n vid' n' Hb Hn0 E; cbn [depIds] in E.
  - injection E as <- <-. split; [lia|]. split; [exact Hb|]. split; [auto|]. split; [auto|].
    split; [intros i []|]. split; [intros i H0 H1; congruence|auto].
  - destruct (Nat.eqb (vid a) 0) eqn:Ea.
    + apply Nat.eqb_eq in Ea.
      destruct (IH (upd vid a n) (S n) vid' n') as (H1 & H2 & H3 & H4 & H5 & H6 & H7); [|lia|exact E|].
      { intros i. destruct (Nat.eq_dec i a) as [->|Hi]; [rewrite upd_eq; lia|]. rewrite upd_neq by auto. specialize (Hb i); lia. }
      assert (Hva : vid' a = n). { rewrite (H3 a); rewrite upd_eq; lia. }
      split; [lia|]. split; [exact H2|]. split.
      { intros i Hi. assert (i <> a) by congruence. rewrite H3; rewrite upd_neq; auto. }
      split. { intros i Hi. rewrite H4 by (intros H; apply Hi; right; exact H). apply upd_neq. intros ->; apply Hi; left; reflexivity. }
      split. { intros i [<-|Hi]; [lia|auto]. }
      split. { intros i Hi Hi'. destruct (Nat.eq_dec i a) as [->|Hne]; [lia|].
               specialize (H6 i). rewrite upd_neq in H6 by auto. specialize (H6 Hi Hi'). lia. }
      intros Hinj. apply H7. intros i j Hij Hi0.
      destruct (Nat.eq_dec i a) as [->|Hia], (Nat.eq_dec j a) as [->|Hja]; auto.
      * rewrite upd_eq, upd_neq in Hij by auto. specialize (Hb j). lia.
      * rewrite upd_eq, upd_neq in Hij by auto. specialize (Hb i). lia.
      * rewrite !upd_neq in Hij by auto. rewrite upd_neq in Hi0 by auto. auto.
    + apply Nat.eqb_neq in Ea.
      destruct (IH vid n vid' n' Hb Hn0 E) as (H1 & H2 & H3 & H4 & H5 & H6 & H7).
      split; [lia|]. split; [exact H2|]. split; [exact H3|]. split.
      { intros i Hi. apply H4. intros H; apply Hi; right; exact H. }
      split. { intros i [<-|Hi]; [rewrite H3; auto|auto]. }
      split; [exact H6|exact H7].
Qed.
End Ids.

Section Create.
Context {B : Type} {O : BaseOps B}.
Variable g : heap B.
Variable indeps : list nat.
Variable deps : list (arg B).
Hypothesis HG : gen_input g indeps deps.
Variable uc : nat -> nat.
Variable fuelu : nat.
Hypothesis Huc : ofold (markCodeBlockUsed g fuelu) (anodes deps) (fun _ => 0) = Done uc.
Variable maxOps : nat.
Variable vid0 : nat -> nat.
Variable n0 : nat.
Hypothesis Hids : depIds (anodes deps) (indepIds indeps (fun _ => 0, 1)) = (vid0, n0).

Notation P := (reach g deps).

Record idfacts : Prop := {
  idf_min : length indeps < n0;
  idf_lt : forall i, vid0 i < n0;
  idf_indep : forall p i, nth_error indeps p = Some i -> vid0 i = S p;
  idf_dep : forall i, In (ANode i) deps -> vid0 i <> 0;
  idf_other : forall i, ~ In i indeps -> ~ In (ANode i) deps -> vid0 i = 0;
  idf_nonindep : forall i, ~ In i indeps -> vid0 i <> 0 -> length indeps < vid0 i;
  idf_inj : forall i j, vid0 i = vid0 j -> vid0 i <> 0 -> i = j
}.

Lemma ids0 : idfacts.
Proof.
  destruct (indepIds indeps (fun _ => 0, 1)) as [v1 n1] eqn:E1.
  destruct (indepIds_spec _ _ _ _ _ (gi_indeps _ _ _ HG) E1) as (H1 & H2 & H3).
  assert (Hlt : forall i, v1 i < n1).
  { intros i. destruct (in_dec Nat.eq_dec i indeps) as [Hi|Hi].
    - apply In_nth_error in Hi. destruct Hi as [p Hp]. rewrite (H3 _ _ Hp).
      assert (p < length indeps) by (apply nth_error_Some; congruence). lia.
    - rewrite (H2 _ Hi). lia. }
  destruct (depIds_spec _ _ _ _ _ Hlt ltac:(lia) Hids) as (D1 & D2 & D3 & D4 & D5 & D6 & D7).
  constructor.
  - lia.
  - exact D2.
  - intros p i Hp. specialize (H3 _ _ Hp). rewrite D3; lia.
  - intros i Hi. apply D5. apply anodes_in, Hi.
  - intros i Hi Hd. rewrite D4 by (intros H; apply Hd, anodes_in, H). apply H2, Hi.
  - intros i Hi H0. specialize (D6 i). rewrite (H2 _ Hi) in D6. specialize (D6 eq_refl H0). lia.
  - apply D7. intros i j Hij Hi0.
    destruct (in_dec Nat.eq_dec i indeps) as [Hi|Hi]; [|rewrite H2 in Hi0; [congruence|exact Hi]].
    destruct (in_dec Nat.eq_dec j indeps) as [Hj|Hj]; [|rewrite Hij, H2 in Hi0; [congruence|exact Hj]].
    apply In_nth_error in Hi, Hj. destruct Hi as [p Hp], Hj as [q Hq].
    rewrite (H3 _ _ Hp), (H3 _ _ Hq) in Hij. assert (p = q) as -> by lia. congruence.
Qed.

Lemma has_op_opc i o : has_op g i o -> opc g i = o.
Proof. intros (n & En & Eo). unfold opc. rewrite En. exact Eo. Qed.
Lemma opc_has_op i : P i -> has_op g i (opc g i).
Proof. intros Hp. destruct (P_node g indeps deps HG i Hp) as [n En]. exists n. unfold opc. rewrite En. auto. Qed.

Lemma inv_indep i : P i -> isInv g i = true -> In i indeps.
Proof.
  intros Hp Hi. pose proof (opc_has_op i Hp) as Ho. unfold isInv in Hi. destruct (opc g i) eqn:E; try discriminate.
  eapply (gi_inv_indeps _ _ _ HG); eassumption.
Qed.
Lemma indep_inv i : In i indeps -> isInv g i = true.
Proof. intros Hi. destruct (gi_indeps_inv _ _ _ HG i Hi) as [k Hk]. apply has_op_opc in Hk. unfold isInv. rewrite Hk. reflexivity. Qed.
Lemma indep_iff i : P i -> isInv g i = true <-> In i indeps.
Proof. intros Hp; split; auto using inv_indep, indep_inv. Qed.
Lemma inv_vid0 i : P i -> isInv g i = true -> vid0 i <> 0.
Proof. intros Hp Hi. apply inv_indep in Hi; auto. apply In_nth_error in Hi. destruct Hi as [p Hi]. rewrite (idf_indep ids0 _ _ Hi). lia. Qed.
Lemma alias_not_inv i : isAlias g i = true -> isInv g i = false.
Proof. unfold isAlias, isInv. destruct (opc g i); congruence. Qed.
Lemma alias_not_dep i : P i -> isAlias g i = true -> ~ In (ANode i) deps.
Proof.
  intros Hp Ha Hd. apply (gi_alias_dep _ _ _ HG i Hd). pose proof (opc_has_op i Hp) as Ho.
  unfold isAlias in Ha. destruct (opc g i); try discriminate. exact Ho.
Qed.
Lemma alias_vid0 i : P i -> isAlias g i = true -> vid0 i = 0.
Proof.
  intros Hp Ha. apply (idf_other ids0).
  - intros Hi. apply indep_inv in Hi. apply alias_not_inv in Ha. congruence.
  - apply alias_not_dep; assumption.
Qed.

(** everything needed to evaluate [k] is in [l], an independent, or written in place *)
Inductive ready (vid : nat -> nat) (vis : nat -> bool) (l : list nat) : nat -> Prop :=
 | R_inv k : isInv g k = true -> vid k <> 0 -> ready vid vis l k
 | R_q k : In k l -> vid k <> 0 -> vis k = true -> isInv g k = false -> isAlias g k = false -> ready vid vis l k
 | R_inl k : isInv g k = false -> isAlias g k = false -> vid k = 0 -> vis k = true ->
     (forall j, In j (nargs g k) -> ready vid vis l j) -> ready vid vis l k
 | R_al k : isAlias g k = true -> vid k = 0 -> (forall j, In j (nargs g k) -> ready vid vis l j) -> ready vid vis l k.

Lemma ready_mono vid vis l vid' vis' l' :
  (forall k, In k l -> In k l') -> (forall k, vis k = true -> vis' k = true) ->
  (forall k, vis k = true -> vid' k = vid k) -> (forall k, isInv g k = true -> vid' k = vid k) ->
  (forall k, isAlias g k = true -> vid' k = vid k) ->
  forall k, ready vid vis l k -> ready vid' vis' l' k.
Proof.
  intros H1 H2 H3 H4 H5 k H. induction H as [k Hi Hv|k Hl Hv Hs Hi Ha|k Hi Ha Hv Hs _ IH|k Ha Hv _ IH].
  - apply R_inv; auto. rewrite H4; auto.
  - apply R_q; auto. rewrite H3; auto.
  - apply R_inl; auto. rewrite H3; auto.
  - apply R_al; auto. rewrite H5; auto.
Qed.

Definition active (e : el) : bool := match el_step e with Exit => false | _ => true end.

(** [R]: nodes which must be ready at the end of the navigation *)
Record CI (R : list nat) (stack : list el) (st : cvst) : Prop := {
  ci_goal : forall k, In k R -> ready (c_vid st) (c_vis st) (c_q st) k \/ In k (map el_node (filter active stack));
  ci_stack : Forall (fun e => P (el_node e) /\ exists n, el_par e = Some n /\ P n /\ In (el_node e) (nargs g n)) stack;
  ci_open : forall s1 p i s2, stack = s1 ++ mkEl p i ChildrenVisited :: s2 ->
     forall k, In k (nargs g i) -> ready (c_vid st) (c_vis st) (c_q st) k \/ In k (map el_node (filter active s1));
  ci_vis : forall j, c_vis st j = true -> P j /\ isAlias g j = false;
  ci_visargs : forall j, c_vis st j = true -> forall k, In k (nargs g j) -> ready (c_vid st) (c_vis st) (c_q st) k;
  ci_viscase : forall j, c_vis st j = true -> isInv g j = true \/ In j (c_q st) \/
     (c_vid st j = 0 /\ uc j <= 1 /\ isCom g j = false /\ isAssign g j = false /\
      forall n, P n -> In j (nargs g n) -> isSign g n = false);
  ci_q : forall j, In j (c_q st) -> c_vis st j = true /\ isInv g j = false /\ c_vid st j <> 0;
  ci_nodup : NoDup (c_q st);
  ci_order : forall l1 i l2, c_q st = l1 ++ i :: l2 -> forall k, In k (nargs g i) -> ready (c_vid st) (c_vis st) l1 k;
  ci_vid0 : forall j, vid0 j <> 0 -> c_vid st j = vid0 j;
  ci_vid : forall j, c_vid st j <> 0 -> vid0 j <> 0 \/ (In j (c_q st) /\ n0 <= c_vid st j);
  ci_next : n0 <= c_next st;
  ci_lt : forall j, c_vid st j < c_next st;
  ci_inj : forall i j, c_vid st i = c_vid st j -> c_vid st i <> 0 -> i = j
}.

Lemma ci_alias R stack st i : CI R stack st -> P i -> isAlias g i = true -> c_vid st i = 0.
Proof.
  intros H Hp Ha. destruct (Nat.eq_dec (c_vid st i) 0) as [|Hn]; [assumption|].
  destruct (ci_vid _ _ _ H _ Hn) as [H0|[Hq _]].
  - rewrite alias_vid0 in H0; auto; congruence.
  - apply (ci_q _ _ _ H) in Hq. destruct Hq as [Hv _]. apply (ci_vis _ _ _ H) in Hv. destruct Hv; congruence.
Qed.

Lemma ci_inv_vid R stack st i : CI R stack st -> P i -> isInv g i = true -> c_vid st i <> 0.
Proof. intros H Hp Hi. rewrite (ci_vid0 _ _ _ H); apply inv_vid0; auto. Qed.

Lemma ci_vis_ready R stack st i : CI R stack st -> c_vis st i = true -> ready (c_vid st) (c_vis st) (c_q st) i.
Proof.
  intros H Hv. destruct (ci_vis _ _ _ H _ Hv) as [Hp Ha].
  destruct (isInv g i) eqn:Ei; [apply R_inv; eauto using ci_inv_vid|].
  destruct (ci_viscase _ _ _ H _ Hv) as [|[Hq|(H0 & _)]]; [congruence| |].
  - apply R_q; auto. apply (ci_q _ _ _ H _ Hq).
  - apply R_inl; auto. apply (ci_visargs _ _ _ H _ Hv).
Qed.

Lemma ci_drop R e stack st : CI R (e :: stack) st ->
  (active e = true -> ready (c_vid st) (c_vis st) (c_q st) (el_node e)) -> CI R stack st.
Proof.
  intros H Hr. destruct H. constructor; auto.
  - intros k Hk. destruct (ci_goal0 k Hk) as [Hk'|Hk']; [left; exact Hk'|].
    cbn [filter] in Hk'. destruct (active e) eqn:Ee; [|right; exact Hk'].
    destruct Hk' as [<-|Hk']; [left; auto|right; exact Hk'].
  - apply Forall_cons_iff in ci_stack0. apply ci_stack0.
  - intros s1 p i s2 -> k Hk. destruct (ci_open0 (e :: s1) p i s2 eq_refl k Hk) as [Hk'|Hk']; [left; exact Hk'|].
    cbn [filter] in Hk'. destruct (active e) eqn:Ee; [|right; exact Hk'].
    destruct Hk' as [<-|Hk']; [left; auto|right; exact Hk'].
Qed.

(** state changes made when a node is completed *)
Lemma ci_complete R stack st i (newvar addq : bool) opc' next' :
  CI R stack st -> P i -> isAlias g i = false -> c_vis st i = false ->
  (forall k, In k (nargs g i) -> ready (c_vid st) (c_vis st) (c_q st) k) ->
  (addq = true -> isInv g i = false) ->
  (newvar = true -> addq = true /\ c_vid st i = 0 /\ next' = S (c_next st)) ->
  (newvar = false -> next' = c_next st) ->
  (addq = true -> newvar = true \/ c_vid st i <> 0) ->
  (addq = false -> isInv g i = true \/
     (c_vid st i = 0 /\ uc i <= 1 /\ isCom g i = false /\ isAssign g i = false /\
      forall n, P n -> In i (nargs g n) -> isSign g n = false)) ->
  let st' := mkCv (if newvar then upd (c_vid st) i (c_next st) else c_vid st) next' opc' (upd (c_vis st) i true)
                  (if addq then c_q st ++ [i] else c_q st) in
  CI R stack st' /\ ready (c_vid st') (c_vis st') (c_q st') i.
Proof.
  intros H Hp Ha Hv Hargs Hinv Hnew Hold Hadd Hno st'.
  assert (Hinv' : newvar = true -> isInv g i = false) by (intros E; apply Hinv; apply Hnew, E).
  assert (Hni : ~ In i (c_q st)). { intros Hq. apply (ci_q _ _ _ H) in Hq. destruct Hq; congruence. }
  assert (Hvid : forall k, k <> i -> c_vid st' k = c_vid st k).
  { intros k Hk. cbn. destruct newvar; [apply upd_neq; exact Hk|reflexivity]. }
  assert (Hvis : forall k, c_vis st k = true -> c_vis st' k = true).
  { intros k Hk. cbn. unfold upd. destruct (Nat.eqb k i); auto. }
  assert (Hvvid : forall k, c_vis st k = true -> c_vid st' k = c_vid st k).
  { intros k Hk. apply Hvid. intros ->; congruence. }
  assert (Hivid : forall k, isInv g k = true -> c_vid st' k = c_vid st k).
  { intros k Hk. destruct (Nat.eq_dec k i) as [->|]; [|auto]. cbn. destruct newvar; [|reflexivity].
    rewrite Hinv' in Hk; congruence. }
  assert (Havid : forall k, isAlias g k = true -> c_vid st' k = c_vid st k).
  { intros k Hk. apply Hvid. intros ->; congruence. }
  assert (Hsub : forall k, In k (c_q st) -> In k (c_q st')).
  { intros k Hk. cbn. destruct addq; [apply in_or_app; left|]; exact Hk. }
  assert (Hmono : forall l k, ready (c_vid st) (c_vis st) l k -> ready (c_vid st') (c_vis st') l k).
  { intros l k. apply ready_mono; auto. }
  assert (Hmq : forall k, ready (c_vid st) (c_vis st) (c_q st) k -> ready (c_vid st') (c_vis st') (c_q st') k).
  { intros k. apply ready_mono; auto. }
  assert (Hvisi : c_vis st' i = true) by (cbn; apply upd_eq).
  assert (Hcase : isInv g i = true \/ In i (c_q st') /\ c_vid st' i <> 0 /\ isInv g i = false \/
     (addq = false /\ c_vid st' i = 0 /\ uc i <= 1 /\ isCom g i = false /\ isAssign g i = false /\
      forall n, P n -> In i (nargs g n) -> isSign g n = false)).
  { destruct (isInv g i) eqn:Ei; [left; reflexivity|right]. destruct addq eqn:Eadd.
    - left. split; [cbn; apply in_or_app; right; left; reflexivity|]. split; [|reflexivity].
      cbn. destruct newvar eqn:En.
      + rewrite upd_eq. pose proof (ci_next _ _ _ H). pose proof (idf_min ids0). lia.
      + destruct (Hadd eq_refl); [discriminate|assumption].
    - right. split; [reflexivity|]. destruct (Hno eq_refl) as [|Hx]; [congruence|].
      destruct newvar eqn:En; [destruct (Hnew eq_refl); discriminate|]. exact Hx. }
  assert (Hri : ready (c_vid st') (c_vis st') (c_q st') i).
  { destruct Hcase as [Hi|[(Hq & Hn & Hi)|(_ & Hn & _)]].
    - apply R_inv; auto. rewrite Hivid by exact Hi. eauto using ci_inv_vid.
    - apply R_q; auto.
    - destruct (isInv g i) eqn:Ei; [apply R_inv; auto; rewrite Hivid by exact Ei; eauto using ci_inv_vid|].
      apply R_inl; auto. }
  split; [|exact Hri].
  constructor.
  - intros k Hk. destruct (ci_goal _ _ _ H k Hk) as [Hr|Hr]; auto.
  - apply (ci_stack _ _ _ H).
  - intros s1 p k s2 Es j Hj. destruct (ci_open _ _ _ H s1 p k s2 Es j Hj) as [Hr|Hr]; auto.
  - intros j Hj. destruct (Nat.eq_dec j i) as [->|Hn]; [auto|]. cbn in Hj. rewrite upd_neq in Hj by auto. apply (ci_vis _ _ _ H _ Hj).
  - intros j Hj k Hk. apply Hmq. destruct (Nat.eq_dec j i) as [->|Hn]; [auto|].
    cbn in Hj. rewrite upd_neq in Hj by auto. eapply (ci_visargs _ _ _ H); eassumption.
  - intros j Hj. destruct (Nat.eq_dec j i) as [->|Hn].
    + destruct Hcase as [|[(?&?&?)|(?&?&?)]]; auto.
    + cbn in Hj. rewrite upd_neq in Hj by auto. destruct (ci_viscase _ _ _ H _ Hj) as [|[|Hx]]; auto.
      right; right. rewrite Hvvid by exact Hj. exact Hx.
  - intros j Hj. assert (In j (c_q st) \/ (addq = true /\ j = i)) as [Hq|[Eadd ->]].
    { cbn in Hj. destruct addq; [|auto]. apply in_app_or in Hj. destruct Hj as [|[|[]]]; auto. }
    + destruct (ci_q _ _ _ H _ Hq) as (q1 & q2 & q3). split; [auto|]. split; [auto|]. rewrite Hvvid; auto.
    + split; [exact Hvisi|]. split; [auto|]. destruct Hcase as [Hi|[(_&Hn&_)|(E&_)]]; [|exact Hn|congruence].
      rewrite Hinv in Hi by exact Eadd. discriminate.
  - cbn. destruct addq; [|apply (ci_nodup _ _ _ H)].
    pose proof (ci_nodup _ _ _ H) as Hnd.
    clear - Hni Hnd. induction (c_q st) as [|a l IH]; cbn.
    + constructor; [intros []|constructor].
    + apply NoDup_cons_iff in Hnd. destruct Hnd as [Hal Hnd]. constructor.
      * intros Hx. apply in_app_or in Hx. destruct Hx as [Hx|[Hx|[]]]; [auto|]. apply Hni. left; auto.
      * apply IH; auto. intros Hx; apply Hni; right; exact Hx.
  - intros l1 j l2 El k Hk.
    cbn in El. destruct addq eqn:Eadd.
    + destruct (exists_last (l := j :: l2) ltac:(discriminate)) as (l2' & z & Ez).
      rewrite Ez, app_assoc in El. apply app_inj_tail in El. destruct El as [El <-].
      destruct l2' as [|j' l2'].
      * injection Ez as -> ->. rewrite app_nil_r in El. subst l1. apply Hmono. auto.
      * injection Ez as <- ->. apply Hmono. eapply (ci_order _ _ _ H); eassumption.
    + apply Hmono. eapply (ci_order _ _ _ H); eassumption.
  - intros j Hj. destruct (Nat.eq_dec j i) as [->|Hn]; [|rewrite Hvid by auto; apply (ci_vid0 _ _ _ H); exact Hj].
    cbn. destruct newvar eqn:En; [|apply (ci_vid0 _ _ _ H); exact Hj].
    destruct (Hnew eq_refl) as (_ & E0 & _). rewrite (ci_vid0 _ _ _ H i Hj) in E0. congruence.
  - intros j Hj. destruct (Nat.eq_dec j i) as [->|Hn].
    + destruct newvar eqn:En.
      * right. destruct (Hnew eq_refl) as (Ea & _). split.
        -- cbn. rewrite Ea. apply in_or_app; right; left; reflexivity.
        -- cbn. rewrite upd_eq. apply (ci_next _ _ _ H).
      * cbn in Hj. destruct (ci_vid _ _ _ H _ Hj) as [|[Hq ?]]; [auto|contradiction].
    + rewrite Hvid in Hj |- * by auto. destruct (ci_vid _ _ _ H _ Hj) as [|[Hq ?]]; auto.
  - cbn. pose proof (ci_next _ _ _ H). destruct newvar eqn:En; [destruct (Hnew eq_refl) as (_&_&->)|rewrite (Hold eq_refl)]; lia.
  - intros j. pose proof (ci_lt _ _ _ H j) as Hl. cbn. destruct newvar eqn:En.
    + destruct (Hnew eq_refl) as (_&_&->). unfold upd. destruct (Nat.eqb j i); lia.
    + rewrite (Hold eq_refl). exact Hl.
  - intros a b Hab Ha0. destruct newvar eqn:En; [|apply (ci_inj _ _ _ H a b Hab Ha0)].
    cbn in Hab, Ha0. pose proof (ci_lt _ _ _ H a) as La. pose proof (ci_lt _ _ _ H b) as Lb.
    unfold upd in Hab, Ha0. destruct (Nat.eqb a i) eqn:Eai, (Nat.eqb b i) eqn:Ebi.
    + apply Nat.eqb_eq in Eai, Ebi. congruence.
    + lia.
    + lia.
    + apply (ci_inj _ _ _ H); assumption.
Qed.

Lemma uc_pos' i : P i -> 0 < uc i.
Proof. apply (uc_pos g indeps deps HG uc fuelu Huc). Qed.

Lemma create_step_ok R stack st p i : CI R (mkEl p i ChildrenVisited :: stack) st ->
  CI R stack (cvPost g maxOps uc p i st).
Proof.
  intros H. pose proof (ci_stack _ _ _ H) as Hst. apply Forall_cons_iff in Hst. destruct Hst as [[Hp (n & En & Hn & Hin)] _].
  cbn [el_node el_par] in *. subst p.
  assert (Hargs : forall k, In k (nargs g i) -> ready (c_vid st) (c_vis st) (c_q st) k).
  { intros k Hk. destruct (ci_open _ _ _ H [] (Some n) i stack eq_refl k Hk) as [|[]]; auto. }
  unfold cvPost. destruct (c_vis st i) eqn:Ev.
  { eapply ci_drop; [exact H|]. intros _. eapply ci_vis_ready; eassumption. }
  destruct (isAlias g i) eqn:Ea.
  { assert (E0 : c_vid st i = 0) by (eapply ci_alias; eassumption). rewrite E0. cbn [Nat.eqb orb].
    eapply ci_drop; [exact H|]. intros _. apply R_al; assumption. }
  destruct (isInv g i) eqn:Ei.
  { assert (E0 : c_vid st i <> 0) by (eapply ci_inv_vid; eassumption). apply Nat.eqb_neq in E0. rewrite E0. cbn [orb negb].
    destruct (ci_complete _ _ st i false false (c_opc st) (c_next st) H Hp Ea Ev Hargs) as [H' Hr]; try discriminate; auto.
    eapply ci_drop; [exact H'|]. intros _; exact Hr. }
  rewrite orb_true_r.
  destruct (createsNewVariable g maxOps i (uc i) (countOps g st i) || requiresVariableArgument g (Some n)) eqn:Ec.
  - cbn [addToQueue c_vid]. destruct (Nat.eqb (c_vid st i) 0) eqn:E0.
    + apply Nat.eqb_eq in E0.
      destruct (ci_complete _ _ st i true true (upd (c_opc st) i (countOps g st i)) (S (c_next st)) H Hp Ea Ev Hargs)
        as [H' Hr]; auto; try discriminate.
      eapply ci_drop; [exact H'|]. intros _; exact Hr.
    + apply Nat.eqb_neq in E0.
      destruct (ci_complete _ _ st i false true (upd (c_opc st) i (countOps g st i)) (c_next st) H Hp Ea Ev Hargs)
        as [H' Hr]; auto; try discriminate.
      eapply ci_drop; [exact H'|]. intros _; exact Hr.
  - apply orb_false_iff in Ec. destruct Ec as [Ec Er].
    unfold createsNewVariable in Ec. destruct (Nat.ltb 1 (uc i)) eqn:Eu; [discriminate|].
    apply Nat.ltb_ge in Eu. apply orb_false_iff in Ec. destruct Ec as [Ec _]. apply orb_false_iff in Ec. destruct Ec as [Ecom Eas].
    assert (E0 : c_vid st i = 0).
    { destruct (Nat.eq_dec (c_vid st i) 0) as [|Hne]; [assumption|exfalso].
      destruct (ci_vid _ _ _ H _ Hne) as [H0|[Hq _]].
      - assert (In (ANode i) deps).
        { destruct (in_dec Nat.eq_dec i (anodes deps)) as [Hd|Hd]; [apply anodes_in, Hd|exfalso].
          apply H0. apply (idf_other ids0); [|intros Hx; apply Hd, anodes_in, Hx].
          intros Hx. apply indep_inv in Hx. congruence. }
        pose proof (uc_dep_arg g indeps deps HG uc fuelu Huc i n Hn Hin H1). lia.
      - apply (ci_q _ _ _ H) in Hq. destruct Hq; congruence. }
    destruct (ci_complete _ _ st i false false (upd (c_opc st) i (countOps g st i)) (c_next st) H Hp Ea Ev Hargs)
      as [H' Hr]; auto; try discriminate.
    + intros _. right. split; [exact E0|]. split; [exact Eu|]. split; [exact Ecom|]. split; [exact Eas|].
      intros n' Hn' Hin'. assert (n' = n) as -> by (eapply (uc_one_parent g indeps deps HG uc fuelu Huc); eassumption).
      exact Er.
    + eapply ci_drop; [exact H'|]. intros _; exact Hr.
Qed.

Lemma create_inv R fuel stack st st' : dfs (cvPre g) (cvPost g maxOps uc) fuel stack st = Done st' ->
  CI R stack st -> CI R [] st'.
Proof.
  apply dfs_inv.
  - intros p i rest s s' pushed c H E. unfold cvPre in E. destruct (c_vis s i) eqn:Ev.
    + injection E as <- <- <-. cbn [app]. pose proof H as H0. destruct H. constructor; auto.
      * intros j Hj. destruct (ci_goal0 j Hj) as [Hr|Hr]; [left; exact Hr|].
        cbn [filter active el_step map el_node] in Hr |- *. destruct Hr as [<-|Hr]; [left|right; exact Hr].
        eapply ci_vis_ready; [exact H0|exact Ev].
      * apply Forall_cons_iff in ci_stack0. destruct ci_stack0 as [Hx Hy]. constructor; [exact Hx|exact Hy].
      * intros s1 q k s2 Es j Hj. destruct s1 as [|e s1]; [discriminate|]. injection Es as <- ->.
        destruct (ci_open0 (mkEl p i Analyze :: s1) q k s2 eq_refl j Hj) as [Hr|Hr]; [left; exact Hr|].
        cbn [filter active el_step map el_node] in Hr |- *. destruct Hr as [<-|Hr]; [left|right; exact Hr].
        eapply ci_vis_ready; [exact H0|exact Ev].
    + injection E as <- <- <-. pose proof (ci_stack _ _ _ H) as Hst. apply Forall_cons_iff in Hst.
      destruct Hst as [[Hp Hpar] Hst]. cbn [el_node] in Hp. destruct H. constructor; auto.
      * intros j Hj. destruct (ci_goal0 j Hj) as [Hr|Hr]; [left; exact Hr|right].
        rewrite filter_app, map_app. apply in_or_app. right. exact Hr.
      * apply Forall_app. split.
        -- unfold pushArgs. apply Forall_map, Forall_forall. intros k Hk. cbn. split; [eapply P_arg; eassumption|].
           exists i. auto.
        -- constructor; [split; [exact Hp|exact Hpar]|exact Hst].
      * intros s1 q k s2 Es j Hj.
        assert (Hact : forall l, map el_node (filter active (map (fun j => mkEl (Some i) j Analyze) l)) = l).
        { induction l as [|a l IH]; [reflexivity|]. cbn. f_equal. exact IH. }
        (* position of the split *)
        assert (Hcase : (s1 = pushArgs g i /\ k = i) \/
                        exists s1', s1 = pushArgs g i ++ mkEl p i ChildrenVisited :: s1' /\ rest = s1' ++ mkEl q k ChildrenVisited :: s2).
        { assert (Hanal : Forall (fun e => el_step e = Analyze) (pushArgs g i)).
          { unfold pushArgs. apply Forall_map, Forall_forall. reflexivity. }
          revert Es Hanal. generalize (pushArgs g i) as pa. clear. revert s1.
          induction s1 as [|e s1 IH]; intros pa Es HF.
          - destruct pa as [|e' pa]; [left; injection Es as -> -> _; auto|].
            injection Es as -> _. apply Forall_cons_iff in HF. destruct HF; discriminate.
          - destruct pa as [|e' pa].
            + injection Es as <- ->. right. exists s1. auto.
            + injection Es as -> Es. apply Forall_cons_iff in HF. destruct HF as [_ HF].
              destruct (IH pa Es HF) as [[-> ->]|(s1' & -> & ->)]; [left; auto|right; exists s1'; auto]. }
        destruct Hcase as [[-> ->]|(s1' & -> & ->)].
        -- right. unfold pushArgs. rewrite Hact. exact Hj.
        -- destruct (ci_open0 (mkEl p i Analyze :: s1') q k s2 eq_refl j Hj) as [Hr|Hr]; [left; exact Hr|right].
           rewrite filter_app, map_app. apply in_or_app. right. exact Hr.
  - intros p i rest s H. apply create_step_ok. exact H.
  - intros p i rest s H. eapply ci_drop; [exact H|]. discriminate.
Qed.

Lemma create_vis_mono fuel stack st st' : dfs (cvPre g) (cvPost g maxOps uc) fuel stack st = Done st' ->
  forall k, c_vis st k = true -> c_vis st' k = true.
Proof.
  intros E k Hk. revert E Hk.
  apply (dfs_inv (cvPre g) (cvPost g maxOps uc) (fun _ s => c_vis s k = true)).
  - intros p i rest s s' pushed c H E. unfold cvPre in E. destruct (c_vis s i); injection E as <- _ _; exact H.
  - intros p i rest s H. unfold cvPost.
    assert (Hu : upd (c_vis s) i true k = true) by (unfold upd; destruct (Nat.eqb k i); auto).
    destruct (c_vis s i); [exact H|]. destruct (_ || _); [|exact Hu]. destruct (isAlias g i); [exact H|].
    destruct (_ || _); [|exact Hu]. destruct (Nat.eqb _ 0); exact Hu.
  - auto.
Qed.

Lemma ci_weaken R st : CI R [] st -> CI [] [] st.
Proof. intros H. destruct H. constructor; auto. Qed.

Lemma dep_vid0 i : In (ANode i) deps -> vid0 i <> 0.
Proof. apply (idf_dep ids0). Qed.

Lemma create_dep_inv fuel i st st' : In (ANode i) deps -> CI [] [] st ->
  createForDep g fuel maxOps uc i st = Done st' ->
  CI [] [] st' /\ c_vis st' i = true /\ (forall k, c_vis st k = true -> c_vis st' k = true).
Proof.
  intros Hd H E. assert (Hp : P i) by (apply reach_dep; exact Hd).
  assert (Hmark : forall s, CI [] [] s -> c_vis s i = true -> CI [] [] (cvMark i s) /\ c_vis (cvMark i s) i = true /\
                    (forall k, c_vis s k = true -> c_vis (cvMark i s) k = true)).
  { intros s Hs Hv. assert (Hext : forall k, upd (c_vis s) i true k = c_vis s k).
    { intros k. unfold upd. destruct (Nat.eqb k i) eqn:Ek; [apply Nat.eqb_eq in Ek; congruence|reflexivity]. }
    split; [|split].
    - assert (Hr : forall l k, ready (c_vid s) (c_vis s) l k -> ready (c_vid s) (upd (c_vis s) i true) l k).
      { intros l k. apply ready_mono; auto. intros x Hx. rewrite Hext; exact Hx. }
      destruct Hs. constructor; cbn; auto; try (intros j Hj; rewrite Hext in Hj; eauto; fail).
      + intros s1 p k s2 Es. destruct s1; discriminate.
      + intros j Hj. destruct (ci_q0 j Hj) as (a & b & c). rewrite Hext. auto.
      + intros l1 j l2 El k Hk. apply Hr. eauto.
    - cbn. apply upd_eq.
    - intros k Hk. cbn. rewrite Hext. exact Hk. }
  unfold createForDep in E. destruct (c_vis st i) eqn:Ev.
  { cbn [obind] in E. injection E as <-. apply Hmark; assumption. }
  apply obind_done in E. destruct E as (s2 & E & E2). injection E2 as <-.
  apply obind_done in E. destruct E as (s1 & E1 & E). injection E as <-.
  unfold checkVariableCreation in E1.
  pose proof (create_vis_mono _ _ _ _ E1) as Hmono.
  assert (HI1 : CI (nargs g i) [] s1).
  { eapply create_inv; [exact E1|]. destruct H. constructor; auto.
    - intros k Hk. right. unfold pushArgs.
      assert (Hact : forall l, map el_node (filter active (map (fun j => mkEl (Some i) j Analyze) l)) = l).
      { induction l as [|a l IH]; [reflexivity|]. cbn. f_equal. exact IH. }
      rewrite Hact. exact Hk.
    - unfold pushArgs. apply Forall_map, Forall_forall. intros k Hk. cbn. split; [eapply P_arg; eassumption|].
      exists i. auto.
    - intros s0 p k s2 Es.
      assert (Hin : In (mkEl p k ChildrenVisited) (pushArgs g i)) by (rewrite Es; apply in_or_app; right; left; reflexivity).
      unfold pushArgs in Hin. apply in_map_iff in Hin. destruct Hin as (x & Hx & _). discriminate. }
  assert (Hargs : forall k, In k (nargs g i) -> ready (c_vid s1) (c_vis s1) (c_q s1) k).
  { intros k Hk. destruct (ci_goal _ _ _ HI1 k Hk) as [|[]]; auto. }
  apply ci_weaken in HI1.
  assert (Ea : isAlias g i = false).
  { destruct (isAlias g i) eqn:Ea; [|reflexivity]. exfalso. eapply alias_not_dep; eassumption. }
  assert (E0 : c_vid s1 i <> 0). { rewrite (ci_vid0 _ _ _ HI1); apply dep_vid0; exact Hd. }
  destruct (c_vis s1 i) eqn:Ev1.
  { rewrite andb_false_r. destruct (Hmark s1 HI1 Ev1) as (m1 & m2 & m3). auto. }
  rewrite andb_true_r.
  pose proof E0 as E0'. apply Nat.eqb_neq in E0'. rewrite E0'. cbn [orb].
  destruct (isInv g i) eqn:Ei; cbn [negb].
  - destruct (ci_complete _ _ s1 i false false (c_opc s1) (c_next s1) HI1 Hp Ea Ev1 Hargs) as [H' Hr]; try discriminate; auto.
    split; [exact H'|]. split; [apply upd_eq|]. intros k Hk. cbn. unfold upd. destruct (Nat.eqb k i); auto.
  - destruct (ci_complete _ _ s1 i false true (c_opc s1) (c_next s1) HI1 Hp Ea Ev1 Hargs) as [H' Hr]; try discriminate; auto.
    split; [exact H'|]. split; [apply upd_eq|]. intros k Hk. cbn. unfold upd. destruct (Nat.eqb k i); auto.
Qed.

(** ** Result of the whole pass *)
Variable fuelc : nat.
Variable cv : cvst.
Hypothesis Hcv : ofold (createForDep g fuelc maxOps uc) (anodes deps) (mkCv vid0 n0 (fun _ => 0) (fun _ => false) []) = Done cv.

Lemma create_all : CI [] [] cv /\ forall i, In (ANode i) deps -> c_vis cv i = true.
Proof.
  assert (H : (fun D s => CI [] [] s /\ forall i, In i D -> c_vis s i = true) ([] ++ anodes deps) cv).
  { eapply (ofold_inv (createForDep g fuelc maxOps uc) (fun D s => CI [] [] s /\ forall i, In i D -> c_vis s i = true)); [|split|exact Hcv].
    - intros i D a a' Hi (HI & HD) E. apply anodes_in in Hi.
      destruct (create_dep_inv _ _ _ _ Hi HI E) as (h1 & h2 & h3). split; [exact h1|].
      intros k Hk. apply in_app_or in Hk. destruct Hk as [Hk|[<-|[]]]; auto.
    - constructor; cbn; auto; try (intros; discriminate).
      + intros s1 p i s2 E. destruct s1; discriminate.
      + intros j [].
      + constructor.
      + intros l1 i l2 E. destruct l1; discriminate.
      + apply (idf_lt ids0).
      + apply (idf_inj ids0).
    - intros i []. }
  cbv beta in H. cbn [app] in H. destruct H as [H1 H2]. split; [exact H1|].
  intros i Hi. apply H2, anodes_in, Hi.
Qed.

Lemma all_ready i : P i -> ready (c_vid cv) (c_vis cv) (c_q cv) i.
Proof.
  destruct create_all as [H HD].
  induction 1 as [i Hi|i j Hi IH He].
  - eapply ci_vis_ready; eauto.
  - apply nargs_edge in He. inversion IH as [k Hk Hv|k Hl Hv Hs Hk Ha|k Hk Ha Hv Hs Hr|k Ha Hv Hr]; subst.
    + rewrite (P_inv_args g indeps deps HG _ Hi Hk) in He. destruct He.
    + eapply (ci_visargs _ _ _ H); eassumption.
    + apply Hr, He.
    + apply Hr, He.
Qed.

(** the classification of the nodes after the pass *)
Record created : Prop := {
  cr_nodup : NoDup (c_q cv);
  cr_q : forall i, In i (c_q cv) -> P i /\ isInv g i = false /\ isAlias g i = false /\ c_vid cv i <> 0;
  cr_order : forall l1 i l2, c_q cv = l1 ++ i :: l2 -> forall k, In k (nargs g i) -> ready (c_vid cv) (c_vis cv) l1 k;
  cr_case : forall i, P i -> isInv g i = false -> isAlias g i = false -> In i (c_q cv) \/
     (c_vid cv i = 0 /\ uc i <= 1 /\ isCom g i = false /\ isAssign g i = false /\
      forall n, P n -> In i (nargs g n) -> isSign g n = false);
  cr_alias : forall i, P i -> isAlias g i = true -> c_vid cv i = 0;
  cr_dep : forall i, In (ANode i) deps -> isInv g i = false -> In i (c_q cv);
  cr_vid0 : forall i, vid0 i <> 0 -> c_vid cv i = vid0 i;
  cr_vid : forall i, c_vid cv i <> 0 -> vid0 i <> 0 \/ (In i (c_q cv) /\ n0 <= c_vid cv i);
  cr_lt : forall i, c_vid cv i < c_next cv;
  cr_next : n0 <= c_next cv;
  cr_inj : forall i j, c_vid cv i = c_vid cv j -> c_vid cv i <> 0 -> i = j
}.

Lemma created_ok : created.
Proof.
  destruct create_all as [H HD]. constructor.
  - apply (ci_nodup _ _ _ H).
  - intros i Hi. destruct (ci_q _ _ _ H i Hi) as (a & b & c). destruct (ci_vis _ _ _ H i a). auto.
  - apply (ci_order _ _ _ H).
  - intros i Hp Hi Ha. pose proof (all_ready i Hp) as Hr. inversion Hr; subst; try congruence; auto.
    destruct (ci_viscase _ _ _ H i) as [|[|Hx]]; auto; congruence.
  - intros i Hp Ha. eapply ci_alias; eassumption.
  - intros i Hd Hi. pose proof (HD i Hd) as Hv. destruct (ci_viscase _ _ _ H i Hv) as [|[|Hx]]; [congruence|auto|].
    destruct Hx as (E0 & _). rewrite (ci_vid0 _ _ _ H) in E0; [|apply dep_vid0; exact Hd]. exfalso. eapply dep_vid0; eassumption.
  - apply (ci_vid0 _ _ _ H).
  - apply (ci_vid _ _ _ H).
  - apply (ci_lt _ _ _ H).
  - apply (ci_next _ _ _ H).
  - apply (ci_inj _ _ _ H).
Qed.
End Create.

Section CreateTerm.
Context {B : Type} {O : BaseOps B}.
Variable g : heap B.
Variable c : nat -> nat.
Hypothesis Hc : forall i, 3 + isum c (nargs g i) <= c i.

Lemma create_total fuel maxOps uc i st : c i < fuel -> exists st', createForDep g fuel maxOps uc i st = Done st'.
Proof.
  intros Hf. unfold createForDep. destruct (c_vis st i); [eexists; reflexivity|].
  unfold checkVariableCreation.
  destruct (dfs_terminates g c Hc (cvPre g) (cvPost g maxOps uc) (fun _ => True)) with (fuel := fuel) (stack := pushArgs g i) (st := st)
    as [st' ->].
  - auto.
  - intros p k s _. unfold cvPre. destruct (c_vis s k); do 3 eexists; (split; [reflexivity|]).
    + split; [cbn; lia|constructor].
    + split; [rewrite scost_pushArgs; lia|]. apply Forall_forall; auto.
  - apply Forall_forall; auto.
  - rewrite scost_pushArgs. specialize (Hc i). lia.
  - eexists; reflexivity.
Qed.
End CreateTerm.

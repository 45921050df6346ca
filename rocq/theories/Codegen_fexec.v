(** * The flow of values determines the results of the generated assignments *)
From Coq Require Import List Bool Arith Lia.
From Verif Require Import Graph_model Graph_spec Codegen_model Codegen_spec Codegen_dfs Codegen_use Codegen_create
  Codegen_order Codegen_reuse Codegen_plan Codegen_emit Codegen_exec Codegen_sol Codegen_flow.
Import ListNotations.

Section FExec.
Context {B : Type} {O : BaseOps B}.

(** temporaries are never accumulated into *)
Definition plainTemp (s : stmt B) : Prop :=
  match s with
  | SZero _ => True
  | SAssign l a _ | SCond _ _ _ l a _ _ => forall v, l = LV v -> a = ASet
  end.

Lemma xval_map (m m' : @mem B) f e : (forall l, In l (xreads e) -> m l = m' (f l)) -> xval m e = xval m' (xmap f e).
Proof.
  revert e. fix IH 1. intros [l|b|o a] H; cbn [xval xmap xreads] in *; [apply H; left; reflexivity|reflexivity|].
  f_equal. rewrite map_map. revert a H. fix IHa 1. intros [|x a] H; [reflexivity|]. cbn [map flat_map] in *. f_equal.
  - apply IH. intros l Hl. apply H, in_or_app. left; exact Hl.
  - apply IHa. intros l Hl. apply H, in_or_app. right; exact Hl.
Qed.

Lemma xreads_map f (e : cx B) : xreads (xmap f e) = map f (xreads e).
Proof.
  revert e. fix IH 1. intros [l|b|o a]; cbn [xreads xmap map]; [reflexivity|reflexivity|].
  revert a. fix IHa 1. intros [|x a]; [reflexivity|]. cbn [map flat_map]. rewrite map_app. f_equal; [apply IH|apply IHa].
Qed.
Lemma sreads_map f w (s : stmt B) : sreads (smap f w s) = map f (sreads s).
Proof. destruct s; cbn [sreads smap]; rewrite ?map_app, ?xreads_map; reflexivity. Qed.

Lemma loc_eqb_eq a b : loc_eqb a b = true <-> a = b.
Proof. destruct a, b; cbn [loc_eqb]; rewrite ?Nat.eqb_eq; split; congruence. Qed.

(** corresponding memories *)
Definition same (cur : nat -> nat) (k : nat) (m m' : @mem B) : Prop :=
  (forall l, (forall v, l <> LV v) -> m l = m' l) /\
  (forall v, cur v < k) /\
  (forall v, cur v <> 0 -> m (LV v) = m' (LV (cur v))).

Lemma same_read cur k m m' l : same cur k m m' -> on_temp cur l <> LV 0 -> m l = m' (on_temp cur l).
Proof.
  intros (H1 & _ & H3) H. destruct l; cbn [on_temp] in *; [apply H1; discriminate|apply H1; discriminate|].
  apply H3. intros E. apply H. congruence.
Qed.

(** assignment of the same value on both sides *)
Lemma same_set cur k m m' l x : 0 < k -> same cur k m m' ->
  same (match l with LV v => fun u => if Nat.eqb u v then k else cur u | _ => cur end) (S k)
       (setm m l x) (setm m' (on_temp (fun _ => k) l) x).
Proof.
  intros Hk (H1 & H2 & H3). split; [|split].
  - intros l' Hl'. unfold setm. destruct l as [p|p|v]; cbn [on_temp].
    + rewrite (H1 l' Hl'). reflexivity.
    + rewrite (H1 l' Hl'). reflexivity.
    + rewrite <- (H1 l' Hl'). destruct l'; cbn [loc_eqb]; try reflexivity. exfalso. eapply Hl'; reflexivity.
  - intros v. destruct l as [p|p|u]; [specialize (H2 v); lia|specialize (H2 v); lia|]. destruct (Nat.eqb v u); [lia|]. specialize (H2 v); lia.
  - intros v. unfold setm. destruct l as [p|p|u]; cbn [on_temp loc_eqb]; [apply H3|apply H3|].
    destruct (Nat.eqb v u); intros Hv; [rewrite Nat.eqb_refl; reflexivity|].
    destruct (Nat.eqb (cur v) k) eqn:E; [apply Nat.eqb_eq in E; specialize (H2 v); lia|]. apply H3, Hv.
Qed.

Lemma same_assign cur k m m' l a x : 0 < k -> (forall v, l = LV v -> a = ASet) -> same cur k m m' ->
  same (match l with LV v => fun u => if Nat.eqb u v then k else cur u | _ => cur end) (S k)
       (assign m l a x) (assign m' (on_temp (fun _ => k) l) a x).
Proof.
  intros Hk Ha HS. unfold assign.
  replace (match a with ASet => x | AAdd => lift2 badd (m' (on_temp (fun _ => k) l)) x end)
    with (match a with ASet => x | AAdd => lift2 badd (m l) x end).
  - apply same_set; assumption.
  - destruct a; [reflexivity|]. destruct l as [p|p|v]; cbn [on_temp]; [| |specialize (Ha v eq_refl); discriminate];
      rewrite (proj1 HS) by discriminate; reflexivity.
Qed.

Lemma flow_exec1 cur k m m' s : 0 < k -> same cur k m m' -> plainTemp s ->
  (forall l, In l (sreads s) -> on_temp cur l <> LV 0) ->
  same (match target s with Some (LV v) => fun u => if Nat.eqb u v then k else cur u | _ => cur end) (S k)
       (exec1 m s) (exec1 m' (smap (on_temp cur) (on_temp (fun _ => k)) s)).
Proof.
  intros Hk HS Hp Hr.
  assert (X : forall e, (forall l, In l (xreads e) -> on_temp cur l <> LV 0) -> xval m' (xmap (on_temp cur) e) = xval m e).
  { intros e He. symmetry. apply xval_map. intros l Hl. eapply same_read; [exact HS|]. apply He, Hl. }
  destruct s as [n|l a e|c x y l a e1 e2]; cbn [exec1 smap target sreads plainTemp] in *.
  - destruct HS as (H1 & H2 & H3). split; [|split].
    + intros l Hl. destruct l; try (apply H1; exact Hl). destruct (Nat.ltb i n); [reflexivity|apply H1; exact Hl].
    + intros v. specialize (H2 v). lia.
    + exact H3.
  - rewrite (X e Hr). apply same_assign; assumption.
  - rewrite (X x), (X y) by (intros l' Hl'; apply Hr; rewrite !in_app_iff; auto).
    destruct (xval m x) as [u|]; [|apply same_set; assumption]. destruct (xval m y) as [w|]; [|apply same_set; assumption].
    destruct (bcmp c u w).
    + rewrite (X e1) by (intros l' Hl'; apply Hr; rewrite !in_app_iff; auto). apply same_assign; assumption.
    + rewrite (X e2) by (intros l' Hl'; apply Hr; rewrite !in_app_iff; auto). apply same_assign; assumption.
Qed.

Lemma flow_exec_gen p : forall cur k m m', 0 < k -> same cur k m m' -> Forall plainTemp p ->
  (forall s, In s (flow_from cur k p) -> ~ In (LV 0) (sreads s)) ->
  forall i, exec m p (LY i) = exec m' (flow_from cur k p) (LY i).
Proof.
  induction p as [|s p IH]; intros cur k m m' Hk HS Hp Hr i.
  - apply (proj1 HS). discriminate.
  - inversion Hp; subst. cbn [flow_from exec fold_left]. apply IH; [lia| |assumption|intros s' Hs'; apply Hr; right; exact Hs'].
    apply flow_exec1; [exact Hk|exact HS|assumption|]. intros l Hl E.
    apply (Hr _ (or_introl eq_refl)). rewrite sreads_map. rewrite <- E. apply in_map, Hl.
Qed.

Lemma flow_exec p (m : @mem B) : Forall plainTemp p -> (forall s, In s (flow p) -> ~ In (LV 0) (sreads s)) ->
  forall i, exec m p (LY i) = exec m (flow p) (LY i).
Proof.
  intros Hp Hr. unfold flow in *. apply flow_exec_gen; [lia| |exact Hp|exact Hr].
  split; [reflexivity|]. split; [intros; lia|]. intros v H. destruct (H eq_refl).
Qed.

(** when every cell is assigned before it is read, the flow has no read of an unassigned temporary *)
Lemma flow_defined_gen (p : list (stmt B)) : forall cur k, 0 < k ->
  (forall j s v, nth_error p j = Some s -> In (LV v) (sreads s) -> cur v <> 0 \/
     exists j' s', j' < j /\ nth_error p j' = Some s' /\ target s' = Some (LV v)) ->
  forall s, In s (flow_from cur k p) -> ~ In (LV 0) (sreads s).
Proof.
  induction p as [|s0 p IH]; intros cur k Hk H s; [intros []|]. cbn [flow_from]. intros [<-|Hs].
  - rewrite sreads_map. intros Hi. apply in_map_iff in Hi. destruct Hi as (l & El & Hl).
    destruct l as [q|q|v]; try discriminate. cbn [on_temp] in El.
    destruct (H 0 s0 v eq_refl Hl) as [Hc|(j' & s' & Hj & _)]; [congruence|lia].
  - revert s Hs. apply IH; [lia|]. intros j s v Ej Hv. destruct (H (S j) s v Ej Hv) as [Hc|(j' & s' & Hj & Ej' & Ht)].
    + left. destruct (target s0) as [[q|q|u]|]; try exact Hc. destruct (Nat.eqb v u); [lia|exact Hc].
    + destruct j' as [|j']; [|right; exists j', s'; repeat split; [lia|exact Ej'|exact Ht]].
      injection Ej' as ->. left. rewrite Ht, Nat.eqb_refl. lia.
Qed.

(** ** assignments made by generateSourceCode *)
Variable g : heap B.
Variable indeps : list nat.
Variable deps : list (arg B).
Hypothesis HG : gen_input g indeps deps.
Variable pl : plan.
Variable cv : cvst.
Variable uc : nat -> nat.
Variable vid0 : nat -> nat.
Variable n0 : nat.
Hypothesis PO : plan_ok g indeps deps pl cv uc vid0 n0.
Variable nm : nat -> option loc.
Hypothesis NM : names_ok g indeps deps pl cv n0 nm.
Variable o : options.

Lemma stmt_plain f q s : In q (c_q cv) -> stmtOf g o indeps deps pl nm f q = Done s -> plainTemp s.
Proof.
  intros Hq E. destruct (cr_q _ _ _ _ _ _ (po_created _ _ _ _ _ _ _ _ PO) q Hq) as (Pq & Hqi & Hqa & Hqv).
  unfold stmtOf in E. destruct (varName_ok g indeps deps HG pl cv uc vid0 n0 PO nm NM q Pq Hqv) as (l & El & Hl). rewrite El in E.
  assert (Ha : forall v, l = LV v -> (if isDependent indeps pl q then o_aop o else ASet) = ASet).
  { intros v ->. destruct (isDependent indeps pl q) eqn:Ed; [|reflexivity]. exfalso.
    apply (isDependent_iff g indeps deps HG pl cv uc vid0 n0 PO q Hq) in Ed. inversion Hl; subst. auto. }
  assert (Hgen : obind (exprOf g indeps deps pl nm f q) (fun e => Done (SAssign l (if isDependent indeps pl q then o_aop o else ASet) e)) = Done s -> plainTemp s).
  { intros Ea. apply obind_done in Ea. destruct Ea as (e & Ee & [= <-]). exact Ha. }
  destruct (opc g q); try (apply Hgen, E).
  destruct (gargs g q) as [|x [|y [|t [|e [|z r]]]]]; try (apply Hgen, E).
  destruct (sameArg t e).
  - apply obind_done in E. destruct E as (e' & _ & [= <-]). exact Ha.
  - apply obind_done in E. destruct E as (? & _ & E). apply obind_done in E. destruct E as (? & _ & E).
    apply obind_done in E. destruct E as (? & _ & E). apply obind_done in E. destruct E as (? & _ & [= <-]). exact Ha.
Qed.

Lemma source_plain f prog : source g o indeps deps pl nm f = Done prog -> Forall plainTemp prog.
Proof.
  intros E. destruct (source_split g indeps deps pl cv uc vid0 n0 PO nm o f prog E) as (body & Eb & ->).
  rewrite !Forall_app. split; [|split].
  - destruct (c_q cv); [constructor|]. destruct (o_zeroDeps o); repeat constructor.
  - apply Forall_forall. intros s Hs. apply In_nth_error in Hs. destruct Hs as [k Hk].
    destruct (omap_nth _ _ _ _ _ Eb Hk) as (q & Hq & Es). eapply stmt_plain; [eapply nth_error_In, Hq|exact Es].
  - apply Forall_forall. intros s Hs. apply in_map_iff in Hs. destruct Hs as ([k e] & <- & _). intros v. discriminate.
Qed.

Lemma source_defined f prog : source g o indeps deps pl nm f = Done prog -> forall s, In s (flow prog) -> ~ In (LV 0) (sreads s).
Proof.
  intros E. unfold flow. apply flow_defined_gen; [lia|]. intros j s v Ej Hv. right.
  destruct (source_reads g indeps deps HG pl cv uc vid0 n0 PO nm NM o f prog j s _ E Ej Hv) as [(p & _ & [=])|H]. exact H.
Qed.
End FExec.

(** * Expressions which do not depend on the index of a loop: values with results kept, and the start of the loop *)
From Coq Require Import List Bool Arith Lia.
From Verif Require Import LoopMove_model LoopMove_spec LoopMove_graph LoopMove_search.
Import ListNotations.

Scheme value_mut := Induction for value Sort Prop with values_mut := Induction for values Sort Prop.
Section Kept.
Variable W : Type.
Variable cst : nat -> W.
Variable op : nat -> kind -> list W -> W.
Variable g : graph.
Notation val := (value W cst op g).
Notation vals := (values W cst op g).
Lemma value_det kept sto env n v : val kept sto env n v -> forall v', val kept sto env n v' -> v = v'.
Proof.
  intros H. refine (value_mut W cst op g kept sto env (fun n v _ => forall v', val kept sto env n v' -> v = v') (fun l vs _ => forall vs', vals kept sto env l vs' -> vs = vs') _ _ _ _ _ _ n v H).
  - intros k K v' H'. inversion H'; subst; [reflexivity|contradiction|contradiction].
  - intros k nd NK E K v' H'. inversion H' as [k' K'|k' nd' _ E' K'|k' nd' vs' _ E' K' Hv]; subst; [contradiction|reflexivity|]. congruence.
  - intros k nd vs NK E K Hvs IH v' H'. inversion H' as [k' K'|k' nd' _ E' K'|k' nd' vs' _ E' K' Hv]; subst; [contradiction|congruence|]. assert (nd' = nd) by congruence. subst nd'. rewrite (IH vs' Hv). reflexivity.
  - intros vs' H'. inversion H'. reflexivity.
  - intros c r vs _ IH vs' H'. inversion H'; subst. f_equal. apply IH. assumption.
  - intros k r x vs _ IHk _ IH vs' H'. inversion H'; subst. f_equal; [apply IHk|apply IH]; assumption.
Qed.
Lemma value_total kept sto env : (forall n, kept n \/ ~ kept n) -> acyclic g -> closed g -> forall n, n < length g -> exists v, val kept sto env n v.
Proof.
  intros Dk (rank & Hr) Hcl. assert (H : forall f n, rank n < f -> n < length g -> exists v, val kept sto env n v); [|intros n; exact (H (S (rank n)) n (Nat.lt_succ_diag_r _))].
  induction f as [|f IH]; intros n Lf Ln; [lia|]. destruct (Dk n) as [K|NK]; [eexists; exact (V_kept W cst op g kept sto env n K)|]. destruct (nth_error g n) as [nd|] eqn:E; [|apply nth_error_None in E; lia].
  assert (Hc : forall m, In (Ref m) (nargs nd) -> exists v, val kept sto env m v). { intros m I. assert (C : child g n m) by (exists nd; auto). apply IH; [pose proof (Hr _ _ C); lia|exact (Hcl _ _ C)]. }
  assert (Hl : exists vs, vals kept sto env (nargs nd) vs).
  { induction (nargs nd) as [|[c|m] r IHr]; [exists []; constructor| |]; destruct IHr as (vs & Hvs); try (intros k I; apply Hc; right; exact I); [exists (cst c :: vs); constructor; exact Hvs|]. destruct (Hc m (or_introl eq_refl)) as (v & Hv). exists (v :: vs). constructor; assumption. }
  destruct (nkind nd) eqn:K; try (destruct Hl as (vs & Hvs); eexists; refine (V_op W cst op g kept sto env n nd vs NK E _ Hvs); congruence). eexists. exact (V_index W cst op g kept sto env n nd NK E K).
Qed.
(** the value of an operation which does not depend on the index is the same for any index *)
Lemma value_env L env env' n v : (forall m, m <> L -> env' m = env m) -> ~ reaches g n L -> plain W cst op g env n v -> plain W cst op g env' n v.
Proof.
  intros He Hn H. revert Hn. refine (value_mut W cst op g (fun _ => False) env env (fun n v _ => ~ reaches g n L -> plain W cst op g env' n v) (fun l vs _ => (forall m, In (Ref m) l -> ~ reaches g m L) -> vals (fun _ => False) env' env' l vs) _ _ _ _ _ _ n v H).
  - intros k [].
  - intros k nd NK E K R. rewrite <- (He k) by (intros ->; apply R, R_here). exact (V_index W cst op g _ env' env' k nd NK E K).
  - intros k nd vs NK E K _ IH R. refine (V_op W cst op g _ env' env' k nd vs NK E K (IH _)). intros m I R'. apply R. refine (R_arg g k m L _ R'). exists nd. auto.
  - constructor.
  - intros c r vs _ IH Hl. constructor. apply IH. intros m I. apply Hl. right. exact I.
  - intros k r x vs _ IHk _ IH Hl. constructor; [apply IHk, Hl; left; reflexivity|apply IH]. intros m I. apply Hl. right. exact I.
Qed.
Lemma value_kept moved sto env : (forall m, In m moved -> plain W cst op g env m (sto m)) -> forall n v, val (fun m => In m moved) sto env n v <-> plain W cst op g env n v.
Proof.
  intros Hm n v. split; intros H.
  - refine (value_mut W cst op g (fun m => In m moved) sto env (fun n v _ => plain W cst op g env n v) (fun l vs _ => vals (fun _ => False) env env l vs) _ _ _ _ _ _ n v H).
    + exact Hm.
    + intros k nd _ E K. exact (V_index W cst op g _ env env k nd (fun x => x) E K).
    + intros k nd vs _ E K _ IH. exact (V_op W cst op g _ env env k nd vs (fun x => x) E K IH).
    + constructor.
    + intros c r vs _ IH. constructor. exact IH.
    + intros k r x vs _ IHk _ IH. constructor; assumption.
  - refine (value_mut W cst op g (fun _ => False) env env (fun n v _ => val (fun m => In m moved) sto env n v) (fun l vs _ => vals (fun m => In m moved) sto env l vs) _ _ _ _ _ _ n v H).
    + intros k [].
    + intros k nd NK E K. destruct (in_dec Nat.eq_dec k moved) as [I|I]; [|exact (V_index W cst op g _ sto env k nd I E K)].
      rewrite (value_det _ _ _ _ _ (V_index W cst op g (fun _ => False) env env k nd NK E K) _ (Hm k I)). exact (V_kept W cst op g (fun m => In m moved) sto env k I).
    + intros k nd vs NK E K Hvs IH. destruct (in_dec Nat.eq_dec k moved) as [I|I]; [|exact (V_op W cst op g _ sto env k nd vs I E K IH)].
      rewrite (value_det _ _ _ _ _ (V_op W cst op g (fun _ => False) env env k nd vs NK E K Hvs) _ (Hm k I)). exact (V_kept W cst op g (fun m => In m moved) sto env k I).
    + constructor.
    + intros c r vs _ IH. constructor. exact IH.
    + intros k r x vs _ IHk _ IH. constructor; assumption.
Qed.
Lemma stored_exists env : acyclic g -> closed g -> forall l, (forall m, In m l -> m < length g) -> exists sto : nat -> W, forall m, In m l -> plain W cst op g env m (sto m).
Proof.
  intros Ha Hc. induction l as [|m l IH]; intros Hl; [exists env; intros m []|]. destruct IH as (sto & H); [intros k I; apply Hl; right; exact I|].
  destruct (value_total (fun _ => False) env env (fun _ => or_intror (fun x => x)) Ha Hc m (Hl m (or_introl eq_refl))) as (v & Hv). exists (fun k => if k =? m then v else sto k).
  intros k I. destruct (Nat.eqb_spec k m) as [->|N]; [exact Hv|]. apply H. destruct I as [->|I]; [contradiction|exact I].
Qed.
End Kept.

(** ** No cycle at the start of the loop *)
Section Start.
Variable g : graph.
Variable L : nat.
Fixpoint reachb (f n : nat) : bool :=
  match f with 0 => false | S f' => (n =? L) || match nth_error g n with Some nd => existsb (fun a => match a with Ref m => reachb f' m | Cst _ => false end) (nargs nd) | None => false end end.
Lemma reachb_ok rank : (forall n m, child g n m -> rank m < rank n) -> forall f n, rank n < f -> (reachb f n = true <-> reaches g n L).
Proof.
  intros Hr. induction f as [|f IH]; intros n Lf; [lia|]. cbn [reachb]. rewrite orb_true_iff, Nat.eqb_eq, reaches_iff.
  assert (C : match nth_error g n with Some nd => existsb (fun a => match a with Ref m => reachb f m | Cst _ => false end) (nargs nd) | None => false end = true <-> exists m, child g n m /\ reaches g m L); [|tauto].
  destruct (nth_error g n) as [nd|] eqn:E.
  - rewrite existsb_exists. split.
    + intros ([c|m] & I & H); [discriminate|]. assert (Cm : child g n m) by (exists nd; auto). exists m. split; [exact Cm|]. apply IH in H; [exact H|]. pose proof (Hr _ _ Cm). lia.
    + intros (m & Cm & H). exists (Ref m). split; [apply (child_args _ _ _ _ E); exact Cm|]. apply IH; [pose proof (Hr _ _ Cm); lia|exact H].
  - split; [discriminate|]. intros (m & (nd & E' & _) & _). congruence.
Qed.
Lemma bound (f : nat -> nat) l : exists b, forall m, In m l -> f m < b.
Proof.
  induction l as [|m l (b & Hb)]; [exists 0; intros m []|]. exists (S (f m) + b). intros k [<-|I]; [lia|]. pose proof (Hb k I). lia.
Qed.
Lemma addArgs_child s new n m : child (addArgs s new g) n m -> child g n m \/ (n = s /\ In m new).
Proof.
  unfold addArgs. destruct (nth_error g s) as [nd|] eqn:E; [|auto]. intros (nd' & E' & I). destruct (Nat.eq_dec s n) as [<-|N].
  - rewrite put_same in E' by (apply nth_error_Some; congruence). injection E' as <-. cbn [nargs] in I. apply in_app_or in I. destruct I as [I|I]; [left; exists nd; auto|right]. split; [reflexivity|]. apply in_map_iff in I. destruct I as (k & K & I). congruence.
  - rewrite put_other in E' by exact N. left. exists nd'. auto.
Qed.
Lemma addArgs_acyclic s new : acyclic g -> closed g -> s < length g -> reaches g s L -> (forall m, In m new -> ~ reaches g m L) -> acyclic (addArgs s new g).
Proof.
  intros (rank & Hr) Hcl Ls Rs Hn. destruct (bound rank new) as (b & Hb). destruct (bound rank (seq 0 (length g))) as (f & Hf). assert (Hf' : forall n, n < length g -> rank n < f) by (intros n Ln; apply Hf, in_seq; lia).
  exists (fun n => (if reachb f n then b else 0) + rank n). intros n m C. apply addArgs_child in C. destruct C as [C|[-> I]].
  - pose proof (Hr _ _ C) as Lr. pose proof (Hcl _ _ C) as Lm. destruct (reachb f m) eqn:Em; [|lia].
    assert (Ln : n < length g) by (destruct C as (nd & E & _); apply nth_error_Some; congruence). apply (reachb_ok rank Hr f m (Hf' m Lm)) in Em. assert (En : reachb f n = true) by (apply (reachb_ok rank Hr f n (Hf' n Ln)); exact (R_arg _ _ _ _ C Em)). rewrite En. lia.
  - assert (Es : reachb f s = true) by (apply (reachb_ok rank Hr f s (Hf' s Ls)); exact Rs). rewrite Es.
    destruct (reachb f m) eqn:Em; [|pose proof (Hb m I); lia]. exfalso. destruct (Nat.lt_ge_cases (rank m) f) as [X|X]; [apply (reachb_ok rank Hr f m X) in Em; exact (Hn m I Em)|].
    destruct f as [|f]; [discriminate|]. assert (Lm : ~ m < length g) by (intros Y; pose proof (Hf' m Y); lia). cbn [reachb] in Em. rewrite (proj2 (nth_error_None g m)) in Em by lia. rewrite orb_false_r in Em. apply Nat.eqb_eq in Em. subst m. apply (Hn L I). apply R_here.
Qed.
Lemma addArgs_closed s new : closed g -> (forall m, In m new -> m < length g) -> closed (addArgs s new g).
Proof.
  intros Hcl Hn n m C. assert (E : length (addArgs s new g) = length g) by (unfold addArgs; destruct (nth_error g s); [apply put_length|reflexivity]). rewrite E. apply addArgs_child in C. destruct C as [C|[_ I]]; [exact (Hcl _ _ C)|exact (Hn m I)].
Qed.
End Start.

Section StartValue.
Variable W : Type.
Variable cst : nat -> W.
Variable op : nat -> kind -> list W -> W.
Variable g : graph.
Variable start : nat.
Variable new : list nat.
Hypothesis Hop : forall k vs vs', op start k (vs ++ vs') = op start k vs.
Lemma values_app h kept sto env l1 l2 vs : values W cst op h kept sto env (l1 ++ l2) vs -> exists vs1 vs2, vs = vs1 ++ vs2 /\ values W cst op h kept sto env l1 vs1.
Proof.
  revert vs. induction l1 as [|a l1 IH]; intros vs H; [exists [], vs; split; [reflexivity|constructor]|]. cbn [app] in H. inversion H; subst.
  - destruct (IH _ H3) as (v1 & v2 & -> & X). exists (cst c :: v1), v2. split; [reflexivity|constructor; exact X].
  - destruct (IH _ H4) as (v1 & v2 & -> & X). exists (v :: v1), v2. split; [reflexivity|constructor; assumption].
Qed.
Lemma start_value1 kept sto env n v : value W cst op (addArgs start new g) kept sto env n v -> value W cst op g kept sto env n v.
Proof.
  intros H. refine (value_mut W cst op (addArgs start new g) kept sto env (fun n v _ => value W cst op g kept sto env n v) (fun l vs _ => values W cst op g kept sto env l vs) _ _ _ _ _ _ n v H).
  - intros k K. exact (V_kept W cst op g kept sto env k K).
  - intros k nd NK E K. unfold addArgs in E. destruct (nth_error g start) as [ns|] eqn:Es; [|exact (V_index W cst op g kept sto env k nd NK E K)]. destruct (Nat.eq_dec start k) as [<-|N].
    + rewrite put_same in E by (apply nth_error_Some; congruence). injection E as <-. exact (V_index W cst op g kept sto env start ns NK Es K).
    + rewrite put_other in E by exact N. exact (V_index W cst op g kept sto env k nd NK E K).
  - intros k nd vs NK E K _ IH. unfold addArgs in E. destruct (nth_error g start) as [ns|] eqn:Es; [|exact (V_op W cst op g kept sto env k nd vs NK E K IH)]. destruct (Nat.eq_dec start k) as [<-|N].
    + rewrite put_same in E by (apply nth_error_Some; congruence). injection E as <-. cbn [nkind nargs] in K, IH |- *. destruct (values_app _ _ _ _ _ _ _ IH) as (v1 & v2 & -> & X). rewrite Hop. exact (V_op W cst op g kept sto env start ns v1 NK Es K X).
    + rewrite put_other in E by exact N. exact (V_op W cst op g kept sto env k nd vs NK E K IH).
  - constructor.
  - intros c r vs _ IH. constructor. exact IH.
  - intros k r x vs _ IHk _ IH. constructor; assumption.
Qed.
Lemma start_value kept sto env n v : (forall m, kept m \/ ~ kept m) -> acyclic (addArgs start new g) -> closed (addArgs start new g) -> n < length g -> (value W cst op (addArgs start new g) kept sto env n v <-> value W cst op g kept sto env n v).
Proof.
  intros Dk Ha Hc Ln. split; [apply start_value1|]. intros H. assert (E : length (addArgs start new g) = length g) by (unfold addArgs; destruct (nth_error g start); [apply put_length|reflexivity]).
  destruct (value_total W cst op (addArgs start new g) kept sto env Dk Ha Hc n) as (v2 & H2); [rewrite E; exact Ln|]. rewrite (value_det W cst op g kept sto env n v H v2 (start_value1 _ _ _ _ _ H2)). exact H2.
Qed.
End StartValue.

(** ** The whole search *)
Lemma search_inv g L es : loopGraph g L -> (forall e, In e es -> e < length g) -> exists fuel0, forall fuel, fuel0 <= fuel -> exists s,
  search L fuel g es = Ok (gr s, mv s) /\ Inv g L None (adjust s) /\ (forall e, In e es -> exists v, nth_error (mk s) e = Some (S v)).
Proof.
  intros HG He. destruct HG as (Hac & HG). pose proof (conj Hac HG) as HG'. destruct Hac as (rank & Hr). destruct (bound rank es) as (b & Hb). exists b. intros fuel Lf.
  destruct (ends_spec g L rank Hr (proj1 HG) fuel es (mkSt g [] []) (start_inv g L HG')) as (s & E & I & _ & M); [intros e Ie; split; [exact (He e Ie)|pose proof (Hb e Ie); lia]|].
  exists s. unfold search. rewrite E. cbn [obind]. auto.
Qed.

(** * C39: repeated generation from one handler *)
From Coq Require Import List Bool Arith Lia QArith Qcanon.
From Verif Require Import Graph_model Graph_spec Graph_proofs Graph_Qc CGArith_model Codegen_model Codegen_spec Codegen_dfs Codegen_use
  Codegen_create Codegen_order Codegen_reuse Codegen_plan Codegen_emit Codegen_thm Regen_model.
Import ListNotations.
Local Open Scope nat_scope.

(** ** Specification: histories *)

(** a history without reset *)
Definition noReset {B} (l : list (call B)) : Prop := ~ In KReset l.

(** the same history without its generations: what a fresh handler would record *)
Fixpoint recorded {B} (l : list (call B)) : list (call B) :=
  match l with
  | [] => []
  | KGenerate _ _ _ :: l => recorded l
  | c :: l => c :: recorded l
  end.

(** every generation of the history is a proper one (gen_input) and shares no operation with what is
    needed for the dependents [deps] of the graph [g]: they only have independent variables in common *)
Definition unrelated {B} (g : heap B) (deps d : list (arg B)) : Prop :=
  forall i, reach g d i -> reach g deps i -> exists k, has_op g i (GInv k).
Fixpoint proper {B} {O : BaseOps B} (g : heap B) (deps : list (arg B)) (l : list (call B)) (h : handler B) : Prop :=
  match l with
  | [] => True
  | KNode n :: l => proper g deps l (addNode n h)
  | KReset :: l => proper g deps l (reset h)
  | KGenerate fuel o d :: l =>
      gen_input (h_heap h) (h_indeps h) d /\ unrelated g deps d /\
      forall r, generate fuel o d h = Done r -> proper g deps l (fst r)
  end.

(** ** Names *)
Section Names.
Context {B : Type} {O : BaseOps B}.
Variable g : heap B.
Variable o : options.
Variable indeps : list nat.
Variable deps : list (arg B).
Variable pl : plan.

Notation aN := (allNames g indeps deps pl).

(** names which [nameTemps] replaces *)
Definition retmp (i : nat) : bool := existsb (Nat.eqb i) (p_vo pl) && (negb (isDependent indeps pl i) && requiresVariableName g pl i).

Lemma nameIndeps_keep : forall l nm i x, nm i = Some x -> nameIndeps pl l nm i = Some x.
Proof.
  induction l as [|a l IH]; intros nm i x H; cbn [nameIndeps]; [exact H|]. apply IH.
  destruct (nm a) eqn:E; [exact H|]. unfold upd. destruct (Nat.eqb_spec i a) as [->|]; congruence.
Qed.
Lemma nameDeps_keep : forall (l : list (arg B)) k nm i x, nm i = Some x -> nameDeps l k nm i = Some x.
Proof.
  induction l as [|[a|b] l IH]; intros k nm i x H; cbn [nameDeps]; [exact H| |apply IH, H]. apply IH.
  destruct (nm a) eqn:E; [exact H|]. unfold upd. destruct (Nat.eqb_spec i a) as [->|]; congruence.
Qed.
Lemma nameIndeps_none : forall l nm i, nm i = None -> ~ In i l -> nameIndeps pl l nm i = None.
Proof.
  induction l as [|a l IH]; intros nm i H Hi; cbn [nameIndeps]; [exact H|]. apply IH; [|intros F; apply Hi; right; exact F].
  destruct (nm a) eqn:E; [exact H|]. unfold upd. destruct (Nat.eqb_spec i a) as [->|]; [|exact H]. exfalso. apply Hi. left; reflexivity.
Qed.
Lemma nameDeps_none : forall (l : list (arg B)) k nm i, nm i = None -> ~ In (ANode i) l -> nameDeps l k nm i = None.
Proof.
  induction l as [|[a|b] l IH]; intros k nm i H Hi; cbn [nameDeps]; [exact H| |apply IH; [exact H|intros F; apply Hi; right; exact F]].
  apply IH; [|intros F; apply Hi; right; exact F].
  destruct (nm a) eqn:E; [exact H|]. unfold upd. destruct (Nat.eqb_spec i a) as [->|]; [|exact H]. exfalso. apply Hi. left; reflexivity.
Qed.
Lemma nameIndeps_some : forall l nm i, In i l -> nm i = None -> nameIndeps pl l nm i = Some (LX (p_vid pl i - 1)).
Proof.
  induction l as [|a l IH]; intros nm i Hi H; cbn [nameIndeps]; [destruct Hi|]. destruct Hi as [->|Hi].
  - rewrite H. apply nameIndeps_keep. unfold upd. rewrite Nat.eqb_refl. reflexivity.
  - destruct (nm a) eqn:E; [apply IH; assumption|].
    destruct (Nat.eq_dec i a) as [->|Hne].
    + apply nameIndeps_keep. unfold upd. rewrite Nat.eqb_refl. reflexivity.
    + apply IH; [exact Hi|]. unfold upd. destruct (Nat.eqb_spec i a); congruence.
Qed.
Lemma nameDeps_ext : forall (l : list (arg B)) k nm nm' i, nm i = nm' i -> nameDeps l k nm i = nameDeps l k nm' i.
Proof.
  induction l as [|[a|b] l IH]; intros k nm nm' i H; cbn [nameDeps]; [exact H| |apply IH, H]. apply IH.
  destruct (Nat.eq_dec i a) as [->|Hne].
  - rewrite <- H. destruct (nm a) eqn:E; [congruence|]. unfold upd. rewrite Nat.eqb_refl. reflexivity.
  - assert (Hu : forall (f : nat -> option loc) v, upd f a v i = f i) by (intros f v; unfold upd; destruct (Nat.eqb_spec i a); congruence).
    destruct (nm a); destruct (nm' a); rewrite ?Hu; exact H.
Qed.
Lemma nameIndeps_ext : forall l nm nm' i, nm i = nm' i -> nameIndeps pl l nm i = nameIndeps pl l nm' i.
Proof.
  induction l as [|a l IH]; intros nm nm' i H; cbn [nameIndeps]; [exact H|]. apply IH.
  destruct (Nat.eq_dec i a) as [->|Hne].
  - rewrite <- H. destruct (nm a) eqn:E; [congruence|]. unfold upd. rewrite Nat.eqb_refl. reflexivity.
  - assert (Hu : forall (f : nat -> option loc) v, upd f a v i = f i) by (intros f v; unfold upd; destruct (Nat.eqb_spec i a); congruence).
    destruct (nm a); destruct (nm' a); rewrite ?Hu; exact H.
Qed.

Lemma nameTemps_val : forall l nm i,
  nameTemps g indeps pl l nm i =
  if existsb (Nat.eqb i) l && (negb (isDependent indeps pl i) && requiresVariableName g pl i)
  then Some (LV (p_vid pl i - p_minTmp pl)) else nm i.
Proof.
  induction l as [|a l IH]; intros nm i; cbn [nameTemps existsb]; [reflexivity|]. rewrite IH.
  destruct (Nat.eqb_spec i a) as [->|Hne]; cbn [orb].
  - destruct (negb (isDependent indeps pl a) && requiresVariableName g pl a) eqn:E; rewrite ?andb_true_r, ?andb_false_r.
    + cbn [andb]. destruct (existsb (Nat.eqb a) l); [reflexivity|]. unfold upd. rewrite Nat.eqb_refl. reflexivity.
    + reflexivity.
  - destruct (existsb (Nat.eqb i) l && (negb (isDependent indeps pl i) && requiresVariableName g pl i)); [reflexivity|].
    destruct (negb (isDependent indeps pl a) && requiresVariableName g pl a); [|reflexivity].
    unfold upd. destruct (Nat.eqb_spec i a); congruence.
Qed.

Lemma allNames_val nm i : aN nm i =
  if retmp i then Some (LV (p_vid pl i - p_minTmp pl)) else nameDeps deps 0 (nameIndeps pl indeps nm) i.
Proof. unfold allNames. apply nameTemps_val. Qed.

Lemma allNames_keep nm i x : nm i = Some x -> retmp i = false -> aN nm i = Some x.
Proof. intros H E. rewrite allNames_val, E. apply nameDeps_keep, nameIndeps_keep, H. Qed.

Lemma allNames_ext nm nm' i : nm i = nm' i -> aN nm i = aN nm' i.
Proof. intros H. rewrite !allNames_val. destruct (retmp i); [reflexivity|]. apply nameDeps_ext, nameIndeps_ext, H. Qed.

(** names of a generation given those the nodes had before it *)
Definition leaves (nm : nat -> option loc) (i : nat) : option loc :=
  if existsb (Nat.eqb i) (p_vo pl) then varName g indeps deps pl nm i else nm i.

Lemma nameDeps_in : forall (l : list (arg B)) k nm i, In (ANode i) l -> nameDeps l k nm i <> None.
Proof.
  induction l as [|[a|b] l IH]; intros k nm i Hi; cbn [nameDeps]; [destruct Hi| |].
  - destruct Hi as [[= ->]|Hi]; [|apply IH, Hi].
    destruct (nm i) as [x|] eqn:E.
    + rewrite (nameDeps_keep _ _ _ _ x E). discriminate.
    + rewrite (nameDeps_keep _ _ _ _ (LY k)); [discriminate|]. unfold upd. rewrite Nat.eqb_refl. reflexivity.
  - destruct Hi as [Hi|Hi]; [discriminate|]. apply IH, Hi.
Qed.
Lemma nameIndeps_in l nm i : In i l -> nameIndeps pl l nm i <> None.
Proof.
  intros Hi. destruct (nm i) as [x|] eqn:E; [rewrite (nameIndeps_keep _ _ _ x E)|rewrite nameIndeps_some by assumption]; discriminate.
Qed.

Lemma allNames_none nm i : aN nm i = None -> retmp i = false /\ nm i = None /\ ~ In i indeps /\ ~ In (ANode i) deps.
Proof.
  rewrite allNames_val. destruct (retmp i); [discriminate|]. intros H. split; [reflexivity|].
  split; [|split].
  - destruct (nm i) as [x|] eqn:E; [|reflexivity]. rewrite (nameDeps_keep _ _ _ _ x) in H; [discriminate|]. apply nameIndeps_keep, E.
  - intros Hi. destruct (nameIndeps pl indeps nm i) as [x|] eqn:E; [|apply (nameIndeps_in _ _ _ Hi E)].
    rewrite (nameDeps_keep _ _ _ _ x E) in H. discriminate.
  - intros Hi. apply (nameDeps_in _ _ _ _ Hi H).
Qed.

(** a generation repeated from the names it left uses the same names *)
Lemma again_varName nm i : varName g indeps deps pl (aN (leaves (aN nm))) i = varName g indeps deps pl (aN nm) i.
Proof.
  unfold varName at 2. destruct (aN nm i) as [x|] eqn:E.
  - destruct (retmp i) eqn:Er.
    + unfold varName. rewrite allNames_val, Er in *. exact E.
    + unfold varName. rewrite (allNames_keep _ _ x); [reflexivity| |exact Er].
      unfold leaves, varName. rewrite E. destruct (existsb _ _); reflexivity.
  - destruct (allNames_none _ _ E) as (Er & _ & Hi & Hd).
    destruct (leaves (aN nm) i) as [x|] eqn:El.
    + unfold varName at 1. rewrite (allNames_keep _ _ x El Er). unfold leaves, varName in El. rewrite E in El.
      destruct (existsb _ _); [symmetry; exact El|discriminate].
    + unfold varName. rewrite allNames_val, Er. rewrite nameDeps_none; [reflexivity| |exact Hd]. apply nameIndeps_none; assumption.
Qed.

Lemma again_deps nm i : In (ANode i) deps -> aN (leaves (aN nm)) i = aN nm i.
Proof.
  intros Hd. destruct (aN nm i) as [x|] eqn:E.
  - destruct (retmp i) eqn:Er; [rewrite allNames_val, Er in *; exact E|].
    apply allNames_keep; [|exact Er]. unfold leaves, varName. rewrite E. destruct (existsb _ _); reflexivity.
  - destruct (allNames_none _ _ E) as (_ & _ & _ & H). contradiction.
Qed.

(** ** The code only depends on the names of the nodes it needs *)
Section Ext.
Variable nm nm' : nat -> option loc.
Variable S : nat -> Prop.
Hypothesis S_args : forall i j, S i -> In j (nargs g i) -> S j.
Hypothesis S_vo : forall i, In i (p_vo pl) -> S i.
Hypothesis same : forall i, S i -> varName g indeps deps pl nm i = varName g indeps deps pl nm' i.
Hypothesis same_deps : forall i, In (ANode i) deps -> nm i = nm' i.

Lemma in_anodes : forall (l : list (arg B)) j, In (ANode j) l -> In j (anodes l).
Proof.
  induction l as [|[k|b] l IH]; intros j H; cbn [anodes]; [destruct H| |].
  - destruct H as [[= ->]|H]; [left; reflexivity|right; apply IH, H].
  - destruct H as [H|H]; [discriminate|apply IH, H].
Qed.

Lemma exprOf_ext : forall fuel i, S i -> exprOf g indeps deps pl nm fuel i = exprOf g indeps deps pl nm' fuel i.
Proof.
  induction fuel as [|fuel IH]; intros i Hi; [reflexivity|]. cbn [exprOf].
  assert (HA : forall a, In a (gargs g i) ->
    match a with
    | ANode j => if Nat.eqb (p_vid pl j) 0 then exprOf g indeps deps pl nm fuel j
                 else match varName g indeps deps pl nm j with Some l => Done (XLoc l) | None => Bad end
    | APar b => Done (XPar b)
    end =
    match a with
    | ANode j => if Nat.eqb (p_vid pl j) 0 then exprOf g indeps deps pl nm' fuel j
                 else match varName g indeps deps pl nm' j with Some l => Done (XLoc l) | None => Bad end
    | APar b => Done (XPar b)
    end).
  { intros [j|b] Ha; [|reflexivity].
    assert (Hj : S j) by (eapply S_args; [exact Hi|apply in_anodes, Ha]). rewrite IH, same by exact Hj. reflexivity. }
  destruct (opc g i) eqn:Eo; try reflexivity;
    destruct (gargs g i) as [|a [|b [|c l]]] eqn:Eg; try reflexivity;
    try (cbn [obind]; rewrite ?(HA a), ?(HA b) by (cbn [In]; auto); reflexivity).
  destruct a as [j|x]; [|reflexivity].
  assert (Hj : S j) by (eapply S_args; [exact Hi|apply in_anodes; rewrite Eg; left; reflexivity]).
  rewrite (same j Hj). reflexivity.
Qed.

Lemma argExpr_ext fuel i a : S i -> In a (gargs g i) -> argExpr g indeps deps pl nm fuel a = argExpr g indeps deps pl nm' fuel a.
Proof.
  intros Hi Ha. destruct a as [j|b]; [|reflexivity]. cbn [argExpr].
  assert (Hj : S j) by (eapply S_args; [exact Hi|apply in_anodes, Ha]). rewrite exprOf_ext, same by exact Hj. reflexivity.
Qed.

Lemma stmtOf_ext fuel i : S i -> stmtOf g o indeps deps pl nm fuel i = stmtOf g o indeps deps pl nm' fuel i.
Proof.
  intros Hi. unfold stmtOf. rewrite (same i Hi), (exprOf_ext fuel i Hi).
  destruct (varName g indeps deps pl nm' i); [|reflexivity].
  destruct (opc g i); try reflexivity. destruct (gargs g i) as [|a1 [|a2 [|a3 [|a4 [|a5 r]]]]] eqn:Eg; try reflexivity.
  rewrite !(argExpr_ext fuel i) by (try exact Hi; rewrite Eg; cbn [In]; auto). reflexivity.
Qed.

Lemma omap_ext {A C} (f f' : A -> outcome C) : forall l, (forall x, In x l -> f x = f' x) -> omap f l = omap f' l.
Proof.
  induction l as [|x l IH]; intros H; cbn [omap]; [reflexivity|]. rewrite (H x) by (left; reflexivity).
  rewrite IH; [reflexivity|]. intros y Hy. apply H. right; exact Hy.
Qed.

Lemma duplicates_ext : forall l k, (forall i, In (ANode i) l -> nm i = nm' i) ->
  duplicates g o deps pl nm l k = duplicates g o deps pl nm' l k.
Proof.
  induction l as [|[j|b] l IH]; intros k H; cbn [duplicates]; [reflexivity| |apply IH; intros i Hi; apply H; right; exact Hi].
  rewrite IH by (intros i Hi; apply H; right; exact Hi). rewrite (H j) by (left; reflexivity). reflexivity.
Qed.
Lemma constants_ext : forall l k, (forall i, In (ANode i) l -> nm i = nm' i) ->
  constants g o nm l k = constants g o nm' l k.
Proof.
  induction l as [|[j|b] l IH]; intros k H; cbn [constants]; [reflexivity| |].
  - rewrite IH by (intros i Hi; apply H; right; exact Hi). rewrite (H j) by (left; reflexivity). reflexivity.
  - rewrite IH by (intros i Hi; apply H; right; exact Hi). reflexivity.
Qed.

Lemma source_ext fuel : source g o indeps deps pl nm fuel = source g o indeps deps pl nm' fuel.
Proof.
  unfold source. rewrite (omap_ext _ (stmtOf g o indeps deps pl nm' fuel)) by (intros i Hi; apply stmtOf_ext, S_vo, Hi).
  rewrite duplicates_ext, constants_ext by exact same_deps. reflexivity.
Qed.
End Ext.
End Names.

(** ** What a generation gives, without the handler it leaves *)
Definition codeOf {B} (x : outcome (handler B * generated B)) : outcome (generated B) :=
  match x with Done (_, ge) => Done ge | Fuel => Fuel | Bad => Bad end.
(** the same assignments on the same number of temporaries, or the same failure *)
Definition same_code {B} (x y : outcome (generated B)) : Prop :=
  match x, y with
  | Done a, Done b => ge_prog a = ge_prog b /\ ge_size a = ge_size b
  | Fuel, Fuel => True
  | Bad, Bad => True
  | _, _ => False
  end.

Section Tabs.
Context {B : Type} {O : BaseOps B}.

Lemma planFrom0 (g : heap B) fuel o indeps deps :
  match planFrom g fuel o indeps deps tabs0 with Done (pl, _) => Done pl | Fuel => Fuel | Bad => Bad end =
  makePlan g fuel o indeps deps.
Proof.
  unfold planFrom, makePlan, reduceFrom, reduceTemporaryVariables, tabs0. cbn [t_vid t_uc t_opc t_ord t_last].
  destruct (depIds (anodes deps) (indepIds indeps (fun _ => 0, 1))) as [vid0 n0].
  destruct (ofold (markCodeBlockUsed g fuel) (anodes deps) (fun _ => 0)) as [uc| |]; [|reflexivity|reflexivity]. cbn [obind].
  destruct (ofold (createForDep g fuel (o_maxOps o) uc) (anodes deps) _) as [cv| |]; [|reflexivity|reflexivity]. cbn [obind].
  destruct (setOrders g fuel (c_q cv) 0 (fun _ => 0)) as [ord| |]; [|reflexivity|reflexivity]. cbn [obind].
  destruct (o_reuse o); [|reflexivity].
  destruct (reorderOperations g fuel n0 (c_vid cv) (anodes deps) (c_q cv, ord)) as [r| |]; [|reflexivity|reflexivity]. cbn [obind].
  destruct (ofold (lastUsageForDep g fuel (snd r)) (anodes deps) _) as [lu| |]; [|reflexivity|reflexivity]. cbn [obind].
  destruct (negb (l_ok lu)); [reflexivity|]. destruct (existsb _ _); [reflexivity|].
  destruct (redefine n0 (l_last lu) (fst r) (fst r) 0 (c_vid cv, [], n0)) as [[vid fr] next]. cbn [obind].
  destruct r; reflexivity.
Qed.

Definition clean (h : handler B) : Prop := h_used h = false -> h_tabs h = tabs0.

Lemma generate_clean fuel o deps h : clean h ->
  codeOf (generate fuel o deps h) = generateCode (h_heap h) fuel o (h_indeps h) deps (h_names h).
Proof.
  intros Hc. unfold generate, generateCode.
  replace (if h_used h then tabs0 else h_tabs h) with tabs0 by (destruct (h_used h) eqn:E; [|rewrite (Hc E)]; reflexivity).
  rewrite <- planFrom0. destruct (planFrom (h_heap h) fuel o (h_indeps h) deps tabs0) as [[pl t']| |]; [|reflexivity|reflexivity].
  cbn [obind]. cbv zeta.
  destruct (source _ _ _ _ _ _ _); reflexivity.
Qed.

Lemma generate_parts fuel o deps h h' ge : generate fuel o deps h = Done (h', ge) ->
  h_heap h' = h_heap h /\ h_indeps h' = h_indeps h /\ h_used h' = true /\ h_names h' = ge_names ge.
Proof.
  unfold generate. intros E. apply obind_done in E. destruct E as ([pl t'] & _ & E). cbv zeta in E.
  apply obind_done in E. destruct E as (s & _ & [= <- <-]). cbn. auto.
Qed.

Lemma run_clean : forall l h h' outs, runCalls l h = Done (h', outs) -> noReset l -> clean h -> clean h'.
Proof.
  induction l as [|c l IH]; intros h h' outs E Hn Hc; cbn [runCalls] in E.
  - injection E as <- <-. exact Hc.
  - assert (Hn' : noReset l) by (intros F; apply Hn; right; exact F).
    destruct c as [n|fuel o deps|].
    + eapply IH; [exact E|exact Hn'|]. exact Hc.
    + apply obind_done in E. destruct E as ([h1 ge] & Eg & E). apply obind_done in E. destruct E as ([h2 ges] & Er & E).
      injection E as <- <-. eapply IH; [exact Er|exact Hn'|].
      destruct (generate_parts _ _ _ _ _ _ Eg) as (_ & _ & Hu & _). intros F. cbn [fst] in F. congruence.
    + exfalso. apply Hn. left; reflexivity.
Qed.

(** histories only add nodes *)
Lemma run_prefix : forall l h h' outs, runCalls l h = Done (h', outs) -> noReset l -> exists r, h_heap h' = h_heap h ++ r.
Proof.
  induction l as [|c l IH]; intros h h' outs E Hn; cbn [runCalls] in E.
  - injection E as <- <-. exists []. rewrite app_nil_r. reflexivity.
  - assert (Hn' : noReset l) by (intros F; apply Hn; right; exact F).
    destruct c as [n|fuel o deps|].
    + destruct (IH _ _ _ E Hn') as [r Hr]. cbn [addNode h_heap] in Hr. rewrite <- app_assoc in Hr. eexists; exact Hr.
    + apply obind_done in E. destruct E as ([h1 ge] & Eg & E). apply obind_done in E. destruct E as ([h2 ges] & Er & E).
      injection E as <- <-. destruct (IH _ _ _ Er Hn') as [r Hr]. cbn [fst] in *.
      destruct (generate_parts _ _ _ _ _ _ Eg) as (Hh & _). rewrite Hh in Hr. exists r. exact Hr.
    + exfalso. apply Hn. left; reflexivity.
Qed.

Lemma edge_app (g r : heap B) i j : edge g i j -> edge (g ++ r) i j.
Proof. intros (n & En & Hj). exists n. split; [|exact Hj]. rewrite nth_error_app1; [exact En|]. apply nth_error_Some. congruence. Qed.
Lemma reach_app (g r : heap B) d i : reach g d i -> reach (g ++ r) d i.
Proof. induction 1 as [i H|i j H IH E]; [apply reach_dep, H|eapply reach_arg; [exact IH|apply edge_app, E]]. Qed.
Lemma has_op_app (g r : heap B) i o : i < length g -> has_op (g ++ r) i o -> has_op g i o.
Proof. intros Hi (n & En & Ho). rewrite nth_error_app1 in En by exact Hi. exists n. auto. Qed.

(** names a handler holds when its generations share nothing but independents with [deps] *)
Definition names_inv (g : heap B) (deps : list (arg B)) (h : handler B) : Prop :=
  (forall i l, h_names h i = Some l -> In i (h_indeps h) -> exists p, nth_error (h_indeps h) p = Some i /\ l = LX p) /\
  (forall i l, h_names h i = Some l -> ~ In i (h_indeps h) -> ~ reach g deps i).

Section One.
Variable g : heap B.
Variable indeps : list nat.
Variable deps : list (arg B).
Hypothesis HG : gen_input g indeps deps.
Variable fuel : nat.
Variable o : options.
Variable pl : plan.
Hypothesis Epl : makePlan g fuel o indeps deps = Done pl.

Lemma vo_reach i : In i (p_vo pl) -> reach g deps i /\ isInv g i = false.
Proof.
  destruct (plan_correct g indeps deps HG fuel o pl Epl) as (cv & uc & vid0 & n0 & PO). rewrite (po_vo _ _ _ _ _ _ _ _ PO).
  intros Hi. pose proof (po_created _ _ _ _ _ _ _ _ PO) as CR. apply (cr_q _ _ _ _ _ _ CR) in Hi. tauto.
Qed.
Lemma indep_vid p i : nth_error indeps p = Some i -> p_vid pl i = Datatypes.S p.
Proof.
  destruct (plan_correct g indeps deps HG fuel o pl Epl) as (cv & uc & vid0 & n0 & PO).
  apply (vid_indep g indeps deps HG pl cv uc vid0 n0 PO).
Qed.
Lemma indep_retmp i : In i indeps -> retmp g indeps pl i = false.
Proof.
  intros Hi. unfold retmp. destruct (existsb (Nat.eqb i) (p_vo pl)) eqn:E; [|reflexivity].
  apply existsb_exists in E. destruct E as (x & Hx & E). apply Nat.eqb_eq in E. subst x.
  apply vo_reach in Hx. destruct Hx as [_ Hx]. rewrite (indep_inv g indeps deps HG i Hi) in Hx. discriminate.
Qed.
Lemma indep_name nm i p : nth_error indeps p = Some i -> (forall l, nm i = Some l -> l = LX p) ->
  allNames g indeps deps pl nm i = Some (LX p).
Proof.
  intros Hp Hl. assert (Hi : In i indeps) by (eapply nth_error_In, Hp).
  destruct (nm i) as [l|] eqn:E.
  - rewrite (Hl l eq_refl) in E. apply allNames_keep; [exact E|apply indep_retmp, Hi].
  - rewrite allNames_val, (indep_retmp _ Hi). apply nameDeps_keep. rewrite nameIndeps_some by assumption.
    rewrite (indep_vid _ _ Hp). do 2 f_equal. lia.
Qed.
Lemma named_after nm i : (exists l, leaves g indeps deps pl (allNames g indeps deps pl nm) i = Some l) ->
  (exists l, nm i = Some l) \/ In i indeps \/ reach g deps i.
Proof.
  intros [l H]. destruct (nm i) as [x|] eqn:E; [left; eexists; reflexivity|]. right.
  destruct (in_dec Nat.eq_dec i indeps) as [Hi|Hi]; [left; exact Hi|]. right.
  destruct (in_dec Nat.eq_dec i (anodes deps)) as [Hd|Hd]; [apply reach_dep, anodes_in, Hd|].
  destruct (existsb (Nat.eqb i) (p_vo pl)) eqn:Ev.
  - apply existsb_exists in Ev. destruct Ev as (x & Hx & Ev). apply Nat.eqb_eq in Ev. subst x. apply vo_reach, Hx.
  - unfold leaves in H. rewrite Ev in H. rewrite allNames_val in H. unfold retmp in H. rewrite Ev in H. cbn [andb] in H.
    rewrite nameDeps_none in H; [discriminate| |rewrite <- anodes_in; exact Hd]. apply nameIndeps_none; assumption.
Qed.
End One.

Lemma run_names g deps : forall l h h' outs, runCalls l h = Done (h', outs) -> noReset l -> g = h_heap h' ->
  clean h -> proper g deps l h -> names_inv g deps h -> names_inv g deps h'.
Proof.
  induction l as [|c l IH]; intros h h' outs E Hn Hg Hcl Hp HI.
  - cbn [runCalls] in E. injection E as <- <-. exact HI.
  - assert (Hn' : noReset l) by (intros F; apply Hn; right; exact F).
    pose proof (run_prefix _ _ _ _ E Hn) as [r Hpre]. rewrite <- Hg in Hpre.
    cbn [runCalls] in E. destruct HI as [HI1 HI2]. destruct c as [n|fuel o d|].
    + cbn [proper] in Hp. eapply IH; [exact E|exact Hn'|exact Hg|exact Hcl|exact Hp|].
      split; cbn [addNode h_names h_indeps]; intros i x Hx Hi; unfold upd in Hx;
        destruct (Nat.eqb_spec i (length (h_heap h))) as [->|Hne]; try discriminate.
      * assert (Hi' : In i (h_indeps h)).
        { destruct (isIndepNode n); [|exact Hi]. apply in_app_or in Hi. destruct Hi as [Hi|[Hi|[]]]; [exact Hi|congruence]. }
        destruct (HI1 i x Hx Hi') as (p & Hp1 & Hp2). exists p. split; [|exact Hp2].
        destruct (isIndepNode n); [|exact Hp1]. rewrite nth_error_app1; [exact Hp1|]. apply nth_error_Some. congruence.
      * apply (HI2 i x Hx). intros F. apply Hi. destruct (isIndepNode n); [apply in_or_app; left; exact F|exact F].
    + apply obind_done in E. destruct E as ([h1 ge] & Eg & E). apply obind_done in E. destruct E as ([h2 ges] & Er & E).
      injection E as <- <-. cbn [fst] in *. cbn [proper] in Hp. destruct Hp as (HG & Hun & Hp).
      destruct (generate_parts _ _ _ _ _ _ Eg) as (Hh & Hi & Hu & Hnm).
      pose proof (generate_clean fuel o d h Hcl) as Hgc. rewrite Eg in Hgc. cbn [codeOf] in Hgc. symmetry in Hgc.
      unfold generateCode in Hgc. apply obind_done in Hgc. destruct Hgc as (pl & Epl & Hgc). cbv zeta in Hgc.
      apply obind_done in Hgc. destruct Hgc as (s & _ & Hgc). injection Hgc as Hgc. subst ge. cbn [ge_names] in Hnm.
      eapply IH; [exact Er|exact Hn'|exact Hg| |apply (Hp _ Eg)|].
      { intros F. congruence. }
      fold (leaves (h_heap h) (h_indeps h) d pl (allNames (h_heap h) (h_indeps h) d pl (h_names h))) in Hnm.
      split; rewrite Hnm, Hi; intros i x Hx Hin.
      * pose proof Hin as Hin'. apply In_nth_error in Hin'. destruct Hin' as [p Hp1]. exists p. split; [exact Hp1|].
        assert (Ea : allNames (h_heap h) (h_indeps h) d pl (h_names h) i = Some (LX p)).
        { apply (indep_name _ _ _ HG fuel o pl Epl); [exact Hp1|]. intros y Hy.
          destruct (HI1 i y Hy Hin) as (p' & Hp' & ->). f_equal.
          eapply nodup_nth; [apply (gi_indeps _ _ _ HG)|eassumption|eassumption]. }
        unfold leaves, varName in Hx. rewrite Ea in Hx. destruct (existsb _ _) in Hx; congruence.
      * destruct (named_after _ _ _ HG fuel o pl Epl (h_names h) i) as [[y Hy]|[Hy|Hy]].
        -- exists x. exact Hx.
        -- apply (HI2 i y Hy Hin).
        -- contradiction.
        -- intros Hr. assert (Hr' : reach g d i) by (rewrite Hpre; apply reach_app, Hy).
           destruct (Hun i Hr' Hr) as [k Hk]. rewrite Hpre in Hk. apply has_op_app in Hk; [|apply (gi_dom _ _ _ HG), Hy].
           apply Hin. eapply (gi_inv_indeps _ _ _ HG); eassumption.
    + exfalso. apply Hn. left; reflexivity.
Qed.

(** code from names which are right for the independents and absent for the rest *)
Lemma same_as_fresh (g : heap B) indeps deps fuel o nm nm' : gen_input g indeps deps ->
  (forall i l, nm i = Some l -> In i indeps -> exists p, nth_error indeps p = Some i /\ l = LX p) ->
  (forall i l, nm i = Some l -> ~ In i indeps -> ~ reach g deps i) ->
  (forall i, nm' i = None) ->
  same_code (generateCode g fuel o indeps deps nm) (generateCode g fuel o indeps deps nm').
Proof.
  intros HG H1 H2 H0. unfold generateCode. destruct (makePlan g fuel o indeps deps) as [pl| |] eqn:Epl; [|exact I|exact I].
  cbn [obind]. cbv zeta.
  assert (HN : forall i, reach g deps i -> allNames g indeps deps pl nm i = allNames g indeps deps pl nm' i).
  { intros i Hr. destruct (in_dec Nat.eq_dec i indeps) as [Hi|Hi].
    - pose proof Hi as Hi'. apply In_nth_error in Hi'. destruct Hi' as [p Hp].
      rewrite !(indep_name _ _ _ HG fuel o pl Epl _ _ p Hp); [reflexivity| |].
      + intros l Hl. rewrite H0 in Hl. discriminate.
      + intros l Hl. destruct (H1 i l Hl Hi) as (p' & Hp' & ->). f_equal.
        eapply nodup_nth; [apply (gi_indeps _ _ _ HG)|eassumption|eassumption].
    - apply allNames_ext. rewrite H0. destruct (nm i) as [l|] eqn:E; [|reflexivity]. exfalso. apply (H2 i l E Hi Hr). }
  rewrite (source_ext g o indeps deps pl _ (allNames g indeps deps pl nm') (reach g deps)).
  - destruct (source _ _ _ _ _ _ _); cbn; auto.
  - intros i j Hi Hj. eapply reach_arg; [exact Hi|apply nargs_edge, Hj].
  - intros i Hi. apply (vo_reach _ _ _ HG fuel o pl Epl), Hi.
  - intros i Hi. unfold varName. rewrite HN by exact Hi. reflexivity.
  - intros i Hi. apply HN, reach_dep, Hi.
Qed.

(** a handler which only recorded *)
Lemma run_recorded : forall l h h' outs hf, runCalls l h = Done (h', outs) -> noReset l ->
  h_heap hf = h_heap h -> h_indeps hf = h_indeps h -> clean hf -> (forall i, h_names hf i = None) ->
  exists hf', runCalls (recorded l) hf = Done (hf', []) /\ h_heap hf' = h_heap h' /\ h_indeps hf' = h_indeps h' /\ clean hf' /\
    forall i, h_names hf' i = None.
Proof.
  induction l as [|c l IH]; intros h h' outs hf E Hn Hh Hi Hc Hnm; cbn [runCalls] in E; cbn [recorded].
  - injection E as <- <-. exists hf. cbn [runCalls]. auto.
  - assert (Hn' : noReset l) by (intros F; apply Hn; right; exact F).
    destruct c as [n|fuel o d|].
    + cbn [runCalls]. apply (IH (addNode n h) h' outs); [exact E|exact Hn'| | |exact Hc|];
        cbn [addNode h_heap h_indeps h_names]; rewrite ?Hh, ?Hi; try reflexivity.
      intros i. unfold upd. destruct (Nat.eqb i _); [reflexivity|apply Hnm].
    + apply obind_done in E. destruct E as ([h1 ge] & Eg & E). apply obind_done in E. destruct E as ([h2 ges] & Er & E).
      injection E as <- <-. cbn [fst] in *. destruct (generate_parts _ _ _ _ _ _ Eg) as (Hh1 & Hi1 & _).
      apply (IH h1 h2 ges); auto; congruence.
    + exfalso. apply Hn. left; reflexivity.
Qed.
End Tabs.

(** ** C39 *)

(** However a handler was used before, as long as it was not reset, a generation starts from cleared
    tables: it writes the code of [generateCode] (whose tables are all zero) for the names the nodes have. *)
Theorem C39_tables_are_clean :
  forall (B : Type) (O : BaseOps B) calls h outs, runCalls calls (newHandler (B := B)) = Done (h, outs) -> noReset calls ->
  forall fuel o deps,
  codeOf (generate fuel o deps h) = generateCode (h_heap h) fuel o (h_indeps h) deps (h_names h).
Proof.
  intros B O calls h outs E Hn fuel o deps. apply generate_clean. eapply run_clean; [exact E|exact Hn|]. intros _. reflexivity.
Qed.
Print Assumptions C39_tables_are_clean.

(** The same request, repeated any number of times, gives the same code every time. *)
Theorem C39_same_request_same_code :
  forall (B : Type) (O : BaseOps B) calls h outs, runCalls calls (newHandler (B := B)) = Done (h, outs) -> noReset calls ->
  forall fuel o deps h1 ge, generate fuel o deps h = Done (h1, ge) ->
  forall n, exists hn ges, runCalls (repeat (KGenerate fuel o deps) n) h1 = Done (hn, ges) /\ length ges = n /\
  Forall (fun ge' => ge_prog ge' = ge_prog ge /\ ge_size ge' = ge_size ge) ges.
Proof.
  intros B O calls h outs E Hn fuel o deps h1 ge Eg.
  assert (Hc : clean h) by (eapply run_clean; [exact E|exact Hn|intros _; reflexivity]).
  pose proof (generate_clean fuel o deps h Hc) as Hgc. rewrite Eg in Hgc. cbn [codeOf] in Hgc. symmetry in Hgc.
  destruct (generate_parts _ _ _ _ _ _ Eg) as (Hh & Hi & Hu & Hnm).
  unfold generateCode in Hgc. apply obind_done in Hgc. destruct Hgc as (pl & Epl & Hgc). cbv zeta in Hgc.
  apply obind_done in Hgc. destruct Hgc as (s & Es & Hgc). injection Hgc as Hgc. subst ge. cbn [ge_names] in Hnm.
  set (g := h_heap h) in *. set (ind := h_indeps h) in *. cbn [ge_prog ge_size].
  pose (N := allNames g ind deps pl (h_names h)). fold N in Es, Hnm.
  assert (INV : forall i, varName g ind deps pl (allNames g ind deps pl (h_names h1)) i = varName g ind deps pl N i)
    by (intros i; rewrite Hnm; apply again_varName).
  assert (IND : forall i, In (ANode i) deps -> allNames g ind deps pl (h_names h1) i = N i)
    by (intros i Hd; rewrite Hnm; apply again_deps, Hd).
  clear Eg Hnm E. intros n. revert h1 Hh Hi Hu INV IND. induction n as [|n IH]; intros h1 Hh Hi Hu INV IND.
  - exists h1, []. cbn. auto.
  - assert (Hc1 : clean h1) by (intros F; congruence).
    pose proof (generate_clean fuel o deps h1 Hc1) as Hgc. rewrite Hh, Hi in Hgc. unfold generateCode in Hgc.
    rewrite Epl in Hgc. cbn [obind] in Hgc. cbv zeta in Hgc.
    rewrite (source_ext g o ind deps pl _ N (fun _ => True)) in Hgc; try (intros; exact I); try (intros; auto; fail).
    rewrite Es in Hgc. cbn [obind] in Hgc.
    destruct (generate fuel o deps h1) as [[h2 ge2]| |] eqn:Eg2; try discriminate. cbn [codeOf] in Hgc. injection Hgc as Hgc.
    destruct (generate_parts _ _ _ _ _ _ Eg2) as (Hh2 & Hi2 & Hu2 & Hnm2). rewrite Hgc in Hnm2. cbn [ge_names] in Hnm2.
    destruct (IH h2) as (hn & ges & Er & Hlen & Hall); try congruence.
    + intros i. rewrite Hnm2. rewrite <- INV. apply again_varName.
    + intros i Hd. rewrite Hnm2. rewrite <- IND by exact Hd. apply again_deps, Hd.
    + exists hn, (ge2 :: ges). cbn [repeat runCalls]. rewrite Eg2. cbn [obind fst snd]. rewrite Er. cbn [obind fst snd].
      split; [reflexivity|]. split; [cbn [length]; congruence|]. constructor; [|exact Hall]. subst ge2. cbn. auto.
Qed.
Print Assumptions C39_same_request_same_code.

(** Generations for other dependents do not change the code, as long as they have nothing in common with the
    requested dependents but independent variables: the code is the one of a fresh handler which
    recorded the same nodes. *)
Theorem C39_unrelated_generations_do_not_interfere :
  forall (B : Type) (O : BaseOps B) calls h outs deps, runCalls calls (newHandler (B := B)) = Done (h, outs) -> noReset calls ->
  gen_input (h_heap h) (h_indeps h) deps -> proper (h_heap h) deps calls newHandler ->
  exists hf, runCalls (recorded calls) newHandler = Done (hf, []) /\ h_heap hf = h_heap h /\
  forall fuel o, same_code (codeOf (generate fuel o deps h)) (codeOf (generate fuel o deps hf)).
Proof.
  intros B O calls h outs deps E Hn HG Hp.
  destruct (run_recorded calls newHandler h outs newHandler E Hn eq_refl eq_refl (fun _ => eq_refl) (fun _ => eq_refl))
    as (hf & Ef & Hh & Hi & Hc & Hnm).
  exists hf. split; [exact Ef|]. split; [exact Hh|]. intros fuel o.
  assert (Hcl : clean h) by (eapply run_clean; [exact E|exact Hn|intros _; reflexivity]).
  rewrite !generate_clean by assumption. rewrite Hh, Hi.
  destruct (run_names (h_heap h) deps calls newHandler h outs E Hn eq_refl (fun _ => eq_refl) Hp) as [H1 H2].
  { split; intros i l Hl; discriminate. }
  apply same_as_fresh; assumption.
Qed.
Print Assumptions C39_unrelated_generations_do_not_interfere.

(** ** A concrete history, and histories for which the code is wrong *)
Definition rnode (o : gop) (i j : nat) : node Qc := mkNode 0 o [ANode i; ANode j].
(** x0, x1, a = x0 + x1, b = a * a, c = x0 - x1, d = c * b *)
Definition rcalls : list (call Qc) :=
  [KNode (mkNode 0 (GInv 0) []); KNode (mkNode 0 (GInv 1) []); KNode (rnode GAdd 0 1); KNode (rnode GMul 2 2);
   KNode (rnode GSub 0 1); KNode (rnode GMul 4 3)].
Definition rheap : heap Qc := match runCalls rcalls newHandler with Done (h, _) => h_heap h | _ => [] end.
Definition ropts (maxOps : nat) (reuse : bool) : options := mkOpts maxOps reuse false false ASet.
Definition rdeps (l : list nat) : list (arg Qc) := map ANode l.
(** values of the nodes at x0 = 3, x1 = 2 *)
Definition rq (n : Z) : Qc := Q2Qc (n # 1).
Definition renv (h k : nat) : Qc := match k with 0 => rq 3 | _ => rq 2 end.
Definition rsol (i : nat) : option Qc :=
  match i with 0 => Some (rq 3) | 1 => Some (rq 2) | 2 => Some (rq 5) | 3 => Some (rq 25) | 4 => Some (rq 1) | _ => Some (rq 25) end.
Definition rmem (l : loc) : option Qc := match l with LX 0 => Some (rq 3) | LX _ => Some (rq 2) | _ => None end.

Lemma rsolves : solves renv rheap rsol.
Proof.
  intros i n E. do 6 (destruct i as [|i]; [injection E as <-; vm_compute; reflexivity|]). destruct i; discriminate.
Qed.

Lemma rreach l i : (forall j, In j l -> j < 6) -> reach rheap (rdeps l) i -> i < 6.
Proof.
  intros Hl. induction 1 as [i H|i j H IH (n & En & Hj)].
  - apply in_map_iff in H. destruct H as (k & [= ->] & Hk). apply Hl, Hk.
  - do 6 (destruct i as [|i]; [injection En as <-; cbn [n_args rnode In] in Hj;
      repeat (destruct Hj as [[= <-]|Hj]; [lia|]); destruct Hj|]). destruct i; discriminate.
Qed.

Lemma rinput l : (forall j, In j l -> j < 6) -> gen_input rheap [0; 1] (rdeps l).
Proof.
  intros Hl. constructor.
  - exists (fun i => i). intros i j (n & En & Hj).
    do 6 (destruct i as [|i]; [injection En as <-; cbn [n_args rnode In] in Hj;
      repeat (destruct Hj as [[= <-]|Hj]; [lia|]); destruct Hj|]). destruct i; discriminate.
  - intros i Hi. exact (rreach l i Hl Hi).
  - intros i n _ En. do 6 (destruct i as [|i]; [injection En as <-; reflexivity|]). destruct i; discriminate.
  - repeat constructor; cbn; intuition discriminate.
  - intros i [<-|[<-|[]]]; eexists; eexists; split; reflexivity.
  - intros i k _ (n & En & Ho). do 6 (destruct i as [|i]; [injection En as <-; try discriminate Ho; cbn; auto|]). destruct i; discriminate.
  - intros i n _ En Ho. do 6 (destruct i as [|i]; [injection En as <-; discriminate Ho|]). destruct i; discriminate.
  - intros i n _ En Ho. do 6 (destruct i as [|i]; [injection En as <-; discriminate Ho|]). destruct i; discriminate.
  - intros i _ (n & En & Ho). do 6 (destruct i as [|i]; [injection En as <-; discriminate Ho|]). destruct i; discriminate.
Qed.

(** dependents b first, then c (they only share x0 and x1): the hypotheses of the theorems hold *)
Example C39_case :
  exists h outs, runCalls (rcalls ++ [KGenerate 50 (ropts 100 true) (rdeps [3])]) newHandler = Done (h, outs) /\
  noReset (rcalls ++ [KGenerate 50 (ropts 100 true) (rdeps [3])]) /\ gen_input (h_heap h) (h_indeps h) (rdeps [4]) /\
  proper (h_heap h) (rdeps [4]) (rcalls ++ [KGenerate 50 (ropts 100 true) (rdeps [3])]) newHandler /\
  (exists i, h_names h i = Some (LV 0)) /\
  exists h1 ge, generate 50 (ropts 100 true) (rdeps [4]) h = Done (h1, ge) /\
  ge_prog ge = [SAssign (LY 0) ASet (XOp GSub [XLoc (LX 0); XLoc (LX 1)])].
Proof.
  do 2 eexists. split; [vm_compute; reflexivity|]. split; [intros HR; cbn [rcalls app In] in HR; repeat (destruct HR as [HR|HR]; [discriminate|]); exact HR|].
  split; [apply (rinput [4]); intros j [<-|[]]; lia|]. split.
  - cbn [rcalls app proper]. split; [apply (rinput [3]); intros j [<-|[]]; lia|]. split; [|intros r _; exact I].
    intros i H3 H4. change (h_heap _) with rheap in *.
    assert (K3 : i = 3 \/ i = 2 \/ i = 1 \/ i = 0).
    { clear H4. induction H3 as [i H|i j H IH (n & En & Hj)].
      - destruct H as [[= <-]|[]]. auto.
      - destruct IH as [->|[->|[->| ->]]]; injection En as <-; cbn in Hj; repeat (destruct Hj as [[= <-]|Hj]; [auto|]); destruct Hj. }
    assert (K4 : i = 4 \/ i = 1 \/ i = 0).
    { clear H3 K3. induction H4 as [i H|i j H IH (n & En & Hj)].
      - destruct H as [[= <-]|[]]. auto.
      - destruct IH as [->|[->| ->]]; injection En as <-; cbn in Hj; repeat (destruct Hj as [[= <-]|Hj]; [auto|]); destruct Hj. }
    destruct K4 as [->|[->| ->]]; [exfalso; lia| |]; eexists; eexists; split; reflexivity.
  - split; [exists 2; reflexivity|]. do 2 eexists. split; vm_compute; reflexivity.
Qed.

(** A temporary of an earlier generation which is requested as a dependent keeps the name of the temporary: y[0] is
    never assigned. *)
Theorem C39_temporary_becomes_dependent_refuted :
  exists calls h outs deps h1 ge, runCalls calls (newHandler (B := Qc)) = Done (h, outs) /\ noReset calls /\
  gen_input (h_heap h) (h_indeps h) deps /\ deps = rdeps [2] /\
  generate 50 (ropts 100 true) deps h = Done (h1, ge) /\ ~ In (LY 0) (targets (ge_prog ge)).
Proof.
  exists (rcalls ++ [KGenerate 50 (ropts 100 true) (rdeps [3])]). do 2 eexists. exists (rdeps [2]). do 2 eexists.
  split; [vm_compute; reflexivity|]. split; [intros HR; cbn [rcalls app In] in HR; repeat (destruct HR as [HR|HR]; [discriminate|]); exact HR|].
  split; [apply (rinput [2]); intros j [<-|[]]; lia|]. split; [reflexivity|]. split; [vm_compute; reflexivity|].
  vm_compute. intuition discriminate.
Qed.
Print Assumptions C39_temporary_becomes_dependent_refuted.

(** The same dependents in another order: the second code writes each value in the place it had the first time. *)
Theorem C39_dependents_in_another_order_refuted :
  exists calls h outs deps h1 ge, runCalls calls (newHandler (B := Qc)) = Done (h, outs) /\ noReset calls /\
  gen_input (h_heap h) (h_indeps h) deps /\ solves renv (h_heap h) rsol /\ deps = rdeps [4; 3] /\
  generate 50 (ropts 100 true) deps h = Done (h1, ge) /\
  exec rmem (ge_prog ge) (LY 0) = rsol 3 /\ exec rmem (ge_prog ge) (LY 1) = rsol 4 /\ rsol 3 <> rsol 4.
Proof.
  exists (rcalls ++ [KGenerate 50 (ropts 100 true) (rdeps [3; 4])]). do 2 eexists. exists (rdeps [4; 3]). do 2 eexists.
  split; [vm_compute; reflexivity|]. split; [intros HR; cbn [rcalls app In] in HR; repeat (destruct HR as [HR|HR]; [discriminate|]); exact HR|].
  split; [apply (rinput [4; 3]); intros j [<-|[<-|[]]]; lia|]. split; [exact rsolves|]. split; [reflexivity|].
  split; [vm_compute; reflexivity|]. split; [vm_compute; reflexivity|]. split; [vm_compute; reflexivity|].
  intros H. apply (f_equal (fun x => match x with Some q => Qnum (this q) | None => 0%Z end)) in H. vm_compute in H. discriminate.
Qed.
Print Assumptions C39_dependents_in_another_order_refuted.

(** The same dependents, first without and then with re-use of temporaries: the second code writes past the end of
    the array of temporaries it declares. *)
Theorem C39_reuse_switched_on_refuted :
  exists calls h outs deps h1 ge, runCalls calls (newHandler (B := Qc)) = Done (h, outs) /\ noReset calls /\
  gen_input (h_heap h) (h_indeps h) deps /\
  generate 50 (ropts 1 true) deps h = Done (h1, ge) /\ exists k, ge_size ge <= k /\ In (LV k) (targets (ge_prog ge)).
Proof.
  exists (rcalls ++ [KGenerate 50 (ropts 1 false) (rdeps [5])]). do 2 eexists. exists (rdeps [5]). do 2 eexists.
  split; [vm_compute; reflexivity|]. split; [intros HR; cbn [rcalls app In] in HR; repeat (destruct HR as [HR|HR]; [discriminate|]); exact HR|].
  split; [apply (rinput [5]); intros j [<-|[]]; lia|]. split; [vm_compute; reflexivity|].
  exists 2. split; [cbn; lia|]. vm_compute. auto.
Qed.
Print Assumptions C39_reuse_switched_on_refuted.

(** After reset() the tables still hold the numbers of the deleted nodes: recording the same nodes again and
    asking for the same dependent, y[0] is not assigned, or (with re-use of temporaries) an array is indexed out of
    its bounds. *)
Theorem C39_generation_after_reset_refuted :
  (exists h outs h1 ge, runCalls (rcalls ++ KGenerate 50 (ropts 100 false) (rdeps [5]) :: KReset :: rcalls) newHandler = Done (h, outs) /\
   h_heap h = rheap /\ generate 50 (ropts 100 false) (rdeps [5]) h = Done (h1, ge) /\ ~ In (LY 0) (targets (ge_prog ge))) /\
  (exists h outs, runCalls (rcalls ++ KGenerate 50 (ropts 100 true) (rdeps [5]) :: KReset :: rcalls) newHandler = Done (h, outs) /\
   h_heap h = rheap /\ forall fuel, 50 <= fuel -> codeOf (generate fuel (ropts 100 true) (rdeps [5]) h) = Bad).
Proof.
  split.
  - do 4 eexists. split; [vm_compute; reflexivity|]. split; [reflexivity|]. split; [vm_compute; reflexivity|].
    vm_compute. intuition discriminate.
  - do 2 eexists. split; [vm_compute; reflexivity|]. split; [reflexivity|].
    intros fuel Hf. do 50 (destruct fuel as [|fuel]; [lia|]). clear Hf. reflexivity.
Qed.
Print Assumptions C39_generation_after_reset_refuted.

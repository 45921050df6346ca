(** * findPathGraph, findPaths and findSingleBifurcation: consequences of the invariants *)
From Coq Require Import List Bool Arith Lia Sorted.
From Verif Require Import Graph_model Path_model Path_spec Path_proofs.
Import ListNotations.

Section Graph.
Context {B : Type}.
Variable g : heap B.
Variable r : nat -> nat.
Hypothesis RK : forall n i j, link g n i j -> r j < r n.
Variables root target : nat.

(** the properties of the graph which is returned *)
Record path_graph (G : pgraph) : Prop := {
  PG_between : forall n, pg_contains G n = true -> between g root target n;
  PG_args : forall n e i, pg_find G n = Some e -> In i (ed_args e) ->
      exists j ej, link g n i j /\ pg_find G j = Some ej /\ In (n, i) (ed_usage ej);
  PG_usage : forall n e p i, pg_find G n = Some e -> In (p, i) (ed_usage e) ->
      link g p i n /\ exists ep, pg_find G p = Some ep /\ In i (ed_args ep);
  PG_sorted : forall n e, pg_find G n = Some e -> StronglySorted lt (ed_args e);
  PG_used : forall n e, pg_find G n = Some e -> n <> root -> ed_usage e <> []
}.
Record complete_graph (G : pgraph) : Prop := {
  CG_between : forall n, between g root target n -> pg_contains G n = true;
  CG_args : forall n e i j, pg_find G n = Some e -> link g n i j -> occurs g j target -> In i (ed_args e)
}.

Lemma findPathGraph_ok : forall fuel max, S (r root) <= fuel ->
  exists G b, findPathGraph g fuel root target 0 max = Got (G, b) /\ path_graph G /\
    (limit_reached max b = false -> complete_graph G) /\
    (b = 0 <-> forall n e, pg_find G n = Some e -> length (ed_args e) <= 1).
Proof.
  intros fuel max HF. unfold findPathGraph.
  replace (match max with Some m => 0 <=? m | None => true end) with true by (destruct max; reflexivity).
  destruct (Nat.eqb_spec root target) as [Hrt|Hrt].
  - exists [(root, noEdges)], 0. split; [auto|].
    assert (FI : forall n e, pg_find [(root, noEdges)] n = Some e -> n = root /\ e = noEdges).
    { intros n e. cbn. destruct (Nat.eqb_spec root n) as [->|]; [|discriminate]. intros [= <-]. auto. }
    split; [|split].
    + constructor.
      * intros n Hn. apply contains_find in Hn. destruct Hn as [e He]. destruct (FI _ _ He) as [-> _].
        rewrite <- Hrt. split; apply occurs_refl.
      * intros n e i E. destruct (FI _ _ E) as [_ ->]. intros [].
      * intros n e p i E. destruct (FI _ _ E) as [_ ->]. intros [].
      * intros n e E. destruct (FI _ _ E) as [_ ->]. constructor.
      * intros n e E. destruct (FI _ _ E) as [-> _]. congruence.
    + intros _. constructor.
      * intros n [H1 H2]. rewrite <- Hrt in H2. assert (root = n) as <- by (eapply occurs_antisym; eauto).
        apply contains_find. exists noEdges. cbn. now rewrite Nat.eqb_refl.
      * intros n e i j E L O. destruct (FI _ _ E) as [-> _]. rewrite <- Hrt in O. apply RK in L. apply (occurs_rank g r RK) in O. lia.
    + split; auto. intros _ n e E. destruct (FI _ _ E) as [_ ->]. cbn. lia.
  - destruct (findPG_good g r RK target max fuel (S (r root)) HF root (mkF [] [] 0)) as [s' [b [E [P [L U]]]]]; [lia| | | |].
    + constructor; cbn; try discriminate. split; auto. discriminate.
    + constructor; cbn; try discriminate. intros _ n _ [].
    + intros n e _ _. cbn. discriminate.
    + rewrite E. cbn [pbind fst snd]. exists (f_graph s'), (f_bif s'). split; [auto|].
      pose proof (P_glob _ _ _ _ _ _ _ _ P) as HG.
      assert (MK : forall n, In n (f_marks s') -> occurs g root n).
      { intros n Hn. destruct (P_marks _ _ _ _ _ _ _ _ P n Hn) as [[]|]; auto. }
      assert (RR : forall n e, pg_find (f_graph s') n = Some e -> occurs g root n).
      { assert (NT : forall n e, n <> target -> pg_find (f_graph s') n = Some e -> occurs g root n).
        { intros n e Hn E1. destruct (Gl_mark _ _ _ HG _ _ E1) as [[]|[]]; auto. contradiction. }
        intros n e E1. destruct (Nat.eq_dec n target) as [->|]; [|eauto].
        pose proof (Gl_target _ _ _ HG _ E1) as NE. destruct (ed_usage e) as [|[p i] u] eqn:EU; [congruence|].
        destruct (Gl_usage _ _ _ HG target e p i E1) as [Lk [ep [Ep _]]]; [rewrite EU; now left|].
        eapply occurs_trans; [|eapply occurs_link; eauto]. apply (NT p ep); auto.
        intros ->. apply RK in Lk. lia. }
      assert (RN : forall n e, pg_find (f_graph s') n = Some e -> r n < S (r root)).
      { intros n e E1. apply RR in E1. apply (occurs_rank g r RK) in E1. lia. }
      split; [|split].
      * constructor.
        -- intros n Hn. apply contains_find in Hn. destruct Hn as [e He]. split; eauto.
           eapply Lo_occ; eauto.
        -- intros n e i E1 Hi. destruct (Gl_args _ _ _ HG _ _ _ E1 Hi) as [j [ej [A1 [A2 [A3 _]]]]]. eauto.
        -- intros n e p i. apply (Gl_usage _ _ _ HG).
        -- intros n e. apply (Gl_sort _ _ _ HG).
        -- intros n e E1 Hn. apply (U n e); eauto. intros [_ ->]. auto.
      * intros EL.
        assert (CA : forall n e i j, pg_find (f_graph s') n = Some e -> link g n i j -> occurs g j target -> In i (ed_args e)).
        { intros n e i j E1 Lk Oj. eapply (Lo_args _ _ _ _ _ _ L EL n); eauto.
          intros ->. apply RK in Lk. apply (occurs_rank g r RK) in Oj. lia. }
        constructor; auto.
        intros n [H1 H2].
        assert (HR : pg_contains (f_graph s') root = true).
        { destruct b.
          - destruct (P_true _ _ _ _ _ _ _ _ P eq_refl) as [_ [|[e He]]]; [contradiction|]. apply contains_find. eauto.
          - exfalso. apply (P_false _ _ _ _ _ _ _ _ P eq_refl EL). eapply occurs_trans; eauto. }
        destruct H1 as [l H1]. clear E P L U RN RR MK.
        assert (GEN : forall m l n, leads g m l n -> occurs g n target -> pg_contains (f_graph s') m = true ->
                  pg_contains (f_graph s') n = true).
        { induction 1 as [|m i j l0 k Lk H0 IH]; auto. intros Ok Hm. apply contains_find in Hm. destruct Hm as [e He].
          assert (Oj : occurs g j target) by (eapply occurs_trans; [exists l0; exact H0|auto]).
          destruct (Gl_args _ _ _ HG _ _ _ He (CA _ _ _ _ He Lk Oj)) as [j' [ej [L' [Ej _]]]].
          assert (j' = j) as -> by (eapply link_fun; eauto).
          apply IH; auto. apply contains_find. eauto. }
        eapply GEN; eauto.
      * apply (Gl_bif _ _ _ HG).
Qed.

(** ** findPaths *)
Lemma chain_app n p m q k : chain g n p m -> chain g m q k -> chain g n (p ++ q) k.
Proof. induction 1; cbn; auto. intros. econstructor; eauto. Qed.

Lemma suffixes_ok p : forall n m k, chain g m p target -> forall seen acc,
  Forall (fun q => chain g n q target) acc -> Forall (fun q => chain g n q target) (snd (suffixes ((m, k) :: p) n seen acc)).
Proof.
  induction p as [|[j i] p IH]; intros n m k HC seen acc HA; [exact HA|].
  replace (suffixes ((m, k) :: (j, i) :: p) n seen acc) with
    (if Nat.eqb m n && negb (existsb (Nat.eqb i) seen) then suffixes ((j, i) :: p) n (i :: seen) (acc ++ [(j, i) :: p])
     else suffixes ((j, i) :: p) n seen acc) by reflexivity.
  inversion HC; subst.
  destruct (Nat.eqb m n && _) eqn:E.
  - apply IH; auto. apply Forall_app. split; auto. constructor; auto.
    apply andb_true_iff in E. destruct E as [E _]. apply Nat.eqb_eq in E. now subst.
  - apply IH; auto.
Qed.
Lemma fromNode_ok ps n : Forall (found_path g root target) ps -> Forall (fun q => chain g n q target) (findPathsFromNode ps n).
Proof.
  intros H. unfold findPathsFromNode.
  enough (forall sa, Forall (fun q => chain g n q target) (snd sa) ->
    Forall (fun q => chain g n q target) (snd (fold_left (fun sa p => suffixes p n (fst sa) (snd sa)) ps sa))) as X by (apply X; constructor).
  induction H as [|p ps HP H IH]; cbn [fold_left]; auto. intros sa HS. apply IH.
  destruct HP as [q [-> HQ]]. now apply suffixes_ok.
Qed.

Lemma findPs_ok max : forall fuel pre n k s s', findPs g fuel target max pre n k s = Got s' ->
  (forall q, chain g n q target -> found_path g root target (pre ++ (n, k) :: q)) ->
  Forall (found_path g root target) (snd s) -> Forall (found_path g root target) (snd s').
Proof.
  induction fuel as [|fuel IH]; intros pre n k s s'; [discriminate|]. cbn [findPs].
  destruct (Nat.eqb_spec target n) as [<-|Hn].
  { intros [= <-] HQ HS. cbn. apply Forall_app. split; auto. constructor; auto. apply HQ. constructor. }
  destruct (nodeArgs g n) as [|a0 args0] eqn:EA; [intros [= <-]; auto|].
  destruct (existsb _ _).
  { intros [= <-] HQ HS. cbn. apply Forall_app. split; auto. rewrite Forall_forall. intros p Hp. apply in_map_iff in Hp.
    destruct Hp as [q [<- Hq]]. rewrite <- app_assoc. cbn. apply HQ.
    pose proof (fromNode_ok _ n HS) as F. rewrite Forall_forall in F. auto. }
  rewrite <- EA. clear a0 args0 EA. intros H HQ.
  assert (LOOP : forall l pr s1 s2, nodeArgs g n = pr ++ l -> Forall (found_path g root target) (snd s1) ->
     fpLoop (findPs g fuel target max (pre ++ [(n, k)])) max l (length pr) s1 = Got s2 -> Forall (found_path g root target) (snd s2)).
  { induction l as [|x l IHl]; intros pr s1 s2 EA HS; cbn [fpLoop]; [intros [= <-]; auto|].
    assert (EA' : nodeArgs g n = (pr ++ [x]) ++ l) by (rewrite <- app_assoc; auto).
    assert (EL : S (length pr) = length (pr ++ [x])) by (rewrite app_length; cbn; lia).
    destruct x as [a|b].
    - destruct (findPs g fuel target max (pre ++ [(n, k)]) a (length pr) s1) as [s3| |] eqn:E3; try discriminate. cbn [pbind].
      assert (H3 : Forall (found_path g root target) (snd s3)).
      { eapply IH; [exact E3| |auto]. intros q Hq. rewrite <- app_assoc. cbn. apply HQ. econstructor; eauto.
        apply (link_args g n pr l _ EA). reflexivity. }
      destruct (Nat.eqb _ _); [intros [= <-]; auto|]. rewrite EL. now apply IHl.
    - rewrite EL. now apply IHl. }
  intros HS. eapply (LOOP _ []); [reflexivity| |exact H]. auto.
Qed.

Lemma findPaths_ok fuel max ps : findPaths g fuel root target max = Got ps -> Forall (found_path g root target) ps.
Proof.
  unfold findPaths. destruct (Nat.eqb max 0); [intros [= <-]; constructor|].
  destruct (Nat.eqb_spec root target) as [->|].
  { intros [= <-]. repeat constructor. exists []. split; auto. constructor. }
  destruct (findPs _ _ _ _ _ _ _ _) as [s| |] eqn:E; try discriminate. intros [= <-].
  eapply findPs_ok; [exact E| |constructor]. intros q Hq. exists q. auto.
Qed.

Lemma findPaths_ends max : forall fuel, S (r root) <= fuel -> exists ps, findPaths g fuel root target max = Got ps.
Proof.
  intros fuel HF. unfold findPaths. destruct (Nat.eqb max 0); [eauto|]. destruct (Nat.eqb root target); [eauto|].
  assert (X : forall fuel pre n k s, r n < fuel -> exists s', findPs g fuel target max pre n k s = Got s').
  { clear fuel HF. induction fuel as [|fuel IH]; intros pre n k s Hn; [lia|]. cbn [findPs].
    destruct (Nat.eqb target n); [eauto|]. destruct (nodeArgs g n) as [|a0 args0] eqn:EA; [eauto|].
    destruct (existsb _ _); [eauto|]. rewrite <- EA. clear a0 args0 EA.
    assert (LOOP : forall l pr s1, nodeArgs g n = pr ++ l ->
      exists s2, fpLoop (findPs g fuel target max (pre ++ [(n, k)])) max l (length pr) s1 = Got s2).
    { induction l as [|x l IHl]; intros pr s1 EA; cbn [fpLoop]; [eauto|].
      assert (EA' : nodeArgs g n = (pr ++ [x]) ++ l) by (rewrite <- app_assoc; auto).
      assert (EL : S (length pr) = length (pr ++ [x])) by (rewrite app_length; cbn; lia).
      destruct x as [a|b].
      - destruct (IH (pre ++ [(n, k)]) a (length pr) s1) as [s3 ->].
        + assert (L : link g n (length pr) a) by (apply (link_args g n pr l _ EA); reflexivity). apply RK in L. lia.
        + cbn [pbind]. destruct (Nat.eqb _ _); [eauto|]. rewrite EL. now apply IHl.
      - rewrite EL. now apply IHl. }
    apply (LOOP _ []). reflexivity. }
  destruct (X fuel [] root 0 ([], []) HF) as [s ->]. cbn. eauto.
Qed.

(** ** findSingleBifurcation *)
Variable G : pgraph.
Hypothesis HP : path_graph G.
Hypothesis HC : complete_graph G.

Lemma down_path_head n p m : down_path g n p m -> exists i q, p = (n, i) :: q.
Proof. destruct 1; eauto. Qed.
Lemma down_path_occurs n p m : down_path g n p m -> occurs g n m.
Proof. induction 1; [apply occurs_refl|]. eapply occurs_trans; [eapply occurs_link; eauto|auto]. Qed.

Definition single (n : nat) (acc : spath) (ps : list spath) : Prop :=
  exists p, ps = [acc ++ p] /\ down_path g n p target /\ straight g target p.
Definition forked (n : nat) (ps : list spath) : Prop :=
  exists m i1 i2 j1 j2 p1 p2, ps = [(m, Some i1) :: p1; (m, Some i2) :: p2] /\ occurs g n m /\ i1 < i2 /\ link g m i1 j1 /\ link g m i2 j2 /\ down_path g j1 p1 target /\ down_path g j2 p2 target /\
    straight g target p1 /\ straight g target p2.

Lemma in_graph n : occurs g root n -> occurs g n target -> exists e, pg_find G n = Some e.
Proof. intros H1 H2. apply contains_find. apply (CG_between _ HC). split; auto. Qed.

Lemma single_length n acc ps : single n acc ps -> length ps = 1.
Proof. intros [p [-> _]]. reflexivity. Qed.
Lemma forked_length n ps : forked n ps -> length ps = 2.
Proof. intros (m & i1 & i2 & j1 & j2 & p1 & p2 & -> & _). reflexivity. Qed.
Lemma forked_up n m ps : occurs g n m -> forked m ps -> forked n ps.
Proof.
  intros H (k & i1 & i2 & j1 & j2 & p1 & p2 & -> & O & R). exists k, i1, i2, j1, j2, p1, p2. split; auto. split; auto.
  eapply occurs_trans; eauto.
Qed.

Lemma upto_ok : forall fuel n acc, r n < fuel -> occurs g root n -> occurs g n target ->
  exists ps, findPathUpTo g fuel G n acc = Got ps /\ (single n acc ps \/ forked n ps).
Proof.
  induction fuel as [|fuel IH]; intros n acc Hf Hr Ht; [lia|]. cbn [findPathUpTo].
  destruct (in_graph n Hr Ht) as [e E]. rewrite E.
  assert (CH : forall i, In i (ed_args e) -> exists j, child g n i = Some j /\ link g n i j /\ occurs g root j /\ occurs g j target /\ r j < fuel).
  { intros i Hi. destruct (PG_args _ HP _ _ _ E Hi) as [j [ej [L [Ej _]]]]. exists j.
    split; [now apply child_link|]. split; auto. split; [eapply occurs_trans; [exact Hr|eapply occurs_link; eauto]|].
    split; [|apply RK in L; lia]. apply (PG_between _ HP). apply contains_find. eauto. }
  assert (ALL : forall i j, link g n i j -> occurs g j target -> In i (ed_args e)) by (intros; eapply CG_args; eauto).
  pose proof (PG_sorted _ HP _ _ E) as SRT.
  destruct (ed_args e) as [|i1 [|i2 rest]] eqn:EA.
  - exists [acc ++ [(n, None)]]. split; auto. left. exists [(n, None)]. split; auto. split.
    + destruct (occurs_inv _ _ _ Ht) as [<-|[i [j [L O]]]]; [constructor|]. destruct (ALL i j L O).
    + intros n' i' [[=]|[]].
  - destruct (CH i1 (or_introl eq_refl)) as [j [-> [L [H1 [H2 H3]]]]].
    destruct (IH j (acc ++ [(n, Some i1)]) H3 H1 H2) as [ps [E1 [S1|F1]]]; exists ps; split; auto.
    + left. destruct S1 as [p [-> [D1 St]]]. exists ((n, Some i1) :: p). rewrite <- app_assoc. split; auto. split.
      * econstructor; eauto.
      * intros n' i' [[= <- <-]|Hi]; [|now apply St]. intros k j' L' O'. destruct (ALL k j' L' O') as [|[]]; auto.
    + right. eapply forked_up; [|exact F1]. eapply occurs_link; eauto.
  - destruct (CH i1 (or_introl eq_refl)) as [j1 [-> [L1 [A1 [A2 A3]]]]].
    destruct (CH i2 (or_intror (or_introl eq_refl))) as [j2 [-> [L2 [B1 [B2 B3]]]]].
    destruct (IH j1 [] A3 A1 A2) as [ps [-> C1]]. cbn [pbind].
    destruct C1 as [S1|F1].
    + rewrite (single_length _ _ _ S1). cbn [Nat.eqb].
      destruct (IH j2 [] B3 B1 B2) as [ps2 [-> C2]]. cbn [pbind]. destruct C2 as [S2|F2].
      * rewrite (single_length _ _ _ S2). cbn [Nat.eqb]. destruct S1 as [p1 [-> [D1 St1]]]. destruct S2 as [p2 [-> [D2 St2]]].
        eexists. split; [reflexivity|]. right. cbn [app]. exists n, i1, i2, j1, j2, p1, p2.
        split; auto. split; [apply occurs_refl|]. split; auto 10.
        inversion SRT as [|? ? ? F]; subst. inversion F; subst. lia.
      * rewrite (forked_length _ _ F2). cbn [Nat.eqb]. exists ps2. split; auto. right.
        eapply forked_up; [|exact F2]. eapply occurs_link; eauto.
    + rewrite (forked_length _ _ F1). cbn [Nat.eqb]. exists ps. split; auto. right.
      eapply forked_up; [|exact F1]. eapply occurs_link; eauto.
Qed.

(** a path from [n] down to, but not including, [m] *)
Inductive prefix_path : nat -> spath -> nat -> Prop :=
 | pre_nil n : prefix_path n [] n
 | pre_cons n i j p m : link g n i j -> prefix_path j p m -> prefix_path n ((n, Some i) :: p) m.

Lemma prefix_down n c m p t : prefix_path n c m -> down_path g m p t -> down_path g n (c ++ p) t.
Proof. induction 1; cbn; auto. intros. econstructor; eauto. Qed.

Lemma common_ok : forall fuel n acc m, r root < fuel + r n -> n <> root -> occurs g root n -> occurs g n target ->
  prefix_path n acc m -> exists c, pathCommon fuel G root n acc = Got c /\ prefix_path root c m /\ c <> [].
Proof.
  induction fuel as [|fuel IH]; intros n acc m Hf Hn Hr Ht HA.
  { apply (occurs_rank g r RK) in Hr. lia. }
  cbn [pathCommon]. destruct (in_graph n Hr Ht) as [e E]. rewrite E.
  pose proof (PG_used _ HP _ _ E Hn) as NE. destruct (ed_usage e) as [|[p i] u] eqn:EU; [congruence|].
  destruct (PG_usage _ HP n e p i E) as [L [ep [Ep _]]]; [rewrite EU; now left|].
  assert (HA' : prefix_path p ((p, Some i) :: acc) m) by (econstructor; eauto).
  destruct (Nat.eqb_spec p root) as [->|Hp].
  - eexists. split; [reflexivity|]. split; auto. discriminate.
  - destruct (PG_between _ HP p) as [B1 B2]; [apply contains_find; eauto|].
    apply IH; auto. apply RK in L. lia.
Qed.

(** the shape of the result: no path, one path with one way at each node, or two paths which part at element [k] *)
Definition bifurcation (ps : list spath) (k : option nat) : Prop :=
  (~ occurs g root target /\ ps = [] /\ k = None) \/
  (k = None /\ exists p, ps = [p] /\ down_path g root p target /\ straight g target p) \/
  (exists c m i1 i2 j1 j2 p1 p2, k = Some (length c) /\ ps = [c ++ (m, Some i1) :: p1; c ++ (m, Some i2) :: p2] /\
    down_path g root (c ++ (m, Some i1) :: p1) target /\ down_path g root (c ++ (m, Some i2) :: p2) target /\
    i1 < i2 /\ link g m i1 j1 /\ link g m i2 j2 /\ down_path g j1 p1 target /\ down_path g j2 p2 target /\
    straight g target p1 /\ straight g target p2).

Lemma findSingle_ok : forall fuel, S (r root) <= fuel ->
  exists ps k, findSingleBifurcation g fuel G root target = Got (ps, k) /\ bifurcation ps k.
Proof.
  intros fuel HF. unfold findSingleBifurcation.
  destruct G as [|ge G'] eqn:EG.
  { exists [], None. split; auto. left. split; auto. intros O.
    assert (X : pg_contains [] root = true) by (apply (CG_between _ HC); split; auto; apply occurs_refl). discriminate. }
  rewrite <- EG in *. clear ge G' EG.
  destruct (pg_find G target) as [tail|] eqn:ET.
  2:{ exists [], None. split; auto. left. split; auto. intros O.
      assert (X : pg_contains G target = true) by (apply (CG_between _ HC); split; auto; apply occurs_refl).
      apply contains_find in X. destruct X. congruence. }
  assert (OT : occurs g root target) by (apply (PG_between _ HP target); apply contains_find; eauto).
  destruct (ed_usage tail) as [|u us] eqn:EU.
  { exists [[(target, None)]], None. split; auto. right. left. split; auto. exists [(target, None)]. split; auto. split.
    - destruct (Nat.eq_dec target root) as [E|N]; [rewrite <- E; constructor|].
      exfalso. apply (PG_used _ HP _ _ ET N). exact EU.
    - intros n i [[=]|[]]. }
  destruct (upto_ok fuel root [] HF (occurs_refl g root) OT) as [ps [-> C]]. cbn [pbind].
  destruct C as [S1|F1].
  - destruct S1 as [p [-> [D S1]]]. destruct (down_path_head _ _ _ D) as [i [q Eq]]. cbn [app length]. rewrite Eq.
    rewrite Nat.eqb_refl. cbn. eexists _, _. split; [reflexivity|]. right. left. split; auto. exists p. rewrite Eq in *. auto.
  - destruct F1 as (m & i1 & i2 & j1 & j2 & p1 & p2 & -> & Om & N & L1 & L2 & D1 & D2 & S1 & S2).
    cbn [length Nat.ltb Nat.leb].
    assert (F1' : down_path g m ((m, Some i1) :: p1) target) by (econstructor; eauto).
    assert (F2' : down_path g m ((m, Some i2) :: p2) target) by (econstructor; eauto).
    destruct (Nat.eqb_spec m root) as [->|Hm].
    + eexists _, _. split; [reflexivity|]. right. right. exists [], root, i1, i2, j1, j2, p1, p2. cbn [length app]. auto 15.
    + destruct (common_ok fuel m [] m) as [c [-> [PC _]]]; auto.
      { apply (occurs_rank g r RK) in Om. lia. }
      { eapply down_path_occurs; eauto. }
      { constructor. }
      cbn [pbind map]. eexists _, _. split; [reflexivity|]. right. right.
      exists c, m, i1, i2, j1, j2, p1, p2. split; auto. split; auto.
      split; [eapply prefix_down; eauto|]. split; [eapply prefix_down; eauto|]. auto 10.
Qed.
End Graph.

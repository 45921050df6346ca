(** * What atomic functions receive from the generated C code: specification and theorems (C49, C40) *)
From Coq Require Import List Bool Arith Lia.
From Verif Require Import Containers_model.
Import ListNotations.

(** ** Specification *)

(** struct Array (lang_c_atomic_fun.hpp 25-47) as a local variable: [None] is a field without a defined value *)
Record cval : Set := mkCval { c_data : option dsrc; c_size : option nat; c_spr : option bool; c_nnz : option nat; c_idx : option nat }.
Definition blank : cval := mkCval None None None None None.

Definition setField (v : cval) (f : field) : cval :=
  match f with
  | FData d => mkCval (Some d) (c_size v) (c_spr v) (c_nnz v) (c_idx v)
  | FSize n => mkCval (c_data v) (Some n) (c_spr v) (c_nnz v) (c_idx v)
  | FSparse b => mkCval (c_data v) (c_size v) (Some b) (c_nnz v) (c_idx v)
  | FNnz n => mkCval (c_data v) (c_size v) (c_spr v) (Some n) (c_idx v)
  | FIdx i => mkCval (c_data v) (c_size v) (c_spr v) (c_nnz v) (Some i)
  end.

(** the structures of a running function *)
Definition cmem := cont -> cval.
Definition cset (m : cmem) (c : cont) (f : field) : cmem := fun d => if cont_eqb d c then setField (m d) f else m d.

(** What the atomic function must find in a structure: the array. *)
Definition describes (v : cval) (a : arr) : Prop :=
  c_data v = Some (if Nat.eqb (a_args a) 0 then DNull else if a_sparse a then DSparse (a_id a) else DDense (a_id a)) /\
  c_size v = Some (if a_sparse a then a_info a else a_args a) /\
  c_spr v = Some (a_sparse a) /\
  (a_sparse a = true -> c_nnz v = Some (a_args a) /\ (a_args a <> 0 -> c_idx v = Some (a_id a))).

(** Execution: a block is run any number of times.  [exec l m m' good]: from [m] to [m'], and [good] tells whether every call on
    the way found its arrays. *)
Inductive exec : list ptext -> cmem -> cmem -> Prop -> Prop :=
| X_nil m : exec [] m m True
| X_set c f l m m' g : exec l (cset m c f) m' g -> exec (TSet c f :: l) m m' g
| X_call ins l m m' g : exec l m m' g -> exec (TCall ins :: l) m m' ((forall c a, In (c, a) ins -> describes (m c) a) /\ g)
| X_skip b l m m' g : exec l m m' g -> exec (TBlock b :: l) m m' g
| X_block b l m m1 m2 g1 g2 : exec b m m1 g1 -> exec (TBlock b :: l) m1 m2 g2 -> exec (TBlock b :: l) m m2 (g1 /\ g2).

(** Every call of [l] uses arrays which are created in its own block [k]; blocks have different scopes. *)
Fixpoint local (k : nat) (n : anode) : Prop :=
  match n with
  | ACall ins => forall c a, In (c, a) ins -> a_scope a = k
  | ABlock j body => (fix go l := match l with [] => True | x :: l' => local j x /\ go l' end) body
  end.
Fixpoint scopes (n : anode) : list nat :=
  match n with
  | ACall _ => []
  | ABlock j body => j :: (fix go l := match l with [] => [] | x :: l' => scopes x ++ go l' end) body
  end.
(** The arrays of CGAbstractAtomicFun (abstract_atomic_fun.hpp 198-203, 366-387): which ones are sparse. *)
Definition contSparse (c : cont) : bool :=
  match c with TX k => negb (Nat.eqb k 0) | TY => false | PX => false | PY k => Nat.eqb k 0 end.
Fixpoint kinds (n : anode) : Prop :=
  match n with
  | ACall ins => (forall c a, In (c, a) ins -> a_sparse a = contSparse c) /\ NoDup (map fst ins)
  | ABlock _ body => (fix go l := match l with [] => True | x :: l' => kinds x /\ go l' end) body
  end.
Definition locals k (l : list anode) : Prop := forall x, In x l -> local k x.
Definition allScopes (l : list anode) : list nat := flat_map scopes l.
Definition allKinds (l : list anode) : Prop := forall x, In x l -> kinds x.

(** ** Proofs *)
Lemma cont_eqb_eq a b : cont_eqb a b = true <-> a = b.
Proof.
  destruct a, b; cbn; try (split; [discriminate|discriminate]); try (split; [reflexivity|reflexivity]);
    rewrite Nat.eqb_eq; split; [intros ->; reflexivity|intros [= ->]; reflexivity|intros ->; reflexivity|intros [= ->]; reflexivity].
Qed.
Lemma cont_eqb_refl a : cont_eqb a a = true.
Proof. apply cont_eqb_eq. reflexivity. Qed.
Lemma cont_eqb_ne a b : a <> b -> cont_eqb a b = false.
Proof. intros H. destruct (cont_eqb a b) eqn:E; [apply cont_eqb_eq in E; contradiction|reflexivity]. Qed.
Lemma dsrc_eqb_eq a b : dsrc_eqb a b = true <-> a = b.
Proof.
  destruct a, b; cbn; try (split; [discriminate|discriminate]); try (split; [reflexivity|reflexivity]);
    rewrite Nat.eqb_eq; split; [intros ->; reflexivity|intros [= ->]; reflexivity|intros ->; reflexivity|intros [= ->]; reflexivity].
Qed.

(** what the printer knows about a structure, in the scope [k] *)
Definition agrees (k : nat) (c : cont) (o : option track) (v : cval) : Prop :=
  match o with
  | None => True
  | Some t => t_scope t = k ->
      c_data v = Some (t_data t) /\ c_size v = Some (t_size t) /\ c_spr v = Some (t_sparse t) /\
      (contSparse c = true -> c_nnz v = Some (t_nnz t) /\ forall i, t_idx t = Some i -> c_idx v = Some i)
  end.

Definition setFields (v : cval) (l : list field) : cval := fold_left setField l v.

Lemma init_ok k c o v a : agrees k c o v -> a_scope a = k -> a_sparse a = contSparse c ->
  describes (setFields v (fst (structInit o a))) a /\
  agrees k c (Some (snd (structInit o a))) (setFields v (fst (structInit o a))) /\ t_scope (snd (structInit o a)) = k.
Proof.
  intros H Hk Hs. unfold structInit.
  set (ft := match o with None => true | Some l => negb (Nat.eqb (t_scope l) (a_scope a)) end).
  set (l := match o with None => newTrack | Some l => l end).
  assert (A : ft = false -> c_data v = Some (t_data l) /\ c_size v = Some (t_size l) /\ c_spr v = Some (t_sparse l) /\
    (contSparse c = true -> c_nnz v = Some (t_nnz l) /\ forall i, t_idx l = Some i -> c_idx v = Some i)).
  { unfold ft, l. destruct o as [t|]; [|discriminate]. intros E. apply negb_false_iff, Nat.eqb_eq in E. apply H. congruence. }
  clearbody ft l. clear H o. rewrite Hs in *. unfold describes, agrees. rewrite Hs.
  destruct (contSparse c) eqn:EC; cbn [negb fst snd t_data t_size t_sparse t_nnz t_idx t_scope].
  - (* sparse *)
    assert (N : Nat.ltb 0 (a_args a) = negb (Nat.eqb (a_args a) 0)) by (destruct (a_args a); reflexivity). rewrite N.
    destruct ft; cbn [orb].
    + destruct (Nat.eqb (a_args a) 0) eqn:E0; cbn; repeat split; auto; try discriminate; intros; try congruence;
        apply Nat.eqb_eq in E0; congruence.
    + destruct (A eq_refl) as (A1 & A2 & A3 & A4). destruct (A4 eq_refl) as [A5 A6]. destruct v as [vd vs vp vn vi]. cbn in A1, A2, A3, A5, A6. subst vd vs vp vn.
      set (d := if negb (Nat.eqb (a_args a) 0) then DSparse (a_id a) else DNull).
      assert (Ed : d = if Nat.eqb (a_args a) 0 then DNull else DSparse (a_id a)) by (unfold d; destruct (Nat.eqb (a_args a) 0); reflexivity). rewrite <- Ed.
      clearbody d.
      assert (B1 : dsrc_eqb d (t_data l) = true -> t_data l = d) by (intros E; apply dsrc_eqb_eq in E; congruence).
      assert (B2 : Nat.eqb (a_info a) (t_size l) = true -> t_size l = a_info a) by (intros E; apply Nat.eqb_eq in E; congruence).
      assert (B3 : Nat.eqb (a_args a) (t_nnz l) = true -> t_nnz l = a_args a) by (intros E; apply Nat.eqb_eq in E; congruence).
      assert (B4 : Nat.eqb (a_args a) 0 = true -> a_args a = 0) by (intros E; apply Nat.eqb_eq in E; congruence).
      set (g := match t_idx l with Some i => Nat.eqb (a_id a) i | None => false end) in *.
      assert (B5 : g = true -> vi = Some (a_id a)).
      { unfold g. destruct (t_idx l) as [i|]; [|discriminate]. intros E. apply Nat.eqb_eq in E. rewrite E. apply A6. reflexivity. }
      clearbody g. clear A A4 A6.
      destruct (dsrc_eqb d (t_data l)) eqn:E1; destruct (Nat.eqb (a_info a) (t_size l)) eqn:E2; destruct (t_sparse l) eqn:E3;
        destruct (Nat.eqb (a_args a) (t_nnz l)) eqn:E4; destruct (Nat.eqb (a_args a) 0) eqn:E5; destruct g;
        try specialize (B1 eq_refl); try specialize (B2 eq_refl); try specialize (B3 eq_refl); try specialize (B4 eq_refl); try specialize (B5 eq_refl);
        cbn; repeat split; intros; congruence.
  - assert (N : Nat.ltb 0 (a_args a) = negb (Nat.eqb (a_args a) 0)) by (destruct (a_args a); reflexivity). rewrite N.
    destruct ft; cbn [orb].
    + destruct (Nat.eqb (a_args a) 0) eqn:E0; cbn; repeat split; auto; discriminate.
    + destruct (A eq_refl) as (A1 & A2 & A3 & _). destruct v as [vd vs vp vn vi]. cbn in A1, A2, A3. subst vd vs vp.
      set (d := if negb (Nat.eqb (a_args a) 0) then DDense (a_id a) else DNull).
      assert (Ed : d = if Nat.eqb (a_args a) 0 then DNull else DDense (a_id a)) by (unfold d; destruct (Nat.eqb (a_args a) 0); reflexivity). rewrite <- Ed.
      clearbody d.
      destruct (dsrc_eqb d (t_data l)) eqn:E; [apply dsrc_eqb_eq in E; rewrite <- E|];
      (destruct (Nat.eqb (a_args a) (t_size l)) eqn:E2; [apply Nat.eqb_eq in E2; rewrite <- E2|]);
      (destruct (t_sparse l) eqn:E3); cbn; repeat split; auto; discriminate.
Qed.

(** *** Execution *)
Lemma exec_app a : forall b m m' g, exec (a ++ b) m m' g -> exists m1 g1 g2, exec a m m1 g1 /\ exec b m1 m' g2 /\ (g1 -> g2 -> g).
Proof.
  induction a as [|x a IH]; intros b m m' g H.
  - exists m, True, g. split; [constructor|]. split; [exact H|]. tauto.
  - cbn [app] in H. remember (x :: a ++ b) as l eqn:El. induction H as [m|c f l m m' g H _|ins l m m' g H _|bd l m m' g H _|bd l m m1 m2 g1 g2 H1 _ H2 IH2]; try discriminate.
    + injection El as <- ->. destruct (IH _ _ _ _ H) as (m1 & g1 & g2 & A & B & C). exists m1, g1, g2. split; [constructor; exact A|]. auto.
    + injection El as <- ->. destruct (IH _ _ _ _ H) as (m1 & g1 & g2 & A & B & C).
      exists m1, ((forall c a, In (c, a) ins -> describes (m c) a) /\ g1), g2. split; [constructor; exact A|]. split; [exact B|]. tauto.
    + injection El as <- ->. destruct (IH _ _ _ _ H) as (m1 & g1 & g2 & A & B & C). exists m1, g1, g2. split; [constructor; exact A|]. auto.
    + destruct (IH2 El) as (m3 & g3 & g4 & A & B & C). injection El as <- ->. exists m3, (g1 /\ g3), g4.
      split; [eapply X_block; eassumption|]. split; [exact B|]. tauto.
Qed.

Lemma printBlock t body : (fix go t l := match l with
                              | [] => ([], t)
                              | x :: l' => let r := printNode t x in let q := go (snd r) l' in (fst r ++ fst q, snd q)
                              end) t body = printNodes t body.
Proof. revert t. induction body as [|x body IH]; intros t; [reflexivity|]. cbn [printNodes]. rewrite <- IH. reflexivity. Qed.

Fixpoint depth (n : anode) : nat :=
  match n with ACall _ => 0 | ABlock _ body => S ((fix go l := match l with [] => 0 | x :: l' => Nat.max (depth x) (go l') end) body) end.
Lemma depth_block j body x : In x body -> depth x < depth (ABlock j body).
Proof. induction body as [|y body IH]; intros Hin; [destruct Hin|]. destruct Hin as [H|H]; cbn in *; [subst; lia|specialize (IH H); lia]. Qed.
Lemma scopes_block j body : scopes (ABlock j body) = j :: allScopes body.
Proof. reflexivity. Qed.
Lemma local_block k j body : local k (ABlock j body) -> locals j body.
Proof. cbn. induction body as [|y body IH]; intros H x Hx; [destruct Hx|]. destruct H as [H1 H2]. destruct Hx as [<-|Hx]; [exact H1|exact (IH H2 x Hx)]. Qed.
Lemma kinds_block j body : kinds (ABlock j body) -> allKinds body.
Proof. cbn. induction body as [|y body IH]; intros H x Hx; [destruct Hx|]. destruct H as [H1 H2]. destruct Hx as [<-|Hx]; [exact H1|exact (IH H2 x Hx)]. Qed.

Definition agr (k : nat) (t : tracker) (m : cmem) : Prop := forall c, agrees k c (t c) (m c).
Definition later (k : nat) (sc : list nat) (t t' : tracker) (m m' : cmem) : Prop :=
  forall c, (t' c = t c /\ m' c = m c) \/ (exists tr, t' c = Some tr /\ (t_scope tr = k \/ In (t_scope tr) sc)).

Lemma exec_sets c l : forall m, exists m', (forall d, m' d = if cont_eqb d c then setFields (m d) l else m d) /\
  forall rest m2 g, exec (map (TSet c) l ++ rest) m m2 g -> exec rest m' m2 g.
Proof.
  induction l as [|f l IH]; intros m.
  - exists m. split; [intros d; destruct (cont_eqb d c); reflexivity|]. cbn. auto.
  - destruct (IH (cset m c f)) as (m' & E & H). exists m'. split.
    + intros d. rewrite E. unfold cset. destruct (cont_eqb d c); reflexivity.
    + intros rest m2 g X. cbn [map app] in X. inversion X; subst. apply H. assumption.
Qed.

Lemma ins_ok k : forall ins t m, agr k t m -> (forall c a, In (c, a) ins -> a_scope a = k /\ a_sparse a = contSparse c) -> NoDup (map fst ins) ->
  exists m1, (forall rest m2 g, exec (fst (printIns t ins) ++ rest) m m2 g -> exec rest m1 m2 g) /\
    agr k (snd (printIns t ins)) m1 /\ (forall c a, In (c, a) ins -> describes (m1 c) a) /\
    (forall c, ~ In c (map fst ins) -> snd (printIns t ins) c = t c /\ m1 c = m c) /\
    (forall c, In c (map fst ins) -> exists tr, snd (printIns t ins) c = Some tr /\ t_scope tr = k).
Proof.
  induction ins as [|[c a] ins IH]; intros t m HA HI Hn.
  - exists m. cbn. split; [auto|]. split; [exact HA|]. split; [tauto|]. split; [auto|tauto].
  - cbn [printIns fst snd]. inversion Hn as [|? ? Hn1 Hn2]; subst. destruct (HI c a (or_introl eq_refl)) as [Hsc Hsp].
    destruct (init_ok k c (t c) (m c) a (HA c) Hsc Hsp) as (D & A & S).
    destruct (exec_sets c (fst (structInit (t c) a)) m) as (m0 & E0 & X0).
    destruct (IH (tset t c (snd (structInit (t c) a))) m0) as (m1 & X1 & A1 & D1 & U1 & V1).
    + intros d. unfold tset. rewrite E0. destruct (cont_eqb d c) eqn:E; [apply cont_eqb_eq in E; subst d; exact A|apply HA].
    + intros d b Hb. apply HI. right. exact Hb.
    + exact Hn2.
    + exists m1. split; [|split; [exact A1|split; [|split]]].
      * intros rest m2 g X. rewrite <- app_assoc in X. apply X1, X0, X.
      * intros d b [Hb|Hb]; [|apply D1, Hb]. injection Hb as <- <-. destruct (U1 c Hn1) as [_ ->]. rewrite E0, cont_eqb_refl. exact D.
      * intros d Hd. cbn in Hd. destruct (U1 d) as [-> ->]; [tauto|]. unfold tset. rewrite E0. rewrite cont_eqb_ne by (intros ->; tauto). auto.
      * intros d [Hd|Hd]; [|apply V1, Hd]. cbn in Hd. subst d. destruct (U1 c Hn1) as [-> _]. unfold tset. rewrite cont_eqb_refl. eexists. split; [reflexivity|exact S].
Qed.

Lemma NoDup_app_inv {A} (a b : list A) : NoDup (a ++ b) -> NoDup a /\ NoDup b /\ (forall x, In x a -> ~ In x b).
Proof.
  induction a as [|x a IH]; cbn; intros H; [split; [constructor|]; split; [exact H|intros x []]|].
  inversion H as [|? ? H1 H2]; subst. destruct (IH H2) as (A1 & A2 & A3). split; [constructor; [intros F; apply H1, in_or_app; auto|exact A1]|].
  split; [exact A2|]. intros y [<-|Hy]; [intros F; apply H1, in_or_app; auto|apply A3, Hy].
Qed.

Definition okAt (k : nat) (sc : list nat) (t : tracker) (p : list ptext * tracker) : Prop :=
  forall m m' g, agr k t m -> exec (fst p) m m' g -> g /\ agr k (snd p) m' /\ later k sc t (snd p) m m'.

Lemma list_ok k : forall l t,
  (forall x t, In x l -> local k x -> kinds x -> NoDup (scopes x) -> ~ In k (scopes x) ->
     (forall c tr, t c = Some tr -> ~ In (t_scope tr) (scopes x)) -> okAt k (scopes x) t (printNode t x)) ->
  locals k l -> allKinds l -> NoDup (allScopes l) -> ~ In k (allScopes l) ->
  (forall c tr, t c = Some tr -> ~ In (t_scope tr) (allScopes l)) ->
  okAt k (allScopes l) t (printNodes t l).
Proof.
  induction l as [|x l IH]; intros t HX HL HK HN Hk HT m m' g HA X.
  - cbn in X. inversion X; subst. split; [exact I|]. split; [exact HA|]. intros c. left. auto.
  - cbn [printNodes fst snd allScopes flat_map] in *. fold (allScopes l) in *. destruct (NoDup_app_inv _ _ HN) as (N1 & N2 & N3).
    destruct (exec_app _ _ _ _ _ X) as (m1 & g1 & g2 & X1 & X2 & G).
    assert (O1 : okAt k (scopes x) t (printNode t x)).
    { apply HX; [left; reflexivity|apply HL; left; reflexivity|apply HK; left; reflexivity|exact N1|intros F; apply Hk, in_or_app; auto|].
      intros c tr Hc F. apply (HT c tr Hc), in_or_app. auto. }
    destruct (O1 m m1 g1 HA X1) as (P1 & A1 & L1).
    assert (O2 : okAt k (allScopes l) (snd (printNode t x)) (printNodes (snd (printNode t x)) l)).
    { apply IH.
      - intros y t0 Hy. apply HX. right. exact Hy.
      - intros y Hy. apply HL. right. exact Hy.
      - intros y Hy. apply HK. right. exact Hy.
      - exact N2.
      - intros F. apply Hk, in_or_app. auto.
      - intros c tr Hc F. destruct (L1 c) as [[E _]|(tr' & E & S)].
        + rewrite E in Hc. apply (HT c tr Hc), in_or_app. auto.
        + rewrite E in Hc. injection Hc as <-. destruct S as [S|S]; [rewrite S in F; apply Hk, in_or_app; auto|exact (N3 _ S F)]. }
    destruct (O2 m1 m' g2 A1 X2) as (P2 & A2 & L2). split; [apply G; assumption|]. split; [exact A2|].
    intros c. destruct (L2 c) as [[E2 M2]|(tr & E2 & S2)].
    + rewrite E2, M2. destruct (L1 c) as [H|(tr & E1 & S1)]; [left; exact H|]. right. exists tr. split; [exact E1|].
      destruct S1 as [S1|S1]; [auto|right; apply in_or_app; auto].
    + right. exists tr. split; [exact E2|]. destruct S2 as [S2|S2]; [auto|right; apply in_or_app; auto].
Qed.

Lemma node_ok : forall d x k t, depth x < d -> local k x -> kinds x -> NoDup (scopes x) -> ~ In k (scopes x) ->
  (forall c tr, t c = Some tr -> ~ In (t_scope tr) (scopes x)) -> okAt k (scopes x) t (printNode t x).
Proof.
  induction d as [|d IH]; intros x k t Hd HL HK HN Hk HT; [lia|]. destruct x as [ins|j body].
  - intros m m' g HA X. cbn [printNode fst snd] in *. destruct HK as [HK1 HK2].
    destruct (ins_ok k ins t m HA) as (m1 & X1 & A1 & D1 & U1 & V1); [intros c a H; split; [apply (HL c a H)|apply (HK1 c a H)]|exact HK2|].
    specialize (X1 [TCall ins] m' g X). inversion X1 as [| |? ? ? ? g' H1| |]; subst. inversion H1; subst. split; [auto|]. split; [exact A1|].
    intros c. destruct (in_dec (fun a b : cont => ltac:(decide equality; apply Nat.eq_dec)) c (map fst ins)) as [Hc|Hc].
    + right. destruct (V1 c Hc) as (tr & E & S). exists tr. auto.
    + left. apply U1, Hc.
  - intros m m' g HA X. rewrite scopes_block in *. cbn [printNode fst snd] in *. rewrite printBlock in *.
    inversion HN as [|? ? N1 N2]; subst.
    assert (OB : okAt j (allScopes body) t (printNodes t body)).
    { apply list_ok.
      - intros x t0 Hx. intros. apply IH; try assumption. pose proof (depth_block j body x Hx). lia.
      - apply (local_block k), HL.
      - apply (kinds_block j), HK.
      - exact N2.
      - exact N1.
      - intros c tr Hc F. apply (HT c tr Hc). right. exact F. }
    assert (AJ : forall m, agr j t m).
    { intros m0 c. unfold agrees. destruct (t c) as [tr|] eqn:E; [|exact I]. intros F. exfalso. apply (HT c tr E). left. auto. }
    assert (R : g /\ forall c, m' c = m c \/ exists tr, snd (printNodes t body) c = Some tr /\ In (t_scope tr) (j :: allScopes body)).
    { remember [TBlock (fst (printNodes t body))] as l eqn:El. clear HA.
      induction X as [m|c f l m m' g H _|ins l m m' g H _|bd l m m' g H _|bd l m m1 m2 g1 g2 H1 _ H2 IH2]; try discriminate.
      - injection El as -> ->. inversion H; subst. auto.
      - destruct (IH2 El) as [G2 L2]. injection El as -> ->. destruct (OB _ _ _ (AJ m) H1) as (G1 & _ & L1).
        split; [auto|]. intros c. destruct (L1 c) as [[E1 M1]|(tr & E1 & S1)].
        + destruct (L2 c) as [M2|H]; [left; congruence|right; exact H].
        + right. exists tr. split; [exact E1|]. destruct S1 as [S1|S1]; [left; auto|right; exact S1]. }
    (* what the text leaves in the tracker does not depend on the execution *)
    assert (TX : forall c, snd (printNodes t body) c = t c \/ exists tr, snd (printNodes t body) c = Some tr /\ In (t_scope tr) (j :: allScopes body)).
    { intros c. assert (W : exists m1 g1, exec (fst (printNodes t body)) m m1 g1).
      { generalize (fst (printNodes t body)). intros l. generalize m. clear. induction l as [|p l IH]; intros m; [exists m, True; constructor|].
        destruct p as [c f|ins|b].
        - destruct (IH (cset m c f)) as (m1 & g1 & H). exists m1, g1. constructor. exact H.
        - destruct (IH m) as (m1 & g1 & H). eexists. eexists. constructor. exact H.
        - destruct (IH m) as (m1 & g1 & H). exists m1, g1. apply X_skip. exact H. }
      destruct W as (m1 & g1 & W). destruct (OB _ _ _ (AJ m) W) as (_ & _ & L). destruct (L c) as [[E _]|(tr & E & S)]; [left; exact E|].
      right. exists tr. split; [exact E|]. destruct S as [S|S]; [left; auto|right; exact S]. }
    destruct R as [G R].
    assert (L : forall c, (snd (printNodes t body) c = t c /\ m' c = m c) \/ (exists tr, snd (printNodes t body) c = Some tr /\ In (t_scope tr) (j :: allScopes body))).
    { intros c. destruct (TX c) as [E|H]; [|right; exact H]. destruct (R c) as [M|H]; [left; auto|right; exact H]. }
    split; [exact G|]. split.
    + intros c. destruct (L c) as [[-> ->]|(tr & -> & S)]; [apply HA|]. intros F. exfalso. apply Hk. rewrite <- F. exact S.
    + intros c. destruct (L c) as [H|(tr & E & S)]; [left; exact H|right; exists tr; auto].
Qed.

(** ** C49: every call of an atomic function gets its arrays *)
Theorem C49_atomic_functions_get_their_arrays :
  forall (l : list anode) (k : nat) (m m' : cmem) (good : Prop),
  locals k l -> allKinds l -> NoDup (allScopes l) -> ~ In k (allScopes l) ->
  exec (printFunction l) m m' good -> good.
Proof.
  intros l k m m' good HL HK HN Hk X.
  assert (O : okAt k (allScopes l) (fun _ => None) (printNodes (fun _ => None) l)).
  { apply list_ok; try assumption.
    - intros x t _ Hx1 Hx2 Hx3 Hx4 Hx5. apply (node_ok (S (depth x))); try assumption. lia.
    - discriminate. }
  apply (O m m' good); [intros c; exact I|exact X].
Qed.
Print Assumptions C49_atomic_functions_get_their_arrays.

(** The structures of a call: one for each order, with the array of that order (so that the calls have no structure twice, as
    [allKinds] requires). *)
Lemma numbered_in {A} f (inj : forall i j, f i = f j -> i = j) (l : list A) : forall k c a, In (c, a) (numbered f k l) <-> exists i, c = f (k + i) /\ nth_error l i = Some a.
Proof.
  induction l as [|x l IH]; intros k c a; cbn [numbered In].
  - split; [intros []|intros [[|i] [_ H]]; discriminate].
  - rewrite IH. split.
    + intros [[= <- <-]|[i [-> H]]]; [exists 0; rewrite Nat.add_0_r; auto|exists (S i); rewrite <- Nat.add_succ_comm; auto].
    + intros [[|i] [-> H]]; [left; rewrite Nat.add_0_r; cbn in H; congruence|right; exists i; rewrite <- Nat.add_succ_comm; auto].
Qed.
Lemma numbered_nodup {A} f (inj : forall i j, f i = f j -> i = j) (l : list A) : forall k, NoDup (map fst (numbered f k l)).
Proof.
  induction l as [|x l IH]; intros k; cbn [numbered map fst]; [constructor|]. constructor; [|apply IH].
  intros H. apply in_map_iff in H. destruct H as [[c a] [E H]]. cbn in E. subst c. apply (numbered_in f inj) in H. destruct H as [i [E _]]. apply inj in E. lia.
Qed.
Lemma nodup_parts {A B} (l l' : list (A * B)) : NoDup (map fst l) -> NoDup (map fst l') ->
  (forall c a b, In (c, a) l -> In (c, b) l' -> False) -> NoDup (map fst (l ++ l')).
Proof.
  intros H1 H2 H3. rewrite map_app. induction l as [|[c a] l IH]; [exact H2|]. cbn [map fst app] in *. inversion H1 as [|? ? N1 N2]; subst. constructor.
  - rewrite in_app_iff. intros [X|X]; [contradiction|]. apply in_map_iff in X. destruct X as [[c' b] [E X]]. cbn in E. subst c'. apply (H3 c a b); [left; reflexivity|exact X].
  - apply IH; [exact N2|]. intros c' a' b' X Y. apply (H3 c' a' b'); [right; exact X|exact Y].
Qed.
Lemma TX_inj i j : TX i = TX j -> i = j. Proof. intros [= ->]. reflexivity. Qed.
Lemma PY_inj i j : PY i = PY j -> i = j. Proof. intros [= ->]. reflexivity. Qed.

Theorem C49_one_structure_per_order : forall tx py ty px,
  (exists ins, forwardCall tx ty = ACall ins /\ NoDup (map fst ins) /\
    (forall i a, In (TX i, a) ins <-> nth_error tx i = Some a) /\ (forall a, In (TY, a) ins <-> a = ty) /\
    (forall i a, ~ In (PY i, a) ins) /\ forall a, ~ In (PX, a) ins) /\
  (exists ins, reverseCall tx py px = ACall ins /\ NoDup (map fst ins) /\
    (forall i a, In (TX i, a) ins <-> nth_error tx i = Some a) /\ (forall i a, In (PY i, a) ins <-> nth_error py i = Some a) /\
    (forall a, In (PX, a) ins <-> a = px) /\ forall a, ~ In (TY, a) ins).
Proof.
  intros tx py ty px.
  assert (X : forall i a, In (TX i, a) (numbered TX 0 tx) <-> nth_error tx i = Some a).
  { intros i a. rewrite (numbered_in TX TX_inj). cbn [plus]. split; [intros [j [[= ->] H]]; exact H|intros H; exists i; auto]. }
  assert (Y : forall i a, In (PY i, a) (numbered PY 0 py) <-> nth_error py i = Some a).
  { intros i a. rewrite (numbered_in PY PY_inj). cbn [plus]. split; [intros [j [[= ->] H]]; exact H|intros H; exists i; auto]. }
  assert (X' : forall c a, In (c, a) (numbered TX 0 tx) -> exists i, c = TX i) by (intros c a H; apply (numbered_in TX TX_inj) in H; destruct H as [i [-> _]]; eexists; reflexivity).
  assert (Y' : forall c a, In (c, a) (numbered PY 0 py) -> exists i, c = PY i) by (intros c a H; apply (numbered_in PY PY_inj) in H; destruct H as [i [-> _]]; eexists; reflexivity).
  split; eexists; (split; [reflexivity|]).
  - split.
    + apply nodup_parts; [apply numbered_nodup, TX_inj|repeat constructor; intros []|]. intros c a b H [[= <- <-]|[]]. apply X' in H. destruct H; discriminate.
    + split; [|split; [|split]].
      * intros i a. rewrite in_app_iff, X. cbn [In]. split; [intros [H|[H|[]]]; [exact H|discriminate]|auto].
      * intros a. rewrite in_app_iff. cbn [In]. split; [intros [H|[H|[]]]; [apply X' in H; destruct H; discriminate|congruence]|intros ->; auto].
      * intros i a. rewrite in_app_iff. cbn [In]. intros [H|[H|[]]]; [apply X' in H; destruct H; discriminate|discriminate].
      * intros a. rewrite in_app_iff. cbn [In]. intros [H|[H|[]]]; [apply X' in H; destruct H; discriminate|discriminate].
  - split.
    + apply nodup_parts; [apply numbered_nodup, TX_inj|apply nodup_parts; [apply numbered_nodup, PY_inj|repeat constructor; intros []|]|].
      * intros c a b H [[= <- <-]|[]]. apply Y' in H. destruct H; discriminate.
      * intros c a b H1 H2. apply X' in H1. destruct H1 as [i ->]. apply in_app_iff in H2. destruct H2 as [H2|[H2|[]]]; [apply Y' in H2; destruct H2; discriminate|discriminate].
    + split; [|split; [|split]].
      * intros i a. rewrite !in_app_iff, X. cbn [In]. split; [intros [H|[H|[H|[]]]]; [exact H|apply Y' in H; destruct H; discriminate|discriminate]|auto].
      * intros i a. rewrite !in_app_iff, Y. cbn [In]. split; [intros [H|[H|[H|[]]]]; [apply X' in H; destruct H; discriminate|exact H|discriminate]|auto].
      * intros a. rewrite !in_app_iff. cbn [In]. split; [intros [H|[H|[H|[]]]]; [apply X' in H; destruct H; discriminate|apply Y' in H; destruct H; discriminate|congruence]|intros ->; auto].
      * intros a. rewrite !in_app_iff. cbn [In]. intros [H|[H|[H|[]]]]; [apply X' in H; destruct H; discriminate|apply Y' in H; destruct H; discriminate|discriminate].
Qed.
Print Assumptions C49_one_structure_per_order.

(** A case: two forward calls of order one, the second one in a loop, then a reverse call; blocks run twice. *)
Definition dn id sc : arr := mkArr false 2 0 id sc.
Definition sp id n sc : arr := mkArr true n 3 id sc.
Definition caseNodes : list anode :=
  [forwardCall [dn 1 0; sp 1 1 0] (dn 3 0);
   ABlock 1 [forwardCall [dn 5 1; sp 1 0 1] (dn 7 1); reverseCall [dn 5 1; sp 2 2 1] [sp 4 1 1; dn 9 1] (dn 1 1)];
   reverseCall [dn 1 0] [sp 4 1 0] (dn 3 0)].
Example C49_case : locals 0 caseNodes /\ allKinds caseNodes /\ NoDup (allScopes caseNodes) /\ ~ In 0 (allScopes caseNodes) /\
  exists m g, exec (printFunction caseNodes) (fun _ => blank) m g.
Proof.
  split; [|split; [|split; [|split]]].
  - intros x [<-|[<-|[<-|[]]]]; cbn; repeat split; intros c a H; repeat (destruct H as [H|H]; [injection H as <- <-; reflexivity|]); destruct H.
  - intros x [<-|[<-|[<-|[]]]]; cbn; repeat split; try (intros c a H; repeat (destruct H as [H|H]; [injection H as <- <-; reflexivity|]); destruct H);
      repeat constructor; cbn; intros H; repeat (destruct H as [H|H]; [discriminate|]); exact H.
  - cbn. repeat constructor. intros [].
  - cbn. intros [H|[]]. discriminate.
  - eexists. eexists. cbv -[blank cset describes]. repeat (first [apply X_nil|apply X_set|apply X_call|eapply X_skip]).
Qed.

(** ** What does not hold *)

(** "Arrays may come from an outer block": the printer compares the scope of the array, not of the call.  In a loop, the second
    iteration calls the function with the array which the first one left in the structure. *)
Theorem C49_arrays_of_an_outer_scope_refuted :
  exists l m m' good, allKinds l /\ NoDup (allScopes l) /\ ~ In 0 (allScopes l) /\ exec (printFunction l) m m' good /\ ~ good.
Proof.
  pose (A := mkArr false 2 0 1 0). pose (B := mkArr false 2 0 3 0).
  exists [ACall [(TX 0, A)]; ABlock 1 [ACall [(TX 0, A)]; ACall [(TX 0, B)]]], (fun _ => blank).
  eexists. eexists. split; [|split; [|split; [|split]]].
  - intros x [<-|[<-|[]]]; cbn; repeat split; try (intros c a [H|[]]; injection H as <- <-; reflexivity); repeat constructor; intros [].
  - cbn. repeat constructor. intros [].
  - cbn. intros [H|[]]. discriminate.
  - cbv -[blank cset describes]. apply X_set, X_set, X_set, X_call. eapply X_block; [apply X_call, X_set, X_call, X_nil|].
    eapply X_block; [apply X_call, X_set, X_call, X_nil|]. apply X_skip, X_nil.
  - intros (_ & _ & (H & _) & _). specialize (H (TX 0) A (or_introl eq_refl)). destruct H as [H _]. vm_compute in H. discriminate.
Qed.
Print Assumptions C49_arrays_of_an_outer_scope_refuted.

(** The same when a branch is not taken. *)
Theorem C49_branch_not_taken_refuted :
  exists l m m' good, allKinds l /\ NoDup (allScopes l) /\ ~ In 0 (allScopes l) /\ exec (printFunction l) m m' good /\ ~ good.
Proof.
  pose (A := mkArr false 2 0 1 0). pose (B := mkArr false 2 0 3 0).
  exists [ACall [(TX 0, A)]; ABlock 1 [ACall [(TX 0, B)]]; ACall [(TX 0, B)]], (fun _ => blank).
  eexists. eexists. split; [|split; [|split; [|split]]].
  - intros x [<-|[<-|[<-|[]]]]; cbn; repeat split; try (intros c a [H|[]]; injection H as <- <-; reflexivity); repeat constructor; intros [].
  - cbn. repeat constructor. intros [].
  - cbn. intros [H|[]]. discriminate.
  - cbv -[blank cset describes]. apply X_set, X_set, X_set, X_call, X_skip, X_call, X_nil.
  - intros (_ & H & _). specialize (H (TX 0) B (or_introl eq_refl)). destruct H as [H _]. vm_compute in H. discriminate.
Qed.
Print Assumptions C49_branch_not_taken_refuted.

(** "Splitting preserves the generated code" (C40) with atomic functions: the structures are local variables of every function,
    but the printer remembers what it has put in those of the functions before. *)
Theorem C40_atomic_structures_refuted :
  exists parts, locals 0 (concat parts) /\ allKinds (concat parts) /\ allScopes (concat parts) = [] /\
  (forall m m' good, exec (printFunction (concat parts)) m m' good -> good) /\
  exists f m' good, nth_error (printSplit (fun _ => None) parts) 1 = Some f /\ exec f (fun _ => blank) m' good /\ ~ good.
Proof.
  pose (A := mkArr false 2 0 1 0). pose (B := mkArr false 2 0 3 0).
  exists [[forwardCall [A] B]; [forwardCall [A] B]].
  assert (H1 : locals 0 (concat [[forwardCall [A] B]; [forwardCall [A] B]])).
  { intros x [<-|[<-|[]]]; cbn; intros c a H; repeat (destruct H as [H|H]; [injection H as <- <-; reflexivity|]); destruct H. }
  assert (H2 : allKinds (concat [[forwardCall [A] B]; [forwardCall [A] B]])).
  { intros x [<-|[<-|[]]]; cbn; (split; [intros c a H; repeat (destruct H as [H|H]; [injection H as <- <-; reflexivity|]); destruct H|]);
      repeat constructor; cbn; intros H; repeat (destruct H as [H|H]; [discriminate|]); exact H. }
  split; [exact H1|]. split; [exact H2|]. split; [reflexivity|]. split.
  - intros m m' good X. apply (C49_atomic_functions_get_their_arrays _ 0 m m' good H1 H2); [constructor|intros []|exact X].
  - eexists. eexists. eexists. split; [reflexivity|]. split; [cbv -[blank cset describes]; apply X_call, X_nil|].
    intros (H & _). specialize (H (TX 0) A (or_introl eq_refl)). destruct H as [H _]. vm_compute in H. discriminate.
Qed.
Print Assumptions C40_atomic_structures_refuted.

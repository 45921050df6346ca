(** Proofs: the code keeps the promises of Library_spec.v. *)
From Coq Require Import List Bool PeanoNat Arith Lia.
From Verif Require Import Library_model Library_spec.
Import ListNotations.

Lemma upd_eq : forall A (f : nat -> A) k v, upd f k v k = v.
Proof. intros. unfold upd. rewrite Nat.eqb_refl. reflexivity. Qed.

Lemma upd_ne : forall A (f : nat -> A) k v i, i <> k -> upd f k v i = f i.
Proof. intros A f k v i H. unfold upd. apply Nat.eqb_neq in H. rewrite H. reflexivity. Qed.

Lemma existsb_In : forall n l, existsb (Nat.eqb n) l = true <-> In n l.
Proof.
  intros n l. rewrite existsb_exists. split.
  - intros [x [H1 H2]]. apply Nat.eqb_eq in H2. subst. exact H1.
  - intros H. exists n. split; [exact H|apply Nat.eqb_refl].
Qed.

(** Counting *)
Fixpoint count (g : nat -> bool) (n : nat) : nat :=
  match n with 0 => 0 | S k => (if g k then 1 else 0) + count g k end.

Lemma count_ext : forall g h n, (forall i, i < n -> g i = h i) -> count g n = count h n.
Proof.
  intros g h n. induction n as [|n IH]; intros H; cbn [count]; [reflexivity|].
  rewrite (H n) by lia. rewrite IH; [reflexivity|]. intros i Hi. apply H. lia.
Qed.

Lemma count_upd : forall g n i b, i < n ->
  count (upd g i b) n + (if g i then 1 else 0) = count g n + (if b then 1 else 0).
Proof.
  intros g n. induction n as [|n IH]; intros i b Hi; [lia|].
  cbn [count]. destruct (Nat.eq_dec i n) as [->|Hne].
  - rewrite upd_eq. rewrite (count_ext (upd g n b) g n).
    + destruct b, (g n); lia.
    + intros j Hj. apply upd_ne. lia.
  - rewrite (upd_ne _ g i b n) by lia. specialize (IH i b ltac:(lia)). lia.
Qed.

Lemma count_pos : forall g n i, i < n -> g i = true -> 0 < count g n.
Proof.
  intros g n i Hi Hg. pose proof (count_upd g n i false Hi) as H. rewrite Hg in H. lia.
Qed.

Definition noneb {A} (o : option A) : bool := match o with None => true | Some _ => false end.
Definition someb {A} (o : option A) : bool := match o with None => false | Some _ => true end.

Lemma nones_zero : forall (l : list (option ext)),
  Nat.eqb (length (filter noneb l)) 0 = forallb someb l.
Proof.
  induction l as [|[x|] l IH]; cbn [filter noneb someb forallb length]; [reflexivity|exact IH|reflexivity].
Qed.

Lemma forallb_map' : forall A B (f : A -> B) (p : B -> bool) l,
  forallb p (map f l) = forallb (fun x => p (f x)) l.
Proof. induction l as [|x l IH]; cbn [map forallb]; [reflexivity|rewrite IH; reflexivity]. Qed.

(** Registration *)
Lemma addExternal_none : forall n e names (g : name -> option ext) k,
  ~ In n names -> addExternal n e names (map g names) k = None.
Proof.
  intros n e names g k. induction names as [|a names IH]; intros H; [reflexivity|].
  cbn [map addExternal]. destruct (Nat.eqb n a) eqn:E.
  - apply Nat.eqb_eq in E. exfalso. apply H. left. symmetry. exact E.
  - rewrite IH; [reflexivity|]. intros Hin. apply H. right. exact Hin.
Qed.

Lemma map_upd_notin : forall n (v : option ext) names g,
  ~ In n names -> map (upd g n v) names = map g names.
Proof.
  intros n v names g H. apply map_ext_in. intros a Ha. apply upd_ne. intros ->. exact (H Ha).
Qed.

Lemma addExternal_some : forall n e names (g : name -> option ext) k,
  NoDup names -> In n names ->
  addExternal n e names (map g names) k
  = Some (map (upd g n (Some e)) names, match g n with None => pred k | Some _ => k end).
Proof.
  intros n e names g k. induction names as [|a names IH]; intros Hnd Hin; [destruct Hin|].
  inversion Hnd as [|? ? Hna Hnd']; subst.
  cbn [map addExternal]. destruct (Nat.eqb n a) eqn:E.
  - apply Nat.eqb_eq in E. subst a. rewrite upd_eq. rewrite map_upd_notin by exact Hna. reflexivity.
  - apply Nat.eqb_neq in E. destruct Hin as [->|Hin]; [congruence|].
    rewrite IH by assumption. rewrite (upd_ne _ g n (Some e) a) by congruence. reflexivity.
Qed.

Lemma nones_upd : forall n e names (g : name -> option ext),
  NoDup names -> In n names ->
  length (filter noneb (map (upd g n (Some e)) names))
  = match g n with None => pred (length (filter noneb (map g names)))
                 | Some _ => length (filter noneb (map g names)) end.
Proof.
  intros n e names g. induction names as [|a names IH]; intros Hnd Hin; [destruct Hin|].
  inversion Hnd as [|? ? Hna Hnd']; subst. cbn [map filter].
  destruct (Nat.eq_dec n a) as [->|Hne].
  - rewrite upd_eq. cbn [noneb]. rewrite map_upd_notin by exact Hna.
    destruct (g a); cbn [noneb length pred]; reflexivity.
  - destruct Hin as [->|Hin]; [congruence|].
    rewrite (upd_ne _ g n (Some e) a) by congruence.
    specialize (IH Hnd' Hin).
    destruct (g a) as [x|]; cbn [noneb length]; rewrite IH; [reflexivity|].
    destruct (g n) eqn:G; [reflexivity|].
    assert (0 < length (filter noneb (map g names))).
    { clear - Hin G. induction names as [|b r IHr]; [destruct Hin|].
      cbn [map filter]. destruct Hin as [->|Hin].
      - rewrite G. cbn [noneb length]. lia.
      - specialize (IHr Hin). destruct (noneb (g b)); cbn [length]; lia. }
    lia.
Qed.

(** Closing *)
Lemma closeModels_ok : forall l mo,
  NoDup l -> (forall m, In m l -> mo m <> None) ->
  exists mo', closeModels mo l = Some mo' /\
    (forall m, In m l -> forall o, mo m = Some o -> mo' m = Some (closedModel o)) /\
    (forall m, ~ In m l -> mo' m = mo m).
Proof.
  induction l as [|a l IH]; intros mo Hnd H.
  - exists mo. split; [reflexivity|]. split; [intros m []|reflexivity].
  - inversion Hnd as [|? ? Hna Hnd']; subst. cbn [closeModels].
    destruct (mo a) as [o|] eqn:Ea; [|exfalso; apply (H a); [left; reflexivity|exact Ea]].
    destruct (IH (upd mo a (Some (closedModel o))) Hnd') as [mo' [E [H1 H2]]].
    { intros m Hm. rewrite upd_ne by (intros ->; exact (Hna Hm)). apply H. right. exact Hm. }
    exists mo'. split; [exact E|]. split.
    + intros m [->|Hm] o' Ho'.
      * rewrite H2 by exact Hna. rewrite upd_eq. congruence.
      * apply H1; [exact Hm|]. rewrite upd_ne by (intros ->; exact (Hna Hm)). exact Ho'.
    + intros m Hm. rewrite H2 by (intros Hin; apply Hm; right; exact Hin).
      apply upd_ne. intros ->. apply Hm. left. reflexivity.
Qed.

Lemma NoDup_filter' : forall A (f : A -> bool) l, NoDup l -> NoDup (filter f l).
Proof.
  intros A f l H. induction H as [|x l Hx Hl IH]; cbn [filter]; [constructor|].
  destruct (f x); [|exact IH]. constructor; [|exact IH].
  rewrite filter_In. intros [Hin _]. exact (Hx Hin).
Qed.

Section PROOFS.

Variable fs : path -> option file.
Variable api : nat.
Variable hc : nat.
Hypothesis Hfs : goodFiles fs.

Definition liveAt (w : aworld) (p : path) (l : oid) : bool :=
  match a_lib w l with Some (q, Live) => Nat.eqb q p | _ => false end.

Definition openedIn (libs : oid -> option (path * astat)) (a : amo) : bool :=
  match libs (am_lib a) with Some (_, st) => isLive st | None => false end.

Record moOk (libs : oid -> option (path * astat)) (m : oid) (a : amo) (o : model) (md : mdl) : Prop := {
  k_sym : symbols fs (am_path a) (am_name a) = Some md;
  k_good : goodModel md = true;
  k_path : mo_path o = am_path a;
  k_name : mo_name o = am_name a;
  k_m : mo_m o = md_m md;
  k_n : mo_n o = md_n md;
  k_in : mo_in o = md_in md;
  k_names : mo_names o = namesOf md;
  k_ext : mo_ext o = map (am_ext a) (namesOf md);
  k_missing : mo_missing o = length (filter noneb (mo_ext o));
  k_arg : mo_arg o = m;
  k_atomic : mo_atomic o = None \/ mo_atomic o = Some m;
  k_state : if openedIn libs a
            then mo_lib o = Some (am_lib a) /\ mo_ready o = true
                 /\ (forall f, mo_fn o f = md_fn md f)
                 /\ libs (am_lib a) = Some (am_path a, Live)
            else mo_lib o = None /\ mo_ready o = false /\ (forall f, mo_fn o f = false) }.

Record libOk (mos : oid -> option amo) (l : oid) (p : path) (b : lib) (f : file) : Prop := {
  b_path : lb_path b = p;
  b_handle : lb_handle b = true;
  b_file : fs p = Some f;
  b_good : goodFile api f = true;
  b_names : lb_names b = modelsOf f;
  b_pool : lb_pool b = fl_pool f;
  b_onclose : lb_onclose b = fl_pool f;
  b_nodup : NoDup (lb_models b);
  b_models : forall m, In m (lb_models b) <->
      exists a, mos m = Some a /\ am_stat a = Live /\ am_lib a = l }.

Definition libInv (s : state) (w : aworld) (l : oid) : Prop :=
  match a_lib w l with
  | Some (p, Live) => exists b f, st_lib s l = Some b /\ libOk (a_mo w) l p b f
  | Some (p, Shell) => exists b, st_lib s l = Some b /\ lb_handle b = false /\ lb_models b = []
  | _ => st_lib s l = None
  end.

Definition moInv (s : state) (w : aworld) (m : oid) : Prop :=
  match a_mo w m with
  | Some a =>
      match am_stat a with
      | Live => exists o md, st_mo s m = Some o /\ moOk (a_lib w) m a o md
      | Shell => False
      | Gone => st_mo s m = None
      end
  | None => st_mo s m = None
  end.

Record inv (s : state) (w : aworld) : Prop := {
  i_next : st_next s = a_next w;
  i_thr : forall p, st_thr s p = a_thr w p;
  i_closed : st_closed s = a_closed w;
  i_lib : forall l, libInv s w l;
  i_mo : forall m, moInv s w m;
  i_fresh : forall i, a_next w <= i -> a_lib w i = None /\ a_mo w i = None;
  i_lt : forall m a, a_mo w m = Some a -> am_lib a < a_next w;
  i_ref : forall p, st_ref s p = count (liveAt w p) (a_next w) + a_failed w p;
  i_ext : forall m a md n j, a_mo w m = Some a -> am_stat a = Live ->
      symbols fs (am_path a) (am_name a) = Some md -> In n (namesOf md) ->
      am_ext a n = Some (EModel j) -> moStat w j = Live }.

Lemma inv_initial : inv initial anone.
Proof.
  constructor; intros; cbn in *; try reflexivity; try discriminate.
  split; reflexivity.
Qed.

(** Evaluation *)

Lemma goodModel_facts : forall md, goodModel md = true ->
  md_type md = true /\ 0 < md_in md /\ 0 < md_out md /\ (exists an, md_names md = Some an) /\
  md_fn md FFor1 = md_fn md FSFor1 /\ md_fn md FSFor1 = md_fn md PFor1 /\
  md_fn md FRev1 = md_fn md FSRev1 /\ md_fn md FSRev1 = md_fn md PRev1 /\
  md_fn md FRev2 = md_fn md FSRev2 /\ md_fn md FSRev2 = md_fn md PRev2 /\
  (md_fn md FSJac = true -> md_fn md PJac = true) /\
  (md_fn md FSHes = true -> md_fn md PHes = true).
Proof.
  intros md H. unfold goodModel in H. rewrite !andb_true_iff in H.
  destruct H as [[[[[[[[[[[H1 H2] H3] H4] H5] H6] H7] H8] H9] H10] H11] H12].
  apply Nat.ltb_lt in H2. apply Nat.ltb_lt in H3.
  apply eqb_prop in H5. apply eqb_prop in H6. apply eqb_prop in H7. apply eqb_prop in H8.
  apply eqb_prop in H9. apply eqb_prop in H10.
  destruct (md_names md) as [an|]; [|discriminate].
  repeat (split; [first [assumption|exists an; reflexivity]|]).
  split.
  - intros E. rewrite E in H11. exact H11.
  - intros E. rewrite E in H12. exact H12.
Qed.

Lemma registered_nth : forall md (g : name -> option ext) i,
  forallb (fun n => someb (g n)) (namesOf md) = true -> i < length (namesOf md) ->
  exists e, nth i (map g (namesOf md)) None = Some e /\ g (nth i (namesOf md) 0) = Some e.
Proof.
  intros md g i H Hi. rewrite forallb_forall in H.
  specialize (H (nth i (namesOf md) 0) (nth_In _ 0 Hi)).
  destruct (g (nth i (namesOf md) 0)) as [e|] eqn:E; [|discriminate].
  exists e. split; [|reflexivity].
  rewrite (nth_indep _ None (g 0)) by (rewrite map_length; exact Hi).
  rewrite map_nth. exact E.
Qed.

Lemma callExternals_ok : forall s w m a o md, inv s w ->
  a_mo w m = Some a -> am_stat a = Live -> moOk (a_lib w) m a o md ->
  forallb (fun n => someb (am_ext a n)) (namesOf md) = true ->
  forall l, (forall i, In i l -> i < length (namesOf md)) ->
  callExternals s (mo_ext o) l
  = Some (flat_map (fun i => match am_ext a (nth i (namesOf md) 0) with
                             | Some e => [e] | None => [] end) l).
Proof.
  intros s w m a o md I Ha Hl K Hreg l. induction l as [|i l IH]; intros Hlt; [reflexivity|].
  cbn [callExternals flat_map].
  destruct (registered_nth md (am_ext a) i Hreg (Hlt i (or_introl eq_refl))) as [e [E1 E2]].
  rewrite (k_ext _ _ _ _ _ K), E1, E2.
  rewrite <- (k_ext _ _ _ _ _ K).
  assert (Hr : reach s e = true).
  { destruct e as [f|j]; [reflexivity|]. cbn [reach].
    assert (Hin : In (nth i (namesOf md) 0) (namesOf md))
      by (apply nth_In; apply Hlt; left; reflexivity).
    pose proof (i_ext s w I m a md _ j Ha Hl (k_sym _ _ _ _ _ K) Hin E2) as Hj.
    pose proof (i_mo s w I j) as Mj. unfold moInv in Mj. unfold moStat in Hj.
    destruct (a_mo w j) as [aj|]; [|discriminate].
    rewrite Hj in Mj. destruct Mj as [oj [mdj [Ej _]]]. rewrite Ej. reflexivity. }
  rewrite Hr. rewrite IH by (intros k Hk; apply Hlt; right; exact Hk). reflexivity.
Qed.

Lemma live_count : forall s w, inv s w -> forall l p, a_lib w l = Some (p, Live) ->
  0 < st_ref s p.
Proof.
  intros s w I l p Hl. rewrite (i_ref s w I).
  assert (Hlt : l < a_next w).
  { destruct (Nat.lt_ge_cases l (a_next w)) as [H|H]; [exact H|].
    destruct (i_fresh s w I l H) as [H1 _]. congruence. }
  assert (Hg : liveAt w p l = true) by (unfold liveAt; rewrite Hl; apply Nat.eqb_refl).
  pose proof (count_pos _ _ _ Hlt Hg). lia.
Qed.

Lemma callFns_ok : forall s w m a o md, inv s w ->
  a_mo w m = Some a -> am_stat a = Live -> st_mo s m = Some o -> moOk (a_lib w) m a o md ->
  opened w a = true ->
  forallb (fun n => someb (am_ext a n)) (namesOf md) = true ->
  forall l, forallb (md_fn md) l = true ->
  callFns fs s o l
  = Some (map (fun f => {| rn_path := am_path a; rn_name := am_name a; rn_fn := f;
                           rn_ext := reaches md (am_ext a) f |}) l).
Proof.
  intros s w m a o md I Ha Hl Ho K Hop Hreg l. induction l as [|f l IH]; intros Hf; [reflexivity|].
  cbn [forallb] in Hf. apply andb_true_iff in Hf. destruct Hf as [Hf1 Hf2].
  cbn [callFns map]. rewrite (IH Hf2).
  pose proof (k_state _ _ _ _ _ K) as Ks. change (openedIn (a_lib w) a) with (opened w a) in Ks. rewrite Hop in Ks.
  destruct Ks as [Ks1 [Ks2 [Ks3 Ks4]]].
  unfold callFn. rewrite (Ks3 f), Hf1.
  pose proof (live_count s w I _ _ Ks4) as Hr.
  rewrite (k_path _ _ _ _ _ K). destruct (st_ref s (am_path a)) as [|r] eqn:Er; [lia|].
  pose proof (k_sym _ _ _ _ _ K) as Hs. unfold symbols in Hs.
  destruct (fs (am_path a)) as [fl|] eqn:Ef; [|discriminate].
  rewrite (k_name _ _ _ _ _ K), Hs, (k_arg _ _ _ _ _ K), Ho.
  destruct (goodModel_facts md (k_good _ _ _ _ _ K)) as [_ [_ [_ [[an Han] _]]]].
  assert (Hc : forall i, In i (md_calls md f) -> i < length (namesOf md)).
  { intros i Hi. unfold namesOf. rewrite Han. destruct (Hfs _ _ _ _ _ Ef Hs Han) as [_ H]. exact (H f i Hi). }
  rewrite (callExternals_ok s w m a o md I Ha Hl K Hreg _ Hc). reflexivity.
Qed.

Lemma times_concat : forall k l, times k l = concat (repeat l k).
Proof. induction k as [|k IH]; intros l; cbn [times repeat concat]; [reflexivity|rewrite IH; reflexivity]. Qed.

Lemma forallb_each : forall (p : fn -> bool) k l, forallb p l = true -> forallb p (concat (repeat l k)) = true.
Proof.
  intros p k l H. induction k as [|k IH]; [reflexivity|]. cbn [repeat concat].
  rewrite forallb_app, H, IH. reflexivity.
Qed.

Lemma ltb0 : forall k, Nat.ltb 0 k = negb (Nat.eqb k 0).
Proof. intros [|k]; reflexivity. Qed.

Lemma perform_closed : forall s o e, mo_ready o = false ->
  perform fs s o (body fs o e) [] = OThrow MNotReady.
Proof. intros s o e H. destruct e; cbn [body app perform]; rewrite H; reflexivity. Qed.

Lemma perform_test : forall s o b e r acc,
  perform fs s o (STest b e :: r) acc = if b then perform fs s o r acc else OThrow e.
Proof. intros. destruct b; reflexivity. Qed.

Lemma perform_open : forall s w m a o md e, inv s w ->
  a_mo w m = Some a -> am_stat a = Live -> st_mo s m = Some o -> moOk (a_lib w) m a o md ->
  opened w a = true ->
  match e with EvSJacVec nx => nx = md_n md | _ => True end ->
  see (perform fs s o (body fs o e) []) = Some (aeval a md e).
Proof.
  intros s w m a o md e I Ha Hl Ho K Hop Hv.
  pose proof (callFns_ok s w m a o md I Ha Hl Ho K Hop) as Hcall.
  pose proof (k_state _ _ _ _ _ K) as Ks. change (openedIn (a_lib w) a) with (opened w a) in Ks. rewrite Hop in Ks.
  destruct Ks as [_ [Kr [Kf _]]].
  destruct (goodModel_facts md (k_good _ _ _ _ _ K))
    as [_ [_ [_ [_ [G1 [G2 [G3 [G4 [G5 [G6 [G7 G8]]]]]]]]]]].
  assert (Hmiss : Nat.eqb (mo_missing o) 0
                  = forallb (fun n => someb (am_ext a n)) (namesOf md)).
  { rewrite (k_missing _ _ _ _ _ K), nones_zero, (k_ext _ _ _ _ _ K), forallb_map'. reflexivity. }
  assert (HnJ : nnzOf fs o md_nnzJ = md_nnzJ md).
  { pose proof (k_sym _ _ _ _ _ K) as Hs. unfold symbols in Hs. unfold nnzOf.
    rewrite (k_path _ _ _ _ _ K), (k_name _ _ _ _ _ K).
    destruct (fs (am_path a)) as [fl|]; [|discriminate]. rewrite Hs. reflexivity. }
  assert (HnH : nnzOf fs o md_nnzH = md_nnzH md).
  { pose proof (k_sym _ _ _ _ _ K) as Hs. unfold symbols in Hs. unfold nnzOf.
    rewrite (k_path _ _ _ _ _ K), (k_name _ _ _ _ _ K).
    destruct (fs (am_path a)) as [fl|]; [|discriminate]. rewrite Hs. reflexivity. }
  unfold aeval.
  change (fun n : name => match am_ext a n with Some _ => true | None => false end)
    with (fun n : name => someb (am_ext a n)).
  destruct (forallb (fun n => someb (am_ext a n)) (namesOf md)) eqn:Hreg.
  - specialize (Hcall eq_refl).
    destruct e; unfold body, sizes, calls, needs; cbv zeta beta;
      rewrite ?ltb0, ?HnJ, ?HnH, ?Hmiss, ?Kr, ?Kf, ?(k_m _ _ _ _ _ K), ?(k_n _ _ _ _ _ K), ?(k_in _ _ _ _ _ K);
      rewrite ?times_concat; try rewrite Hv; rewrite ?Nat.leb_refl, ?Nat.eqb_refl;
      repeat match goal with
      | |- context [Nat.eqb (md_nnzJ md) 0] => destruct (Nat.eqb (md_nnzJ md) 0)
      | |- context [Nat.eqb (md_nnzH md) 0] => destruct (Nat.eqb (md_nnzH md) 0)
      | |- context [Nat.eqb ?k 0] => destruct (Nat.eqb k 0)
      end; cbn [app negb]; cbn [forallb];
      rewrite ?perform_test;
      repeat match goal with
         | |- see (OThrow _) = _ => fail 1
         | |- context [see (if ?b then _ else _)] => destruct b eqn:?
         | |- context [perform fs s o (STest ?b ?e :: ?r) ?acc] => rewrite (perform_test s o b e r acc)
         | |- context [perform fs s o (_ :: ?r) ?acc] => progress cbn [perform]
         | |- context [callFns fs s o ?l] =>
             rewrite (Hcall l) by
               (try apply forallb_each; cbn [forallb];
                repeat (apply andb_true_iff; split); first [reflexivity|assumption|auto; congruence])
         | |- context [perform fs s o [] _] => cbn [perform]
         end;
      rewrite ?andb_false_r, ?andb_true_r; cbn [andb]; rewrite ?andb_false_r; try reflexivity;
      try rewrite (G7 ltac:(first [reflexivity|assumption]));
      try rewrite (G8 ltac:(first [reflexivity|assumption]));
      cbn [andb app]; try reflexivity.
  - rewrite !andb_false_r.
    destruct e; unfold body; cbv zeta beta; rewrite ?Hmiss, ?Kr; cbn [app];
      rewrite ?perform_test;
      repeat match goal with
         | |- see (OThrow _) = _ => fail 1
         | |- context [see (if ?b then _ else _)] => destruct b
         end; reflexivity.
Qed.

(** Small facts *)
Lemma validate_good : forall f, 
  validateLib api f = if goodFile api f then inl (modelsOf f)
                      else inr (match fl_version f with
                                | Some v => if Nat.eqb api v then MNoFunction else MVersion
                                | None => MNoFunction end).
Proof.
  intros f. unfold validateLib, goodFile, modelsOf.
  destruct (fl_version f) as [v|]; [|reflexivity].
  rewrite (Nat.eqb_sym v api). destruct (fl_models f) as [l|]; destruct (Nat.eqb api v); reflexivity.
Qed.

Lemma newModel_good : forall l p n id f md, fl_mdl f n = Some md ->
  if goodModel md
  then newModel l p n id f
       = inl {| mo_lib := Some l; mo_ready := true; mo_path := p; mo_name := n;
                mo_m := md_m md; mo_n := md_n md; mo_in := md_in md;
                mo_out := md_out md; mo_fn := md_fn md; mo_names := namesOf md;
                mo_ext := map (fun _ => None) (namesOf md);
                mo_missing := length (namesOf md);
                mo_arg := id; mo_atomic := None |}
  else exists e, newModel l p n id f = inr e /\ e <> MNotReady.
Proof.
  intros l p n id f md H. unfold newModel. rewrite H. unfold goodModel, namesOf.
  destruct (md_type md); [|exists MType; split; [reflexivity|discriminate]].
  destruct (md_in md) as [|i]; [exists MDimension; split; [reflexivity|discriminate]|].
  destruct (md_out md) as [|j]; [exists MDimension; split; [reflexivity|discriminate]|].
  destruct (md_names md) as [an|]; [|exists MNoFunction; split; [reflexivity|discriminate]].
  cbn [negb Nat.eqb orb andb Nat.ltb Nat.leb]. unfold consistent.
  destruct (md_fn md FFor1), (md_fn md FSFor1), (md_fn md PFor1); cbn [eqb andb];
    try (exists MFunctions; split; [reflexivity|discriminate]);
  destruct (md_fn md FRev1), (md_fn md FSRev1), (md_fn md PRev1); cbn [eqb andb];
    try (exists MFunctions; split; [reflexivity|discriminate]);
  destruct (md_fn md FRev2), (md_fn md FSRev2), (md_fn md PRev2); cbn [eqb andb];
    try (exists MFunctions; split; [reflexivity|discriminate]);
  destruct (md_fn md FSJac), (md_fn md PJac); cbn [implb negb orb andb];
    try (exists MFunctions; split; [reflexivity|discriminate]);
  destruct (md_fn md FSHes), (md_fn md PHes); cbn [implb negb orb andb];
    try (exists MFunctions; split; [reflexivity|discriminate]); reflexivity.
Qed.

Lemma see_throw : forall e, e <> MNotReady -> see (OThrow e) = Some VThrow.
Proof. intros e H. destruct e; try reflexivity. congruence. Qed.

Lemma next_lib_none : forall s w, inv s w -> a_lib w (a_next w) = None.
Proof. intros s w I. exact (proj1 (i_fresh s w I (a_next w) (le_n _))). Qed.

Lemma next_mo_none : forall s w, inv s w -> a_mo w (a_next w) = None.
Proof. intros s w I. exact (proj2 (i_fresh s w I (a_next w) (le_n _))). Qed.

Lemma lib_lt : forall s w l v, inv s w -> a_lib w l = Some v -> l < a_next w.
Proof.
  intros s w l v I H. destruct (Nat.lt_ge_cases l (a_next w)) as [L|L]; [exact L|].
  destruct (i_fresh s w I l L) as [E _]. congruence.
Qed.

Lemma mo_lt : forall s w l v, inv s w -> a_mo w l = Some v -> l < a_next w.
Proof.
  intros s w l v I H. destruct (Nat.lt_ge_cases l (a_next w)) as [L|L]; [exact L|].
  destruct (i_fresh s w I l L) as [_ E]. congruence.
Qed.

(** A model is described in the same way as long as its library is. *)
Lemma moOk_libs : forall libs libs' m a o md,
  libs' (am_lib a) = libs (am_lib a) -> moOk libs m a o md -> moOk libs' m a o md.
Proof.
  intros libs libs' m a o md E K. destruct K. constructor; try assumption.
  unfold openedIn in *. rewrite E. exact k_state0.
Qed.

Lemma live_mo : forall s w m, inv s w -> isLive (moStat w m) = true ->
  exists a o md, a_mo w m = Some a /\ am_stat a = Live /\ st_mo s m = Some o /\
                 moOk (a_lib w) m a o md.
Proof.
  intros s w m I H. unfold moStat in H. pose proof (i_mo s w I m) as M. unfold moInv in M.
  destruct (a_mo w m) as [a|]; [|discriminate].
  destruct (am_stat a) eqn:E; try discriminate.
  destruct M as [o [md [M1 M2]]]. exists a, o, md. repeat (split; [assumption || reflexivity|]). exact M2.
Qed.

Lemma live_lib : forall s w l, inv s w -> isLive (libStat w l) = true ->
  exists p b f, a_lib w l = Some (p, Live) /\ st_lib s l = Some b /\ libOk (a_mo w) l p b f.
Proof.
  intros s w l I H. unfold libStat in H. pose proof (i_lib s w I l) as L. unfold libInv in L.
  destruct (a_lib w l) as [[p st]|]; [|discriminate].
  destruct st; try discriminate.
  destruct L as [b [f [L1 L2]]]. exists p, b, f. repeat (split; [assumption || reflexivity|]). exact L2.
Qed.

Definition sim (s : state) (w : aworld) (c : op) : Prop :=
  see (snd (step fs api hc s c)) = Some (snd (astep fs api hc w c)) /\
  inv (fst (step fs api hc s c)) (fst (astep fs api hc w c)).

(** A change of [w] and [s] which only concerns threads. *)
Lemma inv_thr : forall s w p n, inv s w -> inv (setThr s p n) (setAThr w p n).
Proof.
  intros s w p n I. destruct I. constructor; try assumption.
  intros q. cbn. unfold upd. destruct (Nat.eqb q p); [reflexivity|apply i_thr0].
Qed.

Lemma inv_fail : forall s w p, inv s w -> inv (setRef s p (S (st_ref s p))) (afail w p).
Proof.
  intros s w p I. destruct I. constructor; try assumption.
  intros q. cbn. unfold upd. destruct (Nat.eqb q p) eqn:E; [|apply i_ref0].
  apply Nat.eqb_eq in E. subst q. change (liveAt (afail w p) p) with (liveAt w p).
  rewrite i_ref0. lia.
Qed.

Lemma inv_open : forall s w p f, inv s w -> fs p = Some f -> goodFile api f = true ->
  inv (fresh (setLib (setRef s p (S (st_ref s p))) (st_next s)
        (Some {| lb_path := p; lb_handle := true; lb_names := modelsOf f;
                 lb_models := []; lb_pool := fl_pool f; lb_onclose := fl_pool f |})))
      (afresh (setALib w (a_next w) (Some (p, Live)))).
Proof.
  intros s w p f I Hf Hg. pose proof (next_lib_none s w I) as Hn.
  assert (Hnolib : forall m a, a_mo w m = Some a -> am_lib a <> a_next w).
  { intros m a Ha E. pose proof (i_lt s w I m a Ha). lia. }
  destruct I. constructor; cbn.
  - rewrite i_next0. reflexivity.
  - assumption.
  - assumption.
  - intros l. unfold libInv. cbn. rewrite i_next0. unfold upd.
    destruct (Nat.eqb l (a_next w)) eqn:E.
    + apply Nat.eqb_eq in E. subst l. eexists. exists f. split; [reflexivity|].
      constructor; cbn; try assumption; try reflexivity.
      * constructor.
      * intros m. split; [intros []|]. intros [a [H1 [H2 H3]]]. exfalso. exact (Hnolib m a H1 H3).
    + exact (i_lib0 l).
  - intros m. pose proof (i_mo0 m) as M. unfold moInv in *. cbn.
    destruct (a_mo w m) as [a|] eqn:Ea; [|exact M].
    destruct (am_stat a); try exact M. destruct M as [o [md [M1 M2]]].
    exists o, md. split; [exact M1|]. apply (moOk_libs (a_lib w)); [|exact M2].
    apply upd_ne. exact (Hnolib m a Ea).
  - intros i Hi. destruct (i_fresh0 i) as [H1 H2]; [lia|]. split; [|exact H2].
    rewrite upd_ne by lia. exact H1.
  - intros m a Ha. pose proof (i_lt0 m a Ha). lia.
  - intros q.
    assert (Hc : count (liveAt (afresh (setALib w (a_next w) (Some (p, Live)))) q) (a_next w)
                 = count (liveAt w q) (a_next w)).
    { apply count_ext. intros i Hi. unfold liveAt. cbn. rewrite upd_ne by lia. reflexivity. }
    rewrite Hc. unfold liveAt at 1. cbn. rewrite upd_eq.
    unfold upd. rewrite (Nat.eqb_sym q p). destruct (Nat.eqb p q) eqn:E.
    + apply Nat.eqb_eq in E. subst q. rewrite i_ref0. lia.
    + rewrite i_ref0. lia.
  - exact i_ext0.
Qed.

Lemma sim_open : forall s w p, inv s w -> sim s w (Open p).
Proof.
  intros s w p I. unfold sim. cbn [step astep]. unfold openLib.
  destruct (fs p) as [f|] eqn:Ef; [|split; [reflexivity|exact I]].
  rewrite validate_good. destruct (goodFile api f) eqn:Eg.
  - destruct (fl_pool f) eqn:Ep; cbn [fst snd].
    + split; [cbn; rewrite (i_next s w I); reflexivity|].
      pose proof (inv_open (setThr s p hc) (setAThr w p hc) p f (inv_thr s w p hc I) Ef Eg) as H.
      rewrite Ep in H. exact H.
    + split; [cbn; rewrite (i_next s w I); reflexivity|].
      pose proof (inv_open s w p f I Ef Eg) as H. rewrite Ep in H. exact H.
  - cbn [fst snd]. split; [|apply inv_fail; exact I].
    apply see_throw. destruct (fl_version f) as [v|]; [destruct (Nat.eqb api v)|]; discriminate.
Qed.

Lemma sim_threads : forall s w l n, inv s w -> isLive (libStat w l) = true ->
  sim s w (SetThreads l n).
Proof.
  intros s w l n I H. destruct (live_lib s w l I H) as [p [b [f [H1 [H2 B]]]]].
  unfold sim. cbn [step astep]. unfold setThreads. rewrite H1, H2, (b_file _ _ _ _ _ B).
  rewrite (b_pool _ _ _ _ _ B), (b_path _ _ _ _ _ B).
  destruct (fl_pool f); [|split; [reflexivity|exact I]].
  pose proof (live_count s w I l p H1) as Hr. destruct (st_ref s p) eqn:Er; [lia|].
  split; [reflexivity|]. cbn [fst]. apply inv_thr. exact I.
Qed.

Lemma sim_getThreads : forall s w l, inv s w -> isLive (libStat w l) = true ->
  sim s w (GetThreads l).
Proof.
  intros s w l I H. destruct (live_lib s w l I H) as [p [b [f [H1 [H2 B]]]]].
  unfold sim. cbn [step astep]. unfold getThreads. rewrite H1, H2, (b_file _ _ _ _ _ B).
  rewrite (b_pool _ _ _ _ _ B), (b_path _ _ _ _ _ B).
  destruct (fl_pool f); [|split; [reflexivity|exact I]].
  pose proof (live_count s w I l p H1) as Hr. destruct (st_ref s p) eqn:Er; [lia|].
  split; [cbn; rewrite (i_thr s w I); reflexivity|exact I].
Qed.

Lemma sim_avail : forall s w m f, inv s w -> isLive (moStat w m) = true -> sim s w (Avail m f).
Proof.
  intros s w m f I H. destruct (live_mo s w m I H) as [a [o [md [H1 [H2 [H3 K]]]]]].
  unfold sim. cbn [step astep]. rewrite H1, H3, (k_sym _ _ _ _ _ K). split; [|exact I].
  cbn [snd see]. pose proof (k_state _ _ _ _ _ K) as Ks.
  change (openedIn (a_lib w) a) with (opened w a) in Ks.
  destruct (opened w a).
  - destruct Ks as [_ [_ [Ks _]]]. rewrite Ks. reflexivity.
  - destruct Ks as [_ [_ Ks]]. rewrite Ks. reflexivity.
Qed.

Lemma sim_names : forall s w m, inv s w -> isLive (moStat w m) = true -> sim s w (AtomicNames m).
Proof.
  intros s w m I H. destruct (live_mo s w m I H) as [a [o [md [H1 [H2 [H3 K]]]]]].
  unfold sim. cbn [step astep]. rewrite H1, H3, (k_sym _ _ _ _ _ K). split; [|exact I].
  cbn [snd see]. rewrite (k_names _ _ _ _ _ K). reflexivity.
Qed.

Lemma eval_ok : forall s w m e, inv s w -> isLive (moStat w m) = true ->
  match e with
  | EvSJacVec nx => forall a md, a_mo w m = Some a ->
                    symbols fs (am_path a) (am_name a) = Some md -> nx = md_n md
  | _ => True
  end ->
  see (evaluate fs s m e) = Some (evalOf fs w m e).
Proof.
  intros s w m e I H Hv. destruct (live_mo s w m I H) as [a [o [md [H1 [H2 [H3 K]]]]]].
  unfold evaluate, evalOf. rewrite H1, H3, (k_sym _ _ _ _ _ K).
  destruct (opened w a) eqn:Eo.
  - apply (perform_open s w m a o md e I H1 H2 H3 K Eo).
    destruct e; try exact Logic.I. apply (Hv a md H1 (k_sym _ _ _ _ _ K)).
  - pose proof (k_state _ _ _ _ _ K) as Ks. change (openedIn (a_lib w) a) with (opened w a) in Ks.
    rewrite Eo in Ks. destruct Ks as [_ [Kr _]]. rewrite perform_closed by exact Kr. reflexivity.
Qed.

(** A model object replaced by another with the same description. *)
Lemma inv_replace : forall s w m a a' o', inv s w ->
  a_mo w m = Some a -> am_stat a = Live -> am_stat a' = Live -> am_lib a' = am_lib a ->
  (exists md, moOk (a_lib w) m a' o' md) ->
  (forall md n j, symbols fs (am_path a') (am_name a') = Some md -> In n (namesOf md) ->
     am_ext a' n = Some (EModel j) -> moStat w j = Live) ->
  inv (setMo s m (Some o')) (setAMo w m (Some a')).
Proof.
  intros s w m a a' o' I Ha Hl Hl' Hlib [md K] Hx. pose proof (mo_lt s w m a I Ha) as Hm.
  pose proof (i_lt s w I m a Ha) as Hlt.
  assert (Hms : forall j, moStat w j = Live -> moStat (setAMo w m (Some a')) j = Live).
  { intros j Hj. unfold moStat in *. cbn. unfold upd. destruct (Nat.eqb j m); [exact Hl'|exact Hj]. }
  destruct I. constructor; cbn; try assumption.
  - intros l. pose proof (i_lib0 l) as L. unfold libInv in *. cbn.
    destruct (a_lib w l) as [[p st]|]; [|exact L]. destruct st; try exact L.
    destruct L as [b [f [L1 B]]]. exists b, f. split; [exact L1|].
    destruct B. constructor; try assumption.
    intros j. rewrite b_models0. unfold upd. destruct (Nat.eqb j m) eqn:E; [|reflexivity].
    apply Nat.eqb_eq in E. subst j. split.
    + intros [x [X1 [X2 X3]]]. exists a'. split; [reflexivity|]. split; [exact Hl'|]. congruence.
    + intros [x [X1 [X2 X3]]]. exists a. split; [exact Ha|]. split; [exact Hl|]. congruence.
  - intros j. pose proof (i_mo0 j) as M. unfold moInv in *. cbn. unfold upd.
    destruct (Nat.eqb j m) eqn:E; [|exact M].
    apply Nat.eqb_eq in E. subst j. rewrite Hl'. exists o', md. split; [reflexivity|exact K].
  - intros i Hi. destruct (i_fresh0 i Hi) as [F1 F2]. split; [exact F1|]. rewrite upd_ne by lia. exact F2.
  - intros j x. unfold upd. destruct (Nat.eqb j m) eqn:E; [|apply i_lt0].
    intros X. injection X as <-. rewrite Hlib. exact Hlt.
  - intros j x mdx n k. unfold upd at 1. destruct (Nat.eqb j m) eqn:E.
    + intros X _ S1 S2 S3. injection X as <-. apply Hms. exact (Hx mdx n k S1 S2 S3).
    + intros X1 X2 X3 X4 X5. apply Hms. exact (i_ext0 j x mdx n k X1 X2 X3 X4 X5).
Qed.

Lemma inv_same_world : forall s w m a o', inv s w ->
  a_mo w m = Some a -> am_stat a = Live -> (exists md, moOk (a_lib w) m a o' md) ->
  inv (setMo s m (Some o')) w.
Proof.
  intros s w m a o' I Ha Hl [md K]. destruct I. constructor; cbn; try assumption.
  intros j. pose proof (i_mo0 j) as M. unfold moInv in *. cbn. unfold upd.
  destruct (Nat.eqb j m) eqn:E; [|exact M].
  apply Nat.eqb_eq in E. subst j. rewrite Ha, Hl. exists o', md. split; [reflexivity|exact K].
Qed.

Lemma sim_register : forall s w m n e, inv s w -> proper fs w (Register m n e) = true ->
  sim s w (Register m n e).
Proof.
  intros s w m n e I H. cbn [proper] in H. apply andb_true_iff in H. destruct H as [H He].
  destruct (live_mo s w m I H) as [a [o [md [H1 [H2 [H3 K]]]]]].
  unfold sim. cbn [step astep]. unfold register. rewrite H1, H3, (k_sym _ _ _ _ _ K).
  rewrite (k_ext _ _ _ _ _ K), (k_names _ _ _ _ _ K).
  assert (Hnd : NoDup (namesOf md)).
  { pose proof (k_sym _ _ _ _ _ K) as Hs. unfold symbols in Hs.
    destruct (fs (am_path a)) as [fl|] eqn:Ef; [|discriminate].
    destruct (goodModel_facts md (k_good _ _ _ _ _ K)) as [_ [_ [_ [[an Han] _]]]].
    unfold namesOf. rewrite Han. exact (proj1 (Hfs _ _ _ _ _ Ef Hs Han)). }
  destruct (existsb (Nat.eqb n) (namesOf md)) eqn:Ex.
  - apply existsb_In in Ex. rewrite addExternal_some by assumption.
    split; [reflexivity|]. cbn [fst].
    apply (inv_replace s w m a); try assumption; try reflexivity.
    + exists md. destruct K. constructor; cbn; try assumption; try reflexivity.
      rewrite nones_upd by assumption. rewrite k_missing0, k_ext0. reflexivity.
    + cbn. intros md' n' j S1 S2. unfold upd. destruct (Nat.eqb n' n) eqn:En.
      * intros X. injection X as ->. destruct (moStat w j); [reflexivity|discriminate He|discriminate He].
      * intros X. exact (i_ext s w I m a md' n' j H1 H2 S1 S2 X).
  - rewrite addExternal_none; [split; [reflexivity|exact I]|].
    intros Hin. apply existsb_In in Hin. congruence.
Qed.

Lemma sim_asatomic : forall s w m e, inv s w -> isLive (moStat w m) = true ->
  match e with
  | EvSJacVec nx => forall a md, a_mo w m = Some a ->
                    symbols fs (am_path a) (am_name a) = Some md -> nx = md_n md
  | _ => True
  end ->
  sim s w (AsAtomicEval m e).
Proof.
  intros s w m e I H Hv. destruct (live_mo s w m I H) as [a [o [md [H1 [H2 [H3 K]]]]]].
  unfold sim. cbn [step astep]. unfold asAtomic. rewrite H3.
  destruct (k_atomic _ _ _ _ _ K) as [E|E]; rewrite E.
  - cbn [fst snd].
    match goal with |- context [setMo s m (Some ?x)] => set (o' := x) end.
    assert (I' : inv (setMo s m (Some o')) w).
    { apply (inv_same_world s w m a); try assumption. exists md.
      destruct K. constructor; cbn; try assumption; try reflexivity. right. reflexivity. }
    split; [|exact I']. apply eval_ok; assumption.
  - cbn [fst snd]. split; [|exact I]. apply eval_ok; assumption.
Qed.

Lemma sim_get : forall s w l n, inv s w -> isLive (libStat w l) = true -> sim s w (Get l n).
Proof.
  intros s w l n I H. destruct (live_lib s w l I H) as [p [b [f [H1 [H2 B]]]]].
  unfold sim. cbn [step astep]. unfold getModel.
  rewrite H1, H2, (b_names _ _ _ _ _ B), (b_path _ _ _ _ _ B), (b_file _ _ _ _ _ B).
  destruct (existsb (Nat.eqb n) (modelsOf f)) eqn:En; [|split; [reflexivity|exact I]].
  destruct (fl_mdl f n) as [md|] eqn:Em.
  2:{ unfold newModel. rewrite Em. split; [reflexivity|exact I]. }
  pose proof (newModel_good l p n (st_next s) f md Em) as Hn.
  destruct (goodModel md) eqn:Eg.
  2:{ destruct Hn as [e [Hn1 Hn2]]. rewrite Hn1. split; [apply see_throw; exact Hn2|exact I]. }
  rewrite Hn. cbn [fst snd]. split; [cbn; rewrite (i_next s w I); reflexivity|].
  pose proof (next_mo_none s w I) as Hnone. pose proof (lib_lt s w l _ I H1) as Hll.
  pose proof (b_file _ _ _ _ _ B) as Bf.
  assert (Hms : forall j v, moStat w j = Live -> moStat (setAMo w (a_next w) v) j = Live).
  { intros j v Hj. unfold moStat in *. cbn. unfold upd. destruct (Nat.eqb j (a_next w)) eqn:E; [|exact Hj].
    apply Nat.eqb_eq in E. subst j. rewrite Hnone in Hj. discriminate. }
  destruct I. constructor; cbn; try assumption.
  - rewrite i_next0. reflexivity.
  - intros k. pose proof (i_lib0 k) as L. unfold libInv in *. cbn. rewrite i_next0.
    destruct (a_lib w k) as [[q st]|] eqn:Ek.
    2:{ rewrite upd_ne by congruence. exact L. }
    destruct st.
    + destruct (Nat.eq_dec k l) as [->|Hne].
      * rewrite upd_eq. eexists. exists f. split; [reflexivity|].
        rewrite H1 in Ek. injection Ek as <-. destruct B. constructor; cbn; try assumption; try reflexivity.
        -- constructor; [|exact b_nodup0]. rewrite b_models0. intros [x [X _]]. congruence.
        -- intros j. unfold upd. destruct (Nat.eqb j (a_next w)) eqn:E.
           ++ apply Nat.eqb_eq in E. subst j. split; [|left; reflexivity].
              intros _. eexists. split; [reflexivity|]. split; reflexivity.
           ++ apply Nat.eqb_neq in E. rewrite <- b_models0. split; [|right; assumption].
              intros [X|X]; [congruence|exact X].
      * rewrite upd_ne by exact Hne. destruct L as [b' [f' [L1 B']]].
        exists b', f'. split; [exact L1|]. destruct B'. constructor; try assumption.
        intros j. rewrite b_models0. unfold upd. destruct (Nat.eqb j (a_next w)) eqn:E; [|reflexivity].
        apply Nat.eqb_eq in E. subst j. split; intros [x [X1 [X2 X3]]].
        -- congruence.
        -- injection X1 as <-. cbn in X3. congruence.
    + rewrite upd_ne by congruence. exact L.
    + rewrite upd_ne by congruence. exact L.
  - intros j. pose proof (i_mo0 j) as M. unfold moInv in *. cbn. rewrite i_next0. unfold upd.
    destruct (Nat.eqb j (a_next w)) eqn:E; [|exact M].
    cbn [am_stat]. eexists. exists md. split; [reflexivity|].
    constructor; cbn; try assumption; try reflexivity.
    + unfold symbols. rewrite Bf. exact Em.
    + clear. induction (namesOf md) as [|x r IH]; cbn; [reflexivity|]. f_equal. exact IH.
    + apply Nat.eqb_eq in E. congruence.
    + left. reflexivity.
    + unfold openedIn. cbn [am_lib]. rewrite H1. cbn [isLive].
      split; [reflexivity|]. split; [reflexivity|]. split; reflexivity.
  - intros i Hi. destruct (i_fresh0 i) as [F1 F2]; [lia|]. split; [exact F1|]. rewrite upd_ne by lia. exact F2.
  - intros j x. unfold upd. destruct (Nat.eqb j (a_next w)) eqn:E.
    + intros X. injection X as <-. cbn. lia.
    + intros X. pose proof (i_lt0 j x X). lia.
  - intros q.
    match goal with |- _ = _ + ?g + _ => change g with (count (liveAt w q) (a_next w)) end.
    change (liveAt _ q (a_next w)) with (liveAt w q (a_next w)).
    unfold liveAt at 1. rewrite (proj1 (i_fresh0 _ (le_n _))). cbn. apply i_ref0.
  - intros j x mdx k i. unfold upd at 1. destruct (Nat.eqb j (a_next w)) eqn:E.
    + intros X. injection X as <-. cbn. discriminate.
    + intros X1 X2 X3 X4 X5. apply Hms. exact (i_ext0 j x mdx k i X1 X2 X3 X4 X5).
Qed.

Lemma uncalled_ok : forall s w m, inv s w -> uncalled fs w m = true ->
  forall i a md n j, a_mo w i = Some a -> am_stat a = Live -> i <> m ->
  symbols fs (am_path a) (am_name a) = Some md -> In n (namesOf md) ->
  am_ext a n = Some (EModel j) -> j <> m.
Proof.
  intros s w m I H i a md n j Ha Hl Hne Hs Hn He. unfold uncalled in H.
  rewrite forallb_forall in H.
  assert (Hi : In i (seq 0 (a_next w))).
  { apply in_seq. pose proof (mo_lt s w i a I Ha). lia. }
  specialize (H i Hi). rewrite Ha, Hl, Hs in H. cbn [isLive negb orb] in H.
  apply Nat.eqb_neq in Hne. rewrite Hne in H. cbn [orb] in H.
  rewrite forallb_forall in H. specialize (H n Hn). rewrite He in H.
  apply negb_true_iff in H. apply Nat.eqb_neq in H. exact H.
Qed.

Lemma inv_destroy : forall s s' w m a, inv s w -> a_mo w m = Some a -> am_stat a = Live ->
  uncalled fs w m = true ->
  st_next s' = st_next s -> (forall p, st_thr s' p = st_thr s p) -> st_closed s' = st_closed s ->
  (forall p, st_ref s' p = st_ref s p) ->
  st_mo s' m = None -> (forall j, j <> m -> st_mo s' j = st_mo s j) ->
  (forall l, libInv s' (setAMo w m (Some (withStat a Gone))) l) ->
  inv s' (setAMo w m (Some (withStat a Gone))).
Proof.
  intros s s' w m a I Ha Hl Hu E1 E2 E3 E4 E5 E6 Hlibs.
  pose proof (mo_lt s w m a I Ha) as Hm. pose proof (uncalled_ok s w m I Hu) as Hu'.
  pose proof (i_lt s w I m a Ha) as Hlt.
  destruct I. constructor; cbn.
  - congruence.
  - intros p. rewrite E2. apply i_thr0.
  - congruence.
  - exact Hlibs.
  - intros j. pose proof (i_mo0 j) as M. unfold moInv in *. cbn. unfold upd.
    destruct (Nat.eqb j m) eqn:E.
    + apply Nat.eqb_eq in E. subst j. cbn [withStat am_stat]. exact E5.
    + apply Nat.eqb_neq in E. rewrite (E6 j E). exact M.
  - intros i Hi. destruct (i_fresh0 i Hi) as [F1 F2]. split; [exact F1|]. rewrite upd_ne by lia. exact F2.
  - intros j x. unfold upd. destruct (Nat.eqb j m); [|apply i_lt0].
    intros X. injection X as <-. exact Hlt.
  - intros p. rewrite E4. apply i_ref0.
  - intros j x md n k. unfold upd at 1. destruct (Nat.eqb j m) eqn:E.
    + intros X Hx. injection X as <-. cbn in Hx. discriminate.
    + apply Nat.eqb_neq in E. intros X1 X2 X3 X4 X5.
      pose proof (i_ext0 j x md n k X1 X2 X3 X4 X5) as Hk.
      pose proof (Hu' j x md n k X1 X2 E X3 X4 X5) as Hkm.
      unfold moStat in *. cbn. rewrite upd_ne by exact Hkm. exact Hk.
Qed.

Lemma sim_destroy : forall s w m, inv s w -> proper fs w (Destroy m) = true -> sim s w (Destroy m).
Proof.
  intros s w m I H. cbn [proper] in H. apply andb_true_iff in H. destruct H as [H Hu].
  assert (Hlive : isLive (moStat w m) = true).
  { pose proof (i_mo s w I m) as M. unfold moInv in M. unfold moStat in *.
    destruct (a_mo w m) as [a|]; [|discriminate]. destruct (am_stat a); [reflexivity|destruct M|discriminate]. }
  destruct (live_mo s w m I Hlive) as [a [o [md [H1 [H2 [H3 K]]]]]].
  unfold sim. cbn [step astep]. unfold destroyModel. rewrite H1, H3.
  pose proof (k_state _ _ _ _ _ K) as Ks.
  destruct (openedIn (a_lib w) a) eqn:Eo.
  - destruct Ks as [K1 [_ [_ K4]]]. rewrite K1.
    pose proof (i_lib s w I (am_lib a)) as L. unfold libInv in L. rewrite K4 in L.
    destruct L as [b [f [L1 B]]]. rewrite L1. cbn [fst snd]. split; [reflexivity|].
    apply (inv_destroy s); try assumption; try reflexivity.
    + cbn. apply upd_eq.
    + intros j Hj. cbn. apply upd_ne. exact Hj.
    + intros l. pose proof (i_lib s w I l) as L. unfold libInv in *. cbn.
      destruct (a_lib w l) as [[q st]|] eqn:El.
      2:{ rewrite upd_ne by congruence. exact L. }
      destruct st.
      * destruct (Nat.eq_dec l (am_lib a)) as [->|Hne].
        -- rewrite upd_eq. eexists. exists f. split; [reflexivity|].
           rewrite K4 in El. injection El as <-.
           destruct B. constructor; cbn; try assumption.
           ++ apply NoDup_filter'. exact b_nodup0.
           ++ intros j. rewrite filter_In, b_models0, negb_true_iff, Nat.eqb_neq. split.
              ** intros [[x [X1 X2]] Hj]. exists x. rewrite upd_ne by exact Hj. split; assumption.
              ** intros [x [X1 [X2 X3]]]. unfold upd in X1. destruct (Nat.eqb j m) eqn:E.
                 --- injection X1 as <-. cbn in X2. discriminate.
                 --- apply Nat.eqb_neq in E. split; [|exact E]. exists x. split; [exact X1|split; assumption].
        -- rewrite upd_ne by exact Hne. destruct L as [b' [f' [L1' B']]].
           exists b', f'. split; [exact L1'|]. destruct B'. constructor; try assumption.
           intros j. rewrite b_models0. unfold upd. destruct (Nat.eqb j m) eqn:E; [|reflexivity].
           apply Nat.eqb_eq in E. subst j. split; intros [x [X1 [X2 X3]]].
           ++ congruence.
           ++ injection X1 as <-. cbn in X2. discriminate.
      * rewrite upd_ne by congruence. exact L.
      * rewrite upd_ne by congruence. exact L.
  - destruct Ks as [K1 _]. rewrite K1. cbn [fst snd]. split; [reflexivity|].
    apply (inv_destroy s); try assumption; try reflexivity.
    + cbn. apply upd_eq.
    + intros j Hj. cbn. apply upd_ne. exact Hj.
    + intros l. pose proof (i_lib s w I l) as L. unfold libInv in *. cbn.
      destruct (a_lib w l) as [[q st]|] eqn:El; [|exact L]. destruct st; try exact L.
      destruct L as [b' [f' [L1' B']]].
      exists b', f'. split; [exact L1'|]. destruct B'. constructor; try assumption.
      intros j. rewrite b_models0. unfold upd. destruct (Nat.eqb j m) eqn:E; [|reflexivity].
      apply Nat.eqb_eq in E. subst j. split; intros [x [X1 [X2 X3]]].
      * exfalso. rewrite H1 in X1. injection X1 as <-. unfold openedIn in Eo.
        rewrite X3, El in Eo. discriminate.
      * injection X1 as <-. cbn in X2. discriminate.
Qed.

Lemma moOk_closed : forall libs libs' m a o md,
  openedIn libs a = true -> openedIn libs' a = false ->
  moOk libs m a o md -> moOk libs' m a (closedModel o) md.
Proof.
  intros libs libs' m a o md E E' K. destruct K. constructor; cbn; try assumption.
  rewrite E'. split; [reflexivity|]. split; reflexivity.
Qed.

Lemma liveAt_close : forall w l p q st, a_lib w l = Some (p, st) ->
  forall i, liveAt (setALib w l (Some (p, Gone))) q i = upd (liveAt w q) l false i.
Proof.
  intros w l p q st H i. unfold liveAt, upd. cbn. unfold upd.
  destruct (Nat.eqb i l); reflexivity.
Qed.

Lemma sim_close : forall s w l, inv s w -> proper fs w (Close l) = true -> sim s w (Close l).
Proof.
  intros s w l I H. cbn [proper] in H.
  unfold sim. cbn [step astep]. unfold closeLib.
  pose proof (i_lib s w I l) as L. unfold libInv in L. unfold libStat in H.
  destruct (a_lib w l) as [[p st]|] eqn:El; [|discriminate].
  pose proof (lib_lt s w l _ I El) as Hlt.
  destruct st; [| |discriminate].
  - destruct L as [b [f [L1 B]]]. rewrite L1.
    destruct (closeModels_ok (lb_models b) (st_mo s) (b_nodup _ _ _ _ _ B)) as [mo' [E [C1 C2]]].
    { intros m Hm. apply (b_models _ _ _ _ _ B) in Hm. destruct Hm as [a [A1 [A2 A3]]].
      pose proof (i_mo s w I m) as M. unfold moInv in M. rewrite A1, A2 in M.
      destruct M as [o [md [M _]]]. congruence. }
    rewrite E, (b_handle _ _ _ _ _ B), (b_onclose _ _ _ _ _ B), (b_path _ _ _ _ _ B), (b_file _ _ _ _ _ B).
    cbn [isLive andb].
    assert (Hmain : forall s' w', 
      st_next s' = st_next s -> (forall q, st_thr s' q = st_thr s q) ->
      (forall q, st_ref s' q = upd (st_ref s) p (pred (st_ref s p)) q) ->
      st_mo s' = mo' -> (forall k, st_lib s' k = upd (st_lib s) l None k) ->
      a_lib w' = upd (a_lib w) l (Some (p, Gone)) -> a_mo w' = a_mo w ->
      a_next w' = a_next w -> a_thr w' = a_thr w -> a_failed w' = a_failed w ->
      st_closed s' = a_closed w' ->
      inv s' w').
    { intros s' w' S1 S2 S3 S4 S5 W1 W2 W3 W4 W5 W6. constructor.
      - rewrite S1, W3. exact (i_next s w I).
      - intros q. rewrite S2, W4. exact (i_thr s w I q).
      - exact W6.
      - intros k. pose proof (i_lib s w I k) as Lk. unfold libInv in *.
        rewrite W1, W2, S5. unfold upd. destruct (Nat.eqb k l); [reflexivity|exact Lk].
      - intros m. pose proof (i_mo s w I m) as M. unfold moInv in *. rewrite W2, W1, S4.
        destruct (a_mo w m) as [a|] eqn:Ea.
        2:{ rewrite C2; [exact M|]. intros Hin. apply (b_models _ _ _ _ _ B) in Hin.
            destruct Hin as [x [X _]]. congruence. }
        destruct (am_stat a) eqn:Es.
        + destruct M as [o [md [M1 K]]]. destruct (Nat.eq_dec (am_lib a) l) as [Hal|Hal].
          * exists (closedModel o), md. split.
            -- apply C1; [|exact M1]. apply (b_models _ _ _ _ _ B). exists a.
               split; [exact Ea|]. split; assumption.
            -- apply (moOk_closed (a_lib w)); [| |exact K].
               ++ unfold openedIn. rewrite Hal, El. reflexivity.
               ++ unfold openedIn. rewrite Hal, upd_eq. reflexivity.
          * exists o, md. split.
            -- rewrite C2; [exact M1|]. intros Hin. apply (b_models _ _ _ _ _ B) in Hin.
               destruct Hin as [x [X1 [X2 X3]]]. congruence.
            -- apply (moOk_libs (a_lib w)); [|exact K]. apply upd_ne. exact Hal.
        + exact M.
        + rewrite C2; [exact M|]. intros Hin. apply (b_models _ _ _ _ _ B) in Hin.
          destruct Hin as [x [X1 [X2 X3]]]. congruence.
      - intros i Hi. rewrite W3 in Hi. rewrite W1, W2. destruct (i_fresh s w I i Hi) as [F1 F2].
        split; [|exact F2]. rewrite upd_ne by lia. exact F1.
      - intros m a. rewrite W2, W3. apply (i_lt s w I).
      - intros q. rewrite S3, W3, W5.
        assert (Hc : count (liveAt w' q) (a_next w) = count (upd (liveAt w q) l false) (a_next w)).
        { apply count_ext. intros i _. unfold liveAt, upd. rewrite W1. unfold upd.
          destruct (Nat.eqb i l); reflexivity. }
        rewrite Hc. pose proof (count_upd (liveAt w q) (a_next w) l false Hlt) as Hu.
        pose proof (i_ref s w I q) as R. unfold upd at 1. destruct (Nat.eqb q p) eqn:Eq.
        + apply Nat.eqb_eq in Eq. subst q.
          assert (Hg : liveAt w p l = true) by (unfold liveAt; rewrite El; apply Nat.eqb_refl).
          rewrite Hg in Hu. lia.
        + assert (Hg : liveAt w q l = false).
          { unfold liveAt. rewrite El. rewrite Nat.eqb_sym. exact Eq. }
          rewrite Hg in Hu. lia.
      - intros m a md n j. rewrite W2. intros A1 A2 A3 A4 A5. unfold moStat. rewrite W2.
        exact (i_ext s w I m a md n j A1 A2 A3 A4 A5). }
    destruct (fl_pool f); cbn [fst snd]; (split; [reflexivity|]); apply Hmain; try reflexivity.
    + cbn. f_equal. exact (i_closed s w I).
    + exact (i_closed s w I).
  - destruct L as [b [L1 [L2 L3]]]. rewrite L1, L3, L2. cbn [closeModels isLive andb fst snd].
    split; [reflexivity|].
    assert (Hno : forall m a, a_mo w m = Some a -> am_stat a = Live -> openedIn (a_lib w) a = true -> am_lib a <> l).
    { intros m a _ _ Ho E. unfold openedIn in Ho. rewrite E, El in Ho. discriminate. }
    destruct I. constructor; cbn; try assumption.
    + intros k. pose proof (i_lib0 k) as Lk. unfold libInv in *. cbn. unfold upd.
      destruct (Nat.eqb k l); [reflexivity|exact Lk].
    + intros m. pose proof (i_mo0 m) as M. unfold moInv in *. cbn.
      destruct (a_mo w m) as [a|] eqn:Ea; [|exact M].
      destruct (am_stat a) eqn:Es; try exact M.
      destruct M as [o [md [M1 K]]]. exists o, md. split; [exact M1|].
      destruct K. constructor; try assumption.
      assert (E : openedIn (upd (a_lib w) l (Some (p, Gone))) a = openedIn (a_lib w) a).
      { unfold openedIn, upd. destruct (Nat.eqb (am_lib a) l) eqn:X; [|reflexivity].
        apply Nat.eqb_eq in X. rewrite X, El. reflexivity. }
      rewrite E. destruct (openedIn (a_lib w) a) eqn:Eo; [|exact k_state0].
      destruct k_state0 as [Q1 [Q2 [Q3 Q4]]]. split; [exact Q1|]. split; [exact Q2|]. split; [exact Q3|].
      rewrite upd_ne; [exact Q4|]. exact (Hno m a Ea Es Eo).
    + intros i Hi. destruct (i_fresh0 i Hi) as [F1 F2]. split; [|exact F2]. rewrite upd_ne by lia. exact F1.
    + intros q. rewrite (count_ext (liveAt (setALib w l (Some (p, Gone))) q) (liveAt w q)); [apply i_ref0|].
      intros i _. unfold liveAt. cbn. unfold upd. destruct (Nat.eqb i l) eqn:X; [|reflexivity].
      apply Nat.eqb_eq in X. subst i. rewrite El. reflexivity.
Qed.

Lemma sim_moveLib : forall s w l, inv s w -> covered fs w (MoveLib l) = true ->
  sim s w (MoveLib l).
Proof.
  intros s w l I H. unfold covered in H. apply andb_true_iff in H. destruct H as [H Hno].
  cbn [proper] in H. destruct (live_lib s w l I H) as [p [b [f [H1 [H2 B]]]]].
  rewrite forallb_forall in Hno.
  assert (Hno' : forall m a, a_mo w m = Some a -> am_stat a = Live -> am_lib a <> l).
  { intros m a Ha Hl E.
    assert (Hi : In m (seq 0 (a_next w))) by (apply in_seq; pose proof (mo_lt s w m a I Ha); lia).
    specialize (Hno m Hi). rewrite Ha, Hl, E, Nat.eqb_refl in Hno. discriminate. }
  assert (Hempty : lb_models b = []).
  { destruct (lb_models b) as [|m r] eqn:E; [reflexivity|].
    assert (Hin : In m (lb_models b)) by (rewrite E; left; reflexivity).
    apply (b_models _ _ _ _ _ B) in Hin. destruct Hin as [a [A1 [A2 A3]]].
    exfalso. exact (Hno' m a A1 A2 A3). }
  pose proof (lib_lt s w l _ I H1) as Hlt. pose proof (next_lib_none s w I) as Hnone.
  unfold sim. cbn [step astep]. unfold moveLib. rewrite H1, H2. cbn [fst snd].
  split; [cbn; rewrite (i_next s w I); reflexivity|].
  assert (Hnew : forall m a, a_mo w m = Some a -> am_lib a <> a_next w).
  { intros m a Ha E. pose proof (i_lt s w I m a Ha). lia. }
  assert (Hlive : forall m a, a_mo w m = Some a -> am_stat a = Live ->
     (if Nat.eqb (am_lib a) l then {| am_stat := am_stat a; am_lib := a_next w;
        am_path := am_path a; am_name := am_name a; am_ext := am_ext a |} else a) = a).
  { intros m a Ha Hl. pose proof (Hno' m a Ha Hl) as E. apply Nat.eqb_neq in E. rewrite E. reflexivity. }
  destruct I. constructor; cbn.
  - rewrite i_next0. reflexivity.
  - assumption.
  - assumption.
  - intros k. pose proof (i_lib0 k) as L. unfold libInv in *. cbn. rewrite i_next0. unfold upd.
    destruct (Nat.eqb k l) eqn:E1.
    + eexists. split; [reflexivity|]. split; reflexivity.
    + apply Nat.eqb_neq in E1. destruct (Nat.eqb k (a_next w)) eqn:E2.
      * apply Nat.eqb_eq in E2. subst k. exists b, f. split; [reflexivity|].
        destruct B. constructor; try assumption.
        intros m. rewrite Hempty. split; [intros []|]. intros [x [X1 [X2 X3]]]. exfalso.
        destruct (a_mo w m) as [a|] eqn:Ea; [|discriminate]. injection X1 as <-.
        destruct (Nat.eqb (am_lib a) l) eqn:E.
        -- cbn in X2. apply Nat.eqb_eq in E. exact (Hno' m a Ea X2 E).
        -- exact (Hnew m a Ea X3).
      * destruct (a_lib w k) as [[q st]|] eqn:Ek; [|exact L].
        destruct st; try exact L. destruct L as [b' [f' [L1 B']]]. exists b', f'. split; [exact L1|].
        destruct B'. constructor; try assumption.
        intros m. rewrite b_models0. split; intros [x [X1 [X2 X3]]].
        -- exists x. rewrite X1. rewrite (Hlive m x X1 X2). split; [reflexivity|]. split; assumption.
        -- destruct (a_mo w m) as [a|] eqn:Ea; [|discriminate]. injection X1 as <-.
           destruct (Nat.eqb (am_lib a) l) eqn:E.
           ++ cbn in X3. apply Nat.eqb_neq in E2. congruence.
           ++ exists a. split; [reflexivity|]. split; assumption.
  - intros m. pose proof (i_mo0 m) as M. unfold moInv in *. cbn.
    destruct (a_mo w m) as [a|] eqn:Ea; [|exact M].
    destruct (am_stat a) eqn:Es.
    + assert (Ea' : (if Nat.eqb (am_lib a) l then {| am_stat := Live; am_lib := a_next w;
        am_path := am_path a; am_name := am_name a; am_ext := am_ext a |} else a) = a).
      { rewrite <- Es. exact (Hlive m a Ea Es). }
      rewrite Ea', Es. destruct M as [o [md [M1 K]]]. exists o, md. split; [exact M1|].
      apply (moOk_libs (a_lib w)); [|exact K].
      rewrite upd_ne by exact (Hno' m a Ea Es). apply upd_ne. exact (Hnew m a Ea).
    + destruct M.
    + destruct (Nat.eqb (am_lib a) l); cbn [am_stat]; [exact M|]. rewrite Es. exact M.
  - intros i Hi. destruct (i_fresh0 i) as [F1 F2]; [lia|]. rewrite F2. split; [|reflexivity].
    rewrite upd_ne by lia. rewrite upd_ne by lia. exact F1.
  - intros m a Ha. destruct (a_mo w m) as [x|] eqn:Ex; [|discriminate]. injection Ha as <-.
    pose proof (i_lt0 m x Ex). destruct (Nat.eqb (am_lib x) l); cbn [am_lib]; lia.
  - intros q. rewrite i_ref0.
    match goal with |- _ = (if liveAt ?w' q _ then 1 else 0) + _ + _ => set (w2 := w') end.
    assert (Hg : forall i, i < a_next w -> liveAt w2 q i = upd (liveAt w q) l false i).
    { intros i Hi. unfold liveAt, w2, upd. cbn. unfold upd.
      destruct (Nat.eqb i l); [reflexivity|].
      destruct (Nat.eqb i (a_next w)) eqn:E; [apply Nat.eqb_eq in E; lia|]. reflexivity. }
    rewrite (count_ext _ _ _ Hg). pose proof (count_upd (liveAt w q) (a_next w) l false Hlt) as Hu.
    assert (Hn : liveAt w2 q (a_next w) = liveAt w q l).
    { unfold liveAt, w2. cbn. rewrite upd_ne by lia. rewrite upd_eq, H1. reflexivity. }
    rewrite Hn. destruct (liveAt w q l); cbn in Hu; lia.
  - intros m a md n j Ha Hl Hs Hn He.
    destruct (a_mo w m) as [x|] eqn:Ex; [|discriminate]. injection Ha as <-.
    assert (Hx : am_stat x = Live).
    { destruct (Nat.eqb (am_lib x) l); exact Hl. }
    assert (Hmj : moStat w j = Live).
    { apply (i_ext0 m x md n j Ex Hx); [|exact Hn|].
      - rewrite (Hlive m x Ex Hx) in Hs. exact Hs.
      - rewrite (Hlive m x Ex Hx) in He. exact He. }
    unfold moStat in *. cbn. destruct (a_mo w j) as [y|] eqn:Ey; [|discriminate].
    rewrite (Hlive j y Ey Hmj). exact Hmj.
Qed.

Lemma step_ok : forall s w c, inv s w -> covered fs w c = true -> sim s w c.
Proof.
  intros s w c I H. pose proof H as Hc. unfold covered in H. apply andb_true_iff in H. destruct H as [Hp H].
  destruct c.
  - apply sim_open; assumption.
  - apply sim_moveLib; assumption.
  - apply sim_close; assumption.
  - apply sim_get; assumption.
  - discriminate.
  - apply sim_destroy; assumption.
  - apply sim_register; assumption.
  - apply sim_avail; assumption.
  - apply sim_names; assumption.
  - split; [|exact I]. apply eval_ok; try assumption.
    destruct e; try exact Logic.I. intros a md Ha Hs. rewrite Ha, Hs in H. apply Nat.eqb_eq in H. exact H.
  - apply sim_asatomic; try assumption.
    destruct e; try exact Logic.I. intros a md Ha Hs. rewrite Ha, Hs in H. apply Nat.eqb_eq in H. exact H.
  - apply sim_threads; assumption.
  - apply sim_getThreads; assumption.
Qed.

Lemma run_ok : forall h s w, inv s w -> along fs api hc (covered fs) w h = true ->
  map see (snd (run fs api hc s h)) = map Some (snd (arun fs api hc w h)) /\
  inv (fst (run fs api hc s h)) (fst (arun fs api hc w h)).
Proof.
  induction h as [|c h IH]; intros s w I H; [split; [reflexivity|exact I]|].
  cbn [along] in H. apply andb_true_iff in H. destruct H as [H1 H2].
  destruct (step_ok s w c I H1) as [S1 S2].
  cbn [run arun]. destruct (step fs api hc s c) as [s1 o]. destruct (astep fs api hc w c) as [w1 v].
  cbn [fst snd] in *. specialize (IH s1 w1 S2 H2).
  destruct (run fs api hc s1 h) as [s2 os]. destruct (arun fs api hc w1 h) as [w2 vs].
  cbn [fst snd map] in *. destruct IH as [IH1 IH2]. split; [|exact IH2].
  rewrite S1, IH1. reflexivity.
Qed.

End PROOFS.

(** C55: model libraries and model objects over any history of operations. *)
From Coq Require Import List Bool PeanoNat Arith Lia.
From Verif Require Import Library_model Library_spec Library_proofs.
Import ListNotations.

Lemma count_filter : forall g n, count g n = length (filter g (seq 0 n)).
Proof.
  intros g n. induction n as [|n IH]; [reflexivity|].
  rewrite seq_S, filter_app, app_length, <- IH. cbn [count plus filter].
  destruct (g n); cbn [length]; lia.
Qed.

(** Number of library objects open on a file, from the specification. *)
Definition openOn (w : aworld) (p : path) : nat :=
  length (filter (fun l => match a_lib w l with
                           | Some (q, Live) => Nat.eqb q p
                           | _ => false end) (seq 0 (a_next w))).

(** For every set of files, every history of covered operations gives what
    the specification promises; in particular nothing undefined happens.
    Missing for the full property: histories which move model objects, or
    move libraries while model objects are in use, see the refutations. *)
Theorem C55_history_partial : forall fs api hc h,
  goodFiles fs -> along fs api hc (covered fs) anone h = true ->
  map see (snd (run fs api hc initial h)) = map Some (snd (arun fs api hc anone h)).
Proof.
  intros fs api hc h Hfs H. exact (proj1 (run_ok fs api hc Hfs h initial anone (inv_initial fs api) H)).
Qed.
Print Assumptions C55_history_partial.

(** No undefined behaviour. *)
Theorem C55_defined_partial : forall fs api hc h,
  goodFiles fs -> along fs api hc (covered fs) anone h = true ->
  ~ In OUB (snd (run fs api hc initial h)).
Proof.
  intros fs api hc h Hfs H Hin. pose proof (C55_history_partial fs api hc h Hfs H) as E.
  apply (in_map see) in Hin. rewrite E in Hin. apply in_map_iff in Hin.
  destruct Hin as [v [Hv _]]. discriminate.
Qed.
Print Assumptions C55_defined_partial.

(** A file is mapped as many times as there are libraries open on it plus
    the times it was opened in vain, and the on-close function was called
    once for each library closed. *)
Theorem C55_mapped_partial : forall fs api hc h,
  goodFiles fs -> along fs api hc (covered fs) anone h = true ->
  let s := fst (run fs api hc initial h) in
  let w := fst (arun fs api hc anone h) in
  (forall p, st_ref s p = openOn w p + a_failed w p) /\ st_closed s = a_closed w.
Proof.
  intros fs api hc h Hfs H s w.
  pose proof (proj2 (run_ok fs api hc Hfs h initial anone (inv_initial fs api) H)) as I.
  split; [|exact (i_closed _ _ _ _ I)].
  intros p. pose proof (i_ref _ _ _ _ I p) as R. rewrite count_filter in R. exact R.
Qed.
Print Assumptions C55_mapped_partial.

Lemma arun_app : forall fs api hc h1 h2 w,
  arun fs api hc w (h1 ++ h2)
  = (fst (arun fs api hc (fst (arun fs api hc w h1)) h2),
     snd (arun fs api hc w h1) ++ snd (arun fs api hc (fst (arun fs api hc w h1)) h2)).
Proof.
  intros fs api hc. induction h1 as [|c h1 IH]; intros h2 w.
  - cbn [app arun fst snd]. destruct (arun fs api hc w h2); reflexivity.
  - cbn [app arun]. destruct (astep fs api hc w c) as [w1 v]. rewrite IH.
    destruct (arun fs api hc w1 h1) as [w2 vs]. reflexivity.
Qed.

Lemma run_app : forall fs api hc h1 h2 s,
  run fs api hc s (h1 ++ h2)
  = (fst (run fs api hc (fst (run fs api hc s h1)) h2),
     snd (run fs api hc s h1) ++ snd (run fs api hc (fst (run fs api hc s h1)) h2)).
Proof.
  intros fs api hc. induction h1 as [|c h1 IH]; intros h2 s.
  - cbn [app run fst snd]. destruct (run fs api hc s h2); reflexivity.
  - cbn [app run]. destruct (step fs api hc s c) as [s1 v]. rewrite IH.
    destruct (run fs api hc s1 h1) as [s2 vs]. reflexivity.
Qed.

Lemma along_app : forall fs api hc ok h1 h2 w,
  along fs api hc ok w (h1 ++ h2)
  = along fs api hc ok w h1 && along fs api hc ok (fst (arun fs api hc w h1)) h2.
Proof.
  intros fs api hc ok. induction h1 as [|c h1 IH]; intros h2 w; [reflexivity|].
  cbn [app along arun]. rewrite IH. destruct (astep fs api hc w c) as [w1 v].
  cbn [fst]. destruct (arun fs api hc w1 h1) as [w2 vs] eqn:E. cbn [fst]. rewrite andb_assoc. reflexivity.
Qed.

Lemma see_closed : forall o, see o = Some VClosed -> o = OThrow MNotReady.
Proof. intros o H. destruct o; try discriminate. destruct e; try discriminate. reflexivity. Qed.

(** Once the library that provided a model object is closed, every
    evaluation of the object, whatever else happens in between, throws the
    exception that says that the library was closed. *)
Theorem C55_closed_library_partial : forall fs api hc h m e a,
  goodFiles fs -> along fs api hc (covered fs) anone (h ++ [Eval m e]) = true ->
  a_mo (fst (arun fs api hc anone h)) m = Some a ->
  opened (fst (arun fs api hc anone h)) a = false ->
  last (snd (run fs api hc initial (h ++ [Eval m e]))) ODone = OThrow MNotReady.
Proof.
  intros fs api hc h m e a Hfs H Ha Ho.
  pose proof (C55_history_partial fs api hc _ Hfs H) as E.
  rewrite run_app, arun_app in E. rewrite run_app. cbn [snd] in E |- *.
  cbn [run arun step astep snd fst] in E |- *. unfold evalOf in E. rewrite Ha, Ho in E.
  rewrite !map_app in E. cbn [map] in E. apply app_inj_tail in E. destruct E as [_ E].
  apply see_closed in E. rewrite last_last. exact E.
Qed.
Print Assumptions C55_closed_library_partial.

(** While the library is open an evaluation throws when and only when a
    function that it needs is absent, a size is wrong or an external
    function was not given, and otherwise the compiled code reaches the
    external functions last given for each name. *)
Theorem C55_evaluation_partial : forall fs api hc h m e a md,
  goodFiles fs -> along fs api hc (covered fs) anone (h ++ [Eval m e]) = true ->
  a_mo (fst (arun fs api hc anone h)) m = Some a ->
  opened (fst (arun fs api hc anone h)) a = true ->
  symbols fs (am_path a) (am_name a) = Some md ->
  let r := last (snd (run fs api hc initial (h ++ [Eval m e]))) ODone in
  ((forall f, In f (needs e) -> md_fn md f = true) /\ sizes md e = true /\
   (forall n, In n (namesOf md) -> am_ext a n <> None) ->
   r = ORan (map (fun f => {| rn_path := am_path a; rn_name := am_name a; rn_fn := f;
                              rn_ext := reaches md (am_ext a) f |}) (calls md e))) /\
  (~ ((forall f, In f (needs e) -> md_fn md f = true) /\ sizes md e = true /\
      (forall n, In n (namesOf md) -> am_ext a n <> None)) ->
   exists x, r = OThrow x /\ x <> MNotReady).
Proof.
  intros fs api hc h m e a md Hfs H Ha Ho Hs r.
  pose proof (C55_history_partial fs api hc _ Hfs H) as E. unfold r. clear r.
  rewrite run_app, arun_app in E. rewrite run_app. cbn [snd] in E |- *.
  cbn [run arun step astep snd fst] in E |- *. unfold evalOf in E. rewrite Ha, Ho, Hs in E.
  rewrite !map_app in E. cbn [map] in E. apply app_inj_tail in E. destruct E as [_ E].
  rewrite last_last. unfold aeval in E.
  match type of E with _ = Some (if ?b then _ else _) => destruct b eqn:Eb end.
  - rewrite !andb_true_iff in Eb. destruct Eb as [[E1 E2] E3].
    rewrite forallb_forall in E1, E3. split.
    + intros _. destruct (evaluate _ _ _ _) as [| |x| | | |l| |]; try discriminate.
      * destruct x; discriminate.
      * cbn [see] in E. congruence.
    + intros Hn. exfalso. apply Hn. split; [exact E1|]. split; [exact E2|].
      intros n Hin. specialize (E3 n Hin). destruct (am_ext a n); [discriminate|discriminate E3].
  - split.
    + intros [H1 [H2 H3]]. exfalso. rewrite H2 in Eb.
      assert (X1 : forallb (md_fn md) (needs e) = true) by (apply forallb_forall; exact H1).
      rewrite X1 in Eb. cbn [andb] in Eb.
      assert (X2 : forallb (fun n => match am_ext a n with Some _ => true | None => false end)
                     (namesOf md) = true).
      { apply forallb_forall. intros n Hn. specialize (H3 n Hn). destruct (am_ext a n); [reflexivity|congruence]. }
      congruence.
    + intros _. destruct (evaluate _ _ _ _) as [| |x| | | |l| |]; try discriminate.
      exists x. split; [reflexivity|]. intros ->. discriminate.
Qed.
Print Assumptions C55_evaluation_partial.

(** A file with one model which has every function and uses one atomic
    function (named 5), and a file of another API version. *)
Definition exModel : mdl :=
  {| md_type := true; md_m := 1; md_n := 2; md_in := 1; md_out := 1;
     md_fn := fun _ => true; md_names := Some [5];
     md_calls := fun f => match f with FZero | FSJac => [0] | _ => [] end;
     md_nnzJ := 2; md_nnzH := 1 |}.

Definition exFiles (p : path) : option file :=
  match p with
  | 0 => Some {| fl_version := Some 6; fl_models := Some [3];
                 fl_mdl := fun n => if Nat.eqb n 3 then Some exModel else None;
                 fl_pool := true |}
  | 1 => Some {| fl_version := Some 5; fl_models := Some [];
                 fl_mdl := fun _ => None; fl_pool := false |}
  | _ => None
  end.

Lemma exFiles_good : goodFiles exFiles.
Proof.
  intros p f n md an Hf Hm Han. destruct p as [|[|p]]; [| |discriminate].
  - injection Hf as <-. cbn in Hm. destruct (Nat.eqb n 3); [|discriminate].
    injection Hm as <-. injection Han as <-. split.
    + constructor; [intros []|constructor].
    + intros g i. destruct g; cbn; intros H; try destruct H as [<-|[]]; try lia; destruct H.
  - injection Hf as <-. discriminate.
Qed.

(** Two libraries are opened on the same file, the first one is moved, an
    evaluation is refused until the atomic function is given, the second
    library is closed: its model then throws, the other one works. *)
Definition exHistory : list op :=
  [Open 0; Open 0; Open 1; MoveLib 0; Close 0; Get 2 3; Get 1 3; Get 1 4;
   Eval 3 (EvZero 2 1); Register 3 5 (EAtomic 8); Register 4 5 (EAtomic 8); Register 3 6 (EAtomic 8);
   Eval 3 (EvZero 2 1); Register 3 5 (EModel 4); Eval 3 (EvZero 2 1);
   Close 1; Eval 4 (EvZero 2 1); AsAtomicEval 3 (EvSJac 2 2); Eval 3 (EvZero 3 1);
   SetThreads 2 7; GetThreads 2; Destroy 3; Destroy 4; Close 2].

Example C55_case :
  goodFiles exFiles /\ along exFiles 6 4 (covered exFiles) anone exHistory = true /\
  snd (run exFiles 6 4 initial exHistory)
  = [ONew 0; ONew 1; OThrow MVersion; ONew 2; ODone; ONew 3; ONew 4; ONull;
     OThrow MMissing; OBool true; OBool true; OBool false;
     ORan [{| rn_path := 0; rn_name := 3; rn_fn := FZero; rn_ext := [EAtomic 8] |}];
     OBool true;
     ORan [{| rn_path := 0; rn_name := 3; rn_fn := FZero; rn_ext := [EModel 4] |}];
     ODone; OThrow MNotReady;
     ORan [{| rn_path := 0; rn_name := 3; rn_fn := PJac; rn_ext := [] |};
           {| rn_path := 0; rn_name := 3; rn_fn := FSJac; rn_ext := [EModel 4] |}];
     OThrow MSize; ODone; ONat 7; ODone; ODone; ODone].
Proof. split; [exact exFiles_good|]. split; vm_compute; reflexivity. Qed.

(** A model object that is moved and the object moved from is destroyed:
    closing the library, which the documentation allows, accesses the
    destroyed object. *)
Theorem C55_moved_model_refuted : exists fs api hc h,
  goodFiles fs /\ along fs api hc (proper fs) anone h = true /\
  h = [Open 0; Get 0 3; MoveModel 1; Destroy 1; Close 0] /\
  last (snd (arun fs api hc anone h)) VNull = VDone /\
  last (snd (run fs api hc initial h)) ODone = OUB.
Proof.
  exists exFiles, 6, 4, [Open 0; Get 0 3; MoveModel 1; Destroy 1; Close 0].
  split; [exact exFiles_good|]. split; [vm_compute; reflexivity|].
  split; [reflexivity|]. split; vm_compute; reflexivity.
Qed.
Print Assumptions C55_moved_model_refuted.

(** A moved model object is not told that its library was closed: it calls
    functions of a file that is not mapped any more instead of throwing. *)
Theorem C55_moved_model_not_told_refuted : exists fs api hc h,
  goodFiles fs /\ along fs api hc (proper fs) anone h = true /\
  h = [Open 0; Get 0 3; Register 1 5 (EAtomic 8); MoveModel 1; Close 0; Eval 2 (EvZero 2 1)] /\
  last (snd (arun fs api hc anone h)) VNull = VClosed /\
  last (snd (run fs api hc initial h)) ODone = OUB.
Proof.
  exists exFiles, 6, 4,
    [Open 0; Get 0 3; Register 1 5 (EAtomic 8); MoveModel 1; Close 0; Eval 2 (EvZero 2 1)].
  split; [exact exFiles_good|]. split; [vm_compute; reflexivity|].
  split; [reflexivity|]. split; vm_compute; reflexivity.
Qed.
Print Assumptions C55_moved_model_not_told_refuted.

(** The atomic function of a model object that was moved evaluates the
    object moved from: it throws although the library is open. *)
Theorem C55_moved_atomic_refuted : exists fs api hc h,
  goodFiles fs /\ along fs api hc (proper fs) anone h = true /\
  h = [Open 0; Get 0 3; Register 1 5 (EAtomic 8); AsAtomicEval 1 (EvZero 2 1); MoveModel 1;
       Eval 2 (EvZero 2 1); AsAtomicEval 2 (EvZero 2 1)] /\
  (exists r, last (snd (arun fs api hc anone h)) VNull = VRan r) /\
  last (snd (run fs api hc initial h)) ODone = OThrow MNotReady.
Proof.
  exists exFiles, 6, 4,
    [Open 0; Get 0 3; Register 1 5 (EAtomic 8); AsAtomicEval 1 (EvZero 2 1); MoveModel 1;
     Eval 2 (EvZero 2 1); AsAtomicEval 2 (EvZero 2 1)].
  split; [exact exFiles_good|]. split; [vm_compute; reflexivity|].
  split; [reflexivity|]. split; [eexists; vm_compute; reflexivity|vm_compute; reflexivity].
Qed.
Print Assumptions C55_moved_atomic_refuted.

(** A library that is moved while one of its model objects is in use: the
    destruction of the model object accesses the library moved from, and
    the library still accesses the destroyed model object when it closes. *)
Theorem C55_moved_library_refuted : exists fs api hc h1 h2,
  goodFiles fs /\
  along fs api hc (proper fs) anone h1 = true /\ along fs api hc (proper fs) anone h2 = true /\
  h1 = [Open 0; Get 0 3; MoveLib 0; Close 0; Destroy 1] /\
  h2 = [Open 0; Get 0 3; MoveLib 0; Destroy 1; Close 2] /\
  last (snd (arun fs api hc anone h1)) VNull = VDone /\
  last (snd (arun fs api hc anone h2)) VNull = VDone /\
  last (snd (run fs api hc initial h1)) ODone = OUB /\
  last (snd (run fs api hc initial h2)) ODone = OUB.
Proof.
  exists exFiles, 6, 4, [Open 0; Get 0 3; MoveLib 0; Close 0; Destroy 1],
    [Open 0; Get 0 3; MoveLib 0; Destroy 1; Close 2].
  split; [exact exFiles_good|]. split; [vm_compute; reflexivity|]. split; [vm_compute; reflexivity|].
  split; [reflexivity|]. split; [reflexivity|].
  repeat (split; [vm_compute; reflexivity|]). vm_compute; reflexivity.
Qed.
Print Assumptions C55_moved_library_refuted.

(** A library of another API version is refused but stays mapped. *)
Theorem C55_refused_library_stays_mapped_refuted : exists fs api hc h p,
  goodFiles fs /\ along fs api hc (covered fs) anone h = true /\
  snd (run fs api hc initial h) = [OThrow MVersion] /\
  openOn (fst (arun fs api hc anone h)) p = 0 /\
  st_ref (fst (run fs api hc initial h)) p = 1.
Proof.
  exists exFiles, 6, 4, [Open 1], 1. split; [exact exFiles_good|].
  repeat (split; [vm_compute; reflexivity|]). vm_compute; reflexivity.
Qed.
Print Assumptions C55_refused_library_stays_mapped_refuted.

(** The number of threads set through a library object is lost when a
    second library object is opened on the same file. *)
Theorem C55_threads_lost_refuted : exists fs api hc h,
  goodFiles fs /\ along fs api hc (covered fs) anone h = true /\
  h = [Open 0; SetThreads 0 2; Open 0; GetThreads 0] /\
  hc <> 2 /\ last (snd (run fs api hc initial h)) ODone = ONat hc.
Proof.
  exists exFiles, 6, 4, [Open 0; SetThreads 0 2; Open 0; GetThreads 0].
  split; [exact exFiles_good|]. split; [vm_compute; reflexivity|].
  split; [reflexivity|]. split; [lia|]. vm_compute; reflexivity.
Qed.
Print Assumptions C55_threads_lost_refuted.

(** The sparse Jacobian in vectors does not test the size of the vector of
    independent variables and reads past its end. *)
Theorem C55_short_vector_refuted : exists fs api hc h,
  goodFiles fs /\ along fs api hc (proper fs) anone h = true /\
  h = [Open 0; Get 0 3; Register 1 5 (EAtomic 8); Eval 1 (EvSJacVec 1)] /\
  last (snd (arun fs api hc anone h)) VNull = VThrow /\
  last (snd (run fs api hc initial h)) ODone = OUB.
Proof.
  exists exFiles, 6, 4, [Open 0; Get 0 3; Register 1 5 (EAtomic 8); Eval 1 (EvSJacVec 1)].
  split; [exact exFiles_good|]. split; [vm_compute; reflexivity|].
  split; [reflexivity|]. split; vm_compute; reflexivity.
Qed.
Print Assumptions C55_short_vector_refuted.

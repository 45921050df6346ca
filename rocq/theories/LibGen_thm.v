(** * C56: creating a library from models *)
From Coq Require Import List Bool Arith String Ascii Permutation Lia.
From Verif Require Import Names_model Names_thm LibGen_model LibGen_spec LibGen_proofs LibGen_maps LibGen_world LibGen_create LibGen_lib.
Import ListNotations.
Local Open Scope string_scope.
Local Open Scope nat_scope.

(** ** Names of functions *)

(** Two functions of models, or parts or wrappers of functions, have the same external name exactly when they are the
    same or the name of one model is the name of the other one and "_sparse". *)
Theorem C56_function_names : forall n1 f1 p1 n2 f2 p2,
  cname n1 f1 p1 = cname n2 f2 p2 <->
  p1 = p2 /\ ((n1 = n2 /\ f1 = f2) \/ (n2 = n1 ++ "_sparse" /\ sparseOf f1 f2) \/ (n1 = n2 ++ "_sparse" /\ sparseOf f2 f1)).
Proof.
  intros n1 f1 p1 n2 f2 p2. split.
  - intros E. apply cname_eq in E. tauto.
  - intros [-> [[-> ->]|[[-> S]|[-> S]]]]; [reflexivity|apply cname_sparse, S|symmetry; apply cname_sparse, S].
Qed.
Print Assumptions C56_function_names.

Example C56_names_case : cname "a" FSJac PWhole = "a_sparse_jacobian" /\ cname "a_sparse" FJac PWhole = "a_sparse_jacobian" /\
  cname "a" (FFor1J 12) (PPart 3) = "a_sparse_forward_one_indep12__3".
Proof. repeat split. Qed.

(** ** Temporary files *)

(** No operation creates or changes a file for good, whatever fails: afterwards each file is as before or, when it has the
    name of an object file of a temporary folder, was removed. *)
Theorem C56_no_temporary_files : forall fs ops k,
  let w := run ops (newWorld fs) in
  w_ofiles w = [] /\
  (mget k (w_files w) = mget k fs \/
   (mget k (w_files w) = None /\ exists tmp n, In tmp (folders ops) /\ k = objFile tmp n)).
Proof.
  intros fs ops k. cbn zeta.
  assert (G : forall ops w, w_ofiles w = [] -> w_ofiles (run ops w) = [] /\
    (mget k (w_files (run ops w)) = mget k (w_files w) \/ (mget k (w_files (run ops w)) = None /\ exists tmp n, In tmp (folders ops) /\ k = objFile tmp n))).
  { clear. induction ops as [|o ops IH]; intros w O; [split; [exact O|left; reflexivity]|]. cbn [run]. destruct (step_files o w O) as [O' F]. destruct (IH _ O') as [O2 F2]. split; [exact O2|].
    assert (Fo : forall tmp, In tmp (folders [o]) \/ In tmp (folders ops) -> In tmp (folders (o :: ops))) by (intros tmp; destruct o; cbn; tauto).
    destruct F2 as [F2|[F2 [tmp [n [H1 H2]]]]].
    - destruct (F k) as [F1|[F1 [tmp [n [H1 H2]]]]]; [left; congruence|]. right. split; [congruence|]. exists tmp, n. split; [apply Fo; left; exact H1|exact H2].
    - right. split; [exact F2|]. exists tmp, n. split; [apply Fo; right; exact H1|exact H2]. }
  exact (G ops (newWorld fs) eq_refl).
Qed.
Print Assumptions C56_no_temporary_files.

(** ** The library *)
Lemma libGen_inv fs ops : orderly false MtNone ops -> exists g, inv g (run ops (newWorld fs)).
Proof. intros O. apply (run_inv ops false (newWorld fs) (newWorld_inv fs)). exact O. Qed.

(** The library which is created consists of one object file for each of the sources it should have, and no others. *)
Theorem C56_library_complete_partial : forall fs ops tmp crash ext w' lib,
  orderly false MtNone ops -> (forall n, crash n = None) ->
  let w := run ops (newWorld fs) in
  namesOk w -> create tmp crash ext w = (w', Some lib) ->
  exists srcs, NoDup (map fst srcs) /\ (forall k c, In (k, c) srcs <-> wanted w k c) /\ Permutation lib (map snd srcs).
Proof.
  intros fs ops tmp crash ext w' lib O NC w K E. destruct (libGen_inv fs ops O) as [g I]. fold w in I. apply create_some in E; [|apply I]. destruct E as [E _].
  pose proof (allOf_perm g crash w I NC K) as P. exists (allSrcs w).
  assert (N : NoDup (map fst (allSrcs w))) by (apply allSrcs_NoDup; [exact K|exact (settings_NoDup g w I)|apply I]).
  split; [exact N|]. split; [intros k c; apply allSrcs_wanted|]. rewrite <- (Permutation_map snd P). eapply objects_perm; [|exact E].
  eapply Permutation_NoDup; [|exact N]. symmetry. apply Permutation_map. exact P.
Qed.
Print Assumptions C56_library_complete_partial.

(** When the compiler and the linker succeed the library is created, and it can be loaded if the symbols called by the
    custom sources are defined. *)
Theorem C56_library_created_partial : forall fs ops tmp crash ext,
  orderly false MtNone ops -> (forall n, crash n = None) -> Forall (eq CallOk) ext ->
  let w := run ops (newWorld fs) in
  namesOk w -> symbolsOk w ->
  (forall n c x, In (n, c) (w_custom w) -> In x (uses c) -> exists k c', wanted w k c' /\ In x (defs c')) ->
  exists w' lib, create tmp crash ext w = (w', Some lib) /\ loads lib = true.
Proof.
  intros fs ops tmp crash ext O NC F w K S U. destruct (libGen_inv fs ops O) as [g I]. fold w in I.
  destruct (create_good tmp crash ext w NC (i_of g w I) F) as [w' E]. destruct (objects_some tmp (allOf crash w) (w_files w)) as [lib L].
  pose proof (allOf_perm g crash w I NC K) as P. pose proof (settings_NoDup g w I) as NS.
  assert (N : NoDup (map fst (allSrcs w))) by (apply allSrcs_NoDup; [exact K|exact NS|apply I]).
  assert (PL : Permutation lib (map snd (allSrcs w))).
  { rewrite <- (Permutation_map snd P). eapply objects_perm; [|exact L]. eapply Permutation_NoDup; [|exact N]. symmetry. apply Permutation_map. exact P. }
  assert (ND : nodup (flat_map defs lib) = true).
  { apply nodup_NoDup. eapply Permutation_NoDup; [symmetry; apply Permutation_flat_map, PL|]. rewrite flat_map_concat_map, map_map, <- flat_map_concat_map. apply syms_NoDup; assumption. }
  exists w', lib. split; [rewrite E; unfold linked; rewrite L, ND; reflexivity|].
  unfold loads. apply forallb_forall. intros x Hx. apply in_flat_map in Hx. destruct Hx as [c [Hc Hx]].
  assert (W : exists k, wanted w k c). { apply (Permutation_in c PL) in Hc. apply in_map_iff in Hc. destruct Hc as [[k c'] [<- Hk]]. exists k. apply allSrcs_wanted, Hk. }
  destruct W as [k W].
  assert (D : exists k' c', wanted w k' c' /\ In x (defs c')).
  { destruct W as [n s f p H1 H2|l Hl|n c H]; [| |exact (U n c x H Hx)].
    - eapply uses_defined; [apply (WModel w n s f p H1 H2)| |exact Hx]. intros n' c0 Hc0 E0.
      (* custom sources may not be model sources, since they would define the same symbol *)
      apply (ok_own w S n' c0 (cname n f p) Hc0); [rewrite <- E0; left; reflexivity|]. left. exists n, s, f, p. auto.
    - eapply uses_defined; [apply (WLib w l Hl)| |exact Hx]. intros n' c0 Hc0 E0.
      assert (X : exists y, In y (defs (CLib l (map fst (settings w)) (threadsUsed w)))).
      { destruct l; try (eexists; left; reflexivity). destruct (threadsUsed w) eqn:T; [exfalso; exact (Hl eq_refl eq_refl)| |]; eexists; left; reflexivity. }
      destruct X as [y Hy]. apply (ok_own w S n' c0 y Hc0); [rewrite <- E0; exact Hy|]. right. exists l. exact (libSymbol_own _ _ _ _ Hy). }
  destruct D as [k' [c' [W' D]]]. unfold hasSym, symbols. apply existsb_eqb. apply in_flat_map. exists c'. split; [|exact D].
  apply (Permutation_in c' (Permutation_sym PL)). apply in_map_iff. exists (k', c'). split; [reflexivity|apply allSrcs_wanted, W'].
Qed.
Print Assumptions C56_library_created_partial.

(** ** The models in the library *)

(** A model of the library offers exactly the functions which were asked for, and no other model is there. *)
Theorem C56_models_report_settings_partial : forall fs ops tmp crash ext w' lib,
  orderly false MtNone ops -> (forall n, crash n = None) ->
  let w := run ops (newWorld fs) in
  namesOk w -> symbolsOk w ->
  (forall n1 s1 n2 s2, In (n1, s1) (settings w) -> In (n2, s2) (settings w) -> n2 <> n1 ++ "_sparse") ->
  create tmp crash ext w = (w', Some lib) ->
  (forall n s, In (n, s) (settings w) -> model lib n = Some (reported s)) /\
  (forall n, ~ In n (map fst (settings w)) -> (forall k c, In (k, c) (w_custom w) -> ~ In (cname n FInfo PWhole) (defs c)) -> model lib n = None).
Proof.
  intros fs ops tmp crash ext w' lib O NC w K S NS E. destruct (libGen_inv fs ops O) as [g I]. fold w in I. pose proof (settings_NoDup g w I) as ND.
  destruct (C56_library_complete_partial fs ops tmp crash ext w' lib O NC K E) as [srcs [N [W P]]]. fold w in W.
  assert (Sy : forall x, hasSym lib x = true <-> exists k c, wanted w k c /\ In x (defs c)).
  { intros x. unfold hasSym, symbols. rewrite existsb_eqb, in_flat_map. split.
    - intros [c [Hc Hx]]. apply (Permutation_in c P) in Hc. apply in_map_iff in Hc. destruct Hc as [[k c'] [<- Hk]]. exists k, c'. split; [apply W, Hk|exact Hx].
    - intros [k [c [Hc Hx]]]. exists c. split; [|exact Hx]. apply (Permutation_in c (Permutation_sym P)). apply in_map_iff. exists (k, c). split; [reflexivity|apply W, Hc]. }
  assert (Own : forall n f k c, wanted w k c -> In (cname n f PWhole) (defs c) -> (exists n' s' f', In (n', s') (settings w) /\ creates s' f' = true /\ cname n f PWhole = cname n' f' PWhole) \/ In (k, c) (w_custom w)).
  { intros n f k c H D. destruct H as [n' s' f' p' H1 [H2 H3]|l Hl|k c H].
    - left. apply defs_model in D. destruct D as [D|[_ [h [D _]]]].
      + pose proof (cname_eq _ _ _ _ _ _ D) as [Ep _]. subst p'. exists n', s', f'. auto.
      + exfalso. apply cname_eq in D. destruct D as [D _]. discriminate.
    - exfalso. apply libSymbol_free in D. rewrite lastWord_cname in D. discriminate.
    - right. exact H. }
  split.
  - intros n s Hn.
    assert (Has : forall f, hasSym lib (cname n f PWhole) = creates s f).
    { intros f. destruct (creates s f) eqn:C.
      - apply Sy. exists (cfile n f PWhole), (CModel n f PWhole s (w_mt w)). split; [constructor; [exact Hn|split; [exact C|exact Logic.I]]|left; reflexivity].
      - destruct (hasSym lib (cname n f PWhole)) eqn:H; [|reflexivity]. exfalso. apply Sy in H. destruct H as [k [c [H D]]]. destruct (Own n f k c H D) as [[n' [s' [f' [H1 [H2 H3]]]]]|H1].
        + apply cname_eq in H3. destruct H3 as [_ [[-> ->]|[[_ X]|[_ X]]]].
          * rewrite (settings_fun w n' s s' ND Hn H1) in C. congruence.
          * exact (NS n s n' s' Hn H1 X).
          * exact (NS n' s' n s H1 Hn X).
        + apply (ok_own w S k c _ H1 D). left. exists n, s, f, PWhole. auto. }
    unfold model. cbn zeta. rewrite !Has. cbn [creates andb]. unfold reported. f_equal. f_equal; try (destruct (sjac s), (for1 s), (rev1 s); reflexivity); destruct (shes s), (rev2 s); reflexivity.
  - intros n Hn HC. unfold model. cbn zeta. destruct (hasSym lib (cname n FInfo PWhole)) eqn:H; [|reflexivity]. exfalso. apply Sy in H. destruct H as [k [c [H D]]].
    destruct (Own n FInfo k c H D) as [[n' [s' [f' [H1 [H2 H3]]]]]|H1]; [|exact (HC k c H1 D)].
    apply cname_eq in H3. destruct H3 as [_ [[<- ->]|[[X _]|[X _]]]]; [|inversion X|inversion X]. apply Hn. apply (in_map fst) in H1. exact H1.
Qed.
Print Assumptions C56_models_report_settings_partial.

(** ** Trying again *)
Lemma compile_fs tmp : forall src ext fs fs' os, snd (fst (fst (compile tmp src ext fs os))) = snd (fst (fst (compile tmp src ext fs' os))) /\
  snd (fst (compile tmp src ext fs os)) = snd (fst (compile tmp src ext fs' os)) /\ snd (compile tmp src ext fs os) = snd (compile tmp src ext fs' os).
Proof.
  induction src as [|[n c] src IH]; intros ext fs fs' os; cbn [compile]; [repeat split|]. destruct ext as [|[|x] ext]; [apply IH|apply IH|repeat split].
Qed.
Lemma generated_again t crash crash' nm : (forall n, crash n = None) -> (forall n, crash' n = None) -> generated t crash' (generated t crash nm) = generated t crash' nm.
Proof.
  intros C C'. unfold generated, getSources. cbn [fst snd]. rewrite C, C'. destruct (m_src (snd nm)) as [|a r] eqn:E; cbn [fst m_src m_cfg].
  - destruct (mputs (writes (fst nm) (m_cfg (snd nm)) t) []) eqn:Z; [exfalso; revert Z; apply mputs_nonempty, writes_nonempty|]. reflexivity.
  - rewrite E. reflexivity.
Qed.
Lemma compileModels_same tmp t crash : forall ms ms' ext fs fs' os, (forall n, crash n = None) -> map (generated t crash) ms = map (generated t crash) ms' ->
  let a := compileModels tmp t crash ms ext fs os in let b := compileModels tmp t crash ms' ext fs' os in
  snd a = snd b /\ snd (fst a) = snd (fst b).
Proof.
  induction ms as [|[n m] ms IH]; intros [|[n' m'] ms'] ext fs fs' os NC E; try discriminate; [repeat split|]. cbn [map] in E. injection E as E1 E2 E3. cbn zeta. cbn [compileModels fst] in *. subst n'.
  assert (G : forall m0, getSources n t (crash n) m0 = (fst (getSources n t (crash n) m0), true)) by (intros m0; unfold getSources; rewrite NC; destruct (m_src m0); reflexivity).
  rewrite (G m), (G m'). cbn [snd] in E2. rewrite E2. set (m1 := fst (getSources n t (crash n) m')).
  pose proof (compile_fs tmp (m_src m1) ext fs fs' os) as [A [B C]].
  destruct (compile tmp (m_src m1) ext fs os) as [[[fs1 os1] ext1] ok1]. destruct (compile tmp (m_src m1) ext fs' os) as [[[fs2 os2] ext2] ok2]. cbn [fst snd] in A, B, C. subst os2 ext2 ok2. destruct ok1; [|split; reflexivity].
  destruct (IH ms' ext1 fs1 fs2 os1 NC E3) as [X Y]. cbn zeta in X, Y.
  destruct (compileModels tmp t crash ms ext1 fs1 os1) as [[[[r1 f1] o1] x1] b1]. destruct (compileModels tmp t crash ms' ext1 fs2 os1) as [[[[r2 f2] o2] x2] b2]. cbn [fst snd] in *. split; assumption.
Qed.

Lemma linked_fresh tmp L fs fs' : linked (sadds (map fst (objs tmp L)) []) (mputs (objs tmp L) fs) = linked (sadds (map fst (objs tmp L)) []) (mputs (objs tmp L) fs').
Proof. unfold linked. rewrite (objects_fresh tmp L fs fs'). reflexivity. Qed.

Lemma create_same tmp crash ext w w2 : (forall n, crash n = None) -> w_ofiles w = [] -> w_ofiles w2 = [] -> w_mt w2 = w_mt w -> w_custom w2 = w_custom w ->
  map (generated (w_mt w) crash) (w_models w2) = map (generated (w_mt w) crash) (w_models w) ->
  libAfter w2 (map (generated (w_mt w) crash) (w_models w)) = libAfter w (map (generated (w_mt w) crash) (w_models w)) ->
  snd (create tmp crash ext w2) = snd (create tmp crash ext w).
Proof.
  intros NC O O2 T C G L. unfold create. rewrite O, O2, T, C.
  pose proof (compileModels_same tmp (w_mt w) crash (w_models w2) (w_models w) ext (w_files w2) (w_files w) [] NC G) as [X Y]. cbn zeta in X, Y.
  destruct (compileModels tmp (w_mt w) crash (w_models w2) ext (w_files w2) []) as [[[[ms2 fs2] os2] ext2] ok2] eqn:C2.
  destruct (compileModels tmp (w_mt w) crash (w_models w) ext (w_files w) []) as [[[[ms1 fs1] os1] ext1] ok1] eqn:C1. cbn [fst snd] in X, Y. subst ok2 ext2.
  destruct ok1; [|reflexivity]. apply compileModels_ok in C1. apply compileModels_ok in C2. destruct C1 as [M1 [F1 S1]]. destruct C2 as [M2 [F2 S2]]. cbn [negb].
  assert (MM : ms2 = ms1) by congruence. rewrite MM in *. clear M2 MM ms2.
  assert (Li : w_lib (getLibrarySources (mkW ms1 (w_custom w) (w_lib w2) (w_mt w) fs2 os2)) = libAfter w ms1).
  { pose proof (getLibrary_lib ms1 w2 fs2 os2) as Q. rewrite T, C in Q. rewrite Q, M1. exact L. }
  rewrite Li, getLibrary_lib. assert (OO : os2 = os1) by congruence. rewrite OO in *. clear S2 OO os2.
  pose proof (compile_fs tmp (libAfter w ms1) ext1 fs2 fs1 os1) as [A1 [A2 A3]].
  destruct (compile tmp (libAfter w ms1) ext1 fs2 os1) as [[[fs4 os4] ext4] ok4] eqn:C4. destruct (compile tmp (libAfter w ms1) ext1 fs1 os1) as [[[fs3 os3] ext3] ok3] eqn:C3. cbn [fst snd] in A1, A2, A3. subst os4 ext4 ok4.
  destruct ok3; [|reflexivity]. apply compile_ok in C3. apply compile_ok in C4. destruct C3 as [F3 S3]. destruct C4 as [F4 _]. cbn [negb].
  pose proof (compile_fs tmp (w_custom w) ext3 fs4 fs3 os3) as [B1 [B2 B3]].
  destruct (compile tmp (w_custom w) ext3 fs4 os3) as [[[fs6 os6] ext6] ok6] eqn:C6. destruct (compile tmp (w_custom w) ext3 fs3 os3) as [[[fs5 os5] ext5] ok5] eqn:C5. cbn [fst snd] in B1, B2, B3. subst os6 ext6 ok6.
  destruct ok5; [|reflexivity]. apply compile_ok in C5. apply compile_ok in C6. destruct C5 as [F5 S5]. destruct C6 as [F6 _]. cbn [negb].
  assert (LL : linked os5 fs6 = linked os5 fs5).
  { set (LA := (sourcesOf ms1 ++ libAfter w ms1 ++ w_custom w)%list). assert (X1 : os5 = sadds (map fst (objs tmp LA)) []) by (unfold LA; rewrite !objs_app, !map_app, !sadds_app; congruence).
    assert (X2 : fs5 = mputs (objs tmp LA) (w_files w)) by (unfold LA; rewrite !objs_app, !mputs_app; congruence).
    assert (X3 : fs6 = mputs (objs tmp LA) (w_files w2)) by (unfold LA; rewrite !objs_app, !mputs_app; congruence). rewrite X1, X2, X3. apply linked_fresh. }
  destruct ext5 as [|[|x] ext5]; cbn [snd]; try exact LL. reflexivity.
Qed.

(** Creating a library again, also after the compiler or the linker failed at any call, gives what a first creation would
    have given, for any history before. *)
Theorem C56_create_again : forall fs ops tmp1 crash1 ext1 tmp crash ext,
  (forall n, crash1 n = None) -> (forall n, crash n = None) ->
  let w := run ops (newWorld fs) in
  snd (create tmp crash ext (fst (create tmp1 crash1 ext1 w))) = snd (create tmp crash ext w).
Proof.
  intros fs ops tmp1 crash1 ext1 tmp crash ext NC1 NC w. destruct (C56_no_temporary_files fs ops "") as [O _]. fold w in O.
  destruct (create tmp1 crash1 ext1 w) as [w2 r] eqn:E. cbn [fst]. destruct (create_files tmp1 crash1 ext1 w w2 r O E) as [O2 _]. apply create_world in E. destruct E as [F [C [T L]]].
  assert (G : map (generated (w_mt w) crash) (w_models w2) = map (generated (w_mt w) crash) (w_models w)).
  { clear - F NC1 NC. induction F as [|a b ms ms' H F IH]; [reflexivity|]. cbn [map]. rewrite IH. f_equal. destruct H as [->| ->]; [reflexivity|]. apply generated_again; assumption. }
  apply create_same; try assumption. unfold libAfter in *. rewrite T. destruct L as [->| ->]; [reflexivity|]. destruct (w_lib w) as [|a r'] eqn:Z; [|reflexivity].
  destruct (mputs (libWrites (map (generated (w_mt w) crash1) (w_models w)) (w_mt w)) []) eqn:Y; [exfalso; revert Y; apply mputs_nonempty; discriminate|].
  rewrite <- Y. f_equal. apply libWrites_set. rewrite !setOf_generated. reflexivity.
Qed.
Print Assumptions C56_create_again.

(** ** Cases *)
Definition noCrash (n : string) : option nat := None.
Definition plainCfg (j sj f1 r1 th : bool) : cfg :=
  mkCfg true j false sj false false f1 r1 false true true th false [0; 2] [0; 1] [] [1] (fun f => match f with FZero => 2 | _ => 0 end).

(** Two models, one with the sparse Jacobian computed by threads and a wrapper, and a custom source. *)
Definition caseOps : list op :=
  [OpThreads MtPthreads; OpAddModel "a" (plainCfg true true false true true); OpAddModel "b" (plainCfg true false true false false);
   OpCustom "extra.c" ["extra"] ["b_jacobian"]; OpCreate "/tmp" noCrash [CallOk; CallOk; CallFail None]].
Definition caseWorld : world := run caseOps (newWorld [("keep", CGarbage)]).

Lemma case_names : namesOk caseWorld.
Proof.
  constructor.
  - intros n1 s1 n2 s2 H1 H2 [E _]. vm_compute in H1, H2. destruct H1 as [H1|[H1|[]]]; destruct H2 as [H2|[H2|[]]]; injection H1 as <- _; injection H2 as <- _; discriminate.
  - intros n s H. vm_compute in H. destruct H as [H|[H|[]]]; injection H as _ <-; (split; [|split]); cbn [jcols jrows hrows]; repeat constructor; cbn; intuition discriminate.
  - intros n H. vm_compute in H. destruct H as [<-|[]]. split.
    + intros m s f p _ _ E. unfold cfile in E. change "extra.c" with ("extra" ++ ".c") in E.
      assert (Z : forall x, x ++ ".c" = (x ++ ".") ++ "c") by (intros x; rewrite app_assoc_s; reflexivity). rewrite !Z in E. apply app_end in E. apply app_end in E. revert E. apply not_cname. reflexivity.
    + intros l. destruct l; discriminate.
Qed.
Lemma case_symbols : symbolsOk caseWorld.
Proof.
  constructor.
  - vm_compute. repeat constructor. intros [].
  - intros n c x H. vm_compute in H. destruct H as [H|[]]. injection H as _ <-. intros [<-|[]] [[m [s [f [p [_ E]]]]]|[l H]].
    + revert E. apply not_cname. reflexivity.
    + vm_compute in H. destruct l; intuition discriminate.
Qed.
(** The hypotheses of the theorems hold and the library has what was asked for, after a creation failed at its third
    compilation. *)
Example C56_case :
  orderly false MtNone caseOps /\ namesOk caseWorld /\ symbolsOk caseWorld /\
  (forall n c x, In (n, c) (w_custom caseWorld) -> In x (uses c) -> exists k c', wanted caseWorld k c' /\ In x (defs c')) /\
  match create "/tmp" noCrash [] caseWorld with
  | (w', Some lib) =>
      w_files w' = [("keep", CGarbage)] /\ loads lib = true /\ List.length lib = 31 /\
      model lib "a" = Some (reported (plainCfg true true false true true)) /\ model lib "c" = None /\
      hasSym lib "a_sparse_reverse_one_dep1_wrap" = true
  | _ => False
  end.
Proof.
  split; [cbn; repeat split; reflexivity|]. split; [exact case_names|]. split; [exact case_symbols|]. split.
  - intros n c x H. vm_compute in H. destruct H as [H|[]]. injection H as _ <-. intros [<-|[]].
    exists (cfile "b" FJac PWhole), (CModel "b" FJac PWhole (plainCfg true false true false false) (w_mt caseWorld)). split; [|left; reflexivity].
    apply (WModel caseWorld "b" (plainCfg true false true false false) FJac PWhole); [vm_compute; right; left; reflexivity|split; [reflexivity|exact I]].
  - vm_compute. repeat split.
Qed.

(** ** What can go wrong *)

(** A model named after another one with "_sparse" replaces its functions, and no error is reported. *)
Theorem C56_sparse_names_overwrite_refuted :
  exists ops n f s, let w := run ops (newWorld []) in
    orderly false MtNone ops /\ In (n, s) (settings w) /\ creates s f = true /\
    exists w' lib, create "/tmp" noCrash [] w = (w', Some lib) /\ loads lib = true /\
      ~ In (CModel n f PWhole s (w_mt w)) lib /\ hasSym lib (cname n f PWhole) = true.
Proof.
  exists [OpAddModel "a" (plainCfg false true false false false); OpAddModel "a_sparse" (plainCfg true false false false false)], "a", FSJac, (plainCfg false true false false false). cbn zeta.
  split; [cbn; auto|]. split; [vm_compute; left; reflexivity|]. split; [reflexivity|]. eexists. eexists. split; [vm_compute; reflexivity|]. split; [vm_compute; reflexivity|]. split; [|vm_compute; reflexivity].
  intros H. vm_compute in H. decompose [or] H; try discriminate. assumption.
Qed.
Print Assumptions C56_sparse_names_overwrite_refuted.

(** A model without a sparse Jacobian says it has one, which is the Jacobian of another model. *)
Theorem C56_reports_functions_of_other_models_refuted :
  exists ops n s, let w := run ops (newWorld []) in
    orderly false MtNone ops /\ namesOk w /\ In (n, s) (settings w) /\ sjac s = false /\
    exists w' lib av, create "/tmp" noCrash [] w = (w', Some lib) /\ model lib n = Some av /\ a_sjac av = true.
Proof.
  exists [OpAddModel "a" (plainCfg false false false true false); OpAddModel "a_sparse" (plainCfg true false false false false)], "a", (plainCfg false false false true false). cbn zeta.
  split; [exact I|]. split.
  - constructor.
    + intros n1 s1 n2 s2 H1 H2 [E [f [g [S [C1 C2]]]]]. vm_compute in H1, H2. destruct H1 as [H1|[H1|[]]]; destruct H2 as [H2|[H2|[]]]; injection H1 as <- <-; injection H2 as <- <-; try discriminate.
      destruct S; discriminate.
    + intros n s H. vm_compute in H. destruct H as [H|[H|[]]]; injection H as _ <-; (split; [|split]); cbn [jcols jrows hrows]; repeat constructor; cbn; intuition discriminate.
    + intros n H. vm_compute in H. destruct H.
  - split; [vm_compute; left; reflexivity|]. split; [reflexivity|]. do 3 eexists. split; [vm_compute; reflexivity|]. split; [vm_compute; reflexivity|reflexivity].
Qed.
Print Assumptions C56_reports_functions_of_other_models_refuted.

(** Settings which are changed after sources were generated have no effect. *)
Theorem C56_later_settings_ignored_refuted :
  exists ops n s, let w := run ops (newWorld []) in
    namesOk w /\ In (n, s) (settings w) /\ jac s = true /\
    exists w' lib av, create "/tmp" noCrash [] w = (w', Some lib) /\ model lib n = Some av /\ a_jac av = false.
Proof.
  exists [OpAddModel "a" (plainCfg false false false false false); OpCreate "/tmp" noCrash []; OpSet "a" (plainCfg true false false false false)], "a", (plainCfg true false false false false). cbn zeta.
  split; [|split; [vm_compute; left; reflexivity|split; [reflexivity|do 3 eexists; split; [vm_compute; reflexivity|split; [vm_compute; reflexivity|reflexivity]]]]].
  constructor.
  - intros n1 s1 n2 s2 H1 H2 [E _]. vm_compute in H1, H2. destruct H1 as [H1|[]]; destruct H2 as [H2|[]]; injection H1 as <- _; injection H2 as <- _; discriminate.
  - intros n s H. vm_compute in H. destruct H as [H|[]]; injection H as _ <-; (split; [|split]); cbn [jcols jrows hrows]; repeat constructor; cbn; intuition discriminate.
  - intros n H. vm_compute in H. destruct H.
Qed.
Print Assumptions C56_later_settings_ignored_refuted.

(** A model whose sources were generated for another library with threads makes a library which cannot be loaded, since
    the functions of the thread pool are missing. *)
Theorem C56_shared_model_does_not_load_refuted :
  exists ops, let w := run ops (newWorld []) in
    w_custom w = [] /\
    exists w' lib, create "/tmp" noCrash [] w = (w', Some lib) /\ loads lib = false.
Proof.
  exists [OpAddModel "a" (plainCfg false true false true true); OpSources "a" MtPthreads]. cbn zeta. split; [reflexivity|]. do 2 eexists. split; vm_compute; reflexivity.
Qed.
Print Assumptions C56_shared_model_does_not_load_refuted.

(** An exception in the middle of the generation of sources (for instance of the Jacobian) leaves the sources written so
    far; the next creation succeeds with them, and gives a library without the model. *)
Theorem C56_incomplete_after_exception_refuted :
  exists ops n s, let w := run ops (newWorld []) in
    In (n, s) (settings w) /\ jac s = true /\
    exists w' lib, create "/tmp" noCrash [] w = (w', Some lib) /\ loads lib = true /\ hasSym lib (cname n FJac PWhole) = false /\ model lib n = None.
Proof.
  exists [OpAddModel "a" (plainCfg true false false false false); OpCreate "/tmp" (fun _ => Some 3) []], "a", (plainCfg true false false false false). cbn zeta.
  split; [vm_compute; left; reflexivity|]. split; [reflexivity|]. do 2 eexists. split; [vm_compute; reflexivity|]. repeat split; vm_compute; reflexivity.
Qed.
Print Assumptions C56_incomplete_after_exception_refuted.

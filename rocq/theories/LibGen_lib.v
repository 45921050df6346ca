(** * Proofs about the content of the library *)
From Coq Require Import List Bool Arith String Ascii Permutation Lia.
From Verif Require Import Names_model Names_thm LibGen_model LibGen_spec LibGen_proofs LibGen_maps LibGen_world LibGen_create.
Import ListNotations.
Local Open Scope string_scope.
Local Open Scope nat_scope.

(** ** The sources *)
Lemma threadsUsed_eq w : (if negb (noThreads (w_mt w)) && usingThreads (w_models w) then w_mt w else MtNone) = threadsUsed w.
Proof.
  unfold threadsUsed. rewrite usingThreads_set. change (setOf (w_models w)) with (settings w).
  assert (E : existsb (fun ns => jacMulti (snd ns) || hesMulti (snd ns)) (settings w) =
    existsb (fun ns => multi (snd ns) && ((sjac (snd ns) && reuse1 (snd ns) && (for1 (snd ns) || rev1 (snd ns))) || (shes (snd ns) && reuse2 (snd ns) && rev2 (snd ns)))) (settings w)).
  { induction (settings w) as [|[n s] l IH]; [reflexivity|]. cbn [existsb snd]. rewrite IH. f_equal. unfold jacMulti, hesMulti. destruct (multi s); [|reflexivity]. reflexivity. }
  rewrite E. set (b := existsb _ (settings w)). destruct b; rewrite ?andb_true_r, ?andb_false_r; [destruct (w_mt w); reflexivity|reflexivity].
Qed.
Definition libList (names : list string) (used : mt) : list (string * content) :=
  ([(libFileName LVersion, CLib LVersion names used); (libFileName LModels, CLib LModels names used);
    (libFileName LOnClose, CLib LOnClose names used); (libFileName LAccess, CLib LAccess names used)]
   ++ (if noThreads used then [] else [(libFileName LPool, CLib LPool names used)]))%list.
Lemma libWrites_list w : libWrites (w_models w) (w_mt w) = libList (map fst (settings w)) (threadsUsed w).
Proof. unfold libWrites. rewrite threadsUsed_eq. change (settings w) with (setOf (w_models w)). rewrite setOf_names. reflexivity. Qed.
Lemma libList_NoDup names used : NoDup (map fst (libList names used)).
Proof. apply nodup_NoDup. destruct used; reflexivity. Qed.
Lemma libList_In names used k c : In (k, c) (libList names used) <-> exists l, (l = LPool -> used <> MtNone) /\ k = libFileName l /\ c = CLib l names used.
Proof.
  unfold libList. rewrite in_app_iff. split.
  - intros [[H|[H|[H|[H|[]]]]]|H].
    1-4: injection H as <- <-; (exists LVersion + exists LModels + exists LOnClose + exists LAccess); (split; [discriminate|split; reflexivity]).
    destruct used; cbn in H; [destruct H| |]; destruct H as [H|[]]; injection H as <- <-; exists LPool; (split; [intros _; discriminate|split; reflexivity]).
  - intros [l [H [-> ->]]]. destruct l; try (left; cbn; tauto). right. destruct used; [exfalso; apply H; reflexivity| |]; left; reflexivity.
Qed.

Definition modelSrcs (w : world) : list (string * content) := flat_map (fun ns => writes (fst ns) (snd ns) (w_mt w)) (settings w).
Definition ownSrcs (w : world) : list (string * content) := (modelSrcs w ++ libList (map fst (settings w)) (threadsUsed w))%list.
Definition allSrcs (w : world) : list (string * content) := (ownSrcs w ++ w_custom w)%list.

Lemma modelSrcs_In w k c : In (k, c) (modelSrcs w) <-> exists n s f p, In (n, s) (settings w) /\ hasSource s f p /\ k = cfile n f p /\ c = CModel n f p s (w_mt w).
Proof.
  unfold modelSrcs. rewrite in_flat_map. split.
  - intros [[n s] [H1 H2]]. apply writes_In in H2. cbn [fst snd] in H2. destruct H2 as [f [p [H [-> ->]]]]. exists n, s, f, p. auto.
  - intros [n [s [f [p [H1 [H2 [-> ->]]]]]]]. exists (n, s). split; [exact H1|]. apply writes_In. exists f, p. auto.
Qed.
Lemma allSrcs_wanted w k c : In (k, c) (allSrcs w) <-> wanted w k c.
Proof.
  unfold allSrcs, ownSrcs. rewrite !in_app_iff, modelSrcs_In, libList_In. split.
  - intros [[[n [s [f [p [H1 [H2 [-> ->]]]]]]]|[l [H [-> ->]]]]|H]; constructor; assumption.
  - intros H. destruct H as [n s f p H1 H2|l H|n c H]; [left; left; exists n, s, f, p; auto|left; right; exists l; auto|right; exact H].
Qed.

Lemma settings_NoDup g w : inv g w -> NoDup (map fst (settings w)).
Proof. intros I. change (settings w) with (setOf (w_models w)). rewrite setOf_names. apply I. Qed.
Lemma settings_fun w n s s' : NoDup (map fst (settings w)) -> In (n, s) (settings w) -> In (n, s') (settings w) -> s = s'.
Proof. intros N H1 H2. apply (In_mget _ _ _ N) in H1. apply (In_mget _ _ _ N) in H2. congruence. Qed.

Definition libWord (l : libfile) : string := match l with LVersion => "cppad_cg_version" | LModels => "cppad_cg_models" | LOnClose => "cppad_cg_on_close" | LAccess => "thread_pool_access" | LPool => "thread_pool" end.
Lemma libFile_not_cfile l n f p : libFileName l <> cfile n f p.
Proof.
  intros E. assert (X : libFileName l = libWord l ++ ".c") by (destruct l; reflexivity). rewrite X in E. unfold cfile in E.
  assert (Y : libWord l = cname n f p).
  { assert (Z : forall s, s ++ ".c" = (s ++ ".") ++ "c") by (intros s; rewrite app_assoc_s; reflexivity). rewrite !Z in E. apply app_end in E. apply app_end in E. exact E. }
  revert Y. apply not_cname. destruct l; reflexivity.
Qed.

Lemma clash_free w n1 s1 f1 p1 n2 s2 f2 p2 : namesOk w -> NoDup (map fst (settings w)) -> In (n1, s1) (settings w) -> In (n2, s2) (settings w) -> hasSource s1 f1 p1 -> hasSource s2 f2 p2 ->
  cname n1 f1 p1 = cname n2 f2 p2 -> n1 = n2 /\ s1 = s2 /\ f1 = f2 /\ p1 = p2.
Proof.
  intros K N H1 H2 [C1 _] [C2 _] E. apply cname_eq in E. destruct E as [-> [[-> ->]|[[S ->]|[S ->]]]].
  - split; [reflexivity|]. split; [eapply settings_fun; eassumption|]. split; reflexivity.
  - exfalso. apply (ok_clash w K n1 s1 _ s2 H1 H2). split; [reflexivity|]. exists f1, f2. auto.
  - exfalso. apply (ok_clash w K n2 s2 _ s1 H2 H1). split; [reflexivity|]. exists f2, f1. auto.
Qed.

Lemma modelSrcs_NoDup w : namesOk w -> NoDup (map fst (settings w)) -> NoDup (map fst (modelSrcs w)).
Proof.
  intros K N. unfold modelSrcs. assert (E : forall l, map fst (flat_map (fun ns : string * cfg => writes (fst ns) (snd ns) (w_mt w)) l) = flat_map (fun ns => map fst (writes (fst ns) (snd ns) (w_mt w))) l).
  { induction l as [|a l IH]; [reflexivity|]. cbn [flat_map]. rewrite map_app, IH. reflexivity. }
  rewrite E. apply NoDup_flat; [eapply NoDup_map_inv; exact N| |].
  - intros [n s] H. apply writes_NoDup. eapply ok_settings; eassumption.
  - intros [n1 s1] [n2 s2] b H1 H2 B1 B2. cbn [fst snd] in *. apply in_map_iff in B1. destruct B1 as [[k1 c1] [E1 B1]]. apply in_map_iff in B2. destruct B2 as [[k2 c2] [E2 B2]]. cbn [fst] in *. subst k1 k2.
    apply writes_In in B1. destruct B1 as [f1 [p1 [S1 [X1 _]]]]. apply writes_In in B2. destruct B2 as [f2 [p2 [S2 [X2 _]]]]. assert (cname n1 f1 p1 = cname n2 f2 p2) as Y by (apply cfile_eq; congruence).
    destruct (clash_free w n1 s1 f1 p1 n2 s2 f2 p2 K N H1 H2 S1 S2 Y) as [-> [-> _]]. reflexivity.
Qed.
Lemma ownSrcs_NoDup w : namesOk w -> NoDup (map fst (settings w)) -> NoDup (map fst (ownSrcs w)).
Proof.
  intros K N. unfold ownSrcs. rewrite map_app. apply NoDup_app2; [apply modelSrcs_NoDup; assumption|apply libList_NoDup|].
  intros x H1 H2. apply in_map_iff in H1. destruct H1 as [[k1 c1] [E1 H1]]. apply in_map_iff in H2. destruct H2 as [[k2 c2] [E2 H2]]. cbn [fst] in *. subst k1 k2.
  apply modelSrcs_In in H1. destruct H1 as [n [s [f [p [_ [_ [-> _]]]]]]]. apply libList_In in H2. destruct H2 as [l [_ [E _]]]. symmetry in E. exact (libFile_not_cfile l n f p E).
Qed.
Lemma allSrcs_NoDup w : namesOk w -> NoDup (map fst (settings w)) -> NoDup (map fst (w_custom w)) -> NoDup (map fst (allSrcs w)).
Proof.
  intros K N NC. unfold allSrcs. rewrite map_app. apply NoDup_app2; [apply ownSrcs_NoDup; assumption|exact NC|].
  intros x H1 H2. destruct (ok_files w K x H2) as [F1 F2]. apply in_map_iff in H1. destruct H1 as [[k1 c1] [E1 H1]]. cbn [fst] in E1. subst k1. unfold ownSrcs in H1. apply in_app_iff in H1. destruct H1 as [H1|H1].
  - apply modelSrcs_In in H1. destruct H1 as [n [s [f [p [A [B [C _]]]]]]]. exact (F1 n s f p A B C).
  - apply libList_In in H1. destruct H1 as [l [_ [E _]]]. exact (F2 l E).
Qed.

(** The sources which are compiled are the wanted ones. *)
Lemma allOf_perm g crash w : inv g w -> (forall n, crash n = None) -> namesOk w -> Permutation (allOf crash w) (allSrcs w).
Proof.
  intros I NC K. unfold allOf, allSrcs, ownSrcs. cbn zeta. rewrite <- app_assoc. apply Permutation_app; [|apply Permutation_app; [|reflexivity]].
  - unfold modelSrcs, sourcesOf. assert (Hs : forall n s, In (n, s) (settings w) -> settingsOk s) by (intros n s; apply ok_settings; exact K). revert Hs. pose proof (i_src g w I) as F. unfold settings.
    induction F as [|[n m] ms Hm F IH]; intros Hs; [reflexivity|]. cbn [map flat_map fst snd]. apply Permutation_app.
    + rewrite (srcOk_generated (w_mt w) crash (n, m) NC Hm). cbn [fst snd]. rewrite mputs_perm; [rewrite app_nil_r; reflexivity|]. rewrite app_nil_r. apply writes_NoDup. apply (Hs n). left. reflexivity.
    + apply IH. intros n' s' H. apply (Hs n'). right. exact H.
  - unfold libAfter. rewrite (libWrites_set _ _ (w_mt w) (setOf_generated (w_mt w) crash (w_models w))), libWrites_list.
    assert (P : Permutation (mputs (libList (map fst (settings w)) (threadsUsed w)) []) (libList (map fst (settings w)) (threadsUsed w))).
    { rewrite mputs_perm; [rewrite app_nil_r; reflexivity|]. rewrite app_nil_r. apply libList_NoDup. }
    destruct (i_lib g w I) as [E|E]; rewrite E; [exact P|]. rewrite libWrites_list. destruct (mputs (libList _ _) []) eqn:Z; [exfalso; revert Z; apply mputs_nonempty; discriminate|exact P].
Qed.

(** ** The symbols *)
Definition libSymbolsFree (t : mt) : bool := forallb (fun l => forallb (fun x => freeWord (lastWord x)) (defs (CLib l [] t))) [LVersion; LModels; LOnClose; LAccess; LPool].
Lemma libSymbol_free l names t x : In x (defs (CLib l names t)) -> freeWord (lastWord x) = true.
Proof.
  intros H. assert (E : forallb (fun x => freeWord (lastWord x)) (defs (CLib l [] t)) = true) by (destruct l, t; reflexivity).
  rewrite forallb_forall in E. apply E. destruct l; exact H.
Qed.
Lemma libSymbol_own l names t x : In x (defs (CLib l names t)) -> In x (defs (CLib l [] t)).
Proof. destruct l; exact (fun H => H). Qed.

Lemma defs_model n f p s t x : In x (defs (CModel n f p s t)) -> x = cname n f p \/
  (p = PWhole /\ exists g, x = cname n g PWrap /\ ((f = FSJac /\ In g (jacWraps s)) \/ (f = FSHes /\ In g (hesWraps s)))).
Proof.
  cbn [defs]. intros [H|H]; [left; symmetry; exact H|]. destruct f; try destruct H; destruct p; try destruct H.
  - destruct (jacThreads s t); [|destruct H]. apply in_map_iff in H. destruct H as [g [<- Hg]]. right. split; [reflexivity|]. exists g. split; [reflexivity|left; split; [reflexivity|exact Hg]].
  - destruct (hesThreads s t); [|destruct H]. apply in_map_iff in H. destruct H as [g [<- Hg]]. right. split; [reflexivity|]. exists g. split; [reflexivity|right; split; [reflexivity|exact Hg]].
Qed.
Lemma jacWraps_kind s g : In g (jacWraps s) -> (exists j, g = FFor1J j) \/ exists j, g = FRev1I j.
Proof. unfold jacWraps. destruct (for1 s && fwd s); intros H; apply in_map_iff in H; destruct H as [j [<- _]]; [left|right]; exists j; reflexivity. Qed.
Lemma hesWraps_kind s g : In g (hesWraps s) -> exists j, g = FRev2J j.
Proof. unfold hesWraps. intros H; apply in_map_iff in H; destruct H as [j [<- _]]; exists j; reflexivity. Qed.
Lemma wraps_NoDup s : settingsOk s -> NoDup (jacWraps s) /\ NoDup (hesWraps s).
Proof.
  intros [N1 [N2 N3]]. unfold jacWraps, hesWraps. split; [destruct (for1 s && fwd s)|]; apply FinFun.Injective_map_NoDup; try (intros i j; congruence); apply NoDup_filter; assumption.
Qed.
Lemma defs_NoDup n f p s t : settingsOk s -> hasSource s f p -> NoDup (defs (CModel n f p s t)).
Proof.
  intros K HS. destruct (wraps_NoDup s K) as [W1 W2].
  assert (G : forall gs, NoDup gs -> NoDup (cname n f PWhole :: map (fun g => cname n g PWrap) gs)).
  { intros gs N. constructor.
    - intros H. apply in_map_iff in H. destruct H as [g [E _]]. apply cname_inj in E. destruct E as [_ E]. discriminate.
    - apply FinFun.Injective_map_NoDup; [|exact N]. intros a b E. apply cname_inj in E. apply E. }
  assert (O : NoDup [cname n f p]) by (constructor; [intros []|constructor]).
  cbn [defs]. destruct f; try exact O; destruct p; try exact O.
  - destruct (jacThreads s t); [apply G, W1|exact O].
  - destruct (hesThreads s t); [apply G, W2|exact O].
Qed.
(** Two model sources which define the same symbol are the same. *)
Lemma defs_shared w n1 s1 f1 p1 n2 s2 f2 p2 x : namesOk w -> NoDup (map fst (settings w)) -> In (n1, s1) (settings w) -> In (n2, s2) (settings w) -> hasSource s1 f1 p1 -> hasSource s2 f2 p2 ->
  In x (defs (CModel n1 f1 p1 s1 (w_mt w))) -> In x (defs (CModel n2 f2 p2 s2 (w_mt w))) -> n1 = n2 /\ s1 = s2 /\ f1 = f2 /\ p1 = p2.
Proof.
  intros K N H1 H2 S1 S2 D1 D2. apply defs_model in D1. apply defs_model in D2.
  assert (NW : forall s f p, hasSource s f p -> p <> PWrap) by (intros s f p [_ H] ->; exact H).
  destruct D1 as [->|[-> [g1 [-> W1]]]]; destruct D2 as [E|[-> [g2 [E W2]]]].
  - exact (clash_free w n1 s1 f1 p1 n2 s2 f2 p2 K N H1 H2 S1 S2 E).
  - exfalso. apply cname_eq in E. destruct E as [-> _]. exact (NW _ _ _ S1 eq_refl).
  - exfalso. apply cname_eq in E. destruct E as [E _]. exact (NW _ _ _ S2 (eq_sym E)).
  - assert (NS : forall s g f, In g (jacWraps s) \/ In g (hesWraps s) -> ~ sparseOf g f /\ ~ sparseOf f g).
    { intros s g f [H|H]; [apply jacWraps_kind in H; destruct H as [[j ->]|[j ->]]|apply hesWraps_kind in H; destruct H as [j ->]]; split; intros X; inversion X. }
    assert (I1 : In g1 (jacWraps s1) \/ In g1 (hesWraps s1)) by tauto.
    apply cname_eq in E. destruct E as [_ [[-> ->]|[[X _]|[X _]]]]; [|exfalso; exact (proj1 (NS s1 g1 g2 I1) X)|exfalso; exact (proj2 (NS s1 g1 g2 I1) X)].
    split; [reflexivity|]. split; [eapply settings_fun; eassumption|]. split; [|reflexivity].
    destruct W1 as [[-> W1]|[-> W1]]; destruct W2 as [[-> W2]|[-> W2]]; try reflexivity; exfalso.
    + apply jacWraps_kind in W1. apply hesWraps_kind in W2. destruct W2 as [j ->]. destruct W1 as [[i E]|[i E]]; discriminate.
    + apply jacWraps_kind in W2. apply hesWraps_kind in W1. destruct W1 as [j ->]. destruct W2 as [[i E]|[i E]]; discriminate.
Qed.

Lemma libSyms_NoDup names used : NoDup (flat_map (fun kc => defs (snd kc)) (libList names used)).
Proof. apply nodup_NoDup. destruct used; vm_compute; reflexivity. Qed.

Lemma syms_NoDup w : namesOk w -> symbolsOk w -> NoDup (map fst (settings w)) -> NoDup (flat_map (fun kc => defs (snd kc)) (allSrcs w)).
Proof.
  intros K S N. unfold allSrcs, ownSrcs. rewrite !flat_map_app. apply NoDup_app2; [apply NoDup_app2| |].
  - apply NoDup_flat; [eapply NoDup_map_inv, modelSrcs_NoDup; assumption| |].
    + intros [k c] H. apply modelSrcs_In in H. destruct H as [n [s [f [p [H1 [H2 [_ ->]]]]]]]. apply defs_NoDup; [eapply ok_settings; eassumption|exact H2].
    + intros [k1 c1] [k2 c2] x H1 H2. apply modelSrcs_In in H1. apply modelSrcs_In in H2. destruct H1 as [n1 [s1 [f1 [p1 [A1 [B1 [-> ->]]]]]]]. destruct H2 as [n2 [s2 [f2 [p2 [A2 [B2 [-> ->]]]]]]]. cbn [snd].
      intros D1 D2. destruct (defs_shared w _ _ _ _ _ _ _ _ x K N A1 A2 B1 B2 D1 D2) as [-> [-> [-> ->]]]. reflexivity.
  - apply libSyms_NoDup.
  - intros x H1 H2. apply in_flat_map in H1. destruct H1 as [[k1 c1] [H1 D1]]. apply in_flat_map in H2. destruct H2 as [[k2 c2] [H2 D2]]. apply modelSrcs_In in H1. destruct H1 as [n [s [f [p [_ [_ [_ ->]]]]]]].
    apply libList_In in H2. destruct H2 as [l [_ [_ ->]]]. cbn [snd] in *. apply libSymbol_free in D2. apply defs_model in D1. destruct D1 as [->|[_ [g [-> _]]]]; rewrite lastWord_cname in D2; discriminate.
  - apply ok_custom, S.
  - intros x H1 H2. apply in_flat_map in H2. destruct H2 as [[k2 c2] [H2 D2]]. cbn [snd] in D2. apply (ok_own w S k2 c2 x H2 D2). rewrite <- flat_map_app in H1. apply in_flat_map in H1. destruct H1 as [[k1 c1] [H1 D1]].
    cbn [snd] in D1. apply in_app_iff in H1. destruct H1 as [H1|H1].
    + apply modelSrcs_In in H1. destruct H1 as [n [s [f [p [A [_ [_ ->]]]]]]]. left. apply defs_model in D1. destruct D1 as [->|[_ [g [-> _]]]]; [exists n, s, f, p|exists n, s, g, PWrap]; auto.
    + apply libList_In in H1. destruct H1 as [l [_ [_ ->]]]. right. exists l. exact (libSymbol_own _ _ _ _ D1).
Qed.

(** ** The symbols which are called *)
Lemma libUses_defined names used c x : In c (map snd (libList names used)) -> In x (uses c) -> exists c', In c' (map snd (libList names used)) /\ In x (defs c').
Proof.
  intros H U. destruct used; cbn in H; decompose [or] H; clear H; try tauto; subst c; cbn in U; try (destruct U; fail).
  - exists (CLib LPool names MtPthreads). split; [cbn; tauto|]. cbn. tauto.
  - exists (CLib LPool names MtPthreads). split; [cbn; tauto|]. cbn. tauto.
  - exists (CLib LPool names MtOpenmp). split; [cbn; tauto|]. cbn. tauto.
Qed.
Lemma poolCalls_defined t x : In x (poolCalls t) -> In x (poolDefs t).
Proof. destruct t; cbn; tauto. Qed.
Lemma threads_used w n s : In (n, s) (settings w) -> (sjac s = true /\ jacThreads s (w_mt w) = true) \/ (shes s = true /\ hesThreads s (w_mt w) = true) -> threadsUsed w = w_mt w /\ w_mt w <> MtNone.
Proof.
  intros H T. split.
  - unfold threadsUsed. replace (existsb _ (settings w)) with true; [reflexivity|]. symmetry. apply existsb_exists. exists (n, s). split; [exact H|]. cbn [snd].
    unfold jacThreads, jacReuses, hesThreads, hesReuses in T. destruct (multi s); [|cbn [negb orb] in T; rewrite !andb_false_r in T; destruct T as [[_ T]|[_ T]]; discriminate]. cbn [andb].
    destruct T as [[T1 T2]|[T1 T2]]; rewrite T1; apply andb_true_iff in T2; destruct T2 as [T2 _]; apply andb_true_iff in T2; destruct T2 as [T2 T3]; rewrite T2, T3 || rewrite T2; cbn [andb orb].
    + destruct (for1 s); [reflexivity|]. cbn [andb orb] in T3. destruct (rev1 s); [reflexivity|discriminate].
    + apply orb_true_r.
  - intros E. rewrite E in T. unfold jacThreads, hesThreads in T. cbn [noThreads] in T. rewrite !orb_true_r in T. cbn [negb] in T. rewrite !andb_false_r in T. destruct T as [[_ T]|[_ T]]; discriminate.
Qed.

Lemma own_symbol_defined w n s f p : In (n, s) (settings w) -> hasSource s f p -> exists k c, wanted w k c /\ In (cname n f p) (defs c).
Proof. intros H S. exists (cfile n f p), (CModel n f p s (w_mt w)). split; [constructor; assumption|left; reflexivity]. Qed.
Lemma pool_defined w x : threadsUsed w = w_mt w -> w_mt w <> MtNone -> In x (poolCalls (w_mt w)) -> exists k c, wanted w k c /\ In x (defs c).
Proof.
  intros T NM H. exists (libFileName LPool), (CLib LPool (map fst (settings w)) (threadsUsed w)). split; [constructor; intros _; congruence|]. cbn [defs]. rewrite T. apply poolCalls_defined, H.
Qed.

Lemma part_defined w n s f x : In (n, s) (settings w) -> creates s f = true -> divided s f = true -> In x (map (fun k => cname n f (PPart k)) (seq 1 (parts s f))) -> exists k c, wanted w k c /\ In x (defs c).
Proof. intros H C D X. apply in_map_iff in X. destruct X as [k [<- X]]. apply in_seq in X. apply (own_symbol_defined w n s); [exact H|]. split; [exact C|]. split; [exact D|lia]. Qed.
Lemma whole_defined w n s f x : In (n, s) (settings w) -> creates s f = true -> x = cname n f PWhole -> exists k c, wanted w k c /\ In x (defs c).
Proof. intros H C ->. apply (own_symbol_defined w n s); [exact H|]. split; [exact C|exact I]. Qed.

Lemma uses_defined w c k x : wanted w k c -> (forall n c0, In (n, c0) (w_custom w) -> c <> c0) -> In x (uses c) -> exists k' c', wanted w k' c' /\ In x (defs c').
Proof.
  intros W NC U. destruct W as [n s f p H1 H2|l Hl|n c H].
  - destruct H2 as [C P]. cbn [uses] in U.
    assert (Wh : forall (g : nat -> fn) js, (forall j, In j js -> creates s (g j) = true) -> In x (map (fun j => cname n (g j) PWhole) js) -> exists k' c', wanted w k' c' /\ In x (defs c')).
    { intros g js G X. apply in_map_iff in X. destruct X as [j [<- X]]. eapply whole_defined; [exact H1|exact (G j X)|reflexivity]. }
    assert (Cj : for1 s = true -> forall j, In j (jcols s) -> creates s (FFor1J j) = true) by (intros E j Hj; cbn [creates]; rewrite E; apply isIn_In, Hj).
    assert (Ci : rev1 s = true -> forall j, In j (jrows s) -> creates s (FRev1I j) = true) by (intros E j Hj; cbn [creates]; rewrite E; apply isIn_In, Hj).
    assert (Ch : rev2 s = true -> forall j, In j (hrows s) -> creates s (FRev2J j) = true) by (intros E j Hj; cbn [creates]; rewrite E; apply isIn_In, Hj).
    destruct f; destruct p; try (destruct U; fail); try (apply (part_defined w n s _ x H1 C eq_refl U)); cbn [creates] in C.
    + (* forward one *) destruct U as [<-|[<-|[]]]; (eapply whole_defined; [exact H1| |reflexivity]; exact C).
    + destruct U as [<-|[<-|[]]]; (eapply whole_defined; [exact H1| |reflexivity]; exact C).
    + destruct U as [<-|[<-|[]]]; (eapply whole_defined; [exact H1| |reflexivity]; exact C).
    + (* sparse Jacobian *) destruct (jacReuses s) eqn:R.
      * apply in_app_iff in U. destruct U as [U|U].
        -- unfold jacCalls in U. unfold jacReuses in R. rewrite andb_true_iff, orb_true_iff, !andb_true_iff in R. destruct (for1 s && fwd s) eqn:Q.
           ++ rewrite map_map in U. apply andb_true_iff in Q. exact (Wh FFor1J (jcols s) (Cj (proj1 Q)) U).
           ++ rewrite map_map in U. apply (Wh FRev1I (jrows s)); [|exact U]. apply Ci. destruct R as [_ [R|R]]; [|apply R]. exfalso. rewrite (proj2 (andb_true_iff _ _) R) in Q. discriminate.
        -- destruct (jacThreads s (w_mt w)) eqn:T; [|destruct U]. destruct (threads_used w n s H1 (or_introl (conj C T))) as [A B]. exact (pool_defined w x A B U).
      * apply (part_defined w n s FSJac x H1 C); [cbn [divided]; rewrite R; reflexivity|exact U].
    + (* sparse Hessian *) destruct (hesReuses s) eqn:R.
      * apply in_app_iff in U. destruct U as [U|U].
        -- apply (Wh FRev2J (hrows s)); [|exact U]. apply Ch. unfold hesReuses in R. apply andb_true_iff in R. apply R.
        -- destruct (hesThreads s (w_mt w)) eqn:T; [|destruct U]. destruct (threads_used w n s H1 (or_intror (conj C T))) as [A B]. exact (pool_defined w x A B U).
      * apply (part_defined w n s FSHes x H1 C); [cbn [divided]; rewrite R; reflexivity|exact U].
    + exact (Wh FFor1J (jcols s) (Cj C) U).
    + exact (Wh FRev1I (jrows s) (Ci C) U).
    + exact (Wh FRev2J (hrows s) (Ch C) U).
  - destruct (libUses_defined (map fst (settings w)) (threadsUsed w) (CLib l (map fst (settings w)) (threadsUsed w)) x) as [c' [H D]]; [|exact U|].
    + apply in_map_iff. exists (libFileName l, CLib l (map fst (settings w)) (threadsUsed w)). split; [reflexivity|]. apply libList_In. exists l. auto.
    + apply in_map_iff in H. destruct H as [[k' c2] [E H]]. cbn [snd] in E. subst c2. exists k', c'. split; [|exact D]. apply allSrcs_wanted. unfold allSrcs, ownSrcs. rewrite !in_app_iff. left. right. exact H.
  - exfalso. exact (NC n c H eq_refl).
Qed.

(** * Proofs about whole creations and histories *)
From Coq Require Import List Bool Arith String Ascii Permutation Lia.
From Verif Require Import Names_model Names_thm LibGen_model LibGen_spec LibGen_proofs LibGen_maps LibGen_world.
Import ListNotations.
Local Open Scope string_scope.
Local Open Scope nat_scope.

(** ** The invariant of orderly histories *)
Definition srcOk (t : mt) (nm : string * mstate) : Prop := m_src (snd nm) = [] \/ m_src (snd nm) = mputs (writes (fst nm) (m_cfg (snd nm)) t) [].
Record inv (g : bool) (w : world) : Prop := mkInv {
  i_names : NoDup (map fst (w_models w));
  i_src : Forall (srcOk (w_mt w)) (w_models w);
  i_none : g = false -> Forall (fun nm => m_src (snd nm) = []) (w_models w);
  i_lib : w_lib w = [] \/ w_lib w = mputs (libWrites (w_models w) (w_mt w)) [];
  i_lnone : g = false -> w_lib w = [];
  i_cust : NoDup (map fst (w_custom w));
  i_of : w_ofiles w = []
}.

(** libWrites looks only at names and settings *)
Definition setOf (ms : smap mstate) : list (string * cfg) := map (fun nm => (fst nm, m_cfg (snd nm))) ms.
Lemma setOf_names ms : map fst (setOf ms) = map fst ms.
Proof. unfold setOf. rewrite map_map. reflexivity. Qed.
Lemma usingThreads_set ms : usingThreads ms = existsb (fun ns => jacMulti (snd ns) || hesMulti (snd ns)) (setOf ms).
Proof. unfold usingThreads, setOf. induction ms as [|a ms IH]; [reflexivity|]. cbn [existsb map snd]. rewrite IH. reflexivity. Qed.
Lemma libWrites_set ms ms' t : setOf ms = setOf ms' -> libWrites ms t = libWrites ms' t.
Proof. intros E. unfold libWrites. rewrite !usingThreads_set, <- (setOf_names ms), <- (setOf_names ms'), E. reflexivity. Qed.
Lemma setOf_generated t crash ms : setOf (map (generated t crash) ms) = setOf ms.
Proof. unfold setOf. rewrite map_map. apply map_ext. intros [n m]. unfold generated. cbn [fst snd]. rewrite getSources_cfg. reflexivity. Qed.
Lemma setOf_Forall2 t crash ms ms' : Forall2 (fun nm nm' => nm' = nm \/ nm' = generated t crash nm) ms ms' -> setOf ms' = setOf ms.
Proof.
  induction 1 as [|a b ms ms' H _ IH]; [reflexivity|]. unfold setOf in *. cbn [map]. rewrite IH. f_equal. destruct H as [->| ->]; [reflexivity|]. unfold generated. cbn [fst snd]. rewrite getSources_cfg. reflexivity.
Qed.

Lemma srcOk_generated t crash nm : (forall n, crash n = None) -> srcOk t nm -> m_src (snd (generated t crash nm)) = mputs (writes (fst nm) (m_cfg (snd nm)) t) [].
Proof.
  intros NC H. unfold generated, getSources. cbn [fst snd]. rewrite NC. unfold srcOk in H. destruct (m_src (snd nm)) as [|a r] eqn:E; [reflexivity|]. destruct H as [H|H]; [discriminate|]. cbn [fst]. rewrite E. exact H.
Qed.

(** ** One creation *)
Definition libAfter (w : world) (ms : smap mstate) : smap content := match w_lib w with [] => mputs (libWrites ms (w_mt w)) [] | _ :: _ => w_lib w end.
Definition allOf (crash : string -> option nat) (w : world) : smap content :=
  let ms := map (generated (w_mt w) crash) (w_models w) in (sourcesOf ms ++ libAfter w ms ++ w_custom w)%list.

Lemma getLibrary_lib ms w fs os : w_lib (getLibrarySources (mkW ms (w_custom w) (w_lib w) (w_mt w) fs os)) = libAfter w ms.
Proof. unfold getLibrarySources, libAfter. cbn [w_lib]. destruct (w_lib w); reflexivity. Qed.

Lemma create_some tmp crash ext w w' lib : w_ofiles w = [] -> create tmp crash ext w = (w', Some lib) ->
  objects (sadds (map fst (objs tmp (allOf crash w))) []) (mputs (objs tmp (allOf crash w)) (w_files w)) = Some lib /\ nodup (flat_map defs lib) = true.
Proof.
  intros O. unfold create. rewrite O. destruct (compileModels tmp (w_mt w) crash (w_models w) ext (w_files w) []) as [[[[ms fs1] os1] ext1] ok1] eqn:C1. destruct ok1; [|discriminate].
  apply compileModels_ok in C1. destruct C1 as [Hms [Hfs1 Hos1]]. cbn [negb]. rewrite getLibrary_lib.
  destruct (compile tmp (libAfter w ms) ext1 fs1 os1) as [[[fs2 os2] ext2] ok2] eqn:C2. destruct ok2; [|discriminate]. apply compile_ok in C2. destruct C2 as [Hfs2 Hos2]. cbn [negb].
  destruct (compile tmp (w_custom w) ext2 fs2 os2) as [[[fs3 os3] ext3] ok3] eqn:C3. destruct ok3; [|discriminate]. apply compile_ok in C3. destruct C3 as [Hfs3 Hos3]. cbn [negb].
  assert (L : objs tmp (allOf crash w) = (objs tmp (sourcesOf ms) ++ objs tmp (libAfter w ms) ++ objs tmp (w_custom w))%list) by (unfold allOf; cbn zeta; rewrite <- Hms, !objs_app; reflexivity).
  rewrite L. rewrite !map_app, !sadds_app, !mputs_app. rewrite <- Hos1, <- Hfs1, <- Hos2, <- Hfs2, <- Hos3, <- Hfs3.
  intros E. assert (K : linked os3 fs3 = Some lib) by (destruct ext3 as [|[|x] ext3]; injection E as _ E; try discriminate; exact E).
  unfold linked in K. destruct (objects os3 fs3) as [cs|]; [|discriminate]. destruct (nodup (flat_map defs cs)) eqn:N; [|discriminate]. injection K as <-. split; [reflexivity|exact N].
Qed.

Lemma create_good tmp crash ext w : (forall n, crash n = None) -> w_ofiles w = [] -> Forall (eq CallOk) ext ->
  exists w', create tmp crash ext w = (w', linked (sadds (map fst (objs tmp (allOf crash w))) []) (mputs (objs tmp (allOf crash w)) (w_files w))).
Proof.
  intros NC O F. unfold create. rewrite O. destruct (compileModels_good tmp (w_mt w) crash NC (w_models w) ext (w_files w) [] F) as [ms [fs1 [os1 [ext1 [C1 F1]]]]]. rewrite C1.
  apply compileModels_ok in C1. destruct C1 as [Hms [Hfs1 Hos1]]. cbn [negb]. rewrite getLibrary_lib.
  destruct (compile_good tmp (libAfter w ms) ext1 fs1 os1 F1) as [fs2 [os2 [ext2 [C2 F2]]]]. rewrite C2. apply compile_ok in C2. destruct C2 as [Hfs2 Hos2]. cbn [negb].
  destruct (compile_good tmp (w_custom w) ext2 fs2 os2 F2) as [fs3 [os3 [ext3 [C3 F3]]]]. rewrite C3. apply compile_ok in C3. destruct C3 as [Hfs3 Hos3]. cbn [negb].
  assert (L : objs tmp (allOf crash w) = (objs tmp (sourcesOf ms) ++ objs tmp (libAfter w ms) ++ objs tmp (w_custom w))%list) by (unfold allOf; cbn zeta; rewrite <- Hms, !objs_app; reflexivity).
  rewrite L. rewrite !map_app, !sadds_app, !mputs_app. rewrite <- Hos1, <- Hfs1, <- Hos2, <- Hfs2, <- Hos3, <- Hfs3.
  destruct F3 as [|x ext3 <- F3]; eexists; reflexivity.
Qed.

(** ** Files *)
Lemma create_files tmp crash ext w w' r : w_ofiles w = [] -> create tmp crash ext w = (w', r) ->
  w_ofiles w' = [] /\ (forall k, mget k (w_files w') = mget k (w_files w) \/ (mget k (w_files w') = None /\ exists n, k = objFile tmp n)).
Proof.
  intros O. unfold create. rewrite O.
  assert (Cl : forall os fs, untouched os (w_files w) fs -> (forall k, In k os -> In k [] \/ exists n, k = objFile tmp n) ->
    forall k, mget k (cleanFiles os fs) = mget k (w_files w) \/ (mget k (cleanFiles os fs) = None /\ exists n, k = objFile tmp n)).
  { intros os fs U I k. rewrite cleanFiles_get. destruct (existsb (String.eqb k) os) eqn:E.
    - right. split; [reflexivity|]. apply existsb_eqb in E. destruct (I k E) as [[]|H]; exact H.
    - left. apply U. intros H. apply existsb_eqb in H. congruence. }
  destruct (compileModels tmp (w_mt w) crash (w_models w) ext (w_files w) []) as [[[[ms fs1] os1] ext1] ok1] eqn:C1. apply compileModels_untouched in C1. destruct C1 as [U1 [I1 J1]].
  destruct ok1; cbn [negb]; [|intros E; injection E as <- <-; split; [reflexivity|apply Cl; assumption]]. rewrite getLibrary_lib.
  destruct (compile tmp (libAfter w ms) ext1 fs1 os1) as [[[fs2 os2] ext2] ok2] eqn:C2. apply compile_untouched in C2. destruct C2 as [U2 [I2 J2]].
  assert (U2' : untouched os2 (w_files w) fs2) by (intros k Hk; rewrite (U2 k Hk); apply U1; intros H; apply Hk, I2, H).
  assert (J2' : forall k, In k os2 -> In k [] \/ exists n, k = objFile tmp n) by (intros k Hk; destruct (J2 k Hk) as [H|H]; [apply J1, H|right; exact H]).
  destruct ok2; cbn [negb]; [|intros E; injection E as <- <-; split; [reflexivity|apply Cl; assumption]].
  destruct (compile tmp (w_custom w) ext2 fs2 os2) as [[[fs3 os3] ext3] ok3] eqn:C3. apply compile_untouched in C3. destruct C3 as [U3 [I3 J3]].
  assert (U3' : untouched os3 (w_files w) fs3) by (intros k Hk; rewrite (U3 k Hk); apply U2'; intros H; apply Hk, I3, H).
  assert (J3' : forall k, In k os3 -> In k [] \/ exists n, k = objFile tmp n) by (intros k Hk; destruct (J3 k Hk) as [H|H]; [apply J2', H|right; exact H]).
  destruct ok3; cbn [negb]; [destruct ext3 as [|[|x] ext3]|]; intros E; injection E as <- <-; split; try reflexivity; apply Cl; assumption.
Qed.
Lemma step_files o w : w_ofiles w = [] -> w_ofiles (fst (step o w)) = [] /\
  (forall k, mget k (w_files (fst (step o w))) = mget k (w_files w) \/ (mget k (w_files (fst (step o w))) = None /\ exists tmp n, In tmp (folders [o]) /\ k = objFile tmp n)).
Proof.
  intros O. destruct o as [n s|n s|n d u|t|n t|tmp crash ext]; cbn [step].
  - destruct (mget n (w_models w)); cbn [fst w_ofiles w_files]; (split; [exact O|intros k; left; reflexivity]).
  - destruct (mhas n (w_models w) || negb (validName n)); cbn [fst w_ofiles w_files]; (split; [exact O|intros k; left; reflexivity]).
  - destruct (String.eqb n ""); cbn [fst w_ofiles w_files]; (split; [exact O|intros k; left; reflexivity]).
  - cbn [fst w_ofiles w_files]; (split; [exact O|intros k; left; reflexivity]).
  - destruct (mget n (w_models w)); cbn [fst w_ofiles w_files]; (split; [exact O|intros k; left; reflexivity]).
  - destruct (create tmp crash ext w) as [w' r] eqn:C. apply create_files in C; [|exact O]. destruct C as [O' F]. cbn [fst]. split; [exact O'|]. intros k. destruct (F k) as [H|[H [n Hn]]]; [left; exact H|].
    right. split; [exact H|]. exists tmp, n. split; [left; reflexivity|exact Hn].
Qed.

(** ** What is kept by each operation *)
Lemma create_world tmp crash ext w w' r : create tmp crash ext w = (w', r) ->
  Forall2 (fun nm nm' => nm' = nm \/ nm' = generated (w_mt w) crash nm) (w_models w) (w_models w') /\
  w_custom w' = w_custom w /\ w_mt w' = w_mt w /\ (w_lib w' = w_lib w \/ w_lib w' = libAfter w (map (generated (w_mt w) crash) (w_models w))).
Proof.
  unfold create. destruct (compileModels tmp (w_mt w) crash (w_models w) ext (w_files w) (w_ofiles w)) as [[[[ms fs1] os1] ext1] ok1] eqn:C1.
  pose proof (compileModels_models _ _ _ _ _ _ _ _ _ _ _ _ C1) as F. destruct ok1; cbn [negb]; [|intros E; injection E as <- <-; cbn; auto].
  apply compileModels_ok in C1. destruct C1 as [Hms _]. rewrite getLibrary_lib, Hms in *.
  destruct (compile tmp (libAfter w _) ext1 fs1 os1) as [[[fs2 os2] ext2] ok2]. destruct ok2; cbn [negb]; [|intros E; injection E as <- <-; cbn; auto].
  destruct (compile tmp (w_custom w) ext2 fs2 os2) as [[[fs3 os3] ext3] ok3]. destruct ok3; cbn [negb]; [destruct ext3 as [|[|x] ext3]|]; intros E; injection E as <- <-; cbn; auto.
Qed.

Lemma Forall2_names t crash ms ms' : Forall2 (fun nm nm' => nm' = nm \/ nm' = generated t crash nm) ms ms' -> map fst ms' = map fst ms.
Proof. intros F. rewrite <- (setOf_names ms'), <- (setOf_names ms), (setOf_Forall2 t crash ms ms' F). reflexivity. Qed.

Lemma mput_Forall {A} (P : string * A -> Prop) k v l : Forall P l -> P (k, v) -> Forall P (mput k v l).
Proof.
  intros F H. unfold mput. destruct (mhas k l).
  - clear - F H. induction F as [|[a b] l Ha F IH]; cbn [mreplace]; [constructor|]. destruct (String.eqb k a); constructor; assumption.
  - eapply Permutation_Forall; [symmetry; apply minsert_perm|]. constructor; assumption.
Qed.
Lemma setOf_mput_same k m m' ms : mget k ms = Some m -> m_cfg m' = m_cfg m -> NoDup (map fst ms) -> setOf (mput k m' ms) = setOf ms.
Proof.
  intros E C N. unfold mput. assert (H : mhas k ms = true) by (unfold mhas; rewrite E; reflexivity). rewrite H. clear H. revert E. induction ms as [|[a b] ms IH]; intros E; [discriminate|].
  cbn [mget mreplace] in *. destruct (String.eqb k a) eqn:X.
  - apply String.eqb_eq in X. subst a. injection E as ->. cbn [setOf map fst snd]. rewrite C. reflexivity.
  - inversion N. subst. unfold setOf in *. cbn [map fst snd]. rewrite IH by assumption. reflexivity.
Qed.

Lemma mget_Forall {A} (P : string * A -> Prop) k v l : mget k l = Some v -> Forall P l -> P (k, v).
Proof. intros E F. rewrite Forall_forall in F. apply F, mget_In, E. Qed.

Lemma step_inv g o w : inv g w -> match o with OpSet _ _ | OpThreads _ => g = false | OpSources _ t => t = w_mt w | OpCreate _ crash _ => forall n, crash n = None | _ => True end ->
  inv (match o with OpSources _ _ | OpCreate _ _ _ => true | _ => g end) (fst (step o w)) /\ w_mt (fst (step o w)) = match o with OpThreads t => t | _ => w_mt w end.
Proof.
  intros [I1 I2 I3 I4 I5 I6 I7] H. destruct o as [n s|n s|n d u|t|n t|tmp crash ext]; cbn [step].
  - subst g. destruct (mget n (w_models w)) as [m|] eqn:E; cbn [fst]; [|split; [constructor; assumption|reflexivity]]. split; [|reflexivity]. specialize (I3 eq_refl). specialize (I5 eq_refl).
    assert (M : m_src m = []) by (apply (mget_Forall (fun nm => m_src (snd nm) = []) n m (w_models w) E I3)). constructor; cbn [w_models w_mt w_lib w_custom w_ofiles].
    + apply mput_NoDup, I1.
    + apply mput_Forall; [exact I2|left; exact M].
    + intros _. apply mput_Forall; [exact I3|exact M].
    + left. exact I5.
    + intros _. exact I5.
    + exact I6.
    + exact I7.
  - destruct (mhas n (w_models w) || negb (validName n)); cbn [fst]; [split; [constructor; assumption|reflexivity]|]. split; [|reflexivity]. constructor; cbn [w_models w_mt w_lib w_custom w_ofiles].
    + apply mput_NoDup, I1.
    + apply mput_Forall; [exact I2|left; reflexivity].
    + intros G. apply mput_Forall; [exact (I3 G)|reflexivity].
    + left. reflexivity.
    + reflexivity.
    + exact I6.
    + exact I7.
  - destruct (String.eqb n ""); cbn [fst]; [split; [constructor; assumption|reflexivity]|]. split; [|reflexivity]. constructor; cbn [w_models w_mt w_lib w_custom w_ofiles]; try assumption. apply mput_NoDup, I6.
  - subst g. cbn [fst]. split; [|reflexivity]. specialize (I3 eq_refl). specialize (I5 eq_refl). constructor; cbn [w_models w_mt w_lib w_custom w_ofiles]; try assumption; try (intros _; assumption).
    + eapply Forall_impl; [|exact I3]. intros a Ha. left. exact Ha.
    + left. exact I5.
  - subst t. destruct (mget n (w_models w)) as [m|] eqn:E; cbn [fst].
    + assert (S : srcOk (w_mt w) (n, m)) by (apply (mget_Forall _ n m (w_models w) E I2)). split; [|reflexivity]. constructor; cbn [w_models w_mt w_lib w_custom w_ofiles].
      * apply mput_NoDup, I1.
      * apply mput_Forall; [exact I2|]. right. cbn [fst snd]. rewrite getSources_cfg. exact (srcOk_generated (w_mt w) (fun _ => None) (n, m) (fun _ => eq_refl) S).
      * discriminate.
      * destruct I4 as [I4|I4]; [left; exact I4|right]. rewrite I4. f_equal. apply libWrites_set. symmetry. apply (setOf_mput_same n m); [exact E|apply getSources_cfg|exact I1].
      * discriminate.
      * exact I6.
      * exact I7.
    + split; [|reflexivity]. constructor; try assumption; discriminate.
  - destruct (create tmp crash ext w) as [w' r] eqn:C. cbn [fst]. pose proof (create_files tmp crash ext w w' r I7 C) as [O' _]. apply create_world in C. destruct C as [F [Ec [Et El]]]. split; [|exact Et].
    assert (SO : setOf (w_models w') = setOf (w_models w)) by (apply (setOf_Forall2 _ _ _ _ F)).
    constructor.
    + rewrite (Forall2_names _ _ _ _ F). exact I1.
    + rewrite Et. clear - F I2 H. induction F as [|a b ms ms' Hab F IH]; [constructor|]. inversion I2 as [|? ? A1 A2]. subst. constructor; [|apply IH, A2].
      destruct Hab as [->| ->]; [exact A1|]. right. rewrite (srcOk_generated _ _ _ H A1). unfold generated. cbn [fst snd]. rewrite getSources_cfg. reflexivity.
    + discriminate.
    + rewrite Et. assert (X : libWrites (w_models w') (w_mt w) = libWrites (w_models w) (w_mt w)) by (apply libWrites_set; exact SO). rewrite X.
      destruct El as [->| ->]; [exact I4|]. right. unfold libAfter. destruct I4 as [I4|I4].
      * rewrite I4. f_equal. apply libWrites_set. apply setOf_generated.
      * rewrite I4. destruct (mputs (libWrites (w_models w) (w_mt w)) []) eqn:Z; [|reflexivity]. exfalso. revert Z. apply mputs_nonempty. discriminate.
    + discriminate.
    + rewrite Ec. exact I6.
    + exact O'.
Qed.

Lemma run_inv : forall ops g w, inv g w -> orderly g (w_mt w) ops -> exists g', inv g' (run ops w).
Proof.
  induction ops as [|o ops IH]; intros g w I H; [exists g; exact I|]. cbn [run].
  assert (K : match o with OpSet _ _ | OpThreads _ => g = false | OpSources _ t => t = w_mt w | OpCreate _ crash _ => forall n, crash n = None | _ => True end) by (destruct o; cbn [orderly] in H; try exact Logic.I; apply H).
  destruct (step_inv g o w I K) as [I' T]. eapply IH; [exact I'|]. rewrite T. destruct o; cbn [orderly] in H; try apply H.
Qed.
Lemma newWorld_inv fs : inv false (newWorld fs).
Proof. constructor; cbn; try constructor; auto. Qed.

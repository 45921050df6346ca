(** * Lemmas on maps of files and on sources *)
From Coq Require Import List Bool Arith String Ascii Permutation Lia.
From Verif Require Import Names_model Names_thm LibGen_model LibGen_spec LibGen_proofs.
Import ListNotations.
Local Open Scope string_scope.
Local Open Scope nat_scope.

Lemma Permutation_in_iff {B} (a b : list B) x : Permutation a b -> (In x a <-> In x b).
Proof. intros P. split; apply Permutation_in; [exact P|symmetry; exact P]. Qed.

Section Maps.
Context {A : Type}.
Implicit Types (l ws : smap A) (v : A).

Lemma mget_mreplace k v : forall l k', mhas k l = true -> mget k' (mreplace k v l) = if String.eqb k' k then Some v else mget k' l.
Proof.
  unfold mhas. induction l as [|[a b] l IH]; intros k' H; [discriminate|]. cbn [mget mreplace] in *. destruct (String.eqb k a) eqn:E.
  - apply String.eqb_eq in E. subst a. cbn [mget]. destruct (String.eqb k' k); reflexivity.
  - cbn [mget]. rewrite IH by exact H. destruct (String.eqb k' a) eqn:E2; [|reflexivity]. apply String.eqb_eq in E2. subst a. rewrite String.eqb_sym, E. reflexivity.
Qed.
Lemma mget_minsert k v : forall l k', mhas k l = false -> mget k' (minsert k v l) = if String.eqb k' k then Some v else mget k' l.
Proof.
  unfold mhas. induction l as [|[a b] l IH]; intros k' H; [reflexivity|]. cbn [mget minsert] in *. destruct (String.eqb k a) eqn:E; [discriminate|].
  destruct (String.ltb k a); cbn [mget]; [reflexivity|]. rewrite IH by exact H. destruct (String.eqb k' a) eqn:E2; [|reflexivity].
  apply String.eqb_eq in E2. subst a. rewrite String.eqb_sym, E. reflexivity.
Qed.
Lemma mget_mput k v l k' : mget k' (mput k v l) = if String.eqb k' k then Some v else mget k' l.
Proof. unfold mput. destruct (mhas k l) eqn:E; [apply mget_mreplace|apply mget_minsert]; exact E. Qed.

Lemma mhas_In k l : mhas k l = true <-> In k (map fst l).
Proof.
  unfold mhas. induction l as [|[a b] l IH]; cbn [mget map fst In]; [split; [discriminate|tauto]|]. destruct (String.eqb k a) eqn:E.
  - apply String.eqb_eq in E. subst a. tauto.
  - rewrite IH. apply String.eqb_neq in E. split; [tauto|]. intros [->|H]; [tauto|exact H].
Qed.
Lemma mget_In k v l : mget k l = Some v -> In (k, v) l.
Proof.
  induction l as [|[a b] l IH]; cbn [mget]; [discriminate|]. destruct (String.eqb k a) eqn:E; [|intros H; right; apply IH, H].
  apply String.eqb_eq in E. subst a. intros [= ->]. left. reflexivity.
Qed.
Lemma In_mget k v l : NoDup (map fst l) -> In (k, v) l -> mget k l = Some v.
Proof.
  induction l as [|[a b] l IH]; cbn [map fst]; intros N; [intros []|]. intros [H|H].
  - injection H as -> ->. cbn [mget]. rewrite String.eqb_refl. reflexivity.
  - inversion N as [|? ? N1 N2]. subst. cbn [mget]. destruct (String.eqb k a) eqn:E; [|apply IH; assumption].
    apply String.eqb_eq in E. subst a. exfalso. apply N1. apply (in_map fst) in H. exact H.
Qed.
Lemma mget_None k l : mget k l = None <-> ~ In k (map fst l).
Proof. rewrite <- mhas_In. unfold mhas. destruct (mget k l); split; intros H; [discriminate|exfalso; apply H; reflexivity|discriminate|reflexivity]. Qed.

Lemma minsert_perm k v l : Permutation (minsert k v l) ((k, v) :: l).
Proof.
  induction l as [|[a b] l IH]; [reflexivity|]. cbn [minsert]. destruct (String.ltb k a); [reflexivity|]. rewrite IH. apply perm_swap.
Qed.
Lemma mput_perm k v l : mhas k l = false -> Permutation (mput k v l) ((k, v) :: l).
Proof. intros H. unfold mput. rewrite H. apply minsert_perm. Qed.
Lemma mreplace_keys k v l : map fst (mreplace k v l) = map fst l.
Proof.
  induction l as [|[a b] l IH]; [reflexivity|]. cbn [mreplace]. destruct (String.eqb k a) eqn:E; cbn [map fst]; [apply String.eqb_eq in E; congruence|rewrite IH; reflexivity].
Qed.
Lemma mput_NoDup k v l : NoDup (map fst l) -> NoDup (map fst (mput k v l)).
Proof.
  intros N. destruct (mhas k l) eqn:E.
  - unfold mput. rewrite E, mreplace_keys. exact N.
  - eapply Permutation_NoDup; [apply Permutation_map; symmetry; apply mput_perm; exact E|]. cbn [map fst]. constructor; [|exact N].
    rewrite <- mhas_In, E. discriminate.
Qed.
Lemma mput_keys k v l x : In x (map fst (mput k v l)) <-> x = k \/ In x (map fst l).
Proof.
  destruct (mhas k l) eqn:E.
  - unfold mput. rewrite E, mreplace_keys. apply mhas_In in E. split; [tauto|]. intros [->|H]; assumption.
  - rewrite (Permutation_in_iff _ _ x (Permutation_map fst (mput_perm k v l E))). cbn [map fst In]. intuition congruence.
Qed.

Lemma mputs_get : forall ws l k, mget k (mputs ws l) = match mget k (rev ws) with Some v => Some v | None => mget k l end.
Proof.
  assert (X : forall (a b : smap A) k, mget k (a ++ b)%list = match mget k a with Some v => Some v | None => mget k b end).
  { induction a as [|[x y] a IH]; intros b k; [reflexivity|]. cbn [app mget]. destruct (String.eqb k x); [reflexivity|apply IH]. }
  induction ws as [|[a v] ws IH]; intros l k; [reflexivity|]. cbn [mputs rev]. rewrite IH, X. destruct (mget k (rev ws)); [reflexivity|].
  rewrite mget_mput. cbn [mget]. destruct (String.eqb k a); reflexivity.
Qed.
Lemma mputs_keys : forall ws l x, In x (map fst (mputs ws l)) <-> In x (map fst ws) \/ In x (map fst l).
Proof.
  induction ws as [|[a v] ws IH]; intros l x; cbn [mputs map fst In]; [tauto|]. rewrite IH, mput_keys. intuition congruence.
Qed.
Lemma mputs_NoDup : forall ws l, NoDup (map fst l) -> NoDup (map fst (mputs ws l)).
Proof. induction ws as [|[a v] ws IH]; intros l N; [exact N|]. cbn [mputs]. apply IH, mput_NoDup, N. Qed.
Lemma mputs_perm : forall ws l, NoDup (map fst (ws ++ l)) -> Permutation (mputs ws l) (ws ++ l).
Proof.
  induction ws as [|[a v] ws IH]; intros l N; [reflexivity|]. cbn [mputs app map fst] in *. inversion N as [|? ? N1 N2]. subst.
  assert (E : mhas a l = false). { destruct (mhas a l) eqn:E; [|reflexivity]. apply mhas_In in E. exfalso. apply N1. rewrite map_app. apply in_or_app. right. exact E. }
  rewrite IH.
  - rewrite (mput_perm a v l E). symmetry. apply Permutation_middle.
  - eapply Permutation_NoDup; [|exact N]. rewrite !map_app. rewrite (Permutation_map fst (mput_perm a v l E)). cbn [map fst]. rewrite <- Permutation_middle. reflexivity.
Qed.
Lemma mputs_app : forall ws ws' l, mputs (ws ++ ws')%list l = mputs ws' (mputs ws l).
Proof. induction ws as [|[a v] ws IH]; intros ws' l; [reflexivity|]. cbn [app mputs]. apply IH. Qed.

Lemma mremove_get k l k' : mget k' (mremove k l) = if String.eqb k' k then None else mget k' l.
Proof.
  induction l as [|[a b] l IH]; cbn [mremove mget]; [destruct (String.eqb k' k); reflexivity|]. destruct (String.eqb k a) eqn:E.
  - apply String.eqb_eq in E. subst a. rewrite IH. destruct (String.eqb k' k); reflexivity.
  - cbn [mget]. rewrite IH. destruct (String.eqb k' a) eqn:E2; [|reflexivity]. apply String.eqb_eq in E2. subst a. rewrite String.eqb_sym, E. reflexivity.
Qed.
End Maps.

Lemma cleanFiles_get : forall os fs k, mget k (cleanFiles os fs) = if existsb (String.eqb k) os then None else mget k fs.
Proof.
  unfold cleanFiles. induction os as [|o os IH]; intros fs k; [reflexivity|]. cbn [fold_left existsb]. rewrite IH, mremove_get.
  destruct (String.eqb k o); [destruct (existsb _ os); reflexivity|reflexivity].
Qed.
Lemma existsb_eqb k l : existsb (String.eqb k) l = true <-> In k l.
Proof. rewrite existsb_exists. split; [intros [x [H E]]; apply String.eqb_eq in E; subst; exact H|intros H; exists k; split; [exact H|apply String.eqb_refl]]. Qed.

Lemma sinsert_perm x l : Permutation (sinsert x l) (x :: l).
Proof. induction l as [|a l IH]; [reflexivity|]. cbn [sinsert]. destruct (String.ltb x a); [reflexivity|]. rewrite IH. apply perm_swap. Qed.
Lemma sadd_In x l y : In y (sadd x l) <-> y = x \/ In y l.
Proof.
  unfold sadd. destruct (existsb (String.eqb x) l) eqn:E.
  - apply existsb_eqb in E. split; [tauto|]. intros [->|H]; assumption.
  - rewrite (Permutation_in_iff _ _ y (sinsert_perm x l)). cbn [In]. intuition congruence.
Qed.
Lemma sadd_NoDup x l : NoDup l -> NoDup (sadd x l).
Proof.
  intros N. unfold sadd. destruct (existsb (String.eqb x) l) eqn:E; [exact N|]. eapply Permutation_NoDup; [symmetry; apply sinsert_perm|]. constructor; [|exact N].
  rewrite <- existsb_eqb, E. discriminate.
Qed.
Lemma sadd_perm x l : ~ In x l -> Permutation (sadd x l) (x :: l).
Proof. intros H. unfold sadd. destruct (existsb (String.eqb x) l) eqn:E; [exfalso; apply H, existsb_eqb, E|apply sinsert_perm]. Qed.
Fixpoint sadds (xs l : list string) : list string := match xs with [] => l | x :: r => sadds r (sadd x l) end.
Lemma sadds_In : forall xs l y, In y (sadds xs l) <-> In y xs \/ In y l.
Proof. induction xs as [|x xs IH]; intros l y; cbn [sadds In]; [tauto|]. rewrite IH, sadd_In. intuition congruence. Qed.
Lemma sadds_NoDup : forall xs l, NoDup l -> NoDup (sadds xs l).
Proof. induction xs as [|x xs IH]; intros l N; [exact N|]. apply IH, sadd_NoDup, N. Qed.
Lemma sadds_perm : forall xs l, NoDup (xs ++ l) -> Permutation (sadds xs l) (xs ++ l).
Proof.
  induction xs as [|x xs IH]; intros l N; [reflexivity|]. cbn [sadds app] in *. inversion N as [|? ? N1 N2]. subst.
  assert (E : ~ In x l) by (intros H; apply N1, in_or_app; right; exact H).
  rewrite IH; [rewrite (sadd_perm x l E); symmetry; apply Permutation_middle|].
  eapply Permutation_NoDup; [|exact N]. rewrite (sadd_perm x l E). apply Permutation_middle.
Qed.
Lemma sadds_app : forall a b l, sadds (a ++ b) l = sadds b (sadds a l).
Proof. induction a as [|x a IH]; intros b l; [reflexivity|]. cbn [app sadds]. apply IH. Qed.

(** ** The compiler *)
Definition objs (tmp : string) (src : smap content) : smap content := map (fun nc => (objFile tmp (fst nc), snd nc)) src.
Lemma objs_app tmp a b : objs tmp (a ++ b)%list = (objs tmp a ++ objs tmp b)%list.
Proof. apply map_app. Qed.
Lemma objFile_inj tmp a b : objFile tmp a = objFile tmp b -> a = b.
Proof.
  unfold objFile. intros E. apply app_head in E. cbn in E. injection E as E.
  assert (X : forall s, s ++ ".o" = (s ++ ".") ++ "o") by (intros s; rewrite app_assoc_s; reflexivity). rewrite !X in E. apply app_end in E. apply app_end in E. exact E.
Qed.

Lemma compile_ok tmp : forall src ext fs os fs' os' ext', compile tmp src ext fs os = (fs', os', ext', true) ->
  fs' = mputs (objs tmp src) fs /\ os' = sadds (map fst (objs tmp src)) os.
Proof.
  induction src as [|[n c] src IH]; intros ext fs os fs' os' ext' E; cbn [compile objs map fst snd mputs sadds] in *; [injection E as <- <- <-; split; reflexivity|].
  destruct ext as [|[|x] ext]; [apply IH in E; exact E|apply IH in E; exact E|discriminate].
Qed.

(** Whatever happens, the files which are not in _ofiles are the same as before. *)
Definition untouched (os : list string) (fs fs' : smap content) : Prop := forall k, ~ In k os -> mget k fs' = mget k fs.
Lemma compile_untouched tmp : forall src ext fs os fs' os' ext' b, compile tmp src ext fs os = (fs', os', ext', b) ->
  untouched os' fs fs' /\ (forall k, In k os -> In k os') /\ (forall k, In k os' -> In k os \/ exists n, k = objFile tmp n).
Proof.
  induction src as [|[n c] src IH]; intros ext fs os fs' os' ext' b E; cbn [compile] in E.
  - injection E as <- <- <- <-. split; [intros k _; reflexivity|]. split; tauto.
  - assert (Put : forall ext2 fs2, (forall k, k <> objFile tmp n -> mget k fs2 = mget k fs) -> compile tmp src ext2 fs2 (sadd (objFile tmp n) os) = (fs', os', ext', b) ->
      untouched os' fs fs' /\ (forall k, In k os -> In k os') /\ (forall k, In k os' -> In k os \/ exists n, k = objFile tmp n)).
    { intros ext2 fs2 H E2. apply IH in E2. destruct E2 as [U [I1 I2]]. split; [|split].
      - intros k Hk. rewrite (U k Hk). apply H. intros ->. apply Hk, I1, sadd_In. left. reflexivity.
      - intros k Hk. apply I1, sadd_In. right. exact Hk.
      - intros k Hk. destruct (I2 k Hk) as [H2|H2]; [|right; exact H2]. apply sadd_In in H2. destruct H2 as [->|H2]; [right; exists n; reflexivity|left; exact H2]. }
    assert (P : forall k, k <> objFile tmp n -> mget k (mput (objFile tmp n) c fs) = mget k fs).
    { intros k Hk. rewrite mget_mput. apply String.eqb_neq in Hk. rewrite Hk. reflexivity. }
    destruct ext as [|[|x] ext]; [exact (Put _ _ P E)|exact (Put _ _ P E)|]. injection E as <- <- <- <-. split; [|split].
    + intros k Hk. rewrite sadd_In in Hk. assert (Hk2 : String.eqb k (objFile tmp n) = false) by (apply String.eqb_neq; tauto).
      destruct x as [y|]; cbn [leave]; [rewrite mget_mput|rewrite mremove_get]; rewrite Hk2; reflexivity.
    + intros k Hk. apply sadd_In. right. exact Hk.
    + intros k Hk. apply sadd_In in Hk. destruct Hk as [->|Hk]; [right; exists n; reflexivity|left; exact Hk].
Qed.
Lemma compile_good tmp : forall src ext fs os, Forall (eq CallOk) ext -> exists fs' os' ext', compile tmp src ext fs os = (fs', os', ext', true) /\ Forall (eq CallOk) ext'.
Proof.
  induction src as [|[n c] src IH]; intros ext fs os F; cbn [compile]; [do 3 eexists; split; [reflexivity|exact F]|].
  destruct F as [|x ext Hx F]; [apply IH; constructor|]. subst x. apply IH, F.
Qed.

(** ** The models *)
Definition generated (t : mt) (crash : string -> option nat) (nm : string * mstate) : string * mstate := (fst nm, fst (getSources (fst nm) t (crash (fst nm)) (snd nm))).
Definition sourcesOf (ms : smap mstate) : smap content := flat_map (fun nm => m_src (snd nm)) ms.
Lemma getSources_cfg n t crash m : m_cfg (fst (getSources n t crash m)) = m_cfg m.
Proof. unfold getSources. destruct (m_src m); [destruct crash|]; reflexivity. Qed.

Lemma compileModels_ok tmp t crash : forall ms ext fs os ms' fs' os' ext', compileModels tmp t crash ms ext fs os = (ms', fs', os', ext', true) ->
  ms' = map (generated t crash) ms /\ fs' = mputs (objs tmp (sourcesOf ms')) fs /\ os' = sadds (map fst (objs tmp (sourcesOf ms'))) os.
Proof.
  induction ms as [|[n m] ms IH]; intros ext fs os ms' fs' os' ext' E; cbn [compileModels] in E; [injection E as <- <- <- <-; repeat split|].
  destruct (getSources n t (crash n) m) as [m1 ok] eqn:G. destruct ok; [|discriminate]. destruct (compile tmp (m_src m1) ext fs os) as [[[fs1 os1] ext1] ok1] eqn:C. destruct ok1; [|discriminate].
  destruct (compileModels tmp t crash ms ext1 fs1 os1) as [[[[r' fs2] os2] ext2] ok2] eqn:R. injection E as <- <- <- <- ->. apply IH in R. destruct R as [-> [-> ->]].
  apply compile_ok in C. destruct C as [-> ->]. split; [cbn [map]; f_equal; unfold generated; cbn [fst snd]; rewrite G; reflexivity|].
  change (sourcesOf ((n, m1) :: map (generated t crash) ms)) with (m_src m1 ++ sourcesOf (map (generated t crash) ms))%list. rewrite objs_app, map_app, mputs_app, sadds_app. split; reflexivity.
Qed.
Lemma compileModels_untouched tmp t crash : forall ms ext fs os ms' fs' os' ext' b, compileModels tmp t crash ms ext fs os = (ms', fs', os', ext', b) ->
  untouched os' fs fs' /\ (forall k, In k os -> In k os') /\ (forall k, In k os' -> In k os \/ exists n, k = objFile tmp n).
Proof.
  induction ms as [|[n m] ms IH]; intros ext fs os ms' fs' os' ext' b E; cbn [compileModels] in E; [injection E as <- <- <- <- <-; split; [intros k _; reflexivity|split; tauto]|].
  destruct (getSources n t (crash n) m) as [m1 ok] eqn:G. destruct ok; [|injection E as <- <- <- <- <-; split; [intros k _; reflexivity|split; tauto]].
  destruct (compile tmp (m_src m1) ext fs os) as [[[fs1 os1] ext1] ok1] eqn:C. apply compile_untouched in C. destruct C as [U1 [I1 I2]].
  destruct ok1; [|injection E as <- <- <- <- <-; split; [exact U1|split; assumption]].
  destruct (compileModels tmp t crash ms ext1 fs1 os1) as [[[[r' fs2] os2] ext2] ok2] eqn:R. injection E as <- <- <- <- <-. apply IH in R. destruct R as [U2 [J1 J2]]. split; [|split].
  - intros k Hk. rewrite (U2 k Hk). apply U1. intros H. apply Hk, J1, H.
  - intros k Hk. apply J1, I1, Hk.
  - intros k Hk. destruct (J2 k Hk) as [H|H]; [apply I2, H|right; exact H].
Qed.
(** The models afterwards: the settings and names are the same; each has its sources generated or is as before. *)
Lemma compileModels_models tmp t crash : forall ms ext fs os ms' fs' os' ext' b, compileModels tmp t crash ms ext fs os = (ms', fs', os', ext', b) ->
  Forall2 (fun nm nm' => nm' = nm \/ nm' = generated t crash nm) ms ms'.
Proof.
  induction ms as [|[n m] ms IH]; intros ext fs os ms' fs' os' ext' b E; cbn [compileModels] in E; [injection E as <- <- <- <- <-; constructor|].
  assert (Id : Forall2 (fun nm nm' => nm' = nm \/ nm' = generated t crash nm) ms ms) by (clear; induction ms; constructor; [left; reflexivity|assumption]).
  assert (Gn : generated t crash (n, m) = (n, fst (getSources n t (crash n) m))) by reflexivity.
  destruct (getSources n t (crash n) m) as [m1 ok] eqn:G. cbn [fst] in Gn. destruct ok.
  - destruct (compile tmp (m_src m1) ext fs os) as [[[fs1 os1] ext1] ok1] eqn:C. destruct ok1.
    + destruct (compileModels tmp t crash ms ext1 fs1 os1) as [[[[r' fs2] os2] ext2] ok2] eqn:R. injection E as <- <- <- <- <-. apply IH in R. constructor; [right; symmetry; exact Gn|exact R].
    + injection E as <- <- <- <- <-. constructor; [right; symmetry; exact Gn|exact Id].
  - injection E as <- <- <- <- <-. constructor; [right; symmetry; exact Gn|exact Id].
Qed.
Lemma compileModels_good tmp t crash : (forall n, crash n = None) -> forall ms ext fs os, Forall (eq CallOk) ext ->
  exists ms' fs' os' ext', compileModels tmp t crash ms ext fs os = (ms', fs', os', ext', true) /\ Forall (eq CallOk) ext'.
Proof.
  intros NC. induction ms as [|[n m] ms IH]; intros ext fs os F; cbn [compileModels]; [do 4 eexists; split; [reflexivity|exact F]|].
  assert (G : exists m1, getSources n t (crash n) m = (m1, true)). { unfold getSources. rewrite NC. destruct (m_src m); eexists; reflexivity. }
  destruct G as [m1 G]. rewrite G. destruct (compile_good tmp (m_src m1) ext fs os F) as [fs1 [os1 [ext1 [C F1]]]]. rewrite C.
  destruct (IH ext1 fs1 os1 F1) as [ms' [fs' [os' [ext' [R F2]]]]]. rewrite R. do 4 eexists. split; [reflexivity|exact F2].
Qed.

(** ** Linking *)
Lemma objects_Forall2 : forall os fs cs, objects os fs = Some cs <-> Forall2 (fun o c => mget o fs = Some c) os cs.
Proof.
  induction os as [|o os IH]; intros fs cs; cbn [objects].
  - split; [intros [= <-]; constructor|intros H; inversion H; reflexivity].
  - split.
    + destruct (mget o fs) as [c|] eqn:E; [|discriminate]. destruct (objects os fs) as [cs'|] eqn:E2; [|discriminate]. intros [= <-]. constructor; [exact E|apply IH, E2].
    + intros H. inversion H as [|? c ? cs' H1 H2]. subst. rewrite H1. apply IH in H2. rewrite H2. reflexivity.
Qed.
(** The object files of a library depend only on its sources. *)
Lemma objects_fresh tmp L fs fs' : objects (sadds (map fst (objs tmp L)) []) (mputs (objs tmp L) fs) = objects (sadds (map fst (objs tmp L)) []) (mputs (objs tmp L) fs').
Proof.
  assert (X : forall os, (forall o, In o os -> In o (map fst (objs tmp L))) -> objects os (mputs (objs tmp L) fs) = objects os (mputs (objs tmp L) fs')).
  { induction os as [|o os IH]; intros H; [reflexivity|]. cbn [objects]. rewrite IH by (intros y Hy; apply H; right; exact Hy). rewrite !mputs_get.
    destruct (mget o (rev (objs tmp L))) eqn:E; [reflexivity|]. apply mget_None in E. exfalso. apply E. rewrite map_rev, <- in_rev. apply H. left. reflexivity. }
  apply X. intros o H. apply sadds_In in H. destruct H as [H|[]]. exact H.
Qed.
Lemma objects_some tmp L fs : exists cs, objects (sadds (map fst (objs tmp L)) []) (mputs (objs tmp L) fs) = Some cs.
Proof.
  assert (X : forall os, (forall o, In o os -> In o (map fst (objs tmp L))) -> exists cs, objects os (mputs (objs tmp L) fs) = Some cs).
  { induction os as [|o os IH]; intros H; [exists []; reflexivity|]. cbn [objects]. destruct IH as [cs E]; [intros y Hy; apply H; right; exact Hy|]. rewrite E, mputs_get.
    destruct (mget o (rev (objs tmp L))) eqn:E2; [eexists; reflexivity|]. apply mget_None in E2. exfalso. apply E2. rewrite map_rev, <- in_rev. apply H. left. reflexivity. }
  apply X. intros o H. apply sadds_In in H. destruct H as [H|[]]. exact H.
Qed.
Lemma objects_perm tmp L fs cs : NoDup (map fst L) -> objects (sadds (map fst (objs tmp L)) []) (mputs (objs tmp L) fs) = Some cs -> Permutation cs (map snd L).
Proof.
  intros N E. apply objects_Forall2 in E.
  assert (N2 : NoDup (map fst (objs tmp L))).
  { unfold objs. rewrite map_map. cbn [fst]. rewrite <- (map_map fst (objFile tmp)). apply FinFun.Injective_map_NoDup; [intros a b H; exact (objFile_inj tmp a b H)|exact N]. }
  assert (P : Permutation (sadds (map fst (objs tmp L)) []) (map fst (objs tmp L))) by (rewrite <- (app_nil_r (map fst (objs tmp L))) at 2; apply sadds_perm; rewrite app_nil_r; exact N2).
  destruct (Permutation_Forall2 P E) as [cs' [P2 F]]. rewrite P2. clear E P P2 cs.
  assert (G : forall o c, In (o, c) (objs tmp L) -> mget o (mputs (objs tmp L) fs) = Some c).
  { intros o c H. rewrite mputs_get. rewrite (In_mget o c (rev (objs tmp L))); [reflexivity| |rewrite <- in_rev; exact H]. rewrite map_rev. apply NoDup_rev. exact N2. }
  assert (Q : cs' = map snd L); [|rewrite Q; reflexivity].
  revert G F. generalize (mputs (objs tmp L) fs). clear N N2 fs. intros fs. revert cs'. induction L as [|[n c] L IH]; intros cs' G F; cbn [objs map fst snd] in *; inversion F as [|? c' ? cs2 H1 H2]; subst; [reflexivity|].
  rewrite (G _ _ (or_introl eq_refl)) in H1. injection H1 as <-. f_equal. apply IH; [intros o y H; apply G; right; exact H|exact H2].
Qed.
Lemma nodup_NoDup l : nodup l = true <-> NoDup l.
Proof.
  induction l as [|x l IH]; cbn [nodup]; [split; [constructor|reflexivity]|]. rewrite andb_true_iff, negb_true_iff, IH. split.
  - intros [H1 H2]. constructor; [rewrite <- existsb_eqb, H1; discriminate|exact H2].
  - intros H. inversion H as [|? ? H1 H2]. subst. split; [|exact H2]. destruct (existsb (String.eqb x) l) eqn:E; [|reflexivity]. exfalso. apply H1, existsb_eqb, E.
Qed.

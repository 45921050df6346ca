(** * C71: paths *)
From Coq Require Import List Bool Arith Ascii Lia.
From Verif Require Import Paths_model Paths_spec.
Import ListNotations.

Lemma eqb_slash a : (a =? slash)%char = true <-> a = slash. Proof. apply Ascii.eqb_eq. Qed.
Lemma pieces_app p q : forall cur, pieces (p ++ slash :: q) cur = pieces p cur ++ pieces q [].
Proof.
  induction p as [|a p IH]; intros cur; cbn [app pieces]; [reflexivity|].
  destruct (a =? "/")%char; [rewrite IH; reflexivity|apply IH].
Qed.
Lemma components_app p q : components (p ++ slash :: q) = components p ++ components q.
Proof. unfold components. rewrite pieces_app, filter_app. reflexivity. Qed.
Lemma components_slash p : components (p ++ [slash]) = components p.
Proof. rewrite components_app. cbn. apply app_nil_r. Qed.
Lemma ends_slash f : back f = Some slash -> exists g, f = g ++ [slash].
Proof.
  unfold back. destruct (rev f) as [|a l] eqn:E; [discriminate|]. intros [= ->]. exists (rev l). rewrite <- (rev_involutive f), E. reflexivity.
Qed.
(** a path which is empty or ends with a slash *)
Definition folderish (p : str) : Prop := p = [] \/ exists g, p = g ++ [slash].
Lemma components_folderish p q : folderish p -> components (p ++ q) = components p ++ components q.
Proof.
  intros [->|[g ->]]; [reflexivity|]. rewrite <- app_assoc. cbn [app]. rewrite components_app, components_slash. reflexivity.
Qed.
Lemma addFolder_form path f : exists g, addFolder path f = path ++ g ++ [slash] /\ components (g ++ [slash]) = components f /\ (f <> [] -> hd slash (g ++ [slash]) = hd slash f).
Proof.
  unfold addFolder. destruct (back f) as [a|] eqn:B.
  - destruct (a =? slash)%char eqn:Q.
    + apply eqb_slash in Q. subst a. destruct (ends_slash f B) as [g ->]. exists g. auto.
    + exists f. rewrite components_slash. split; [reflexivity|]. split; [reflexivity|]. intros N. destruct f; [congruence|reflexivity].
  - exists f. rewrite components_slash. split; [reflexivity|]. split; [reflexivity|]. intros N. destruct f; [congruence|reflexivity].
Qed.
Lemma folders_fold fs : forall p, folderish p ->
  folderish (fold_left addFolder fs p) /\ components (fold_left addFolder fs p) = components p ++ concat (map components fs).
Proof.
  induction fs as [|f fs IH]; intros p F; cbn [fold_left map concat]; [rewrite app_nil_r; auto|].
  destruct (addFolder_form p f) as (g & E & C & _).
  assert (F1 : folderish (addFolder p f)) by (rewrite E; right; exists (p ++ g); rewrite app_assoc; reflexivity).
  destruct (IH _ F1) as [A B]. split; [exact A|]. rewrite B, E, (components_folderish p _ F), C, <- app_assoc. reflexivity.
Qed.
Lemma fold_hd fs : forall a p, exists r, fold_left addFolder fs (a :: p) = a :: r.
Proof.
  induction fs as [|f fs IH]; intros a p; cbn [fold_left]; [eauto|]. destruct (addFolder_form (a :: p) f) as (g & E & _). rewrite E. cbn [app]. apply IH.
Qed.
Lemma absolute_hd p : absolute p <-> p <> [] /\ hd slash p = slash.
Proof.
  unfold absolute. split; [intros [r ->]; split; [discriminate|reflexivity]|]. intros [N H]. destruct p as [|a r]; [congruence|]. cbn in H. subst a. eauto.
Qed.

(** A path made of folders and a file has the components of the folders, in their order, and then those of the file. It is absolute exactly if its
    first folder is; folders which are empty strings are excluded (see the refutation). *)
Theorem C71_path_of_folders : forall folder folders file,
  folder <> [] ->
  components (createPath (folder :: folders) file) = components folder ++ concat (map components folders) ++ components file /\
  (absolute (createPath (folder :: folders) file) <-> absolute folder).
Proof.
  intros f fs file N. unfold createPath. split.
  - destruct (folders_fold (f :: fs) [] (or_introl eq_refl)) as [A B]. rewrite (components_folderish _ _ A), B. change (components []) with (@nil (list ascii)). cbn [map concat app]. rewrite <- app_assoc. reflexivity.
  - cbn [fold_left]. destruct (addFolder_form [] f) as (g & E & _ & H). rewrite E. cbn [app]. specialize (H N).
    destruct (g ++ [slash]) as [|a r] eqn:G; [destruct g; discriminate|]. destruct (fold_hd fs a r) as [r' ->]. rewrite !absolute_hd.
    cbn [app hd] in H |- *. rewrite H. split; intros [_ K]; split; try congruence; discriminate.
Qed.
Print Assumptions C71_path_of_folders.

Lemma rfindFrom_spec c s : forall k found,
  (~ In c s /\ rfindFrom k c s found = found) \/ exists p q, s = p ++ c :: q /\ ~ In c q /\ rfindFrom k c s found = Some (k + length p).
Proof.
  induction s as [|a s IH]; intros k found; cbn [rfindFrom]; [left; auto|].
  destruct (IH (S k) (if (a =? c)%char then Some k else found)) as [[N E]|(p & q & E & N & F)].
  - destruct (a =? c)%char eqn:Q.
    + apply Ascii.eqb_eq in Q. subst a. right. exists [], s. rewrite E. cbn [app length]. rewrite Nat.add_0_r. auto.
    + apply Ascii.eqb_neq in Q. left. split; [cbn [In]; intros [A|A]; congruence|exact E].
  - right. exists (a :: p), q. split; [cbn [app]; congruence|]. split; [exact N|]. rewrite F. cbn [length]. f_equal. lia.
Qed.
Lemma parts p : (~ In slash p /\ filenameFromPath p = p /\ directoryFromPath p = [dot; slash]) \/
  exists d n, p = d ++ slash :: n /\ ~ In slash n /\ filenameFromPath p = n /\ directoryFromPath p = d ++ [slash].
Proof.
  unfold filenameFromPath, directoryFromPath, rfind. destruct (rfindFrom_spec slash p 0 None) as [[N E]|(d & n & E & N & F)].
  - left. rewrite E. auto.
  - right. exists d, n. rewrite F. cbn [Nat.add]. split; [exact E|]. split; [exact N|].
    assert (L : length p = length d + S (length n)) by (rewrite E, app_length; reflexivity).
    assert (K : d ++ slash :: n = (d ++ [slash]) ++ n) by (rewrite <- app_assoc; reflexivity).
    assert (M : length (d ++ [slash]) = length d + 1) by (rewrite app_length; reflexivity). split.
    + destruct (length d =? length p - 1) eqn:Q.
      * apply Nat.eqb_eq in Q. destruct n; [reflexivity|cbn [length] in L; lia].
      * unfold substrFrom. rewrite E, K, <- M, skipn_app, skipn_all, Nat.sub_diag. reflexivity.
    + rewrite E, K, <- M, firstn_app, firstn_all, Nat.sub_diag. cbn [firstn]. rewrite app_nil_r. reflexivity.
Qed.

(** A path is its directory followed by its file name: the same string, or a name in the working directory. The name has no slash,
    the directory ends with one and has the components of the path before the name. *)
Theorem C71_directory_and_file : forall path,
  let d := directoryFromPath path in let f := filenameFromPath path in
  same_place (d ++ f) path /\ (In slash path -> d ++ f = path) /\
  ~ In slash f /\ (exists g, d = g ++ [slash]) /\ components path = components d ++ components f.
Proof.
  intros p. cbv zeta. destruct (parts p) as [(N & -> & ->)|(d & n & E & N & -> & ->)].
  - assert (C : components ([dot; slash] ++ p) = components p).
    { change ([dot; slash] ++ p) with ([dot] ++ slash :: p). rewrite components_app. reflexivity. }
    split; [split; [|exact C]|split; [|split; [|split]]].
    + split; intros [r H]; [discriminate|]. exfalso. apply N. rewrite H. left. reflexivity.
    + intros H. contradiction.
    + exact N.
    + exists [dot]. reflexivity.
    + reflexivity.
  - assert (K : (d ++ [slash]) ++ n = p) by (rewrite E, <- app_assoc; reflexivity).
    split; [rewrite K; split; [tauto|reflexivity]|]. split; [intros _; exact K|]. split; [exact N|]. split; [eauto|].
    rewrite E, components_app, components_slash. reflexivity.
Qed.
Print Assumptions C71_directory_and_file.

(** The file of a path which was made of folders and a file name is that name, and its directory is the path of the folders. *)
Theorem C71_file_of_a_path : forall folders file,
  folders <> [] -> ~ In slash file ->
  filenameFromPath (createPath folders file) = file /\ directoryFromPath (createPath folders file) = createPath folders [].
Proof.
  intros fs file N S. unfold createPath. rewrite app_nil_r.
  destruct (folders_fold fs [] (or_introl eq_refl)) as [A _].
  assert (B : exists g, fold_left addFolder fs [] = g ++ [slash]).
  { destruct A as [A|A]; [|exact A]. exfalso. destruct fs as [|f fs]; [congruence|]. cbn [fold_left] in A.
    destruct (addFolder_form [] f) as (g & E & _). rewrite E in A. cbn [app] in A. destruct g as [|a g]; cbn [app] in A.
    - destruct (fold_hd fs slash []) as [r R]. congruence.
    - destruct (fold_hd fs a (g ++ [slash])) as [r R]. congruence. }
  destruct B as [g ->]. destruct (parts ((g ++ [slash]) ++ file)) as [(Q & _)|(d & n & E & Q & -> & ->)].
  - exfalso. apply Q. rewrite !in_app_iff. cbn. auto.
  - rewrite <- app_assoc in E. cbn [app] in E.
    assert (U : forall (a b c e : str), ~ In slash b -> ~ In slash e -> a ++ slash :: b = c ++ slash :: e -> a = c /\ b = e).
    { clear. induction a as [|x a IH]; intros b [|y c] e Nb Ne H; cbn [app] in H; injection H; intros.
      - auto.
      - subst. exfalso. apply Nb. apply in_app_iff. right. left. reflexivity.
      - subst. exfalso. apply Ne. apply in_app_iff. right. left. reflexivity.
      - destruct (IH b c e Nb Ne H0). subst. auto. }
    destruct (U _ _ _ _ S Q E) as [<- <-]. auto.
Qed.
Print Assumptions C71_file_of_a_path.

Theorem C71_absolute : forall path, isAbsolutePath path = true <-> absolute path.
Proof.
  intros [|a p]; cbn [isAbsolutePath]; [split; [discriminate|intros [r H]; discriminate]|]. rewrite eqb_slash.
  split; [intros ->; exists p; reflexivity|intros [r H]; injection H; auto].
Qed.
Print Assumptions C71_absolute.

(** The empty string as a folder is not the working directory: the path is absolute, and the file is in the root of the file system. *)
Theorem C71_empty_folder_refuted : forall file,
  ~ absolute file -> absolute (createPath [[]] file) /\ ~ same_place (createPath [[]] file) file.
Proof.
  intros file N. assert (A : absolute (createPath [[]] file)) by (exists file; reflexivity). split; [exact A|]. intros [H _]. tauto.
Qed.
Print Assumptions C71_empty_folder_refuted.

Example C71_case :
  let tmp := ["t"; "m"; "p"]%char in let lib := ["/"; "u"; "/"]%char in let f := ["a"; "."; "o"]%char in
  createPath [lib; tmp] f = ["/"; "u"; "/"; "t"; "m"; "p"; "/"; "a"; "."; "o"]%char /\
  components (createPath [lib; tmp] f) = [["u"]; tmp; f]%char /\ directoryFromPath f = ["."; "/"]%char /\
  filenameFromPath (createPath [lib; tmp] f) = f /\ filenameFromPath lib = [].
Proof. vm_compute. auto 10. Qed.

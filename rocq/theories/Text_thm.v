(** * C33: splitting, joining and replacing text *)
From Coq Require Import List Arith Bool Lia Ascii.
From Verif Require Import Text_model.
Import ListNotations.
Local Open Scope nat_scope.

(** ** Specification *)

(** [pre] is what is before the first occurrence of [p] in [pre ++ p ++ post]. *)
Definition first_at (p pre post : text) : Prop :=
  forall a b, pre ++ p ++ post = a ++ p ++ b -> length pre <= length a.
Definition nowhere (p t : text) : Prop := forall a b, t <> a ++ p ++ b.

(** [r] is [t] with the occurrences of [p], taken from left to right without
    overlap, replaced by [q]. *)
Inductive replaced (p q : text) : text -> text -> Prop :=
| replaced_none t : nowhere p t -> replaced p q t t
| replaced_step pre post r : first_at p pre post -> replaced p q post r ->
    replaced p q (pre ++ p ++ post) (pre ++ q ++ r).

(** [l] and [last] are the pieces of [t] between the occurrences of [d]. *)
Inductive split_at (d : text) : text -> list text -> text -> Prop :=
| split_none t : nowhere d t -> split_at d t [] t
| split_step pre post l last : first_at d pre post -> split_at d post l last ->
    split_at d (pre ++ d ++ post) (pre :: l) last.

(** ** Proofs *)

Lemma startsWith_spec : forall p t, startsWith p t = true <-> exists b, t = p ++ b.
Proof.
  induction p as [|a p IH]; intros t; cbn [startsWith].
  - split; [exists t; reflexivity|reflexivity].
  - destruct t as [|b t].
    + split; [discriminate|]. intros [b H]. discriminate.
    + rewrite andb_true_iff, Ascii.eqb_eq, IH. split.
      * intros [-> [c ->]]. exists c. reflexivity.
      * intros [c H]. injection H as -> ->. split; [reflexivity|]. exists c. reflexivity.
Qed.

Lemma find_some : forall p t k, findText p t = Some k ->
  exists pre post, t = pre ++ p ++ post /\ length pre = k /\ first_at p pre post.
Proof.
  intros p t. induction t as [|c t IH]; intros k; cbn [findText].
  - destruct (startsWith p []) eqn:E; [|discriminate]. intros H. injection H as <-. apply startsWith_spec in E. destruct E as [b E].
    exists [], b. split; [exact E|]. split; [reflexivity|]. intros x y _. cbn. lia.
  - destruct (startsWith p (c :: t)) eqn:E.
    + intros H. injection H as <-. apply startsWith_spec in E. destruct E as [b E].
      exists [], b. split; [exact E|]. split; [reflexivity|]. intros x y _. cbn. lia.
    + destruct (findText p t) as [j|]; [|discriminate]. intros H. injection H as <-. destruct (IH j eq_refl) as [pre [post [H1 [H2 H3]]]].
      exists (c :: pre), post. split; [cbn; rewrite H1; reflexivity|]. split; [cbn; rewrite H2; reflexivity|].
      intros x y H. destruct x as [|e x].
      * exfalso. cbn [app] in H. assert (startsWith p (c :: t) = true) by (apply startsWith_spec; exists y; rewrite H1; exact H). congruence.
      * cbn [app] in H. injection H as _ H. cbn [length]. apply H3 in H. lia.
Qed.

Lemma find_none : forall p t, findText p t = None -> nowhere p t.
Proof.
  intros p t. induction t as [|c t IH]; cbn [findText].
  - destruct (startsWith p []) eqn:E; [discriminate|]. intros _ a b H.
    destruct a; [|discriminate]. destruct p; [discriminate|discriminate].
  - destruct (startsWith p (c :: t)) eqn:E; [discriminate|]. destruct (findText p t); [discriminate|]. intros _ a b H.
    destruct a as [|e a].
    + assert (startsWith p (c :: t) = true) by (apply startsWith_spec; exists b; exact H). congruence.
    + cbn [app] in H. injection H as _ H. apply (IH eq_refl a b H).
Qed.

Lemma skipn_len {A} (l : list A) r n : n = length l -> skipn n (l ++ r) = r.
Proof. intros ->. rewrite skipn_app, skipn_all, Nat.sub_diag. reflexivity. Qed.

Lemma firstn_len {A} (l : list A) r n : n = length l -> firstn n (l ++ r) = l.
Proof. intros ->. rewrite firstn_app, firstn_all, Nat.sub_diag. cbn [firstn]. apply app_nil_r. Qed.

Lemma findFrom_done done t p : findFrom (done ++ t) p (length done) = match findText p t with Some k => Some (length done + k) | None => None end.
Proof. unfold findFrom. rewrite (proj2 (Nat.leb_le _ _)) by (rewrite app_length; lia). rewrite skipn_len by reflexivity. reflexivity. Qed.

Lemma replaceAt_done done pre p post q :
  replaceAt (done ++ pre ++ p ++ post) (length done + length pre) (length p) q = (done ++ pre ++ q) ++ post.
Proof.
  unfold replaceAt. rewrite (app_assoc done pre). rewrite firstn_len by (rewrite app_length; lia).
  rewrite (app_assoc (done ++ pre) p post). rewrite skipn_len by (rewrite !app_length; lia). rewrite <- !app_assoc. reflexivity.
Qed.

Lemma replace_run p q : p <> [] -> forall n t, length t <= n -> exists r, replaced p q t r /\
  forall fuel done, length t < fuel -> replaceFrom fuel (done ++ t) p q (length done) = Some (done ++ r).
Proof.
  intros Hp. induction n as [n IH] using lt_wf_ind. intros t Hn. destruct (findText p t) as [k|] eqn:E.
  - destruct (find_some _ _ _ E) as [pre [post [H1 [H2 H3]]]]. subst t. rewrite !app_length in Hn.
    assert (0 < length p) by (destruct p; [congruence|cbn; lia]).
    destruct (IH (length post) ltac:(lia) post (le_n _)) as [r [Hr Hrun]].
    exists (pre ++ q ++ r). split; [constructor; assumption|]. intros fuel done Hf. destruct fuel as [|fuel]; [lia|]. cbn [replaceFrom].
    rewrite findFrom_done, E. subst k. rewrite replaceAt_done.
    replace (length done + length pre + length q) with (length (done ++ pre ++ q)) by (rewrite !app_length; lia).
    rewrite Hrun by (rewrite !app_length in Hf; lia). rewrite <- !app_assoc. reflexivity.
  - exists t. split; [constructor; apply find_none; assumption|]. intros fuel done Hf. destruct fuel as [|fuel]; [lia|].
    cbn [replaceFrom]. rewrite findFrom_done, E. reflexivity.
Qed.

Lemma explode_run d : d <> [] -> forall n t, length t <= n -> exists l last, split_at d t l last /\
  forall fuel done acc, length t < fuel -> explodeFrom fuel (done ++ t) d (length done) acc =
    Some (acc ++ l ++ match last with [] => [] | _ :: _ => [last] end).
Proof.
  intros Hp. induction n as [n IH] using lt_wf_ind. intros t Hn. destruct (findText d t) as [k|] eqn:E.
  - destruct (find_some _ _ _ E) as [pre [post [H1 [H2 H3]]]]. subst t. rewrite !app_length in Hn.
    assert (0 < length d) by (destruct d; [congruence|cbn; lia]).
    destruct (IH (length post) ltac:(lia) post (le_n _)) as [l [last [Hr Hrun]]].
    exists (pre :: l), last. split; [constructor; assumption|]. intros fuel done acc Hf. destruct fuel as [|fuel]; [lia|]. cbn [explodeFrom].
    rewrite findFrom_done, E. subst k. unfold substr. rewrite skipn_len by reflexivity.
    replace (length done + length pre - length done) with (length pre) by lia. rewrite firstn_len by reflexivity.
    replace (length done + length pre + length d) with (length (done ++ pre ++ d)) by (rewrite !app_length; lia).
    replace (done ++ pre ++ d ++ post) with ((done ++ pre ++ d) ++ post) by (rewrite <- !app_assoc; reflexivity).
    rewrite Hrun by (rewrite !app_length in Hf; lia). rewrite <- !app_assoc. reflexivity.
  - exists [], t. split; [constructor; apply find_none; assumption|]. intros fuel done acc Hf. destruct fuel as [|fuel]; [lia|].
    cbn [explodeFrom]. rewrite findFrom_done, E. f_equal. rewrite app_length. unfold substr. rewrite skipn_len by reflexivity.
    replace (length done + length t - length done) with (length t) by lia. rewrite firstn_all. cbn [app].
    destruct t as [|c t]; cbn [length].
    + rewrite Nat.add_0_r, Nat.ltb_irrefl, app_nil_r. reflexivity.
    + rewrite (proj2 (Nat.ltb_lt _ _)) by lia. reflexivity.
Qed.

(** Joining pieces, from the specification's point of view. *)
Fixpoint joined (d : text) (l : list text) (last : text) : text :=
  match l with [] => last | x :: r => x ++ d ++ joined d r last end.

Lemma split_joined d t l last : split_at d t l last -> t = joined d l last.
Proof. induction 1; cbn [joined]; [reflexivity|]. rewrite <- IHsplit_at. reflexivity. Qed.

Lemma implode_joined d : forall l last, implode (l ++ [last]) d = joined d l last.
Proof.
  assert (F : forall l last x, fold_left (fun out s : text => out ++ d ++ s) (l ++ [last]) x = x ++ d ++ joined d l last).
  { induction l as [|y l IH]; intros last x; cbn [app fold_left joined]; [reflexivity|]. rewrite IH. rewrite <- !app_assoc. reflexivity. }
  intros [|x l] last; [reflexivity|]. cbn [app implode joined]. destruct (l ++ [last]) as [|y r] eqn:E; [destruct l; discriminate|]. rewrite <- E. apply F.
Qed.

Lemma joined_end d : forall l x, joined d l x ++ d = joined d (l ++ [x]) [].
Proof. induction l as [|y l IH]; intros x; cbn [app joined]; [rewrite app_nil_r; reflexivity|]. rewrite <- !app_assoc. rewrite IH. reflexivity. Qed.

Lemma first_unique p pre post pre' post' : first_at p pre post -> first_at p pre' post' ->
  pre ++ p ++ post = pre' ++ p ++ post' -> pre = pre' /\ post = post'.
Proof.
  intros H1 H2 E. assert (L : length pre = length pre') by (apply Nat.le_antisymm; [apply (H1 _ _ E)|apply (H2 _ _ (eq_sym E))]).
  assert (X : forall (a b c d : text), length a = length b -> a ++ c = b ++ d -> a = b /\ c = d).
  { induction a as [|x a IH]; intros [|y b] c d HL HE; try discriminate; [auto|]. cbn [app] in HE. injection HE as -> HE. cbn in HL. destruct (IH b c d ltac:(lia) HE) as [-> ->]. auto. }
  destruct (X _ _ _ _ L E) as [-> E2]. destruct (X _ _ _ _ eq_refl E2) as [_ ->]. auto.
Qed.

(** ** Theorems *)

(** replaceString ends for every text and non empty pattern, also when the
    replacement contains the pattern, and gives the text with the occurrences
    replaced; the specification has one result only. *)
Theorem C33_replace (t p q : text) : p <> [] ->
  exists r, replaced p q t r /\ (forall r', replaced p q t r' -> r' = r) /\
    forall fuel, length t < fuel -> replaceString fuel t p q = Some r.
Proof.
  intros Hp. destruct (replace_run p q Hp (length t) t (le_n _)) as [r [H1 H2]]. exists r. split; [assumption|]. split.
  - clear H2. induction H1 as [t H|pre post r H Hr IH]; intros r' H'.
    + inversion H' as [? ?|pre' post' r2 ? ?]; subst; [reflexivity|]. exfalso. apply (H pre' post' eq_refl).
    + inversion H' as [t' Hn E1 E2|pre' post' r2 Hf Hr' E1 E2].
      * exfalso. subst. apply (Hn pre post eq_refl).
      * destruct (first_unique _ _ _ _ _ Hf H E1) as [-> ->]. rewrite (IH r2 Hr'). reflexivity.
  - intros fuel Hf. apply (H2 fuel [] Hf).
Qed.
Print Assumptions C33_replace.

(** explode gives the pieces between the occurrences of the delimiter, without the
    last one when it is empty. *)
Theorem C33_explode (t d : text) : d <> [] ->
  exists l last, split_at d t l last /\
    forall fuel, length t < fuel -> explode fuel t d = Some (l ++ match last with [] => [] | _ :: _ => [last] end).
Proof.
  intros Hp. destruct (explode_run d Hp (length t) t (le_n _)) as [l [last [H1 H2]]]. exists l, last. split; [assumption|].
  intros fuel Hf. unfold explode. destruct d; [congruence|]. apply (H2 fuel [] [] Hf).
Qed.
Print Assumptions C33_explode.

(** Joining the pieces gives the text back, or the text without its last
    delimiter. *)
Theorem C33_join_of_split (t d : text) : d <> [] -> exists l,
  (forall fuel, length t < fuel -> explode fuel t d = Some l) /\
  (implode l d = t \/ implode l d ++ d = t) /\
  ((forall a, t <> a ++ d) -> implode l d = t).
Proof.
  intros Hp. destruct (C33_explode t d Hp) as [l [last [H1 H2]]]. exists (l ++ match last with [] => [] | _ :: _ => [last] end). split; [assumption|].
  apply split_joined in H1. assert (X : implode (l ++ match last with [] => [] | _ :: _ => [last] end) d = t \/ implode (l ++ match last with [] => [] | _ :: _ => [last] end) d ++ d = t).
  { destruct last as [|c last].
    - rewrite app_nil_r. destruct l as [|x l] using rev_ind; [left; rewrite H1; reflexivity|]. right. rewrite implode_joined, joined_end. symmetry. assumption.
    - left. rewrite implode_joined. symmetry. assumption. }
  split; [assumption|]. intros Hn. destruct X as [X|X]; [assumption|]. exfalso. apply (Hn _ (eq_sym X)).
Qed.
Print Assumptions C33_join_of_split.

(** A last delimiter is lost, and an empty delimiter loses the text. *)
Theorem C33_join_of_split_refuted :
  (exists t d l, d <> [] /\ explode 10 t d = Some l /\ implode l d <> t) /\
  (forall fuel t, explode fuel t [] = Some []).
Proof.
  split; [|reflexivity].
  exists ["a"%char; ";"%char], [";"%char], [["a"%char]]. split; [discriminate|]. split; [vm_compute; reflexivity|]. discriminate.
Qed.
Print Assumptions C33_join_of_split_refuted.

(** Splitting a joined list by one character gives the list back. *)
Theorem C33_split_of_join (c : ascii) (l : list text) (last : text) :
  (forall x, In x l -> ~ In c x) -> ~ In c last -> last <> [] ->
  forall fuel, length (implode (l ++ [last]) [c]) < fuel -> explode fuel (implode (l ++ [last]) [c]) [c] = Some (l ++ [last]).
Proof.
  intros Hl Hlast Hne fuel Hf. rewrite implode_joined in *.
  assert (Nl : nowhere [c] last).
  { intros a b H. apply Hlast. rewrite H. apply in_or_app. right. left. reflexivity. }
  assert (F : forall x post, ~ In c x -> first_at [c] x post).
  { intros x post Hx a b H. destruct (le_lt_dec (length x) (length a)) as [|L]; [assumption|]. exfalso. apply Hx.
    assert (E : nth_error (x ++ [c] ++ post) (length a) = Some c) by (rewrite H, nth_error_app2, Nat.sub_diag by lia; reflexivity).
    rewrite nth_error_app1 in E by assumption. apply (nth_error_In _ _ E). }
  assert (Sp : forall t ll la l2 la2, split_at [c] t ll la -> split_at [c] t l2 la2 -> ll = l2 /\ la = la2).
  { intros t ll la l2 la2 H. revert l2 la2. induction H as [t H|pre post ll la H Hs IH]; intros l2 la2 H'.
    - inversion H' as [? ?|pre' post' r2 ? ?]; subst; [auto|]. exfalso. apply (H pre' post' eq_refl).
    - inversion H' as [t' Hn E1 E2|pre' post' r2 la3 Hf' Hr' E1 E2].
      + exfalso. subst. apply (Hn pre post eq_refl).
      + destruct (first_unique _ _ _ _ _ Hf' H E1) as [-> ->]. destruct (IH r2 la2 Hr') as [-> ->]. auto. }
  destruct (C33_explode (joined [c] l last) [c] ltac:(discriminate)) as [l' [last' [H1 H2]]]. rewrite (H2 fuel Hf). clear H2 Hf fuel.
  assert (S1 : split_at [c] (joined [c] l last) l last).
  { clear H1. induction l as [|x l IH]; cbn [joined]; [constructor; assumption|]. constructor; [apply F, Hl; left; reflexivity|]. apply IH. intros y Hy. apply Hl. right. assumption. }
  destruct (Sp _ _ _ _ _ H1 S1) as [-> ->]. destruct last; [congruence|]. reflexivity.
Qed.
Print Assumptions C33_split_of_join.

(** With an empty pattern replaceString never ends, whatever the text. *)
Theorem C33_replace_empty_refuted (t q : text) : forall fuel, replaceString fuel t [] q = None.
Proof.
  assert (X : forall fuel t pos, pos <= length t -> replaceFrom fuel t [] q pos = None).
  { induction fuel as [|fuel IH]; intros t' pos Hp; cbn [replaceFrom]; [reflexivity|].
    unfold findFrom. rewrite (proj2 (Nat.leb_le _ _) Hp). assert (Z : findText [] (skipn pos t') = Some 0) by (destruct (skipn pos t'); reflexivity).
    rewrite Z. apply IH. unfold replaceAt. rewrite !app_length, firstn_length, skipn_length. cbn [length]. lia. }
  intros fuel. apply X. lia.
Qed.
Print Assumptions C33_replace_empty_refuted.

Example C33_case :
  let a := "a"%char in let b := "b"%char in let s := ";"%char in
  replaceString 10 [a; a; a; b] [a; a] [a; a; a] = Some [a; a; a; a; b] /\
  explode 10 [a; s; s; b] [s] = Some [[a]; []; [b]] /\ implode [[a]; []; [b]] [s] = [a; s; s; b] /\
  explode 10 [a; a; a] [a; a] = Some [[]; [a]].
Proof. vm_compute. repeat split; reflexivity. Qed.

(** * Proofs about the determined lists, the loaded patterns and the results *)
From Coq Require Import List Arith Bool Lia Sorted.
From Verif Require Import Pool_model Sparsity_model Sparsity_spec Sparsity_proofs Sparsity_lists Report_model Report_spec Report_proofs.
Import ListNotations.
Local Open Scope nat_scope.

(** ** Writing to positions of a vector *)
Section Scatter.
Context {V : Type}.
Variable pos : nat -> nat.
Variable val : nat -> V.
Lemma scatter_ok l (step : nat -> list V -> xout (list V)) L :
  (forall e s, In e l -> List.length s = L -> step e s = XOk (setNth s (pos e) (val e))) ->
  (forall e, In e l -> pos e < L) ->
  (forall e e', In e l -> In e' l -> pos e = pos e' -> val e = val e') ->
  forall s, List.length s = L ->
  exists s', foreach l step s = XOk s' /\ List.length s' = L /\
    (forall e, In e l -> nth_error s' (pos e) = Some (val e)) /\
    (forall p, (forall e, In e l -> pos e <> p) -> nth_error s' p = nth_error s p).
Proof.
  induction l as [|e l IH]; intros St Hp Hv s Ls.
  - exists s. split; [reflexivity|]. split; [exact Ls|]. split; [intros e []|]. reflexivity.
  - cbn [foreach]. rewrite St by (auto; left; reflexivity). cbn [xbind].
    destruct (IH (fun e' s' I => St e' s' (or_intror I)) (fun e' I => Hp e' (or_intror I))
                 (fun a b I J => Hv a b (or_intror I) (or_intror J)) (setNth s (pos e) (val e))) as [s' [F [L' [A B]]]].
    { rewrite setNth_len. exact Ls. }
    exists s'. split; [exact F|]. split; [exact L'|]. split.
    + intros e' [<-|I]; [|apply A, I].
      destruct (in_dec Nat.eq_dec (pos e) (map pos l)) as [J|J].
      * apply in_map_iff in J. destruct J as [e' [Ee I]]. rewrite <- Ee, (A e' I). f_equal. apply Hv; [right; exact I|left; reflexivity|exact Ee].
      * rewrite B; [apply setNth_same; rewrite Ls; apply Hp; left; reflexivity|]. intros e' I Ee. apply J. rewrite <- Ee. apply in_map, I.
    + intros p H. rewrite B by (intros e' I; apply H; right; exact I). apply setNth_diff. intros C. apply (H e); [left; reflexivity|auto].
Qed.
End Scatter.

Lemma place_inj n i j i' j' : j < n -> j' < n -> i * n + j = i' * n + j' -> i = i' /\ j = j'.
Proof. intros A B E. assert (i = i') by nia. subst. lia. Qed.
Lemma place_lt m n i j : i < m -> j < n -> i * n + j < m * n.
Proof. nia. Qed.

Lemma in_combine_nth (rows cols : list nat) e : List.length rows = List.length cols -> e < List.length rows ->
  In (nth e rows 0, nth e cols 0) (combine rows cols).
Proof.
  intros L H. rewrite <- combine_nth by exact L. apply nth_In. rewrite combine_length. lia.
Qed.
Lemma combine_in_nth (rows cols : list nat) i j : List.length rows = List.length cols -> In (i, j) (combine rows cols) ->
  exists e, e < List.length rows /\ nth e rows 0 = i /\ nth e cols 0 = j.
Proof.
  intros L H. apply (In_nth _ _ (0, 0)) in H. destruct H as [e [He E]]. rewrite combine_length in He. rewrite combine_nth in E by exact L.
  inversion E. exists e. split; [lia|auto].
Qed.

(** ** Loading *)
Lemma loadLists_ok rows cols : List.length rows = List.length cols -> loadLists (rows, cols, List.length rows) = XOk (rows, cols).
Proof.
  intros L. unfold loadLists. rewrite <- L, Nat.ltb_irrefl. cbn [orb]. rewrite firstn_all, L, firstn_all. reflexivity.
Qed.

Lemma loadSet_ok m n rows cols : inside m n rows cols ->
  exists p, loadSet m (rows, cols, List.length rows) = XOk p /\ List.length p = m /\ sets p /\
    forall i j, entry p i j <-> In (i, j) (combine rows cols).
Proof.
  intros [L H]. destruct (generateSet_ok false rows cols (repeat [] m)) as [p [E [P1 [P2 P3]]]].
  - exact L.
  - apply sets_repeat.
  - intros i I. rewrite repeat_length. apply (In_nth _ _ 0) in I. destruct I as [e [He <-]]. apply (H _ (nth e cols 0)).
    apply in_combine_nth; assumption.
  - exists p. split; [exact E|]. rewrite repeat_length in P1. split; [exact P1|]. split; [exact P2|].
    intros i j. rewrite P3. split; [|tauto]. intros [C|C]; [destruct (entry_repeat _ _ _ C)|exact C].
Qed.

Lemma nth_error_repeat_eq {A} (a : A) n p : p < n -> nth_error (repeat a n) p = Some a.
Proof. intros H. rewrite (nth_error_nth' _ a) by (rewrite repeat_length; exact H). rewrite nth_repeat. reflexivity. Qed.

Lemma loadBool_ok m n rows cols : inside m n rows cols ->
  exists s, loadBool m n (rows, cols, List.length rows) = XOk s /\ List.length s = m * n /\
    forall i j, i < m -> j < n -> (nth_error s (i * n + j) = Some true <-> In (i, j) (combine rows cols)).
Proof.
  intros [L H]. unfold loadBool.
  destruct (scatter_ok (fun e => nth e rows 0 * n + nth e cols 0) (fun _ => true) (seq 0 (List.length rows))
    (fun e s => xbind (rowAt rows e) (fun i => xbind (rowAt cols e) (fun j =>
      xbind (rowAt s (i * n + j)) (fun _ => XOk (setNth s (i * n + j) true))))) (m * n)) with (s := repeat false (m * n))
    as [s [F [Ls [A B]]]].
  - intros e s I Ls. apply in_seq in I. rewrite (rowAt_nth rows e 0), (rowAt_nth cols e 0) by lia. cbn [xbind].
    rewrite (rowAt_nth s _ false); [reflexivity|]. rewrite Ls. destruct (H (nth e rows 0) (nth e cols 0)); [apply in_combine_nth; [exact L|lia]|].
    apply place_lt; assumption.
  - intros e I. apply in_seq in I. destruct (H (nth e rows 0) (nth e cols 0)); [apply in_combine_nth; [exact L|lia]|]. apply place_lt; assumption.
  - auto.
  - apply repeat_length.
  - exists s. split; [exact F|]. split; [exact Ls|]. intros i j Hi Hj. split.
    + intros E. destruct (in_dec prod_dec (i, j) (combine rows cols)) as [I|N]; [exact I|]. exfalso.
      rewrite B in E; [rewrite nth_error_repeat_eq in E by (apply place_lt; assumption); discriminate|].
      intros e I Ee. apply in_seq in I. assert (J := in_combine_nth rows cols e L ltac:(lia)). destruct (H _ _ J) as [J1 J2].
      apply place_inj in Ee; [|assumption|assumption]. destruct Ee as [<- <-]. contradiction.
    + intros I. destruct (combine_in_nth _ _ _ _ L I) as [e [He [<- <-]]]. apply A. apply in_seq. lia.
Qed.

Lemma describes_ok m n rows cols : inside m n rows cols ->
  describes (fun i j => In (i, j) (combine rows cols)) m n (loadLists (rows, cols, List.length rows))
    (loadSet m (rows, cols, List.length rows)) (loadBool m n (rows, cols, List.length rows)).
Proof.
  intros H. split; [exists rows, cols; split; [apply loadLists_ok, H|]; split; [apply H|reflexivity]|].
  split; [apply loadSet_ok with (n := n), H|apply loadBool_ok, H].
Qed.

Lemma describes_iff (P Q : nat -> nat -> Prop) m n a b c : (forall i j, P i j <-> Q i j) -> describes P m n a b c -> describes Q m n a b c.
Proof.
  intros H [[rows [cols [A1 [A2 A3]]]] [[p [B1 [B2 [B3 B4]]]] [s [C1 [C2 C3]]]]]. split; [|split].
  - exists rows, cols. split; [exact A1|]. split; [exact A2|]. intros i j. rewrite <- H. apply A3.
  - exists p. split; [exact B1|]. split; [exact B2|]. split; [exact B3|]. intros i j. rewrite <- H. apply B4.
  - exists s. split; [exact C1|]. split; [exact C2|]. intros i j Hi Hj. rewrite <- H. apply C3; assumption.
Qed.

(** ** determineJacobian *)
Lemma jac_pattern f : sound f -> let sp := map (fun i => rJac f i) (seq 0 (rM f)) in
  sets sp /\ forall i j, entry sp i j <-> first f i j.
Proof.
  intros [S _] sp. split.
  - unfold sets, sp. apply Forall_forall. intros s H. apply in_map_iff in H. destruct H as [i [<- I]]. apply in_seq in I. apply S. lia.
  - intros i j. split.
    + intros E. pose proof (entry_lt _ _ _ E) as Hi. unfold sp in Hi. rewrite len_map_seq in Hi. destruct E as [s [E I]].
      apply (nth_ne _ _ []) in E. unfold sp in E. rewrite nth_map_seq in E by exact Hi. subst s. split; assumption.
    + intros [Hi I]. exists (rJac f i). split; [|exact I]. transitivity (Some (nth i sp [])).
      * apply ne_nth. unfold sp. rewrite len_map_seq. exact Hi.
      * f_equal. unfold sp. apply nth_map_seq, Hi.
Qed.

Lemma determineJacobian_ok f custom old : sound f -> iSparsity old = [] ->
  exists s, determineJacobian f custom old = XOk s /\ List.length (iSparsity s) = rM f /\
    match custom with
    | None => enumerates (first f) (iRows s) (iCols s)
    | Some (rows, cols) => iRows s = rows /\ iCols s = cols
    end.
Proof.
  intros S Eo. unfold determineJacobian. rewrite Eo. destruct (jac_pattern f S) as [Sp E].
  destruct custom as [[rows cols]|].
  - eexists. split; [reflexivity|]. cbn. rewrite len_map_seq. auto.
  - destruct (set_indexes _ (iRows old) (iCols old) Sp) as [r [c [Er [L [So I]]]]]. rewrite Er. cbn [xbind fst snd].
    eexists. split; [reflexivity|]. cbn [iSparsity iRows iCols]. rewrite len_map_seq. split; [reflexivity|]. split; [exact L|]. split; [exact So|].
    intros i j. rewrite I. apply E.
Qed.

(** ** determineHessian *)
Lemma sorted_seq a n : StronglySorted lt (seq a n).
Proof. revert a. induction n as [|n IH]; intros a; [constructor|]. cbn. constructor; [apply IH|]. apply Forall_forall. intros x H. apply in_seq in H. lia. Qed.

Lemma listsOf_custom rows cols (p : pat) n : List.length rows = List.length cols -> List.length p = n -> (forall i, In i rows -> i < n) ->
  exists s, listsOf (Some (rows, cols)) p = XOk s /\ iSparsity s = p /\ selects (entry p) rows cols (iRows s) (iCols s).
Proof.
  intros L Lp Hr. unfold listsOf.
  set (keep := fun e => sfind (nth e cols 0) (nth (nth e rows 0) p [])).
  assert (A : forall k, k <= List.length rows ->
    foreach (seq 0 k) (fun e st =>
        xbind (rowAt rows e) (fun i1 => xbind (rowAt cols e) (fun i2 =>
        xbind (rowAt p i1) (fun s : set =>
        if sfind i2 s then XOk (fst st ++ [i1], snd st ++ [i2]) else XOk st)))) ([], [])
    = XOk (map (fun e => nth e rows 0) (filter keep (seq 0 k)), map (fun e => nth e cols 0) (filter keep (seq 0 k)))).
  { induction k as [|k IH]; intros Hk; [reflexivity|]. replace (S k) with (k + 1) by lia. rewrite seq_app, Nat.add_0_l.
    rewrite filter_app, !map_app. cbn [seq].
    assert (FA : forall (l1 l2 : list nat) (f : nat -> (list nat * list nat) -> xout (list nat * list nat)) st,
              foreach (l1 ++ l2) f st = xbind (foreach l1 f st) (foreach l2 f)).
    { clear. induction l1 as [|x l1 IH]; intros l2 f st; [reflexivity|]. cbn. destruct (f x st); cbn; [apply IH|reflexivity|reflexivity]. }
    rewrite FA, IH by lia. cbn [xbind foreach]. rewrite (rowAt_nth rows k 0), (rowAt_nth cols k 0) by lia. cbn [xbind].
    assert (E : rowAt p (nth k rows 0) = XOk (nth (nth k rows 0) p [])) by (apply rowAt_nth; rewrite Lp; apply Hr, nth_In; lia).
    rewrite E. cbn [xbind filter fst snd]. change (sfind (nth k cols 0) (nth (nth k rows 0) p [])) with (keep k). destruct (keep k); cbn [map app xbind]; rewrite ?app_nil_r; reflexivity. }
  rewrite (A (List.length rows) (Nat.le_refl _)). cbn [xbind fst snd]. eexists. split; [reflexivity|]. cbn [iSparsity iRows iCols].
  split; [reflexivity|]. exists (filter keep (seq 0 (List.length rows))). split; [apply isset_filter, sorted_seq|]. split; [|auto].
  intros e. rewrite filter_In, in_seq. unfold keep. rewrite sfind_In. split.
  - intros [H I]. split; [lia|]. exists (nth (nth e rows 0) p []). split; [|exact I]. apply ne_nth. rewrite Lp. apply Hr, nth_In. lia.
  - intros [H [s [E I]]]. split; [lia|]. apply (nth_ne _ _ []) in E. rewrite <- E in I. exact I.
Qed.

Lemma listsAll_ok custom ps : forall (Q : nat -> info -> Prop),
  (forall i p, nth_error ps i = Some p -> exists s, listsOf custom p = XOk s /\ Q i s) ->
  exists l, listsAll custom ps = XOk l /\ List.length l = List.length ps /\ forall i s, nth_error l i = Some s -> Q i s.
Proof.
  induction ps as [|p ps IH]; intros Q H.
  - exists []. split; [reflexivity|]. split; [reflexivity|]. intros [|i] s E; discriminate.
  - destruct (H 0 p eq_refl) as [s [E Qs]]. destruct (IH (fun i => Q (S i)) (fun i p' E' => H (S i) p' E')) as [l [El [Ll Ql]]].
    exists (s :: l). cbn [listsAll]. rewrite E. cbn [xbind]. rewrite El. cbn [xbind]. split; [reflexivity|].
    split; [cbn; lia|]. intros [|i] s' E'; cbn in E'; [inversion E'; subst; exact Qs|apply Ql, E'].
Qed.

(** The request is kept in the pattern of each equation. *)
Definition eqSpec (f : recorded) (custom : request) (i : nat) (s : info) : Prop :=
  match custom with
  | None => enumerates (second f i) (iRows s) (iCols s)
  | Some (rows, cols) => selects (second f i) rows cols (iRows s) (iCols s)
  end.

Lemma hget_nth (hs : list pat) i p j : nth_error hs i = Some p -> hget hs i j = nth j p [].
Proof. intros E. unfold hget. f_equal. apply nth_ne, E. Qed.

Lemma eq_patterns f (custom : request) (jac : pat) (vars : option set) : sound f ->
  List.length jac = rM f -> (forall i, i < rM f -> isset (nth i jac [])) ->
  (forall i j, i < rM f -> (In j (reduced vars (nth i jac [])) <-> In j (rJac f i) /\ match custom with Some (rows, cols) => In j rows \/ In j cols | None => True end)) ->
  exists hs, retrieveAll f (colorByRow vars jac) (repeat (repeat [] (rN f)) (rM f)) = XOk hs /\ hshape (rM f) (rN f) hs /\
    forall i j k, In k (hget hs i j) <->
      i < rM f /\ In k (rHes f i j) /\ match custom with Some (rows, cols) => In j rows \/ In j cols | None => True end.
Proof.
  intros Sd Lj Sj R. pose proof Sd as [S1 S2].
  destruct (colorByRow_ok vars jac) as [G Cov]; [rewrite Lj; exact Sj|]. rewrite Lj in G, Cov.
  set (red := fun i => reduced vars (nth i jac [])) in *.
  assert (Bound : forall i j, In j (red i) -> i < rM f).
  { intros i j H. destruct (Nat.lt_ge_cases i (rM f)) as [L|L]; [exact L|]. unfold red in H. rewrite nth_overflow in H by lia. destruct vars; destruct H. }
  destruct (retrieveAll_ok f red (colorByRow vars jac) Sd G) with (hs := repeat (repeat ([] : set) (rN f)) (rM f)) as [hs [E [Sh H]]].
  - intros i j I. pose proof (Bound _ _ I) as Hi. apply R in I; [|exact Hi]. apply (S1 i Hi). apply I.
  - intros c i j k Ic Ii Ij Ik. rewrite Forall_forall in G. destruct (G c Ic) as [_ [C1 [C2 _]]]. pose proof (C1 _ Ii) as Hi.
    apply R; [exact Hi|]. split; [apply (proj2 (S2 i j Hi) k Ik)|]. apply C2 in Ij. destruct Ij as [i' [Ii' Ij]].
    apply R in Ij; [apply Ij|apply C1, Ii'].
  - apply hshape_empty.
  - exists hs. split; [exact E|]. split; [exact Sh|]. intros i j k. rewrite H. split.
    + intros [C|[c [Ic [Ii [Ij Ik]]]]]; [destruct (proj2 (hshape_empty (rM f) (rN f)) _ _ _ C)|].
      pose proof (Bound _ _ Ij) as Hi. split; [exact Hi|]. split; [exact Ik|]. apply R in Ij; [apply Ij|exact Hi].
    + intros [Hi [Ik Cj]]. right. assert (Ij : In j (red i)) by (apply R; [exact Hi|]; split; [apply (proj2 (S2 i j Hi) k Ik)|exact Cj]).
      destruct (Cov i j Hi Ij) as [c [Ic Ii]]. exists c. auto.
Qed.

Lemma selects_iff (R Q : nat -> nat -> Prop) rows cols r c :
  (forall e, e < List.length rows -> (R (nth e rows 0) (nth e cols 0) <-> Q (nth e rows 0) (nth e cols 0))) ->
  selects R rows cols r c -> selects Q rows cols r c.
Proof.
  intros H [sel [A [B C]]]. exists sel. split; [exact A|]. split; [|exact C]. intros e. rewrite B. split; intros [L X]; (split; [exact L|]); apply (H e L), X.
Qed.

Lemma determineHessian_ok f custom byEq old : sound f -> iSparsity (fst old) = [] ->
  match custom with Some (rows, cols) => inside (rN f) (rN f) rows cols | None => True end ->
  exists s eqs, determineHessian f custom byEq old = XOk (s, eqs) /\ List.length (iSparsity s) = rN f /\
    match custom with
    | None => enumerates (secondAny f) (iRows s) (iCols s)
    | Some (rows, cols) => iRows s = rows /\ iCols s = cols
    end /\
    (byEq = true -> List.length eqs = rM f /\ forall i e, nth_error eqs i = Some e -> eqSpec f custom i e).
Proof.
  intros Sd Eo Hc. pose proof Sd as [S1 S2]. unfold determineHessian. rewrite Eo.
  destruct (diagonal_ok (rN f) (seq 0 (rN f))) as [r [Er [Lr Hr]]]; [intros j H; apply in_seq in H; lia|]. rewrite Er. cbn [xbind].
  set (sp := revSparseHes f r (seq 0 (rM f))).
  assert (Esp : forall j k, entry sp j k <-> secondAny f j k).
  { intros j k. split.
    - intros E. pose proof (entry_lt _ _ _ E) as Hj. unfold sp in Hj. rewrite revSparseHes_len in Hj. destruct E as [s [E I]].
      apply (nth_ne _ _ []) in E. rewrite <- E in I. apply (revSparseHes_in f r (seq 0 (rN f))) in I; auto.
      destruct I as [_ [i [Ii Ik]]]. apply in_seq in Ii. exists i. split; [lia|exact Ik].
    - intros [i [Hi Ik]]. assert (Hj : j < rN f). { destruct (S2 i j Hi) as [_ B]. destruct (B k Ik) as [_ J]. apply (S1 i Hi), J. }
      exists (nth j sp []). split; [apply ne_nth; unfold sp; rewrite revSparseHes_len; exact Hj|].
      apply (revSparseHes_in f r (seq 0 (rN f))); auto. split; [apply in_seq; lia|]. exists i. split; [apply in_seq; lia|exact Ik]. }
  assert (Eq : exists eqs, (if byEq then equationLists f custom (forSparseJac f r) else XOk (snd old)) = XOk eqs /\
     (byEq = true -> List.length eqs = rM f /\ forall i e, nth_error eqs i = Some e -> eqSpec f custom i e)).
  { destruct byEq; [|exists (snd old); split; [reflexivity|discriminate]].
    unfold equationLists. destruct custom as [[rows cols]|].
    - destruct Hc as [Lrc Hin].
      set (vars := sinsAll cols (sinsAll rows [])). cbn zeta.
      assert (Iv : forall j, In j vars <-> In j rows \/ In j cols). { intros j. unfold vars. rewrite !sinsAll_In. cbn [In]. tauto. }
      assert (Hrows : forall j, In j rows -> j < rN f).
      { intros j I. apply (In_nth _ _ 0) in I. destruct I as [e [He <-]]. apply (Hin _ (nth e cols 0)). apply in_combine_nth; assumption. }
      assert (Hcols : forall j, In j cols -> j < rN f).
      { intros j I. apply (In_nth _ _ 0) in I. destruct I as [e [He <-]]. apply (Hin (nth e rows 0)). apply in_combine_nth; [exact Lrc|lia]. }
      destruct (diagonal_ok (rN f) vars) as [r2 [E2 [L2 H2]]]; [intros j I; apply Iv in I; destruct I; auto|].
      rewrite E2. cbn [xbind fst snd].
      destruct (eq_patterns f (Some (rows, cols)) (forSparseJac f r2) (Some vars) Sd) as [hs [Eh [Sh Hh]]].
      + apply forSparseJac_len.
      + intros i Hi. apply forSparseJac_set, Hi.
      + intros i j Hi. cbn [reduced]. rewrite filter_In, (forSparseJac_in f r2 vars) by assumption. rewrite sfind_In, Iv. tauto.
      + rewrite Eh. cbn [xbind]. destruct Sh as [Lh Ph].
        destruct (listsAll_ok (Some (rows, cols)) hs (eqSpec f (Some (rows, cols)))) as [l [El [Ll Ql]]].
        * intros i p Ep. assert (Ip : In p hs) by (apply (nth_error_In _ i), Ep). destruct (Ph p Ip) as [Lp Sp].
          destruct (listsOf_custom rows cols p (rN f) Lrc Lp Hrows) as [s [Es [Ss Sel]]]. exists s. split; [exact Es|]. cbn [eqSpec].
          apply (selects_iff (entry p)); [|exact Sel]. intros e He. unfold second.
          assert (Hi : i < rM f) by (rewrite <- Lh; apply nth_error_Some; congruence).
          transitivity (In (nth e cols 0) (hget hs i (nth e rows 0))).
          -- rewrite (hget_nth _ _ _ _ Ep). split.
             ++ intros [s' [Es' I]]. apply (nth_ne _ _ []) in Es'. rewrite <- Es' in I. exact I.
             ++ intros I. exists (nth (nth e rows 0) p []). split; [apply ne_nth; rewrite Lp; apply Hrows, nth_In; exact He|exact I].
          -- rewrite Hh. split; [tauto|]. intros I. split; [exact Hi|]. split; [exact I|]. left. apply nth_In. exact He.
        * exists l. split; [exact El|]. intros _. split; [lia|exact Ql].
    - cbn [xbind fst snd].
      destruct (eq_patterns f None (forSparseJac f r) None Sd) as [hs [Eh [Sh Hh]]].
      + apply forSparseJac_len.
      + intros i Hi. apply forSparseJac_set, Hi.
      + intros i j Hi. cbn [reduced]. rewrite (forSparseJac_in f r (seq 0 (rN f))) by assumption. split; [tauto|]. intros [I _]. split; [exact I|].
        apply in_seq. split; [lia|]. apply (S1 i Hi), I.
      + rewrite Eh. cbn [xbind]. destruct Sh as [Lh Ph].
        destruct (listsAll_ok None hs (eqSpec f None)) as [l [El [Ll Ql]]].
        * intros i p Ep. assert (Ip : In p hs) by (apply (nth_error_In _ i), Ep). destruct (Ph p Ip) as [Lp Sp].
          destruct (set_indexes p [] [] Sp) as [rr [cc [Ei [A1 [A2 A3]]]]]. cbn [listsOf]. rewrite Ei. cbn [xbind]. eexists. split; [reflexivity|].
          cbn [eqSpec iRows iCols fst snd]. split; [exact A1|]. split; [exact A2|]. intros j k. rewrite A3. unfold second.
          assert (Hi : i < rM f) by (rewrite <- Lh; apply nth_error_Some; congruence).
          transitivity (In k (hget hs i j)); [|rewrite Hh; tauto]. rewrite (hget_nth _ _ _ _ Ep). split.
          -- intros [s' [Es' I]]. apply (nth_ne _ _ []) in Es'. rewrite <- Es' in I. exact I.
          -- intros I. exists (nth j p []). split; [|exact I]. apply ne_nth. destruct (Nat.lt_ge_cases j (List.length p)) as [L|L]; [exact L|].
             rewrite nth_overflow in I by exact L. destruct I.
        * exists l. split; [exact El|]. intros _. split; [lia|exact Ql]. }
  destruct Eq as [eqs [Ee He]]. rewrite Ee. cbn [xbind].
  destruct custom as [[rows cols]|].
  - exists (mkInfo sp rows cols), eqs. split; [reflexivity|]. cbn. split; [apply revSparseHes_len|]. split; [auto|exact He].
  - destruct (set_indexes sp (iRows (fst old)) (iCols (fst old)) (revSparseHes_sets _ _ _)) as [rr [cc [Ei [A1 [A2 A3]]]]]. rewrite Ei. cbn [xbind fst snd].
    eexists. exists eqs. split; [reflexivity|]. cbn [iSparsity iRows iCols]. split; [apply revSparseHes_len|]. split; [|exact He].
    split; [exact A1|]. split; [exact A2|]. intros j k. rewrite A3. apply Esp.
Qed.

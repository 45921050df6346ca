(** * Proofs about the reporting functions and the evaluation methods *)
From Coq Require Import List Arith Bool Lia Sorted.
From Verif Require Import Pool_model Sparsity_model Sparsity_spec Sparsity_proofs Sparsity_lists Report_model Report_spec Report_proofs Report_eval.
Import ListNotations.
Local Open Scope nat_scope.

(** ** The function with the patterns of the equations *)
Lemma maxNnz_ok l : maxNnz l <= List.length l /\ forall i, i < List.length l -> iRows (nth i l noInfo) <> [] -> i < maxNnz l.
Proof.
  unfold maxNnz.
  assert (A : forall k, k <= List.length l ->
    let x := fold_left (fun a i => match iRows (nth i l noInfo) with [] => a | _ => S i end) (seq 0 k) 0 in
    x <= k /\ forall i, i < k -> iRows (nth i l noInfo) <> [] -> i < x).
  { induction k as [|k IH]; intros Hk; cbn zeta; [cbn; split; [lia|intros i H; lia]|].
    destruct (IH ltac:(lia)) as [B C]. replace (S k) with (k + 1) by lia. rewrite seq_app, fold_left_app, Nat.add_0_l. cbn [seq fold_left].
    set (x := fold_left _ (seq 0 k) 0) in *. destruct (iRows (nth k l noInfo)) as [|y r] eqn:E.
    - split; [lia|]. intros i Hi N. assert (i < k \/ i = k) as [Hl| ->] by lia; [apply C; assumption|congruence].
    - split; [lia|]. intros i Hi N. lia. }
  apply A. lia.
Qed.

Lemma sparsity2D2_ok l i : (forall s, In s l -> List.length (iRows s) = List.length (iCols s)) ->
  sparsity2D2 l i = XOk (iRows (nth i l noInfo), iCols (nth i l noInfo), List.length (iRows (nth i l noInfo))).
Proof.
  intros H. destruct (maxNnz_ok l) as [A B]. unfold sparsity2D2.
  assert (Out : maxNnz l <= i -> XOk ([], [], 0) = XOk (iRows (nth i l noInfo), iCols (nth i l noInfo), List.length (iRows (nth i l noInfo)))).
  { intros L. destruct (Nat.lt_ge_cases i (List.length l)) as [Hi|Hi].
    - specialize (B i Hi). specialize (H (nth i l noInfo) (nth_In _ _ Hi)).
      destruct (iRows (nth i l noInfo)) as [|x r]; [|assert (i < maxNnz l) by (apply B; discriminate); lia].
      destruct (iCols (nth i l noInfo)); [reflexivity|discriminate].
    - rewrite nth_overflow by exact Hi. reflexivity. }
  destruct (Nat.ltb_spec 0 (maxNnz l)) as [P|P]; [|apply Out; lia].
  destruct (Nat.ltb_spec i (maxNnz l)) as [Q|Q]; [|apply Out; lia].
  rewrite (rowAt_nth (pointers l) i None) by (unfold pointers; rewrite len_map_seq; exact Q). cbn [xbind].
  rewrite (rowAt_nth (nnzs l) i 0) by (unfold nnzs; rewrite firstn_length, map_length; lia). cbn [xbind].
  assert (E1 : nth i (nnzs l) 0 = List.length (iRows (nth i l noInfo))).
  { unfold nnzs. transitivity (nth i (map (fun s => List.length (iRows s)) l) 0).
    - apply nth_ne. rewrite <- (firstn_skipn (maxNnz l) (map _ l)) at 1.
      assert (X : nth_error (firstn (maxNnz l) (map (fun s => List.length (iRows s)) l)) i = nth_error (map (fun s => List.length (iRows s)) l) i).
      { rewrite <- (firstn_skipn (maxNnz l) (map (fun s => List.length (iRows s)) l)) at 2. rewrite nth_error_app1; [reflexivity|].
        rewrite firstn_length, map_length. lia. }
      rewrite firstn_skipn. rewrite X. apply ne_nth. rewrite map_length. lia.
    - change 0 with ((fun s => List.length (iRows s)) noInfo). rewrite map_nth. reflexivity. }
  rewrite E1. unfold pointers. rewrite nth_map_seq by exact Q.
  assert (Hi : i < List.length l) by lia. specialize (H (nth i l noInfo) (nth_In _ _ Hi)).
  destruct (iRows (nth i l noInfo)) as [|x r] eqn:E.
  - destruct (iCols (nth i l noInfo)); [reflexivity|discriminate].
  - rewrite (rowAt_nth l i noInfo) by exact Hi. cbn [xbind]. rewrite E. reflexivity.
Qed.

Lemma selects_listed R rows cols rows' cols' : List.length rows = List.length cols -> selects R rows cols rows' cols' ->
  List.length rows' = List.length cols' /\ forall i j, In (i, j) (combine rows' cols') <-> In (i, j) (combine rows cols) /\ R i j.
Proof.
  intros L [sel [S [H [-> ->]]]]. split; [rewrite !map_length; reflexivity|].
  assert (E : combine (map (fun e => nth e rows 0) sel) (map (fun e => nth e cols 0) sel) = map (fun e => (nth e rows 0, nth e cols 0)) sel).
  { clear. induction sel as [|e sel IH]; [reflexivity|]. cbn. rewrite IH. reflexivity. }
  intros i j. rewrite E, in_map_iff. split.
  - intros [e [X I]]. inversion X; subst. apply H in I. destruct I as [He Hr]. split; [apply in_combine_nth; assumption|exact Hr].
  - intros [I Hr]. destruct (combine_in_nth _ _ _ _ L I) as [e [He [<- <-]]]. exists e. split; [reflexivity|]. apply H. auto.
Qed.

Lemma enumerates_inside (R : nat -> nat -> Prop) m n rows cols : (forall i j, R i j -> i < m /\ j < n) -> enumerates R rows cols -> inside m n rows cols.
Proof. intros H [L [_ I]]. split; [exact L|]. intros i j J. apply H, I, J. Qed.

(** ** Calls *)
Section Calls.
Context {V : Type}.
Variable zero : V.

Lemma call_ok (F : list (list V) -> list V) sizes ins before :
  map (@List.length V) ins = sizes -> List.length before = List.length (F ins) -> call F sizes ins before = XOk (F ins).
Proof.
  intros <- L. unfold call. rewrite map_length, Nat.eqb_refl. cbn [negb].
  assert (E : existsb (fun sx : nat * list V => List.length (snd sx) <? fst sx) (combine (map (@List.length V) ins) ins) = false).
  { clear L. induction ins as [|x ins IH]; [reflexivity|]. cbn [map combine existsb fst snd]. rewrite Nat.ltb_irrefl. exact IH. }
  rewrite E. rewrite L, Nat.ltb_irrefl. rewrite skipn_all2 by lia. rewrite app_nil_r. reflexivity.
Qed.

Lemma createDense_ok (comp : list V) m n rows cols D :
  inside m n rows cols -> valuesAt D rows cols comp ->
  exists mat, createDense zero comp m n (rows, cols, List.length rows) (m * n) = XOk mat /\ matrix m n (only zero rows cols D) mat.
Proof.
  intros [L H] [Lc Hc]. unfold createDense. rewrite Nat.eqb_refl. cbn [negb].
  assert (B : forall e, e < List.length rows -> nth e rows 0 < m /\ nth e cols 0 < n) by (intros e He; apply H, in_combine_nth; assumption).
  destruct (scatter_ok (fun e => nth e rows 0 * n + nth e cols 0) (fun e => D (nth e rows 0) (nth e cols 0)) (seq 0 (List.length rows))
    (fun e mat =>
      xbind (rowAt rows e) (fun i => xbind (rowAt cols e) (fun j => xbind (rowAt comp e) (fun v =>
      xbind (rowAt mat (i * n + j)) (fun _ => XOk (setNth mat (i * n + j) v)))))) (m * n)) with (s := repeat zero (m * n))
    as [s [F [Ls [A C]]]].
  - intros e s I Ls. apply in_seq in I. rewrite (rowAt_nth rows e 0), (rowAt_nth cols e 0) by lia. cbn [xbind].
    assert (E : rowAt comp e = XOk (D (nth e rows 0) (nth e cols 0))).
    { unfold rowAt. rewrite (Hc e (nth e rows 0) (nth e cols 0)); [reflexivity| |]; apply ne_nth; lia. }
    rewrite E. cbn [xbind]. destruct (B e ltac:(lia)) as [B1 B2].
    rewrite (rowAt_nth s _ zero); [reflexivity|]. rewrite Ls. apply place_lt; assumption.
  - intros e I. apply in_seq in I. destruct (B e ltac:(lia)). apply place_lt; assumption.
  - intros e e' I I' E. apply in_seq in I. apply in_seq in I'. destruct (B e ltac:(lia)), (B e' ltac:(lia)).
    apply place_inj in E; [|assumption|assumption]. destruct E as [-> ->]. reflexivity.
  - apply repeat_length.
  - exists s. split; [exact F|]. split; [exact Ls|]. intros i j Hi Hj. unfold only.
    destruct (in_dec prod_dec (i, j) (combine rows cols)) as [I|N].
    + destruct (combine_in_nth _ _ _ _ L I) as [e [He [<- <-]]]. apply A. apply in_seq. lia.
    + rewrite C; [apply nth_error_repeat_eq, place_lt; assumption|]. intros e I E. apply in_seq in I. destruct (B e ltac:(lia)).
      apply place_inj in E; [|assumption|assumption]. destruct E as [<- <-]. apply N, in_combine_nth; [exact L|lia].
Qed.

Lemma createDense_range (comp : list V) m n rows cols size :
  inside m n rows cols -> List.length comp = List.length rows ->
  createDense zero comp m n (rows, cols, List.length rows) size <> XRange.
Proof.
  intros In_ Lc. unfold createDense. destruct (Nat.eqb_spec size (m * n)) as [->|N]; [|discriminate]. cbn [negb].
  destruct In_ as [L H].
  assert (B : forall e, e < List.length rows -> nth e rows 0 < m /\ nth e cols 0 < n) by (intros e He; apply H, in_combine_nth; assumption).
  assert (G : forall l s, (forall e, In e l -> e < List.length rows) -> List.length s = m * n -> exists s',
    foreach l (fun e mat =>
      xbind (rowAt rows e) (fun i => xbind (rowAt cols e) (fun j => xbind (rowAt comp e) (fun v =>
      xbind (rowAt mat (i * n + j)) (fun _ => XOk (setNth mat (i * n + j) v)))))) s = XOk s').
  { induction l as [|e l IH]; intros s Hl Ls; [exists s; reflexivity|]. cbn [foreach].
    pose proof (Hl e (or_introl eq_refl)) as He. destruct (B e He) as [B1 B2].
    rewrite (rowAt_nth rows e 0), (rowAt_nth cols e 0), (rowAt_nth comp e zero) by lia. cbn [xbind].
    rewrite (rowAt_nth s _ zero) by (rewrite Ls; apply place_lt; assumption). cbn [xbind].
    apply IH; [intros e' I; apply Hl; right; exact I|]. rewrite setNth_len. exact Ls. }
  destruct (G (seq 0 (List.length rows)) (repeat zero (m * n))) as [s' E]; [intros e I; apply in_seq in I; lia|apply repeat_length|].
  rewrite E. discriminate.
Qed.

Lemma call_len (F : list (list V) -> list V) sizes ins before : map (@List.length V) ins = sizes -> List.length before = List.length (F ins) ->
  exists r, call F sizes ins before = XOk r /\ List.length r = List.length (F ins).
Proof. intros A B. exists (F ins). split; [apply call_ok; assumption|reflexivity]. Qed.
End Calls.

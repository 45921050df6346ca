(** Proof that arrays hold their values. *)
Require Import List Arith Bool Lia.
From Verif Require Import Arrays_model Arrays_spec Arrays_proofs ArrayPrint_model ArrayPrint_spec.
Import ListNotations.

Lemma upd_eq {A} (f : nat -> A) k v j : upd f k v j = if j =? k then v else f j.
Proof. reflexivity. Qed.

Lemma app_split {A} (a b c d : list A) : a ++ b = c ++ d ->
  exists l, (a = c ++ l /\ d = l ++ b) \/ (c = a ++ l /\ b = l ++ d).
Proof.
  revert c. induction a as [|x a IH]; intros c H; cbn in H.
  - exists c. right. auto.
  - destruct c as [|y c]; cbn in H.
    + exists (x :: a). left. cbn. auto.
    + injection H as -> H. destruct (IH c H) as [l [[-> ->]|[-> ->]]]; exists l; [left|right]; auto.
Qed.

Lemma legal_snoc h e : legal (h ++ [e]) -> legal h.
Proof. intros H. inversion H as [E|h' a args L NR E|h' a n L HI E]; [destruct h; discriminate| |]; apply app_inj_tail in E; destruct E as [-> _]; auto. Qed.
Lemma legal_prefix t : forall h, legal (h ++ t) -> legal h.
Proof.
  induction t as [|e t IH]; intros h H; [now rewrite app_nil_r in H|].
  replace (h ++ e :: t) with ((h ++ [e]) ++ t) in H by now rewrite <- app_assoc. apply IH in H. now apply legal_snoc in H.
Qed.

Lemma reserved_unique h : legal h -> forall a n m, reserved h a n -> reserved h a m -> n = m.
Proof.
  induction 1 as [|h a args L IH NR|h a k L IH HI]; intros b n m H1 H2.
  - destruct H1 as [? [[] _]].
  - apply reserved_app in H1. apply reserved_app in H2. destruct H1 as [H1|[l1 [[= -> ->] L1]]]; destruct H2 as [H2|[l2 [E2 L2]]].
    + eauto.
    + injection E2 as -> _. now apply NR in H1.
    + now apply NR in H2.
    + injection E2 as ->. congruence.
  - apply reserved_app in H1. apply reserved_app in H2. destruct H1 as [H1|[l1 [? L1]]]; [|discriminate]. destruct H2 as [H2|[l2 [? L2]]]; [|discriminate]. eauto.
Qed.

Lemma events_app p q : events (p ++ q) = events p ++ events q.
Proof. apply flat_map_app. Qed.

(** ** Places do not change once they are given *)
Lemma place_step ndef s e s' b : astep ndef s e = AOk s' -> (forall args, e <> EReserve b args) -> a_place s' b = a_place s b.
Proof.
  destruct e as [a args|a n]; cbn [astep]; [|intros [= <-]; auto].
  destruct (reserve ndef (a_place s) (a_comp s) args) as [[c st]| | |]; cbn [abind]; try discriminate. intros [= <-] N. cbn.
  unfold setPlace. destruct (Nat.eqb_spec b a) as [->|]; auto. now destruct (N args).
Qed.

Lemma place_run ndef h : forall s s' b, arun ndef s h = AOk s' -> (forall n, ~ reserved h b n) -> a_place s' b = a_place s b.
Proof.
  induction h as [|e h IH]; intros s s' b H N; cbn [arun] in H; [now injection H as <-|].
  destruct (astep ndef s e) as [s1| | |] eqn:E; cbn [abind] in H; try discriminate.
  rewrite (IH s1 s' b H); [apply (place_step ndef s e s1 b E)|].
  - intros args ->. apply (N (length args)). exists args. cbn. auto.
  - intros n [args [HI L]]. apply (N n). exists args. cbn. auto.
Qed.

Lemma legal_fresh h t : legal (h ++ t) -> forall a n m, reserved h a n -> ~ reserved t a m.
Proof.
  induction t as [|e t IH] using rev_ind; intros L a n m H1 H2.
  - destruct H2 as [? [[] _]].
  - rewrite app_assoc in L. apply reserved_app in H2. destruct H2 as [H2|[args [-> LA]]].
    + apply legal_snoc in L. eapply IH; eauto.
    + inversion L as [E|h' a' args' L' NR E|h' a' k L' HI E]; [destruct (h ++ t); discriminate| |]; apply app_inj_tail in E; destruct E as [-> E]; [|discriminate].
      injection E as -> ->. apply (NR n). destruct H1 as [l1 [HI L1]]. exists l1. split; auto. apply in_app_iff. auto.
Qed.

Lemma place_final ndef s0 h t s1 s2 : legal (h ++ t) -> arun ndef s0 h = AOk s1 -> arun ndef s0 (h ++ t) = AOk s2 ->
  forall a n, reserved h a n -> a_place s2 a = a_place s1 a.
Proof.
  intros L R1 R2 a n HR. rewrite arun_app, R1 in R2. cbn [abind] in R2. eapply place_run; eauto. intros m. eapply legal_fresh; eauto.
Qed.

(** ** Usable arrays *)
Lemma drop_live h a n b m : In (b, m) (live (h ++ [EFree a n])) -> In (b, m) (live h).
Proof. rewrite live_app. cbn [live_step]. intros H. apply drop_In in H. tauto. Qed.

Definition only_free (fr : list pstmt) : Prop := forall s, In s fr -> exists b m, s = PFree b m.

Lemma frees_live fr : only_free fr -> forall h0 a n, In (a, n) (live (events (h0 ++ fr))) -> In (a, n) (live (events h0)).
Proof.
  induction fr as [|s fr IH] using rev_ind; intros F h0 a n H; [now rewrite app_nil_r in H|].
  destruct (F s) as [b [m ->]]; [apply in_app_iff; cbn; auto|].
  apply IH; [intros x Hx; apply F; apply in_app_iff; auto|]. rewrite app_assoc, events_app in H. eapply drop_live. exact H.
Qed.

Lemma frees_events fr : only_free fr -> forall a n, ~ reserved (events fr) a n.
Proof.
  intros F a n [args [HI _]]. unfold events in HI. apply in_flat_map in HI. destruct HI as [s [Hs HI]]. destruct (F s Hs) as [b [m ->]].
  destruct HI as [HI|[]]. discriminate.
Qed.

Lemma usable_reserved h a n : legal (events h) -> usable h a n -> reserved (events h) a n.
Proof.
  intros L [h0 [fr [-> [F HI]]]]. rewrite events_app in *. apply live_reserved in HI; [|eapply legal_prefix; eauto].
  destruct HI as [args [HI LA]]. exists args. split; auto. apply in_app_iff. auto.
Qed.

(** two usable arrays were in use at the same time *)
Lemma usable_together h a n b m : usable h a n -> usable h b m ->
  exists h0 fr, h = h0 ++ fr /\ In (a, n) (live (events h0)) /\ In (b, m) (live (events h0)).
Proof.
  intros [h1 [f1 [-> [F1 H1]]]] [h2 [f2 [E [F2 H2]]]]. destruct (app_split _ _ _ _ E) as [l [[-> ->]|[-> ->]]].
  - exists h2, (l ++ f1). rewrite app_assoc. split; auto. split; auto. apply (frees_live l); auto. intros x Hx. apply F2. apply in_app_iff. auto.
  - exists h1, (l ++ f2). split; auto. split; auto. apply (frees_live l); auto. intros x Hx. apply F1. apply in_app_iff. auto.
Qed.

Lemma usable_cases h s a n : usable (h ++ [s]) a n ->
  In (a, n) (live (events (h ++ [s]))) \/ ((exists b m, s = PFree b m) /\ usable h a n).
Proof.
  intros [h0 [fr [E [F HI]]]]. destruct fr as [|x fr] using rev_ind.
  - rewrite app_nil_r in E. subst h0. auto.
  - clear IHfr. right. rewrite app_assoc in E. apply app_inj_tail in E. destruct E as [-> ->]. split; [apply F, in_app_iff; cbn; auto|].
    exists h0, fr. split; auto. split; auto. intros y Hy. apply F. apply in_app_iff. auto.
Qed.

Lemma live_quiet h s : event s = [] -> live (events (h ++ [s])) = live (events h).
Proof. intros E. rewrite events_app. unfold events at 2. cbn [flat_map]. rewrite E. cbn [app]. now rewrite app_nil_r. Qed.

Lemma usable_live h a n : In (a, n) (live (events h)) -> usable h a n.
Proof. intros H. exists h, []. rewrite app_nil_r. split; auto. split; auto. intros s []. Qed.

(** ** Printing and executing step by step *)
Lemma printAll_snoc place p s t :
  printAll place t (p ++ [s]) =
  (fst (printAll place t p) ++ fst (printStmt place (snd (printAll place t p)) s), snd (printStmt place (snd (printAll place t p)) s)).
Proof.
  revert t. induction p as [|x p IH]; intros t; cbn [printAll app].
  - cbn [fst snd app]. rewrite app_nil_r. reflexivity.
  - rewrite IH. cbn [fst snd]. now rewrite app_assoc.
Qed.

Section Exec.
Context {V : Type}.
Variable ndef : nat -> nexp.
Variable pv xv : nat -> V.
Variable ov : nat -> list V -> V.
Variable fn : nat -> list (list V) -> nat -> V.
Notation cexec := (cexec ndef pv xv ov fn).
Notation cexecAll := (cexecAll ndef pv xv ov fn).
Notation nval := (nval pv xv ov).
Notation aval := (aval ndef pv xv ov).
Notation meaning := (meaning pv xv ov).
Notation arg_meaning := (arg_meaning ndef pv xv ov).

Lemma cexecAll_app place l1 l2 mem :
  cexecAll place mem (l1 ++ l2) =
  (fst (cexecAll place (fst (cexecAll place mem l1)) l2), snd (cexecAll place mem l1) ++ snd (cexecAll place (fst (cexecAll place mem l1)) l2)).
Proof.
  revert mem. induction l1 as [|c l1 IH]; intros mem; cbn [ArrayPrint_model.cexecAll app]; [cbn [fst snd app]; apply surjective_pairing|].
  rewrite IH. cbn [fst snd]. now rewrite app_assoc.
Qed.

Lemma nval_meaning mem place content : forall e, (forall b i, In (b, i) (elems e) -> mem (place b + i) = content b i) ->
  nval mem place e = meaning content e.
Proof.
  fix IH 1. intros e. destruct e as [a i|x|v|o l]; intros H; cbn [ArrayPrint_model.nval ArrayPrint_spec.meaning]; auto.
  - apply H. cbn. auto.
  - f_equal. cbn [elems] in H. induction l as [|e l IHl]; cbn [map]; auto. cbn [flat_map] in H. f_equal.
    + apply IH. intros b i Q. apply H. apply in_app_iff. auto.
    + apply IHl. intros b i Q. apply H. apply in_app_iff. auto.
Qed.

(** what is known about the elements *)
Definition known (content : nat -> nat -> V) (t : tracker) (mem : nat -> V) : Prop :=
  forall q x, t q = Some x -> mem q = arg_meaning content x.

Lemma sameArg_eq x y : sameArg x (Some y) = true -> x = y.
Proof. destruct x, y; cbn; try discriminate; intros H; apply Nat.eqb_eq in H; congruence. Qed.

Lemma create_ok content place lo hi : forall args start t mem0 mem,
  lo <= start -> start + length args <= hi ->
  (forall q, ~ (lo <= q < hi) -> mem q = mem0 q) ->
  (forall x mem', In x args -> (forall q, ~ (lo <= q < hi) -> mem' q = mem0 q) -> aval mem' place x = arg_meaning content x) ->
  known content t mem ->
  let c := printCreate start args t in
  let r := cexecAll place mem (fst c) in
  snd r = [] /\ known content (snd c) (fst r) /\
  (forall q, ~ in_window start (length args) q -> fst r q = mem q) /\
  (forall i x, nth_error args i = Some x -> fst r (start + i) = arg_meaning content x).
Proof.
  induction args as [|a l IH]; intros start t mem0 mem L1 L2 A R K; cbn [printCreate length] in *.
  - cbn. split; auto. split; auto. split; auto. intros [|i] x H; discriminate.
  - assert (HD : forall mem1 t1, (forall q, q <> start -> mem1 q = mem q) -> mem1 start = arg_meaning content a -> known content t1 mem1 ->
      let c := printCreate (S start) l t1 in let r := cexecAll place mem1 (fst c) in
      snd r = [] /\ known content (snd c) (fst r) /\
      (forall q, ~ in_window start (S (length l)) q -> fst r q = mem q) /\
      (forall i x, nth_error (a :: l) i = Some x -> fst r (start + i) = arg_meaning content x)).
    { intros mem1 t1 M1 M2 K1. destruct (IH (S start) t1 mem0 mem1) as [B1 [B2 [B3 B4]]]; auto; try lia.
      { intros q Q. rewrite M1 by lia. auto. }
      { intros x mem' Hx. apply R. now right. }
      split; auto. split; auto. split.
      - intros q Q. rewrite B3; [apply M1|]; unfold in_window in *; lia.
      - intros [|i] x H; cbn in H.
        + injection H as <-. rewrite Nat.add_0_r, B3; auto. unfold in_window. lia.
        + replace (start + S i) with (S start + i) by lia. apply B4; auto. }
    destruct (t start) as [y|] eqn:ET; [destruct (sameArg a (Some y)) eqn:ES|cbn [sameArg]].
    + apply sameArg_eq in ES. subst y. apply HD; auto.
    + cbn [fst snd ArrayPrint_model.cexecAll ArrayPrint_model.cexec app].
      apply HD.
      * intros q N. rewrite upd_eq. destruct (Nat.eqb_spec q start); [congruence|auto].
      * rewrite upd_eq, Nat.eqb_refl. apply R; cbn; auto.
      * intros q x. rewrite !upd_eq. destruct (Nat.eqb_spec q start) as [->|N]; [|apply K]. intros [= <-]. apply R; cbn; auto.
    + cbn [fst snd ArrayPrint_model.cexecAll ArrayPrint_model.cexec app].
      apply HD.
      * intros q N. rewrite upd_eq. destruct (Nat.eqb_spec q start); [congruence|auto].
      * rewrite upd_eq, Nat.eqb_refl. apply R; cbn; auto.
      * intros q x. rewrite !upd_eq. destruct (Nat.eqb_spec q start) as [->|N]; [|apply K]. intros [= <-]. apply R; cbn; auto.
Qed.

Lemma setWindow_in mem start n (v : nat -> V) i : i < n -> setWindow mem start n v (start + i) = v i.
Proof.
  induction n as [|n IH]; intros H; [lia|]. cbn [setWindow]. rewrite upd_eq. destruct (Nat.eqb_spec (start + i) (start + n)) as [E|N].
  - f_equal. lia.
  - apply IH. lia.
Qed.
Lemma setWindow_out mem start n (v : nat -> V) q : ~ in_window start n q -> setWindow mem start n v q = mem q.
Proof.
  induction n as [|n IH]; intros H; auto. cbn [setWindow]. rewrite upd_eq. destruct (Nat.eqb_spec q (start + n)) as [E|N].
  - exfalso. apply H. unfold in_window. lia.
  - apply IH. unfold in_window in *. lia.
Qed.

Lemma window_content mem start n (c : nat -> V) : (forall i, i < n -> mem (start + i) = c i) -> window mem start n = map c (seq 0 n).
Proof.
  unfold window. intros H. replace (seq start n) with (map (fun i => start + i) (seq 0 n)).
  - rewrite map_map. apply map_ext_in. intros i Hi. apply in_seq in Hi. apply H. lia.
  - clear. revert start. induction n as [|n IH]; intros start; cbn [seq map]; auto. rewrite Nat.add_0_r. f_equal.
    rewrite <- (IH (S start)), <- seq_shift, map_map. apply map_ext. intros. lia.
Qed.

Lemma is_out_snoc h s a : is_out (h ++ [s]) a <-> is_out h a \/ exists n f ins, s = PCall a n f ins.
Proof.
  split.
  - intros [n [f [ins H]]]. apply in_app_iff in H. destruct H as [H|[H|[]]]; [left; exists n, f, ins; auto|right; eauto].
  - intros [[n [f [ins H]]]|[n [f [ins ->]]]]; exists n, f, ins; apply in_app_iff; cbn; auto.
Qed.

Section Program.
Variable p : list pstmt.
Variable max : nat.
Variable content : nat -> nat -> V.
Hypothesis WF : in_order ndef p.
Hypothesis KEPT : operands_kept ndef p.
Hypothesis MAX : total (events p) <= max.
Hypothesis CONT : contents ndef pv xv ov fn p content.
Variable fin : ast.
Notation init := (mkAst (newComp max) (fun _ => 0)).
Hypothesis FIN : arun ndef init (events p) = AOk fin.
Notation P := (a_place fin).

Lemma total_prefix h t : total h <= total (h ++ t).
Proof. unfold total. rewrite map_app, list_sum_app. lia. Qed.

Lemma prefix_state h t : p = h ++ t -> exists s, arun ndef init (events h) = AOk s /\
    let c := a_comp s in
    W (c_start c) (c_end c) (c_count c - 1) /\ 1 <= c_count c /\ c_count c - 1 <= total (events h) /\ length (c_vals c) = max /\
    (forall a n, reserved (events h) a n -> P a + n <= c_count c - 1 /\ a_place s a = P a) /\
    (forall a n b m q, In (a, n) (live (events h)) -> In (b, m) (live (events h)) -> a <> b -> in_window (P a) n q -> ~ in_window (P b) m q).
Proof.
  intros E. destruct WF as [L _]. rewrite E, events_app in L. pose proof (legal_prefix _ _ L) as L1.
  assert (T : total (events h) <= max) by (pose proof MAX as M; rewrite E, events_app in M; pose proof (total_prefix (events h) (events t)); lia).
  destruct (history_ok ndef max (events h) L1 T) as [s [R [A1 [A2 [A3 [A4 [A5 [A6 [A7 A8]]]]]]]]].
  assert (PL : forall a n, reserved (events h) a n -> a_place s a = P a).
  { intros a n HR. symmetry. pose proof FIN as F. rewrite E, events_app in F. eapply place_final; eauto. }
  exists s. split; auto. split; auto. split; auto. split; auto. split; auto. split.
  - intros a n HR. pose proof (PL a n HR) as Q. rewrite <- Q. auto.
  - intros a n b m q Ha Hb N. rewrite <- (PL a n), <- (PL b m) by (apply live_reserved; auto). now apply A7.
Qed.

Lemma inv h t mem0 : p = h ++ t ->
  let pr := printAll P (fun _ => None) h in
  let r := cexecAll P mem0 (fst pr) in
  snd r = expected content h /\
  (forall a n i, usable h a n -> i < n -> filled p h a -> fst r (P a + i) = content a i) /\
  known content (snd pr) (fst r).
Proof.
  revert t. induction h as [|s h IH] using rev_ind; intros t E.
  - cbn. split; auto. split; [|discriminate]. intros a n i [h0 [fr [Q [_ HI]]]]. symmetry in Q. apply app_eq_nil in Q. destruct Q as [-> _]. destruct HI.
  - rewrite <- app_assoc in E. cbn [app] in E. destruct (IH _ E) as [I1 [I2 I3]].
    cbn zeta. rewrite printAll_snoc. cbn [fst snd]. rewrite cexecAll_app. cbn [fst snd].
    set (pr := printAll P (fun _ => None) h) in *. set (mem := fst (cexecAll P mem0 (fst pr))) in *.
    rewrite I1. replace (expected content (h ++ [s])) with (expected content h ++ expected1 content s)
      by (unfold expected; rewrite flat_map_app; cbn [flat_map]; now rewrite app_nil_r).
    assert (E' : p = (h ++ [s]) ++ t) by now rewrite <- app_assoc.
    destruct WF as [LG ST]. pose proof (ST h s t E) as SS.
    assert (LH : legal (events h)) by (rewrite E, events_app in LG; eapply legal_prefix; eauto).
    assert (KEEP : forall n0 a0, usable h a0 n0 -> reserved (events h) a0 n0) by (intros; now apply usable_reserved).
    assert (FSAME : forall a, (forall n f ins, s <> PCall a n f ins) -> filled p (h ++ [s]) a -> filled p h a).
    { intros a N F O. apply F in O. apply is_out_snoc in O. destruct O as [O|[n [f [ins O]]]]; auto. now apply N in O. }
    destruct s as [b m|a args|out n f ins|b i0]; cbn [printStmt fst snd ArrayPrint_model.cexecAll expected1].
    + (* free *)
      split; [reflexivity|]. split; auto. intros a n i U LT F. apply (I2 a n i); auto.
      * apply usable_cases in U. destruct U as [U|[_ U]]; auto. rewrite events_app in U. apply usable_live. eapply drop_live. exact U.
      * apply FSAME; auto. discriminate.
    + (* create *)
      destruct (prefix_state h _ E) as [s1 [R1 [W1 [C1 [T1 [V1 [P1 D1]]]]]]].
      destruct (prefix_state (h ++ [PCreate a args]) _ E') as [s2 [R2 [W2 [C2 [T2 [V2 [P2 D2]]]]]]].
      assert (TT : total (events h) + length args <= max).
      { pose proof MAX as M. rewrite E', events_app in M. pose proof (total_prefix (events (h ++ [PCreate a args])) (events t)) as Q.
        rewrite events_app in Q at 1. cbn [events flat_map event app] in Q. rewrite total_app in Q. cbn in Q. lia. }
      destruct (reserve_W ndef (a_place s1) (a_comp s1) args W1 C1) as [c' [start [RS [_ [_ [CB [_ [_ [_ BL]]]]]]]]]; [lia|].
      assert (PA : P a = start).
      { rewrite events_app in R2. cbn [events flat_map event app] in R2. fold (events h) in R2. rewrite arun_app, R1 in R2. cbn [abind arun astep] in R2.
        rewrite RS in R2. cbn [abind fst snd] in R2. injection R2 as <-.
        rewrite <- (proj2 (P2 a (length args) ltac:(rewrite events_app; apply reserved_app; right; eauto))).
        cbn [a_place]. unfold setPlace. now rewrite Nat.eqb_refl. }
      assert (LV : live (events (h ++ [PCreate a args])) = (a, length args) :: live (events h)) by (rewrite events_app; cbn [events flat_map event app]; now rewrite live_app).
      assert (NA : forall n, ~ In (a, n) (live (events h))).
      { intros n Q. apply live_reserved in Q; auto. pose proof LG as LG2. rewrite E', events_app in LG2. apply legal_prefix in LG2. rewrite events_app in LG2.
        eapply legal_fresh; [exact LG2|exact Q|]. exists args. cbn. eauto. }
      destruct (create_ok content P (P a) (P a + length args) args (P a) (snd pr) mem mem) as [B1 [B2 [B3 B4]]]; auto.
      { intros x mem' HX AG. destruct x as [v|n]; cbn [ArrayPrint_model.aval ArrayPrint_spec.arg_meaning]; auto.
        pose proof (SS n HX) as CR. pose proof (KEPT h a args t E n HX) as SF.
        apply nval_meaning. intros b i HE. destruct (CR b i HE) as [m [U [LT F]]]. rewrite AG; [eapply I2; eauto|].
        destruct SF as [DR|LVE].
        - destruct (ndef n) as [b' i'|x|v|o l] eqn:EN; cbn [elems] in HE; try (now destruct HE); [|contradiction].
          destruct HE as [[= -> ->]|[]]. pose proof (P1 b m (KEEP m b U)) as [PB PE].
          change (~ in_window (P a) (length args) (P b + i)). rewrite PA. rewrite <- PE.
          apply BL; [|rewrite PE; lia]. clear -HX EN. induction args as [|x args IHa]; [destruct HX|]. destruct HX as [->|HX].
          + cbn [blackList]. rewrite EN. cbn. auto.
          + cbn [blackList]. destruct x as [|k]; auto. destruct (ndef k); auto. cbn. auto.
        - destruct (LVE b i HE) as [m' HL].
          assert (m' = m) by (eapply reserved_unique; [exact LH|apply live_reserved; eauto|now apply KEEP]). subst m'.
          intros Q. apply (D2 b m a (length args) (P b + i)).
          + rewrite LV. now right.
          + rewrite LV. now left.
          + intros ->. now apply NA in HL.
          + unfold in_window. lia.
          + exact Q. }
      cbn zeta in B1, B2, B3, B4. rewrite B1. split; [reflexivity|]. split; [|exact B2].
      intros b m i U LT F. apply usable_cases in U. destruct U as [U|[[x [y Q]] _]]; [|discriminate]. rewrite LV in U.
      destruct U as [[= <- <-]|U].
      * assert (NO : ~ is_out p a).
        { intros O. assert (F' : is_out h a) by (apply FSAME in F; [auto|discriminate]). destruct F' as [n [f [ins O']]].
          apply in_split in O'. destruct O' as [h1 [h2 EH]].
          assert (E1 : p = h1 ++ PCall a n f ins :: (h2 ++ PCreate a args :: t)) by (rewrite E, EH, <- app_assoc; reflexivity).
          pose proof (ST _ _ _ E1) as [UO _].
          assert (LH1 : legal (events h1)) by (rewrite EH, events_app in LH; eapply legal_prefix; eauto).
          apply usable_reserved in UO; auto. pose proof LG as LG2. rewrite E', events_app in LG2. apply legal_prefix in LG2. rewrite events_app in LG2.
          eapply (legal_fresh _ _ LG2 a n); [|exists args; cbn; eauto].
          destruct UO as [l [Q1 Q2]]. exists l. split; auto. rewrite EH, events_app. apply in_app_iff. auto. }
        destruct (nth_error args i) as [x|] eqn:EN; [|apply nth_error_None in EN; lia].
        rewrite (B4 i x EN). symmetry. destruct CONT as [CA _]. apply (CA a args i x); auto. rewrite E. apply in_app_iff. cbn. auto.
      * rewrite B3.
        -- eapply I2; eauto. { now apply usable_live. } apply FSAME; auto. discriminate.
        -- intros Q. apply (D2 b m a (length args) (P b + i)).
           ++ rewrite LV. now right.
           ++ rewrite LV. now left.
           ++ intros ->. now apply NA in U.
           ++ unfold in_window. lia.
           ++ exact Q.
    + (* call *)
      destruct SS as [UO [UI NO]]. cbn [ArrayPrint_model.cexec ArrayPrint_model.cexecAll fst snd app]. rewrite map_map. cbn [fst snd].
      assert (VS : map (fun x => window mem (P (fst x)) (snd x)) ins = map (fun x => map (content (fst x)) (seq 0 (snd x))) ins).
      { apply map_ext_in. intros [b m] HX. cbn [fst snd]. destruct (UI b m HX) as [U F]. apply window_content. intros i LT. eapply I2; eauto. }
      rewrite VS. split; [reflexivity|]. split.
      * intros b m i U LT F. 
        assert (U' : usable h b m).
        { apply usable_cases in U. destruct U as [U|[[x [y Q]] _]]; [|discriminate]. apply usable_live. now rewrite live_quiet in U. }
        destruct (Nat.eq_dec b out) as [->|NE].
        -- assert (m = n) by exact (reserved_unique _ LH out m n (KEEP _ _ U') (KEEP _ _ UO)). subst m.
           rewrite setWindow_in by auto. symmetry. destruct CONT as [_ CB]. apply (CB out n f ins i); auto. rewrite E. apply in_app_iff. cbn. auto.
        -- rewrite setWindow_out.
           ++ eapply I2; eauto. apply FSAME; auto. intros. congruence.
           ++ intros Q. destruct (usable_together _ _ _ _ _ U' UO) as [h0 [fr [EH [H1 H2]]]].
              assert (E0 : p = h0 ++ (fr ++ PCall out n f ins :: t)) by (rewrite E, EH, <- app_assoc; reflexivity).
              destruct (prefix_state h0 _ E0) as [s0 [_ [_ [_ [_ [_ [_ D0]]]]]]].
              apply (D0 b m out n (P b + i)); auto. unfold in_window. lia.
      * intros q x. unfold markChanged. destruct ((P out <=? q) && (q <? P out + n)) eqn:EQ; [discriminate|]. intros TQ.
        rewrite setWindow_out; [apply I3; auto|]. intros [Q1 Q2]. apply Nat.leb_le in Q1. apply Nat.ltb_lt in Q2. rewrite Q1, Q2 in EQ. discriminate.
    + (* read *)
      destruct SS as [m [U [LT F]]]. cbn [ArrayPrint_model.cexec ArrayPrint_model.cexecAll fst snd app]. split.
      * f_equal. f_equal. f_equal. exact (I2 b m i0 U LT F).
      * split; auto. intros a n i U' LT' F'. eapply (I2 a n i); auto.
        -- apply usable_cases in U'. destruct U' as [U'|[[x [y Q]] _]]; [|discriminate]. apply usable_live. now rewrite live_quiet in U'.
        -- apply FSAME; auto. discriminate.
Qed.
End Program.
End Exec.

(** Theorems about temporary arrays. *)
Require Import List Arith Bool Lia.
From Verif Require Import Arrays_model Arrays_spec Arrays_proofs ArrayPrint_model ArrayPrint_spec ArrayPrint_proofs.
Import ListNotations.

(** ** C12 Places *)

(** Whatever the sizes and arguments of the arrays are and in whatever order they are reserved and released, the spaces of arrays
    which are in use at the same time do not overlap, they are inside the declared work array, and the work array is never larger
    than all arrays together.  No vector is accessed outside of its bounds, no exception is thrown and no subtraction wraps around. *)
Theorem C12_arrays_never_overlap : forall ndef max h, legal h -> total h <= max ->
  exists s, arun ndef (mkAst (newComp max) (fun _ => 0)) h = AOk s /\
    c_count (a_comp s) - 1 <= total h /\
    (forall a n, In (a, n) (live h) -> a_place s a + n <= c_count (a_comp s) - 1) /\
    forall a n b m p, In (a, n) (live h) -> In (b, m) (live h) -> a <> b ->
      in_window (a_place s a) n p -> ~ in_window (a_place s b) m p.
Proof.
  intros ndef max h L T. destruct (history_ok ndef max h L T) as [s [R [_ [_ [CT [_ [RB [_ [DJ _]]]]]]]]].
  exists s. split; auto. split; auto. split; auto. intros a n H. apply RB. now apply live_reserved.
Qed.
Print Assumptions C12_arrays_never_overlap.

(** An array is never placed over an element which is one of its arguments, even when the array of this element was released. *)
Theorem C12_arguments_are_not_overwritten : forall ndef max h a args b n i m, legal h -> (forall k, ~ reserved h a k) ->
  total h + length args <= max -> In (Nod n) args -> ndef n = NElem b i -> reserved h b m -> i < m ->
  exists s, arun ndef (mkAst (newComp max) (fun _ => 0)) (h ++ [EReserve a args]) = AOk s /\
    ~ in_window (a_place s a) (length args) (a_place s b + i).
Proof.
  intros ndef max h a args b n i m L NR T HI HN HB LT.
  destruct (history_ok ndef max h L) as [s [R [HW [C1 [CT [LV [RB _]]]]]]]; [lia|].
  destruct (reserve_W ndef (a_place s) (a_comp s) args HW C1) as [c' [start [RS [_ [_ [_ [_ [_ [_ BL]]]]]]]]]; [lia|].
  rewrite arun_app, R. cbn [abind arun astep]. rewrite RS. cbn [abind fst snd]. eexists. split; [reflexivity|].
  cbn [a_place]. unfold setPlace. rewrite Nat.eqb_refl. destruct (Nat.eqb_spec b a) as [->|N]; [now apply NR in HB|].
  apply BL; [|apply RB in HB; lia]. clear -HI HN. induction args as [|x args IHa]; [destruct HI|]. destruct HI as [->|HI]; cbn [blackList].
  - rewrite HN. cbn. auto.
  - destruct x as [|k]; auto. destruct (ndef k); auto. cbn. auto.
Qed.
Print Assumptions C12_arguments_are_not_overwritten.

(** deciding whether a history is legal *)
Definition memb (a : nat) (l : list nat) : bool := existsb (Nat.eqb a) l.
Lemma memb_ok a l : memb a l = true <-> In a l.
Proof. unfold memb. rewrite existsb_exists. split; [intros [x [H E]]; apply Nat.eqb_eq in E; now subst|intros H; exists a; split; auto; apply Nat.eqb_refl]. Qed.
Definition pair_eqb (x y : nat * nat) : bool := (fst x =? fst y) && (snd x =? snd y).
Lemma pair_eqb_ok x y : pair_eqb x y = true -> x = y.
Proof. destruct x, y. unfold pair_eqb. cbn. intros H. apply andb_true_iff in H. destruct H as [A B]. apply Nat.eqb_eq in A, B. congruence. Qed.
Fixpoint legalb (seen : list nat) (lv : list (nat * nat)) (h : list aev) : bool :=
  match h with
  | [] => true
  | EReserve a args :: t => negb (memb a seen) && legalb (a :: seen) ((a, length args) :: lv) t
  | EFree a n :: t => existsb (pair_eqb (a, n)) lv && legalb seen (drop_array a lv) t
  end.
Lemma legalb_from h : forall h0 seen, legal h0 -> (forall a n, reserved h0 a n -> In a seen) -> legalb seen (live h0) h = true -> legal (h0 ++ h).
Proof.
  induction h as [|e h IH]; intros h0 seen L SE H; [now rewrite app_nil_r|].
  replace (h0 ++ e :: h) with ((h0 ++ [e]) ++ h) by now rewrite <- app_assoc.
  destruct e as [a args|a n]; cbn [legalb] in H; apply andb_true_iff in H; destruct H as [H1 H2].
  - apply (IH _ (a :: seen)); [| |now rewrite live_app].
    + constructor; auto. intros n Q. apply SE, memb_ok in Q. rewrite Q in H1. discriminate.
    + intros b n Q. apply reserved_app in Q. destruct Q as [Q|[l [[= -> _] _]]]; [right; eauto|now left].
  - apply (IH _ seen); [| |now rewrite live_app].
    + constructor; auto. apply existsb_exists in H1. destruct H1 as [x [H1 E]]. apply pair_eqb_ok in E. now subst x.
    + intros b m Q. apply reserved_app in Q. destruct Q as [Q|[l [? _]]]; [eauto|discriminate].
Qed.
Lemma legalb_ok h : legalb [] [] h = true -> legal h.
Proof. intros H. apply (legalb_from h [] []); auto. { constructor. } intros a n [args [[] _]]. Qed.

(** arrays of sizes 2, 3 and 1 are reserved, the first two are released and a fourth one takes four of the five elements *)
Definition some_history : list aev :=
  [EReserve 1 [Par 0; Par 1]; EReserve 2 [Par 0; Par 0; Par 0]; EReserve 3 [Nod 0]; EFree 2 3; EFree 1 2; EReserve 4 [Par 7; Par 7; Par 7; Par 7]].
Example C12_case : legal some_history /\ total some_history = 10 /\
  match arun (fun _ => NElem 2 1) (mkAst (newComp 10) (fun _ => 0)) some_history with
  | AOk s => (a_place s 1, a_place s 2, a_place s 3, a_place s 4, c_count (a_comp s), c_start (a_comp s)) = (0, 2, 5, 0, 7, [(4, 4)])
  | _ => False
  end.
Proof. split; [apply legalb_ok; reflexivity|]. split; [reflexivity|]. vm_compute. reflexivity. Qed.

(** ** C47 Values *)

(** The generated code gives every call of an atomic function, and every use of an element, the right values. *)
Theorem C47_arrays_hold_their_values : forall {V} ndef (pv xv : nat -> V) ov fn p content max mem,
  in_order ndef p -> operands_kept ndef p -> total (events p) <= max -> contents ndef pv xv ov fn p content ->
  exists place code, generated ndef max p = AOk (place, code) /\
    snd (cexecAll ndef pv xv ov fn place mem code) = expected content p.
Proof.
  intros V ndef pv xv ov fn p content max mem WF KE MX CO. unfold generated.
  destruct (history_ok ndef max (events p) (proj1 WF) MX) as [fin [R _]]. rewrite R. cbn [abind]. do 2 eexists. split; [reflexivity|].
  destruct (inv ndef pv xv ov fn p max content WF KE MX CO fin R p [] mem) as [I1 _]; [now rewrite app_nil_r|]. exact I1.
Qed.
Print Assumptions C47_arrays_hold_their_values.

(** *** Deciding the hypotheses for concrete statements *)
Definition is_free (s : pstmt) : bool := match s with PFree _ _ => true | _ => false end.
Definition liveb (h : list pstmt) a n : bool := existsb (pair_eqb (a, n)) (live (events h)).
Lemma liveb_ok h a n : liveb h a n = true -> In (a, n) (live (events h)).
Proof. intros H. apply existsb_exists in H. destruct H as [x [H E]]. apply pair_eqb_ok in E. now subst x. Qed.
Fixpoint suffixes (h : list pstmt) : list (list pstmt) :=   (* of a reversed list: what remains without some of its first frees *)
  h :: match h with [] => [] | s :: l => if is_free s then suffixes l else [] end.
Definition usableb (h : list pstmt) a n : bool := existsb (fun r => liveb (rev r) a n) (suffixes (rev h)).
Lemma usableb_ok h a n : usableb h a n = true -> usable h a n.
Proof.
  unfold usableb. intros H. apply existsb_exists in H. destruct H as [r [HR HL]]. apply liveb_ok in HL.
  assert (G : forall l, In r (suffixes l) -> exists fr, l = fr ++ r /\ forall s, In s fr -> exists b m, s = PFree b m).
  { induction l as [|s l IH]; cbn [suffixes]; [intros [<-|[]]; exists []; split; auto; intros s []|].
    intros [<-|H]; [exists []; split; auto; intros x []|]. destruct s; cbn [is_free] in H; try contradiction.
    destruct (IH H) as [fr [-> F]]. exists (PFree a0 size :: fr). split; auto. intros x [<-|Hx]; eauto. }
  apply G in HR. destruct HR as [fr [E F]]. exists (rev r), (rev fr). split; [|split; auto].
  - rewrite <- (rev_involutive h), E, rev_app_distr. reflexivity.
  - intros s Hs. apply F. now apply in_rev.
Qed.
Definition outs (p : list pstmt) : list nat := flat_map (fun s => match s with PCall o _ _ _ => [o] | _ => [] end) p.
Lemma outs_ok p a : is_out p a <-> In a (outs p).
Proof.
  unfold is_out, outs. rewrite in_flat_map. split.
  - intros [n [f [ins H]]]. eexists. split; [exact H|]. cbn. auto.
  - intros [s [H E]]. destruct s; try contradiction. destruct E as [->|[]]. eauto.
Qed.
Definition filledb (p h : list pstmt) a : bool := implb (memb a (outs p)) (memb a (outs h)).
Lemma filledb_ok p h a : filledb p h a = true -> filled p h a.
Proof.
  unfold filledb, filled. rewrite !outs_ok, <- !memb_ok. destruct (memb a (outs p)); cbn; auto. discriminate.
Qed.
(** sizes are looked for among the arrays of the statements *)
Definition sizes (p : list pstmt) : list nat := flat_map (fun s => match s with PCreate _ args => [length args] | _ => [] end) p.
Definition can_readb (p h : list pstmt) a i : bool := existsb (fun n => usableb h a n && (i <? n)) (sizes p) && filledb p h a.
Lemma can_readb_ok p h a i : can_readb p h a i = true -> can_read p h a i.
Proof.
  unfold can_readb. intros H. apply andb_true_iff in H. destruct H as [H F]. apply existsb_exists in H. destruct H as [n [_ H]].
  apply andb_true_iff in H. destruct H as [U L]. exists n. split; [now apply usableb_ok|]. split; [now apply Nat.ltb_lt|now apply filledb_ok].
Qed.
Definition stepb ndef (p h : list pstmt) (s : pstmt) : bool :=
  match s with
  | PFree _ _ => true
  | PCreate a args => forallb (fun x => match x with Par _ => true | Nod n => forallb (fun y => can_readb p h (fst y) (snd y)) (elems (ndef n)) end) args
  | PCall out n f ins => usableb h out n && forallb (fun y => usableb h (fst y) (snd y) && filledb p h (fst y)) ins && negb (memb out (outs h))
  | PRead a i => can_readb p h a i
  end.
Definition orderb ndef (p : list pstmt) : bool := forallb (fun k => match nth_error p k with Some s => stepb ndef p (firstn k p) s | None => true end) (seq 0 (length p)).
Lemma orderb_ok ndef p : legal (events p) -> orderb ndef p = true -> in_order ndef p.
Proof.
  intros L H. split; auto. intros h s t E. unfold orderb in H. rewrite forallb_forall in H. specialize (H (length h)).
  assert (LH : In (length h) (seq 0 (length p))) by (apply in_seq; rewrite E, app_length; cbn; lia). apply H in LH. clear H.
  replace (nth_error p (length h)) with (Some s) in LH by (rewrite E, nth_error_app2, Nat.sub_diag; auto).
  replace (firstn (length h) p) with h in LH by (rewrite E, firstn_app, Nat.sub_diag, firstn_all; cbn; now rewrite app_nil_r).
  destruct s as [b m|a args|out n f ins|b i]; cbn [stepb] in LH; auto.
  - intros n Hn b i Hb. rewrite forallb_forall in LH. apply LH in Hn. rewrite forallb_forall in Hn. apply Hn in Hb. now apply can_readb_ok in Hb.
  - apply andb_true_iff in LH. destruct LH as [LH NO]. apply andb_true_iff in LH. destruct LH as [U FI]. split; [now apply usableb_ok|]. split.
    + intros a m Ha. rewrite forallb_forall in FI. apply FI in Ha. apply andb_true_iff in Ha. destruct Ha as [A B]. split; [now apply usableb_ok|now apply filledb_ok].
    + rewrite outs_ok, <- memb_ok. destruct (memb out (outs h)); [discriminate|congruence].
  - now apply can_readb_ok.
Qed.
Definition directb (e : nexp) : bool := match e with NOp _ _ => false | _ => true end.
Definition keptb ndef (p : list pstmt) : bool :=
  forallb (fun s => match s with PCreate _ args => forallb (fun x => match x with Par _ => true | Nod n => directb (ndef n) end) args | _ => true end) p.
Lemma keptb_ok ndef p : keptb ndef p = true -> operands_kept ndef p.
Proof.
  intros H h a args t E n Hn. left. unfold keptb in H. rewrite forallb_forall in H. specialize (H (PCreate a args)).
  rewrite E in H. assert (Q : In (PCreate a args) (h ++ PCreate a args :: t)) by (apply in_app_iff; cbn; auto). apply H in Q.
  rewrite forallb_forall in Q. apply Q in Hn. destruct (ndef n); try discriminate; exact I.
Qed.

(** *** A case: two calls, where the second one uses elements of the first one, swapped *)
Definition two_ndef (n : nat) : nexp := match n with 0 => NVar 0 | 1 => NElem 1 1 | 2 => NElem 1 0 | 3 => NOp 0 [NElem 1 1] | _ => NOp 1 [NElem 1 0] end.
Definition two_calls (u v : nat) : list pstmt :=
  [PCreate 0 [Nod 0]; PCreate 1 [Par 0; Par 0]; PFree 0 1; PCall 1 2 0 [(0, 1)];
   PFree 1 2; PCreate 2 [Nod 0; Nod u; Nod v]; PCreate 3 [Par 0]; PFree 2 3; PCall 3 1 1 [(2, 3)]; PFree 3 1; PRead 3 0].
(** f0(x) = (x + 1, x + 2), f1(x, y, z) = y; operations multiply by 2 and by 3; x = 10 *)
Definition two_fn (f : nat) (ins : list (list nat)) (i : nat) : nat :=
  match f with 0 => nth 0 (nth 0 ins []) 0 + i + 1 | _ => nth 1 (nth 0 ins []) 0 end.
Definition two_ov (o : nat) (l : list nat) : nat := match o with 0 => 2 * nth 0 l 0 | _ => 3 * nth 0 l 0 end.
Definition two_xv (x : nat) : nat := 10.
Definition two_content (g1 g2 : nat) (a i : nat) : nat :=
  match a, i with 0, 0 => 10 | 1, 0 => 11 | 1, 1 => 12 | 2, 0 => 10 | 2, 1 => g1 | 2, 2 => g2 | 3, 0 => g1 | _, _ => 0 end.

Ltac two_contents :=
  split;
  [intros a args i x H NO HN; cbn in H;
   repeat (destruct H as [H|H]; [try discriminate; injection H as <- <-;
     first [exfalso; apply NO; apply outs_ok; cbn; tauto
           |repeat (destruct i as [|i]; [cbn in HN; injection HN as <-; reflexivity|cbn in HN]); destruct i; discriminate]|]); destruct H
  |intros out n f ins i H LT; cbn in H;
   repeat (destruct H as [H|H]; [try discriminate; injection H as <- <- <- <-; repeat (destruct i as [|i]; [reflexivity|]); lia|]); destruct H].

Lemma two_in_order u v : u < 5 -> v < 5 -> in_order two_ndef (two_calls u v).
Proof.
  intros Hu Hv. apply orderb_ok; [apply legalb_ok; reflexivity|].
  do 5 (destruct u as [|u]; [do 5 (destruct v as [|v]; [reflexivity|]); lia|]). lia.
Qed.

Example C47_case : let p := two_calls 1 2 in
  in_order two_ndef p /\ operands_kept two_ndef p /\ contents two_ndef (fun v => v) two_xv two_ov two_fn p (two_content 12 11) /\
  total (events p) = 7 /\
  match generated two_ndef 7 p with
  | AOk (place, code) =>
      map place [0; 1; 2; 3] = [0; 1; 3; 0] /\
      code = [CSet 0 (Nod 0); CSet 1 (Par 0); CSet 2 (Par 0); CCall 1 2 0 [(0, 1)];
              CSet 3 (Nod 0); CSet 4 (Nod 1); CSet 5 (Nod 2); CSet 0 (Par 0); CCall 0 1 1 [(3, 3)]; CRead 0]
  | _ => False
  end.
Proof.
  cbn zeta. split; [apply two_in_order; lia|]. split; [apply keptb_ok; reflexivity|]. split; [two_contents|].
  split; [reflexivity|]. vm_compute. auto.
Qed.

(** An expression which contains elements of an array can be computed after these elements were overwritten: the operands of an
    operation are not considered by reserveArraySpace (array_id_compresser.hpp 106-115), although the array is released before the
    place is chosen.  Here the second call gets (10, 24, 72) instead of (10, 24, 33). *)
Theorem C47_operands_overwritten_refuted : exists ndef (pv xv : nat -> nat) ov fn p content max,
  in_order ndef p /\ total (events p) <= max /\ contents ndef pv xv ov fn p content /\
  forall mem, exists place code, generated ndef max p = AOk (place, code) /\
    snd (cexecAll ndef pv xv ov fn place mem code) <> expected content p.
Proof.
  exists two_ndef, (fun v => v), two_xv, two_ov, two_fn, (two_calls 3 4), (two_content 24 33), 7.
  split; [apply two_in_order; lia|]. split; [cbn; lia|]. split; [two_contents|].
  intros mem. do 2 eexists. split; [vm_compute; reflexivity|]. vm_compute. discriminate.
Qed.
Print Assumptions C47_operands_overwritten_refuted.

(** Inside a loop the values which are known to be in the work array are those of the first iteration: nothing is forgotten at the
    beginning of a loop (language_c.hpp 692-695 is the only place where _tmpArrayValues is cleared).  The array 2 of the body is
    not assigned because its value is already there before the loop, but in the second iteration the place has the value of
    array 4. *)
Definition loop_before : list pstmt := [PCreate 0 [Par 5]; PCreate 1 [Par 0]; PFree 0 1; PCall 1 1 0 [(0, 1)]; PFree 1 1; PRead 1 0].
Definition loop_body : list pstmt :=
  [PCreate 2 [Par 5]; PCreate 3 [Par 0]; PFree 2 1; PCall 3 1 0 [(2, 1)]; PFree 3 1; PRead 3 0;
   PCreate 4 [Nod 0]; PCreate 5 [Par 0]; PFree 4 1; PCall 5 1 0 [(4, 1)]; PFree 5 1; PRead 5 0].
Definition loop_content (a i : nat) : nat := match a, i with 0, 0 => 5 | 1, 0 => 6 | 2, 0 => 5 | 3, 0 => 6 | 4, 0 => 10 | 5, 0 => 11 | _, _ => 0 end.
Theorem C47_arrays_in_loops_refuted : exists ndef (pv xv : nat -> nat) ov fn before body content max,
  in_order ndef (before ++ body) /\ operands_kept ndef (before ++ body) /\ total (events (before ++ body)) <= max /\
  contents ndef pv xv ov fn (before ++ body) content /\
  exists place c1 c2, generated ndef max (before ++ body) = AOk (place, c1 ++ c2) /\ c1 = fst (printAll place (fun _ => None) before) /\
  forall mem, 
    snd (cexecAll ndef pv xv ov fn place mem (c1 ++ c2)) = expected content (before ++ body) /\
    snd (cexecAll ndef pv xv ov fn place mem (c1 ++ c2 ++ c2)) <> expected content (before ++ body ++ body).
Proof.
  exists two_ndef, (fun v => v), two_xv, two_ov, two_fn, loop_before, loop_body, loop_content, 6.
  split; [apply orderb_ok; [apply legalb_ok|]; reflexivity|]. split; [apply keptb_ok; reflexivity|]. split; [cbn; lia|]. split; [two_contents|].
  eexists. exists [CSet 0 (Par 5); CSet 1 (Par 0); CCall 1 1 0 [(0, 1)]; CRead 1],
    [CSet 1 (Par 0); CCall 1 1 0 [(0, 1)]; CRead 1; CSet 0 (Nod 0); CSet 1 (Par 0); CCall 1 1 0 [(0, 1)]; CRead 1].
  split; [vm_compute; reflexivity|]. split; [vm_compute; reflexivity|]. intros mem. split; [vm_compute; reflexivity|vm_compute; discriminate].
Qed.
Print Assumptions C47_arrays_in_loops_refuted.

From Coq Require Import List Arith Bool ZArith Permutation Lia.
From Verif Require Import DaeGen_model Compare_model DummyD_model DummyD_spec DaeGen_lists DummyD_select DummyD_info.
Import ListNotations.
Local Open Scope nat_scope.

(** ** The equation of a variable *)
Lemma last_fold {Ty} (qs : list dinfo) (t : dinfo -> bool) (mk : nat -> Ty) (d : Ty) n : n <= List.length qs ->
  let r := fold_left (fun r p => match nth_error qs p with Some q => if t q then mk p else r | None => r end) (seq 0 n) d in
  (exists i q, i < n /\ nth_error qs i = Some q /\ t q = true /\ r = mk i /\ (forall k q', i < k -> k < n -> nth_error qs k = Some q' -> t q' = false)) \/
  (r = d /\ forall k q, k < n -> nth_error qs k = Some q -> t q = false).
Proof.
  induction n as [|n IH]; intro L; cbv zeta.
  - right. split; [reflexivity|]. intros; lia.
  - rewrite seq_S, fold_left_app. cbn [fold_left plus]. specialize (IH ltac:(lia)). cbv zeta in IH.
    set (r := fold_left _ (seq 0 n) d) in *. destruct (lt_nth qs n) as (q & E); [lia|]. rewrite E. destruct (t q) eqn:T.
    + left. exists n, q. split; [lia|]. split; [easy|]. split; [easy|]. split; [reflexivity|]. intros; lia.
    + destruct IH as [(i & q' & A & B & C & D & F)|(A & B)].
      * left. exists i, q'. split; [lia|]. split; [easy|]. split; [easy|]. split; [easy|]. intros k q'' L1 L2 E2.
        destruct (Nat.eq_dec k n) as [->|]; [congruence|]. apply (F k); [lia|lia|easy].
      * right. split; [easy|]. intros k q'' L2 E2. destruct (Nat.eq_dec k n) as [->|]; [congruence|]. apply (B k); [lia|easy].
Qed.
Definition hasVar (j : nat) (q : dinfo) : bool := match d_var q with Some k => k =? j | None => false end.
Lemma hasVar_eq j q : hasVar j q = true <-> d_var q = Some j.
Proof. unfold hasVar. destruct (d_var q) as [k|]; [|easy]. rewrite Nat.eqb_eq. split; congruence. Qed.
Lemma assignedEq_some qs j i : assignedEq qs j = Some i -> exists q, nth_error qs i = Some q /\ d_var q = Some j.
Proof.
  intro H. unfold assignedEq in H. destruct (last_fold qs (hasVar j) (@Some nat) None (List.length qs) (le_n _)) as [(k & q & A & B & C & D & F)|(A & _)]; cbv zeta in *.
  - unfold hasVar in D. rewrite D in H. injection H as ->. exists q. split; [easy|]. now apply hasVar_eq.
  - unfold hasVar in A. rewrite A in H. discriminate.
Qed.
Lemma assignedEq_inj qs j j' i : assignedEq qs j = Some i -> assignedEq qs j' = Some i -> j = j'.
Proof. intros A B. apply assignedEq_some in A as (q & E & V). apply assignedEq_some in B as (q' & E' & V'). congruence. Qed.
Lemma assignedEq_unique qs j i q : nth_error qs i = Some q -> d_var q = Some j ->
  (forall k q', nth_error qs k = Some q' -> d_var q' = Some j -> k = i) -> assignedEq qs j = Some i.
Proof.
  intros E V U. unfold assignedEq.
  destruct (last_fold qs (hasVar j) (@Some nat) None (List.length qs) (le_n _)) as [(k & q' & A & B & C & D & F)|(A & B)]; cbv zeta in *.
  - unfold hasVar in D. rewrite D. f_equal. apply hasVar_eq in C. eauto.
  - exfalso. assert (X := B i q (nth_lt _ _ _ E) E). apply hasVar_eq in V. congruence.
Qed.
Lemma oldEq_ok qs i q : nth_error qs i = Some q -> NoDup (map d_id qs) -> oldEq qs (d_id q) = i.
Proof.
  intros E ND. unfold oldEq.
  destruct (last_fold qs (fun q' => d_id q' =? d_id q) (fun p => p) 0 (List.length qs) (le_n _)) as [(k & q' & A & B & C & D & F)|(A & B)]; cbv zeta in *.
  - rewrite D. apply Nat.eqb_eq in C. eapply (NoDup_nth_error (map d_id qs)); [exact ND|rewrite map_length; exact A|].
    rewrite !nth_error_map, B, E. cbn. congruence.
  - exfalso. assert (X := B i q (nth_lt _ _ _ E) E). cbv beta in X. rewrite Nat.eqb_refl in X. discriminate.
Qed.

(** ** Explicit equations *)
Section Explicit.
Variables (vs : list vinfo) (eqOf : nat -> option nat).
Hypothesis inj : forall j j' i, eqOf j = Some i -> eqOf j' = Some i -> j = j'.
Lemma solve_length js qs r : solveDers vs eqOf js qs = Some r -> List.length r = List.length qs.
Proof.
  revert qs. induction js as [|j js IH]; intros qs H; cbn [solveDers] in H; [now injection H as <-|].
  destruct (nth_error vs j) as [v|]; [|now apply IH]. destruct (i_anti v) as [a|]; [|now apply IH].
  destruct (eqOf j) as [i|]; [|discriminate]. apply IH in H. now rewrite upd_length in H.
Qed.
Lemma solve_other js qs r i : solveDers vs eqOf js qs = Some r ->
  (forall j v a, In j js -> nth_error vs j = Some v -> i_anti v = Some a -> eqOf j <> Some i) -> nth_error r i = nth_error qs i.
Proof.
  revert qs. induction js as [|j js IH]; intros qs H N; cbn [solveDers] in H; [now injection H as <-|].
  assert (N' : forall j v a, In j js -> nth_error vs j = Some v -> i_anti v = Some a -> eqOf j <> Some i) by (intros; eapply N; eauto; now right).
  destruct (nth_error vs j) as [v|] eqn:Ev; [|now apply IH]. destruct (i_anti v) as [a|] eqn:Ea; [|now apply IH].
  destruct (eqOf j) as [k|] eqn:Ek; [|discriminate]. rewrite (IH _ H N'). apply upd_other. intros ->.
  apply (N j v a); [now left|easy|easy|exact Ek].
Qed.
Lemma solve_this js qs r j v a i q : NoDup js -> solveDers vs eqOf js qs = Some r -> In j js -> nth_error vs j = Some v -> i_anti v = Some a ->
  eqOf j = Some i -> nth_error qs i = Some q -> nth_error r i = Some (setVar (setExpl q) (Some a)).
Proof.
  intros ND. revert qs. induction ND as [|k js NI ND IH]; intros qs H I Ev Ea Ei Eq; [easy|]. cbn [solveDers] in H.
  destruct (Nat.eq_dec k j) as [->|NE].
  - rewrite Ev, Ea, Ei in H. rewrite (solve_other _ _ _ i H); [exact (upd_same (fun q => setVar (setExpl q) (Some a)) _ _ _ Eq)|].
    intros j' v' a' I' _ _ E'. assert (j' = j) by (eapply inj; eauto). congruence.
  - destruct I as [->|I]; [easy|]. destruct (nth_error vs k) as [w|]; [|now apply (IH qs)]. destruct (i_anti w) as [b|]; [|now apply (IH qs)].
    destruct (eqOf k) as [m|] eqn:Em; [|discriminate]. apply (IH _ H); try easy. rewrite upd_other; [easy|]. intros ->.
    apply NE. eapply inj; eauto.
Qed.
Lemma solve_defined js qs r j v a : solveDers vs eqOf js qs = Some r -> In j js -> nth_error vs j = Some v -> i_anti v = Some a -> eqOf j <> None.
Proof.
  revert qs. induction js as [|k js IH]; intros qs H I Ev Ea; [easy|]. cbn [solveDers] in H.
  destruct (Nat.eq_dec k j) as [->|NE].
  - rewrite Ev, Ea in H. destruct (eqOf j); [discriminate|discriminate].
  - destruct I as [->|I]; [easy|]. destruct (nth_error vs k) as [w|]; [|now apply (IH qs)]. destruct (i_anti w) as [b|]; [|now apply (IH qs)].
    destruct (eqOf k) as [m|]; [|discriminate]. eapply IH; eauto.
Qed.
End Explicit.

Lemma filter_pos {A} (f : A -> bool) l j x : nth_error l j = Some x -> f x = true ->
  nth_error (filter f l) (List.length (filter f (firstn j l))) = Some x.
Proof.
  revert j. induction l as [|y l IH]; intros j E F; [now destruct j|]. destruct j as [|j].
  - cbn in E. injection E as ->. cbn [firstn filter List.length]. rewrite F. reflexivity.
  - cbn [nth_error] in E. cbn [firstn filter]. destruct (f y); cbn [List.length nth_error]; now apply IH.
Qed.
Lemma newIndex_state vs j v : nth_error vs j = Some v -> i_anti v = None ->
  idAt (map (fun v => setDer v None) (filter isState vs)) (newIndex vs j) = Some (i_id v).
Proof.
  intros E A. unfold newIndex. rewrite E. assert (S : isState v = true) by (unfold isState; now rewrite A). rewrite S. cbn [idAt].
  rewrite nth_error_map, (filter_pos isState vs j v E S). reflexivity.
Qed.

(** ** The generated model *)
Section Regen.
Context {V : Type}.
Variable val : nat -> V.
Lemma handlerIds_eq vs vs' : handlerIds vs vs' = map i_id (filter (fun v => existsb (fun w => i_id w =? i_id v) vs') vs).
Proof.
  unfold handlerIds. induction vs as [|v l IH]; [reflexivity|]. cbn [map filter]. destruct (existsb _ vs'); cbn [map]; now rewrite IH.
Qed.
Lemma handler_fold ids vs' (y : list V) ps arr : NoDup ids ->
  (forall p w, nth_error vs' p = Some w -> In (i_id w) ids /\ nth_error y p = Some (val (i_id w))) ->
  List.length arr = List.length ids ->
  forall h id, nth_error ids h = Some id ->
  nth_error (fold_left (fun arr p => match nth_error vs' p with
                          | Some w => upd (fun _ => nth_error y p) (posOf (i_id w) ids) arr
                          | None => arr end) ps arr) h =
  if existsb (fun p => match nth_error vs' p with Some w => i_id w =? id | None => false end) ps then Some (Some (val id)) else nth_error arr h.
Proof.
  intros ND HY. revert arr. induction ps as [|p ps IH]; intros arr LA h id E; [reflexivity|]. cbn [fold_left existsb].
  destruct (nth_error vs' p) as [w|] eqn:Ew; [|now apply IH]. destruct (HY p w Ew) as (Iw & Ey).
  rewrite IH with (id := id); [|now rewrite upd_length|easy]. destruct (existsb _ ps); [now rewrite orb_true_r|]. rewrite orb_false_r.
  destruct (Nat.eqb_spec (i_id w) id) as [EQ|NE].
  - assert (P : posOf (i_id w) ids = h) by (apply nth_posOf; [easy|congruence]). rewrite P, upd_nth, Nat.eqb_refl.
    destruct (lt_nth arr h) as (o & ->); [rewrite LA; now apply nth_lt in E|]. cbn [option_map]. rewrite Ey. now rewrite EQ.
  - apply upd_other. intros ->. apply posOf_nth in Iw. congruence.
Qed.
Lemma handlerOrder_ok vs vs' y : NoDup (map i_id vs) -> (forall p w, nth_error vs' p = Some w -> In (i_id w) (map i_id vs)) ->
  (forall p w, nth_error vs' p = Some w -> nth_error y p = Some (val (i_id w))) -> handlerOrder vs vs' y = oldOrder vs vs' val.
Proof.
  intros ND IN HY. unfold oldOrder, handlerOrder.
  rewrite <- (map_map i_id (fun id => Some (val id))). rewrite <- handlerIds_eq.
  assert (NDh : NoDup (handlerIds vs vs')) by (unfold handlerIds; now apply NoDup_filter).
  assert (HY' : forall p w, nth_error vs' p = Some w -> In (i_id w) (handlerIds vs vs') /\ nth_error y p = Some (val (i_id w))).
  { intros p w E. split; [|now apply HY]. unfold handlerIds. apply filter_In. split; [now apply (IN p)|]. apply existsb_exists. exists w.
    split; [now apply nth_error_In in E|apply Nat.eqb_refl]. }
  assert (G : forall (l l' : list (option V)), (forall h, nth_error l h = nth_error l' h) -> l = l').
  { induction l as [|x l IH]; intros [|x' l'] H; [reflexivity|now specialize (H 0)|now specialize (H 0)|].
    assert (H0 := H 0). cbn in H0. injection H0 as ->. f_equal. apply IH. intro h. exact (H (S h)). }
  apply G. intro h. rewrite nth_error_map. destruct (nth_error (handlerIds vs vs') h) as [id|] eqn:E.
  - rewrite (handler_fold _ _ _ _ _ NDh HY') with (id := id); [|now rewrite repeat_length|easy].
    assert (X : existsb (fun p => match nth_error vs' p with Some w => i_id w =? id | None => false end) (seq 0 (List.length vs')) = true).
    { apply nth_error_In in E. unfold handlerIds in E. apply filter_In in E as (_ & E). apply existsb_exists in E as (w & Iw & Ew).
      apply In_nth_error in Iw as (p & Ep). apply existsb_exists. exists p. split; [apply in_seq; apply nth_lt in Ep; lia|]. now rewrite Ep. }
    rewrite X. reflexivity.
  - cbn [option_map]. apply nth_error_None. apply nth_error_None in E.
    assert (LEN : forall ps (arr : list (option V)), List.length (fold_left (fun arr p => match nth_error vs' p with
                          | Some w => upd (fun _ => nth_error y p) (posOf (i_id w) (handlerIds vs vs')) arr
                          | None => arr end) ps arr) = List.length arr).
    { induction ps as [|p ps IH]; intro arr; [reflexivity|]. cbn [fold_left]. rewrite IH. destruct (nth_error vs' p); [apply upd_length|reflexivity]. }
    rewrite LEN, repeat_length. exact E.
Qed.
End Regen.

(** ** Solutions *)
Section Solve.
Context {V : Type}.
Variable zero : V.
Notation env := (nat -> V).
Definition proper (f : env -> V) : Prop := forall x y, (forall j, x j = y j) -> f x = f y.
Lemma setv_same (x : env) d j : setv x d (x d) j = x j.
Proof. unfold setv. destruct (Nat.eqb_spec j d) as [->|]; reflexivity. Qed.
Lemma substituted_proper res d (sol : env -> V) : (forall k, proper (res k)) -> proper sol -> forall k, proper (substituted res d sol k).
Proof. intros P S k x y E. unfold substituted. apply P. intro j. unfold setv. destruct (j =? d); [now apply S|apply E]. Qed.
Lemma eliminated_ok steps : forall (res : nat -> env -> V) (K : nat -> Prop), (forall k, proper (res k)) ->
  (forall s, In s steps -> proper (snd s)) ->
  (forall s, In s steps -> K (fst (fst s))) -> NoDup (map (fun s => fst (fst s)) steps) -> Eliminated zero res steps ->
  forall x, (forall k, K k -> res k x = zero) <->
            ((forall s, In s steps -> x (snd (fst s)) = snd s x) /\
             (forall k, K k -> ~ In k (map (fun s => fst (fst s)) steps) -> after res steps k x = zero)).
Proof.
  induction steps as [|((e, d), sol) r IH]; intros res K P S KE ND EL x.
  - cbn. split; [intro H; split; [easy|intros; now apply H]|intros (_ & H) k Kk; now apply H].
  - cbn [map fst snd] in *. inversion ND as [|? ? NI ND']; subst. destruct EL as ((_ & SV) & EL). cbn [after].
    specialize (IH (substituted res d sol) (fun k => K k /\ k <> e) (substituted_proper res d sol P (S _ (or_introl eq_refl)))
                  (fun s I => S s (or_intror I))).
    assert (KE' : forall s, In s r -> K (fst (fst s)) /\ fst (fst s) <> e).
    { intros s I. split; [apply KE; now right|]. intro E. apply NI. rewrite <- E. apply in_map_iff. now exists s. }
    specialize (IH KE' ND' EL x).
    assert (SAME : x d = sol x -> forall k, substituted res d sol k x = res k x).
    { intros E k. unfold substituted. rewrite <- E. apply P. intro j. apply setv_same. }
    split.
    + intro H. assert (E : x d = sol x) by (apply SV, H; apply (KE ((e, d), sol)); now left).
      destruct IH as [IH _]. destruct IH as (A & B); [intros k (Kk & _); rewrite SAME by easy; now apply H|].
      split.
      * intros s [<-|I]; [exact E|now apply A].
      * intros k Kk N. apply B; [split; [easy|]; intros ->; apply N; now left|]. intro I. apply N. now right.
    + intros (A & B). assert (E : x d = sol x) by (apply (A ((e, d), sol)); now left).
      destruct IH as [_ IH]. assert (H : forall k, K k /\ k <> e -> substituted res d sol k x = zero).
      { apply IH. split; [intros s I; apply A; now right|]. intros k (Kk & NE) N. apply B; [easy|]. intros [<-|I]; easy. }
      intros k Kk. destruct (Nat.eq_dec k e) as [->|NE]; [now apply SV|]. rewrite <- SAME by easy. now apply H.
Qed.
(** The remaining equations do not use what was eliminated *)
Definition indep (f : env -> V) (d : nat) : Prop := forall x v, f (setv x d v) = f x.
Lemma sol_indep f d (sol : env -> V) c : proper sol -> proper f -> Solved zero f d sol -> indep f c -> c <> d -> indep sol c.
Proof.
  intros PS PF (I & SV) IC NE x v.
  set (x' := setv x d (sol x)).
  assert (E : f x' = zero).
  { apply SV. unfold x' at 1. unfold setv at 1. rewrite Nat.eqb_refl. unfold x'. now rewrite I. }
  assert (E2 : f (setv x' c v) = zero) by (now rewrite IC). apply SV in E2.
  assert (A : setv x' c v d = sol x).
  { unfold x', setv. destruct (Nat.eqb_spec d c); [congruence|]. now rewrite Nat.eqb_refl. }
  rewrite A in E2. rewrite E2. rewrite <- (I (setv x c v) (sol x)). apply PS. intro j. unfold x', setv.
  destruct (Nat.eqb_spec j d), (Nat.eqb_spec j c); congruence.
Qed.
Lemma after_indep steps : forall (res : nat -> env -> V), (forall k, proper (res k)) -> (forall s, In s steps -> proper (snd s)) ->
  NoDup (map (fun s => snd (fst s)) steps) -> Eliminated zero res steps ->
  (forall c, (forall k, indep (res k) c) -> ~ In c (map (fun s => snd (fst s)) steps) -> forall k, indep (after res steps k) c) /\
  (forall c, In c (map (fun s => snd (fst s)) steps) -> forall k, indep (after res steps k) c).
Proof.
  induction steps as [|((e, d), sol) r IH]; intros res P S ND EL; [split; [easy|easy]|].
  cbn [map fst snd after] in *. inversion ND as [|? ? NI ND']; subst. destruct EL as (SV & EL).
  assert (PS : proper sol) by (apply (S ((e, d), sol)); now left).
  destruct (IH (substituted res d sol) (substituted_proper res d sol P PS) (fun s I => S s (or_intror I)) ND' EL) as (A & B).
  assert (SD : forall k, indep (substituted res d sol k) d).
  { intros k x v. unfold substituted. apply P. intro j. rewrite (proj1 SV x v). unfold setv. destruct (Nat.eqb_spec j d); reflexivity. }
  split.
  - intros c IC N. apply A; [|intro I; apply N; now right]. intros k x v. assert (NE : c <> d) by (intros ->; apply N; now left).
    unfold substituted. rewrite (sol_indep (res e) d sol c PS (P e) SV (IC e) NE). rewrite <- (IC k (setv x d (sol x)) v). apply P. intro j.
    unfold setv. destruct (Nat.eqb_spec j d), (Nat.eqb_spec j c); congruence.
  - intros c [<-|I]; [apply A; [exact SD|exact NI]|now apply B].
Qed.
End Solve.

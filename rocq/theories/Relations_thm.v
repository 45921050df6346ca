(** * The relations between the dependent variables of a loop *)
From Coq Require Import List Arith Bool Lia Sorted.
From Verif Require Import Pool_model Pool_proofs Sparsity_model Sparsity_spec Sparsity_proofs Sparsity_lists Relations_model.
Import ListNotations.
Local Open Scope nat_scope.

(** ** Specification *)

(** The patterns share no dependent and every dependent is among the [n] of the model. *)
Record patternsOk (eqs : list set) (n : nat) : Prop := {
  po_set : forall e, isset (dependentsOf eqs e);
  po_apart : forall e e' d, In d (dependentsOf eqs e) -> In d (dependentsOf eqs e') -> e = e';
  po_lt : forall e d, In d (dependentsOf eqs e) -> d < n }.
Definition sameEquation (eqs : list set) (a b : nat) : Prop := exists e, In a (dependentsOf eqs e) /\ In b (dependentsOf eqs e).

(** The calls name dependents of two different equations. *)
Definition callOk (eqs : list set) (c : rcall) : Prop :=
  match c with (e1, d1, e2, d2) => In d1 (dependentsOf eqs e1) /\ In d2 (dependentsOf eqs e2) /\ e1 <> e2 end.

(** What the relations have to be: sets (the iterations) without a common dependent,
    with at least two dependents and not two of the same equation. *)
Record relationsOk (eqs : list set) (rs : list set) : Prop := {
  ro_set : forall r, In r rs -> isset r /\ 2 <= length r;
  ro_apart : forall i j ri rj d, nth_error rs i = Some ri -> nth_error rs j = Some rj -> In d ri -> In d rj -> i = j;
  ro_one : forall r a b, In r rs -> In a r -> In b r -> sameEquation eqs a b -> a = b }.

(** Two dependents are to be evaluated in the same iteration. *)
Definition related (s : rstate) (a b : nat) : Prop :=
  exists rs r, relations s = Some rs /\ In r rs /\ In a r /\ In b r.
Definition together (s : rstate) (d a : nat) : Prop := a = d \/ related s d a.
(** The dependents with [d1] and those with [d2] cannot be in one iteration. *)
Definition conflict (eqs : list set) (s : rstate) (d1 d2 : nat) : Prop :=
  exists a b, together s d1 a /\ together s d2 b /\ a <> b /\ sameEquation eqs a b.

(** ** Invariant *)
Record RI (eqs : list set) (n : nat) (s : rstate) : Prop := {
  ri_len : length (r_of s) = n;
  ri_of : forall d p, nth_error (r_of s) d = Some (Some p) -> exists r, nth p (r_mem s) None = Some r /\ In d r;
  ri_mem : forall p r, nth p (r_mem s) None = Some r ->
    isset r /\ (forall d, In d r -> nth_error (r_of s) d = Some (Some p)) /\
    (forall a b, In a r -> In b r -> sameEquation eqs a b -> a = b) /\ 2 <= length r /\ (forall d, In d r -> exists e, In d (dependentsOf eqs e)) /\ In p (r_live s);
  ri_live : forall p, In p (r_live s) -> nth p (r_mem s) None <> None;
  ri_liveset : isset (r_live s) }.

Definition relp (s : rstate) (a b : nat) : Prop := exists p, nth_error (r_of s) a = Some (Some p) /\ nth_error (r_of s) b = Some (Some p).

Lemma isset_nodup s : isset s -> NoDup s.
Proof.
  unfold isset. induction s as [|x s IH]; intros H; [constructor|]. inversion H as [|? ? H1 H2]; subst. constructor; [|apply IH, H1].
  intros Hx. rewrite Forall_forall in H2. specialize (H2 x Hx). lia.
Qed.

Lemma relationsAt_ok mem live : (forall p, In p live -> nth p mem None <> None) ->
  exists rs, relationsAt mem live = Some rs /\ length rs = length live /\
    forall i r, nth_error rs i = Some r <-> exists p, nth_error live i = Some p /\ nth p mem None = Some r.
Proof.
  induction live as [|p l IH]; intros H; cbn [relationsAt].
  - exists []. split; [reflexivity|]. split; [reflexivity|]. intros i r. split; [destruct i; discriminate|]. intros [p [H1 _]]. destruct i; discriminate.
  - destruct IH as [rs [-> [Hl IH]]]; [intros q Hq; apply H; right; assumption|].
    destruct (nth p mem None) as [x|] eqn:E; [|destruct (H p (or_introl eq_refl) E)].
    exists (x :: rs). split; [reflexivity|]. split; [cbn; lia|]. intros [|i] r; cbn [nth_error].
    + split; [intros [= <-]; exists p; auto|]. intros [q [[= <-] Hq]]. congruence.
    + apply IH.
Qed.

Lemma relations_ok eqs n s : RI eqs n s -> exists rs, relations s = Some rs /\ relationsOk eqs rs /\
  forall a b, (exists r, In r rs /\ In a r /\ In b r) <-> relp s a b.
Proof.
  intros R. destruct (relationsAt_ok (r_mem s) (r_live s) (ri_live _ _ _ R)) as [rs [E [L H]]].
  exists rs. split; [exact E|]. split; [constructor|].
  - intros r Hr. apply In_nth_error in Hr. destruct Hr as [i Hi]. apply H in Hi. destruct Hi as [p [_ Hp]].
    destruct (ri_mem _ _ _ R _ _ Hp) as [A [_ [_ [B _]]]]. auto.
  - intros i j ri rj d Hi Hj Hdi Hdj. apply H in Hi. apply H in Hj. destruct Hi as [p [Hi Hp]], Hj as [q [Hj Hq]].
    destruct (ri_mem _ _ _ R _ _ Hp) as [_ [A _]]. destruct (ri_mem _ _ _ R _ _ Hq) as [_ [B _]].
    specialize (A d Hdi). specialize (B d Hdj). assert (p = q) by congruence. subst q.
    assert (ND : NoDup (r_live s)) by (apply isset_nodup, (ri_liveset _ _ _ R)).
    rewrite NoDup_nth_error in ND. apply ND; [apply nth_error_Some; congruence|congruence].
  - intros r a b Hr. apply In_nth_error in Hr. destruct Hr as [i Hi]. apply H in Hi. destruct Hi as [p [_ Hp]].
    destruct (ri_mem _ _ _ R _ _ Hp) as [_ [_ [A _]]]. apply A.
  - intros a b. split.
    + intros [r [Hr [Ha Hb]]]. apply In_nth_error in Hr. destruct Hr as [i Hi]. apply H in Hi. destruct Hi as [p [_ Hp]].
      destruct (ri_mem _ _ _ R _ _ Hp) as [_ [A _]]. exists p. auto.
    + intros [p [Ha Hb]]. destruct (ri_of _ _ _ R _ _ Ha) as [r [Hr Har]]. destruct (ri_of _ _ _ R _ _ Hb) as [r' [Hr' Hbr]].
      assert (r' = r) by congruence. subst r'. exists r. split; [|auto]. destruct (ri_mem _ _ _ R _ _ Hr) as [_ [_ [_ [_ [_ P]]]]].
      apply In_nth_error in P. destruct P as [i P]. apply (nth_error_In _ i). apply H. exists p. auto.
Qed.

Lemma related_relp eqs n s : RI eqs n s -> forall a b, related s a b <-> relp s a b.
Proof.
  intros R a b. destruct (relations_ok _ _ _ R) as [rs [E [_ H]]]. rewrite <- H. unfold related. split.
  - intros [rs' [r [E' X]]]. assert (rs' = rs) by congruence. subst. exists r. assumption.
  - intros [r X]. exists rs, r. auto.
Qed.

(** ** One call *)
Lemma join_inv eqs n s (U : nat -> Prop) (p : nat) (u : set) s' : RI eqs n s ->
  length (r_of s') = n ->
  (forall d, U d -> nth_error (r_of s') d = Some (Some p)) ->
  (forall d, ~ U d -> nth_error (r_of s') d = nth_error (r_of s) d) ->
  (forall d, U d \/ ~ U d) ->
  isset u -> (forall x, In x u <-> U x) ->
  (forall a b q, nth_error (r_of s) a = Some (Some q) -> nth_error (r_of s) b = Some (Some q) -> U a -> U b) ->
  (forall a, nth_error (r_of s) a = Some (Some p) -> U a) ->
  nth p (r_mem s') None = Some u ->
  (forall q r d, q <> p -> nth q (r_mem s) None = Some r -> In d r -> ~ U d -> nth q (r_mem s') None = Some r) ->
  (forall q r, q <> p -> nth q (r_mem s') None = Some r -> nth q (r_mem s) None = Some r /\ forall d, In d r -> ~ U d) ->
  isset (r_live s') -> In p (r_live s') -> (forall q, q <> p -> (In q (r_live s') <-> nth q (r_mem s') None <> None)) ->
  (forall a b, U a -> U b -> sameEquation eqs a b -> a = b) -> (forall d, U d -> exists e, In d (dependentsOf eqs e)) -> (exists a b, U a /\ U b /\ a <> b) ->
  RI eqs n s' /\ forall a b, relp s' a b <-> relp s a b \/ (U a /\ U b).
Proof.
  intros R Hlen HofU HofN Hdec Hu Hiu Hclos Hp Hm1 Hm2 Hm3 Hls Hlp Hlq One Heq Two. split.
  - constructor.
    + assumption.
    + intros d q Hd. destruct (Hdec d) as [Ud|Nd].
      * rewrite (HofU d Ud) in Hd. injection Hd as <-. exists u. split; [assumption|apply Hiu, Ud].
      * rewrite (HofN d Nd) in Hd. destruct (ri_of _ _ _ R _ _ Hd) as [r [Hr Hdr]].
        exists r. split; [|assumption]. apply (Hm2 q r d); try assumption. intros ->. apply Nd, (Hp d Hd).
    + intros q r Hr. destruct (Nat.eq_dec q p) as [->|Hq].
      * assert (r = u) by congruence. subst r. repeat split; try assumption.
        -- intros d Hd. apply HofU, Hiu, Hd.
        -- intros a b Ha Hb. apply One; apply Hiu; assumption.
        -- destruct Two as [a [b [Ha [Hb Hne]]]]. apply Hiu in Ha. apply Hiu in Hb. destruct u as [|x [|y u]]; cbn in *; lia.
        -- intros d Hd. apply Heq, Hiu, Hd.
      * destruct (Hm3 q r Hq Hr) as [Hr0 Hn]. destruct (ri_mem _ _ _ R _ _ Hr0) as [A [B [C [D [E F]]]]].
        split; [assumption|]. split; [intros d Hd; rewrite HofN by (apply Hn, Hd); apply B, Hd|]. split; [assumption|]. split; [assumption|]. split; [assumption|].
        apply Hlq; [assumption|congruence].
    + intros q Hq. destruct (Nat.eq_dec q p) as [->|Hne]; [congruence|]. apply Hlq; assumption.
    + assumption.
  - intros a b. unfold relp. split.
    + intros [q [Ha Hb]]. destruct (Hdec a) as [Ua|Na]; destruct (Hdec b) as [Ub|Nb]; [right; auto| | |left; exists q; rewrite <- HofN by assumption; split; [assumption|rewrite <- HofN by assumption; assumption]].
      * exfalso. rewrite (HofU a Ua) in Ha. injection Ha as <-. rewrite (HofN b Nb) in Hb. apply Nb, (Hp b Hb).
      * exfalso. rewrite (HofU b Ub) in Hb. injection Hb as <-. rewrite (HofN a Na) in Ha. apply Na, (Hp a Ha).
    + intros [[q [Ha Hb]]|[Ua Ub]]; [|exists p; auto]. destruct (Hdec a) as [Ua|Na].
      * exists p. split; [auto|]. apply HofU. apply (Hclos a b q); assumption.
      * destruct (Hdec b) as [Ub|Nb]; [exfalso; apply Na, (Hclos b a q); assumption|]. exists q. rewrite !HofN by assumption. auto.
Qed.

Lemma repoint_length ds p : forall of, length (repoint of ds p) = length of.
Proof. unfold repoint. induction ds as [|d ds IH]; intros of; cbn [fold_left]; [reflexivity|]. rewrite IH. apply setNth_length. Qed.

Lemma repoint_out ds p : forall of d, ~ In d ds -> nth_error (repoint of ds p) d = nth_error of d.
Proof.
  unfold repoint. induction ds as [|x ds IH]; intros of d H; cbn [fold_left]; [reflexivity|]. rewrite IH by (intros X; apply H; right; exact X).
  apply nth_set_ne. intros ->. apply H. left. reflexivity.
Qed.

Lemma repoint_in ds p : forall of d, (forall x, In x ds -> x < length of) -> In d ds -> nth_error (repoint of ds p) d = Some (Some p).
Proof.
  induction ds as [|x ds IH]; intros of d L H; [destruct H|]. change (repoint of (x :: ds) p) with (repoint (setNth of x (Some p)) ds p).
  destruct (in_dec Nat.eq_dec d ds) as [Hd|Hd].
  - apply IH; [|assumption]. intros y Hy. rewrite setNth_length. apply L. right. assumption.
  - destruct H as [->|H]; [|destruct (Hd H)]. rewrite repoint_out by assumption. apply nth_set_eq, L. left. reflexivity.
Qed.

Lemma nth_setNth {A} (l : list A) k x j dflt : nth j (setNth l k x) dflt = if (j =? k) && (k <? length l) then x else nth j l dflt.
Proof.
  revert k j. induction l as [|y l IH]; intros [|k] [|j]; cbn [setNth nth length]; try reflexivity; [change (S k <? 0) with false; rewrite andb_false_r; reflexivity|].
  rewrite IH. change (S j =? S k) with (j =? k). change (S k <? S (length l)) with (k <? length l). reflexivity.
Qed.

Lemma dep2EquationFrom_spec eqs d : forall k, match dep2EquationFrom eqs k d with
  | Some e => k <= e /\ In d (nth (e - k) eqs []) | None => forall i, ~ In d (nth i eqs []) end.
Proof.
  induction eqs as [|s r IH]; intros k; cbn [dep2EquationFrom].
  - intros [|i] H; destruct H.
  - destruct (sfind d s) eqn:F.
    + split; [lia|]. rewrite Nat.sub_diag. apply sfind_In, F.
    + specialize (IH (S k)). destruct (dep2EquationFrom r (S k) d).
      * destruct IH as [H1 H2]. split; [lia|]. replace (n - k) with (S (n - S k)) by lia. exact H2.
      * intros [|i] H; [change (In d s) in H; apply sfind_In in H; congruence|apply (IH i H)].
Qed.

Lemma dep2Equation_spec eqs n d e : patternsOk eqs n -> In d (dependentsOf eqs e) -> dep2Equation eqs d = Some e.
Proof.
  intros P H. assert (S := dep2EquationFrom_spec eqs d 0). unfold dep2Equation. destruct (dep2EquationFrom eqs 0 d) as [e'|].
  - destruct S as [_ S]. rewrite Nat.sub_0_r in S. f_equal. apply (po_apart _ _ P e' e d); assumption.
  - destruct (S e H).
Qed.

Lemma otherIn_true deps d r : otherIn deps d r = true <-> exists it, In it deps /\ it <> d /\ In it r.
Proof.
  unfold otherIn. rewrite existsb_exists. split; intros [it [H1 H2]]; exists it.
  - apply andb_true_iff in H2. destruct H2 as [H2 H3]. apply negb_true_iff, Nat.eqb_neq in H2. apply sfind_In in H3. auto.
  - split; [assumption|]. apply andb_true_iff. split; [apply negb_true_iff, Nat.eqb_neq, H2|apply sfind_In, H2].
Qed.

Lemma canMerge_spec eqs n r2 r1 : patternsOk eqs n -> (forall d, In d r2 -> exists e, In d (dependentsOf eqs e)) ->
  exists b, canMerge eqs r2 r1 = Some b /\ (b = false <-> exists x y, In x r2 /\ In y r1 /\ x <> y /\ sameEquation eqs x y).
Proof.
  intros P. induction r2 as [|d r2 IH]; intros H; cbn [canMerge].
  - exists true. split; [reflexivity|]. split; [discriminate|]. intros [x [y [[] _]]].
  - destruct (H d (or_introl eq_refl)) as [e He]. rewrite (dep2Equation_spec _ _ _ _ P He).
    destruct (otherIn (dependentsOf eqs e) d r1) eqn:O.
    + exists false. split; [reflexivity|]. split; [intros _|reflexivity]. apply otherIn_true in O. destruct O as [it [H1 [H2 H3]]].
      exists d, it. split; [left; reflexivity|]. split; [assumption|]. split; [congruence|]. exists e. auto.
    + destruct IH as [b [E Hb]]; [intros x Hx; apply H; right; assumption|]. exists b. split; [assumption|]. rewrite Hb. split.
      * intros [x [y [H1 H2]]]. exists x, y. split; [right; assumption|assumption].
      * intros [x [y [[<-|H1] [H2 [H3 H4]]]]]; [|exists x, y; auto]. exfalso. destruct H4 as [e' [H4 H5]].
        assert (e' = e) by (apply (po_apart _ _ P e' e d); assumption). subst e'.
        assert (otherIn (dependentsOf eqs e) d r1 = true) by (apply otherIn_true; exists y; auto). congruence.
Qed.

Lemma in_dec' (d : nat) (l : list nat) : In d l \/ ~ In d l.
Proof. destruct (in_dec Nat.eq_dec d l); auto. Qed.

Lemma sameEq_sym eqs a b : sameEquation eqs a b -> sameEquation eqs b a.
Proof. intros [e [H1 H2]]. exists e. auto. Qed.

Definition tog (s : rstate) (d a : nat) : Prop := a = d \/ relp s d a.
Definition conf (eqs : list set) (s : rstate) (d1 d2 : nat) : Prop := exists a b, tog s d1 a /\ tog s d2 b /\ a <> b /\ sameEquation eqs a b.
Definition post (eqs : list set) (s : rstate) (d1 d2 : nat) (s' : rstate) : Prop :=
  (conf eqs s d1 d2 /\ forall a b, relp s' a b <-> relp s a b) \/
  (~ conf eqs s d1 d2 /\ forall a b, relp s' a b <-> relp s a b \/ ((tog s d1 a \/ tog s d2 a) /\ (tog s d1 b \/ tog s d2 b))).

Lemma tog_none s d : nth_error (r_of s) d = Some None -> forall a, tog s d a <-> a = d.
Proof. intros H a. unfold tog, relp. split; [|auto]. intros [->|[p [H1 _]]]; [reflexivity|congruence]. Qed.

Lemma tog_some eqs n s d p r : RI eqs n s -> nth_error (r_of s) d = Some (Some p) -> nth p (r_mem s) None = Some r -> forall a, tog s d a <-> In a r.
Proof.
  intros R H Hr a. destruct (ri_mem _ _ _ R _ _ Hr) as [_ [A _]]. destruct (ri_of _ _ _ R _ _ H) as [r' [Hr' Hd]]. assert (r' = r) by congruence. subst r'.
  unfold tog, relp. split.
  - intros [->|[q [H1 H2]]]; [assumption|]. assert (q = p) by congruence. subst q. destruct (ri_of _ _ _ R _ _ H2) as [r' [Hr2 Ha]]. congruence.
  - intros Ha. right. exists p. auto.
Qed.

Lemma makeRel_ok eqs n s e1 d1 e2 d2 : patternsOk eqs n -> RI eqs n s -> In d1 (dependentsOf eqs e1) -> In d2 (dependentsOf eqs e2) -> e1 <> e2 ->
  exists s', makeRel eqs e1 d1 e2 d2 s = ROk s' /\ RI eqs n s' /\ post eqs s d1 d2 s'.
Proof.
  intros P R H1 H2 Hne. assert (Hd : d1 <> d2) by (intros ->; apply Hne, (po_apart _ _ P e1 e2 d2); assumption).
  assert (L1 := po_lt _ _ P _ _ H1). assert (L2 := po_lt _ _ P _ _ H2). assert (Hlen := ri_len _ _ _ R).
  unfold makeRel.
  destruct (nth_error (r_of s) d1) as [rel1|] eqn:E1; [|apply nth_error_None in E1; lia].
  destruct (nth_error (r_of s) d2) as [rel2|] eqn:E2; [|apply nth_error_None in E2; lia].
  assert (Same : forall e a b, In a (dependentsOf eqs e) -> sameEquation eqs a b -> In b (dependentsOf eqs e)).
  { intros e a b Ha [e' [Ha' Hb]]. rewrite (po_apart _ _ P e e' a) by assumption. assumption. }
  destruct rel1 as [p1|], rel2 as [p2|].
  - destruct (ri_of _ _ _ R _ _ E1) as [r1 [M1 D1]]. destruct (ri_of _ _ _ R _ _ E2) as [r2 [M2 D2]].
    destruct (ri_mem _ _ _ R _ _ M1) as [S1 [O1 [N1 [T1 [Q1 V1]]]]]. destruct (ri_mem _ _ _ R _ _ M2) as [S2 [O2 [N2 [T2 [Q2 V2]]]]].
    assert (C1 := tog_some _ _ _ _ _ _ R E1 M1). assert (C2 := tog_some _ _ _ _ _ _ R E2 M2).
    destruct (Nat.eqb_spec p1 p2) as [<-|Hp].
    + exists s. split; [reflexivity|]. split; [assumption|]. assert (r2 = r1) by congruence. subst r2. right. split.
      * intros [a [b [Ha [Hb [Hab X]]]]]. apply C1 in Ha. apply C2 in Hb. apply Hab, N1; assumption.
      * intros a b. split; [auto|]. intros [H|[Ha Hb]]; [assumption|]. rewrite C1, C2 in Ha, Hb. exists p1. split; apply O1; tauto.
    + rewrite M1, M2. destruct (canMerge_spec eqs n r2 r1 P Q2) as [b [Eb Hb]]. rewrite Eb. destruct b.
      * assert (NC : forall x y, In x r1 -> In y r2 -> sameEquation eqs x y -> x = y).
        { intros x y Hx Hy HS. destruct (Nat.eq_dec x y); [assumption|]. exfalso. assert (true = false); [|discriminate]. apply Hb. exists y, x. repeat split; auto. apply sameEq_sym, HS. }
        assert (Lm1 : p1 < length (r_mem s)) by (destruct (Nat.lt_ge_cases p1 (length (r_mem s))) as [X|X]; [exact X|rewrite nth_overflow in M1 by exact X; discriminate]).
        assert (Lm2 : p2 < length (r_mem s)) by (destruct (Nat.lt_ge_cases p2 (length (r_mem s))) as [X|X]; [exact X|rewrite nth_overflow in M2 by exact X; discriminate]).
        assert (In2 : forall d, In d r2 -> d < length (r_of s)) by (intros d Hdr; apply nth_error_Some; rewrite (O2 d Hdr); discriminate).
        eexists. split; [reflexivity|].
        assert (Mem : forall q, nth q (setNth (setNth (r_mem s) p1 (Some (sinsAll r2 r1))) p2 None) None =
                  if q =? p2 then None else if q =? p1 then Some (sinsAll r2 r1) else nth q (r_mem s) None).
        { intros q. rewrite !nth_setNth, setNth_length. rewrite (proj2 (Nat.ltb_lt _ _) Lm1), (proj2 (Nat.ltb_lt _ _) Lm2), !andb_true_r. reflexivity. }
        assert (X := join_inv eqs n s (fun x => In x r1 \/ In x r2) p1 (sinsAll r2 r1)
          (mkR (repoint (r_of s) r2 p1) (setNth (setNth (r_mem s) p1 (Some (sinsAll r2 r1))) p2 None) (sdel p2 (r_live s))) R).
        cbn [r_of r_mem r_live] in X. destruct X as [X1 X2].
        -- rewrite repoint_length. assumption.
        -- intros d Hin. destruct (in_dec' d r2) as [Hx|Hx]; [apply repoint_in; assumption|]. rewrite repoint_out by assumption. apply O1. tauto.
        -- intros d Hin. apply repoint_out. tauto.
        -- intros d. destruct (in_dec' d r1), (in_dec' d r2); tauto.
        -- apply sinsAll_isset, S1.
        -- intros x. rewrite sinsAll_In. tauto.
        -- intros a b q Ha Hb' [Hin|Hin].
           ++ specialize (O1 a Hin). assert (q = p1) by congruence. subst q. left. apply C1. right. exists p1. auto.
           ++ specialize (O2 a Hin). assert (q = p2) by congruence. subst q. right. apply C2. right. exists p2. auto.
        -- intros a Ha. left. apply C1. right. exists p1. auto.
        -- rewrite Mem. destruct (Nat.eqb_spec p1 p2); [contradiction|]. rewrite Nat.eqb_refl. reflexivity.
        -- intros q r d Hq Hr Hdr Hn. rewrite Mem. destruct (Nat.eqb_spec q p2) as [->|]; [exfalso; apply Hn; right; congruence|]. destruct (Nat.eqb_spec q p1); [contradiction|assumption].
        -- intros q r Hq Hr. rewrite Mem in Hr. destruct (Nat.eqb_spec q p2) as [->|]; [discriminate|]. destruct (Nat.eqb_spec q p1); [contradiction|].
           split; [assumption|]. intros d Hdr. destruct (ri_mem _ _ _ R _ _ Hr) as [_ [O3 _]]. specialize (O3 d Hdr).
           intros [Hin|Hin]; [specialize (O1 d Hin)|specialize (O2 d Hin)]; congruence.
        -- apply sdel_isset, (ri_liveset _ _ _ R).
        -- apply sdel_In; [apply (ri_liveset _ _ _ R)|]. auto.
        -- intros q Hq. rewrite sdel_In by apply (ri_liveset _ _ _ R). rewrite Mem. destruct (Nat.eqb_spec q p2) as [->|]; [tauto|]. destruct (Nat.eqb_spec q p1); [contradiction|].
           split; [intros [A _]; apply (ri_live _ _ _ R), A|]. intros A. split; [|assumption]. destruct (nth q (r_mem s) None) as [r|] eqn:Er; [|congruence]. apply (ri_mem _ _ _ R _ _ Er).
        -- intros a b [Ha|Ha] [Hb'|Hb'] HS; [apply N1| |symmetry; apply NC|apply N2]; try assumption; [apply NC; assumption|apply sameEq_sym, HS].
        -- intros d [Hin|Hin]; auto.
        -- exists d1, d2. auto.
        -- split; [assumption|]. right. split.
           ++ intros [a [b [Ha [Hb' [Hab HS]]]]]. apply C1 in Ha. apply C2 in Hb'. apply Hab, NC; assumption.
           ++ intros a b. rewrite X2, !C1, !C2. reflexivity.
      * exists s. split; [reflexivity|]. split; [assumption|]. left. split; [|reflexivity]. destruct (proj1 Hb eq_refl) as [x [y [Hx [Hy [Hxy HS]]]]].
        exists y, x. split; [apply C1, Hy|]. split; [apply C2, Hx|]. split; [congruence|apply sameEq_sym, HS].
  - destruct (ri_of _ _ _ R _ _ E1) as [r1 [M1 D1]]. destruct (ri_mem _ _ _ R _ _ M1) as [S1 [O1 [N1 [T1 [Q1 V1]]]]].
    assert (C1 := tog_some _ _ _ _ _ _ R E1 M1). assert (C2 := tog_none _ _ E2). rewrite M1.
    assert (Hd2 : ~ In d2 r1) by (intros X; specialize (O1 d2 X); congruence).
    destruct (sfind d2 r1) eqn:F; [apply sfind_In in F; contradiction|].
    destruct (otherIn (dependentsOf eqs e2) d2 r1) eqn:O.
    + exists s. split; [reflexivity|]. split; [assumption|]. left. split; [|reflexivity]. apply otherIn_true in O. destruct O as [it [A [B C]]].
      exists it, d2. rewrite C1, C2. repeat split; auto. exists e2. auto.
    + assert (NC : forall x, In x r1 -> sameEquation eqs x d2 -> x = d2).
      { intros x Hx HS. destruct (Nat.eq_dec x d2); [assumption|]. exfalso. assert (otherIn (dependentsOf eqs e2) d2 r1 = true); [|congruence].
        apply otherIn_true. exists x. split; [apply (Same e2 d2 x H2), sameEq_sym, HS|auto]. }
      assert (Lm1 : p1 < length (r_mem s)) by (destruct (Nat.lt_ge_cases p1 (length (r_mem s))) as [X|X]; [exact X|rewrite nth_overflow in M1 by exact X; discriminate]).
      eexists. split; [reflexivity|].
      assert (Mem : forall q, nth q (setNth (r_mem s) p1 (Some (sins d2 r1))) None = if q =? p1 then Some (sins d2 r1) else nth q (r_mem s) None).
      { intros q. rewrite nth_setNth. rewrite (proj2 (Nat.ltb_lt _ _) Lm1), andb_true_r. reflexivity. }
      assert (X := join_inv eqs n s (fun x => In x r1 \/ x = d2) p1 (sins d2 r1) (mkR (setNth (r_of s) d2 (Some p1)) (setNth (r_mem s) p1 (Some (sins d2 r1))) (r_live s)) R).
      cbn [r_of r_mem r_live] in X. destruct X as [X1 X2].
      -- rewrite setNth_length. assumption.
      -- intros d [Hin|Hin]; [|subst d; apply nth_set_eq; lia]. rewrite nth_set_ne by (intros ->; contradiction). apply O1, Hin.
      -- intros d Hin. apply nth_set_ne. intros ->. tauto.
      -- intros d. destruct (in_dec' d r1), (Nat.eq_dec d d2); tauto.
      -- apply sins_isset, S1.
      -- intros x. rewrite sins_In. tauto.
      -- intros a b q Ha Hb' [Hin|Hin]; [|subst a; congruence].
         specialize (O1 a Hin). assert (q = p1) by congruence. subst q. left. apply C1. right. exists p1. auto.
      -- intros a Ha. left. apply C1. right. exists p1. auto.
      -- rewrite Mem, Nat.eqb_refl. reflexivity.
      -- intros q r d Hq Hr Hdr Hn. rewrite Mem. destruct (Nat.eqb_spec q p1); [contradiction|assumption].
      -- intros q r Hq Hr. rewrite Mem in Hr. destruct (Nat.eqb_spec q p1); [contradiction|].
         split; [assumption|]. intros d Hdr. destruct (ri_mem _ _ _ R _ _ Hr) as [_ [O3 _]]. specialize (O3 d Hdr).
         intros [Hin|Hin]; [specialize (O1 d Hin)|subst d]; congruence.
      -- apply (ri_liveset _ _ _ R).
      -- assumption.
      -- intros q Hq. rewrite Mem. destruct (Nat.eqb_spec q p1); [contradiction|].
         split; [apply (ri_live _ _ _ R)|]. intros A. destruct (nth q (r_mem s) None) as [r|] eqn:Er; [|congruence]. apply (ri_mem _ _ _ R _ _ Er).
      -- intros a b [Ha|Ha] [Hb'|Hb'] HS; subst; [apply N1; assumption|apply NC; assumption|symmetry; apply NC; [assumption|apply sameEq_sym, HS]|reflexivity].
      -- intros d [Hin|Hin]; [auto|]. subst d. exists e2. assumption.
      -- exists d1, d2. auto.
      -- split; [assumption|]. right. split.
         ++ intros [a [b [Ha [Hb' [Hab HS]]]]]. apply C1 in Ha. apply C2 in Hb'. subst b. apply Hab, NC; assumption.
         ++ intros a b. rewrite X2, !C1, !C2. reflexivity.
  - destruct (ri_of _ _ _ R _ _ E2) as [r2 [M2 D2]]. destruct (ri_mem _ _ _ R _ _ M2) as [S1 [O1 [N1 [T1 [Q1 V1]]]]].
    assert (C2 := tog_some _ _ _ _ _ _ R E2 M2). assert (C1 := tog_none _ _ E1). rewrite M2.
    assert (Hd2 : ~ In d1 r2) by (intros X; specialize (O1 d1 X); congruence).
    destruct (otherIn (dependentsOf eqs e1) d1 r2) eqn:O.
    + exists s. split; [reflexivity|]. split; [assumption|]. left. split; [|reflexivity]. apply otherIn_true in O. destruct O as [it [A [B C]]].
      exists d1, it. rewrite C1, C2. repeat split; auto. exists e1. auto.
    + assert (NC : forall x, In x r2 -> sameEquation eqs x d1 -> x = d1).
      { intros x Hx HS. destruct (Nat.eq_dec x d1); [assumption|]. exfalso. assert (otherIn (dependentsOf eqs e1) d1 r2 = true); [|congruence].
        apply otherIn_true. exists x. split; [apply (Same e1 d1 x H1), sameEq_sym, HS|auto]. }
      assert (Lm1 : p2 < length (r_mem s)) by (destruct (Nat.lt_ge_cases p2 (length (r_mem s))) as [X|X]; [exact X|rewrite nth_overflow in M2 by exact X; discriminate]).
      eexists. split; [reflexivity|].
      assert (Mem : forall q, nth q (setNth (r_mem s) p2 (Some (sins d1 r2))) None = if q =? p2 then Some (sins d1 r2) else nth q (r_mem s) None).
      { intros q. rewrite nth_setNth. rewrite (proj2 (Nat.ltb_lt _ _) Lm1), andb_true_r. reflexivity. }
      assert (X := join_inv eqs n s (fun x => In x r2 \/ x = d1) p2 (sins d1 r2) (mkR (setNth (r_of s) d1 (Some p2)) (setNth (r_mem s) p2 (Some (sins d1 r2))) (r_live s)) R).
      cbn [r_of r_mem r_live] in X. destruct X as [X1 X2].
      -- rewrite setNth_length. assumption.
      -- intros d [Hin|Hin]; [|subst d; apply nth_set_eq; lia]. rewrite nth_set_ne by (intros ->; contradiction). apply O1, Hin.
      -- intros d Hin. apply nth_set_ne. intros ->. tauto.
      -- intros d. destruct (in_dec' d r2), (Nat.eq_dec d d1); tauto.
      -- apply sins_isset, S1.
      -- intros x. rewrite sins_In. tauto.
      -- intros a b q Ha Hb' [Hin|Hin]; [|subst a; congruence].
         specialize (O1 a Hin). assert (q = p2) by congruence. subst q. left. apply C2. right. exists p2. auto.
      -- intros a Ha. left. apply C2. right. exists p2. auto.
      -- rewrite Mem, Nat.eqb_refl. reflexivity.
      -- intros q r d Hq Hr Hdr Hn. rewrite Mem. destruct (Nat.eqb_spec q p2); [contradiction|assumption].
      -- intros q r Hq Hr. rewrite Mem in Hr. destruct (Nat.eqb_spec q p2); [contradiction|].
         split; [assumption|]. intros d Hdr. destruct (ri_mem _ _ _ R _ _ Hr) as [_ [O3 _]]. specialize (O3 d Hdr).
         intros [Hin|Hin]; [specialize (O1 d Hin)|subst d]; congruence.
      -- apply (ri_liveset _ _ _ R).
      -- assumption.
      -- intros q Hq. rewrite Mem. destruct (Nat.eqb_spec q p2); [contradiction|].
         split; [apply (ri_live _ _ _ R)|]. intros A. destruct (nth q (r_mem s) None) as [r|] eqn:Er; [|congruence]. apply (ri_mem _ _ _ R _ _ Er).
      -- intros a b [Ha|Ha] [Hb'|Hb'] HS; subst; [apply N1; assumption|apply NC; assumption|symmetry; apply NC; [assumption|apply sameEq_sym, HS]|reflexivity].
      -- intros d [Hin|Hin]; [auto|]. subst d. exists e1. assumption.
      -- exists d1, d2. auto.
      -- split; [assumption|]. right. split.
         ++ intros [a [b [Ha [Hb' [Hab HS]]]]]. apply C1 in Ha. apply C2 in Hb'. subst a. apply Hab. symmetry. apply NC; [assumption|apply sameEq_sym, HS].
         ++ intros a b. rewrite X2, !C1, !C2. split; [intros [?|?]; [tauto|right; tauto]|intros [?|?]; [tauto|right; tauto]].
  - assert (C1 := tog_none _ _ E1). assert (C2 := tog_none _ _ E2).
    assert (NC : ~ sameEquation eqs d1 d2) by (intros HS; apply Hne, (po_apart _ _ P e1 e2 d2); [apply (Same e1 d1 d2); assumption|assumption]).
    assert (New : forall q, In q (r_live s) -> q < length (r_mem s)).
    { intros q Hq. assert (A := ri_live _ _ _ R q Hq). destruct (Nat.lt_ge_cases q (length (r_mem s))) as [X|X]; [exact X|rewrite nth_overflow in A by exact X; congruence]. }
    set (p := length (r_mem s)). set (u := sins d2 (sins d1 [])).
    assert (Mem : forall q, nth q (r_mem s ++ [Some u]) None = if q =? p then Some u else nth q (r_mem s) None).
    { intros q. destruct (Nat.eqb_spec q p) as [->|Hq]; [unfold p; rewrite app_nth2 by lia; rewrite Nat.sub_diag; reflexivity|].
      destruct (Nat.lt_ge_cases q p) as [X|X]; [apply app_nth1; exact X|]. unfold p in *. rewrite app_nth2 by lia. rewrite (nth_overflow (r_mem s)) by lia.
      destruct (q - length (r_mem s)) as [|[|k]] eqn:Q; [lia|reflexivity|reflexivity]. }
    eexists. split; [reflexivity|].
    assert (X := join_inv eqs n s (fun x => x = d1 \/ x = d2) p u (mkR (setNth (setNth (r_of s) d1 (Some p)) d2 (Some p)) (r_mem s ++ [Some u]) (sins p (r_live s))) R).
    cbn [r_of r_mem r_live] in X. destruct X as [X1 X2].
    + rewrite !setNth_length. assumption.
    + intros d [->| ->]; [rewrite nth_set_ne by auto|]; apply nth_set_eq; rewrite ?setNth_length; lia.
    + intros d Hn. rewrite !nth_set_ne; [reflexivity| |]; intros <-; tauto.
    + intros d. destruct (Nat.eq_dec d d1), (Nat.eq_dec d d2); tauto.
    + apply sins_isset, sins_isset. constructor.
    + intros x. unfold u. rewrite !sins_In. cbn. tauto.
    + intros a b q Ha Hb' [->| ->]; congruence.
    + intros a Ha. exfalso. destruct (ri_of _ _ _ R _ _ Ha) as [r [Hr _]]. unfold p in Hr. rewrite nth_overflow in Hr by lia. discriminate.
    + rewrite Mem, Nat.eqb_refl. reflexivity.
    + intros q r d Hq Hr Hdr Hn. rewrite Mem. destruct (Nat.eqb_spec q p); [contradiction|assumption].
    + intros q r Hq Hr. rewrite Mem in Hr. destruct (Nat.eqb_spec q p); [contradiction|].
      split; [assumption|]. intros d Hdr. destruct (ri_mem _ _ _ R _ _ Hr) as [_ [O3 _]]. specialize (O3 d Hdr). intros [->| ->]; congruence.
    + apply sins_isset, (ri_liveset _ _ _ R).
    + apply sins_In. auto.
    + intros q Hq. rewrite sins_In, Mem. destruct (Nat.eqb_spec q p); [contradiction|].
      split; [intros [A|A]; [contradiction|apply (ri_live _ _ _ R), A]|]. intros A. right. destruct (nth q (r_mem s) None) as [r|] eqn:Er; [|congruence]. apply (ri_mem _ _ _ R _ _ Er).
    + intros a b [->| ->] [->| ->] HS; try reflexivity; exfalso; apply NC; [exact HS|apply sameEq_sym, HS].
    + intros d [->| ->]; [exists e1|exists e2]; assumption.
    + exists d1, d2. auto.
    + split; [assumption|]. right. split.
      * intros [a [b [Ha [Hb' [Hab HS]]]]]. apply C1 in Ha. apply C2 in Hb'. subst a b. contradiction.
      * intros a b. rewrite X2, !C1, !C2. reflexivity.
Qed.

(** ** Sequences of calls *)
Lemma rinit_RI eqs n : RI eqs n (rinit n).
Proof.
  constructor; cbn [rinit r_of r_mem r_live].
  - apply repeat_length.
  - intros d p H. apply nth_error_In, repeat_spec in H. discriminate.
  - intros [|p] r H; discriminate.
  - intros p [].
  - constructor.
Qed.

Lemma rinit_relp n a b : ~ relp (rinit n) a b.
Proof. intros [p [H _]]. cbn in H. apply nth_error_In, repeat_spec in H. discriminate. Qed.

Lemma relp_sym s a b : relp s a b -> relp s b a.
Proof. intros [p [H1 H2]]. exists p. auto. Qed.
Lemma relp_trans s a b c : relp s a b -> relp s b c -> relp s a c.
Proof. intros [p [H1 H2]] [q [H3 H4]]. exists p. split; [assumption|congruence]. Qed.

Lemma tog_eq eqs n s : RI eqs n s -> forall d a, tog s d a <-> together s d a.
Proof. intros R d a. unfold tog, together. rewrite (related_relp _ _ _ R). reflexivity. Qed.

Lemma relp_dep eqs n s a b : RI eqs n s -> relp s a b -> exists e, In a (dependentsOf eqs e).
Proof. intros R [p [H _]]. destruct (ri_of _ _ _ R _ _ H) as [r [Hr Ha]]. destruct (ri_mem _ _ _ R _ _ Hr) as [_ [_ [_ [_ [E _]]]]]. apply E, Ha. Qed.

(** The relations are determined by the pairs of related dependents. *)
Lemma in_relations eqs n s rs : RI eqs n s -> relations s = Some rs ->
  forall r, In r rs <-> isset r /\ (exists d, In d r) /\ forall d, In d r -> forall a, In a r <-> relp s d a.
Proof.
  intros R E r. destruct (relations_ok _ _ _ R) as [rs' [E' [K H]]]. assert (rs' = rs) by congruence. subst rs'. clear E'.
  assert (Whole : forall r, In r rs -> forall d, In d r -> forall a, In a r <-> relp s d a).
  { intros t Ht d Hd a. rewrite <- H. split; [intros Ha; exists t; auto|]. intros [t' [Ht' [Hd' Ha]]].
    apply In_nth_error in Ht. apply In_nth_error in Ht'. destruct Ht as [i Hi], Ht' as [j Hj].
    assert (i = j) by apply (ro_apart _ _ K i j t t' d Hi Hj Hd Hd'). subst j. congruence. }
  split.
  - intros Hr. destruct (ro_set _ _ K r Hr) as [Hs Hl]. split; [assumption|]. split; [|apply Whole, Hr].
    destruct r as [|d r]; [cbn in Hl; lia|]. exists d. left. reflexivity.
  - intros [Hs [[d Hd] W]]. destruct (proj2 (H d d)) as [t [Ht [Hdt _]]]; [apply W; assumption|].
    replace r with t; [assumption|]. apply isset_ext; [apply (ro_set _ _ K t Ht)|assumption|].
    intros x. rewrite (Whole t Ht d Hdt), (W d Hd). reflexivity.
Qed.

Lemma clear_nth live : forall mem q, nth q (fold_left (fun m p => setNth m p None) live mem) (None : option set) = if existsb (Nat.eqb q) live then None else nth q mem None.
Proof.
  induction live as [|p l IH]; intros mem q; cbn [fold_left existsb]; [reflexivity|]. rewrite IH, nth_setNth.
  destruct (existsb (Nat.eqb q) l); [rewrite orb_true_r; reflexivity|]. rewrite orb_false_r. destruct (Nat.eqb_spec q p) as [->|]; [|reflexivity].
  cbn [andb]. destruct (Nat.ltb_spec p (length mem)); [reflexivity|]. apply nth_overflow. assumption.
Qed.

Lemma clear_length live : forall mem : list (option set), length (fold_left (fun m p => setNth m p None) live mem) = length mem.
Proof. induction live as [|p l IH]; intros mem; cbn [fold_left]; [reflexivity|]. rewrite IH. apply setNth_length. Qed.

Lemma copies_out bak : forall k of d, (forall r, In r bak -> ~ In d r) ->
  nth_error (fold_left (fun o c => repoint o (snd c) (fst c)) (copiesFrom k bak) of) d = nth_error of d.
Proof.
  unfold copiesFrom. induction bak as [|r bak IH]; intros k of d H; cbn [length seq combine fold_left fst snd]; [reflexivity|].
  rewrite IH by (intros t Ht; apply H; right; exact Ht). apply repoint_out, H. left. reflexivity.
Qed.

Lemma copies_in bak : forall k of i r d, (forall r x, In r bak -> In x r -> x < length of) ->
  (forall i j ri rj d, nth_error bak i = Some ri -> nth_error bak j = Some rj -> In d ri -> In d rj -> i = j) ->
  nth_error bak i = Some r -> In d r ->
  nth_error (fold_left (fun o c => repoint o (snd c) (fst c)) (copiesFrom k bak) of) d = Some (Some (k + i)).
Proof.
  unfold copiesFrom. induction bak as [|t bak IH]; intros k of [|i] r d L A Hi Hd; try discriminate; cbn [length seq combine fold_left fst snd].
  - injection Hi as ->. rewrite Nat.add_0_r. change (nth_error (fold_left (fun o c => repoint o (snd c) (fst c)) (copiesFrom (S k) bak) (repoint of r k)) d = Some (Some k)).
    rewrite copies_out.
    + apply repoint_in; [|assumption]. intros x Hx. apply (L r x); [left; reflexivity|assumption].
    + intros u Hu Hdu. apply In_nth_error in Hu. destruct Hu as [j Hj]. assert (0 = S j) by (apply (A 0 (S j) r u d); [reflexivity|exact Hj|assumption|assumption]). discriminate.
  - rewrite (IH (S k) (repoint of t k) i r d); [f_equal; f_equal; lia| | |exact Hi|assumption].
    + intros u x Hu Hx. rewrite repoint_length. apply (L u x); [right; assumption|assumption].
    + intros a b ra rb x Ha Hb H1 H2. assert (S a = S b) by (apply (A (S a) (S b) ra rb x); assumption). lia.
Qed.

Lemma copies_length bak : forall k of, length (fold_left (fun o c => repoint o (snd c) (fst c)) (copiesFrom k bak) of) = length of.
Proof.
  unfold copiesFrom. induction bak as [|t bak IH]; intros k of; cbn [length seq combine fold_left fst snd]; [reflexivity|]. rewrite IH. apply repoint_length.
Qed.

Lemma map_fst_copies k bak : map fst (copiesFrom k bak) = seq k (length bak).
Proof.
  unfold copiesFrom. revert k. induction bak as [|t bak IH]; intros k; cbn [length seq combine map fst]; [reflexivity|]. rewrite IH. reflexivity.
Qed.

Lemma nth_map_some (bak : list set) i r : nth i (map Some bak) None = Some r <-> nth_error bak i = Some r.
Proof. revert i. induction bak as [|t bak IH]; intros [|i]; cbn [map nth nth_error]; try (split; discriminate); [split; congruence|apply IH]. Qed.

Lemma restore_ok eqs n s0 s bak : RI eqs n s0 -> RI eqs n s -> relations s0 = Some bak ->
  RI eqs n (restore bak s) /\ forall a b, relp (restore bak s) a b <-> relp s0 a b.
Proof.
  intros R0 R E. destruct (relations_ok _ _ _ R0) as [rs [E' [K H]]]. assert (rs = bak) by congruence. subst rs. clear E'.
  assert (Memb : forall r, In r bak -> exists p, nth p (r_mem s0) None = Some r).
  { destruct (relationsAt_ok (r_mem s0) (r_live s0) (ri_live _ _ _ R0)) as [rs [E1 [_ H1]]]. unfold relations in E. assert (rs = bak) by congruence. subst rs.
    intros r Hr. apply In_nth_error in Hr. destruct Hr as [i Hi]. apply H1 in Hi. destruct Hi as [p [_ Hp]]. exists p. assumption. }
  set (k := length (r_mem s)).
  assert (Ln : length (map (fun _ : option nat => @None nat) (r_of s)) = n) by (rewrite map_length; apply (ri_len _ _ _ R)).
  assert (Bd : forall r x, In r bak -> In x r -> x < length (map (fun _ : option nat => @None nat) (r_of s))).
  { intros r x Hr Hx. rewrite Ln, <- (ri_len _ _ _ R0). apply nth_error_Some. destruct (Memb r Hr) as [p Hp]. destruct (ri_mem _ _ _ R0 _ _ Hp) as [_ [A _]]. rewrite (A x Hx). discriminate. }
  assert (OfIn : forall i r d, nth_error bak i = Some r -> In d r -> nth_error (r_of (restore bak s)) d = Some (Some (k + i))).
  { intros i r d Hi Hd. cbn [restore r_of]. apply (copies_in bak k _ i r d Bd (ro_apart _ _ K) Hi Hd). }
  assert (OfOut : forall d p, nth_error (r_of (restore bak s)) d = Some (Some p) -> exists i r, nth_error bak i = Some r /\ In d r /\ p = k + i).
  { intros d p Hp. destruct (existsb (sfind d) bak) eqn:X.
    - apply existsb_exists in X. destruct X as [r [Hr Hd]]. apply sfind_In in Hd. apply In_nth_error in Hr. destruct Hr as [i Hi].
      exists i, r. split; [assumption|]. split; [assumption|]. rewrite (OfIn i r d Hi Hd) in Hp. congruence.
    - exfalso. cbn [restore r_of] in Hp. rewrite copies_out in Hp.
      + rewrite nth_error_map in Hp. destruct (nth_error (r_of s) d); discriminate.
      + intros r Hr Hd. assert (existsb (sfind d) bak = true); [|congruence]. apply existsb_exists. exists r. split; [assumption|apply sfind_In, Hd]. }
  assert (Mem : forall p r, nth p (r_mem (restore bak s)) None = Some r <-> exists i, p = k + i /\ nth_error bak i = Some r).
  { intros p r. cbn [restore r_mem]. destruct (Nat.lt_ge_cases p k) as [Hp|Hp].
    - rewrite app_nth1 by (rewrite clear_length; exact Hp). rewrite clear_nth. split.
      + destruct (existsb (Nat.eqb p) (r_live s)) eqn:X; [discriminate|]. intros Hr. exfalso. destruct (ri_mem _ _ _ R _ _ Hr) as [_ [_ [_ [_ [_ V]]]]].
        assert (existsb (Nat.eqb p) (r_live s) = true); [|congruence]. apply existsb_exists. exists p. split; [assumption|apply Nat.eqb_refl].
      + intros [i [-> _]]. lia.
    - rewrite app_nth2 by (rewrite clear_length; exact Hp). rewrite clear_length. fold k. rewrite nth_map_some. split.
      + intros Hr. exists (p - k). split; [lia|assumption].
      + intros [i [-> Hi]]. replace (k + i - k) with i by lia. assumption. }
  split; [constructor|].
  - cbn [restore r_of]. rewrite copies_length. assumption.
  - intros d p Hp. apply OfOut in Hp. destruct Hp as [i [r [Hi [Hd ->]]]]. exists r. split; [|assumption]. apply Mem. exists i. auto.
  - intros p r Hp. apply Mem in Hp. destruct Hp as [i [-> Hi]]. assert (Hr := nth_error_In _ _ Hi). destruct (Memb r Hr) as [q Hq].
    destruct (ri_mem _ _ _ R0 _ _ Hq) as [A [_ [B [C [D _]]]]]. split; [assumption|]. split; [intros d Hd; apply (OfIn i r d Hi Hd)|].
    split; [assumption|]. split; [assumption|]. split; [assumption|]. cbn [restore r_live]. rewrite map_fst_copies. apply in_seq.
    assert (i < length bak) by (apply nth_error_Some; congruence). fold k. lia.
  - intros p Hp. cbn [restore r_live] in Hp. rewrite map_fst_copies in Hp. apply in_seq in Hp. fold k in Hp.
    destruct (nth_error bak (p - k)) as [r|] eqn:Er; [|apply nth_error_None in Er; lia].
    assert (X : nth p (r_mem (restore bak s)) None = Some r) by (apply Mem; exists (p - k); split; [lia|assumption]). congruence.
  - cbn [restore r_live]. rewrite map_fst_copies. apply seq_sorted.
  - intros a b. rewrite <- H. unfold relp. split.
    + intros [p [Ha Hb]]. apply OfOut in Ha. apply OfOut in Hb. destruct Ha as [i [r [Hi [Ha ->]]]], Hb as [j [r' [Hj [Hb X]]]].
      assert (i = j) by lia. subst j. assert (r' = r) by congruence. subst r'. exists r. split; [apply (nth_error_In _ _ Hi)|auto].
    + intros [r [Hr [Ha Hb]]]. apply In_nth_error in Hr. destruct Hr as [i Hi]. exists (k + i). split; apply (OfIn i r); assumption.
Qed.

Lemma runCalls_ok eqs n (P : patternsOk eqs n) : forall cs s, RI eqs n s -> (forall c, In c cs -> callOk eqs c) ->
  exists s', runCalls eqs cs s = ROk s' /\ RI eqs n s'.
Proof.
  induction cs as [|[[[e1 d1] e2] d2] cs IH]; intros s R H; cbn [runCalls]; [exists s; auto|].
  destruct (H _ (or_introl eq_refl)) as [H1 [H2 H3]]. destruct (makeRel_ok eqs n s e1 d1 e2 d2 P R H1 H2 H3) as [s' [-> [R' _]]].
  apply IH; [assumption|]. intros c Hc. apply H. right. assumption.
Qed.

(** ** The attempts to combine loops *)

(** The calls of an attempt are for equations of the two loops. *)
Definition attemptOk (eqs : list set) (s : lstate) (a : attempt) : Prop :=
  a_eq1 a < length eqs /\ a_eq2 a < length eqs /\
  forall e1 d1 e2 d2, In (e1, d1, e2, d2) (a_calls a) -> callOk eqs (e1, d1, e2, d2) /\
    (loopOf s e1 = loopOf s (a_eq1 a) \/ loopOf s e1 = loopOf s (a_eq2 a)) /\
    (loopOf s e2 = loopOf s (a_eq1 a) \/ loopOf s e2 = loopOf s (a_eq2 a)).
Fixpoint attemptsOk (eqs : list set) (l : list attempt) (s : lstate) : Prop :=
  match l with
  | [] => True
  | a :: r => attemptOk eqs s a /\ forall s', runAttempt eqs a s = LOk s' -> attemptsOk eqs r s'
  end.

(** What the loops get: sets of related dependents of their own equations, every one. *)
Record linkedOk (eqs : list set) (s : lstate) (l : nat) : Prop := {
  lo_rel : relationsOk eqs (nth l (l_linked s) []);
  lo_own : forall r d e, In r (nth l (l_linked s) []) -> In d r -> In d (dependentsOf eqs e) -> loopOf s e = l;
  lo_all : forall a b e, related (l_rel s) a b -> In a (dependentsOf eqs e) -> loopOf s e = l -> exists r, In r (nth l (l_linked s) []) /\ In a r /\ In b r;
  lo_only : forall r a b, In r (nth l (l_linked s) []) -> In a r -> In b r -> related (l_rel s) a b }.

Definition apart (rs : list set) : Prop := forall i j ri rj d, nth_error rs i = Some ri -> nth_error rs j = Some rj -> In d ri -> In d rj -> i = j.
Lemma apart_cons x rs : apart (x :: rs) <-> apart rs /\ forall r d, In r rs -> In d r -> ~ In d x.
Proof.
  split.
  - intros A. split.
    + intros i j ri rj d Hi Hj H1 H2. assert (S i = S j) by (apply (A (S i) (S j) ri rj d); assumption). lia.
    + intros r d Hr Hd Hx. apply In_nth_error in Hr. destruct Hr as [i Hi]. assert (0 = S i) by (apply (A 0 (S i) x r d); [reflexivity|exact Hi|assumption|assumption]). discriminate.
  - intros [A B] [|i] [|j] ri rj d Hi Hj H1 H2; [reflexivity| | |f_equal; apply (A i j ri rj d); assumption].
    + injection Hi as <-. exfalso. apply (B rj d); [apply (nth_error_In rs j Hj)|assumption|assumption].
    + injection Hj as <-. exfalso. apply (B ri d); [apply (nth_error_In rs i Hi)|assumption|assumption].
Qed.
Lemma apart_filter f rs : apart rs -> apart (filter f rs).
Proof.
  induction rs as [|x rs IH]; intros A; cbn [filter]; [assumption|]. apply apart_cons in A. destruct A as [A B]. destruct (f x); [|apply IH, A].
  apply apart_cons. split; [apply IH, A|]. intros r d Hr. apply filter_In in Hr. apply B, Hr.
Qed.
Lemma relationsOk_filter eqs f rs : relationsOk eqs rs -> relationsOk eqs (filter f rs).
Proof.
  intros [A B C]. constructor; [intros r Hr; apply filter_In in Hr; apply A, Hr|apply (apart_filter f rs B)|intros r a b Hr; apply filter_In in Hr; apply C, Hr].
Qed.

Record LI (eqs : list set) (n : nat) (s : lstate) : Prop := {
  li_ri : RI eqs n (l_rel s);
  li_len : length (l_loop s) = length eqs;
  li_len2 : length (l_linked s) = length eqs;
  li_lt : forall e, e < length eqs -> loopOf s e < length eqs;
  li_in : forall a b e e', relp (l_rel s) a b -> In a (dependentsOf eqs e) -> In b (dependentsOf eqs e') -> loopOf s e = loopOf s e';
  li_rel : forall l, relationsOk eqs (nth l (l_linked s) []);
  li_linked : forall rs l r, relations (l_rel s) = Some rs ->
    (In r (nth l (l_linked s) []) <-> In r rs /\ exists d e, In d r /\ In d (dependentsOf eqs e) /\ loopOf s e = l) }.

Lemma dep_lt eqs d e : In d (dependentsOf eqs e) -> e < length eqs.
Proof. unfold dependentsOf. intros H. destruct (Nat.lt_ge_cases e (length eqs)) as [X|X]; [exact X|]. rewrite nth_overflow in H by exact X. destruct H. Qed.

Lemma relationsOk_nil eqs : relationsOk eqs [].
Proof. constructor; [intros r []|intros [|i] j ri rj d H; discriminate|intros r a b []]. Qed.

Lemma linit_LI eqs n : LI eqs n (linit eqs n).
Proof.
  constructor; cbn [linit l_rel l_loop l_linked].
  - apply rinit_RI.
  - apply seq_length.
  - apply repeat_length.
  - intros e He. unfold loopOf. cbn [linit l_loop]. rewrite seq_nth; lia.
  - intros a b e e' H. destruct (rinit_relp _ _ _ H).
  - intros l. replace (nth l (repeat [] (length eqs)) []) with (@nil set); [apply relationsOk_nil|]. symmetry. apply nth_repeat.
  - intros rs l r E. rewrite nth_repeat. cbn in E. injection E as <-. split; [intros []|intros [[] _]].
Qed.

(** The calls of an attempt do not touch the other loops. *)
Lemma runCalls_loops eqs n (P : patternsOk eqs n) (lp : nat -> nat) (l1 : nat) : forall cs s s', RI eqs n s ->
  (forall e1 d1 e2 d2, In (e1, d1, e2, d2) cs -> callOk eqs (e1, d1, e2, d2) /\ lp e1 = l1 /\ lp e2 = l1) ->
  runCalls eqs cs s = ROk s' ->
  (forall a b e e', relp s a b -> In a (dependentsOf eqs e) -> In b (dependentsOf eqs e') -> lp e = lp e') ->
  (forall a b e e', relp s' a b -> In a (dependentsOf eqs e) -> In b (dependentsOf eqs e') -> lp e = lp e') /\
  (forall a b e, In a (dependentsOf eqs e) -> lp e <> l1 -> (relp s' a b <-> relp s a b)).
Proof.
  induction cs as [|[[[e1 d1] e2] d2] cs IH]; intros s s' R H E J; cbn [runCalls] in E.
  - injection E as <-. split; [assumption|reflexivity].
  - destruct (H _ _ _ _ (or_introl eq_refl)) as [[H1 [H2 H3]] [L1 L2]]. destruct (makeRel_ok eqs n s e1 d1 e2 d2 P R H1 H2 H3) as [t [Et [Rt Pt]]].
    rewrite Et in E.
    assert (Tog : forall a e, tog s d1 a \/ tog s d2 a -> In a (dependentsOf eqs e) -> lp e = l1).
    { intros a e [[->|Ha]|[->|Ha]] He.
      - rewrite (po_apart _ _ P e e1 d1) by assumption. assumption.
      - rewrite <- (J d1 a e1 e Ha H1 He). assumption.
      - rewrite (po_apart _ _ P e e2 d2) by assumption. assumption.
      - rewrite <- (J d2 a e2 e Ha H2 He). assumption. }
    assert (X : (forall a b e e', relp t a b -> In a (dependentsOf eqs e) -> In b (dependentsOf eqs e') -> lp e = lp e') /\
                (forall a b e, In a (dependentsOf eqs e) -> lp e <> l1 -> (relp t a b <-> relp s a b))).
    { destruct Pt as [[_ Q]|[_ Q]].
      - split; [intros a b e e' X; apply Q in X; apply (J a b); assumption|intros; apply Q].
      - split.
        + intros a b e e' X Ha Hb. apply Q in X. destruct X as [X|[Ya Yb]]; [apply (J a b); assumption|]. rewrite (Tog a e Ya Ha), (Tog b e' Yb Hb). reflexivity.
        + intros a b e Ha Hl. rewrite Q. split; [|auto]. intros [X|[Ya Yb]]; [assumption|]. exfalso. apply Hl, (Tog a e Ya Ha). }
    destruct X as [J' K']. destruct (IH t s' Rt) as [A B]; [intros; apply H; right; assumption|assumption|assumption|].
    split; [assumption|]. intros a b e Ha Hl. rewrite (B a b e Ha Hl). apply (K' a b e Ha Hl).
Qed.

Lemma ofLoops_true eqs n loop l1 l2 r : patternsOk eqs n -> (ofLoops eqs loop l1 l2 r = true <->
  exists d e, In d r /\ In d (dependentsOf eqs e) /\ (nth e loop 0 = l1 \/ nth e loop 0 = l2)).
Proof.
  intros P. unfold ofLoops. rewrite existsb_exists. split.
  - intros [d [Hd X]]. assert (S := dep2EquationFrom_spec eqs d 0). unfold dep2Equation in X. destruct (dep2EquationFrom eqs 0 d) as [e|]; [|discriminate].
    destruct S as [_ S]. rewrite Nat.sub_0_r in S. exists d, e. split; [assumption|]. split; [assumption|]. apply orb_true_iff in X. rewrite !Nat.eqb_eq in X. assumption.
  - intros [d [e [Hd [He X]]]]. exists d. split; [assumption|]. rewrite (dep2Equation_spec _ _ _ _ P He). apply orb_true_iff. rewrite !Nat.eqb_eq. assumption.
Qed.

Lemma runAttempt_ok eqs n s a : patternsOk eqs n -> LI eqs n s -> attemptOk eqs s a ->
  exists s', runAttempt eqs a s = LOk s' /\ LI eqs n s' /\
    (a_compatible a = false -> l_loop s' = l_loop s /\ l_linked s' = l_linked s /\ forall x y, relp (l_rel s') x y <-> relp (l_rel s) x y).
Proof.
  intros P L [E1 [E2 HC]]. assert (R := li_ri _ _ _ L). unfold runAttempt.
  set (l1 := loopOf s (a_eq1 a)) in *. set (l2 := loopOf s (a_eq2 a)) in *.
  destruct (Nat.eqb_spec l1 l2) as [Hl|Hl]; [exists s; split; [reflexivity|]; split; [assumption|]; intros _; repeat split; auto|].
  destruct (relations_ok _ _ _ R) as [bak [Eb [Kb Hb]]]. rewrite Eb.
  destruct (runCalls_ok eqs n P (a_calls a) (l_rel s) R) as [r [Er Rr]].
  { intros [[[e1 d1] e2] d2] Hc. apply (HC e1 d1 e2 d2 Hc). }
  rewrite Er. destruct (a_compatible a).
  - destruct (relations_ok _ _ _ Rr) as [rs [Es [Ks Hs]]]. rewrite Es. eexists. split; [reflexivity|]. split; [|discriminate].
    set (lp := fun e => if loopOf s e =? l2 then l1 else loopOf s e).
    assert (Lp : forall e, e < length eqs -> nth e (map (fun l => if l =? l2 then l1 else l) (l_loop s)) 0 = lp e).
    { intros e He. unfold lp, loopOf. rewrite (nth_indep _ 0 (if 0 =? l2 then l1 else 0)) by (rewrite map_length, (li_len _ _ _ L); assumption).
      exact (map_nth (fun l => if l =? l2 then l1 else l) (l_loop s) 0 e). }
    assert (Lne : forall e, lp e <> l1 -> lp e = loopOf s e /\ loopOf s e <> l1 /\ loopOf s e <> l2).
    { intros e. unfold lp. destruct (Nat.eqb_spec (loopOf s e) l2) as [X|X]; [congruence|auto]. }
    assert (Leq : forall e, lp e = l1 <-> loopOf s e = l1 \/ loopOf s e = l2).
    { intros e. unfold lp. destruct (Nat.eqb_spec (loopOf s e) l2) as [X|X]; [tauto|tauto]. }
    assert (L1 : l1 < length eqs) by (apply (li_lt _ _ _ L), E1). assert (L2 : l2 < length eqs) by (apply (li_lt _ _ _ L), E2).
    destruct (runCalls_loops eqs n P lp l1 (a_calls a) (l_rel s) r R) as [In1 Out1]; [|assumption| |].
    { intros e1 d1 e2 d2 Hc. destruct (HC e1 d1 e2 d2 Hc) as [A [B C]]. split; [assumption|]. rewrite !Leq. auto. }
    { intros x y e e' X Hx Hy. unfold lp. rewrite (li_in _ _ _ L x y e e' X Hx Hy). reflexivity. }
    assert (Lnk : forall l, nth l (setNth (setNth (l_linked s) l1 (filter (ofLoops eqs (l_loop s) l1 l2) rs)) l2 []) [] =
              if l =? l2 then [] else if l =? l1 then filter (ofLoops eqs (l_loop s) l1 l2) rs else nth l (l_linked s) []).
    { intros l. rewrite !nth_setNth, setNth_length, (li_len2 _ _ _ L). rewrite (proj2 (Nat.ltb_lt _ _) L1), (proj2 (Nat.ltb_lt _ _) L2), !andb_true_r. reflexivity. }
    constructor; cbn [l_rel l_loop l_linked].
    + assumption.
    + rewrite map_length. apply (li_len _ _ _ L).
    + rewrite !setNth_length. apply (li_len2 _ _ _ L).
    + intros e He. unfold loopOf. cbn [l_loop]. rewrite (Lp e He). unfold lp. destruct (loopOf s e =? l2); [assumption|apply (li_lt _ _ _ L), He].
    + intros x y e e' X Hx Hy. unfold loopOf. cbn [l_loop]. rewrite !Lp by (eapply dep_lt; eassumption). apply (In1 x y); assumption.
    + intros l. rewrite Lnk. destruct (l =? l2); [apply relationsOk_nil|]. destruct (l =? l1); [apply relationsOk_filter; assumption|apply (li_rel _ _ _ L)].
    + intros rs' l t Ers'. assert (rs' = rs) by congruence. subst rs'. rewrite Lnk. unfold loopOf. cbn [l_loop].
      assert (Lp' : forall d e, In d (dependentsOf eqs e) -> nth e (map (fun l => if l =? l2 then l1 else l) (l_loop s)) 0 = lp e) by (intros d e Hd; apply Lp, (dep_lt _ _ _ Hd)).
      destruct (Nat.eqb_spec l l2) as [->|N2].
      * split; [intros []|]. intros [_ [d [e [_ [Hd X]]]]]. rewrite (Lp' d e Hd) in X. exfalso. unfold lp in X. destruct (Nat.eqb_spec (loopOf s e) l2); congruence.
      * destruct (Nat.eqb_spec l l1) as [->|N1].
        -- rewrite filter_In, (ofLoops_true eqs n) by assumption. split.
           ++ intros [A [d [e [B [C D]]]]]. split; [assumption|]. exists d, e. split; [assumption|]. split; [assumption|]. rewrite (Lp' d e C). apply Leq, D.
           ++ intros [A [d [e [B [C D]]]]]. split; [assumption|]. exists d, e. split; [assumption|]. split; [assumption|]. rewrite (Lp' d e C) in D. apply Leq in D. exact D.
        -- rewrite (li_linked _ _ _ L bak l t Eb). rewrite (in_relations _ _ _ _ R Eb), (in_relations _ _ _ _ Rr Es). split.
           ++ intros [[A [B C]] [d [e [D [F G]]]]]. assert (G' : lp e = l) by (unfold lp; destruct (Nat.eqb_spec (loopOf s e) l2); congruence).
              assert (OutT : forall x, In x t -> forall y, relp r x y <-> relp (l_rel s) x y).
              { intros x Hx y. assert (Y := proj1 (C d D x) Hx). apply relp_sym in Y. destruct (relp_dep _ _ _ _ _ R Y) as [ex Hex].
                apply (Out1 x y ex Hex). intros Z. apply relp_sym in Y. assert (W := li_in _ _ _ L d x e ex Y F Hex). apply Leq in Z. rewrite <- W, G in Z. destruct Z; congruence. }
              split; [split; [assumption|split; [assumption|]]|].
              ** intros x Hx y. rewrite (OutT x Hx). apply C, Hx.
              ** exists d, e. split; [assumption|]. split; [assumption|]. rewrite (Lp' d e F). assumption.
           ++ intros [[A [B C]] [d [e [D [F G]]]]]. rewrite (Lp' d e F) in G. assert (Nl : lp e <> l1) by congruence. destruct (Lne e Nl) as [Q1 [Q2 Q3]].
              assert (OutT : forall x, In x t -> forall y, relp r x y <-> relp (l_rel s) x y).
              { intros x Hx y. assert (Y := proj1 (C d D x) Hx). assert (Y' := relp_sym _ _ _ Y). destruct (relp_dep _ _ _ _ _ Rr Y') as [ex Hex].
                apply (Out1 x y ex Hex). rewrite <- (In1 d x e ex Y F Hex). assumption. }
              split; [split; [assumption|split; [assumption|]]|].
              ** intros x Hx y. rewrite <- (OutT x Hx). apply C, Hx.
              ** exists d, e. split; [assumption|]. split; [assumption|]. congruence.
  - eexists. split; [reflexivity|]. destruct (restore_ok eqs n (l_rel s) r bak R Rr Eb) as [R' X]. split; [|intros _; cbn [l_loop l_linked l_rel]; auto].
    constructor; cbn [l_rel l_loop l_linked].
    + assumption.
    + apply (li_len _ _ _ L).
    + apply (li_len2 _ _ _ L).
    + apply (li_lt _ _ _ L).
    + intros x y e e' Y. apply X in Y. apply (li_in _ _ _ L x y e e' Y).
    + apply (li_rel _ _ _ L).
    + intros rs l t Es. unfold loopOf; cbn [l_loop]. rewrite (li_linked _ _ _ L bak l t Eb). rewrite (in_relations _ _ _ _ R Eb), (in_relations _ _ _ _ R' Es).
      split; intros [[A [B C]] D]; (split; [split; [assumption|split; [assumption|]]|assumption]); intros x Hx y; [rewrite X|rewrite <- X]; apply C, Hx.
Qed.

Lemma runAttempts_ok eqs n (P : patternsOk eqs n) : forall l s, LI eqs n s -> attemptsOk eqs l s ->
  exists s', runAttempts eqs l s = LOk s' /\ LI eqs n s'.
Proof.
  induction l as [|a l IH]; intros s L H; cbn [runAttempts]; [exists s; auto|]. destruct H as [H1 H2].
  destruct (runAttempt_ok eqs n s a P L H1) as [s' [E [L' _]]]. rewrite E. apply IH; [assumption|]. apply H2, E.
Qed.

Lemma LI_linked eqs n s l : LI eqs n s -> linkedOk eqs s l.
Proof.
  intros L. assert (R := li_ri _ _ _ L). destruct (relations_ok _ _ _ R) as [rs [E [K H]]]. constructor.
  - apply (li_rel _ _ _ L).
  - intros r d e Hr Hd He. apply (li_linked _ _ _ L rs l r E) in Hr. destruct Hr as [Hr [d' [e' [A [B C]]]]]. rewrite <- C.
    apply (li_in _ _ _ L d d'); try assumption. apply H. exists r. auto.
  - intros a b e X Ha Hl. apply (related_relp _ _ _ R) in X. apply H in X. destruct X as [r [Hr [A B]]]. exists r. split; [|auto].
    apply (li_linked _ _ _ L rs l r E). split; [assumption|]. exists a, e. auto.
  - intros r a b Hr Ha Hb. apply (li_linked _ _ _ L rs l r E) in Hr. apply (related_relp _ _ _ R), H. exists r. split; [apply Hr|auto].
Qed.

(** ** Theorems *)

(** For every sequence of attempts to combine loops (accepted or not): no deleted set is
    used, the relations are disjoint sets without two dependents of an equation, the
    table of the relation of each dependent agrees with them, and every loop gets
    exactly the relations between dependents of its own equations. *)
Theorem C50_relations_are_consistent : forall eqs n l,
  patternsOk eqs n -> attemptsOk eqs l (linit eqs n) ->
  exists s rs, runAttempts eqs l (linit eqs n) = LOk s /\ relations (l_rel s) = Some rs /\ relationsOk eqs rs /\
    (forall d, d < n ->
      match nth_error (r_of (l_rel s)) d with
      | Some (Some p) => exists r, nth p (r_mem (l_rel s)) None = Some r /\ In r rs /\ In d r
      | Some None => forall r, In r rs -> ~ In d r
      | None => False
      end) /\
    forall loop, linkedOk eqs s loop.
Proof.
  intros eqs n l P H. destruct (runAttempts_ok eqs n P l _ (linit_LI eqs n) H) as [s [E L]]. assert (R := li_ri _ _ _ L).
  destruct (relations_ok _ _ _ R) as [rs [Er [K X]]]. exists s, rs. split; [assumption|]. split; [assumption|]. split; [assumption|]. split; [|intros loop; apply (LI_linked eqs n); assumption].
  intros d Hd. destruct (nth_error (r_of (l_rel s)) d) as [[p|]|] eqn:Ed.
  - destruct (ri_of _ _ _ R _ _ Ed) as [r [Hr Hdr]]. exists r. split; [assumption|]. split; [|assumption].
    destruct (ri_mem _ _ _ R _ _ Hr) as [A [B _]]. apply (in_relations _ _ _ _ R Er). split; [assumption|]. split; [exists d; assumption|].
    intros x Hx a. split.
    + intros Ha. exists p. auto.
    + intros [q [Hq Ha]]. assert (q = p) by (specialize (B x Hx); congruence). subst q. destruct (ri_of _ _ _ R _ _ Ha) as [r' [Hr' Har]]. congruence.
  - intros r Hr Hdr. destruct (proj1 (X d d)) as [p [Hp _]]; [exists r; auto|]. congruence.
  - apply nth_error_None in Ed. rewrite (ri_len _ _ _ R) in Ed. lia.
Qed.
Print Assumptions C50_relations_are_consistent.

(** The effect of one more call: the dependents which are together with either one are
    all together afterwards, unless two of them are different dependents of the same
    equation, in which case nothing changes. *)
Theorem C50_a_call_joins_or_changes_nothing : forall eqs n l s cs r e1 d1 e2 d2,
  patternsOk eqs n -> attemptsOk eqs l (linit eqs n) -> runAttempts eqs l (linit eqs n) = LOk s ->
  (forall c, In c cs -> callOk eqs c) -> runCalls eqs cs (l_rel s) = ROk r -> callOk eqs (e1, d1, e2, d2) ->
  exists r', makeRel eqs e1 d1 e2 d2 r = ROk r' /\
    (conflict eqs r d1 d2 -> forall a b, related r' a b <-> related r a b) /\
    (~ conflict eqs r d1 d2 -> forall a b, related r' a b <->
       related r a b \/ ((together r d1 a \/ together r d2 a) /\ (together r d1 b \/ together r d2 b))).
Proof.
  intros eqs n l s cs r e1 d1 e2 d2 P H E Hc Er [H1 [H2 H3]].
  destruct (runAttempts_ok eqs n P l _ (linit_LI eqs n) H) as [s' [E' L]]. assert (s' = s) by congruence. subst s'.
  destruct (runCalls_ok eqs n P cs (l_rel s) (li_ri _ _ _ L) Hc) as [r0 [Er0 R]]. assert (r0 = r) by congruence. subst r0.
  destruct (makeRel_ok eqs n r e1 d1 e2 d2 P R H1 H2 H3) as [r' [Em [R' Post]]]. exists r'. split; [assumption|].
  assert (T := tog_eq _ _ _ R). assert (Q := related_relp _ _ _ R). assert (Q' := related_relp _ _ _ R').
  assert (C : conflict eqs r d1 d2 <-> conf eqs r d1 d2).
  { unfold conflict, conf. split; intros [a [b [A [B D]]]]; exists a, b; (split; [apply T, A|split; [apply T, B|exact D]]). }
  rewrite C. destruct Post as [[X Y]|[X Y]]; (split; intros Z; [|]); try contradiction; intros a b; rewrite Q', Q, Y; [reflexivity|].
  rewrite !T. reflexivity.
Qed.
Print Assumptions C50_a_call_joins_or_changes_nothing.

(** An attempt which is not accepted leaves the relations and the loops as they were. *)
Theorem C50_rejected_attempt_changes_nothing : forall eqs n l s a,
  patternsOk eqs n -> attemptsOk eqs l (linit eqs n) -> runAttempts eqs l (linit eqs n) = LOk s ->
  attemptOk eqs s a -> a_compatible a = false ->
  exists s', runAttempt eqs a s = LOk s' /\ l_loop s' = l_loop s /\ l_linked s' = l_linked s /\
    forall x y, related (l_rel s') x y <-> related (l_rel s) x y.
Proof.
  intros eqs n l s a P H E Ha Hc. destruct (runAttempts_ok eqs n P l _ (linit_LI eqs n) H) as [s0 [E' L]]. assert (s0 = s) by congruence. subst s0.
  destruct (runAttempt_ok eqs n s a P L Ha) as [s' [Es [L' X]]]. destruct (X Hc) as [A [B C]]. exists s'. split; [assumption|]. split; [assumption|]. split; [assumption|].
  intros x y. rewrite (related_relp _ _ _ (li_ri _ _ _ L)), (related_relp _ _ _ (li_ri _ _ _ L')). apply C.
Qed.
Print Assumptions C50_rejected_attempt_changes_nothing.

(** Three equations with two, two and three dependents: the first two loops are combined,
    an attempt with the third is rejected and a second one joins everything, with a
    relation which has a conflict. *)
Definition C50_eqs : list set := [[0; 1]; [2; 3]; [4; 5; 6]].
Definition C50_attempts : list attempt :=
  [mkA 0 1 [(0, 0, 1, 2); (0, 1, 1, 3)] true;
   mkA 1 2 [(1, 2, 2, 5)] false;
   mkA 0 2 [(0, 0, 2, 4); (1, 2, 2, 5); (1, 3, 2, 6)] true].
Example C50_case_patterns : patternsOk C50_eqs 7.
Proof.
  constructor.
  - intros [|[|[|e]]]; cbn; repeat constructor. destruct e; constructor.
  - intros [|[|[|[|e]]]] [|[|[|[|e']]]] d H H'; cbn in H, H'; try tauto; exfalso; intuition (subst; discriminate).
  - intros [|[|[|[|e]]]] d H; cbn in H; lia.
Qed.
Example C50_case_attempts : attemptsOk C50_eqs C50_attempts (linit C50_eqs 7).
Proof.
  cbn [attemptsOk C50_attempts].
  assert (X : forall P : Prop, P -> P) by auto.
  split; [|intros s' E; vm_compute in E; injection E as <-; split; [|intros s' E; vm_compute in E; injection E as <-; split; [|auto]]].
  all: (split; [vm_compute; lia|]; split; [vm_compute; lia|]; intros e1 d1 e2 d2 H; cbn in H;
        repeat match goal with H : _ \/ _ |- _ => destruct H as [H|H] | H : False |- _ => destruct H | H : (_, _, _, _) = _ |- _ => injection H as <- <- <- <- end;
        (split; [repeat split; cbn; auto; discriminate|vm_compute; auto])).
Qed.
Example C50_case : exists s, runAttempts C50_eqs C50_attempts (linit C50_eqs 7) = LOk s /\
  relations (l_rel s) = Some [[0; 2; 4]; [1; 3; 6]] /\ l_loop s = [0; 0; 0] /\ l_linked s = [[[0; 2; 4]; [1; 3; 6]]; []; []].
Proof. eexists. vm_compute. repeat split. Qed.

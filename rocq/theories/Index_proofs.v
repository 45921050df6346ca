(** * Proofs for index patterns *)
From Coq Require Import List Bool Arith ZArith Lia Sorted.
From Verif Require Import Graph_model Codegen_model CSyntax CSyntax_proofs Index_model Index_spec.
Import ListNotations.
Local Open Scope Z_scope.

(** ** Maps *)
Section Map.
Context {A : Type}.
Lemma mput_last (k : Z) (a : A) l : (forall k' a', In (k', a') l -> k' < k) -> mput k a l = l ++ [(k, a)].
Proof.
  induction l as [|[k' a'] l IH]; intros H; [reflexivity|]. cbn [mput app].
  assert (k' < k) by (apply (H k' a'); left; reflexivity).
  destruct (Z.ltb_spec k k'); [lia|]. destruct (Z.eqb_spec k k'); [lia|]. f_equal. apply IH. intros; eapply H; right; eassumption.
Qed.
Lemma mput_upd (k : Z) (a b : A) l : (forall k' a', In (k', a') l -> k' < k) -> mput k a (l ++ [(k, b)]) = l ++ [(k, a)].
Proof.
  induction l as [|[k' a'] l IH]; intros H; cbn [app mput].
  - rewrite Z.ltb_irrefl, Z.eqb_refl. reflexivity.
  - assert (k' < k) by (apply (H k' a'); left; reflexivity).
    destruct (Z.ltb_spec k k'); [lia|]. destruct (Z.eqb_spec k k'); [lia|]. f_equal. apply IH. intros; eapply H; right; eassumption.
Qed.
End Map.

Section Sections.
Variable n : nat.
Variables px py : nat -> Z.
Variable fit : nat -> lin * nat.
Hypothesis Hx : forall i j, (i < j < n)%nat -> px i < px j.

(** what a fitted pattern satisfies *)
Definition fits (p : lin) (i j : nat) : Prop := forall k, (i <= k < j)%nat -> evalLin p (px k) = py k.
Definition mono (p : lin) (i : nat) : Prop :=
  l_dy p <> 0 -> (S i < n)%nat /\ py (S i) <> py i /\ fits p i (S (S i)).
Hypothesis Hfit : forall i, (i < n)%nat -> let (p, j) := fit i in
  (i < j <= n)%nat /\ fits p i j /\ ((j < n)%nat -> evalLin p (px j) <> py j) /\ (l_dy p <> 0 -> (S i < j)%nat /\ py (S i) <> py i) /\
  (l_dy p = 0 -> l_b p = py i).

(** a property of the sections *)
Variable Q : nat -> lin -> Prop.
Hypothesis Q_fit : forall i, (i < n)%nat -> Q i (fst (fit i)).
Hypothesis Q_move : forall i j p, l_dy p = 0 -> (i < n)%nat -> (j < n)%nat -> Q i p -> Q j p.
Hypothesis Q_const : forall i p, (i < n)%nat -> Q i p -> Q i (mkConst p (py i)).

Lemma evalConst p x : l_dy p = 0 -> evalLin p x = l_b p.
Proof. unfold evalLin. intros ->. lia. Qed.

(** taking elements from the previous section leaves at least one there *)
Lemma takeBack_spec ps pp b start : forall s' pp',
  (ps < start <= n)%nat -> fits pp ps start -> (l_dy pp = 0 -> l_b pp <> b) -> (l_dy pp <> 0 -> (S ps < start)%nat /\ py (S ps) <> py ps) ->
  takeBack px ps pp b start = (s', pp') -> Q ps pp ->
  (ps < s' <= start)%nat /\ fits pp' ps s' /\ (forall k, (s' <= k < start)%nat -> py k = b) /\ Q ps pp'.
Proof.
  (* generalised over the current position, with the two possible states of the previous pattern *)
  assert (H0 : forall start pp s' pp', (ps < start <= n)%nat -> fits pp ps start -> l_dy pp = 0 -> l_b pp <> b ->
     takeBack px ps pp b start = (s', pp') -> s' = start /\ pp' = pp).
  { intros st q s' q' H Hf Hd Hb E. destruct st as [|k]; [lia|]. cbn [takeBack] in E. rewrite (evalConst q) in E by exact Hd.
    destruct (Z.eqb_spec (l_b q) b); [contradiction|]. injection E as <- <-. auto. }
  revert pp. induction start as [|k IH]; intros pp s' pp' Hs Hf Hc Hl E HQ; [lia|].
  destruct (Z.eq_dec (l_dy pp) 0) as [Hd|Hd].
  - destruct (H0 _ _ _ _ Hs Hf Hd (Hc Hd) E) as [-> ->]. split; [lia|]. split; [exact Hf|]. split; [intros j Hj; lia|exact HQ].
  - destruct (Hl Hd) as [Hl1 Hl2]. cbn [takeBack] in E. rewrite (Hf k) in E by lia. destruct (Z.eqb_spec (py k) b) as [Ey|Ey].
    + assert (Hfk : fits pp ps k) by (intros j Hj; apply Hf; lia).
      destruct (Nat.eqb_spec (S ps) k) as [Ek|Ek].
      * (* one element left: constant *)
        subst k. set (q := mkConst pp (evalLin pp (px ps))) in *.
        assert (Hq : evalLin pp (px ps) = py ps) by (apply Hf; lia).
        assert (Hfq : fits q ps (S ps)). { intros j Hj. replace j with ps by lia. unfold q. rewrite evalConst by reflexivity. cbn. exact Hq. }
        destruct (H0 (S ps) q s' pp') as [-> ->]; [lia|exact Hfq|reflexivity| |exact E|].
        { cbn. rewrite Hq. congruence. }
        split; [lia|]. split; [exact Hfq|]. split; [intros j Hj; replace j with (S ps) by lia; exact Ey|]. unfold q. rewrite Hq. apply Q_const; [lia|exact HQ].
      * assert (Hk : (S ps < k)%nat) by lia. destruct (IH pp s' pp') as (A1 & A2 & A3 & A4); [lia|exact Hfk|exact Hc| |exact E|exact HQ|].
        { intros _. split; [exact Hk|exact Hl2]. }
        split; [lia|]. split; [exact A2|]. split; [|exact A4]. intros j Hj. destruct (Nat.eq_dec j k) as [->|]; [exact Ey|apply A3; lia].
    + injection E as <- <-. split; [lia|]. split; [exact Hf|]. split; [intros j Hj; lia|exact HQ].
Qed.

(** sections cover the first points: each starts at a point and fits the points up to the start of the next *)
Inductive covers : list (Z * lin) -> nat -> Prop :=
 | cov_nil : covers [] 0
 | cov_snoc s i p j : covers s i -> (i < j <= n)%nat -> fits p i j -> Q i p -> covers (s ++ [(px i, p)]) j.

Lemma covers_lt s i : covers s i -> (i <= n)%nat -> forall j, (i <= j < n)%nat -> forall k a, In (k, a) s -> k < px j.
Proof.
  induction 1 as [|s i p j H IH Hij Hf HQ]; intros Hi l Hl k a Hk; [destruct Hk|].
  apply in_app_iff in Hk. destruct Hk as [Hk|[[= <- <-]|[]]]; [|apply Hx; lia]. apply (IH ltac:(lia) l ltac:(lia) k a Hk).
Qed.

Definition state_ok (secs : list (Z * lin)) (prev : option (nat * lin)) (start : nat) : Prop :=
  match prev with
  | None => secs = [] /\ start = 0%nat
  | Some (ps, pp) => exists s, secs = s ++ [(px ps, pp)] /\ covers s ps /\ (ps < start <= n)%nat /\ fits pp ps start /\
      ((start < n)%nat -> evalLin pp (px start) <> py start) /\ (l_dy pp <> 0 -> (S ps < start)%nat /\ py (S ps) <> py ps) /\ Q ps pp
  end.
Lemma state_covers secs prev start : state_ok secs prev start -> covers secs start.
Proof.
  destruct prev as [[ps pp]|]; [intros (s & -> & H1 & H2 & H3 & _ & _ & H4)|intros [-> ->]]; econstructor; eassumption.
Qed.

Lemma sectionLoop_spec fuel : forall maxCount secs prev start r, (start <= n)%nat -> state_ok secs prev start ->
  sectionLoop n px fit fuel maxCount secs prev start = Done r -> r = [] \/ covers r n.
Proof.
  induction fuel as [|fuel IH]; intros mc secs prev start r Hs HS E; cbn [sectionLoop] in E.
  - destruct (Nat.eqb_spec start n) as [->|]; [|discriminate]. injection E as <-. right. eapply state_covers, HS.
  - destruct (Nat.eqb_spec start n) as [->|Hn]; [injection E as <-; right; eapply state_covers, HS|].
    pose proof (Hfit start ltac:(lia)) as HF. pose proof (Q_fit start ltac:(lia)) as HQ. destruct (fit start) as [p last]. cbn [fst] in HQ. destruct HF as (F1 & F2 & F3 & F4 & F5).
    (* the new state *)
    assert (Hnew : exists s' start', match prev with
        | Some (ps, pp) => if l_dy p =? 0 then let (s', pp') := takeBack px ps pp (l_b p) start in (s', mput (px ps) pp' secs) else (start, secs)
        | None => (start, secs) end = (start', s') /\
        (start' <= start)%nat /\ covers s' start' /\ fits p start' last /\ (l_dy p <> 0 -> start' = start) /\ Q start' p).
    { destruct prev as [[ps pp]|].
      - destruct HS as (s & -> & S1 & S2 & S3 & S4 & S5 & S6). destruct (Z.eqb_spec (l_dy p) 0) as [Ed|Ed].
        + destruct (takeBack px ps pp (l_b p) start) as [s' pp'] eqn:ET.
          destruct (takeBack_spec ps pp (l_b p) start s' pp') as (T1 & T2 & T3 & T4); [lia|exact S3| |exact S5|exact ET|exact S6|].
          { intros Hd Hb. apply (S4 ltac:(lia)). rewrite evalConst by exact Hd. rewrite Hb, (F5 Ed). reflexivity. }
          exists (mput (px ps) pp' (s ++ [(px ps, pp)])), s'. split; [reflexivity|]. split; [lia|]. split; [|split; [|split]].
          * rewrite mput_upd by (intros k a Hk; eapply (covers_lt s ps S1); [lia| |exact Hk]; lia).
            econstructor; [exact S1|lia|exact T2|exact T4].
          * intros k Hk. destruct (Nat.lt_ge_cases k start); [|apply F2; lia]. rewrite (T3 k ltac:(lia)). apply evalConst, Ed.
          * intros; contradiction.
          * eapply Q_move; [exact Ed| | |exact HQ]; lia.
        + exists (s ++ [(px ps, pp)]), start. split; [reflexivity|]. split; [lia|]. split; [econstructor; eassumption|]. split; [exact F2|]. split; [reflexivity|exact HQ].
      - destruct HS as [-> ->]. exists [], 0%nat. split; [reflexivity|]. split; [lia|]. split; [constructor|]. split; [exact F2|]. split; [reflexivity|exact HQ]. }
    destruct Hnew as (s' & start' & EN & N1 & N2 & N3 & N4 & N5). rewrite EN in E. cbv zeta in E.
    rewrite mput_last in E by (intros k a Hk; eapply (covers_lt s' start' N2); [lia| |exact Hk]; lia).
    destruct (Nat.eqb _ mc && negb (Nat.eqb last n)); [injection E as <-; left; reflexivity|].
    eapply IH; [|  |exact E]; [lia|]. exists s'. split; [reflexivity|]. split; [exact N2|]. split; [lia|]. split; [exact N3|]. split; [exact F3|].
    split; [|exact N5]. intros Hd. rewrite (N4 Hd). exact (F4 Hd).
Qed.
Lemma sectionLoop_total fuel : forall maxCount secs prev start, (start <= n)%nat -> (n - start <= fuel)%nat ->
  exists r, sectionLoop n px fit fuel maxCount secs prev start = Done r /\ forall f, (fuel <= f)%nat -> sectionLoop n px fit f maxCount secs prev start = Done r.
Proof.
  induction fuel as [|fuel IH]; intros mc secs prev start Hs Hf.
  - exists secs. cbn [sectionLoop]. replace start with n by lia. rewrite Nat.eqb_refl. split; [reflexivity|]. intros [|f] _; cbn [sectionLoop]; rewrite Nat.eqb_refl; reflexivity.
  - cbn [sectionLoop]. destruct (Nat.eqb_spec start n) as [->|Hn].
    + exists secs. split; [reflexivity|]. intros [|f] _; cbn [sectionLoop]; rewrite Nat.eqb_refl; reflexivity.
    + pose proof (Hfit start ltac:(lia)) as HF. destruct (fit start) as [p last] eqn:Ef. destruct HF as (F1 & _).
      destruct (match prev with Some (ps, pp) => if l_dy p =? 0 then let (s', pp') := takeBack px ps pp (l_b p) start in (s', mput (px ps) pp' secs) else (start, secs)
        | None => (start, secs) end) as [st' secs'] eqn:E1.
      cbv zeta. destruct (Nat.eqb (length (mput (px st') p secs')) mc && negb (Nat.eqb last n)) eqn:Ec.
      * exists []. split; [reflexivity|]. intros [|f] Hfl; [lia|]. cbn [sectionLoop]. destruct (Nat.eqb_spec start n); [contradiction|].
        rewrite Ef, E1. cbv zeta. rewrite Ec. reflexivity.
      * destruct (IH mc (mput (px st') p secs') (Some (st', p)) last ltac:(lia) ltac:(lia)) as (r & Er & Hr). exists r. split; [exact Er|].
        intros [|f] Hfl; [lia|]. cbn [sectionLoop]. destruct (Nat.eqb_spec start n); [contradiction|].
        rewrite Ef, E1. cbv zeta. rewrite Ec. apply Hr. lia.
Qed.

Lemma covers_Q s j : covers s j -> (j <= n)%nat -> forall k l, In (k, l) s -> exists i, (i < n)%nat /\ k = px i /\ Q i l.
Proof.
  induction 1 as [|s i p j H IH Hij Hf HQ]; intros Hj k l Hk; [destruct Hk|].
  apply in_app_iff in Hk. destruct Hk as [Hk|[[= <- <-]|[]]]; [apply IH; [lia|exact Hk]|]. exists i. split; [lia|]. split; [reflexivity|exact HQ].
Qed.
Lemma covers_sorted s j : covers s j -> (j <= n)%nat -> StronglySorted Z.lt (map fst s).
Proof.
  induction 1 as [|s i p j H IH Hij Hf HQ]; intros Hj; [constructor|]. specialize (IH ltac:(lia)). rewrite map_app. cbn [map fst].
  assert (Hlt : Forall (fun k => k < px i) (map fst s)).
  { apply Forall_forall. intros k Hk. apply in_map_iff in Hk. destruct Hk as ([k' l'] & <- & Hk). cbn [fst]. eapply (covers_lt s i H ltac:(lia) i); [lia|exact Hk]. }
  revert IH Hlt. generalize (map fst s) as q. induction q as [|a q IHq]; intros HS HF; cbn [app]; [repeat constructor|].
  inversion HS; subst. inversion HF; subst. constructor; [apply IHq; assumption|]. apply Forall_app. split; [assumption|repeat constructor; assumption].
Qed.
(** values *)
Lemma covers_section s j : covers s j -> (j <= n)%nat -> forall k, (k < j)%nat -> exists l, in_section s (px k) l /\ evalLin l (px k) = py k.
Proof.
  induction 1 as [|s i p j H IH Hij Hf HQ]; intros Hj k Hk; [lia|]. destruct (Nat.lt_ge_cases k i) as [Hki|Hki].
  - destruct (IH ltac:(lia) k Hki) as (l & (c & C1 & C2 & C3) & El). exists l. split; [|exact El]. exists c. split; [apply in_app_iff; left; exact C1|].
    split; [exact C2|]. intros k' l' Hin Hle. apply in_app_iff in Hin. destruct Hin as [Hin|[[= <- <-]|[]]]; [apply C3; assumption|].
    exfalso. assert (px k < px i) by (apply Hx; lia). lia.
  - exists p. split; [|apply Hf; lia]. exists (px i). split; [apply in_app_iff; right; left; reflexivity|].
    split; [destruct (Nat.eq_dec i k) as [->|]; [lia|]; assert (px i < px k) by (apply Hx; lia); lia|].
    intros k' l' Hin Hle. apply in_app_iff in Hin. destruct Hin as [Hin|[[= <- <-]|[]]]; [|right; reflexivity].
    left. eapply (covers_lt s i H ltac:(lia) i); [lia|exact Hin].
Qed.
Lemma covers_single x l : covers [(x, l)] n -> forall k, (k < n)%nat -> evalLin l (px k) = py k.
Proof.
  assert (H0 : forall s j, covers s j -> s = [] -> j = 0%nat).
  { intros ? ? [|s i p j Hc Hij Hf HQ] E; [reflexivity|]. destruct s; discriminate. }
  assert (H1 : forall s j, covers s j -> s = [(x, l)] -> forall k, (k < j)%nat -> evalLin l (px k) = py k).
  { intros ? ? [|s i p j Hc Hij Hf HQ] E; [discriminate|]. destruct s as [|a s]; [|destruct s; discriminate].
    injection E as _ ->. intros k Hk. apply Hf. rewrite (H0 _ _ Hc eq_refl). lia. }
  intros H. exact (H1 _ _ H eq_refl).
Qed.
End Sections.

Lemma in_section_unique s x l l' : in_section s x l -> in_section s x l' -> l = l'.
Proof.
  intros (k & H1 & H2 & H3) (k' & H1' & H2' & H3'). destruct (H3 _ _ H1' H2') as [H|[= _ E]]; [|auto].
  destruct (H3' _ _ H1 H2) as [H'|[= _ E]]; [lia|auto].
Qed.

(** ** Fits of vectors and maps *)
Lemma vbreak_spec v dy b : forall k x, (x + k = length v)%nat -> (x <= vbreak v dy b x k <= length v)%nat /\
  (forall j, (x <= j < vbreak v dy b x k)%nat -> vy v j = dy * vx j + b) /\
  ((vbreak v dy b x k < length v)%nat -> vy v (vbreak v dy b x k) <> dy * vx (vbreak v dy b x k) + b).
Proof.
  induction k as [|k IH]; intros x Hk; cbn [vbreak].
  - split; [lia|]. split; [intros; lia|lia].
  - destruct (Z.eqb_spec (vy v x) (dy * vx x + b)) as [E|E]; cbn [negb].
    + destruct (IH (S x) ltac:(lia)) as (A1 & A2 & A3). split; [lia|]. split; [|exact A3].
      intros j Hj. destruct (Nat.eq_dec j x) as [->|]; [exact E|apply A2; lia].
    + split; [lia|]. split; [intros; lia|]. intros _; exact E.
Qed.
Lemma evalLin1 dy b x : evalLin (mkLin 0 dy 1 b) x = dy * x + b.
Proof. unfold evalLin. cbn. rewrite Z.sub_0_r, Z.quot_1_r. lia. Qed.
Lemma vfit_spec v : forall i, (i < length v)%nat -> let (p, j) := vfit v i in
  (i < j <= length v)%nat /\ fits vx (vy v) p i j /\ ((j < length v)%nat -> evalLin p (vx j) <> vy v j) /\
  (l_dy p <> 0 -> (S i < j)%nat /\ vy v (S i) <> vy v i) /\ (l_dy p = 0 -> l_b p = vy v i).
Proof.
  intros i Hi. unfold vfit. destruct (Nat.eqb_spec (S i) (length v)) as [E|E].
  - split; [lia|]. split; [|split; [lia|split; [intros H; contradiction H; reflexivity|reflexivity]]].
    intros k Hk. replace k with i by lia. rewrite evalLin1. lia.
  - set (dy := vy v (S i) - vy v i). set (b := vy v i - dy * vx i).
    destruct (vbreak_spec v dy b (length v - S (S i)) (S (S i)) ltac:(lia)) as (A1 & A2 & A3).
    split; [lia|]. split; [|split; [|split]].
    + intros k Hk. rewrite evalLin1. destruct (Nat.lt_ge_cases k (S (S i))); [|symmetry; apply A2; lia].
      destruct (Nat.eq_dec k i) as [->|]; [unfold b; lia|]. replace k with (S i) by lia. unfold b, dy, vx. lia.
    + intros Hj. rewrite evalLin1. intros H. apply (A3 Hj). symmetry; exact H.
    + cbn. intros Hd. split; [lia|]. unfold dy in Hd. lia.
    + cbn. intros Hd. unfold b. rewrite Hd. lia.
Qed.

Lemma mbreak_spec m p : forall k x, (x + k = length m)%nat -> (x <= mbreak m p x k <= length m)%nat /\
  (forall j, (x <= j < mbreak m p x k)%nat -> my m j = evalLin p (mx m j)) /\
  ((mbreak m p x k < length m)%nat -> my m (mbreak m p x k) <> evalLin p (mx m (mbreak m p x k))).
Proof.
  induction k as [|k IH]; intros x Hk; cbn [mbreak].
  - split; [lia|]. split; [intros; lia|lia].
  - destruct (Z.eqb_spec (my m x) (evalLin p (mx m x))) as [E|E]; cbn [negb].
    + destruct (IH (S x) ltac:(lia)) as (A1 & A2 & A3). split; [lia|]. split; [|exact A3].
      intros j Hj. destruct (Nat.eq_dec j x) as [->|]; [exact E|apply A2; lia].
    + split; [lia|]. split; [intros; lia|]. intros _; exact E.
Qed.
Section FromMap.
Variable m : list (Z * Z).
Hypothesis Hm : points m.
Lemma mx_lt : forall i j, (i < j < length m)%nat -> mx m i < mx m j.
Proof.
  destruct Hm as [Hs _]. clear Hm. unfold mx. induction m as [|[x y] l IH]; intros i j Hij; [cbn in Hij; lia|].
  cbn [map fst] in Hs. inversion Hs as [|? ? Hs' Hall]. destruct j as [|j]; [lia|]. destruct i as [|i].
  - cbn [nth fst]. rewrite Forall_forall in Hall. apply Hall. apply in_map. apply nth_In. cbn in Hij. lia.
  - cbn [nth]. apply IH; [exact Hs'|cbn in Hij; lia].
Qed.
Lemma mx_nonneg i : (i < length m)%nat -> 0 <= mx m i.
Proof. intros Hi. destruct Hm as [_ H]. apply (H _ (my m i)). unfold mx, my. rewrite <- surjective_pairing. apply nth_In, Hi. Qed.
Lemma mfit_lin i : (S i < length m)%nat -> my m (S i) <> my m i ->
  let dx := mx m (S i) - mx m i in let xo := Z.rem (mx m i) dx in
  let p := mkLin xo (my m (S i) - my m i) dx (my m i - Z.quot (mx m i - xo) dx * (my m (S i) - my m i)) in
  evalLin p (mx m i) = my m i /\ evalLin p (mx m (S i)) = my m (S i).
Proof.
  intros Hi Hy. cbv zeta. unfold evalLin. cbn [l_xo l_dx l_dy l_b].
  pose proof (mx_lt i (S i) ltac:(lia)) as Hlt. pose proof (mx_nonneg i ltac:(lia)) as Hnn.
  set (dx := mx m (S i) - mx m i). assert (0 < dx) by (unfold dx; lia).
  assert (E : mx m i - Z.rem (mx m i) dx = dx * Z.quot (mx m i) dx) by (pose proof (Z.quot_rem' (mx m i) dx); lia).
  assert (E2 : mx m (S i) - Z.rem (mx m i) dx = dx * (Z.quot (mx m i) dx + 1)) by (unfold dx in *; lia).
  rewrite E, E2, !(Z.mul_comm dx), !Z.quot_mul by lia. lia.
Qed.
Lemma mfit_spec : forall i, (i < length m)%nat -> let (p, j) := mfit m i in
  (i < j <= length m)%nat /\ fits (mx m) (my m) p i j /\ ((j < length m)%nat -> evalLin p (mx m j) <> my m j) /\
  (l_dy p <> 0 -> (S i < j)%nat /\ my m (S i) <> my m i) /\ (l_dy p = 0 -> l_b p = my m i).
Proof.
  intros i Hi. unfold mfit. destruct (Nat.eqb_spec (S i) (length m)) as [E|E].
  - split; [lia|]. split; [|split; [lia|split; [intros H; contradiction H; reflexivity|reflexivity]]].
    intros k Hk. replace k with i by lia. rewrite evalLin1. lia.
  - set (p := if negb (my m (S i) - my m i =? 0) then _ else _).
    assert (Hp : evalLin p (mx m i) = my m i /\ evalLin p (mx m (S i)) = my m (S i) /\ l_dy p = my m (S i) - my m i /\ (l_dy p = 0 -> l_b p = my m i)).
    { unfold p. destruct (Z.eqb_spec (my m (S i) - my m i) 0) as [Ed|Ed]; cbn [negb].
      - rewrite !evalLin1. cbn. repeat split; lia.
      - destruct (mfit_lin i ltac:(lia) ltac:(lia)) as [H1 H2]. cbv zeta in H1, H2. split; [exact H1|]. split; [exact H2|]. cbn. split; [reflexivity|]. lia. }
    destruct Hp as (P1 & P2 & P3 & P4).
    destruct (mbreak_spec m p (length m - S i) (S i) ltac:(lia)) as (A1 & A2 & A3).
    assert (Hne : (mbreak m p (S i) (length m - S i) <> S i)%nat).
    { intros Eb. rewrite Eb in A3. apply A3; [lia|]. symmetry; exact P2. }
    cbv zeta. split; [lia|]. split; [|split; [|split]].
    + intros k Hk. destruct (Nat.eq_dec k i) as [->|]; [exact P1|]. symmetry; apply A2; lia.
    + intros Hj H. apply (A3 Hj). symmetry; exact H.
    + intros Hd. split; [lia|]. rewrite P3 in Hd. lia.
    + exact P4.
Qed.
End FromMap.

(** ** Values of detected patterns *)
Section Generic.
Variable n : nat.
Variables px py : nat -> Z.
Hypothesis Hx : forall i j, (i < j < n)%nat -> px i < px j.
Variable Q : nat -> lin -> Prop.
Lemma ofSections_value s : covers n px py Q s n -> s <> [] -> forall k, (k < n)%nat -> forall v, value_at (ofSections s) (px k) v <-> v = py k.
Proof.
  intros Hc Hs k Hk v. unfold ofSections. destruct s as [|[c l] [|q s]]; [contradiction| |].
  - pose proof (covers_single n px py Q c l Hc k Hk) as E. split; [intros H; inversion H; subst; exact E|intros ->; rewrite <- E; constructor].
  - destruct (covers_section n px py Hx Q _ _ Hc ltac:(lia) k Hk) as (l' & Hin & E). split.
    + intros H. inversion H as [|s' x l'' Hin'|]; subst. rewrite (in_section_unique _ _ _ _ Hin' Hin). exact E.
    + intros ->. rewrite <- E. constructor. exact Hin.
Qed.
End Generic.

Lemma sorted_fun (m : list (Z * Z)) : StronglySorted Z.lt (map fst m) -> forall x y y', In (x, y) m -> In (x, y') m -> y = y'.
Proof.
  induction m as [|[k a] m IH]; intros Hs x y y' H1 H2; [destruct H1|]. cbn [map fst] in Hs. inversion Hs as [|? ? Hs' Hall]. rewrite Forall_forall in Hall.
  assert (Hn : forall b, ~ In (k, b) m) by (intros b Hb; pose proof (Hall k (in_map fst _ _ Hb)); lia).
  destruct H1 as [[= <- <-]|H1], H2 as [[= E2]|H2]; subst.
  - auto.
  - exfalso; eapply Hn; eassumption.
  - exfalso; eapply Hn; eassumption.
  - eapply IH; eassumption.
Qed.

Lemma in_nth (m : list (Z * Z)) x y : In (x, y) m -> exists i, (i < length m)%nat /\ mx m i = x /\ my m i = y.
Proof. intros H. destruct (In_nth _ _ (0, 0) H) as (i & Hi & E). exists i. unfold mx, my. rewrite E. auto. Qed.

(** the two results of the detection of sections: over the limit, or sections which fit *)
Lemma sectionsMap_spec (Q : nat -> lin -> Prop) m : points m ->
  (forall i, (i < length m)%nat -> Q i (fst (mfit m i))) ->
  (forall i j p, l_dy p = 0 -> (i < length m)%nat -> (j < length m)%nat -> Q i p -> Q j p) ->
  (forall i p, (i < length m)%nat -> Q i p -> Q i (mkConst p (my m i))) ->
  forall mc, exists s, (forall fuel, (length m <= fuel)%nat -> detectSectionsMap m fuel mc = Done s) /\ (s = [] \/ covers (length m) (mx m) (my m) Q s (length m)).
Proof.
  intros Hm Q1 Q2 Q3 mc. unfold detectSectionsMap.
  destruct (sectionLoop_total (length m) (mx m) (my m) (mfit m) (mfit_spec m Hm) (length m) mc [] None 0 ltac:(lia) ltac:(lia)) as (s & E & Hf).
  exists s. split; [exact Hf|]. eapply (sectionLoop_spec (length m) (mx m) (my m) (mfit m) (mx_lt m Hm) (mfit_spec m Hm) Q Q1 Q2 Q3); [| |exact E]; [lia|].
  split; reflexivity.
Qed.
Lemma vx_lt (v : list Z) : forall i j, (i < j < length v)%nat -> vx i < vx j.
Proof. intros i j H. unfold vx. lia. Qed.
Lemma sectionsVec_spec (Q : nat -> lin -> Prop) (v : list Z) :
  (forall i, (i < length v)%nat -> Q i (fst (vfit v i))) ->
  (forall i j p, l_dy p = 0 -> (i < length v)%nat -> (j < length v)%nat -> Q i p -> Q j p) ->
  (forall i p, (i < length v)%nat -> Q i p -> Q i (mkConst p (vy v i))) ->
  forall mc, exists s, (forall fuel, (length v <= fuel)%nat -> detectSectionsVec v fuel mc = Done s) /\ (s = [] \/ covers (length v) vx (vy v) Q s (length v)).
Proof.
  intros Q1 Q2 Q3 mc. unfold detectSectionsVec.
  destruct (sectionLoop_total (length v) vx (vy v) (vfit v) (vfit_spec v) (length v) mc [] None 0 ltac:(lia) ltac:(lia)) as (s & E & Hf).
  exists s. split; [exact Hf|]. eapply (sectionLoop_spec (length v) vx (vy v) (vfit v) (vx_lt v) (vfit_spec v) Q Q1 Q2 Q3); [| |exact E]; [lia|].
  split; reflexivity.
Qed.

Lemma rand_value m : StronglySorted Z.lt (map fst m) -> forall x y, In (x, y) m -> forall v, value_at (PRand1 m) x v <-> v = y.
Proof.
  intros Hs x y Hin v. split; [intros H; inversion H; subst; eapply sorted_fun; eassumption|intros ->; constructor; exact Hin].
Qed.

Lemma detectMap_shape (Q : nat -> lin -> Prop) m : points m -> m <> [] ->
  (forall i, (i < length m)%nat -> Q i (fst (mfit m i))) ->
  (forall i j p, l_dy p = 0 -> (i < length m)%nat -> (j < length m)%nat -> Q i p -> Q j p) ->
  (forall i p, (i < length m)%nat -> Q i p -> Q i (mkConst p (my m i))) ->
  exists p, (forall fuel, (length m <= fuel)%nat -> detectMap fuel m = Done p) /\
    (p = PRand1 m \/ exists s, s <> [] /\ covers (length m) (mx m) (my m) Q s (length m) /\ p = ofSections s).
Proof.
  intros Hm Hne Q1 Q2 Q3. destruct (sectionsMap_spec Q m Hm Q1 Q2 Q3 (maxSections (length m))) as (s & Hf & Hs).
  exists (match s with [] => PRand1 m | _ => ofSections s end). split.
  - intros fuel Hfl. unfold detectMap. destruct m; [contradiction|]. rewrite (Hf fuel Hfl). reflexivity.
  - destruct Hs as [->|Hs]; [left; reflexivity|]. destruct s as [|q s]; [left; reflexivity|]. right. exists (q :: s). split; [discriminate|]. auto.
Qed.

Definition trueQ (i : nat) (p : lin) : Prop := True.
Lemma detectMap_value m : points m -> m <> [] ->
  exists p, (forall fuel, (length m <= fuel)%nat -> detectMap fuel m = Done p) /\ forall x y, In (x, y) m -> forall v, value_at p x v <-> v = y.
Proof.
  intros Hm Hne. destruct (detectMap_shape trueQ m Hm Hne) as (p & Hf & Hp); try exact (fun _ _ => I); try exact (fun _ _ _ _ _ _ _ => I); try exact (fun _ _ _ _ => I).
  exists p. split; [exact Hf|]. intros x y Hin. destruct Hp as [->|(s & Hs & Hc & ->)]; [apply rand_value; [apply Hm|exact Hin]|].
  destruct (in_nth m x y Hin) as (i & Hi & <- & <-). apply (ofSections_value _ _ _ (mx_lt m Hm) trueQ s Hc Hs i Hi).
Qed.

Lemma combine_In (v : list Z) : forall a i, (i < length v)%nat -> In (vx (a + i), nth i v 0) (combine (map vx (seq a (length v))) v).
Proof.
  induction v as [|z v IH]; intros a i Hi; [cbn in Hi; lia|]. cbn [length seq map combine]. destruct i as [|i].
  - left. rewrite Nat.add_0_r. reflexivity.
  - right. cbn [nth]. replace (a + S i)%nat with (S a + i)%nat by lia. apply IH. cbn in Hi; lia.
Qed.
Lemma combine_sorted (v : list Z) : forall a, StronglySorted Z.lt (map fst (combine (map vx (seq a (length v))) v)).
Proof.
  induction v as [|z v IH]; intros a; cbn [length seq map combine fst]; constructor; [apply IH|].
  apply Forall_forall. intros x Hx. apply in_map_iff in Hx. destruct Hx as ([k q] & <- & Hx). apply in_combine_l in Hx. apply in_map_iff in Hx.
  destruct Hx as (j & <- & Hj). apply in_seq in Hj. cbn [fst]. unfold vx. lia.
Qed.
Lemma detectVec_shape (Q : nat -> lin -> Prop) (v : list Z) : v <> [] ->
  (forall i, (i < length v)%nat -> Q i (fst (vfit v i))) ->
  (forall i j p, l_dy p = 0 -> (i < length v)%nat -> (j < length v)%nat -> Q i p -> Q j p) ->
  (forall i p, (i < length v)%nat -> Q i p -> Q i (mkConst p (vy v i))) ->
  exists p, (forall fuel, (length v <= fuel)%nat -> detectVec fuel v = Done p) /\
    (p = PRand1 (combine (map vx (seq 0 (length v))) v) \/ exists s, s <> [] /\ covers (length v) vx (vy v) Q s (length v) /\ p = ofSections s).
Proof.
  intros Hne Q1 Q2 Q3. destruct (sectionsVec_spec Q v Q1 Q2 Q3 (maxSections (length v))) as (s & Hf & Hs).
  exists (match s with [] => PRand1 (combine (map vx (seq 0 (length v))) v) | _ => ofSections s end). split.
  - intros fuel Hfl. unfold detectVec. destruct v; [contradiction|]. rewrite (Hf fuel Hfl). reflexivity.
  - destruct Hs as [->|Hs]; [left; reflexivity|]. destruct s as [|q s]; [left; reflexivity|]. right. exists (q :: s). split; [discriminate|]. auto.
Qed.
Lemma detectVec_value (v : list Z) : v <> [] ->
  exists p, (forall fuel, (length v <= fuel)%nat -> detectVec fuel v = Done p) /\
    forall i y, nth_error v i = Some y -> forall z, value_at p (Z.of_nat i) z <-> z = y.
Proof.
  intros Hne. destruct (detectVec_shape trueQ v Hne) as (p & Hf & Hp); try exact (fun _ _ => I); try exact (fun _ _ _ _ _ _ _ => I); try exact (fun _ _ _ _ => I).
  exists p. split; [exact Hf|]. intros i y Hi. pose proof (nth_error_nth _ _ 0 Hi) as Ey. assert (Hil : (i < length v)%nat) by (apply nth_error_Some; congruence).
  destruct Hp as [->|(s & Hs & Hc & ->)].
  - apply rand_value; [apply combine_sorted|]. rewrite <- Ey. exact (combine_In v 0 i Hil).
  - rewrite <- Ey. exact (ofSections_value _ _ _ (vx_lt v) trueQ s Hc Hs i Hil).
Qed.

(** ** Planes *)
Lemma mget_in (k v : Z) m : mget k m = Some v -> In (k, v) m.
Proof. induction m as [|[k' v'] m IH]; cbn [mget]; [discriminate|]. destruct (Z.eqb_spec k k') as [->|]; [intros [= ->]; left; reflexivity|right; auto]. Qed.
Lemma in_mget (k v : Z) m : StronglySorted Z.lt (map fst m) -> In (k, v) m -> mget k m = Some v.
Proof.
  intros Hs Hin. destruct (mget k m) as [v'|] eqn:E; [f_equal; eapply sorted_fun; [exact Hs|apply mget_in; exact E|exact Hin]|].
  exfalso. clear Hs. induction m as [|[k' w] m IH]; [destruct Hin|]. cbn [mget] in E. destruct (Z.eqb_spec k k') as [->|Hn]; [discriminate|].
  destruct Hin as [[= -> ->]|Hin]; [congruence|auto].
Qed.
Lemma mput_in (k v x y : Z) m : In (x, y) (mput k v m) -> (x, y) = (k, v) \/ In (x, y) m.
Proof.
  induction m as [|[k' v'] m IH]; cbn [mput]; [intros [H|[]]; auto|].
  destruct (k <? k'); [intros [H|H]; auto|]. destruct (k =? k'); [intros [H|H]; [auto|right; right; exact H]|].
  intros [H|H]; [right; left; exact H|]. destruct (IH H); [auto|right; right; assumption].
Qed.
Lemma mput_sorted (k v : Z) m : StronglySorted Z.lt (map fst m) -> StronglySorted Z.lt (map fst (mput k v m)).
Proof.
  induction m as [|[k' v'] m IH]; intros Hs; cbn [mput map fst]; [repeat constructor|]. cbn [map fst] in Hs. inversion Hs as [|? ? Hs' Hall]; subst.
  destruct (Z.ltb_spec k k').
  - cbn [map fst]. constructor; [exact Hs|]. constructor; [lia|]. eapply Forall_impl; [|exact Hall]. cbn; lia.
  - destruct (Z.eqb_spec k k') as [->|]; cbn [map fst]; constructor; auto.
    apply Forall_forall. intros x Hx. apply in_map_iff in Hx. destruct Hx as ([a b] & <- & Hx). apply mput_in in Hx. cbn [fst].
    destruct Hx as [[= -> ->]|Hx]; [lia|]. rewrite Forall_forall in Hall. apply Hall. apply (in_map fst _ _ Hx).
Qed.
Lemma mput_has (k v : Z) m : In (k, v) (mput k v m).
Proof. induction m as [|[k' v'] m IH]; cbn [mput]; [left; reflexivity|]. destruct (k <? k'); [left; reflexivity|]. destruct (k =? k'); [left; reflexivity|right; exact IH]. Qed.
Lemma mput_keeps (k v x y : Z) m : In (x, y) m -> x <> k -> In (x, y) (mput k v m).
Proof.
  induction m as [|[k' v'] m IH]; intros H Hn; [destruct H|]. cbn [mput]. destruct (k <? k'); [right; exact H|].
  destruct (Z.eqb_spec k k') as [->|]; destruct H as [[= -> ->]|H]; [contradiction|right; exact H|left; reflexivity|right; auto].
Qed.
Lemma mput_length (k v : Z) m : (length (mput k v m) <= S (length m))%nat.
Proof. induction m as [|[k' v'] m IH]; cbn [mput length]; [lia|]. destruct (k <? k'); [cbn; lia|]. destruct (k =? k'); cbn; lia. Qed.

Lemma singleY_spec y l : forall acc, StronglySorted Z.lt (map fst acc) ->
  exists r, singleY y l acc = Done r /\ (r = [] \/ (StronglySorted Z.lt (map fst r) /\ (length r <= length acc + length l)%nat /\
    (forall x z, In (x, z) r -> In (x, z) acc \/ In (x, [(y, z)]) l) /\
    (forall x m, In (x, m) l -> exists z, m = [(y, z)] ))).
Proof.
  induction l as [|[x m] l IH]; intros acc Ha; cbn [singleY].
  - exists acc. split; [reflexivity|]. right. split; [exact Ha|]. split; [cbn; lia|]. split; [auto|]. intros ? ? [].
  - destruct m as [|[y' z] [|q m]]; [exists []; auto| |exists []; auto]. destruct (Z.eqb_spec y y') as [<-|]; [|exists []; auto].
    destruct (IH (mput x z acc) (mput_sorted x z acc Ha)) as (r & E & Hr). exists r. split; [exact E|].
    destruct Hr as [->|(R1 & R2 & R3 & R4)]; [left; reflexivity|]. right. split; [exact R1|]. split; [pose proof (mput_length x z acc); cbn [length]; lia|]. split.
    + intros x' z' H. destruct (R3 _ _ H) as [H'|H']; [|right; right; exact H']. destruct (mput_in _ _ _ _ _ H') as [[= -> ->]|H'']; [right; left; reflexivity|left; exact H''].
    + intros x' m' [[= <- <-]|H]; [exists z; reflexivity|]. apply (R4 _ _ H).
Qed.
(** with distinct keys every pair is there *)
Lemma singleY_all y l : forall acc r, singleY y l acc = Done r -> r <> [] -> NoDup (map fst l) ->
  (forall x z, In (x, z) acc -> ~ In x (map fst l) -> In (x, z) r) /\ (forall x z, In (x, [(y, z)]) l -> In (x, z) r).
Proof.
  induction l as [|[x m] l IH]; intros acc r E Hr Hd; cbn [singleY] in E.
  - injection E as <-. split; [auto|intros ? ? []].
  - destruct m as [|[y' z] [|q m]]; [injection E as <-; contradiction| |injection E as <-; contradiction].
    destruct (Z.eqb_spec y y') as [<-|]; [|injection E as <-; contradiction]. cbn [map fst] in Hd. inversion Hd as [|? ? Hn Hd']; subst.
    destruct (IH _ _ E Hr Hd') as [I1 I2]. split.
    + intros x' z' H Hni. apply I1; [|intros Hc; apply Hni; right; exact Hc]. apply mput_keeps; [exact H|]. intros ->. apply Hni. left; reflexivity.
    + intros x' z' [[= <- <-]|H]; [|apply I2, H]. apply I1; [apply mput_has|exact Hn].
Qed.

Lemma offsetsOf_spec z0 m : forall off off', StronglySorted Z.lt (map fst off) -> offsetsOf z0 m off = Some off' ->
  StronglySorted Z.lt (map fst off') /\ (length off' <= length off + length m)%nat /\ (forall y o, In (y, o) off -> In (y, o) off') /\
  (forall y z, In (y, z) m -> In (y, z - z0) off') /\
  (forall y o, In (y, o) off' -> In (y, o) off \/ exists z, In (y, z) m /\ o = z - z0).
Proof.
  induction m as [|[y z] m IH]; intros off off' Hs E; cbn [offsetsOf] in E.
  - injection E as <-. repeat split; auto; [lia|intros ? ? []].
  - destruct (mget y off) as [o|] eqn:Eg.
    + destruct (Z.eqb_spec o (z - z0)) as [->|]; [|discriminate]. destruct (IH _ _ Hs E) as (I1 & I2 & I3 & I4 & I5).
      split; [exact I1|]. split; [cbn; lia|]. split; [exact I3|]. split.
      * intros y' z' [[= <- <-]|H]; [apply I3, mget_in, Eg|auto].
      * intros y' o' H. destruct (I5 _ _ H) as [H'|(z' & H' & E')]; [auto|right; exists z'; split; [right; exact H'|exact E']].
    + destruct (IH _ _ (mput_sorted y (z - z0) off Hs) E) as (I1 & I2 & I3 & I4 & I5).
      split; [exact I1|]. split; [pose proof (mput_length y (z - z0) off); cbn; lia|]. split; [|split].
      * intros y' o' H. apply I3. apply mput_keeps; [exact H|]. intros ->. rewrite (in_mget _ _ _ Hs H) in Eg. discriminate.
      * intros y' z' [[= <- <-]|H]; [apply I3, mput_has|auto].
      * intros y' o' H. destruct (I5 _ _ H) as [H'|(z' & H' & E')].
        -- destruct (mput_in _ _ _ _ _ H') as [[= -> ->]|]; [right; exists z; split; [left; reflexivity|reflexivity]|auto].
        -- right; exists z'; split; [right; exact H'|exact E'].
Qed.
Lemma startsOffsets_spec l : forall st off, (forall x m, In (x, m) l -> m <> []) -> NoDup (map fst l) ->
  StronglySorted Z.lt (map fst st) -> StronglySorted Z.lt (map fst off) ->
  exists r, startsOffsets l st off = Done r /\ match r with None => True | Some (st', off') =>
    StronglySorted Z.lt (map fst st') /\ StronglySorted Z.lt (map fst off') /\
    (length st' <= length st + length l)%nat /\ (length off' <= length off + length (concat (map snd l)))%nat /\
    (forall y o, In (y, o) off -> In (y, o) off') /\ (forall x z, In (x, z) st -> ~ In x (map fst l) -> In (x, z) st') /\
    (forall x m y z, In (x, m) l -> In (y, z) m -> exists z0, In (x, z0) st' /\ In (y, z - z0) off') /\
    (forall x z0, In (x, z0) st' -> In (x, z0) st \/ exists m y, In (x, m) l /\ In (y, z0) m) /\
    (forall y o, In (y, o) off' -> In (y, o) off \/ exists x m y0 z0 z, In (x, m) l /\ In (y0, z0) m /\ In (y, z) m /\ o = z - z0) end.
Proof.
  induction l as [|[x m] l IH]; intros st off Hm Hd H1 H2; cbn [startsOffsets].
  - eexists; split; [reflexivity|]. cbn. repeat split; auto; try lia.
  - destruct m as [|[y0 z0] m]; [exfalso; eapply Hm; [left; reflexivity|reflexivity]|]. set (mm := (y0, z0) :: m) in *.
    destruct (offsetsOf z0 mm off) as [off1|] eqn:Eo; [|eexists; split; [reflexivity|exact I]].
    destruct (offsetsOf_spec _ _ _ _ H2 Eo) as (O1 & O2 & O3 & O4 & O5). cbn [map fst] in Hd. inversion Hd as [|? ? Hn Hd']; subst.
    destruct (IH (mput x z0 st) off1 (fun x' m' H => Hm x' m' (or_intror H)) Hd' (mput_sorted x z0 st H1) O1) as (r & E & Hr). exists r. split; [exact E|].
    destruct r as [[st' off']|]; [|exact I]. destruct Hr as (R1 & R2 & R3 & R4 & R5 & R6 & R7 & R8 & R9).
    split; [exact R1|]. split; [exact R2|]. split; [pose proof (mput_length x z0 st); cbn [length]; lia|].
    split; [cbn [map snd concat]; rewrite app_length; lia|]. split; [auto|]. split; [|split; [|split]].
    + intros x' z' H Hni. apply R6; [|intros Hc; apply Hni; right; exact Hc]. apply mput_keeps; [exact H|]. intros ->. apply Hni. left; reflexivity.
    + intros x' m' y z [[= <- <-]|H] Hy; [|apply (R7 _ _ _ _ H Hy)]. exists z0. split; [apply R6; [apply mput_has|exact Hn]|]. apply R5, O4, Hy.
    + intros x' z' H. destruct (R8 _ _ H) as [H'|(m' & y & H' & Hy)]; [|right; exists m', y; split; [right; exact H'|exact Hy]].
      destruct (mput_in _ _ _ _ _ H') as [[= -> ->]|]; [|auto]. right. exists mm, y0. split; [left; reflexivity|left; reflexivity].
    + intros y o H. destruct (R9 _ _ H) as [H'|(x' & m' & y0' & z0' & z & A & B & C & D)].
      * destruct (O5 _ _ H') as [|(z & Hz & ->)]; [auto|]. right. exists x, mm, y0, z0, z. split; [left; reflexivity|]. split; [left; reflexivity|]. auto.
      * right. exists x', m', y0', z0', z. split; [right; exact A|]. auto.
Qed.

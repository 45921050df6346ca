(** * The information of the variables of the new model *)
From Coq Require Import List Arith Bool Lia Sorted ZArith.
From Verif Require Import DaeGen_model DaeGen_spec DaeGen_lists DaeGen_inv DaeGen_build.
Import ListNotations.
Local Open Scope nat_scope.

Section Info.
Variables (vs vs1 : list vinfo) (m : nat) (sparsity : nat -> nat -> bool) (g0 : gr).
Hypothesis V : validInfo vs.
Hypothesis B : build m vs sparsity = Some (vs1, g0).
Definition n := List.length vs1.
Definition ts := timeDependent vs1.
Definition n0 := List.length ts.
Arguments n : simpl never.
Arguments ts : simpl never.
Arguments n0 : simpl never.
Variable g : gr.
Hypothesis I : inv n n0 m (g_v g0) (g_e g0) no3 no3 g.

Lemma tsND : NoDup ts. Proof. apply (build_facts _ _ _ _ _ V B). Qed.
Lemma ts_iff j : In j ts <-> exists v, nth_error vs1 j = Some v /\ i_fun v = true. Proof. apply (build_facts _ _ _ _ _ V B). Qed.
Lemma inf : infos vs vs1. Proof. apply (build_facts _ _ _ _ _ V B). Qed.
Lemma vaND : NoDup (g_va g). Proof. apply sorted_NoDup, I. Qed.
Lemma va_len : n0 <= List.length (g_va g). Proof. apply va_n0 with (l := g_va g), I. Qed.

Lemma user_node k v : k < n0 -> nth_error (g_v g) k = Some v -> exists t, nth_error ts k = Some t /\ v_tape v = t /\
  v_anti v = option_map (fun a => posOf a ts) (antiOf vs1 t).
Proof.
  intros L H. destruct (iv_user _ _ _ _ _ _ _ _ I k L) as (v' & w & A1 & A2 & A3 & A4). assert (v' = v) by congruence. subst v'.
  destruct (build_facts _ _ _ _ _ V B) as (_ & _ & _ & _ & _ & E). rewrite E in A2. cbn [g_v] in A2. rewrite node_nth in A2.
  fold ts in A2. destruct (nth_error ts k) as [t|]; [|discriminate]. injection A2 as <-. exists t. rewrite A3, A4. auto.
Qed.
Lemma new_node k v : n0 <= k -> In k (g_va g) -> nth_error (g_v g) k = Some v ->
  n0 <= posOf k (g_va g) /\ v_tape v = n + (posOf k (g_va g) - n0) /\ exists a, v_anti v = Some a /\ a < k.
Proof.
  intros L K H. assert (P := posOf_nth _ _ K).
  assert (L' : n0 <= posOf k (g_va g)) by (apply (va_pos _ _ _ _ (iv_va _ _ _ _ _ _ _ _ I) (iv_sorted _ _ _ _ _ _ _ _ I) P); auto).
  split; auto. apply (iv_new _ _ _ _ _ _ _ _ I _ k v L' P H).
Qed.
Lemma user_tape k v : k < n0 -> nth_error (g_v g) k = Some v -> v_tape v < n.
Proof.
  intros L H. destruct (user_node k v L H) as (t & T & -> & _). apply nth_error_In in T. apply ts_iff in T as (w & W & _). now apply nth_lt in W.
Qed.
Lemma tape_inj k k' v v' : In k (g_va g) -> In k' (g_va g) -> nth_error (g_v g) k = Some v -> nth_error (g_v g) k' = Some v' -> v_tape v = v_tape v' -> k = k'.
Proof.
  intros K K' H H' E. destruct (Nat.lt_ge_cases k n0) as [L|L]; destruct (Nat.lt_ge_cases k' n0) as [L'|L'].
  - destruct (user_node k v L H) as (t & T & T1 & _). destruct (user_node k' v' L' H') as (t' & T' & T1' & _).
    replace t' with t in T' by congruence. rewrite <- (nth_posOf t ts k tsND T). exact (nth_posOf t ts k' tsND T').
  - assert (X := user_tape k v L H). destruct (new_node k' v' L' K' H') as (_ & Y & _). lia.
  - assert (X := user_tape k' v' L' H'). destruct (new_node k v L K H) as (_ & Y & _). lia.
  - destruct (new_node k v L K H) as (X & Y & _). destruct (new_node k' v' L' K' H') as (X' & Y' & _). apply (posOf_inj _ _ (g_va g)); auto. lia.
Qed.

Definition posn (k : nat) : nat := posOf k (g_va g) - n0.
Definition tapeOf (k : nat) : option nat := option_map v_tape (nth_error (g_v g) k).
Definition dq (q k : nat) (v : vnode) : option nat :=
  match v_der v with
  | None => None
  | Some kd => if (kd <? n0) || (posn kd <? q) || (n0 <=? k) then tapeOf kd else None
  end.
Definition present (q k : nat) : Prop := In k (g_va g) /\ (k < n0 \/ (n0 <= k /\ posn k < q)).

Record st (q : nat) (acc : list vinfo) : Prop := mkSt {
  s_len : List.length acc = n + q;
  s_user : forall j, j < n -> exists v1 w, nth_error vs1 j = Some v1 /\ nth_error acc j = Some w /\ w = setDer v1 (i_der w);
  s_new : forall k v, present q k -> n0 <= k -> nth_error (g_v g) k = Some v -> exists a at_ w wa, v_anti v = Some a /\ tapeOf a = Some at_ /\
     nth_error acc (v_tape v) = Some w /\ nth_error acc at_ = Some wa /\ at_ < v_tape v /\
     i_id w = v_tape v /\ i_anti w = Some at_ /\ i_fun w = true /\ i_int w = false /\ i_orig w = None /\
     i_order w = (i_order wa + 1)%Z /\ i_oanti w = (if (i_order wa + 1 =? 1)%Z then i_orig wa else i_oanti wa);
  s_der : forall k v, present q k -> nth_error (g_v g) k = Some v -> exists w, nth_error acc (v_tape v) = Some w /\ i_der w = dq q k v;
  s_none : forall j, j < n -> ~ In j ts -> nth_error acc j = nth_error vs1 j
}.

Lemma user_der k v : k < n0 -> nth_error (g_v g) k = Some v -> exists w, nth_error vs1 (v_tape v) = Some w /\ i_der w = dq 0 k v.
Proof.
  intros L H. destruct (user_node k v L H) as (t & T & E & A). rewrite E.
  assert (TT : In t ts) by (eapply nth_error_In; eauto). destruct (proj1 (ts_iff t) TT) as (w & W & F). exists w. split; auto.
  assert (KA : In k (g_va g)) by (eapply va_In; [apply I|auto]).
  assert (D1 : forall kd, v_der v = Some kd -> kd < n0 -> exists wd, tapeOf kd = Some wd /\ i_der w = Some wd).
  { intros kd D Lk. destruct (iv_der _ _ _ _ _ _ _ _ I k v kd KA H D) as (_ & vd & Hd & Ad).
    destruct (user_node kd vd Lk Hd) as (td & Td & Ed & Add). exists td. split; [unfold tapeOf; rewrite Hd; cbn [option_map]; congruence|].
    apply (b_der _ _ inf t w td W). rewrite Ad in Add. destruct (antiOf vs1 td) as [a|] eqn:AO; [|discriminate]. cbn [option_map] in Add. injection Add as Add.
    assert (TdI : In td ts) by (eapply nth_error_In; eauto).
    assert (AI : In a ts) by (destruct (build_facts _ _ _ _ _ V B) as (_ & _ & _ & _ & X & _); eapply X; eauto).
    assert (a = t). { assert (X := posOf_nth _ _ AI). rewrite <- Add in X. congruence. } subst a.
    unfold antiOf in AO. destruct (nth_error vs1 td) as [wd|]; [|discriminate]. eauto. }
  assert (D2 : forall d, i_der w = Some d -> exists kd, kd < n0 /\ v_der v = Some kd).
  { intros d D. apply (b_der _ _ inf t w d W) in D as (u & U & UA).
    assert (UF : i_fun u = true).
    { destruct (b_nth _ _ inf d u U) as (_ & _ & u0 & U0 & X1 & X2 & _). destruct V as (_ & V2 & _). destruct (V2 d u0 t U0); congruence. }
    assert (DT : In d ts) by (apply ts_iff; eauto).
    exists (posOf d ts). assert (PL := posOf_lt _ _ DT). split; auto.
    destruct (iv_user _ _ _ _ _ _ _ _ I (posOf d ts) PL) as (vd & _ & Hd & _).
    destruct (user_node _ vd PL Hd) as (td & Td & Ed & Ad). replace td with d in Ad by (assert (X := posOf_nth _ _ DT); congruence).
    unfold antiOf in Ad. rewrite U, UA in Ad. cbn [option_map] in Ad.
    assert (KD : In (posOf d ts) (g_va g)) by (eapply va_In; [apply I|auto]).
    destruct (iv_anti _ _ _ _ _ _ _ _ I _ vd _ KD Hd Ad) as (_ & w2 & W1 & W2).
    rewrite (nth_posOf t ts k tsND T) in W1. congruence. }
  unfold dq. destruct (v_der v) as [kd|] eqn:D.
  - destruct (kd <? n0) eqn:Lk; cbn [orb].
    + apply Nat.ltb_lt in Lk. destruct (D1 kd eq_refl Lk) as (wd & X1 & X2). congruence.
    + apply Nat.ltb_ge in Lk. replace (n0 <=? k) with false by (symmetry; apply Nat.leb_gt; auto). replace (posn kd <? 0) with false by reflexivity. cbn [orb].
      destruct (i_der w) as [d|] eqn:Dw; auto. destruct (D2 d eq_refl) as (kd' & X1 & X2). assert (kd' = kd) by congruence. lia.
  - destruct (i_der w) as [d|] eqn:Dw; auto. destruct (D2 d eq_refl) as (kd' & X1 & X2). congruence.
Qed.
Lemma st_0 : st 0 vs1.
Proof.
  constructor.
  - unfold n. lia.
  - intros j L. destruct (lt_nth vs1 j L) as (v & E). exists v, v. repeat split; auto. now destruct v.
  - intros k v (_ & [L|(_ & L)]) L'; lia.
  - intros k v (_ & [L|(_ & L)]) H; [|lia]. now apply user_der.
  - auto.
Qed.
Definition stepI (acc : list vinfo) (j : nat) : list vinfo :=
    match nth_error (g_v g) j with
    | None => acc
    | Some v =>
        match v_anti v with
        | None => acc
        | Some a =>
            let at_ := match nth_error (g_v g) a with Some w => v_tape w | None => 0 end in
            match nth_error acc at_ with
            | None => acc
            | Some w =>
                let o := (i_order w + 1)%Z in
                upd (fun w => setDer w (Some (v_tape v))) at_ acc ++
                [mkI (List.length acc) (Some at_)
                     (match v_der v with Some d => option_map v_tape (nth_error (g_v g) d) | None => None end)
                     true false None o (if (o =? 1)%Z then i_orig w else i_oanti w)]
            end
        end
    end.
Lemma st_S q acc kq : st q acc -> nth_error (g_va g) (n0 + q) = Some kq -> st (S q) (stepI acc kq).
Proof.
  intros [S1 S2 S3 S4 S5] Hq.
  assert (KQ : In kq (g_va g)) by (eapply nth_error_In; eauto).
  assert (PQ : posOf kq (g_va g) = n0 + q) by (apply nth_posOf; auto; apply vaND).
  assert (NQ : n0 <= kq).
  { apply (va_pos _ _ _ _ (iv_va _ _ _ _ _ _ _ _ I) (iv_sorted _ _ _ _ _ _ _ _ I) Hq). lia. }
  destruct (alive_v _ _ _ _ _ I kq KQ) as (v & Hv).
  destruct (new_node kq v NQ KQ Hv) as (_ & Tv & a & Av & La). rewrite PQ in Tv. replace (n0 + q - n0) with q in Tv by lia.
  destruct (iv_anti _ _ _ _ _ _ _ _ I kq v a KQ Hv Av) as (AA & va & Ha & Da).
  assert (PA : present q a).
  { split; auto. destruct (Nat.lt_ge_cases a n0) as [|L]; auto. right. split; auto. unfold posn.
    assert (X := sorted_pos _ _ _ _ _ (iv_sorted _ _ _ _ _ _ _ _ I) (posOf_nth _ _ AA) Hq La).
    assert (Y := new_node a va L AA Ha). lia. }
  destruct (S4 a va PA Ha) as (wa & Wa & DWa).
  assert (TAl : v_tape va < n + q) by (apply nth_lt in Wa; lia).
  unfold stepI. rewrite Hv, Av, Ha, Wa.
  set (f := fun w => setDer w (Some (v_tape v))).
  set (nw := mkI (List.length acc) (Some (v_tape va)) (match v_der v with Some d => option_map v_tape (nth_error (g_v g) d) | None => None end)
                     true false None (i_order wa + 1)%Z (if (i_order wa + 1 =? 1)%Z then i_orig wa else i_oanti wa)).
  assert (OLD : forall j w, nth_error acc j = Some w -> nth_error (upd f (v_tape va) acc ++ [nw]) j = Some (if j =? v_tape va then f w else w)).
  { intros j w H. rewrite nth_error_app1 by (rewrite upd_length; eapply nth_lt; eauto). rewrite upd_nth, H. now destruct (j =? v_tape va). }
  assert (NEW : nth_error (upd f (v_tape va) acc ++ [nw]) (v_tape v) = Some nw).
  { rewrite Tv, <- S1, nth_error_app2 by (rewrite upd_length; lia). now rewrite upd_length, Nat.sub_diag. }
  assert (PS : forall k, present (S q) k -> present q k \/ k = kq).
  { intros k (K & [L|(L & P)]); [left; split; auto|]. destruct (Nat.eq_dec (posn k) q) as [E|E].
    - right. assert (Y := posOf_nth _ _ K). unfold posn in E. destruct (alive_v _ _ _ _ _ I k K) as (vk & Hk). destruct (new_node k vk L K Hk) as (X & _).
      replace (posOf k (g_va g)) with (n0 + q) in Y by lia. congruence.
    - left. split; auto. right. split; auto. lia. }
  constructor.
  - rewrite app_length, upd_length. cbn. lia.
  - intros j L. destruct (S2 j L) as (v1 & w & X1 & X2 & X3). exists v1. eexists. split; [exact X1|]. split; [apply OLD; exact X2|].
    destruct (j =? v_tape va); auto. unfold f. rewrite X3. now destruct v1.
  - intros k vk P L Hk. destruct (PS k P) as [P'| ->].
    + destruct (S3 k vk P' L Hk) as (b & bt & w & wb & Y1 & Y2 & Y3 & Y4 & Y5 & Y6 & Y7 & Y8 & Y9 & Y10 & Y11 & Y12).
      exists b, bt. eexists. eexists. split; [exact Y1|]. split; [exact Y2|]. split; [apply OLD; exact Y3|]. split; [apply OLD; exact Y4|]. split; [exact Y5|].
      destruct (v_tape vk =? v_tape va); destruct (bt =? v_tape va); cbn; auto 10.
    + assert (vk = v) by congruence. subst vk. exists a, (v_tape va), nw. eexists. split; [exact Av|]. split; [unfold tapeOf; now rewrite Ha|].
      split; [exact NEW|]. split; [apply OLD; exact Wa|]. split; [lia|]. rewrite Nat.eqb_refl. cbn. repeat split; auto. lia.
  - intros k vk P Hk. destruct (PS k P) as [P'| ->].
    + destruct (S4 k vk P' Hk) as (w & W & D). eexists. split; [apply OLD; exact W|].
      destruct (Nat.eqb_spec (v_tape vk) (v_tape va)) as [E|E].
      * assert (k = a) by (eapply tape_inj; [apply P'|apply PA|eauto|eauto|auto]). subst k. assert (vk = va) by congruence. subst vk. cbn.
        unfold dq. rewrite Da. replace (posn kq <? S q) with true by (symmetry; apply Nat.ltb_lt; unfold posn; lia).
        rewrite orb_true_r. cbn. unfold tapeOf. now rewrite Hv.
      * rewrite D. unfold dq. destruct (v_der vk) as [kd|] eqn:Dk; auto. destruct (kd <? n0) eqn:Lk; auto. apply Nat.ltb_ge in Lk.
        replace (posn kd <? S q) with (posn kd <? q); auto.
        destruct (iv_der _ _ _ _ _ _ _ _ I k vk kd (proj1 P') Hk Dk) as (KD & vd & Hd & Ad).
        destruct (Nat.ltb_spec (posn kd) q); destruct (Nat.ltb_spec (posn kd) (S q)); auto; try lia. exfalso.
        assert (posn kd = q) by lia.
        assert (kd = kq).
           { destruct (new_node kd vd Lk KD Hd) as (X & _). apply (posOf_inj _ _ (g_va g)); auto. unfold posn in *. lia. }
           subst kd. assert (vd = v) by congruence. subst vd. assert (k = a) by congruence. subst k. apply E. congruence.
    + assert (vk = v) by congruence. subst vk. exists nw. split; auto. unfold dq, nw. cbn. destruct (v_der v) as [d|]; auto.
      replace (n0 <=? kq) with true by (symmetry; now apply Nat.leb_le). rewrite orb_true_r. reflexivity.
  - intros j L J. rewrite <- (S5 j L J). destruct (S2 j L) as (v1 & w & X1 & X2 & X3). rewrite (OLD j w X2), X2. destruct (Nat.eqb_spec j (v_tape va)) as [->|]; auto.
    exfalso. destruct (Nat.lt_ge_cases a n0) as [La'|La'].
    + destruct (user_node a va La' Ha) as (t & T & E & _). apply J. rewrite E. eapply nth_error_In; eauto.
    + destruct (new_node a va La' AA Ha) as (_ & X & _). lia.
Qed.

Definition N := List.length (g_va g) - n0.
Definition vs' := newInfo n0 vs1 g.
Arguments N : simpl never.
Lemma skipn_next {A} : forall k (l : list A) x r, skipn k l = x :: r -> skipn (S k) l = r.
Proof. induction k as [|k IH]; intros [|y l] x r E; cbn in *; try discriminate; [now injection E|]. exact (IH l x r E). Qed.
Lemma st_fold : forall l q acc, st q acc -> skipn (n0 + q) (g_va g) = l -> st (q + List.length l) (fold_left stepI l acc).
Proof.
  induction l as [|k l IH]; intros q acc S1 E; [now rewrite Nat.add_0_r|]. cbn [fold_left List.length].
  assert (K : nth_error (g_va g) (n0 + q) = Some k).
  { rewrite <- (firstn_skipn (n0 + q) (g_va g)), E. assert (L : List.length (firstn (n0 + q) (g_va g)) = n0 + q).
    { rewrite firstn_length. apply Nat.min_l. assert (X := skipn_length (n0 + q) (g_va g)). rewrite E in X. cbn in X. lia. }
    rewrite nth_error_app2 by lia. now rewrite L, Nat.sub_diag. }
  replace (q + S (List.length l)) with (S q + List.length l) by lia. apply IH; [now apply st_S|].
  rewrite Nat.add_succ_r. eapply skipn_next; eauto.
Qed.
Lemma st_N : st N vs'.
Proof.
  assert (X := st_fold (skipn n0 (g_va g)) 0 vs1 st_0). rewrite Nat.add_0_r, skipn_length in X. apply X. reflexivity.
Qed.
Lemma present_N k : In k (g_va g) -> present N k.
Proof.
  intro K. split; auto. destruct (Nat.lt_ge_cases k n0) as [|L]; auto. right. split; auto. unfold posn, N.
  destruct (alive_v _ _ _ _ _ I k K) as (v & H). destruct (new_node k v L K H) as (X & _). apply posOf_lt in K. lia.
Qed.
Lemma tapeOf_node k v : nth_error (g_v g) k = Some v -> tapeOf k = Some (v_tape v).
Proof. intro H. unfold tapeOf. now rewrite H. Qed.
Lemma der_of_node k v : In k (g_va g) -> nth_error (g_v g) k = Some v ->
  exists w, nth_error vs' (v_tape v) = Some w /\ i_der w = match v_der v with Some kd => tapeOf kd | None => None end.
Proof.
  intros K H. destruct (s_der _ _ st_N k v (present_N k K) H) as (w & W & D). exists w. split; auto. rewrite D. unfold dq.
  destruct (v_der v) as [kd|] eqn:Dv; auto. destruct (iv_der _ _ _ _ _ _ _ _ I k v kd K H Dv) as (KD & _).
  destruct (present_N kd KD) as (_ & [X|(_ & X)]); apply Nat.ltb_lt in X; rewrite X; [reflexivity|]. now rewrite orb_true_r.
Qed.
Lemma anti_of_node k v w : In k (g_va g) -> nth_error (g_v g) k = Some v -> nth_error vs' (v_tape v) = Some w ->
  i_anti w = match v_anti v with Some a => tapeOf a | None => None end.
Proof.
  intros K H W. destruct (Nat.lt_ge_cases k n0) as [L|L].
  - assert (T := user_tape k v L H). destruct (s_user _ _ st_N _ T) as (v1 & w' & X1 & X2 & X3). assert (w' = w) by congruence. subst w'.
    rewrite X3. cbn [setDer i_anti]. destruct (user_node k v L H) as (t & T1 & T2 & T3). rewrite T3. rewrite <- T2 in *. unfold antiOf. rewrite X1.
    destruct (i_anti v1) as [a|] eqn:A; auto. cbn [option_map].
    assert (AI : In a ts).
    { destruct (build_facts _ _ _ _ _ V B) as (_ & _ & _ & _ & Y & _). apply (Y (v_tape v)); [eapply nth_error_In; eauto|]. unfold antiOf. now rewrite X1. }
    assert (PL := posOf_lt _ _ AI). destruct (iv_user _ _ _ _ _ _ _ _ I (posOf a ts) PL) as (va & _ & Ha & _).
    rewrite (tapeOf_node _ _ Ha). destruct (user_node _ _ PL Ha) as (t' & T1' & T2' & _). rewrite T2'. rewrite (posOf_nth _ _ AI) in T1'. congruence.
  - destruct (s_new _ _ st_N k v (present_N k K) L H) as (a & at_ & w' & wa & Y1 & Y2 & Y3 & Y4 & Y5 & Y6 & Y7 & _).
    assert (w' = w) by congruence. subst w'. rewrite Y7, Y1. auto.
Qed.
(** Every variable of the tape is a node or does not depend on time. *)
Lemma node_or_not j : j < n + N -> (exists k v, In k (g_va g) /\ nth_error (g_v g) k = Some v /\ v_tape v = j) \/
  (j < n /\ ~ In j ts).
Proof.
  intro L. destruct (Nat.lt_ge_cases j n) as [Lj|Lj].
  - destruct (in_dec Nat.eq_dec j ts) as [J|J]; [|right; auto]. left. assert (PL := posOf_lt _ _ J).
    destruct (iv_user _ _ _ _ _ _ _ _ I (posOf j ts) PL) as (v & _ & H & _). exists (posOf j ts), v. split; [eapply va_In; [apply I|auto]|]. split; auto.
    destruct (user_node _ _ PL H) as (t & T & -> & _). rewrite (posOf_nth _ _ J) in T. congruence.
  - left. assert (P : n0 + (j - n) < List.length (g_va g)) by (assert (X := va_len); unfold N in L; lia).
    destruct (lt_nth _ _ P) as (k & K). assert (KI : In k (g_va g)) by (eapply nth_error_In; eauto). destruct (alive_v _ _ _ _ _ I k KI) as (v & H).
    exists k, v. split; auto. split; auto. assert (X : n0 <= n0 + (j - n)) by lia. destruct (iv_new _ _ _ _ _ _ _ _ I _ k v X K H) as (Y & _). lia.
Qed.
Lemma not_node j : j < n -> ~ In j ts -> exists v1, nth_error vs1 j = Some v1 /\ nth_error vs' j = Some v1 /\ i_fun v1 = false /\ i_anti v1 = None /\ i_der v1 = None.
Proof.
  intros L J. destruct (lt_nth vs1 j L) as (v1 & H). exists v1. split; auto. split; [rewrite (s_none _ _ st_N j L J); auto|].
  assert (F : i_fun v1 = false). { destruct (i_fun v1) eqn:F; auto. exfalso. apply J. apply ts_iff. eauto. }
  split; auto. destruct (b_nth _ _ inf j v1 H) as (_ & _ & v & Hv & A1 & A2 & A3). destruct V as (_ & V2 & _). split.
  - destruct (i_anti v1) as [a|] eqn:A; auto. destruct (V2 j v a Hv) as (X & _); congruence.
  - destruct (i_der v1) as [d|] eqn:D; auto. apply (b_der _ _ inf j v1 d H) in D as (w & W & WA).
    destruct (b_nth _ _ inf d w W) as (_ & _ & v2 & Hv2 & B1 & B2 & _). destruct (V2 d v2 j Hv2) as (_ & u & U & UF); congruence.
Qed.
Lemma vs'_len : List.length vs' = n + N. Proof. apply (s_len _ _ st_N). Qed.

Lemma history_vs' j r k : history vs1 j r k -> history vs' j r k.
Proof.
  induction 1 as [j v H A|j v a r k H A Hh IH]; assert (L := nth_lt _ _ _ H); destruct (s_user _ _ st_N j L) as (v1 & w & X1 & X2 & X3).
  - eapply H_0; eauto. rewrite X3. cbn. congruence.
  - eapply H_S; eauto. rewrite X3. cbn. congruence.
Qed.
Lemma ordered_vs' : forall j, ordered vs' j.
Proof.
  intro j. induction j as [j IH] using lt_wf_ind. intros w W. assert (L := nth_lt _ _ _ W). rewrite vs'_len in L.
  destruct (Nat.lt_ge_cases j n) as [Lj|Lj].
  - destruct (s_user _ _ st_N j Lj) as (v1 & w' & X1 & X2 & X3). assert (w' = w) by congruence. subst w'.
    destruct (b_ord _ _ inf j v1 X1) as (r & k & A & A1 & A2). exists r, k. split; [now apply history_vs'|]. rewrite X3. cbn. auto.
  - destruct (node_or_not j L) as [(k & v & K & H & T)|(X & _)]; [|lia].
    assert (Lk : n0 <= k). { destruct (Nat.lt_ge_cases k n0) as [Lk|]; auto. assert (X := user_tape k v Lk H). lia. }
    destruct (s_new _ _ st_N k v (present_N k K) Lk H) as (a & at_ & w' & wa & Y1 & Y2 & Y3 & Y4 & Y5 & Y6 & Y7 & Y8 & Y9 & Y10 & Y11 & Y12).
    rewrite T in *. assert (w' = w) by congruence. subst w'.
    destruct (IH at_ Y5 wa Y4) as (r & q & Z1 & Z2 & Z3). exists r, (S q). split; [eapply H_S; eauto|]. split; [lia|]. intros _.
    rewrite Y12. destruct (Z.eqb_spec (i_order wa + 1) 1).
    + assert (q = 0) by lia. subst q. inversion Z1 as [j0 v0 Q1 Q2|]; subst. assert (v0 = wa) by congruence. subst v0.
      assert (Lr := nth_lt _ _ _ Y4). rewrite vs'_len in Lr. destruct (Nat.lt_ge_cases r n) as [Lr'|Lr'].
      * destruct (s_user _ _ st_N r Lr') as (v1 & w' & X1 & X2 & X3). assert (w' = wa) by congruence. subst w'. rewrite X3. cbn. apply (b_nth _ _ inf r v1 X1).
      * exfalso. destruct (node_or_not r Lr) as [(k2 & v2 & K2 & H2 & T2)|(X & _)]; [|lia].
        assert (Lk2 : n0 <= k2). { destruct (Nat.lt_ge_cases k2 n0) as [Lk2|]; auto. assert (X := user_tape k2 v2 Lk2 H2). lia. }
        destruct (s_new _ _ st_N k2 v2 (present_N k2 K2) Lk2 H2) as (a2 & at2 & w2 & wa2 & P1 & P2 & P3 & P4 & P5 & P6 & P7 & _). rewrite T2 in *. congruence.
    + apply Z3. lia.
Qed.
Lemma good_vs' : goodInfo vs'.
Proof.
  split; [|split; [|split]].
  - intros j w W. assert (L := nth_lt _ _ _ W). rewrite vs'_len in L. destruct (Nat.lt_ge_cases j n) as [Lj|Lj].
    + destruct (s_user _ _ st_N j Lj) as (v1 & w' & X1 & X2 & X3). assert (w' = w) by congruence. subst w'. rewrite X3. cbn. apply (b_nth _ _ inf j v1 X1).
    + destruct (node_or_not j L) as [(k & v & K & H & T)|(X & _)]; [|lia].
      assert (Lk : n0 <= k). { destruct (Nat.lt_ge_cases k n0) as [Lk|]; auto. assert (X := user_tape k v Lk H). lia. }
      destruct (s_new _ _ st_N k v (present_N k K) Lk H) as (a & at_ & w' & wa & Y1 & Y2 & Y3 & Y4 & Y5 & Y6 & _). rewrite T in *. congruence.
  - intros j w d W. assert (L := nth_lt _ _ _ W). rewrite vs'_len in L. destruct (node_or_not j L) as [(k & v & K & H & T)|(Lj & J)].
    + destruct (der_of_node k v K H) as (w' & W' & D). rewrite T in W'. assert (w' = w) by congruence. subst w'. rewrite D. split.
      * destruct (v_der v) as [kd|] eqn:Dv; [|discriminate]. intro TD. destruct (iv_der _ _ _ _ _ _ _ _ I k v kd K H Dv) as (KD & vd & Hd & Ad).
        rewrite (tapeOf_node _ _ Hd) in TD. injection TD as <-. destruct (der_of_node kd vd KD Hd) as (u & U & _). exists u. split; auto.
        rewrite (anti_of_node kd vd u KD Hd U), Ad, (tapeOf_node _ _ H), T. reflexivity.
      * intros (u & U & UA). assert (Ld := nth_lt _ _ _ U). rewrite vs'_len in Ld. destruct (node_or_not d Ld) as [(kd & vd & KD & Hd & Td)|(Ld' & J)].
        -- rewrite <- Td in U. rewrite (anti_of_node kd vd u KD Hd U) in UA. destruct (v_anti vd) as [a|] eqn:Ad; [|discriminate].
           destruct (iv_anti _ _ _ _ _ _ _ _ I kd vd a KD Hd Ad) as (AA & va & Ha & Da). rewrite (tapeOf_node _ _ Ha) in UA. injection UA as UA.
           assert (a = k) by (eapply tape_inj; eauto; congruence). subst a. assert (va = v) by congruence. subst va. rewrite Da.
           rewrite (tapeOf_node _ _ Hd). now rewrite Td.
        -- destruct (not_node d Ld' J) as (u' & _ & U' & _ & X & _). congruence.
    + destruct (not_node j Lj J) as (w' & W1 & W2 & F & A & D). assert (w' = w) by congruence. subst w'. rewrite D. split; [discriminate|].
      intros (u & U & UA). exfalso. assert (Ld := nth_lt _ _ _ U). rewrite vs'_len in Ld. destruct (node_or_not d Ld) as [(kd & vd & KD & Hd & Td)|(Ld' & J')].
      * rewrite <- Td in U. rewrite (anti_of_node kd vd u KD Hd U) in UA. destruct (v_anti vd) as [a|] eqn:Ad; [|discriminate].
        destruct (iv_anti _ _ _ _ _ _ _ _ I kd vd a KD Hd Ad) as (AA & va & Ha & Da). rewrite (tapeOf_node _ _ Ha) in UA. injection UA as UA.
        destruct (Nat.lt_ge_cases a n0) as [La|La].
        -- destruct (user_node a va La Ha) as (t & T1 & T2 & _). apply J. rewrite <- UA, T2. eapply nth_error_In; eauto.
        -- destruct (new_node a va La AA Ha) as (_ & X & _). lia.
      * destruct (not_node d Ld' J') as (u' & _ & U' & _ & X & _). congruence.
  - intros j w a W A. assert (L := nth_lt _ _ _ W). rewrite vs'_len in L. destruct (node_or_not j L) as [(k & v & K & H & T)|(Lj & J)].
    + rewrite <- T in W. rewrite (anti_of_node k v w K H W) in A. destruct (v_anti v) as [b|] eqn:Av; [|discriminate].
      destruct (iv_anti _ _ _ _ _ _ _ _ I k v b K H Av) as (BA & vb & Hb & _). rewrite (tapeOf_node _ _ Hb) in A. injection A as <-.
      destruct (der_of_node b vb BA Hb) as (u & U & _). eauto.
    + destruct (not_node j Lj J) as (w' & _ & W2 & _ & X & _). congruence.
  - intros j w W. exact (ordered_vs' j w W).
Qed.
End Info.

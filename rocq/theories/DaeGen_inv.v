(** * The graph after any calls *)
From Coq Require Import List Arith Bool Lia Sorted.
From Verif Require Import DaeGen_model DaeGen_lists.
Import ListNotations.
Local Open Scope nat_scope.

Section Inv.
Variables n n0 m : nat.
Variable u0 : list vnode.
Variable e0 : list enode.

(** [x3]: variables which are allowed to be erased from an equation; [x4]: variables of an equation which may be without derivative *)
Record inv (x3 x4 : nat -> nat -> Prop) (g : gr) : Prop := mkInv {
  iv_va : firstn n0 (g_va g) = seq 0 n0;
  iv_sorted : StronglySorted lt (g_va g);
  iv_lt : forall k, In k (g_va g) -> k < List.length (g_v g);
  iv_user : forall k, k < n0 -> exists v v0, nth_error (g_v g) k = Some v /\ nth_error u0 k = Some v0 /\ v_tape v = v_tape v0 /\ v_anti v = v_anti v0;
  iv_new : forall p k v, n0 <= p -> nth_error (g_va g) p = Some k -> nth_error (g_v g) k = Some v ->
    v_tape v = n + (p - n0) /\ exists a, v_anti v = Some a /\ a < k;
  iv_der : forall k v d, In k (g_va g) -> nth_error (g_v g) k = Some v -> v_der v = Some d ->
    In d (g_va g) /\ exists w, nth_error (g_v g) d = Some w /\ v_anti w = Some k;
  iv_anti : forall k v a, In k (g_va g) -> nth_error (g_v g) k = Some v -> v_anti v = Some a ->
    In a (g_va g) /\ exists w, nth_error (g_v g) a = Some w /\ v_der w = Some k;
  ie_ea : firstn m (g_ea g) = seq 0 m;
  ie_sorted : StronglySorted lt (g_ea g);
  ie_lt : forall k, In k (g_ea g) -> k < List.length (g_e g);
  ie_user : forall k, k < m -> exists e e', nth_error (g_e g) k = Some e /\ nth_error e0 k = Some e' /\ e_vars e = e_vars e' /\ e_of e = None;
  ie_new : forall k e, m <= k -> In k (g_ea g) -> nth_error (g_e g) k = Some e -> exists o, e_of e = Some o /\ o < k;
  ie_der : forall k e d, In k (g_ea g) -> nth_error (g_e g) k = Some e -> e_der e = Some d ->
    In d (g_ea g) /\ exists w, nth_error (g_e g) d = Some w /\ e_of w = Some k;
  ie_of : forall k e o, In k (g_ea g) -> nth_error (g_e g) k = Some e -> e_of e = Some o ->
    In o (g_ea g) /\ exists w, nth_error (g_e g) o = Some w /\ e_der w = Some k;
  ie_vars : forall k e x, In k (g_ea g) -> nth_error (g_e g) k = Some e -> In x (e_vars e) -> x3 k x \/ In x (g_va g);
  ie_nodup : forall k e, In k (g_ea g) -> nth_error (g_e g) k = Some e -> NoDup (e_vars e);
  ie_diff : forall k e d e' x, In k (g_ea g) -> nth_error (g_e g) k = Some e -> e_der e = Some d -> nth_error (g_e g) d = Some e' ->
    In x (e_vars e) -> x4 k x \/ exists v d', nth_error (g_v g) x = Some v /\ v_der v = Some d' /\ In d' (e_vars e');
  ie_from : forall k e o eo x, In k (g_ea g) -> nth_error (g_e g) k = Some e -> e_of e = Some o -> nth_error (g_e g) o = Some eo ->
    In x (e_vars e) -> In x (g_va g) ->
    In x (e_vars eo) \/ exists w v, In w (e_vars eo) /\ nth_error (g_v g) w = Some v /\ v_der v = Some x
}.

Lemma va_n0 l k : firstn k l = seq 0 k -> k <= List.length l.
Proof. intro H. assert (E := firstn_length k l). rewrite H, seq_length in E. lia. Qed.
Lemma va_nth l k p : firstn k l = seq 0 k -> p < k -> nth_error l p = Some p.
Proof.
  intros H L. rewrite <- (firstn_skipn k l), H. rewrite nth_error_app1 by (rewrite seq_length; lia).
  rewrite nth_error_nth' with (d := 0) by (rewrite seq_length; lia). now rewrite seq_nth.
Qed.
Lemma va_In l k p : firstn k l = seq 0 k -> p < k -> In p l.
Proof. intros H L. eapply nth_error_In, va_nth; eauto. Qed.
Lemma va_snoc l k x : firstn k l = seq 0 k -> firstn k (l ++ [x]) = seq 0 k.
Proof.
  intro H. apply va_n0 in H as L. rewrite firstn_app. replace (k - List.length l) with 0 by lia.
  simpl. now rewrite app_nil_r.
Qed.
(** Positions from [n0] on have numbers from [n0] on. *)
Lemma va_pos l k p x : firstn k l = seq 0 k -> StronglySorted lt l -> nth_error l p = Some x -> (k <= p <-> k <= x).
Proof.
  intros H Hs E. split; intro L.
  - destruct (Nat.lt_ge_cases x k); auto. apply va_nth with (p := x) in H; auto.
    assert (p = x); [|lia]. apply (NoDup_nth_error l); [now apply sorted_NoDup|now apply nth_lt in E|congruence].
  - destruct (Nat.lt_ge_cases p k); auto. apply va_nth with (p := p) in H; auto. assert (x = p) by congruence. lia.
Qed.
Lemma va_removeAt l k p : firstn k l = seq 0 k -> k <= p -> firstn k (removeAt p l) = seq 0 k.
Proof.
  intros H L. assert (K := va_n0 _ _ H). rewrite <- (firstn_skipn k l), H at 1.
  rewrite removeAt_app2 by (rewrite seq_length; lia). rewrite firstn_app, seq_length, Nat.sub_diag, firstn_O, app_nil_r.
  rewrite firstn_all2; auto. rewrite seq_length. lia.
Qed.

Section Facts.
Context {x3 x4 : nat -> nat -> Prop} {g : gr} (I : inv x3 x4 g).
Lemma alive_v k : In k (g_va g) -> exists v, nth_error (g_v g) k = Some v.
Proof. intro H. apply lt_nth. now apply (iv_lt _ _ _ I). Qed.
Lemma alive_e k : In k (g_ea g) -> exists e, nth_error (g_e g) k = Some e.
Proof. intro H. apply lt_nth. now apply (ie_lt _ _ _ I). Qed.
Lemma new_anti k v : n0 <= k -> In k (g_va g) -> nth_error (g_v g) k = Some v -> exists a, v_anti v = Some a /\ a < k.
Proof.
  intros L H E. apply In_nth_error in H as (p & H).
  apply (va_pos _ _ _ _ (iv_va _ _ _ I) (iv_sorted _ _ _ I)) in H as L'. apply L' in L.
  destruct (iv_new _ _ _ I p k v L H E); auto.
Qed.
End Facts.

Lemma inv_weaken (x3 x4 y3 y4 : nat -> nat -> Prop) g : (forall k x, x3 k x -> y3 k x) -> (forall k x, x4 k x -> y4 k x) ->
  inv x3 x4 g -> inv y3 y4 g.
Proof.
  intros A B [ ]. constructor; auto.
  - intros k e x H1 H2 H3. destruct (ie_vars0 k e x H1 H2 H3); auto.
  - intros k e d e' x H1 H2 H3 H4 H5. destruct (ie_diff0 k e d e' x H1 H2 H3 H4 H5); auto.
Qed.

(** Variables of the user which are derivatives stay so: a node is fixed by what it is derivative of. *)

(** ** createDerivate for variables *)
Definition no3 (k x : nat) : Prop := False.
Lemma createVar_inv x4 g j d g' : inv no3 x4 g -> In j (g_va g) -> createVar n n0 j g = (d, g') ->
  inv no3 x4 g' /\ In d (g_va g') /\ (exists v, nth_error (g_v g') j = Some v /\ v_der v = Some d) /\
  g_e g' = g_e g /\ g_ea g' = g_ea g /\ (forall x, In x (g_va g) -> In x (g_va g')) /\
  (forall x, In x (g_va g') -> In x (g_va g) \/ x = d).
Proof.
  intros I J C. unfold createVar in C. destruct (alive_v I j J) as (v & E). rewrite E in C.
  destruct (v_der v) as [d0|] eqn:D.
  { injection C as <- <-. split; [exact I|]. split; [apply (iv_der _ _ _ I j v); auto|]. split; [eauto|]. auto. }
  injection C as <- <-. set (k := List.length (g_v g)).
  assert (Kf : ~ In k (g_va g)) by (intro H; apply (iv_lt _ _ _ I) in H; unfold k in H; lia).
  assert (Jk : j <> k) by (intros ->; tauto).
  assert (OLD : forall x w, nth_error (g_v g) x = Some w -> x <> j ->
            nth_error (upd (setVDer (Some k)) j (g_v g) ++ [mkV (n + (List.length (g_va g) - n0)) (Some j) None]) x = Some w).
  { intros x w H N. rewrite nth_error_app1 by (rewrite upd_length; eapply nth_lt; eauto). rewrite upd_other; auto. }
  assert (JN : nth_error (upd (setVDer (Some k)) j (g_v g) ++ [mkV (n + (List.length (g_va g) - n0)) (Some j) None]) j = Some (setVDer (Some k) v)).
  { rewrite nth_error_app1 by (rewrite upd_length; eapply nth_lt; eauto). now apply upd_same. }
  assert (KN : nth_error (upd (setVDer (Some k)) j (g_v g) ++ [mkV (n + (List.length (g_va g) - n0)) (Some j) None]) k = Some (mkV (n + (List.length (g_va g) - n0)) (Some j) None)).
  { rewrite nth_error_app2 by (rewrite upd_length; unfold k; lia). rewrite upd_length. unfold k. now rewrite Nat.sub_diag. }
  assert (INV : forall x w, nth_error (upd (setVDer (Some k)) j (g_v g) ++ [mkV (n + (List.length (g_va g) - n0)) (Some j) None]) x = Some w ->
     (x = k /\ w = mkV (n + (List.length (g_va g) - n0)) (Some j) None) \/ (x = j /\ w = setVDer (Some k) v) \/ (x <> k /\ x <> j /\ nth_error (g_v g) x = Some w)).
  { intros x w H. apply nth_app_last in H as [(L & H)|(-> & ->)]; rewrite upd_length in *; [|left; auto].
    right. rewrite upd_nth in H. destruct (x =? j) eqn:X.
    - apply Nat.eqb_eq in X. subst x. left. rewrite E in H. injection H as <-. auto.
    - apply Nat.eqb_neq in X. right. repeat split; auto. unfold k. lia. }
  split; [|cbn [g_va g_v g_e g_ea]; split; [apply in_or_app; simpl; auto|split; [exists (setVDer (Some k) v); split; [exact JN|reflexivity]|]]].
  2:{ repeat split; auto; intros x H; [apply in_or_app; auto|apply in_app_or in H as [H|[<-|[]]]; auto]. }
  constructor; cbn [g_va g_v g_e g_ea].
  - apply va_snoc, I.
  - apply sorted_snoc; [apply I|]. intros y H. apply (iv_lt _ _ _ I) in H. exact H.
  - intros x H. rewrite app_length, upd_length. simpl. apply in_app_or in H as [H|[<-|[]]].
    + apply (iv_lt _ _ _ I) in H. lia.
    + unfold k. lia.
  - intros x L. destruct (iv_user _ _ _ I x L) as (w & w0 & A & B & C1 & C2). destruct (Nat.eq_dec x j) as [->|N].
    + exists (setVDer (Some k) v), w0. rewrite E in A. injection A as <-. auto.
    + exists w, w0. auto.
  - intros p x w L H W. apply nth_app_last in H as [(L' & H)|(-> & ->)].
    + assert (HI : In x (g_va g)) by (eapply nth_error_In; eauto).
      apply INV in W as [(-> & _)|[(-> & ->)|(_ & _ & W)]]; [tauto| |eapply (iv_new _ _ _ I); eauto].
      destruct (iv_new _ _ _ I p j v L H E) as (T & A). split; auto.
    + rewrite KN in W. injection W as <-. cbn. split; auto. exists j. split; auto. apply (iv_lt _ _ _ I) in J. exact J.
  - intros x w d H W D'. apply INV in W as [(-> & ->)|[(-> & ->)|(N1 & N2 & W)]].
    + discriminate.
    + injection D' as <-. split; [apply in_or_app; simpl; auto|]. eexists. split; [exact KN|reflexivity].
    + apply in_app_or in H as [H|[<-|[]]]; [|tauto].
      destruct (iv_der _ _ _ I x w d H W D') as (A & w' & B & C'). split; [apply in_or_app; auto|].
      destruct (Nat.eq_dec d j) as [->|N]; [exists (setVDer (Some k) v); rewrite E in B; injection B as <-; auto|].
      exists w'. split; auto.
  - intros x w a H W A'. apply INV in W as [(-> & ->)|[(-> & ->)|(N1 & N2 & W)]].
    + cbn in A'. injection A' as <-. split; [apply in_or_app; auto|]. exists (setVDer (Some k) v). auto.
    + cbn in A'. destruct (iv_anti _ _ _ I j v a J E A') as (B & w' & W1 & W2). split; [apply in_or_app; auto|].
      destruct (Nat.eq_dec a j) as [->|N]; [congruence|]. exists w'. auto.
    + apply in_app_or in H as [H|[<-|[]]]; [|tauto].
      destruct (iv_anti _ _ _ I x w a H W A') as (B & w' & W1 & W2). split; [apply in_or_app; auto|].
      destruct (Nat.eq_dec a j) as [->|N]; [congruence|]. exists w'. auto.
  - apply I.
  - apply I.
  - apply I.
  - apply I.
  - apply I.
  - apply I.
  - apply I.
  - intros k' e x H1 H2 H3. destruct (ie_vars _ _ _ I k' e x H1 H2 H3); auto. right. apply in_or_app. auto.
  - apply I.
  - intros k' e d e' x H1 H2 H3 H4 H5. destruct (ie_diff _ _ _ I k' e d e' x H1 H2 H3 H4 H5) as [X|(w & d' & X & Y & Z)]; auto.
    right. destruct (Nat.eq_dec x j) as [->|N]; [congruence|]. exists w, d'. auto.
  - intros k' e o eo x H1 H2 H3 H4 H5 H6. apply in_app_or in H6 as [H6|[<-|[]]].
    + destruct (ie_from _ _ _ I k' e o eo x H1 H2 H3 H4 H5 H6) as [X|(w & v' & X & Y & Z)]; auto. right.
      destruct (Nat.eq_dec w j) as [->|N]; [congruence|]. exists w, v'. auto.
    + destruct (ie_vars _ _ _ I k' e k H1 H2 H5) as [[]|X]. tauto.
Qed.

Lemma addVar_vars x e y : In y (e_vars (addVar x e)) <-> In y (e_vars e) \/ y = x.
Proof.
  unfold addVar. cbn. destruct (existsb (Nat.eqb x) (e_vars e)) eqn:X.
  - apply existsb_In in X. split; auto. intros [H| ->]; auto.
  - rewrite in_app_iff. cbn. intuition.
Qed.
Lemma addVar_NoDup x e : NoDup (e_vars e) -> NoDup (e_vars (addVar x e)).
Proof.
  unfold addVar. cbn. destruct (existsb (Nat.eqb x) (e_vars e)) eqn:X; auto. intro N.
  apply existsb_nIn in X. apply NoDup_app_comm || idtac.
  clear -N X. induction (e_vars e) as [|y l IH]; simpl; [constructor; auto|]. inversion N; subst. constructor.
  - intro I. apply in_app_or in I as [I|[->|[]]]; [tauto|]. apply X. simpl; auto.
  - apply IH; auto. intro I. apply X. simpl; auto.
Qed.
(** ** A variable added to a new equation *)
Lemma addVar_inv x4 g k e i ei x : inv no3 x4 g -> In k (g_ea g) -> nth_error (g_e g) k = Some e -> e_der e = None -> e_of e = Some i ->
  nth_error (g_e g) i = Some ei -> In x (g_va g) ->
  (In x (e_vars ei) \/ exists w v, In w (e_vars ei) /\ nth_error (g_v g) w = Some v /\ v_der v = Some x) ->
  inv no3 x4 (mkG (g_v g) (g_va g) (upd (addVar x) k (g_e g)) (g_ea g)).
Proof.
  intros I KA KE KD KO IE XA FR.
  assert (NI : i <> k).
  { intros ->. assert (ei = e) by congruence. subst ei. destruct (ie_of _ _ _ I k e k KA KE KO) as (_ & w & W1 & W2). congruence. }
  assert (NM : m <= k).
  { destruct (Nat.lt_ge_cases k m) as [L|]; auto. destruct (ie_user _ _ _ I k L) as (e1 & e2 & A & _ & _ & B). congruence. }
  assert (SAME : forall q w, nth_error (upd (addVar x) k (g_e g)) q = Some w ->
     exists w', nth_error (g_e g) q = Some w' /\ e_of w = e_of w' /\ e_der w = e_der w' /\
       ((q <> k /\ w = w') \/ (q = k /\ w' = e /\ w = addVar x e))).
  { intros q w H. rewrite upd_nth in H. destruct (q =? k) eqn:Q.
    - apply Nat.eqb_eq in Q. subst q. rewrite KE in H. injection H as <-. exists e. repeat split; auto.
    - apply Nat.eqb_neq in Q. exists w. repeat split; auto. }
  assert (BACK : forall q w, nth_error (g_e g) q = Some w -> exists w', nth_error (upd (addVar x) k (g_e g)) q = Some w' /\ e_of w' = e_of w /\ e_der w' = e_der w /\
       (forall y, In y (e_vars w) -> In y (e_vars w'))).
  { intros q w H. rewrite upd_nth. destruct (q =? k) eqn:Q; [|exists w; auto].
    rewrite H. eexists. split; [reflexivity|]. cbn. repeat split; auto. intros y Y. apply addVar_vars. auto. }
  destruct I as [V1 V2 V3 V4 V5 V6 V7 E1 E2 E3 E4 E5 E6 E7 E8 E9 E10 E11]. constructor; cbn [g_va g_v g_e g_ea]; auto.
  - intros q H. rewrite upd_length. auto.
  - intros q L. destruct (E4 q L) as (a & b & A & B & C & D). exists a, b. repeat split; auto. rewrite upd_other; auto. lia.
  - intros q w L H W. apply SAME in W as (w' & W & A & B & _). rewrite A. eapply E5; eauto.
  - intros q w d H W D. apply SAME in W as (w' & W & A & B & _). rewrite B in D. destruct (E6 q w' d H W D) as (X & y & Y & Z).
    split; auto. apply BACK in Y as (y' & Y & Y1 & _). exists y'. split; congruence.
  - intros q w d H W D. apply SAME in W as (w' & W & A & B & _). rewrite A in D. destruct (E7 q w' d H W D) as (X & y & Y & Z).
    split; auto. apply BACK in Y as (y' & Y & Y1 & Y2 & _). exists y'. split; congruence.
  - intros q w y H W Y. apply SAME in W as (w' & W & _ & _ & [(Q & ->)|(-> & -> & ->)]); [eapply E8; eauto|].
    apply addVar_vars in Y as [Y| ->]; auto. eapply E8; eauto.
  - intros q w H W. apply SAME in W as (w' & W & _ & _ & [(Q & ->)|(-> & -> & ->)]); [eapply E9; eauto|]. apply addVar_NoDup. eapply E9; eauto.
  - intros q w d e' y H W D W' Y. apply SAME in W as (w1 & W & _ & B & [(Q & ->)|(-> & -> & ->)]).
    + apply SAME in W' as (w2 & W' & _ & _ & C).
      destruct (E10 q w1 d w2 y H W D W' Y) as [X|(v & d' & X1 & X2 & X3)]; auto. right. exists v, d'. repeat split; auto.
      destruct C as [(_ & ->)|(_ & -> & ->)]; auto. apply addVar_vars. auto.
    + rewrite B, KD in D. discriminate.
  - intros q w o eo y H W O W' Y YA. apply SAME in W as (w1 & W & A & _ & C). rewrite A in O.
    apply SAME in W' as (w2 & W' & _ & _ & C').
    assert (UP : forall z, In z (e_vars w2) -> In z (e_vars eo)).
    { intros z Z. destruct C' as [(_ & ->)|(_ & -> & ->)]; auto. apply addVar_vars; auto. }
    destruct C as [(Q & ->)|(-> & -> & ->)].
    + destruct (E11 q w1 o w2 y H W O W' Y YA) as [X|(z & v & X1 & X2 & X3)]; auto. right. exists z, v. auto.
    + assert (o = i) by congruence. subst o. assert (w2 = ei) by congruence. subst w2.
      apply addVar_vars in Y as [Y| ->].
      * destruct (E11 k e i ei y H KE KO IE Y YA) as [X|(z & v & X1 & X2 & X3)]; auto. right. exists z, v. auto.
      * destruct FR as [X|(z & v & X1 & X2 & X3)]; auto. right. exists z, v. auto.
Qed.

(** ** A new equation *)
Lemma newEq_inv g i e : inv no3 no3 g -> In i (g_ea g) -> nth_error (g_e g) i = Some e -> e_der e = None ->
  let k := List.length (g_e g) in
  inv no3 (fun q x => q = i) (mkG (g_v g) (g_va g) (upd (setEDer (Some k)) i (g_e g) ++ [mkE [] (Some i) None]) (g_ea g ++ [k])).
Proof.
  intros I IA IE ID k.
  assert (Kf : ~ In k (g_ea g)) by (intro H; apply (ie_lt _ _ _ I) in H; unfold k in H; lia).
  assert (Ik : i < k) by (apply (ie_lt _ _ _ I) in IA; exact IA).
  set (es := upd (setEDer (Some k)) i (g_e g) ++ [mkE [] (Some i) None]).
  assert (OLD : forall q w, nth_error (g_e g) q = Some w -> exists w', nth_error es q = Some w' /\ e_of w' = e_of w /\ e_vars w' = e_vars w /\ (q <> i -> w' = w) /\ (q = i -> e_der w' = Some k)).
  { intros q w H. unfold es. rewrite nth_error_app1 by (rewrite upd_length; eapply nth_lt; eauto). rewrite upd_nth, H.
    destruct (q =? i) eqn:Q; [apply Nat.eqb_eq in Q|apply Nat.eqb_neq in Q]; eexists; (split; [reflexivity|]); cbn; intuition congruence. }
  assert (KN : nth_error es k = Some (mkE [] (Some i) None)).
  { unfold es. rewrite nth_error_app2 by (rewrite upd_length; unfold k; lia). rewrite upd_length. unfold k. now rewrite Nat.sub_diag. }
  assert (INV : forall q w, nth_error es q = Some w -> (q = k /\ w = mkE [] (Some i) None) \/
     (q <> k /\ exists w', nth_error (g_e g) q = Some w' /\ e_of w' = e_of w /\ e_vars w' = e_vars w /\ (q <> i -> w' = w) /\ (q = i -> w = setEDer (Some k) e))).
  { intros q w H. unfold es in H. apply nth_app_last in H as [(L & H)|(-> & ->)]; rewrite upd_length in *; [|left; auto].
    right. split; [unfold k; lia|]. rewrite upd_nth in H. destruct (q =? i) eqn:Q.
    - apply Nat.eqb_eq in Q. subst q. rewrite IE in H. injection H as <-. exists e. cbn. intuition congruence.
    - apply Nat.eqb_neq in Q. exists w. intuition congruence. }
  destruct I as [V1 V2 V3 V4 V5 V6 V7 E1 E2 E3 E4 E5 E6 E7 E8 E9 E10 E11]. constructor; cbn [g_va g_v g_e g_ea]; fold es; auto.
  - apply va_snoc; auto.
  - apply sorted_snoc; auto.
  - intros q H. unfold es. rewrite app_length, upd_length. cbn. apply in_app_or in H as [H|[<-|[]]]; [apply E3 in H; lia|unfold k; lia].
  - intros q L. destruct (E4 q L) as (a & b & A & B & C & D). apply OLD in A as (a' & A & A1 & A2 & _). exists a', b. repeat split; congruence.
  - intros q w L H W. apply INV in W as [(-> & ->)|(N & w' & W & W1 & W2 & _)]; [exists i; auto|].
    apply in_app_or in H as [H|[<-|[]]]; [|tauto]. rewrite <- W1. eapply E5; eauto.
  - intros q w d H W D. apply INV in W as [(-> & ->)|(N & w' & W & W1 & W2 & W3 & W4)]; [discriminate|].
    apply in_app_or in H as [H|[<-|[]]]; [|tauto].
    destruct (Nat.eq_dec q i) as [->|Q].
    + rewrite (W4 eq_refl) in D. cbn in D. injection D as <-. split; [apply in_or_app; simpl; auto|]. eexists. split; [exact KN|reflexivity].
    + rewrite W3 in W by auto. destruct (E6 q w d H W D) as (X & y & Y & Z). split; [apply in_or_app; auto|].
      apply OLD in Y as (y' & Y & Y1 & _). exists y'. split; congruence.
  - intros q w o H W O. apply INV in W as [(-> & ->)|(N & w' & W & W1 & W2 & W3 & W4)].
    + cbn in O. injection O as <-. split; [apply in_or_app; auto|]. apply OLD in IE as (y & Y & _ & _ & _ & Z). exists y. auto.
    + apply in_app_or in H as [H|[<-|[]]]; [|tauto]. rewrite <- W1 in O. destruct (E7 q w' o H W O) as (X & y & Y & Z).
      split; [apply in_or_app; auto|]. destruct (Nat.eq_dec o i) as [->|Q]; [congruence|].
      apply OLD in Y as (y' & Y & _ & _ & Y3 & _). exists y'. rewrite Y3 in * by auto. auto.
  - intros q w y H W Y. apply INV in W as [(-> & ->)|(N & w' & W & W1 & W2 & W3 & W4)]; [destruct Y|].
    apply in_app_or in H as [H|[<-|[]]]; [|tauto]. rewrite <- W2 in Y. eapply E8; eauto.
  - intros q w H W. apply INV in W as [(-> & ->)|(N & w' & W & W1 & W2 & W3 & W4)]; [constructor|].
    apply in_app_or in H as [H|[<-|[]]]; [|tauto]. rewrite <- W2. eapply E9; eauto.
  - intros q w d e' y H W D W' Y. apply INV in W as [(-> & ->)|(N & w' & W & W1 & W2 & W3 & W4)]; [destruct Y|].
    apply in_app_or in H as [H|[<-|[]]]; [|tauto]. destruct (Nat.eq_dec q i) as [->|Q]; auto. rewrite W3 in W by auto.
    destruct (E6 q w d H W D) as (DA & _). right.
    apply INV in W' as [(-> & _)|(N' & w2 & W' & _ & X2 & _)]; [tauto|]. rewrite <- X2.
    destruct (E10 q w d w2 y H W D W' Y) as [[]|X]. exact X.
  - intros q w o eo y H W O W' Y YA. apply INV in W as [(-> & ->)|(N & w' & W & W1 & W2 & W3 & W4)]; [destruct Y|].
    apply in_app_or in H as [H|[<-|[]]]; [|tauto]. rewrite <- W1 in O. destruct (E7 q w' o H W O) as (OA & _).
    apply INV in W' as [(-> & _)|(N' & w2 & W' & _ & X2 & _)]; [tauto|]. rewrite <- X2. rewrite <- W2 in Y. exact (E11 q w' o w2 y H W O W' Y YA).
Qed.

Lemma shrink4 (x4 y4 : nat -> nat -> Prop) g : inv no3 x4 g ->
  (forall k e d e' x, In k (g_ea g) -> nth_error (g_e g) k = Some e -> e_der e = Some d -> nth_error (g_e g) d = Some e' -> In x (e_vars e) -> x4 k x ->
     y4 k x \/ exists v d', nth_error (g_v g) x = Some v /\ v_der v = Some d' /\ In d' (e_vars e')) -> inv no3 y4 g.
Proof.
  intros [V1 V2 V3 V4 V5 V6 V7 E1 E2 E3 E4 E5 E6 E7 E8 E9 E10 E11] H. constructor; auto.
  intros k e d e' x H1 H2 H3 H4 H5. destruct (E10 k e d e' x H1 H2 H3 H4 H5); eauto.
Qed.

(** ** dirtyDifferentiateEq *)
Lemma dirty_inv b i k : forall js g e ei, inv no3 (fun q x => q = i /\ In x js) g ->
  In k (g_ea g) -> nth_error (g_e g) k = Some e -> e_der e = None -> e_of e = Some i ->
  In i (g_ea g) -> nth_error (g_e g) i = Some ei -> e_der ei = Some k -> incl js (e_vars ei) ->
  inv no3 no3 (dirty n n0 b k js g).
Proof.
  induction js as [|j js IH]; intros g e ei I KA KE KD KO IA IE ID S1.
  { cbn. eapply inv_weaken; [| |exact I]; auto. intros q x (_ & []). }
  cbn [dirty].
  assert (NI : i <> k) by congruence.
  set (g1 := if b then mkG (g_v g) (g_va g) (upd (addVar j) k (g_e g)) (g_ea g) else g).
  assert (JA : In j (g_va g)).
  { destruct (ie_vars _ _ _ I i ei j IA IE) as [[]|X]; auto. apply S1. simpl; auto. }
  assert (I1 : inv no3 (fun q x => q = i /\ In x (j :: js)) g1 /\ g_va g1 = g_va g /\ g_v g1 = g_v g /\ g_ea g1 = g_ea g /\
     nth_error (g_e g1) i = Some ei /\ exists e1, nth_error (g_e g1) k = Some e1 /\ e_der e1 = None /\ e_of e1 = Some i).
  { unfold g1. destruct b; [|split; [exact I|]; split; [auto|]; split; [auto|]; split; [auto|]; split; [auto|]; exists e; auto]. split.
    - eapply addVar_inv; eauto. left. apply S1. simpl; auto.
    - cbn. split; [auto|]. split; [auto|]. split; [auto|]. split; [rewrite upd_other; auto|]. exists (addVar j e). split; [now apply upd_same|]. split; [exact KD|exact KO]. }
  destruct I1 as (I1 & A1 & A2 & A3 & IE1 & e1 & KE1 & KD1 & KO1).
  destruct (createVar n n0 j g1) as [d g2] eqn:C.
  destruct (createVar_inv _ _ _ _ _ I1 (eq_ind_r (fun l => In j l) JA A1) C) as (I2 & DA & (v & JV & JD) & B1 & B2 & B3 & B4).
  apply IH with (e := addVar d e1) (ei := ei); cbn [g_ea g_e g_v g_va].
  - assert (I3 : inv no3 (fun q x => q = i /\ In x (j :: js)) (mkG (g_v g2) (g_va g2) (upd (addVar d) k (g_e g2)) (g_ea g2))).
    { apply addVar_inv with (e := e1) (i := i) (ei := ei); auto; try congruence.
      right. exists j, v. split; [apply S1; simpl; auto|]. auto. }
    eapply shrink4; [exact I3|]. cbn [g_ea g_e g_v g_va]. intros q w d' e' x Q W D W' X (-> & [<-|H]); [|left; auto].
    right. exists v, d. repeat split; auto.
    assert (w = ei). { rewrite upd_other in W by auto. congruence. } subst w.
    assert (d' = k) by congruence. subst d'. rewrite upd_same with (x := e1) in W' by congruence. injection W' as <-.
    apply addVar_vars. auto.
  - now rewrite B2, A3.
  - apply upd_same. congruence.
  - cbn. auto.
  - cbn. auto.
  - now rewrite B2, A3.
  - rewrite upd_other by auto. congruence.
  - auto.
  - intros x H. apply S1. simpl; auto.
Qed.
Lemma createEq_inv b i g : inv no3 no3 g -> In i (g_ea g) -> inv no3 no3 (createEq n n0 b i g).
Proof.
  intros I IA. unfold createEq. destruct (alive_e I i IA) as (e & E). rewrite E. destruct (e_der e) eqn:D; auto.
  assert (Ik : i < List.length (g_e g)) by (apply (ie_lt _ _ _ I) in IA; exact IA).
  eapply dirty_inv with (ei := setEDer (Some (List.length (g_e g))) e) (e := mkE [] (Some i) None); cbn [g_ea g_e g_v g_va].
  - eapply shrink4; [exact (newEq_inv g i e I IA E D)|]. cbn [g_ea g_e g_v g_va]. intros q w d' e' x Q W D' W' X ->. left. split; auto.
    rewrite nth_error_app1 in W by (rewrite upd_length; lia). rewrite upd_nth, Nat.eqb_refl, E in W. injection W as <-. exact X.
  - apply in_or_app. simpl; auto.
  - rewrite nth_error_app2 by (rewrite upd_length; lia). rewrite upd_length, Nat.sub_diag. reflexivity.
  - reflexivity.
  - reflexivity.
  - apply in_or_app. auto.
  - rewrite nth_error_app1 by (rewrite upd_length; lia). now apply upd_same.
  - reflexivity.
  - cbn. apply incl_refl.
Qed.
End Inv.

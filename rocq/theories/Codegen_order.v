(** * Evaluation order, last usage (code_handler_impl.hpp 393-397, 1742-1986) *)
From Coq Require Import List Bool Arith Lia.
From Verif Require Import Graph_model Graph_spec Codegen_model Codegen_spec Codegen_dfs Codegen_use Codegen_create.
Import ListNotations.

Section Inl.
Context {B : Type} {O : BaseOps B}.
Variable g : heap B.
Variable vid : nat -> nat.

(** [inl q n]: [n] is written inside the statement of [q] *)
Inductive inl (q : nat) : nat -> Prop :=
 | inl_root : inl q q
 | inl_arg n j : inl q n -> In j (nargs g n) -> vid j = 0 -> inl q j.

(** [rd q t]: the statement of [q] reads variable [t] *)
Definition rd (q t : nat) : Prop := exists n, inl q n /\ In t (nargs g n) /\ vid t <> 0.

Lemma inl_trans a b c : inl a b -> inl b c -> inl a c.
Proof. intros H1 H2. induction H2; [exact H1|]. eapply inl_arg; eauto. Qed.

(** a path through aliases *)
Inductive chain (j : nat) : nat -> Prop :=
 | chain_refl : chain j j
 | chain_step a t : chain j a -> isAlias g a = true -> In t (nargs g a) -> chain j t.
End Inl.

Section Order.
Context {B : Type} {O : BaseOps B}.
Variable g : heap B.
Variable indeps : list nat.
Variable deps : list (arg B).
Hypothesis HG : gen_input g indeps deps.
Variable uc : nat -> nat.
Variable fuelu : nat.
Hypothesis Huc : ofold (markCodeBlockUsed g fuelu) (anodes deps) (fun _ => 0) = Done uc.
Variable vid0 : nat -> nat.
Variable n0 : nat.
Hypothesis Hids : depIds (anodes deps) (indepIds indeps (fun _ => 0, 1)) = (vid0, n0).
Variable cv : cvst.
Hypothesis CR : created g deps uc vid0 n0 cv.

Notation P := (reach g deps).
Notation vo := (c_q cv).
Notation vid := (c_vid cv).
Notation inl := (inl g vid).
Notation rd := (rd g vid).
Notation ready := (ready g vid (c_vis cv)).

Lemma P_args i j : P i -> In j (nargs g i) -> P j.
Proof. apply P_arg. Qed.

Lemma inl_P q n : P q -> inl q n -> P n.
Proof. intros Hq H. induction H; eauto using P_args. Qed.

Lemma inv_vid i : P i -> isInv g i = true -> vid i <> 0.
Proof.
  intros Hp Hi. pose proof (inv_vid0 g indeps deps HG vid0 n0 Hids i Hp Hi). rewrite (cr_vid0 _ _ _ _ _ _ CR); assumption.
Qed.

Lemma vid_zero_not_q i : vid i = 0 -> ~ In i vo.
Proof. intros H Hi. apply (cr_q _ _ _ _ _ _ CR) in Hi. tauto. Qed.

(** nodes written inside a statement are ready before it *)
Lemma inl_ready l1 q l2 n : vo = l1 ++ q :: l2 -> inl q n -> n = q \/ (ready l1 n /\ vid n = 0).
Proof.
  intros E H. induction H as [|n j H IH Hj Hv]; [left; reflexivity|right].
  split; [|exact Hv]. destruct IH as [->|[Hr Hn]]; [eapply (cr_order _ _ _ _ _ _ CR); eassumption|].
  inversion Hr; subst; try congruence; auto.
Qed.

Lemma rd_before l1 q l2 t : vo = l1 ++ q :: l2 -> rd q t -> isInv g t = true \/ In t l1.
Proof.
  intros E (n & Hn & Ht & Hv).
  assert (Hr : ready l1 t).
  { destruct (inl_ready _ _ _ _ E Hn) as [->|[Hr H0]]; [eapply (cr_order _ _ _ _ _ _ CR); eassumption|].
    inversion Hr; subst; try congruence; auto. }
  inversion Hr; subst; try congruence; auto.
Qed.

(** ** Orders *)
Record OI (D : list nat) (stack : list (option nat * nat)) (ord : nat -> nat) : Prop := {
  oi_pos : forall p i, nth_error D p = Some i -> ord i = S p;
  oi_le : forall j, ord j <= length D;
  oi_P : forall j, ord j <> 0 -> P j;
  oi_args : forall j, ord j <> 0 -> forall k, In k (nargs g j) ->
     (ord k <> 0 /\ ord k <= ord j) \/ (ord j = length D /\ In k (map snd stack));
  oi_par : forall j, ord j <> 0 -> In j D \/ exists n, P n /\ In j (nargs g n) /\ ord n = ord j;
  oi_inl : forall j, ord j <> 0 -> isInv g j = true \/ exists q, In q D /\ inl q j /\ ord q = ord j;
  oi_stack : Forall (fun e => exists n, fst e = Some n /\ P n /\ In (snd e) (nargs g n) /\ ord n = length D /\ 0 < length D /\
                 ready D (snd e)) stack;
  oi_later : forall j, In j vo -> ~ In j D -> ord j = 0
}.

Lemma order_inv D fuel stack ord ord' : sdfs (depAddedAn g) fuel stack ord = Done ord' ->
  OI D stack ord -> OI D [] ord'.
Proof.
  apply sdfs_inv. intros p i rest st st' pushed H E. unfold depAddedAn in E.
  pose proof (oi_stack _ _ _ H) as Hs. apply Forall_cons_iff in Hs. destruct Hs as [(n & En & Pn & Hin & Hon & HD & Hr) Hs].
  cbn [fst snd] in *. subst p.
  destruct (Nat.eqb (st i) 0) eqn:Ei.
  - apply Nat.eqb_eq in Ei. injection E as <- <-.
    assert (Hin0 : n <> i) by (intros ->; lia).
    assert (HiD : ~ In i D).
    { intros Hi. apply In_nth_error in Hi. destruct Hi as [q Hq]. rewrite (oi_pos _ _ _ H _ _ Hq) in Ei. lia. }
    constructor.
    + intros q j Hq. destruct (Nat.eq_dec j i) as [->|Hj].
      * exfalso. apply HiD. eapply nth_error_In; eassumption.
      * rewrite upd_neq by exact Hj. eapply oi_pos; eassumption.
    + intros j. destruct (Nat.eq_dec j i) as [->|Hj]; [rewrite upd_eq; lia|]. rewrite upd_neq by exact Hj. apply (oi_le _ _ _ H).
    + intros j. destruct (Nat.eq_dec j i) as [->|Hj]; [intros _; eapply P_args; eassumption|].
      rewrite upd_neq by exact Hj. apply (oi_P _ _ _ H).
    + intros j Hj k Hk. destruct (Nat.eq_dec j i) as [->|Hji].
      * right. rewrite upd_eq. split; [exact Hon|]. rewrite map_app, spushArgs_nodes. apply in_or_app; left; exact Hk.
      * rewrite !(upd_neq _ _ _ _ Hji) in *. destruct (oi_args _ _ _ H j Hj k Hk) as [[H1 H2]|[H1 H2]].
        -- left. assert (k <> i) by (intros ->; lia). rewrite upd_neq by assumption. auto.
        -- cbn [map snd] in H2. destruct H2 as [->|H2].
           ++ left. rewrite upd_eq. lia.
           ++ right. split; [exact H1|]. rewrite map_app. apply in_or_app; right; exact H2.
    + intros j Hj. destruct (Nat.eq_dec j i) as [->|Hji].
      * right. exists n. rewrite upd_eq, upd_neq by exact Hin0. auto.
      * rewrite !(upd_neq _ _ _ _ Hji) in *. destruct (oi_par _ _ _ H j Hj) as [H1|(m & H1 & H2 & H3)]; [left; exact H1|].
        right. exists m. assert (m <> i) by (intros ->; lia). rewrite upd_neq by assumption. auto.
    + intros j Hj. destruct (Nat.eq_dec j i) as [->|Hji].
      * destruct (isInv g i) eqn:Ev; [left; reflexivity|right].
        assert (Hz : vid i = 0) by (inversion Hr; subst; try congruence; exfalso; auto).
        destruct (oi_inl _ _ _ H n ltac:(lia)) as [Hni|(q & Hq & Hqn & Hqo)].
        -- rewrite (P_inv_args g indeps deps HG n Pn Hni) in Hin. destruct Hin.
        -- exists q. split; [exact Hq|]. split; [eapply inl_arg; eassumption|].
           rewrite upd_eq, upd_neq; [exact Hqo|]. intros ->; auto.
      * rewrite !(upd_neq _ _ _ _ Hji) in *. destruct (oi_inl _ _ _ H j Hj) as [H1|(m & H1 & H2 & H3)]; [left; exact H1|].
        right. exists m. assert (m <> i) by (intros ->; lia). rewrite upd_neq by assumption. auto.
    + apply Forall_app. split.
      * unfold spushArgs. apply Forall_forall. intros e He. apply in_map_iff in He. destruct He as (k & <- & Hk).
        cbn [fst snd]. exists i. rewrite upd_eq. split; [reflexivity|]. split; [eapply P_args; eassumption|].
        split; [exact Hk|]. split; [exact Hon|]. split; [exact HD|].
        inversion Hr as [k' Hv|k' Hq|k' Hv Ha H0 Hvs Hc|k' Ha H0 Hc]; subst k'.
        -- rewrite (P_inv_args g indeps deps HG i (P_args _ _ Pn Hin) Hv) in Hk. destruct Hk.
        -- contradiction.
        -- apply Hc, Hk.
        -- apply Hc, Hk.
      * eapply Forall_impl; [|exact Hs]. intros e (m & H1 & H2 & H3 & H4 & H5 & H6).
        exists m. assert (m <> i) by (intros ->; lia). rewrite upd_neq by assumption. auto 10.
    + intros j Hj Hn. destruct (Nat.eq_dec j i) as [->|Hji].
      * exfalso. inversion Hr as [k' Hv|k' Hq|k' Hv Ha H0 Hvs Hc|k' Ha H0 Hc]; subst k'.
        -- apply (cr_q _ _ _ _ _ _ CR) in Hj. destruct Hj as (_ & h & _). congruence.
        -- auto.
        -- eapply vid_zero_not_q; eassumption.
        -- eapply vid_zero_not_q; eassumption.
      * rewrite upd_neq by exact Hji. apply (oi_later _ _ _ H); assumption.
  - injection E as <- <-. cbn [app]. apply Nat.eqb_neq in Ei. destruct H. constructor; auto.
    intros j Hj k Hk. destruct (oi_args0 j Hj k Hk) as [H1|[H1 H2]]; [left; exact H1|].
    cbn [map snd] in H2. destruct H2 as [<-|H2]; [left; split; [exact Ei|rewrite H1; apply oi_le0]|right; auto].
Qed.

Lemma order_step D q rest fuel ord ord' : vo = D ++ q :: rest -> OI D [] ord ->
  dependentAdded g fuel q (upd ord q (S (length D))) = Done ord' -> OI (D ++ [q]) [] ord'.
Proof.
  intros E H Hr. unfold dependentAdded in Hr. eapply order_inv; [exact Hr|]. clear Hr ord'.
  pose proof (cr_nodup _ _ _ _ _ _ CR) as Hnd. rewrite E in Hnd. apply NoDup_remove_2 in Hnd.
  assert (HqD : ~ In q D) by (intros Hq; apply Hnd, in_or_app; left; exact Hq).
  assert (Hqv : In q vo) by (rewrite E; apply in_or_app; right; left; reflexivity).
  pose proof (oi_later _ _ _ H q Hqv HqD) as Hq0.
  destruct (cr_q _ _ _ _ _ _ CR q Hqv) as (Pq & Hqi & Hqa & Hqn).
  assert (Hlen : length (D ++ [q]) = S (length D)) by (rewrite app_length; cbn; lia).
  constructor; rewrite ?Hlen.
  - intros p i Hp. destruct (Nat.lt_ge_cases p (length D)) as [Hlt|Hge].
    + rewrite nth_error_app1 in Hp by exact Hlt. rewrite upd_neq; [eapply oi_pos; eassumption|].
      intros ->. apply HqD. eapply nth_error_In; eassumption.
    + rewrite nth_error_app2 in Hp by exact Hge. destruct (p - length D) as [|d] eqn:Ed; cbn in Hp.
      * injection Hp as <-. rewrite upd_eq. lia.
      * destruct d; discriminate.
  - intros j. destruct (Nat.eq_dec j q) as [->|Hj]; [rewrite upd_eq; lia|]. rewrite upd_neq by exact Hj.
    pose proof (oi_le _ _ _ H j). lia.
  - intros j. destruct (Nat.eq_dec j q) as [->|Hj]; [intros _; exact Pq|].
    rewrite upd_neq by exact Hj. apply (oi_P _ _ _ H).
  - intros j Hj k Hk. destruct (Nat.eq_dec j q) as [->|Hji].
    + right. rewrite upd_eq. split; [reflexivity|]. rewrite spushArgs_nodes. exact Hk.
    + rewrite !(upd_neq _ _ _ _ Hji) in *. destruct (oi_args _ _ _ H j Hj k Hk) as [[H1 H2]|[_ []]].
      left. assert (k <> q) by (intros ->; lia). rewrite upd_neq by assumption. auto.
  - intros j Hj. destruct (Nat.eq_dec j q) as [->|Hji].
    + left. apply in_or_app; right; left; reflexivity.
    + rewrite !(upd_neq _ _ _ _ Hji) in *. destruct (oi_par _ _ _ H j Hj) as [H1|(m & H1 & H2 & H3)].
      * left. apply in_or_app; left; exact H1.
      * right. exists m. assert (m <> q) by (intros ->; lia). rewrite upd_neq by assumption. auto.
  - intros j Hj. destruct (Nat.eq_dec j q) as [->|Hji].
    + right. exists q. split; [apply in_or_app; right; left; reflexivity|]. split; [constructor|reflexivity].
    + rewrite !(upd_neq _ _ _ _ Hji) in *. destruct (oi_inl _ _ _ H j Hj) as [H1|(m & H1 & H2 & H3)]; [left; exact H1|].
      right. exists m. assert (m <> q) by (intros ->; lia). rewrite upd_neq by assumption.
      split; [apply in_or_app; left; exact H1|auto].
  - unfold spushArgs. apply Forall_forall. intros e He. apply in_map_iff in He. destruct He as (k & <- & Hk).
    cbn [fst snd]. exists q. rewrite upd_eq. split; [reflexivity|]. split; [exact Pq|].
    split; [exact Hk|]. split; [reflexivity|]. split; [lia|].
    pose proof (cr_order _ _ _ _ _ _ CR _ _ _ E k Hk) as Hr.
    revert Hr. apply ready_mono; auto. intros x Hx. apply in_or_app; left; exact Hx.
  - intros j Hj Hn. assert (j <> q) by (intros ->; apply Hn, in_or_app; right; left; reflexivity).
    rewrite upd_neq by assumption. apply (oi_later _ _ _ H); auto. intros Hd. apply Hn, in_or_app; left; exact Hd.
Qed.

Lemma orders_inv fuel : forall rest D ord ord', vo = D ++ rest -> OI D [] ord ->
  setOrders g fuel rest (length D) ord = Done ord' -> OI vo [] ord'.
Proof.
  induction rest as [|q rest IH]; intros D ord ord' E H Hs; cbn [setOrders] in Hs.
  - injection Hs as <-. rewrite app_nil_r in E. rewrite E. exact H.
  - apply obind_done in Hs. destruct Hs as (ord1 & E1 & E2).
    pose proof (order_step _ _ _ _ _ _ E H E1) as H1.
    eapply (IH (D ++ [q])); [rewrite <- app_assoc; exact E|exact H1|].
    rewrite app_length. cbn [length]. rewrite Nat.add_1_r. exact E2.
Qed.

Variable fuelo : nat.
Variable ord : nat -> nat.
Hypothesis Hord : setOrders g fuelo vo 0 (fun _ => 0) = Done ord.

Lemma orders_ok : OI vo [] ord.
Proof.
  eapply (orders_inv fuelo vo []); [reflexivity| |exact Hord].
  constructor; try (intros j Hj; exfalso; apply Hj; reflexivity).
  - intros [|p] i; discriminate.
  - intros j. apply Nat.le_0_l.
  - constructor.
  - reflexivity.
Qed.

Lemma ord_nth p i : nth_error vo p = Some i -> ord i = S p.
Proof. apply (oi_pos _ _ _ orders_ok). Qed.

Lemma ord_le j : ord j <= length vo.
Proof. apply (oi_le _ _ _ orders_ok). Qed.

Lemma ord_args j k : ord j <> 0 -> In k (nargs g j) -> ord k <> 0 /\ ord k <= ord j.
Proof. intros Hj Hk. destruct (oi_args _ _ _ orders_ok j Hj k Hk) as [H|[_ []]]. exact H. Qed.

Lemma ord_pos j : P j -> isInv g j = false -> ord j <> 0.
Proof.
  intros Hp. induction Hp as [i Hi|i j Hi IH He]; intros Hv.
  - apply (cr_dep _ _ _ _ _ _ CR) in Hi; auto. apply In_nth_error in Hi. destruct Hi as [p Hp]. rewrite (ord_nth _ _ Hp). lia.
  - apply nargs_edge in He. assert (isInv g i = false).
    { destruct (isInv g i) eqn:E; [|reflexivity]. rewrite (P_inv_args g indeps deps HG i Hi E) in He. destruct He. }
    eapply ord_args; [apply IH; assumption|exact He].
Qed.

Lemma vo_split q : In q vo -> exists l1 l2, vo = l1 ++ q :: l2 /\ ord q = S (length l1).
Proof.
  intros Hq. apply in_split in Hq. destruct Hq as (l1 & l2 & E). exists l1, l2. split; [exact E|].
  apply ord_nth. rewrite E, nth_error_app2, Nat.sub_diag by lia. reflexivity.
Qed.

(** every variable which is read has a smaller order than the node which reads it *)
Lemma ord_lt n t : P n -> In t (nargs g n) -> In t vo -> ord t < ord n.
Proof.
  intros Pn Ht Hv.
  assert (Hni : isInv g n = false).
  { destruct (isInv g n) eqn:E; [|reflexivity]. rewrite (P_inv_args g indeps deps HG n Pn E) in Ht. destruct Ht. }
  destruct (oi_inl _ _ _ orders_ok n (ord_pos _ Pn Hni)) as [|(q & Hq & Hi & Eo)]; [congruence|].
  rewrite <- Eo. destruct (vo_split _ Hq) as (l1 & l2 & E & ->).
  destruct (cr_q _ _ _ _ _ _ CR t Hv) as (_ & Hti & _ & Htv).
  destruct (rd_before l1 q l2 t E) as [|Hl]; [exists n; auto|congruence|].
  apply In_nth_error in Hl. destruct Hl as [p Hp].
  assert (p < length l1) by (apply nth_error_Some; congruence).
  rewrite (ord_nth p t); [lia|]. rewrite E, nth_error_app1; assumption.
Qed.

(** the nodes written inside a statement have its order *)
Lemma inl_order q n : In q vo -> inl q n ->
  (isAlias g n = false -> ord n = ord q) /\ (uc n <= 1 -> ord n = ord q) /\
  (isAlias g n = true -> exists m j, inl q m /\ isAlias g m = false /\ In j (nargs g m) /\ chain g j n).
Proof.
  intros Hq H. pose proof (cr_q _ _ _ _ _ _ CR q Hq) as (Pq & Hqi & Hqa & Hqv).
  induction H as [|n j H IH Hj Hv].
  - split; [reflexivity|]. split; [reflexivity|]. congruence.
  - destruct IH as (I1 & I2 & I3). pose proof (inl_P _ _ Pq H) as Pn. pose proof (P_args _ _ Pn Hj) as Pj.
    assert (Hji : isInv g j = false).
    { destruct (isInv g j) eqn:E; [|reflexivity]. exfalso. apply (inv_vid j Pj E Hv). }
    assert (Hone : uc j <= 1 -> ord j = ord q).
    { intros Hu. assert (Hn : ord n = ord q).
      { destruct (isAlias g n) eqn:Ea; [|apply I1; reflexivity]. apply I2.
        pose proof (uc_alias g indeps deps HG uc fuelu Huc n j Pn Ea Hj). lia. }
      rewrite <- Hn.
      destruct (oi_par _ _ _ orders_ok j (ord_pos _ Pj Hji)) as [Hjv|(n' & Pn' & Hj' & <-)].
      - exfalso. eapply vid_zero_not_q; eassumption.
      - f_equal. eapply (uc_one_parent g indeps deps HG uc fuelu Huc j); eassumption. }
    split; [|split; [exact Hone|]].
    + intros Ha. apply Hone. destruct (cr_case _ _ _ _ _ _ CR j Pj Hji Ha) as [Hjv|(_ & Hu & _)]; [|exact Hu].
      exfalso. eapply vid_zero_not_q; eassumption.
    + intros Ha. destruct (isAlias g n) eqn:Ean.
      * destruct (I3 eq_refl) as (m & k & H1 & H2 & H3 & H4). exists m, k. repeat split; auto.
        eapply chain_step; eassumption.
      * exists n, j. repeat split; auto. constructor.
Qed.

Lemma rd_chain q t : In q vo -> rd q t ->
  exists m j, P m /\ ord m = ord q /\ In j (nargs g m) /\ chain g j t.
Proof.
  intros Hq (n & Hn & Ht & Hv). pose proof (cr_q _ _ _ _ _ _ CR q Hq) as (Pq & _).
  destruct (inl_order q n Hq Hn) as (I1 & I2 & I3). destruct (isAlias g n) eqn:Ea.
  - destruct (I3 eq_refl) as (m & j & H1 & H2 & H3 & H4).
    exists m, j. split; [eapply inl_P; eassumption|]. split; [|split; [exact H3|eapply chain_step; eassumption]].
    apply (proj1 (inl_order q m Hq H1)), H2.
  - exists n, t. split; [eapply inl_P; eassumption|]. split; [apply I1; reflexivity|]. split; [exact Ht|constructor].
Qed.

(** ** reorderOperations changes nothing *)
Lemma findLast_fold d l i : (forall j, In j l -> ord j <= d) -> forall acc,
  fold_left (fun acc j => let (m, st) := acc : nat * list (option nat * nat) in
     if Nat.eqb (ord j) d then (m, (Some i, j) :: st) else ((if Nat.ltb m (ord j) then ord j else m), st)) l (d, acc)
  = (d, map (fun j => (Some i, j)) (rev (filter (fun j => Nat.eqb (ord j) d) l)) ++ acc).
Proof.
  induction l as [|a l IH]; intros H acc; [reflexivity|]. cbn [fold_left filter].
  assert (Ha : ord a <= d) by (apply H; left; reflexivity).
  assert (Hl : forall j, In j l -> ord j <= d) by (intros; apply H; right; assumption).
  destruct (Nat.eqb (ord a) d).
  - rewrite IH by exact Hl. cbn [rev]. rewrite map_app. cbn [map]. rewrite <- app_assoc. reflexivity.
  - assert (Nat.ltb d (ord a) = false) as -> by (apply Nat.ltb_ge; exact Ha). apply IH, Hl.
Qed.

Lemma findLast_step p i m st pushed : P i -> m = ord i -> findLastAn g ord m p i m = (st, pushed) ->
  st = m /\ Forall (fun e => P (snd e) /\ ord (snd e) = m) pushed.
Proof.
  intros Pi -> E. unfold findLastAn in E.
  rewrite findLast_fold in E.
  - injection E as <- <-. split; [reflexivity|]. rewrite app_nil_r. apply Forall_forall. intros e He.
    apply in_map_iff in He. destruct He as (j & <- & Hj). cbn [snd].
    apply in_rev, filter_In in Hj. destruct Hj as [Hj Ho]. apply Nat.eqb_eq in Ho. eauto using P_args.
  - intros j Hj. destruct (isInv g i) eqn:Ei.
    + rewrite (P_inv_args g indeps deps HG i Pi Ei) in Hj. destruct Hj.
    + apply ord_args; [apply ord_pos; assumption|exact Hj].
Qed.

Lemma findLast_ok fuel root m : P root -> findLastTemporaryLocation g fuel ord root = Done m -> m = ord root.
Proof.
  intros Pr E. unfold findLastTemporaryLocation in E. revert E.
  intros E. enough (H : (fun (s : list (option nat * nat)) m => m = ord root /\ Forall (fun e => P (snd e) /\ ord (snd e) = ord root) s) [] m)
    by (cbv beta in H; tauto).
  eapply (sdfs_inv (findLastAn g ord (ord root)) (fun s m => m = ord root /\ Forall (fun e => P (snd e) /\ ord (snd e) = ord root) s)); [|exact E|].
  - clear E m. intros p i rest st st' pushed [Hm Hs] E. apply Forall_cons_iff in Hs. destruct Hs as [[Pi Hi] Hs]. cbn [snd] in *.
    subst st. rewrite <- Hi in E. destruct (findLast_step _ _ _ _ _ Pi eq_refl E) as [-> H].
    split; [exact Hi|]. apply Forall_app. split; [rewrite <- Hi; exact H|exact Hs].
  - split; [reflexivity|]. constructor; [|constructor]. cbn. auto.
Qed.

Lemma reorder_noop fuel minTmp vid' r' : reorderOperations g fuel minTmp vid' (anodes deps) (vo, ord) = Done r' -> r' = (vo, ord).
Proof.
  intros E. unfold reorderOperations in E. apply obind_done in E. destruct E as ([vis r] & E & E2).
  injection E2 as <-. cbn [snd].
  enough (H : (fun (_ : list nat) (s : (nat -> bool) * ros) => snd s = (vo, ord)) ([] ++ anodes deps) (vis, r)) by exact H.
  refine (ofold_inv (reorderOperation g fuel minTmp vid') (fun _ s => snd s = (vo, ord)) _ _ [] (fun _ => false, (vo, ord)) _ eq_refl E).
  intros i D [v s] [v' s'] Hi Hs E1. cbn [snd] in *. subst s. unfold reorderOperation in E1. cbn [snd] in E1.
  apply obind_done in E1. destruct E1 as (m & Em & E1).
  assert (m = ord i) as ->.
  { destruct (v i); [congruence|]. eapply findLast_ok; [|exact Em]. apply reach_dep, anodes_in, Hi. }
  rewrite Nat.eqb_refl in E1. cbn [orb] in E1. congruence.
Qed.

(** ** Last usage *)
Lemma fromAlias_chain fuel j t aa : P j -> fromAlias g fuel j = Done aa -> chain g j t -> isAlias g t = false -> aa = Some t.
Proof.
  intros Pj E Hc Ht.
  assert (H : exists f, fromAlias g f t = Done aa).
  { clear Ht. induction Hc as [|a t Hc IH Ha Hin]; [eauto|]. destruct IH as [f Hf].
    destruct f as [|f]; [discriminate|]. cbn [fromAlias] in Hf. rewrite Ha in Hf.
    assert (Pa : P a).
    { clear - Hc Pj. induction Hc; eauto using P_args. }
    destruct (P_alias g indeps deps HG a Pa Ha) as (k & E1 & E2). rewrite E1 in Hf. rewrite E2 in Hin.
    destruct Hin as [<-|[]]. exists f. exact Hf. }
  destruct H as [[|f] H]; [discriminate|]. cbn [fromAlias] in H. rewrite Ht in H. congruence.
Qed.

Variable fuell : nat.

Definition posted (st : lust) (n : nat) : Prop :=
  (forall j aa, In j (nargs g n) -> fromAlias g fuell j = Done (Some aa) -> ord n <= l_last st aa) /\
  (l_ok st = true -> forall j, In j (nargs g n) -> exists r, fromAlias g fuell j = Done r).

Definition isAn (e : el) : bool := match el_step e with Analyze => true | _ => false end.
Definition isCV (e : el) : bool := match el_step e with ChildrenVisited => true | _ => false end.

Record LI (stack : list el) (st : lust) : Prop := {
  li_vis : forall n, l_vis st n = true -> P n /\
     (forall j, In j (nargs g n) -> l_vis st j = true \/ In j (map el_node (filter isAn stack))) /\
     (posted st n \/ In n (map el_node (filter isCV stack)));
  li_stack : Forall (fun e => P (el_node e)) stack;
  li_le : forall v, l_last st v <= length vo
}.

Lemma luArgs_spec o l st : let st' := fold_left (luArg g fuell o) l st in
  l_vis st' = l_vis st /\ (forall v, l_last st v <= l_last st' v) /\ (forall v, l_last st' v <= Nat.max (l_last st v) o) /\
  (forall j aa, In j l -> fromAlias g fuell j = Done (Some aa) -> o <= l_last st' aa) /\
  (l_ok st' = true -> l_ok st = true /\ forall j, In j l -> exists r, fromAlias g fuell j = Done r).
Proof.
  revert st. induction l as [|a l IH]; intros st; cbn [fold_left].
  - split; [reflexivity|]. split; [auto|]. split; [intros; apply Nat.le_max_l|]. split; [intros j aa []|].
    intros H. split; [exact H|intros j []].
  - specialize (IH (luArg g fuell o st a)). cbv zeta in *. destruct IH as (H1 & H2 & H3 & H4 & H5).
    assert (K : l_vis (luArg g fuell o st a) = l_vis st /\ (forall v, l_last st v <= l_last (luArg g fuell o st a) v) /\
                (forall v, l_last (luArg g fuell o st a) v <= Nat.max (l_last st v) o) /\
                (forall aa, fromAlias g fuell a = Done (Some aa) -> o <= l_last (luArg g fuell o st a) aa) /\
                (l_ok (luArg g fuell o st a) = true -> l_ok st = true /\ exists r, fromAlias g fuell a = Done r)).
    { unfold luArg. destruct (fromAlias g fuell a) as [[k|]| |] eqn:Ea; cbn [l_vis l_last l_ok];
        try (split; [reflexivity|]; split; [auto|]; split; [intros; apply Nat.le_max_l|];
             split; [discriminate|]; intros Hk; first [discriminate|split; eauto]).
      destruct (Nat.ltb (l_last st k) o) eqn:El; cbn [l_vis l_last l_ok].
      - apply Nat.ltb_lt in El. split; [reflexivity|]. split; [|split; [|split; [|eauto]]].
        + intros v. destruct (Nat.eq_dec v k) as [->|Hn]; [rewrite upd_eq; lia|rewrite upd_neq by exact Hn; lia].
        + intros v. destruct (Nat.eq_dec v k) as [->|Hn]; [rewrite upd_eq; lia|rewrite upd_neq by exact Hn; lia].
        + intros aa [= <-]. rewrite upd_eq. lia.
      - apply Nat.ltb_ge in El. split; [reflexivity|]. split; [auto|]. split; [intros; apply Nat.le_max_l|].
        split; [intros aa [= <-]; exact El|eauto]. }
    destruct K as (K1 & K2 & K3 & K4 & K5). split; [congruence|]. split; [|split; [|split]].
    + intros v. eapply Nat.le_trans; [apply K2|apply H2].
    + intros v. specialize (H3 v). specialize (K3 v). lia.
    + intros j aa [->|Hj] E; [|eapply H4; eassumption].
      eapply Nat.le_trans; [apply K4, E|apply H2].
    + intros Hk. destruct (H5 Hk) as [Hk' Hr]. destruct (K5 Hk') as [Hk'' Ha]. split; [exact Hk''|].
      intros j [<-|Hj]; auto.
Qed.

Lemma last_inv fuel stack st st' : dfs (luPre g) (luPost g fuell ord) fuel stack st = Done st' ->
  LI stack st -> LI [] st'.
Proof.
  apply dfs_inv.
  - intros p i rest s s' pushed c H E. unfold luPre in E. injection E as <- <- <-.
    pose proof (li_stack _ _ H) as Hs. apply Forall_cons_iff in Hs. destruct Hs as [Pi Hs]. cbn [el_node] in Pi.
    constructor; cbn [l_vis l_last].
    + intros n Hn. destruct (Nat.eq_dec n i) as [->|Hni].
      * split; [exact Pi|]. split.
        -- intros j Hj. destruct (upd (l_vis s) i true j) eqn:Ej; [left; reflexivity|right].
           rewrite filter_app, map_app. apply in_or_app; left. apply in_map_iff.
           exists (mkEl (Some i) j Analyze). split; [reflexivity|]. apply filter_In. split; [|reflexivity].
           rewrite <- in_rev. apply in_map_iff. exists j. split; [reflexivity|]. apply filter_In. rewrite Ej. auto.
        -- right. rewrite filter_app, map_app. apply in_or_app; right. cbn [filter isCV el_step map el_node]. left; reflexivity.
      * rewrite (upd_neq _ _ _ _ Hni) in Hn. destruct (li_vis _ _ H n Hn) as (Pn & Ha & Hp). split; [exact Pn|]. split.
        -- intros j Hj. destruct (Nat.eq_dec j i) as [->|Hji]; [left; apply upd_eq|]. rewrite upd_neq by exact Hji.
           destruct (Ha j Hj) as [Hv|Hv]; [left; exact Hv|right]. cbn [filter isAn el_step map el_node] in Hv.
           destruct Hv as [->|Hv]; [congruence|]. rewrite filter_app, map_app. apply in_or_app; right. exact Hv.
        -- destruct Hp as [Hp|Hp]; [left; exact Hp|right]. cbn [filter isCV el_step] in Hp.
           rewrite filter_app, map_app. apply in_or_app; right. cbn [filter isCV el_step map el_node]. right; exact Hp.
    + apply Forall_app. split; [|constructor; [exact Pi|exact Hs]].
      apply Forall_rev, Forall_forall. intros e He. apply in_map_iff in He. destruct He as (j & <- & Hj).
      apply filter_In in Hj. eapply P_args; [exact Pi|apply Hj].
    + apply (li_le _ _ H).
  - intros p i rest s H. pose proof (li_stack _ _ H) as Hs. apply Forall_cons_iff in Hs. destruct Hs as [Pi Hs]. cbn [el_node] in Pi.
    unfold luPost. destruct (luArgs_spec (ord i) (nargs g i) s) as (H1 & H2 & H3 & H4 & H5). cbv zeta in *.
    set (s' := fold_left (luArg g fuell (ord i)) (nargs g i) s) in *.
    constructor.
    + intros n Hn. rewrite H1 in Hn. destruct (li_vis _ _ H n Hn) as (Pn & Ha & Hp). split; [exact Pn|]. rewrite H1. split.
      * intros j Hj. destruct (Ha j Hj) as [Hv|Hv]; [left; exact Hv|right; exact Hv].
      * destruct (Nat.eq_dec n i) as [->|Hni]; [left; split; [intros j aa; apply H4|apply H5]|].
        destruct Hp as [Hp|Hp].
        -- left. destruct Hp as [Hp Hq]. split.
           ++ intros j aa Hj Hf. eapply Nat.le_trans; [eapply Hp; eassumption|apply H2].
           ++ intros Hk. apply Hq, H5, Hk.
        -- cbn [filter isCV el_step map el_node] in Hp. destruct Hp as [->|Hp]; [congruence|right; exact Hp].
    + exact Hs.
    + intros v. specialize (H3 v). pose proof (li_le _ _ H v). pose proof (ord_le i). lia.
  - intros p i rest s H. destruct H. constructor; auto.
    + apply Forall_cons_iff in li_stack0. apply li_stack0.
Qed.

Lemma last_vis_mono fuel stack st st' k : dfs (luPre g) (luPost g fuell ord) fuel stack st = Done st' ->
  l_vis st k = true \/ In k (map el_node (filter isAn stack)) -> l_vis st' k = true.
Proof.
  intros E H. enough (K : l_vis st' k = true \/ In k (map el_node (filter isAn []))) by (destruct K as [K|[]]; exact K).
  revert E H. apply (dfs_inv (luPre g) (luPost g fuell ord) (fun stack st => l_vis st k = true \/ In k (map el_node (filter isAn stack)))).
  - intros p i rest s s' pushed c H E. unfold luPre in E. injection E as <- <- <-. cbn [l_vis].
    destruct (Nat.eq_dec k i) as [->|Hn]; [left; apply upd_eq|]. rewrite upd_neq by exact Hn.
    destruct H as [H|H]; [left; exact H|right]. cbn [filter isAn el_step map el_node] in H. destruct H as [->|H]; [congruence|].
    rewrite filter_app, map_app. apply in_or_app; right. exact H.
  - intros p i rest s H. unfold luPost. destruct (luArgs_spec (ord i) (nargs g i) s) as (H1 & _). cbv zeta in *.
    rewrite H1. exact H.
  - intros p i rest s H. exact H.
Qed.

Variable lu : lust.
Hypothesis Hlu : ofold (lastUsageForDep g fuell ord) (anodes deps) (mkLu (fun _ => false) (fun _ => 0) true) = Done lu.

Lemma last_all : LI [] lu /\ forall i, In (ANode i) deps -> l_vis lu i = true.
Proof.
  assert (H : (fun D s => LI [] s /\ forall i, In i D -> l_vis s i = true) ([] ++ anodes deps) lu).
  { eapply (ofold_inv (lastUsageForDep g fuell ord) (fun D s => LI [] s /\ forall i, In i D -> l_vis s i = true)); [|split|exact Hlu].
    - intros i D a a' Hi (HI & HD) E. apply anodes_in in Hi. unfold lastUsageForDep in E.
      apply obind_done in E. destruct E as (s & E & E2). injection E2 as <-.
      assert (K : LI [] s /\ l_vis s i = true /\ forall k, l_vis a k = true -> l_vis s k = true).
      { destruct (l_vis a i) eqn:Ei; [injection E as <-; auto|]. split; [|split].
        - eapply last_inv; [exact E|]. destruct HI. constructor.
          + intros n Hn. destruct (li_vis0 n Hn) as (h1 & h2 & h3). split; [exact h1|]. split.
            * intros j Hj. destruct (h2 j Hj) as [h|[]]. left; exact h.
            * destruct h3 as [h|[]]. left; exact h.
          + constructor; [apply reach_dep, Hi|constructor].
          + exact li_le0.
        - eapply last_vis_mono; [exact E|]. right. left. reflexivity.
        - intros k Hk. eapply last_vis_mono; [exact E|]. left; exact Hk. }
      destruct K as (K1 & K2 & K3).
      assert (Hu : forall k, upd (l_vis s) i true k = l_vis s k).
      { intros k. destruct (Nat.eq_dec k i) as [->|Hn]; [rewrite upd_eq; congruence|apply upd_neq, Hn]. }
      split.
      + destruct K1. constructor; cbn [l_vis l_last]; auto.
        intros n Hn. rewrite Hu in Hn. destruct (li_vis0 n Hn) as (h1 & h2 & h3). split; [exact h1|]. split; [|exact h3].
        intros j Hj. rewrite Hu. apply h2, Hj.
      + cbn [l_vis]. intros k Hk. rewrite Hu. apply in_app_or in Hk. destruct Hk as [Hk|[<-|[]]]; auto.
    - constructor; cbn [l_vis l_last]; [discriminate|constructor|intros; apply Nat.le_0_l].
    - intros i []. }
  destruct H as [H1 H2]. split; [exact H1|]. intros i Hi. apply H2. cbn [app]. apply anodes_in, Hi.
Qed.

Lemma last_vis n : P n -> l_vis lu n = true.
Proof.
  destruct last_all as [H HD]. induction 1 as [i Hi|i j Hi IH He]; [apply HD, Hi|].
  apply nargs_edge in He. destruct (li_vis _ _ H i IH) as (_ & Ha & _). destruct (Ha j He) as [|[]]; assumption.
Qed.

Lemma last_posted n : P n -> posted lu n.
Proof.
  intros Pn. destruct last_all as [H _]. destruct (li_vis _ _ H n (last_vis n Pn)) as (_ & _ & [|[]]). assumption.
Qed.

Lemma last_le v : l_last lu v <= length vo.
Proof. destruct last_all as [H _]. apply (li_le _ _ H). Qed.

Hypothesis Hok : l_ok lu = true.

Lemma chain_done n j : P n -> In j (nargs g n) -> exists aa, fromAlias g fuell j = Done (Some aa).
Proof.
  intros Pn Hj. destruct (proj2 (last_posted n Pn) Hok j Hj) as [r Hr].
  pose proof (P_args _ _ Pn Hj) as Pj. clear - HG Hr Pj. revert j r Hr Pj. induction fuell as [|f IH]; intros j r E Pj; [discriminate|].
  cbn [fromAlias] in *. destruct (isAlias g j) eqn:Ea; [|eauto].
  destruct (P_alias g indeps deps HG j Pj Ea) as (k & E1 & E2). rewrite E1 in *.
  eapply IH; [exact E|]. eapply P_args; [exact Pj|]. rewrite E2. left; reflexivity.
Qed.

(** a variable is not released before a statement which reads it *)
Lemma last_read q t : In q vo -> rd q t -> ord q <= l_last lu t.
Proof.
  intros Hq Hr. destruct (rd_chain q t Hq Hr) as (m & j & Pm & <- & Hj & Hc).
  destruct (chain_done m j Pm Hj) as [aa Ea].
  assert (Ht : isAlias g t = false).
  { destruct (isAlias g t) eqn:Et; [|reflexivity]. exfalso.
    destruct Hr as (n & Hn & Htn & Hv). apply Hv, (cr_alias _ _ _ _ _ _ CR); auto.
    eapply P_args; [|exact Htn]. eapply inl_P; [|exact Hn]. apply (cr_q _ _ _ _ _ _ CR), Hq. }
  pose proof (fromAlias_chain _ _ _ _ (P_args _ _ Pm Hj) Ea Hc Ht) as [= ->].
  eapply last_posted; eassumption.
Qed.

(** every temporary variable is read after it is assigned *)
Lemma last_gt t : In t vo -> n0 <= vid t -> ord t < l_last lu t.
Proof.
  intros Ht Hn. destruct (cr_q _ _ _ _ _ _ CR t Ht) as (Pt & Hi & Ha & Hv).
  inversion Pt as [i Hd|i j Pi He]; subst.
  - exfalso. pose proof (idf_dep _ _ _ _ (ids0 g indeps deps HG vid0 n0 Hids) t Hd) as H0.
    rewrite (cr_vid0 _ _ _ _ _ _ CR t H0) in Hn. pose proof (idf_lt _ _ _ _ (ids0 g indeps deps HG vid0 n0 Hids) t). lia.
  - apply nargs_edge in He. pose proof (ord_lt i t Pi He Ht).
    destruct (chain_done i t Pi He) as [aa Ea]. pose proof (fromAlias_chain _ _ _ _ Pt Ea (chain_refl g t) Ha) as [= ->].
    pose proof (proj1 (last_posted i Pi) t t He Ea). lia.
Qed.
End Order.

(** ** Termination *)
Section OrderTerm.
Context {B : Type} {O : BaseOps B}.
Variable g : heap B.
Variable indeps : list nat.
Variable deps : list (arg B).
Hypothesis HG : gen_input g indeps deps.
Variable c : nat -> nat.
Hypothesis Hc : forall i, 3 + isum c (nargs g i) <= c i.
Notation P := (reach g deps).

Lemma dependentAdded_total fuel q ord : c q <= fuel -> exists ord', dependentAdded g fuel q ord = Done ord'.
Proof.
  intros Hf. unfold dependentAdded. apply (sdfs_terminates g c Hc).
  - intros p i st. unfold depAddedAn. destruct (Nat.eqb (st i) 0); cbn [snd].
    + rewrite spushArgs_nodes. apply le_n.
    + apply Nat.le_0_l.
  - rewrite spushArgs_nodes. specialize (Hc q). lia.
Qed.

Lemma setOrders_total fuel : forall vo p ord, (forall q, In q vo -> c q <= fuel) -> exists ord', setOrders g fuel vo p ord = Done ord'.
Proof.
  induction vo as [|q vo IH]; intros p ord H; [eexists; reflexivity|]. cbn [setOrders].
  destruct (dependentAdded_total fuel q (upd ord q (S p)) (H q (or_introl eq_refl))) as [o1 ->]. cbn [obind].
  apply IH. intros; apply H; right; assumption.
Qed.

Lemma findLast_pushed ord d i l : forall m acc,
  isum c (map snd (snd (fold_left (fun acc j => let (m, st) := acc : nat * list (option nat * nat) in
     if Nat.eqb (ord j) d then (m, (Some i, j) :: st) else ((if Nat.ltb m (ord j) then ord j else m), st)) l (m, acc))))
  <= isum c l + isum c (map snd acc).
Proof.
  induction l as [|a l IH]; intros m acc; cbn [fold_left]; [cbn [snd]; lia|].
  destruct (Nat.eqb (ord a) d); (eapply Nat.le_trans; [apply IH|]); cbn [map snd]; rewrite !isum_cons; lia.
Qed.

Lemma findLast_total fuel ord root : c root < fuel -> exists m, findLastTemporaryLocation g fuel ord root = Done m.
Proof.
  intros Hf. unfold findLastTemporaryLocation. apply (sdfs_terminates g c Hc).
  - intros p i st. unfold findLastAn. eapply Nat.le_trans; [apply findLast_pushed|]. cbn. lia.
  - cbn [map snd]. rewrite isum_cons. change (isum c []) with 0. lia.
Qed.

Lemma last_dfs_total fuell ord fuel i st : P i -> c i < fuel ->
  exists st', dfs (luPre g) (luPost g fuell ord) fuel [mkEl None i Analyze] st = Done st'.
Proof.
  intros Pi Hf. apply (dfs_terminates g c Hc (luPre g) (luPost g fuell ord) P).
  - intros a b. apply reach_arg.
  - intros p k s Pk. unfold luPre. do 3 eexists. split; [reflexivity|]. split.
    + rewrite <- map_rev, scost_analyze, isum_rev. apply isum_filter.
    + apply Forall_rev, Forall_forall. intros e He. apply in_map_iff in He. destruct He as (j & <- & Hj).
      apply filter_In in Hj. cbn [el_node]. eapply P_arg; [exact Pk|apply Hj].
  - constructor; [exact Pi|constructor].
  - unfold scost, ecost. cbn. lia.
Qed.

Lemma fromAlias_total fuel j : P j -> c j < fuel -> exists r, fromAlias g fuel j = Done r.
Proof.
  revert j. induction fuel as [|f IH]; intros j Pj Hf; [lia|]. cbn [fromAlias].
  destruct (isAlias g j) eqn:Ea; [|eauto]. destruct (P_alias g indeps deps HG j Pj Ea) as (k & E1 & E2). rewrite E1.
  assert (In k (nargs g j)) by (rewrite E2; left; reflexivity).
  apply IH; [eapply P_arg; eassumption|]. specialize (Hc j). pose proof (isum_in c _ _ H). lia.
Qed.

Lemma luArgs_ok fuell o l : forall st, (forall j, In j l -> exists r, fromAlias g fuell j = Done r) -> l_ok st = true ->
  l_ok (fold_left (luArg g fuell o) l st) = true.
Proof.
  induction l as [|a l IH]; intros st H Hk; [exact Hk|]. cbn [fold_left]. apply IH; [intros; apply H; right; assumption|].
  destruct (H a (or_introl eq_refl)) as [r Hr]. unfold luArg. rewrite Hr. destruct r; [|exact Hk].
  destruct (Nat.ltb (l_last st n) o); exact Hk.
Qed.

Lemma last_dfs_ok fuell ord fuel stack st st' : (forall j, P j -> exists r, fromAlias g fuell j = Done r) ->
  dfs (luPre g) (luPost g fuell ord) fuel stack st = Done st' ->
  Forall (fun e => P (el_node e)) stack -> l_ok st = true -> l_ok st' = true.
Proof.
  intros Hf E Hs Hk.
  refine (proj1 (dfs_inv (luPre g) (luPost g fuell ord) (fun stack st => l_ok st = true /\ Forall (fun e => P (el_node e)) stack)
            _ _ _ _ _ _ _ E (conj Hk Hs))); clear - Hf.
  - intros p i rest s s' pushed c0 [Hk Hs] E. unfold luPre in E. injection E as <- <- <-. split; [exact Hk|].
    apply Forall_cons_iff in Hs. destruct Hs as [Pi Hs]. apply Forall_app. split; [|constructor; assumption].
    apply Forall_rev, Forall_forall. intros e He. apply in_map_iff in He. destruct He as (j & <- & Hj).
    apply filter_In in Hj. cbn [el_node] in *. eapply P_arg; [exact Pi|apply Hj].
  - intros p i rest s [Hk Hs]. apply Forall_cons_iff in Hs. destruct Hs as [Pi Hs]. split; [|exact Hs].
    unfold luPost. apply luArgs_ok; [|exact Hk]. intros j Hj. apply Hf. eapply P_arg; eassumption.
  - intros p i rest s [Hk Hs]. apply Forall_cons_iff in Hs. destruct Hs as [Pi Hs]. auto.
Qed.

Lemma last_total fuel ord : (forall i, P i -> c i < fuel) ->
  exists lu, ofold (lastUsageForDep g fuel ord) (anodes deps) (mkLu (fun _ => false) (fun _ => 0) true) = Done lu /\ l_ok lu = true.
Proof.
  intros Hf.
  assert (HP : forall i, In i (anodes deps) -> P i) by (intros i Hi; apply reach_dep, anodes_in, Hi).
  assert (Hfa : forall j, P j -> exists r, fromAlias g fuel j = Done r) by (intros; apply fromAlias_total; auto).
  destruct (ofold_total (lastUsageForDep g fuel ord) (anodes deps)) with (a := mkLu (fun _ => false) (fun _ => 0) true) as [lu Hlu].
  { intros i a Hi. unfold lastUsageForDep. destruct (l_vis a i); [eexists; reflexivity|].
    destruct (last_dfs_total fuel ord fuel i a (HP i Hi) (Hf i (HP i Hi))) as [s ->]. eexists; reflexivity. }
  exists lu. split; [exact Hlu|].
  refine (ofold_inv (lastUsageForDep g fuel ord) (fun _ s => l_ok s = true) _ _ [] _ _ (eq_refl : l_ok (mkLu _ _ true) = true) Hlu).
  intros i D a a' Hi Hk E. unfold lastUsageForDep in E. apply obind_done in E. destruct E as (s & E & [= <-]). cbn [l_ok].
  destruct (l_vis a i); [injection E as <-; exact Hk|]. eapply last_dfs_ok; try eassumption.
  constructor; [apply HP, Hi|constructor].
Qed.
End OrderTerm.

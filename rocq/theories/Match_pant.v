(** * A pass of Pantelides' method *)
From Coq Require Import List Arith Bool Lia.
From Verif Require Import Match_model Match_spec Match_proofs Match_struct Match_thm.
Import ListNotations.

(** ** pantelides.hpp 144-151 *)
Definition dvstep (g : graph) (j : nat) : graph :=
  if v_col (gv g j) && negb (v_del (gv g j)) then fst (create_v g j) else g.

Lemma dv_ok : forall l g, St g -> (forall v, In v l -> v < nv g) ->
  let g' := fold_left dvstep l g in
  St g' /\ ne g' = ne g /\ ge g' = ge g /\ nv g <= nv g' /\
  (forall v, v < nv g -> v_del (gv g' v) = v_del (gv g v) /\ v_asg (gv g' v) = v_asg (gv g v) /\
     v_anti (gv g' v) = v_anti (gv g v) /\ v_col (gv g' v) = v_col (gv g v)) /\
  (forall v, v < nv g -> v_der (gv g' v) = v_der (gv g v) \/
     (v_der (gv g v) = None /\ v_col (gv g v) = true /\
      exists w, nv g <= w /\ w < nv g' /\ v_der (gv g' v) = Some w)) /\
  (forall v, In v l -> v_col (gv g v) = true -> v_del (gv g v) = false -> v_der (gv g' v) <> None) /\
  (forall w, nv g <= w -> w < nv g' -> v_del (gv g' w) = false /\ v_asg (gv g' w) = None /\
     v_der (gv g' w) = None /\ v_col (gv g' w) = false).
Proof.
  induction l as [|a l IH]; intros g HS Hl; cbv zeta; cbn [fold_left].
  - split; [exact HS|]. repeat split; auto; try lia. all: intros v [].
  - assert (La : a < nv g) by (apply Hl; left; reflexivity).
    assert (Step : dvstep g a = g /\ (v_col (gv g a) = true -> v_del (gv g a) = false -> v_der (gv g a) <> None) \/
                   (v_der (gv g a) = None /\ v_col (gv g a) = true /\ dvstep g a = fst (create_v g a))).
    { unfold dvstep. destruct (v_col (gv g a)) eqn:Ca; cbn [andb]; [|left; split; [reflexivity|congruence]].
      destruct (v_del (gv g a)) eqn:Da; cbn [negb]; [left; split; [reflexivity|congruence]|].
      destruct (v_der (gv g a)) as [w|] eqn:W.
      - left. unfold create_v. rewrite W. split; [reflexivity|]. congruence.
      - right. auto. }
    destruct Step as [[-> HN]|(HD & HC & ->)].
    + destruct (IH g HS) as (A1 & A2 & A3 & A4 & A5 & A6 & A7 & A8); [intros; apply Hl; right; assumption|].
      split; [exact A1|]. split; [exact A2|]. split; [exact A3|]. split; [exact A4|]. split; [exact A5|].
      split; [exact A6|]. split; [|exact A8].
      intros v [<-|I] Hc Hd; [|apply A7; assumption].
      specialize (HN Hc Hd). destruct (A6 a La) as [-> |(B & _)]; [exact HN|congruence].
    + destruct (create_v_ok g a HS La HD) as (B1 & B2 & B3 & B4 & B5 & B6 & B7 & B8).
      set (g1 := fst (create_v g a)) in *.
      destruct (IH g1 B1) as (A1 & A2 & A3 & A4 & A5 & A6 & A7 & A8).
      { intros v I. rewrite B2. assert (v < nv g) by (apply Hl; right; exact I). lia. }
      set (g' := fold_left dvstep l g1) in *.
      split; [exact A1|]. split; [congruence|]. split; [congruence|]. split; [lia|].
      assert (Old : forall v, v < nv g -> v_del (gv g' v) = v_del (gv g v) /\ v_asg (gv g' v) = v_asg (gv g v) /\
     v_anti (gv g' v) = v_anti (gv g v) /\ v_col (gv g' v) = v_col (gv g v)).
      { intros v L. destruct (A5 v) as (? & ? & ? & ?); [lia|]. destruct (B7 v L) as (? & ? & ? & ? & ? & ?).
        repeat split; congruence. }
      split; [exact Old|]. split; [|split].
      * intros v L. destruct (Nat.eq_dec v a) as [->|N].
        -- right. split; [exact HD|]. split; [exact HC|].
           destruct (A6 a) as [Q|(Q & _)]; [lia| |congruence].
           exists (nv g). split; [lia|]. split; [lia|]. congruence.
        -- destruct (B7 v L) as (_ & _ & _ & _ & Bc & Q). specialize (Q N).
           destruct (A6 v) as [Q'|(Q' & Qc & w & W1 & W2 & W3)]; [lia|left; congruence|].
           right. split; [congruence|]. split; [congruence|]. exists w. split; [lia|]. auto.
      * intros v [<-|I] Hc Hd.
        -- destruct (A6 a) as [Q|(Q & _)]; [lia| |congruence]. congruence.
        -- assert (L : v < nv g) by (apply Hl; right; exact I).
           destruct (B7 v L) as (Q1 & _ & _ & _ & Q2 & _). apply A7; [exact I|congruence|congruence].
      * intros w L1 L2. destruct (Nat.eq_dec w (nv g)) as [->|N].
        -- destruct (A5 (nv g)) as (Q1 & Q2 & _ & Q4); [lia|]. rewrite Q1, Q2, Q4, B6.
           split; [reflexivity|]. split; [reflexivity|]. split; [|reflexivity].
           destruct (A6 (nv g)) as [Q|(_ & Q & _)]; [lia| |].
           ++ rewrite Q, B6. reflexivity.
           ++ rewrite B6 in Q. discriminate.
        -- apply A8; lia.
Qed.

(** ** pantelides.hpp 153-160 *)
Definition destep (g : graph) (i : nat) : graph :=
  if e_col (ge g i) then create_e true g i else g.

Lemma de_ok : forall l g, St g ->
  (forall e, In e l -> e < ne g /\
     (e_col (ge g e) = true -> forall v, In v (e_orig (ge g e)) -> v_der (gv g v) <> None)) ->
  let g' := fold_left destep l g in
  St g' /\ nv g' = nv g /\ ne g <= ne g' /\
  (forall v, v_del (gv g' v) = v_del (gv g v) /\ v_asg (gv g' v) = v_asg (gv g v) /\
     v_der (gv g' v) = v_der (gv g v) /\ v_anti (gv g' v) = v_anti (gv g v) /\ v_col (gv g' v) = v_col (gv g v)) /\
  (forall e, e < ne g -> e_orig (ge g' e) = e_orig (ge g e) /\ e_of (ge g' e) = e_of (ge g e) /\
     e_asg (ge g' e) = e_asg (ge g e) /\ e_col (ge g' e) = e_col (ge g e)) /\
  (forall e, e < ne g -> e_der (ge g' e) = e_der (ge g e) \/
     (e_der (ge g e) = None /\ e_col (ge g e) = true /\
      exists d, ne g <= d /\ d < ne g' /\ e_der (ge g' e) = Some d /\
        (forall x, In x (e_orig (ge g' d)) <-> In x (e_orig (ge g e)) \/
           exists v, In v (e_orig (ge g e)) /\ v_der (gv g v) = Some x))) /\
  (forall e, In e l -> e_col (ge g e) = true -> e_der (ge g' e) <> None) /\
  (forall d, ne g <= d -> d < ne g' -> e_asg (ge g' d) = None /\ e_der (ge g' d) = None /\ e_col (ge g' d) = false /\
     exists e0, e0 < ne g /\ e_col (ge g e0) = true /\ e_der (ge g' e0) = Some d).
Proof.
  induction l as [|a l IH]; intros g HS Hl; cbv zeta; cbn [fold_left].
  - split; [exact HS|]. repeat split; auto; try lia. all: intros v [].
  - destruct (Hl a) as [La Ha]; [left; reflexivity|].
    assert (Step : destep g a = g /\ (e_col (ge g a) = true -> e_der (ge g a) <> None) \/
                   (e_der (ge g a) = None /\ e_col (ge g a) = true /\ destep g a = create_e true g a)).
    { unfold destep. destruct (e_col (ge g a)) eqn:Ca; [|left; split; [reflexivity|congruence]].
      destruct (e_der (ge g a)) as [w|] eqn:W.
      - left. unfold create_e. rewrite W. split; [reflexivity|]. congruence.
      - right. auto. }
    destruct Step as [[-> HN]|(HD & HC & ->)].
    + destruct (IH g HS) as (A1 & A2 & A3 & A4 & A5 & A6 & A7 & A8); [intros; apply Hl; right; assumption|].
      split; [exact A1|]. split; [exact A2|]. split; [exact A3|]. split; [exact A4|]. split; [exact A5|].
      split; [exact A6|]. split; [|exact A8].
      intros v [<-|I] Hc; [|apply A7; assumption].
      specialize (HN Hc). destruct (A6 a La) as [-> |(B & _)]; [exact HN|congruence].
    + destruct (create_e_ok g a HS La HD (Ha HC)) as (B1 & B2 & B3 & B4 & B5 & B6 & B7 & B8).
      set (g1 := create_e true g a) in *. set (d0 := ne g) in *.
      assert (Old1 : forall e, e < ne g -> e_orig (ge g1 e) = e_orig (ge g e) /\ e_of (ge g1 e) = e_of (ge g e) /\
     e_asg (ge g1 e) = e_asg (ge g e) /\ e_col (ge g1 e) = e_col (ge g e)).
      { intros e L. destruct (Nat.eq_dec e a) as [->|N].
        - destruct B6 as (? & ? & ? & ? & ?). auto.
        - rewrite B5; [auto|unfold d0; lia|exact N]. }
      destruct (IH g1 B1) as (A1 & A2 & A3 & A4 & A5 & A6 & A7 & A8).
      { intros e I. destruct (Hl e) as [L H]; [right; exact I|]. rewrite B3. split; [unfold d0; lia|].
        destruct (Old1 e L) as (-> & _ & _ & ->). intros Hc v Iv. destruct (B4 v) as (_ & _ & -> & _). auto. }
      set (g' := fold_left destep l g1) in *.
      assert (Hd0 : d0 < ne g1) by lia.
      split; [exact A1|]. split; [congruence|]. split; [unfold d0 in *; lia|].
      assert (Vs : forall v, v_del (gv g' v) = v_del (gv g v) /\ v_asg (gv g' v) = v_asg (gv g v) /\
     v_der (gv g' v) = v_der (gv g v) /\ v_anti (gv g' v) = v_anti (gv g v) /\ v_col (gv g' v) = v_col (gv g v)).
      { intros v. destruct (A4 v) as (? & ? & ? & ? & ?), (B4 v) as (? & ? & ? & ? & ?). repeat split; congruence. }
      split; [exact Vs|]. split; [|split; [|split]].
      * intros e L. destruct (A5 e) as (? & ? & ? & ?); [unfold d0 in *; lia|]. destruct (Old1 e L) as (? & ? & ? & ?).
        repeat split; congruence.
      * intros e L. destruct (Nat.eq_dec e a) as [->|N].
        -- right. split; [exact HD|]. split; [exact HC|]. exists d0.
           split; [unfold d0; lia|]. split; [lia|]. destruct B6 as (_ & Q & _).
           destruct (A6 a) as [Q'|(Q' & _)]; [unfold d0 in *; lia| |congruence].
           split; [congruence|]. intros x. destruct (A5 d0) as (-> & _); [exact Hd0|]. apply B8.
        -- assert (Q : ge g1 e = ge g e) by (apply B5; [unfold d0; lia|exact N]).
           destruct (A6 e) as [Q'|(Q1 & Q2 & d & D1 & D2 & D3 & D4)]; [unfold d0 in *; lia|left; congruence|].
           right. rewrite Q in Q1, Q2, D4. split; [exact Q1|]. split; [exact Q2|]. exists d.
           split; [unfold d0 in *; lia|]. split; [exact D2|]. split; [exact D3|].
           intros x. rewrite D4. split; (intros [I|(v & I & D)]; [left; exact I|right; exists v; split; [exact I|]]).
           ++ destruct (B4 v) as (_ & _ & <- & _). exact D.
           ++ destruct (B4 v) as (_ & _ & -> & _). exact D.
      * intros e [<-|I] Hc.
        -- destruct B6 as (_ & Q & _). destruct (A6 a) as [Q'|(Q' & _)]; [unfold d0 in *; lia| |]; congruence.
        -- destruct (Hl e) as [L _]; [right; exact I|]. destruct (Old1 e L) as (_ & _ & _ & Q).
           apply A7; [exact I|congruence].
      * intros d L1 L2. destruct (Nat.eq_dec d d0) as [->|N].
        -- destruct (A5 d0) as (_ & _ & Q1 & Q2); [exact Hd0|]. destruct B7 as (Q3 & Q4 & Q5).
           rewrite Q1, Q2. split; [exact Q4|]. split; [|split; [exact Q5|]].
           ++ destruct (A6 d0) as [Q|(_ & Q & _)]; [exact Hd0| |]; congruence.
           ++ exists a. split; [exact La|]. split; [exact HC|]. destruct B6 as (_ & Q & _).
              destruct (A6 a) as [Q'|(Q' & _)]; [unfold d0 in *; lia| |]; congruence.
        -- destruct (A8 d) as (Q1 & Q2 & Q3 & e0 & E1 & E2 & E3); [unfold d0 in *; lia|exact L2|].
           split; [exact Q1|]. split; [exact Q2|]. split; [exact Q3|].
           assert (Le : e0 < ne g).
           { destruct (lt_dec e0 (ne g)) as [L|L]; [exact L|]. exfalso. assert (e0 = d0) by (unfold d0 in *; lia). subst e0.
             destruct B7 as (_ & _ & Q5). congruence. }
           exists e0. split; [exact Le|]. split; [|exact E3]. destruct (Old1 e0 Le) as (_ & _ & _ & Q). congruence.
Qed.

(** ** pantelides.hpp 177-182 *)
Definition adstep (og : option graph) (j : nat) : option graph :=
  match og with
  | None => None
  | Some g =>
      if v_col (gv g j) && negb (v_del (gv g j)) then
        match v_der (gv g j), v_asg (gv g j) with
        | Some dj, Some k =>
            match e_der (ge g k) with
            | Some dk => Some (set_assign g dj dk)
            | None => None
            end
        | _, _ => None
        end
      else Some g
  end.

Definition moves (g : graph) (v w d : nat) : Prop :=
  v_col (gv g v) = true /\ v_del (gv g v) = false /\ v_der (gv g v) = Some w /\
  exists e, v_asg (gv g v) = Some e /\ e_der (ge g e) = Some d.

Lemma Same_fields g g' : Same g g' -> forall v e,
  v_der (gv g' v) = v_der (gv g v) /\ v_del (gv g' v) = v_del (gv g v) /\ e_der (ge g' e) = e_der (ge g e).
Proof. intros (_ & _ & A & B) v e. destruct (A v) as (? & ? & ? & ?), (B e) as (? & ? & ? & ?). auto. Qed.

Lemma St_same g g' : Same g g' -> St g -> St g'.
Proof.
  intros (N1 & N2 & A & B) HS. constructor.
  - intros e v. destruct (B e) as (-> & _). rewrite N1, N2. apply (s_or g HS).
  - intros e. destruct (B e) as (-> & -> & _). apply (s_nd g HS).
  - intros e v. destruct (B e) as (-> & -> & _). destruct (A v) as (-> & _). apply (s_var g HS).
  - intros e v. destruct (B e) as (_ & -> & _). destruct (A v) as (_ & -> & _). apply (s_eqs g HS).
  - intros v w. destruct (A v) as (_ & _ & -> & _). destruct (A w) as (_ & _ & _ & ->). apply (s_der g HS).
  - intros v w. destruct (A v) as (_ & _ & -> & _). rewrite N1. apply (s_lt g HS).
  - intros e e'. destruct (B e) as (_ & _ & -> & _). destruct (B e') as (_ & _ & _ & ->). rewrite N2. apply (s_ede g HS).
  - intros v. destruct (A v) as (-> & _ & -> & _). apply (s_del g HS).
Qed.

Lemma ad_ok g0 : St g0 -> Mt g0 ->
  (forall v, v_col (gv g0 v) = true -> v_del (gv g0 v) = false ->
     exists w e d, v_der (gv g0 v) = Some w /\ v_asg (gv g0 v) = Some e /\ e_der (ge g0 e) = Some d /\
       v_asg (gv g0 w) = None /\ e_asg (ge g0 d) = None /\ v_col (gv g0 w) = false) ->
  (forall e e' d, e_der (ge g0 e) = Some d -> e_der (ge g0 e') = Some d -> e = e') ->
  forall l, NoDup l -> exists g', fold_left adstep l (Some g0) = Some g' /\
    Same g0 g' /\ Mt g' /\
    (forall v, v_col (gv g' v) = v_col (gv g0 v)) /\
    (forall w d, asgV g' w = Some d <-> asgV g0 w = Some d \/ exists v, In v l /\ moves g0 v w d).
Proof.
  intros HS M0 HV Hinj l. induction l as [|a l IH] using rev_ind; intros Nd.
  - exists g0. split; [reflexivity|]. split; [apply Same_refl|]. split; [exact M0|]. split; [reflexivity|].
    intros w d. split; [auto|]. intros [H|(v & [] & _)]. exact H.
  - assert (Nl : NoDup l).
    { apply NoDup_remove_1 in Nd. rewrite app_nil_r in Nd. exact Nd. }
    assert (Na : ~ In a l).
    { apply NoDup_remove_2 in Nd. rewrite app_nil_r in Nd. exact Nd. }
    destruct (IH Nl) as (g1 & E1 & S1 & M1 & C1 & A1). rewrite fold_left_app, E1. cbn [fold_left].
    unfold adstep.
    destruct (Same_fields g0 g1 S1 a 0) as (Fd & Fx & _).
    rewrite C1, Fx, Fd.
    destruct (v_col (gv g0 a)) eqn:Ca; cbn [andb].
    2: { exists g1. split; [reflexivity|]. split; [exact S1|]. split; [exact M1|]. split; [exact C1|].
         intros w d. rewrite A1. split; (intros [H|(v & I & H)]; [auto|right; exists v; split; [|exact H]]).
         - apply in_app_iff. auto.
         - apply in_app_iff in I. destruct I as [I|[<-|[]]]; [exact I|]. destruct H as (H & _). congruence. }
    destruct (v_del (gv g0 a)) eqn:Da; cbn [negb].
    { exists g1. split; [reflexivity|]. split; [exact S1|]. split; [exact M1|]. split; [exact C1|].
         intros w d. rewrite A1. split; (intros [H|(v & I & H)]; [auto|right; exists v; split; [|exact H]]).
         - apply in_app_iff. auto.
         - apply in_app_iff in I. destruct I as [I|[<-|[]]]; [exact I|]. destruct H as (_ & H & _). congruence. }
    destruct (HV a Ca Da) as (w & e & d & W1 & W2 & W3 & W4 & W5 & W6).
    rewrite W1.
    assert (Ha1 : asgV g1 a = Some e) by (apply A1; left; exact W2).
    unfold asgV in Ha1. rewrite Ha1.
    destruct (Same_fields g0 g1 S1 0 e) as (_ & _ & Fe). rewrite Fe, W3.
    (* both ends are free *)
    assert (Fw : asgV g1 w = None).
    { destruct (asgV g1 w) as [x|] eqn:X; [|reflexivity]. exfalso. apply A1 in X. destruct X as [X|(v & I & (_ & _ & Vw & _))].
      - unfold asgV in X. congruence.
      - apply (s_der g0 HS) in Vw. apply (s_der g0 HS) in W1. assert (v = a) by congruence. subst v. contradiction. }
    assert (Fde : asgE g1 d = None).
    { destruct (asgE g1 d) as [x|] eqn:X; [|reflexivity]. exfalso. apply M1 in X. apply A1 in X.
      destruct X as [X|(v & I & (_ & _ & _ & e' & Ae & De))].
      - apply M0 in X. unfold asgE in X. congruence.
      - assert (e' = e) by (eapply Hinj; eauto). subst e'.
        assert (v = a). { apply M0 in Ae. apply M0 in W2. congruence. }
        subst v. contradiction. }
    exists (set_assign g1 w d). split; [reflexivity|]. split; [eapply Same_trans; [exact S1|apply Same_assign]|].
    split; [|split].
    + intros v x. rewrite asgV_assign, asgE_assign.
      destruct (Nat.eqb_spec v w) as [->|Nv]; destruct (Nat.eqb_spec x d) as [->|Nx].
      * split; auto.
      * split; [congruence|]. intros H. apply M1 in H. congruence.
      * split; [intros H; apply M1 in H; congruence|congruence].
      * apply M1.
    + intros v. fold (colV (set_assign g1 w d) v). rewrite colV_assign. apply C1.
    + intros w' d'. rewrite asgV_assign. destruct (Nat.eqb_spec w' w) as [->|Nw].
      * split.
        -- intros H. injection H as <-. right. exists a. split; [apply in_app_iff; cbn [In]; auto|].
           split; [exact Ca|]. split; [exact Da|]. split; [exact W1|]. exists e. auto.
        -- intros [H|(v & I & (_ & _ & Vw & e' & Ae & De))].
           ++ unfold asgV in H. congruence.
           ++ apply (s_der g0 HS) in Vw. assert (W1' := W1). apply (s_der g0 HS) in W1'. assert (v = a) by congruence. subst v.
              congruence.
      * rewrite A1. split; (intros [H|(v & I & H)]; [auto|right; exists v; split; [|exact H]]).
        -- apply in_app_iff. auto.
        -- apply in_app_iff in I. destruct I as [I|[<-|[]]]; [exact I|].
           destruct H as (_ & _ & H & _). congruence.
Qed.

(** ** A failed pass as a whole *)

(** the state in which the augmentation is tried *)
Record Ready (g : graph) : Prop := {
  r_st : St g;
  r_mt : Mt g;
  r_rg : forall v e, asgV g v = Some e -> v < nv g /\ e < ne g;
  r_low : forall v, v_del (gv g v) = false -> v_der (gv g v) = None;
  r_in : forall v e, asgV g v = Some e -> In v (e_orig (ge g e));
  r_dd : forall v e, asgV g v = Some e -> (v_der (gv g v) = None <-> e_der (ge g e) = None);
  r_unc : uncoloured g }.

Record Diffed (g g' : graph) (i i' : nat) : Prop := {
  d_st : St g';
  d_nv : nv g <= nv g'; d_ne : ne g <= ne g';
  d_vold : forall v, v < nv g ->
     v_del (gv g' v) = v_del (gv g v) /\
     (v_col (gv g v) = false -> v_der (gv g' v) = v_der (gv g v)) /\
     (v_col (gv g v) = true -> v_der (gv g v) = None /\
        exists w, nv g <= w /\ w < nv g' /\ v_der (gv g' v) = Some w);
  d_vnew : forall w, nv g <= w -> w < nv g' -> v_del (gv g' w) = false /\ v_der (gv g' w) = None;
  d_eold : forall e, e < ne g ->
     e_orig (ge g' e) = e_orig (ge g e) /\
     (e_col (ge g e) = false -> e_der (ge g' e) = e_der (ge g e)) /\
     (e_col (ge g e) = true -> e_der (ge g e) = None /\
        exists d, ne g <= d /\ d < ne g' /\ e_der (ge g' e) = Some d /\
        (forall x, In x (e_orig (ge g' d)) <-> In x (e_orig (ge g e)) \/
           exists v, In v (e_orig (ge g e)) /\ v_der (gv g' v) = Some x));
  d_enew : forall d, ne g <= d -> d < ne g' -> e_der (ge g' d) = None /\
     exists e0, e0 < ne g /\ e_col (ge g e0) = true /\ e_der (ge g' e0) = Some d;
  d_mt : Mt g';
  d_asg : forall w d, asgV g' w = Some d <-> asgV g w = Some d \/
     exists v e, v_col (gv g v) = true /\ v_der (gv g' v) = Some w /\ asgV g v = Some e /\ e_der (ge g' e) = Some d;
  d_i : e_der (ge g' i) = Some i' }.

Lemma der_inj g : St g -> forall e e' d, e_der (ge g e) = Some d -> e_der (ge g e') = Some d -> e = e'.
Proof.
  intros HS e e' d A B. apply (s_ede g HS) in A. apply (s_ede g HS) in B.
  destruct A as (_ & _ & A), B as (_ & _ & B). congruence.
Qed.

Definition Coloured (g0 g : graph) (i : nat) : Prop :=
  Grow g0 g /\ colE g i = true /\
  (forall v, colV g v = true -> exists k, asgV g v = Some k /\ colE g k = true) /\
  (forall e, colE g e = true -> forall v, In v (varsE g e) -> colV g v = true) /\
  (forall v, colV g v = true -> exists e, colE g e = true /\ In v (varsE g e)) /\
  (forall e, colE g e = true -> e = i \/ exists v, asgV g v = Some e /\ colV g v = true).

Lemma fail_coloured g0 g i : uncoloured g0 -> Fail Depth (allowed Depth) g0 g i -> Coloured g0 g i.
Proof.
  intros [U1 U2] (F1 & F2 & F3 & F4 & F5 & F6).
  assert (F4' : forall e, colE g e = true -> forall v, In v (varsE g e) -> colV g v = true).
  { intros e Ce v Iv. apply (F4 eq_refl e Ce (U2 e) v Iv). exact I. }
  split; [exact F1|]. split; [exact F2|]. split; [|split; [exact F4'|split]].
  - apply F3. intros v H. unfold colV in H. rewrite U1 in H. discriminate.
  - intros v Cv. destruct (F5 v Cv (U1 v)) as (e & A & B & _). exists e. auto.
  - intros e Ce. destruct (F6 e Ce (U2 e)) as [->|(v & e' & A & B & D & _)]; [auto|].
    right. exists v. split; [exact A|]. apply (F4' e' B v D).
Qed.

Lemma failed_ok g0 g i : Ready g0 -> i < ne g0 -> e_asg (ge g0 i) = None -> e_der (ge g0 i) = None ->
  Coloured g0 g i ->
  match failed g i with
  | FNext g' i' => Diffed g g' i i'
  | FThrow _ => True
  | FNull => False
  end.
Proof.
  intros [R1 R2 R3 R4 R5 R6 R7] Hi Hai Hdi (F1 & F2 & F3 & F4 & F5 & F6).
  assert (SG : Same g0 g) by apply F1.
  assert (HS : St g) by (eapply St_same; eauto).
  assert (HM : Mt g) by (eapply Grow_Mt; eauto).
  assert (N1 : nv g = nv g0) by apply SG. assert (N2 : ne g = ne g0) by apply SG.
  assert (GA := proj1 (proj2 F1)). assert (GE := proj1 (proj2 (proj2 F1))).
  assert (Low : forall v, v_del (gv g v) = false -> v_der (gv g v) = None).
  { intros v. destruct (Same_fields g0 g SG v 0) as (-> & -> & _). apply R4. }
  assert (CV : forall v, colV g v = true -> v < nv g /\ v_del (gv g v) = false /\ v_der (gv g v) = None).
  { intros v Cv. destruct (F5 v Cv) as (e & _ & I). apply (s_var g HS) in I. destruct I as [I D].
    split; [apply (s_or g HS) in I; apply I|]. split; [exact D|]. apply Low. exact D. }
  assert (CE : forall e, colE g e = true -> e < ne g /\ e_der (ge g e) = None).
  { intros e Ce. destruct (F6 e Ce) as [->|(v & A & Cv)].
    - split; [lia|]. destruct (Same_fields g0 g SG 0 i) as (_ & _ & ->). exact Hdi.
    - rewrite GA in A. split; [rewrite N2; apply (R3 v e A)|].
      destruct (Same_fields g0 g SG 0 e) as (_ & _ & ->). apply (R6 v e A).
      destruct (CV v Cv) as (_ & _ & Q). destruct (Same_fields g0 g SG v 0) as (<- & _ & _). exact Q. }
  unfold failed.
  change (differentiate_vars g) with (fold_left dvstep (seq 0 (nv g)) g).
  destruct (dv_ok (seq 0 (nv g)) g HS) as (A1 & A2 & A3 & A4 & A5 & A6 & A7 & A8).
  { intros v I. apply in_seq in I. lia. }
  set (g1 := fold_left dvstep (seq 0 (nv g)) g) in *.
  change (differentiate_eqs g1) with (fold_left destep (seq 0 (ne g1)) g1).
  (* every variable of a coloured equation has a derivative *)
  assert (HDv : forall e, colE g e = true -> forall v, In v (e_orig (ge g e)) -> v_der (gv g1 v) <> None).
  { intros e Ce v I. assert (L : v < nv g) by (apply (s_or g HS) in I; apply I).
    destruct (v_del (gv g v)) eqn:D.
    - assert (Q := s_del g HS v D). destruct (A6 v L) as [->|(Q' & _)]; [exact Q|contradiction].
    - apply A7; [apply in_seq; lia| |exact D]. apply (F4 e Ce). apply (s_var g HS). auto. }
  destruct (de_ok (seq 0 (ne g1)) g1 A1) as (B1 & B2 & B3 & B4 & B5 & B6 & B7 & B8).
  { intros e I. apply in_seq in I. split; [lia|]. rewrite A3. intros Ce v Iv. exact (HDv e Ce v Iv). }
  set (g2 := fold_left destep (seq 0 (ne g1)) g1) in *.
  rewrite A2 in *.
  destruct (structural_check g2 (ne g)); [|exact I].
  (* facts about g2 relative to g *)
  assert (Vold : forall v, v < nv g -> v_del (gv g2 v) = v_del (gv g v) /\ v_asg (gv g2 v) = v_asg (gv g v) /\ v_col (gv g2 v) = v_col (gv g v)).
  { intros v L. destruct (B4 v) as (-> & -> & _ & _ & ->). destruct (A5 v L) as (-> & -> & _ & ->). auto. }
  assert (Vder : forall v, v_der (gv g2 v) = v_der (gv g1 v)) by (intros v; apply B4).
  assert (Vd : forall v, v < nv g ->
     (v_col (gv g v) = false -> v_der (gv g2 v) = v_der (gv g v)) /\
     (v_col (gv g v) = true -> v_der (gv g v) = None /\
        exists w, nv g <= w /\ w < nv g2 /\ v_der (gv g2 v) = Some w)).
  { intros v L. split; intros Hc.
    - rewrite Vder. destruct (A6 v L) as [->|(_ & Q & _)]; [reflexivity|congruence].
    - destruct (CV v Hc) as (_ & D & N). split; [exact N|].
      destruct (A6 v L) as [Q|(_ & _ & w & W1 & W2 & W3)].
      + exfalso. assert (Q' : v_der (gv g1 v) <> None) by (apply A7; [apply in_seq; lia|exact Hc|exact D]). congruence.
      + exists w. rewrite Vder, B2. auto. }
  assert (Vnew : forall w, nv g <= w -> v_asg (gv g2 w) = None /\ v_col (gv g2 w) = false).
  { intros w L. destruct (B4 w) as (_ & -> & _ & _ & ->).
    destruct (lt_dec w (nv g1)) as [L'|L'].
    - destruct (A8 w L L') as (_ & -> & _ & ->). auto.
    - assert (Q : gv g1 w = gv g w).
      { assert (H : forall l gg, (forall v, In v l -> v < nv gg) -> forall w, nv (fold_left dvstep l gg) <= w -> gv (fold_left dvstep l gg) w = gv gg w).
        { clear. induction l as [|a l IH]; intros gg Hl w L; cbn [fold_left] in *; [reflexivity|].
          assert (La : a < nv gg) by (apply Hl; left; reflexivity).
          assert (Mono : forall l gg, nv gg <= nv (fold_left dvstep l gg)).
          { clear. induction l as [|a l IH]; intros gg; cbn [fold_left]; [lia|].
            specialize (IH (dvstep gg a)). assert (nv gg <= nv (dvstep gg a)); [|lia].
            unfold dvstep, create_v. destruct (_ && _); [|lia]. destruct (v_der (gv gg a)); cbn [fst nv]; lia. }
          assert (M1 : nv gg <= nv (dvstep gg a)).
          { unfold dvstep, create_v. destruct (_ && _); [|lia]. destruct (v_der (gv gg a)); cbn [fst nv]; lia. }
          rewrite IH; [|intros v I; specialize (Hl v (or_intror I)); lia|exact L].
          specialize (Mono l (dvstep gg a)).
          unfold dvstep, create_v in *. destruct (_ && _); [|reflexivity].
          destruct (v_der (gv gg a)); cbn [fst nv gv] in *; [reflexivity|].
          cbn [updv gv nv]. destruct (Nat.eqb_spec w (nv gg)); [lia|]. destruct (Nat.eqb_spec w a); [lia|]. reflexivity. }
        apply H; [intros v I; apply in_seq in I; lia|]. fold g1. lia. }
      rewrite Q. split.
      + destruct (v_asg (gv g w)) as [k|] eqn:K; [|reflexivity]. fold (asgV g w) in K. rewrite GA in K. apply R3 in K. lia.
      + destruct (v_col (gv g w)) eqn:K; [|reflexivity]. apply CV in K. lia. }
  assert (Eold : forall e, e < ne g -> e_orig (ge g2 e) = e_orig (ge g e) /\ e_asg (ge g2 e) = e_asg (ge g e)).
  { intros e L. destruct (B5 e L) as (Q1 & _ & Q2 & _). rewrite A3 in *. auto. }
  assert (Ed : forall e, e < ne g ->
     (e_col (ge g e) = false -> e_der (ge g2 e) = e_der (ge g e)) /\
     (e_col (ge g e) = true -> e_der (ge g e) = None /\
        exists d, ne g <= d /\ d < ne g2 /\ e_der (ge g2 e) = Some d /\
        (forall x, In x (e_orig (ge g2 d)) <-> In x (e_orig (ge g e)) \/
           exists v, In v (e_orig (ge g e)) /\ v_der (gv g2 v) = Some x))).
  { intros e L. split; intros Hc.
    - destruct (B6 e L) as [Q|(_ & Q & _)]; rewrite A3 in Q; [exact Q|congruence].
    - destruct (CE e Hc) as (_ & N). split; [exact N|].
      destruct (B6 e L) as [Q|(_ & _ & d & D1 & D2 & D3 & D4)].
      + exfalso. assert (Q' : e_der (ge g2 e) <> None) by (apply B7; [apply in_seq; lia|rewrite A3; exact Hc]). rewrite A3 in Q. congruence.
      + exists d. split; [exact D1|]. split; [exact D2|]. split; [exact D3|].
        intros x. rewrite D4, A3. split; (intros [Ix|(v & Ix & D)]; [auto|right; exists v; split; [exact Ix|]]).
        * rewrite Vder. exact D.
        * rewrite <- Vder. exact D. }
  (* assignments are those of g *)
  assert (AV : forall v, asgV g2 v = asgV g v).
  { intros v. unfold asgV. destruct (lt_dec v (nv g)) as [L|L]; [apply Vold; exact L|].
    destruct (Vnew v) as [-> _]; [lia|]. symmetry. destruct (v_asg (gv g v)) as [k|] eqn:K; [|reflexivity].
    fold (asgV g v) in K. rewrite GA in K. apply R3 in K. lia. }
  assert (Enew : forall d, ne g <= d -> e_asg (ge g2 d) = None).
  { intros d L. destruct (lt_dec d (ne g2)) as [L'|L']; [apply B8; auto|].
    destruct (e_asg (ge g2 d)) as [x|] eqn:X; [|reflexivity]. exfalso.
    assert (Q : ge g2 d = ge g1 d).
    { assert (H : forall l gg, St gg -> (forall e, In e l -> e < ne gg /\ (e_col (ge gg e) = true -> forall v, In v (e_orig (ge gg e)) -> v_der (gv gg v) <> None)) ->
          forall d, ne (fold_left destep l gg) <= d -> ge (fold_left destep l gg) d = ge gg d).
      { clear. intros l. induction l as [|a l IH]; intros gg HS Hl d L; cbn [fold_left] in *; [reflexivity|].
        destruct (Hl a) as [La Ha]; [left; reflexivity|].
        unfold destep at 2. unfold destep at 2 in L.
        destruct (e_col (ge gg a)) eqn:Ca; [|apply IH; [exact HS|intros; apply Hl; right; assumption|exact L]].
        destruct (e_der (ge gg a)) as [w|] eqn:W.
        { unfold create_e in *. rewrite W in *. apply IH; [exact HS|intros; apply Hl; right; assumption|exact L]. }
        destruct (create_e_ok gg a HS La W (Ha eq_refl)) as (B1 & B2 & B3 & B4 & B5 & B6 & B7 & B8).
        assert (Hl' : forall e, In e l -> e < ne (create_e true gg a) /\ (e_col (ge (create_e true gg a) e) = true -> forall v, In v (e_orig (ge (create_e true gg a) e)) -> v_der (gv (create_e true gg a) v) <> None)).
        { intros e I. destruct (Hl e) as [Le He]; [right; exact I|]. split; [lia|].
          destruct (Nat.eq_dec e a) as [->|Ne].
          - destruct B6 as (-> & _ & _ & _ & ->). intros Hc v Iv. destruct (B4 v) as (_ & _ & -> & _). auto.
          - rewrite B5; [|lia|exact Ne]. intros Hc v Iv. destruct (B4 v) as (_ & _ & -> & _). auto. }
        rewrite (IH _ B1 Hl' d L).
        destruct (de_ok l _ B1 Hl') as (_ & _ & Mn & _). apply B5; lia. }
      apply H; [exact A1| |fold g2; lia].
      intros e I. apply in_seq in I. split; [lia|]. rewrite A3. intros Ce v Iv. exact (HDv e Ce v Iv). }
    rewrite Q, A3 in X. fold (asgE g d) in X. apply HM in X. rewrite GA in X. apply R3 in X. lia. }
  assert (AE : forall e, asgE g2 e = asgE g e).
  { intros e. unfold asgE. destruct (lt_dec e (ne g)) as [L|L]; [apply Eold; exact L|].
    rewrite Enew; [|lia]. symmetry. destruct (e_asg (ge g e)) as [x|] eqn:X; [|reflexivity].
    fold (asgE g e) in X. apply HM in X. rewrite GA in X. apply R3 in X. lia. }
  assert (M2 : Mt g2) by (intros v e; rewrite AV, AE; apply HM).
  change (assign_derivatives g2) with (fold_left adstep (seq 0 (nv g2)) (Some g2)).
  destruct (ad_ok g2 B1 M2) with (l := seq 0 (nv g2)) as (g3 & E3 & S3 & M3 & C3 & A9).
  - intros v Hc Hd. assert (L : v < nv g).
    { destruct (lt_dec v (nv g)) as [L|L]; [exact L|]. destruct (Vnew v) as [_ Q]; [lia|]. congruence. }
    destruct (Vold v L) as (_ & Q1 & Q2). rewrite Q2 in Hc. rewrite Q1.
    destruct (F3 v Hc) as (k & Ak & Ck). destruct (CE k Ck) as [Lk Nk].
    destruct (proj2 (Vd v L) Hc) as (_ & w & W1 & W2 & W3).
    destruct (proj2 (Ed k Lk) Ck) as (_ & d & D1 & D2 & D3 & _).
    exists w, k, d. split; [exact W3|]. split; [exact Ak|]. split; [exact D3|].
    destruct (Vnew w W1) as [Q3 Q4]. split; [exact Q3|]. split; [apply Enew; exact D1|exact Q4].
  - apply der_inj. exact B1.
  - apply seq_NoDup.
  - rewrite E3. destruct (proj2 (Ed i (ltac:(lia))) F2) as (_ & d & D1 & D2 & D3 & D4).
    destruct (Same_fields g2 g3 S3 0 i) as (_ & _ & Fi). rewrite Fi, D3.
    assert (S3n : nv g3 = nv g2 /\ ne g3 = ne g2) by (destruct S3 as (? & ? & _); auto).
    assert (Fd : forall v, v_der (gv g3 v) = v_der (gv g2 v)) by (intros v; apply (Same_fields g2 g3 S3 v 0)).
    assert (Fl : forall v, v_del (gv g3 v) = v_del (gv g2 v)) by (intros v; apply (Same_fields g2 g3 S3 v 0)).
    assert (Fe : forall e, e_der (ge g3 e) = e_der (ge g2 e)) by (intros e; apply (Same_fields g2 g3 S3 0 e)).
    assert (Fo : forall e, e_orig (ge g3 e) = e_orig (ge g2 e)) by (intros e; destruct S3 as (_ & _ & _ & Q); apply Q).
    destruct S3n as [S3v S3e].
    constructor.
    + eapply St_same; eauto.
    + rewrite S3v. lia.
    + rewrite S3e. lia.
    + intros v L. rewrite Fl, Fd, S3v. split; [apply Vold; exact L|apply Vd; exact L].
    + intros w L1 L2. rewrite Fl, Fd. rewrite S3v in L2. rewrite B2 in L2.
      destruct (B4 w) as (-> & _ & -> & _). destruct (A8 w L1 L2) as (? & _ & ? & _). auto.
    + intros e L. rewrite Fo, Fe, S3e. split; [apply Eold; exact L|].
      destruct (Ed e L) as [Q1 Q2]. split; [exact Q1|]. intros Hc. destruct (Q2 Hc) as (Q3 & d' & Q4 & Q5 & Q6 & Q7).
      split; [exact Q3|]. exists d'. split; [exact Q4|]. split; [exact Q5|]. split; [exact Q6|].
      intros x. rewrite Fo, Q7. split; (intros [Ix|(v & Ix & D)]; [auto|right; exists v; split; [exact Ix|]]).
      * rewrite Fd. exact D.
      * rewrite <- Fd. exact D.
    + intros d' L1 L2. rewrite Fe. rewrite S3e in L2. destruct (B8 d' L1 L2) as (_ & Q & _ & e0 & Q1 & Q2 & Q3).
      split; [exact Q|]. exists e0. rewrite Fe. rewrite A3 in Q2. auto.
    + exact M3.
    + intros w d'. rewrite A9, AV. split; (intros [H|H]; [auto|right]).
      * destruct H as (v & Iv & (Hc & Hd & Hw & e & Ae & De)). apply in_seq in Iv.
        assert (L : v < nv g).
        { destruct (lt_dec v (nv g)) as [L|L]; [exact L|]. destruct (Vnew v) as [_ Q]; [lia|]. congruence. }
        exists v, e. destruct (Vold v L) as (_ & _ & Q). rewrite Fd, Fe. rewrite Q in Hc.
        fold (asgV g2 v) in Ae. rewrite AV in Ae. auto.
      * destruct H as (v & e & Hc & Hw & Ae & De). exists v.
        destruct (CV v Hc) as (L & Dl & _). destruct (Vold v L) as (Q1 & _ & Q).
        split; [apply in_seq; lia|]. split; [rewrite Q; exact Hc|]. split; [rewrite Q1; exact Dl|].
        split; [rewrite <- Fd; exact Hw|]. exists e. fold (asgV g2 v). rewrite AV. split; [exact Ae|]. rewrite <- Fe. exact De.
    + rewrite Fe. exact D3.
Qed.

(** the structural error: one of the equations to be differentiated shares no
    variable with the others *)
Lemma failed_throw g0 g i g' : Ready g0 -> i < ne g0 -> e_der (ge g0 i) = None ->
  Coloured g0 g i -> failed g i = FThrow g' ->
  exists e, colE g e = true /\
    forall e' v, colE g e' = true -> In v (varsE g e) -> In v (varsE g e') -> e' = e.
Proof.
  intros [R1 R2 R3 R4 R5 R6 R7] Hi Hdi (F1 & F2 & F3 & F4 & F5 & F6).
  assert (SG : Same g0 g) by apply F1.
  assert (HS : St g) by (eapply St_same; eauto).
  assert (N1 : nv g = nv g0) by apply SG. assert (N2 : ne g = ne g0) by apply SG.
  assert (GA := proj1 (proj2 F1)).
  assert (Low : forall v, v_del (gv g v) = false -> v_der (gv g v) = None).
  { intros v. destruct (Same_fields g0 g SG v 0) as (-> & -> & _). apply R4. }
  assert (CV : forall v, colV g v = true -> v < nv g /\ v_del (gv g v) = false /\ v_der (gv g v) = None).
  { intros v Cv. destruct (F5 v Cv) as (e & _ & I). apply (s_var g HS) in I. destruct I as [I D].
    split; [apply (s_or g HS) in I; apply I|]. split; [exact D|]. apply Low. exact D. }
  assert (CE : forall e, colE g e = true -> e < ne g /\ e_der (ge g e) = None).
  { intros e Ce. destruct (F6 e Ce) as [->|(v & A & Cv)].
    - split; [lia|]. destruct (Same_fields g0 g SG 0 i) as (_ & _ & ->). exact Hdi.
    - rewrite GA in A. split; [rewrite N2; apply (R3 v e A)|].
      destruct (Same_fields g0 g SG 0 e) as (_ & _ & ->). apply (R6 v e A).
      destruct (CV v Cv) as (_ & _ & Q). destruct (Same_fields g0 g SG v 0) as (<- & _ & _). exact Q. }
  unfold failed.
  change (differentiate_vars g) with (fold_left dvstep (seq 0 (nv g)) g).
  destruct (dv_ok (seq 0 (nv g)) g HS) as (A1 & A2 & A3 & A4 & A5 & A6 & A7 & A8).
  { intros v I. apply in_seq in I. lia. }
  set (g1 := fold_left dvstep (seq 0 (nv g)) g) in *.
  change (differentiate_eqs g1) with (fold_left destep (seq 0 (ne g1)) g1).
  assert (HDv : forall e, colE g e = true -> forall v, In v (e_orig (ge g e)) -> v_der (gv g1 v) <> None).
  { intros e Ce v I. assert (L : v < nv g) by (apply (s_or g HS) in I; apply I).
    destruct (v_del (gv g v)) eqn:D.
    - assert (Q := s_del g HS v D). destruct (A6 v L) as [->|(Q' & _)]; [exact Q|contradiction].
    - apply A7; [apply in_seq; lia| |exact D]. apply (F4 e Ce). apply (s_var g HS). auto. }
  destruct (de_ok (seq 0 (ne g1)) g1 A1) as (B1 & B2 & B3 & B4 & B5 & B6 & B7 & B8).
  { intros e I. apply in_seq in I. split; [lia|]. rewrite A3. intros Ce v Iv. exact (HDv e Ce v Iv). }
  set (g2 := fold_left destep (seq 0 (ne g1)) g1) in *.
  rewrite A2 in *.
  destruct (structural_check g2 (ne g)) eqn:Ck.
  { intros X. destruct (assign_derivatives g2) as [g3|]; [|discriminate]. destruct (e_der (ge g3 i)); discriminate. }
  intros _. unfold structural_check in Ck.
  assert (Hl : exists l, In l (seq (ne g) (ne g2 - ne g)) /\
     existsb (fun j => 1 <? length (v_eqs (gv g2 j))) (e_orig (ge g2 l)) = false).
  { revert Ck. generalize (seq (ne g) (ne g2 - ne g)). induction l as [|a l IH]; cbn [forallb]; [discriminate|].
    destruct (existsb _ (e_orig (ge g2 a))) eqn:X.
    - cbn [andb]. intros H. destruct (IH H) as (x & I & Hx). exists x. split; [right; exact I|exact Hx].
    - intros _. exists a. split; [left; reflexivity|exact X]. }
  destruct Hl as (l & Il & Hl). apply in_seq in Il.
  destruct (B8 l) as (_ & _ & _ & e0 & E1 & E2 & E3); [lia|lia|]. rewrite A3 in E2.
  exists e0. split; [exact E2|]. intros e' v Ce' I0 I'.
  assert (Ld : forall e, colE g e = true -> exists d, e_der (ge g2 e) = Some d /\
      forall x, In x (e_orig (ge g2 d)) <-> In x (e_orig (ge g e)) \/
           exists v, In v (e_orig (ge g e)) /\ v_der (gv g1 v) = Some x).
  { intros e Ce. destruct (CE e Ce) as [Le Ne]. destruct (B6 e Le) as [Q|(_ & _ & d & _ & _ & D & O)].
    - exfalso. assert (X : e_der (ge g2 e) <> None) by (apply B7; [apply in_seq; lia|rewrite A3; exact Ce]).
      rewrite A3 in Q. congruence.
    - rewrite A3 in O. exists d. auto. }
  destruct (Ld e0 E2) as (d0 & D0 & O0), (Ld e' Ce') as (d' & D' & O').
  assert (d0 = l) by congruence. subst d0.
  assert (Cv : colV g v = true) by (apply (F4 e0 E2); exact I0).
  destruct (CV v Cv) as (Lv & Dv & Nv).
  apply (s_var g HS) in I0. apply (s_var g HS) in I'.
  destruct (A6 v Lv) as [Q|(_ & _ & w & W1 & W2 & W3)].
  { exfalso. assert (X : v_der (gv g1 v) <> None) by (apply A7; [apply in_seq; lia|exact Cv|exact Dv]). congruence. }
  destruct (A8 w W1 W2) as (Wd & _).
  assert (Wd2 : v_del (gv g2 w) = false) by (destruct (B4 w) as (-> & _); exact Wd).
  assert (Il0 : In w (e_orig (ge g2 l))) by (apply O0; right; exists v; tauto).
  assert (Il' : In w (e_orig (ge g2 d'))) by (apply O'; right; exists v; tauto).
  assert (X1 : In l (v_eqs (gv g2 w))) by (apply (s_eqs g2 B1), (s_var g2 B1); auto).
  assert (X2 : In d' (v_eqs (gv g2 w))) by (apply (s_eqs g2 B1), (s_var g2 B1); auto).
  assert (Len : length (v_eqs (gv g2 w)) <= 1).
  { destruct (Nat.ltb_spec 1 (length (v_eqs (gv g2 w)))) as [Lt|Lt]; [|exact Lt]. exfalso.
    assert (X : existsb (fun j => 1 <? length (v_eqs (gv g2 j))) (e_orig (ge g2 l)) = true).
    { apply existsb_exists. exists w. split; [exact Il0|]. apply Nat.ltb_lt. exact Lt. }
    congruence. }
  assert (d' = l).
  { destruct (v_eqs (gv g2 w)) as [|x [|y r]]; cbn [length In] in *; [contradiction| |lia].
    destruct X1 as [X1|[]], X2 as [X2|[]]. congruence. }
  subst d'. eapply der_inj; [exact B1|exact D'|exact D0].
Qed.

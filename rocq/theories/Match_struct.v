(** * Structure of the graph kept by the operations of Pantelides' method *)
From Coq Require Import List Arith Bool Lia.
From Verif Require Import Match_model Match_spec Match_proofs.
Import ListNotations.

Record St (g : graph) : Prop := {
  s_or : forall e v, In v (e_orig (ge g e)) -> v < nv g /\ e < ne g;
  s_nd : forall e, NoDup (e_orig (ge g e)) /\ NoDup (e_vars (ge g e));
  s_var : forall e v, In v (e_vars (ge g e)) <-> In v (e_orig (ge g e)) /\ v_del (gv g v) = false;
  s_eqs : forall e v, In e (v_eqs (gv g v)) <-> In v (e_vars (ge g e));
  s_der : forall v w, v_der (gv g v) = Some w <-> v_anti (gv g w) = Some v;
  s_lt : forall v w, v_der (gv g v) = Some w -> v < w /\ w < nv g;
  s_ede : forall e e', e_der (ge g e) = Some e' -> e < e' /\ e' < ne g /\ e_of (ge g e') = Some e;
  s_del : forall v, v_del (gv g v) = true -> v_der (gv g v) <> None }.

(** ** Lists *)
Lemma remove1_In j l x : NoDup l -> (In x (remove1 j l) <-> In x l /\ x <> j).
Proof.
  induction l as [|a l IH]; intros Nd; cbn [remove1].
  - cbn. tauto.
  - inversion Nd as [|? ? Na Nl]; subst. destruct (Nat.eqb_spec a j) as [->|N].
    + cbn [In]. split; [intros I; split; [auto|]; intros ->; contradiction|].
      intros [[->|I] H]; [contradiction|exact I].
    + cbn [In]. rewrite (IH Nl). split.
      * intros [->|[I H]]; auto.
      * intros [[->|I] H]; auto.
Qed.
Lemma remove1_NoDup j l : NoDup l -> NoDup (remove1 j l).
Proof.
  induction l as [|a l IH]; intros Nd; cbn [remove1]; [constructor|].
  inversion Nd as [|? ? Na Nl]; subst. destruct (a =? j); [exact Nl|].
  constructor; [|apply IH; exact Nl]. rewrite (remove1_In j l a Nl). tauto.
Qed.
Lemma remove1_notin j l : ~ In j l -> remove1 j l = l.
Proof.
  induction l as [|a l IH]; intros N; cbn [remove1]; [reflexivity|].
  destruct (Nat.eqb_spec a j) as [->|Na]; [exfalso; apply N; left; reflexivity|].
  rewrite IH; [reflexivity|]. intros I. apply N. right. exact I.
Qed.

Lemma existsb_eqb j l : existsb (Nat.eqb j) l = true <-> In j l.
Proof.
  rewrite existsb_exists. split.
  - intros (x & I & E). apply Nat.eqb_eq in E. subst x. exact I.
  - intros I. exists j. split; [exact I|apply Nat.eqb_refl].
Qed.

(** ** Deleting a variable *)
Lemma del_fold g j l : 
  let g' := fold_left (fun g i => upde g i (e_delete j)) l g in
  nv g' = nv g /\ ne g' = ne g /\ gv g' = gv g /\
  (forall e, e_orig (ge g' e) = e_orig (ge g e) /\ e_der (ge g' e) = e_der (ge g e) /\
     e_of (ge g' e) = e_of (ge g e) /\ e_asg (ge g' e) = e_asg (ge g e) /\ e_col (ge g' e) = e_col (ge g e)) /\
  ((forall e, NoDup (e_vars (ge g e))) ->
   (forall e, NoDup (e_vars (ge g' e))) /\
   forall e x, In x (e_vars (ge g' e)) <-> In x (e_vars (ge g e)) /\ (In e l -> x <> j)).
Proof.
  revert g. induction l as [|a l IH]; intros g; cbn [fold_left].
  - repeat split; auto; intros; firstorder.
  - destruct (IH (upde g a (e_delete j))) as (A1 & A2 & A3 & A4 & A5).
    split; [exact A1|]. split; [exact A2|]. split; [exact A3|]. split.
    + intros e. destruct (A4 e) as (B1 & B2 & B3 & B4 & B5).
      rewrite B1, B2, B3, B4, B5. cbn [upde ge]. destruct (e =? a); repeat split.
    + intros Nd. destruct A5 as [B1 B2].
      { intros e. cbn [upde ge]. destruct (e =? a); [|apply Nd]. cbn [e_delete e_vars]. apply remove1_NoDup, Nd. }
      split; [exact B1|]. intros e x. rewrite B2. cbn [upde ge In].
      destruct (Nat.eqb_spec e a) as [->|N].
      * cbn [e_delete e_vars]. rewrite (remove1_In j _ x (Nd a)). split.
        -- intros [[I H] H']. split; [exact I|]. intros _. exact H.
        -- intros [I H]. split; [split; [exact I|apply H; auto]|]. intros _. apply H. auto.
      * split; intros [I H]; (split; [exact I|]); [intros [->|K]; [contradiction|auto]|auto].
Qed.

(** only deletions *)
Definition Less (g g' : graph) : Prop :=
  nv g' = nv g /\ ne g' = ne g /\
  (forall v, v_asg (gv g' v) = v_asg (gv g v) /\ v_der (gv g' v) = v_der (gv g v) /\
     v_anti (gv g' v) = v_anti (gv g v) /\ v_col (gv g' v) = v_col (gv g v)) /\
  (forall e, e_orig (ge g' e) = e_orig (ge g e) /\ e_der (ge g' e) = e_der (ge g e) /\
     e_of (ge g' e) = e_of (ge g e) /\ e_asg (ge g' e) = e_asg (ge g e) /\ e_col (ge g' e) = e_col (ge g e)).

Lemma Less_refl g : Less g g.
Proof. repeat split. Qed.
Lemma Less_trans a b c : Less a b -> Less b c -> Less a c.
Proof.
  intros (A1 & A2 & A3 & A4) (B1 & B2 & B3 & B4).
  split; [congruence|]. split; [congruence|]. split.
  - intros v. destruct (A3 v) as (? & ? & ? & ?), (B3 v) as (? & ? & ? & ?). repeat split; congruence.
  - intros v. destruct (A4 v) as (? & ? & ? & ? & ?), (B4 v) as (? & ? & ? & ? & ?). repeat split; congruence.
Qed.

Lemma delete_node_ok g j : St g -> v_der (gv g j) <> None ->
  St (delete_node g j) /\ Less g (delete_node g j) /\
  (forall v, v_del (gv (delete_node g j) v) = if v =? j then true else v_del (gv g v)).
Proof.
  intros HS HD. unfold delete_node.
  pose proof (del_fold g j (v_eqs (gv g j))) as F. cbv zeta in F.
  set (g1 := fold_left (fun g i => upde g i (e_delete j)) (v_eqs (gv g j)) g) in *.
  destruct F as (F1 & F2 & F3 & F4 & F5).
  destruct F5 as [F5 F6]; [intros e; apply (s_nd g HS e)|].
  set (g2 := updv g1 j _).
  assert (V : forall v, gv g2 v = if v =? j then VN true [] (v_asg (gv g v)) (v_der (gv g v)) (v_anti (gv g v)) (v_col (gv g v)) else gv g v).
  { intros v. unfold g2. cbn [updv gv]. rewrite F3. reflexivity. }
  assert (E : ge g2 = ge g1) by reflexivity.
  assert (Vd : forall v, v_der (gv g2 v) = v_der (gv g v)) by (intros v; rewrite V; destruct (v =? j); reflexivity).
  assert (Va : forall v, v_anti (gv g2 v) = v_anti (gv g v)) by (intros v; rewrite V; destruct (v =? j); reflexivity).
  assert (N1 : nv g2 = nv g) by exact F1.
  assert (N2 : ne g2 = ne g) by exact F2.
  assert (Vin : forall e x, In x (e_vars (ge g2 e)) <-> In x (e_vars (ge g e)) /\ x <> j).
  { intros e x. rewrite E, F6. split.
    - intros [I H]. split; [exact I|]. intros ->. apply H; [|reflexivity]. apply (s_eqs g HS). exact I.
    - intros [I H]. auto. }
  split; [|split].
  - constructor.
    + intros e v. rewrite N1, N2, E. rewrite (proj1 (F4 e)). apply (s_or g HS).
    + intros e. rewrite E. rewrite (proj1 (F4 e)). split; [apply (s_nd g HS)|apply F5].
    + intros e v. rewrite Vin. rewrite E, (proj1 (F4 e)), (s_var g HS), V.
      destruct (Nat.eqb_spec v j) as [->|N]; cbn [v_del]; intuition congruence.
    + intros e v. rewrite Vin, V. destruct (Nat.eqb_spec v j) as [->|N]; cbn [v_eqs In].
      * tauto.
      * rewrite (s_eqs g HS). tauto.
    + intros v w. rewrite Vd, Va. apply (s_der g HS).
    + intros v w. rewrite Vd, N1. apply (s_lt g HS).
    + intros e e'. rewrite E, N2. destruct (F4 e) as (_ & -> & _). destruct (F4 e') as (_ & _ & -> & _). apply (s_ede g HS).
    + intros v. rewrite Vd, V. destruct (Nat.eqb_spec v j) as [->|N]; cbn [v_del]; [intros _; exact HD|apply (s_del g HS)].
  - split; [exact N1|]. split; [exact N2|]. split.
    + intros v. rewrite V. destruct (v =? j); repeat split.
    + intros e. rewrite E. apply F4.
  - intros v. rewrite V. destruct (v =? j); reflexivity.
Qed.

Lemma delete_low_ok g : St g ->
  St (delete_low g) /\ Less g (delete_low g) /\
  (forall v, v_del (gv (delete_low g) v) = false -> v_der (gv (delete_low g) v) = None).
Proof.
  intros HS. unfold delete_low.
  set (F := fun (g : graph) (j : nat) => if negb (v_del (gv g j)) && negb (is_none (v_der (gv g j))) then delete_node g j else g).
  assert (H : forall l g, St g ->
     St (fold_left F l g) /\ Less g (fold_left F l g) /\
     (forall v, v_del (gv g v) = true -> v_del (gv (fold_left F l g) v) = true) /\
     (forall v, In v l -> v_del (gv (fold_left F l g) v) = false -> v_der (gv (fold_left F l g) v) = None)).
  { clear. induction l as [|a l IH]; intros g HS; cbn [fold_left].
    - split; [exact HS|]. split; [apply Less_refl|]. split; [auto|]. intros v [].
    - assert (Q : St (F g a) /\ Less g (F g a) /\ (forall v, v_del (gv g v) = true -> v_del (gv (F g a) v) = true) /\
                 (v_del (gv (F g a) a) = false -> v_der (gv (F g a) a) = None)).
      { unfold F. destruct (v_del (gv g a)) eqn:D; cbn [negb andb].
        - split; [exact HS|]. split; [apply Less_refl|]. split; [auto|]. congruence.
        - destruct (v_der (gv g a)) as [w|] eqn:W; cbn [is_none negb].
          + destruct (delete_node_ok g a HS) as (A1 & A2 & A3); [congruence|].
            split; [exact A1|]. split; [exact A2|]. split.
            * intros v Hv. rewrite A3, Hv. destruct (v =? a); reflexivity.
            * rewrite A3, Nat.eqb_refl. discriminate.
          + split; [exact HS|]. split; [apply Less_refl|]. auto. }
      destruct Q as (Q1 & Q2 & Q3 & Q4).
      destruct (IH (F g a) Q1) as (B1 & B2 & B3 & B4).
      split; [exact B1|]. split; [eapply Less_trans; eauto|]. split; [auto|].
      intros v [<-|I] Hv; [|auto].
      destruct B2 as (_ & _ & B2 & _). destruct (B2 a) as (_ & -> & _).
      apply Q4. destruct (v_del (gv (F g a) a)) eqn:D; [|reflexivity].
      rewrite (B3 _ D) in Hv. discriminate. }
  destruct (H (seq 0 (nv g)) g HS) as (A1 & A2 & A3 & A4).
  split; [exact A1|]. split; [exact A2|].
  intros v Hv. destruct (lt_dec v (nv g)) as [L|L].
  - apply A4; [apply in_seq; lia|exact Hv].
  - destruct (v_der (gv (fold_left F (seq 0 (nv g)) g) v)) as [w|] eqn:W; [|reflexivity].
    apply (s_lt _ A1) in W. destruct A2 as (N & _). lia.
Qed.

(** ** Adding a variable to an equation *)
Lemma NoDup_snoc {A} (l : list A) x : NoDup l -> ~ In x l -> NoDup (l ++ [x]).
Proof.
  induction l as [|a l IH]; intros Nd N; cbn [app].
  - constructor; [intros []|constructor].
  - inversion Nd; subst. constructor.
    + rewrite in_app_iff. intros [I|[->|[]]]; [contradiction|]. apply N. left. reflexivity.
    + apply IH; [assumption|]. intros I. apply N. right. exact I.
Qed.

Lemma add_variable_ok g i j : St g -> i < ne g -> j < nv g ->
  let g' := add_variable g i j in
  St g' /\ nv g' = nv g /\ ne g' = ne g /\
  (forall v, v_del (gv g' v) = v_del (gv g v) /\ v_asg (gv g' v) = v_asg (gv g v) /\
     v_der (gv g' v) = v_der (gv g v) /\ v_anti (gv g' v) = v_anti (gv g v) /\ v_col (gv g' v) = v_col (gv g v)) /\
  (forall e, e <> i -> ge g' e = ge g e) /\
  (e_der (ge g' i) = e_der (ge g i) /\ e_of (ge g' i) = e_of (ge g i) /\
     e_asg (ge g' i) = e_asg (ge g i) /\ e_col (ge g' i) = e_col (ge g i)) /\
  (forall x, In x (e_orig (ge g' i)) <-> In x (e_orig (ge g i)) \/ x = j).
Proof.
  intros HS Hi Hj. cbv zeta. unfold add_variable.
  destruct (existsb (Nat.eqb j) (e_orig (ge g i))) eqn:X.
  - apply existsb_eqb in X. split; [exact HS|]. repeat split; auto.
    intros [I| ->]; auto.
  - assert (Nj : ~ In j (e_orig (ge g i))) by (rewrite <- existsb_eqb; congruence). clear X.
    assert (Njv : ~ In j (e_vars (ge g i))) by (rewrite (s_var g HS); tauto).
    set (g1 := upde g i _).
    assert (E1 : forall e, ge g1 e = if e =? i then EN (e_orig (ge g e) ++ [j]) (e_vars (ge g e)) (e_der (ge g e)) (e_of (ge g e)) (e_asg (ge g e)) (e_col (ge g e)) else ge g e) by reflexivity.
    change (gv g1 j) with (gv g j).
    destruct (v_del (gv g j)) eqn:D.
    + assert (HOr : forall e x, In x (e_orig (ge g1 e)) <-> In x (e_orig (ge g e)) \/ (e = i /\ x = j)).
      { intros e x. rewrite E1. destruct (Nat.eqb_spec e i) as [->|N]; cbn [e_orig].
        - rewrite in_app_iff. cbn [In]. intuition congruence.
        - intuition congruence. }
      assert (HVa : forall e, e_vars (ge g1 e) = e_vars (ge g e)).
      { intros e. rewrite E1. destruct (e =? i); reflexivity. }
      split; [|split; [reflexivity|]; split; [reflexivity|]; split; [intros; repeat split|]; split].
      * constructor.
        -- intros e v. rewrite HOr. intros [I|[-> ->]]; [apply (s_or g HS e v I)|auto].
        -- intros e. rewrite HVa. split; [|apply (s_nd g HS)]. rewrite E1.
           destruct (Nat.eqb_spec e i) as [->|N]; cbn [e_orig]; [apply NoDup_snoc; [apply (s_nd g HS)|exact Nj]|apply (s_nd g HS)].
        -- intros e v. rewrite HVa, HOr. change (gv g1 v) with (gv g v). rewrite (s_var g HS). intuition congruence.
        -- intros e v. rewrite HVa. apply (s_eqs g HS).
        -- apply (s_der g HS).
        -- apply (s_lt g HS).
        -- intros e e'. rewrite !E1. intros H.
           assert (H' : e_der (ge g e) = Some e') by (destruct (e =? i); exact H).
           apply (s_ede g HS) in H'. destruct (e' =? i); exact H'.
        -- apply (s_del g HS).
      * intros e N. rewrite E1. destruct (Nat.eqb_spec e i); [contradiction|reflexivity].
      * split; [rewrite E1, Nat.eqb_refl; repeat split|].
        intros x. rewrite HOr. tauto.
    + set (g2 := upde g1 i _). set (g3 := updv g2 j _).
      assert (E3 : forall e, ge g3 e = if e =? i then EN (e_orig (ge g e) ++ [j]) (e_vars (ge g e) ++ [j]) (e_der (ge g e)) (e_of (ge g e)) (e_asg (ge g e)) (e_col (ge g e)) else ge g e).
      { intros e. unfold g3. cbn [updv ge]. unfold g2. cbn [upde ge]. rewrite E1. destruct (e =? i); reflexivity. }
      assert (V3 : forall v, gv g3 v = if v =? j then VN (v_del (gv g v)) (v_eqs (gv g v) ++ [i]) (v_asg (gv g v)) (v_der (gv g v)) (v_anti (gv g v)) (v_col (gv g v)) else gv g v) by reflexivity.
      assert (HOr : forall e x, In x (e_orig (ge g3 e)) <-> In x (e_orig (ge g e)) \/ (e = i /\ x = j)).
      { intros e x. rewrite E3. destruct (Nat.eqb_spec e i) as [->|N]; cbn [e_orig].
        - rewrite in_app_iff. cbn [In]. intuition congruence.
        - intuition congruence. }
      assert (HVa : forall e x, In x (e_vars (ge g3 e)) <-> In x (e_vars (ge g e)) \/ (e = i /\ x = j)).
      { intros e x. rewrite E3. destruct (Nat.eqb_spec e i) as [->|N]; cbn [e_vars].
        - rewrite in_app_iff. cbn [In]. intuition congruence.
        - intuition congruence. }
      assert (Vr : forall v, v_del (gv g3 v) = v_del (gv g v) /\ v_asg (gv g3 v) = v_asg (gv g v) /\
         v_der (gv g3 v) = v_der (gv g v) /\ v_anti (gv g3 v) = v_anti (gv g v) /\ v_col (gv g3 v) = v_col (gv g v)).
      { intros v. rewrite V3. destruct (v =? j); repeat split. }
      split; [|split; [reflexivity|]; split; [reflexivity|]; split; [exact Vr|]; split].
      * constructor.
        -- intros e v. rewrite HOr. intros [I|[-> ->]]; [apply (s_or g HS e v I)|auto].
        -- intros e. rewrite E3.
           destruct (Nat.eqb_spec e i) as [->|N]; cbn [e_orig e_vars]; [|apply (s_nd g HS)].
           split; (apply NoDup_snoc; [apply (s_nd g HS)|assumption]).
        -- intros e v. rewrite HVa, HOr. destruct (Vr v) as (-> & _). rewrite (s_var g HS).
           intuition congruence.
        -- intros e v. rewrite HVa, <- (s_eqs g HS), V3.
           destruct (Nat.eqb_spec v j) as [->|N]; cbn [v_eqs]; [rewrite in_app_iff; cbn [In]|]; intuition congruence.
        -- intros v w. destruct (Vr v) as (_ & _ & -> & _). destruct (Vr w) as (_ & _ & _ & -> & _). apply (s_der g HS).
        -- intros v w. destruct (Vr v) as (_ & _ & -> & _). apply (s_lt g HS).
        -- intros e e'. rewrite !E3. intros H.
           assert (H' : e_der (ge g e) = Some e') by (destruct (e =? i); exact H).
           apply (s_ede g HS) in H'. destruct (e' =? i); exact H'.
        -- intros v. destruct (Vr v) as (-> & _ & -> & _). apply (s_del g HS).
      * intros e N. rewrite E3. destruct (Nat.eqb_spec e i); [contradiction|reflexivity].
      * split; [rewrite E3, Nat.eqb_refl; repeat split|].
        intros x. rewrite HOr. tauto.
Qed.

(** ** Derivative of a variable *)
Lemma create_v_ok g j : St g -> j < nv g -> v_der (gv g j) = None ->
  let g' := fst (create_v g j) in
  St g' /\ nv g' = S (nv g) /\ ne g' = ne g /\ ge g' = ge g /\
  v_der (gv g' j) = Some (nv g) /\
  gv g' (nv g) = VN false [] None None (Some j) false /\
  (forall v, v < nv g -> v_del (gv g' v) = v_del (gv g v) /\ v_eqs (gv g' v) = v_eqs (gv g v) /\
     v_asg (gv g' v) = v_asg (gv g v) /\ v_anti (gv g' v) = v_anti (gv g v) /\ v_col (gv g' v) = v_col (gv g v) /\
     (v <> j -> v_der (gv g' v) = v_der (gv g v))) /\
  (forall v, nv g < v -> gv g' v = gv g v).
Proof.
  intros HS Hj HD. cbv zeta. unfold create_v. rewrite HD. cbn [fst].
  set (g1 := updv g j _).
  set (g2 := Gr _ _ _ _).
  assert (V : forall v, gv g2 v = if v =? nv g then VN false [] None None (Some j) false
     else if v =? j then VN (v_del (gv g v)) (v_eqs (gv g v)) (v_asg (gv g v)) (Some (nv g)) (v_anti (gv g v)) (v_col (gv g v)) else gv g v) by reflexivity.
  assert (Vo : forall v, v <> nv g -> v_del (gv g2 v) = v_del (gv g v) /\ v_eqs (gv g2 v) = v_eqs (gv g v) /\
     v_asg (gv g2 v) = v_asg (gv g v) /\ v_anti (gv g2 v) = v_anti (gv g v) /\ v_col (gv g2 v) = v_col (gv g v) /\
     (v <> j -> v_der (gv g2 v) = v_der (gv g v))).
  { intros v N. rewrite V. destruct (Nat.eqb_spec v (nv g)); [contradiction|].
    destruct (Nat.eqb_spec v j); repeat split. intros; contradiction. }
  assert (Nold : forall v e, In v (e_orig (ge g e)) -> v <> nv g).
  { intros v e I. apply (s_or g HS) in I. lia. }
  assert (Vnew : gv g2 (nv g) = VN false [] None None (Some j) false) by (rewrite V, Nat.eqb_refl; reflexivity).
  assert (Vj : v_der (gv g2 j) = Some (nv g)).
  { rewrite V. destruct (Nat.eqb_spec j (nv g)); [lia|]. rewrite Nat.eqb_refl. reflexivity. }
  split; [|split; [reflexivity|]; split; [reflexivity|]; split; [reflexivity|]; split; [exact Vj|]; split; [exact Vnew|]; split].
  - change (nv g2) with (S (nv g)) in *. constructor; change (nv g2) with (S (nv g)); change (ne g2) with (ne g); change (ge g2) with (ge g).
    + intros e v I. apply (s_or g HS) in I. lia.
    + apply (s_nd g HS).
    + intros e v. change (ge g1) with (ge g). rewrite (s_var g HS). split.
      * intros [I D]. split; [exact I|]. destruct (Vo v (Nold v e I)) as (-> & _). exact D.
      * intros [I D]. split; [exact I|]. destruct (Vo v (Nold v e I)) as (Q & _). rewrite <- Q. exact D.
    + intros e v. change (ge g1) with (ge g). destruct (Nat.eq_dec v (nv g)) as [->|N].
      * rewrite Vnew. cbn [v_eqs In]. split; [intros []|]. intros I. apply (s_var g HS) in I. destruct I as [I _]. apply (Nold _ _ I). reflexivity.
      * destruct (Vo v N) as (_ & -> & _). apply (s_eqs g HS).
    + intros v w. destruct (Nat.eq_dec v (nv g)) as [->|N].
      * rewrite Vnew. cbn [v_der]. split; [discriminate|]. intros A.
        destruct (Nat.eq_dec w (nv g)) as [->|Nw].
        -- rewrite Vnew in A. cbn [v_anti] in A. injection A as A. lia.
        -- destruct (Vo w Nw) as (_ & _ & _ & Q & _). rewrite Q in A. apply (s_der g HS) in A. apply (s_lt g HS) in A. lia.
      * destruct (Nat.eq_dec v j) as [->|Nj].
        -- rewrite Vj. split.
           ++ intros A. injection A as <-. rewrite Vnew. reflexivity.
           ++ intros A. destruct (Nat.eq_dec w (nv g)) as [->|Nw]; [reflexivity|].
              destruct (Vo w Nw) as (_ & _ & _ & Q & _). rewrite Q in A. apply (s_der g HS) in A. congruence.
        -- destruct (Vo v N) as (_ & _ & _ & _ & _ & Q). rewrite (Q Nj).
           destruct (Nat.eq_dec w (nv g)) as [->|Nw].
           ++ rewrite Vnew. cbn [v_anti]. split; intros A.
              ** apply (s_lt g HS) in A. lia.
              ** congruence.
           ++ destruct (Vo w Nw) as (_ & _ & _ & Q' & _). rewrite Q'. apply (s_der g HS).
    + intros v w. destruct (Nat.eq_dec v (nv g)) as [->|N].
      * rewrite Vnew. cbn [v_der]. discriminate.
      * destruct (Nat.eq_dec v j) as [->|Nj].
        -- rewrite Vj. intros A. injection A as <-. lia.
        -- destruct (Vo v N) as (_ & _ & _ & _ & _ & Q). rewrite (Q Nj). intros A. apply (s_lt g HS) in A. lia.
    + apply (s_ede g HS).
    + intros v. destruct (Nat.eq_dec v (nv g)) as [->|N].
      * rewrite Vnew. cbn [v_del]. discriminate.
      * destruct (Vo v N) as (-> & _ & _ & _ & _ & Q). intros D. apply (s_del g HS) in D.
        destruct (Nat.eq_dec v j) as [->|Nj]; [rewrite Vj; discriminate|]. rewrite (Q Nj). exact D.
  - intros v L. apply Vo. lia.
  - intros v L. rewrite V. destruct (Nat.eqb_spec v (nv g)); [lia|]. destruct (Nat.eqb_spec v j); [lia|reflexivity].
Qed.

(** ** Derivative of an equation all of whose variables have a derivative *)
Definition dstep (d : nat) (g : graph) (j : nat) : graph :=
  let g := add_variable g d j in
  match v_der (gv g j) with
  | Some dj => add_variable g d dj
  | None => let '(g', dj) := create_v g j in add_variable g' d dj
  end.

Lemma dirty_ok d : forall l g, St g -> d < ne g ->
  (forall v, In v l -> v < nv g /\ v_der (gv g v) <> None) ->
  let g' := fold_left (dstep d) l g in
  St g' /\ nv g' = nv g /\ ne g' = ne g /\
  (forall v, v_del (gv g' v) = v_del (gv g v) /\ v_asg (gv g' v) = v_asg (gv g v) /\
     v_der (gv g' v) = v_der (gv g v) /\ v_anti (gv g' v) = v_anti (gv g v) /\ v_col (gv g' v) = v_col (gv g v)) /\
  (forall e, e <> d -> ge g' e = ge g e) /\
  (e_der (ge g' d) = e_der (ge g d) /\ e_of (ge g' d) = e_of (ge g d) /\
     e_asg (ge g' d) = e_asg (ge g d) /\ e_col (ge g' d) = e_col (ge g d)) /\
  (forall x, In x (e_orig (ge g' d)) <-> In x (e_orig (ge g d)) \/ In x l \/ exists v, In v l /\ v_der (gv g v) = Some x).
Proof.
  induction l as [|a l IH]; intros g HS Hd Hl; cbv zeta; cbn [fold_left].
  - split; [exact HS|]. repeat split; auto. intros [I|[[]|(v & [] & _)]]. exact I.
  - destruct (Hl a) as [La Da]; [left; reflexivity|].
    destruct (add_variable_ok g d a HS Hd La) as (A1 & A2 & A3 & A4 & A5 & A6 & A7).
    assert (Dq : dstep d g a = match v_der (gv (add_variable g d a) a) with Some dj => add_variable (add_variable g d a) d dj | None => let '(g', dj) := create_v (add_variable g d a) a in add_variable g' d dj end) by reflexivity.
    rewrite Dq. clear Dq.
    set (g1 := add_variable g d a) in *.
    destruct (v_der (gv g1 a)) as [w|] eqn:W.
    2: { destruct (A4 a) as (_ & _ & Q & _). congruence. }
    assert (Wa : v_der (gv g a) = Some w) by (destruct (A4 a) as (_ & _ & Q & _); congruence).
    assert (Lw : w < nv g1) by (rewrite A2; apply (s_lt g HS) in Wa; lia).
    assert (Hd1 : d < ne g1) by (rewrite A3; exact Hd).
    destruct (add_variable_ok g1 d w A1 Hd1 Lw) as (B1 & B2 & B3 & B4 & B5 & B6 & B7).
    set (g2 := add_variable g1 d w) in *.
    assert (Hl2 : forall v, In v l -> v < nv g2 /\ v_der (gv g2 v) <> None).
    { intros v I. destruct (Hl v) as [L D]; [right; exact I|].
      split; [lia|]. destruct (B4 v) as (_ & _ & -> & _). destruct (A4 v) as (_ & _ & -> & _). exact D. }
    assert (Hd2 : d < ne g2) by lia.
    destruct (IH g2 B1 Hd2 Hl2) as (C1 & C2 & C3 & C4 & C5 & C6 & C7).
    split; [exact C1|]. split; [congruence|]. split; [congruence|]. split; [|split; [|split]].
    + intros v. destruct (C4 v) as (? & ? & ? & ? & ?), (B4 v) as (? & ? & ? & ? & ?), (A4 v) as (? & ? & ? & ? & ?).
      repeat split; congruence.
    + intros e N. rewrite C5, B5, A5; auto.
    + destruct C6 as (? & ? & ? & ?), B6 as (? & ? & ? & ?), A6 as (? & ? & ? & ?). repeat split; congruence.
    + intros x. rewrite C7, B7, A7. cbn [In].
      assert (Q : forall v, v_der (gv g2 v) = v_der (gv g v)).
      { intros v. destruct (B4 v) as (_ & _ & -> & _). destruct (A4 v) as (_ & _ & -> & _). reflexivity. }
      split.
      * intros [[[I| ->]| ->]|[I|(v & I & D)]]; auto.
        -- right. right. exists a. auto.
        -- right. right. exists v. rewrite <- Q. auto.
      * intros [I|[[->|I]|(v & [->|I] & D)]]; auto.
        -- left. right. congruence.
        -- right. right. exists v. rewrite Q. auto.
Qed.

Lemma create_e_ok g i : St g -> i < ne g -> e_der (ge g i) = None ->
  (forall v, In v (e_orig (ge g i)) -> v_der (gv g v) <> None) ->
  let g' := create_e true g i in
  let d := ne g in
  St g' /\ nv g' = nv g /\ ne g' = S d /\
  (forall v, v_del (gv g' v) = v_del (gv g v) /\ v_asg (gv g' v) = v_asg (gv g v) /\
     v_der (gv g' v) = v_der (gv g v) /\ v_anti (gv g' v) = v_anti (gv g v) /\ v_col (gv g' v) = v_col (gv g v)) /\
  (forall e, e <> d -> e <> i -> ge g' e = ge g e) /\
  (e_orig (ge g' i) = e_orig (ge g i) /\ e_der (ge g' i) = Some d /\ e_of (ge g' i) = e_of (ge g i) /\
     e_asg (ge g' i) = e_asg (ge g i) /\ e_col (ge g' i) = e_col (ge g i)) /\
  (e_der (ge g' d) = None /\ e_asg (ge g' d) = None /\ e_col (ge g' d) = false) /\
  (forall x, In x (e_orig (ge g' d)) <-> In x (e_orig (ge g i)) \/ exists v, In v (e_orig (ge g i)) /\ v_der (gv g v) = Some x).
Proof.
  intros HS Hi HD Hv. cbv zeta. unfold create_e. rewrite HD.
  set (d := ne g). set (g1 := upde g i _). set (g2 := Gr _ _ _ _).
  assert (E : forall e, ge g2 e = if e =? d then EN [] [] None (Some i) None false
     else if e =? i then EN (e_orig (ge g e)) (e_vars (ge g e)) (Some d) (e_of (ge g e)) (e_asg (ge g e)) (e_col (ge g e)) else ge g e) by reflexivity.
  assert (Hdd : i <> d) by (unfold d; lia).
  assert (Eor : forall e, e <> d -> e_orig (ge g2 e) = e_orig (ge g e) /\ e_vars (ge g2 e) = e_vars (ge g e) /\ e_of (ge g2 e) = e_of (ge g e)).
  { intros e N. rewrite E. destruct (Nat.eqb_spec e d); [contradiction|]. destruct (e =? i); repeat split. }
  assert (Ed : ge g2 d = EN [] [] None (Some i) None false) by (rewrite E, Nat.eqb_refl; reflexivity).
  assert (Ei : ge g2 i = EN (e_orig (ge g i)) (e_vars (ge g i)) (Some d) (e_of (ge g i)) (e_asg (ge g i)) (e_col (ge g i))).
  { rewrite E. destruct (Nat.eqb_spec i d); [contradiction|]. rewrite Nat.eqb_refl. reflexivity. }
  assert (Nonew : forall v, ~ In v (e_vars (ge g d)) /\ ~ In v (e_orig (ge g d))).
  { intros v. assert (H : ~ In v (e_orig (ge g d))) by (intros I; apply (s_or g HS) in I; unfold d in *; lia).
    split; [|exact H]. rewrite (s_var g HS). tauto. }
  assert (S2 : St g2).
  { constructor.
    - intros e v I. cbn [g2 nv ne]. destruct (Nat.eq_dec e d) as [->|N].
      + rewrite Ed in I. destruct I.
      + destruct (Eor e N) as (Q & _). rewrite Q in I. apply (s_or g HS) in I. fold d in I. change (nv g1) with (nv g). lia.
    - intros e. destruct (Nat.eq_dec e d) as [->|N].
      + rewrite Ed. split; constructor.
      + destruct (Eor e N) as (-> & -> & _). apply (s_nd g HS).
    - intros e v. change (gv g2 v) with (gv g v). destruct (Nat.eq_dec e d) as [->|N].
      + rewrite Ed. cbn [e_vars e_orig In]. tauto.
      + destruct (Eor e N) as (-> & -> & _). apply (s_var g HS).
    - intros e v. change (gv g2 v) with (gv g v). destruct (Nat.eq_dec e d) as [->|N].
      + rewrite Ed. cbn [e_vars In]. rewrite (s_eqs g HS). split; [|intros []]. apply Nonew.
      + destruct (Eor e N) as (_ & -> & _). apply (s_eqs g HS).
    - apply (s_der g HS).
    - apply (s_lt g HS).
    - intros e e'. change (ne g2) with (S d). destruct (Nat.eq_dec e d) as [->|N]; [rewrite Ed; discriminate|].
      destruct (Nat.eq_dec e i) as [->|Ni].
      + rewrite Ei. cbn [e_der]. intros H. injection H as <-. rewrite Ed. cbn [e_of]. split; [unfold d; lia|]. split; [lia|reflexivity].
      + rewrite E. destruct (Nat.eqb_spec e d); [contradiction|]. destruct (Nat.eqb_spec e i); [contradiction|].
        intros H. apply (s_ede g HS) in H. fold d in H. destruct H as (H1 & H2 & H3). destruct (Eor e') as (_ & _ & ->); [lia|]. split; [exact H1|]. split; [lia|exact H3].
    - apply (s_del g HS). }
  change (dirty_differentiate true g2 i d) with (fold_left (dstep d) (e_orig (ge g2 i)) g2).
  rewrite Ei. cbn [e_orig].
  assert (Hd2 : d < ne g2) by (cbn [g2 ne]; lia).
  destruct (dirty_ok d (e_orig (ge g i)) g2 S2 Hd2) as (A1 & A2 & A3 & A4 & A5 & A6 & A7).
  { intros v I. split; [apply (s_or g HS) in I; apply I|apply Hv; exact I]. }
  split; [exact A1|]. split; [exact A2|]. split; [exact A3|]. split; [exact A4|]. split; [|split; [|split]].
  - intros e N1 N2. rewrite A5; [|exact N1]. rewrite E. destruct (Nat.eqb_spec e d); [contradiction|].
    destruct (Nat.eqb_spec e i); [contradiction|reflexivity].
  - rewrite A5; [|exact Hdd]. rewrite Ei. repeat split.
  - destruct A6 as (-> & _ & -> & ->). rewrite Ed. repeat split.
  - intros x. rewrite A7, Ed. cbn [e_orig In]. change (gv g2) with (gv g). tauto.
Qed.

(** * markCodeBlockUsed: use counts are reference counts *)
From Coq Require Import List Bool Arith Lia.
From Verif Require Import Graph_model Graph_spec Codegen_model Codegen_spec Codegen_dfs.
Import ListNotations.

Lemma upd_eq {A} (f : nat -> A) i v : upd f i v i = v.
Proof. unfold upd. rewrite Nat.eqb_refl. reflexivity. Qed.
Lemma upd_neq {A} (f : nat -> A) i v j : j <> i -> upd f i v j = f j.
Proof. intros H. unfold upd. apply Nat.eqb_neq in H. rewrite H. reflexivity. Qed.

Lemma obind_done {A C} (x : outcome A) (f : A -> outcome C) y : obind x f = Done y -> exists a, x = Done a /\ f a = Done y.
Proof. destruct x; cbn; intros H; try discriminate. eexists; split; [reflexivity|exact H]. Qed.

Notation cnt := (count_occ Nat.eq_dec).

Lemma isum_change (f f' : nat -> nat) k l : NoDup l -> In k l -> (forall n, n <> k -> f' n = f n) ->
  isum f' l + f k = isum f l + f' k.
Proof.
  induction l as [|a l IH]; intros Hn Hi He; [destruct Hi|]. rewrite !isum_cons.
  apply NoDup_cons_iff in Hn. destruct Hn as [Ha Hn]. destruct Hi as [->|Hi].
  - assert (isum f' l = isum f l) as ->.
    { unfold isum. f_equal. apply map_ext_in. intros x Hx. apply He. intros ->. auto. }
    lia.
  - rewrite (He a) by (intros ->; auto). specialize (IH Hn Hi He). lia.
Qed.

Section Use.
Context {B : Type} {O : BaseOps B}.
Variable g : heap B.
Variable indeps : list nat.
Variable deps : list (arg B).
Hypothesis HG : gen_input g indeps deps.

Notation P := (reach g deps).

Lemma anodes_in j (l : list (arg B)) : In j (anodes l) <-> In (ANode j) l.
Proof.
  induction l as [|[k|b] l IH]; cbn [anodes].
  - split; intros [].
  - split; (intros [H|H]; [left; congruence|right; apply IH, H]).
  - split; [intros H; right; apply IH, H|intros [H|H]; [discriminate|apply IH, H]].
Qed.

Lemma P_arg i j : P i -> In j (nargs g i) -> P j.
Proof. intros H Hj. eapply reach_arg; [exact H|]. apply nargs_edge, Hj. Qed.

Lemma P_node i : P i -> exists n, nth_error g i = Some n.
Proof. intros H. apply (gi_dom _ _ _ HG) in H. apply nth_error_Some in H. destruct (nth_error g i); [eauto|congruence]. Qed.

Lemma P_alias i : P i -> isAlias g i = true -> exists j, gargs g i = [ANode j] /\ nargs g i = [j].
Proof.
  intros Hp Ha. destruct (P_node _ Hp) as [n En]. unfold isAlias, nargs, gargs, opc in *. rewrite En in *.
  destruct (gi_alias _ _ _ HG i n Hp En) as [j Ej]; [destruct (n_op n); congruence|].
  exists j. rewrite Ej. split; reflexivity.
Qed.

Lemma P_inv_args i : P i -> isInv g i = true -> nargs g i = [].
Proof.
  intros Hp Ha. destruct (P_node _ Hp) as [n En]. pose proof (gi_arity _ _ _ HG i n Hp En) as Hl.
  unfold isInv, nargs, gargs, opc in *. rewrite En in *. destruct (n_op n); try discriminate.
  destruct (n_args n); [reflexivity|discriminate].
Qed.

Definition w (uc : nat -> nat) (n : nat) : nat :=
  if isInv g n then 0 else if isAlias g n then uc n else Nat.min 1 (uc n).

Definition refs (uc : nat -> nat) (j : nat) : nat := isum (fun n => w uc n * cnt (nargs g n) j) (seq 0 (length g)).

Definition pend (l : list el) (j : nat) : nat :=
  isum (fun e => e) (map (fun e => match el_step e with Analyze => if Nat.eqb (el_node e) j then 1 else 0 | _ => 0 end) l).

Lemma pend_app l l' j : pend (l ++ l') j = pend l j + pend l' j.
Proof. unfold pend. rewrite map_app. apply isum_app. Qed.
Lemma pend_cons e l j : pend (e :: l) j =
  match el_step e with Analyze => if Nat.eqb (el_node e) j then 1 else 0 | _ => 0 end + pend l j.
Proof. reflexivity. Qed.
Lemma pend_args p l j : pend (map (fun k => mkEl p k Analyze) l) j = cnt l j.
Proof.
  induction l as [|a l IH]; [reflexivity|]. cbn [map]. rewrite pend_cons, IH. cbn [el_step el_node count_occ].
  destruct (Nat.eq_dec a j) as [->|Hn]; [rewrite Nat.eqb_refl; reflexivity|].
  apply Nat.eqb_neq in Hn. rewrite Hn. reflexivity.
Qed.

Definition UI (D : list nat) (stack : list el) (uc : nat -> nat) : Prop :=
  (forall j, uc j + pend stack j = cnt D j + refs uc j) /\
  (forall j, 0 < uc j -> P j) /\
  Forall (fun e => P (el_node e)) stack.

Lemma refs_upd uc i j d : i < length g ->
  w (upd uc i (S (uc i))) i = w uc i + d ->
  refs (upd uc i (S (uc i))) j = refs uc j + d * cnt (nargs g i) j.
Proof.
  intros Hi Hd. unfold refs.
  pose proof (isum_change (fun n => w uc n * cnt (nargs g n) j)
                (fun n => w (upd uc i (S (uc i))) n * cnt (nargs g n) j) i (seq 0 (length g))) as H.
  cbv beta in H. rewrite Hd in H.
  assert (isum (fun n => w (upd uc i (S (uc i))) n * cnt (nargs g n) j) (seq 0 (length g)) + w uc i * cnt (nargs g i) j
          = isum (fun n => w uc n * cnt (nargs g n) j) (seq 0 (length g)) + (w uc i + d) * cnt (nargs g i) j).
  { apply H; [apply seq_NoDup|apply in_seq; lia|].
    intros n Hn. unfold w. rewrite (upd_neq _ _ _ _ Hn). reflexivity. }
  lia.
Qed.

Lemma mark_inv fuel D stack uc uc' : dfs (markPre g) markPost fuel stack uc = Done uc' ->
  UI D stack uc -> UI D [] uc'.
Proof.
  apply dfs_inv.
  - intros p i rest st st' pushed c (H1 & H2 & H3) E.
    apply Forall_cons_iff in H3. destruct H3 as [Hi H3]. cbn [el_node] in Hi.
    pose proof (gi_dom _ _ _ HG _ Hi) as Hlt.
    assert (Hst' : st' = upd st i (S (st i)) /\
                   (exists d, w (upd st i (S (st i))) i = w st i + d /\ forall j, pend pushed j = d * cnt (nargs g i) j) /\
                   Forall (fun e => P (el_node e)) pushed).
    { unfold markPre in E. unfold w. rewrite upd_eq in *.
      destruct (isInv g i) eqn:Einv.
      { injection E as <- <- <-. split; [reflexivity|]. split; [|constructor].
        exists 0. split; [reflexivity|reflexivity]. }
      destruct (isAlias g i) eqn:Eal.
      { destruct (P_alias _ Hi Eal) as (j & Ej & Ej'). rewrite Ej in E. injection E as <- <- <-.
        split; [reflexivity|]. split.
        - exists 1. split; [lia|]. intros k. rewrite Ej'.
          change [mkEl (Some i) j Analyze] with (map (fun k => mkEl (Some i) k Analyze) [j]).
          rewrite pend_args. lia.
        - constructor; [|constructor]. cbn. eapply P_arg; [exact Hi|]. rewrite Ej'. left; reflexivity. }
      destruct (Nat.eqb (S (st i)) 1) eqn:E1.
      - injection E as <- <- <-. split; [reflexivity|]. apply Nat.eqb_eq in E1. split.
        + exists 1. split; [lia|]. intros k. unfold pushArgs. rewrite pend_args. lia.
        + unfold pushArgs. apply Forall_map. apply Forall_forall. intros k Hk. cbn. eapply P_arg; eauto.
      - injection E as <- <- <-. split; [reflexivity|]. apply Nat.eqb_neq in E1. split; [|constructor].
        exists 0. split; [lia|]. reflexivity. }
    destruct Hst' as (-> & (d & Hd & Hp) & Hpu). split; [|split].
    + intros j. rewrite pend_app.
      assert (pend (mkEl p i (if c then ChildrenVisited else Exit) :: rest) j = pend rest j) as ->
        by (destruct c; reflexivity).
      rewrite (refs_upd _ _ _ d Hlt Hd), Hp. specialize (H1 j). rewrite pend_cons in H1. cbn [el_step el_node] in H1.
      destruct (Nat.eqb i j) eqn:Eij.
      * apply Nat.eqb_eq in Eij. subst j. rewrite upd_eq. lia.
      * apply Nat.eqb_neq in Eij. rewrite upd_neq by auto. lia.
    + intros j Hj. destruct (Nat.eq_dec j i) as [->|Hn]; [exact Hi|]. rewrite upd_neq in Hj by auto. auto.
    + apply Forall_app; split; [exact Hpu|]. constructor; [exact Hi|exact H3].
  - intros p i rest st (H1 & H2 & H3). apply Forall_cons_iff in H3. unfold markPost. split; [|split].
    + intros j. rewrite <- H1, pend_cons. reflexivity.
    + exact H2.
    + apply H3.
  - intros p i rest st (H1 & H2 & H3). apply Forall_cons_iff in H3. split; [|split].
    + intros j. rewrite <- H1, pend_cons. reflexivity.
    + exact H2.
    + apply H3.
Qed.

Lemma mark_fold_inv fuel : forall l D uc uc', (forall i, In i l -> P i) ->
  ofold (markCodeBlockUsed g fuel) l uc = Done uc' -> UI D [] uc -> UI (D ++ l) [] uc'.
Proof.
  induction l as [|i l IH]; intros D uc uc' HP E HI; cbn [ofold] in E.
  - injection E as <-. rewrite app_nil_r. exact HI.
  - apply obind_done in E. destruct E as (uc1 & E1 & E2).
    replace (D ++ i :: l) with ((D ++ [i]) ++ l) by (rewrite <- app_assoc; reflexivity).
    eapply IH; [intros k Hk; apply HP; right; exact Hk|exact E2|].
    eapply mark_inv; [exact E1|]. destruct HI as (H1 & H2 & H3).
    split; [|split; [exact H2|constructor; [apply HP; left; reflexivity|constructor]]].
    intros j. rewrite pend_cons. cbn [el_step el_node]. rewrite count_occ_app. cbn [count_occ].
    specialize (H1 j). change (pend [] j) with 0 in *.
    destruct (Nat.eq_dec i j) as [->|Hn]; [rewrite Nat.eqb_refl; lia|].
    apply Nat.eqb_neq in Hn. rewrite Hn. lia.
Qed.

(** ** The counts after the whole pass *)
Variable uc : nat -> nat.
Variable fuelu : nat.
Hypothesis Huc : ofold (markCodeBlockUsed g fuelu) (anodes deps) (fun _ => 0) = Done uc.

Lemma uc_eq j : uc j = cnt (anodes deps) j + refs uc j.
Proof.
  assert (H : UI ([] ++ anodes deps) [] uc).
  { eapply mark_fold_inv; [|exact Huc|].
    - intros i Hi. apply reach_dep. apply anodes_in, Hi.
    - split; [|split; [intros q Hq; lia|constructor]].
      intros k. cbn. change (pend [] k) with 0. unfold refs.
      assert (forall l, isum (fun n => w (fun _ => 0) n * cnt (nargs g n) k) l = 0) as Hz.
      { induction l as [|a l IH]; [reflexivity|]. rewrite isum_cons, IH. unfold w.
        destruct (isInv g a), (isAlias g a); reflexivity. }
      rewrite Hz. reflexivity. }
  destruct H as (H & _). specialize (H j). change (pend [] j) with 0 in H. cbn in H. lia.
Qed.

Lemma refs_ge n j : P n -> w uc n * cnt (nargs g n) j <= refs uc j.
Proof.
  intros Hn. apply (isum_in (fun n => w uc n * cnt (nargs g n) j)). apply in_seq.
  apply (gi_dom _ _ _ HG) in Hn. lia.
Qed.

Lemma refs_ge2 n n' j : P n -> P n' -> n <> n' ->
  w uc n * cnt (nargs g n) j + w uc n' * cnt (nargs g n') j <= refs uc j.
Proof.
  intros Hn Hn' Hne. unfold refs.
  apply (gi_dom _ _ _ HG) in Hn. apply (gi_dom _ _ _ HG) in Hn'.
  pose proof (isum_change (fun n => w uc n * cnt (nargs g n) j)
     (fun k => if Nat.eqb k n then 0 else w uc k * cnt (nargs g k) j) n (seq 0 (length g)) (seq_NoDup _ _)) as H.
  cbv beta in H. rewrite Nat.eqb_refl in H.
  rewrite Nat.add_0_r in H. rewrite <- H.
  - pose proof (isum_in (fun k => if Nat.eqb k n then 0 else w uc k * cnt (nargs g k) j) (seq 0 (length g)) n') as H2.
    cbv beta in H2. replace (Nat.eqb n' n) with false in H2 by (symmetry; apply Nat.eqb_neq; auto).
    specialize (H2 ltac:(apply in_seq; lia)). lia.
  - apply in_seq; lia.
  - intros k Hk. apply Nat.eqb_neq in Hk. rewrite Hk. reflexivity.
Qed.

Lemma cnt_in l j : In j l <-> 0 < cnt l j.
Proof. apply count_occ_In. Qed.

Lemma w_pos n : P n -> 0 < uc n -> isInv g n = false -> 0 < w uc n.
Proof. intros Hp Hu Hi. unfold w. rewrite Hi. destruct (isAlias g n); lia. Qed.

Lemma uc_pos i : P i -> 0 < uc i.
Proof.
  induction 1 as [i Hi|i j Hi IH He].
  - rewrite uc_eq. apply anodes_in in Hi. apply cnt_in in Hi. lia.
  - apply nargs_edge in He. rewrite uc_eq.
    assert (0 < w uc i).
    { apply w_pos; auto. destruct (isInv g i) eqn:E; [|reflexivity].
      rewrite (P_inv_args _ Hi E) in He. destruct He. }
    pose proof (refs_ge i j Hi). apply cnt_in in He. nia.
Qed.

Lemma w_arg n j : P n -> In j (nargs g n) -> 0 < w uc n.
Proof.
  intros Hp Hj. apply w_pos; auto using uc_pos. destruct (isInv g n) eqn:E; [|reflexivity].
  rewrite (P_inv_args _ Hp E) in Hj. destruct Hj.
Qed.

(** a node with one use has one parent and is no dependent *)
Lemma uc_one_parent j n n' : uc j <= 1 -> P n -> P n' -> In j (nargs g n) -> In j (nargs g n') -> n = n'.
Proof.
  intros Hu Hn Hn' Hj Hj'. destruct (Nat.eq_dec n n') as [|Hne]; [assumption|exfalso].
  pose proof (refs_ge2 n n' j Hn Hn' Hne). pose proof (w_arg _ _ Hn Hj). pose proof (w_arg _ _ Hn' Hj').
  apply cnt_in in Hj, Hj'. rewrite uc_eq in Hu. nia.
Qed.

Lemma uc_one_once j n : uc j <= 1 -> P n -> In j (nargs g n) -> cnt (nargs g n) j = 1.
Proof.
  intros Hu Hn Hj. pose proof (refs_ge n j Hn). pose proof (w_arg _ _ Hn Hj).
  apply cnt_in in Hj. rewrite uc_eq in Hu. nia.
Qed.

Lemma uc_dep_arg j n : P n -> In j (nargs g n) -> In (ANode j) deps -> 2 <= uc j.
Proof.
  intros Hn Hj Hd. pose proof (refs_ge n j Hn). pose proof (w_arg _ _ Hn Hj).
  apply cnt_in in Hj. apply anodes_in in Hd. apply cnt_in in Hd. rewrite uc_eq. nia.
Qed.

Lemma uc_alias n j : P n -> isAlias g n = true -> In j (nargs g n) -> uc n <= uc j.
Proof.
  intros Hn Ha Hj. pose proof (refs_ge n j Hn). pose proof (w_arg _ _ Hn Hj) as Hw.
  rewrite (uc_eq j). apply cnt_in in Hj.
  assert (w uc n = uc n).
  { unfold w in *. rewrite Ha in *. destruct (isInv g n); [lia|reflexivity]. }
  nia.
Qed.
End Use.

Section UseTerm.
Context {B : Type} {O : BaseOps B}.
Variable g : heap B.
Variable indeps : list nat.
Variable deps : list (arg B).
Hypothesis HG : gen_input g indeps deps.
Variable c : nat -> nat.
Hypothesis Hc : forall i, 3 + isum c (nargs g i) <= c i.

Lemma mark_total fuel i uc : reach g deps i -> c i < fuel -> exists uc', markCodeBlockUsed g fuel i uc = Done uc'.
Proof.
  intros Hi Hf. unfold markCodeBlockUsed.
  apply (dfs_terminates g c Hc (markPre g) markPost (reach g deps)).
  - intros a b. apply reach_arg.
  - intros p k st Hk. unfold markPre. rewrite upd_eq.
    destruct (isInv g k); [do 3 eexists; split; [reflexivity|split; [cbn; lia|constructor]]|].
    destruct (isAlias g k) eqn:Ea.
    + destruct (P_alias g indeps deps HG _ Hk Ea) as (j & Ej & Ej'). rewrite Ej.
      do 3 eexists; split; [reflexivity|]. split; [rewrite Ej'; cbn; lia|].
      constructor; [|constructor]. apply (P_arg g deps k); [exact Hk|rewrite Ej'; left; reflexivity].
    + destruct (Nat.eqb _ 1); do 3 eexists; (split; [reflexivity|]).
      * split; [rewrite scost_pushArgs; lia|]. unfold pushArgs. apply Forall_map, Forall_forall.
        intros j Hj. apply (P_arg g deps k); assumption.
      * split; [cbn; lia|constructor].
  - constructor; [exact Hi|constructor].
  - cbn. unfold ecost. cbn. lia.
Qed.

Lemma ofold_total {A} (f : nat -> A -> outcome A) l : (forall i a, In i l -> exists a', f i a = Done a') ->
  forall a, exists a', ofold f l a = Done a'.
Proof.
  induction l as [|i l IH]; intros H a; [eexists; reflexivity|]. cbn [ofold].
  destruct (H i a (or_introl eq_refl)) as [a' ->]. cbn [obind]. apply IH. intros; apply H; right; assumption.
Qed.

Lemma ofold_inv {A} (f : nat -> A -> outcome A) (I : list nat -> A -> Prop) : forall l,
  (forall i D a a', In i l -> I D a -> f i a = Done a' -> I (D ++ [i]) a') ->
  forall D a a', I D a -> ofold f l a = Done a' -> I (D ++ l) a'.
Proof.
  induction l as [|i l IH]; intros H D a a' HI E; cbn [ofold] in E.
  - injection E as <-. rewrite app_nil_r. exact HI.
  - apply obind_done in E. destruct E as (a1 & E1 & E2).
    replace (D ++ i :: l) with ((D ++ [i]) ++ l) by (rewrite <- app_assoc; reflexivity).
    eapply IH; [|eapply H; [left; reflexivity|exact HI|exact E1]|exact E2].
    intros; eapply H; [right; eassumption|eassumption|eassumption].
Qed.
End UseTerm.

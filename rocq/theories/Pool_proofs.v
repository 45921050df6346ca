(** * Proofs on the thread pool: safety *)
From Coq Require Import List Bool Arith ZArith Lia Permutation.
From Verif Require Import Graph_model Codegen_model Pool_model PoolSys_model.
Import ListNotations.

Section Lists.
Context {A : Type}.
Fixpoint cnt (f : A -> nat) (l : list A) : nat := match l with [] => 0 | a :: l' => f a + cnt f l' end.
Lemma setNth_length (l : list A) : forall i a, length (setNth l i a) = length l.
Proof. induction l as [|x l IH]; intros [|i] a; cbn [setNth length]; auto. Qed.
Lemma cnt_set f (l : list A) : forall i a o, nth_error l i = Some o -> cnt f (setNth l i a) + f o = cnt f l + f a.
Proof.
  induction l as [|x l IH]; intros [|i] a o H; cbn [nth_error setNth cnt] in *; try discriminate; [injection H as ->; lia|].
  specialize (IH i a o H). lia.
Qed.
Lemma cnt_in f (l : list A) i o : nth_error l i = Some o -> f o <= cnt f l.
Proof. revert i. induction l as [|x l IH]; intros [|i] H; cbn [nth_error cnt] in *; try discriminate; [injection H as ->; lia|]. specialize (IH i H). lia. Qed.
Lemma cnt_zero f (l : list A) : cnt f l = 0 -> forall i o, nth_error l i = Some o -> f o = 0.
Proof. intros H i o E. pose proof (cnt_in f l i o E). lia. Qed.
Lemma cnt_app f (l l' : list A) : cnt f (l ++ l') = cnt f l + cnt f l'.
Proof. induction l as [|x l IH]; cbn [app cnt]; lia. Qed.
Lemma cnt_ext f g (l : list A) : (forall a, f a = g a) -> cnt f l = cnt g l.
Proof. intros H. induction l as [|x l IH]; cbn [cnt]; rewrite ?H, ?IH; reflexivity. Qed.
Lemma cnt_le f g (l : list A) : (forall a, f a <= g a) -> cnt f l <= cnt g l.
Proof. intros H. induction l as [|x l IH]; cbn [cnt]; [lia|]. specialize (H x). lia. Qed.
Lemma nth_set_eq (l : list A) : forall i a, i < length l -> nth_error (setNth l i a) i = Some a.
Proof. induction l as [|x l IH]; intros [|i] a H; cbn [length] in *; try lia; cbn; [reflexivity|apply IH; lia]. Qed.
Lemma nth_set_ne (l : list A) : forall i j a, i <> j -> nth_error (setNth l i a) j = nth_error l j.
Proof. induction l as [|x l IH]; intros [|i] [|j] a H; cbn; try reflexivity; try congruence. apply IH; congruence. Qed.
Context {C : Type}.
Lemma flat_set (f : A -> list C) (l : list A) : forall i a o, nth_error l i = Some o ->
  Permutation (flat_map f (setNth l i a) ++ f o) (flat_map f l ++ f a).
Proof.
  induction l as [|x l IH]; intros [|i] a o H; cbn [nth_error setNth flat_map] in *; try discriminate.
  - injection H as ->. rewrite <- !app_assoc. rewrite (Permutation_app_comm (flat_map f l)).
    rewrite (Permutation_app_comm (flat_map f l) (f a)). rewrite !app_assoc. apply Permutation_app_tail, Permutation_app_comm.
  - rewrite <- !app_assoc. apply Permutation_app_head, IH, H.
Qed.
Lemma flat_set_same (f : A -> list C) (l : list A) : forall i a o, nth_error l i = Some o -> f a = f o -> flat_map f (setNth l i a) = flat_map f l.
Proof.
  induction l as [|x l IH]; intros [|i] a o H E; cbn [nth_error setNth flat_map] in *; try discriminate; [injection H as ->; rewrite E; reflexivity|].
  rewrite (IH i a o H E). reflexivity.
Qed.
End Lists.
Lemma cnt_map {A C} (h : C -> A) (f : A -> nat) (l : list C) : cnt f (map h l) = cnt (fun x => f (h x)) l.
Proof. induction l as [|x l IH]; cbn [map cnt]; rewrite ?IH; reflexivity. Qed.

Lemma swap_mid {X} (a b c : list X) : Permutation ((a ++ b) ++ c) ((a ++ c) ++ b).
Proof. rewrite <- !app_assoc. apply Permutation_app_head, Permutation_app_comm. Qed.

Section Sys.
Context {F : Type} {FO : FOps F}.
Variable maxwork : F.
Notation st := (@st F). Notation job := (@job F). Notation wpc := (@wpc F).

(** workers counted in num_threads_working; holders of thcount_lock; jobs of a worker *)
Definition isWorking (p : wpc) : nat := match p with WPull | WRun _ | WBusy _ _ | WIdle => 1 | _ => 0 end.
Definition holdsT (t : tpc) : nat := match t with TLen _ | TGrp _ | TWork _ => 1 | _ => 0 end.
Definition holdsW (p : wpc) : nat := match p with WUnlock => 1 | _ => 0 end.
Definition held (p : wpc) : list job := match p with WRun js => js | WBusy j js => j :: js | _ => [] end.
Definition running (p : wpc) : list job := match p with WBusy j _ => [j] | _ => [] end.

Definition pending (s : st) : list job := q_jobs (s_q s) ++ concat (q_groups (s_q s)).
Definition covered (k : nat) (s : st) (l : list job) : Prop := exists rest, Permutation l (firstn k (s_pushed s) ++ rest).

Record Inv (s : st) : Prop := {
  i_work : s_work s = cnt isWorking (s_ws s);
  i_T : cnt holdsT (s_ts s) + cnt holdsW (s_ws s) = if s_T s then 1 else 0;
  i_perm : Permutation (s_pushed s) (pending s ++ flat_map held (s_ws s) ++ s_finished s);
  i_start : Permutation (s_started s) (flat_map running (s_ws s) ++ s_finished s);
  i_wait : forall i t, nth_error (s_ts s) i = Some t -> match t with
     | TLock k | TLen k | TSleep k => k <= length (s_pushed s)
     | TGrp k => k <= length (s_pushed s) /\ (s_work s = 0 -> covered k s (s_finished s ++ concat (q_groups (s_q s))))
     | TWork k => k <= length (s_pushed s) /\ (s_work s = 0 -> covered k s (s_finished s))
     | TDone k => k <= length (s_pushed s) /\ covered k s (s_finished s)
     end }.

Lemma cnt_repeat0 (n : nat) (f : wpc -> nat) p : f p = 0 -> cnt f (repeat p n) = 0.
Proof. intros H. induction n as [|n IH]; cbn [repeat cnt]; [reflexivity|]. rewrite H, IH. reflexivity. Qed.
Lemma init_Inv n x : Inv (init n x).
Proof.
  split; cbn.
  - symmetry. apply cnt_repeat0. reflexivity.
  - apply cnt_repeat0. reflexivity.
  - unfold pending. cbn. induction n as [|n IH]; cbn; auto.
  - induction n as [|n IH]; cbn; auto.
  - intros [|i] t H; discriminate.
Qed.

(** ** Pull *)
Lemma extract1_jobs (q : @queue F) j q' : extract1 q = Some (j, q') -> q_jobs q = j :: q_jobs q' /\ q_groups q' = q_groups q.
Proof. unfold extract1. destruct (q_jobs q) as [|a [|b l]]; [discriminate| |]; intros [= <- <-]; auto. Qed.
Lemma extractN_jobs n : forall (q : @queue F) l q', extractN n q = Done (l, q') -> q_jobs q = l ++ q_jobs q' /\ q_groups q' = q_groups q /\ length l = n.
Proof.
  induction n as [|n IH]; intros q l q' E; cbn [extractN] in E; [injection E as <- <-; auto|].
  destruct (extract1 q) as [[j q1]|] eqn:E1; [|discriminate]. destruct (extractN n q1) as [[l1 q2]| |] eqn:E2; cbn [obind] in E; try discriminate.
  injection E as <- <-. destruct (extract1_jobs _ _ _ E1) as [A1 A2]. destruct (IH _ _ _ E2) as (B1 & B2 & B3). cbn [fst snd].
  split; [rewrite A1, B1; reflexivity|]. split; [congruence|cbn; lia].
Qed.
Lemma walk_size (rest : list job) : forall dn tg size d n d', walk rest dn tg size d = Done (n, d') -> size <= n.
Proof.
  induction rest as [|j rest IH]; intros dn tg size d n d' E; cbn [walk] in E; [discriminate|].
  destruct (j_avg j) as [a|]; [|injection E as <- <-; lia]. destruct (flt _ tg); [|injection E as <- <-; lia]. apply IH in E. lia.
Qed.
(** what a pull takes is exactly what leaves the queue *)
Lemma pull_spec x n now failed (q : @queue F) r q' : pull x n maxwork now failed q = Done (r, q') ->
  match r with
  | None => q' = q /\ q_jobs q = [] /\ (x = STATIC -> q_groups q = [])
  | Some g => (x = STATIC /\ q_groups q = g :: q_groups q' /\ q_jobs q' = q_jobs q) \/
              ((x = STATIC -> q_groups q = []) /\ q_groups q' = q_groups q /\ q_jobs q = g ++ q_jobs q' /\ g <> [])
  end.
Proof.
  unfold pull. intros E.
  assert (Hs : forall g q1, pullSingle q = (g, q1) -> q_jobs q <> [] -> q_groups q1 = q_groups q /\ q_jobs q = g ++ q_jobs q1 /\ g <> []).
  { intros g q1 E1 Hne. unfold pullSingle in E1. destruct (extract1 q) as [[j q2]|] eqn:E2.
    - injection E1 as <- <-. destruct (extract1_jobs _ _ _ E2) as [A1 A2]. split; [exact A2|]. split; [rewrite A1; reflexivity|discriminate].
    - unfold extract1 in E2. destruct (q_jobs q) as [|a [|b l]]; [contradiction|discriminate|discriminate]. }
  assert (HE : (x = STATIC -> q_groups q = []) -> match q_jobs q with
    | [] => Done (None, q)
    | first :: rest =>
      if (match x with DYNAMIC => true | _ => false end) || Nat.eqb (length (q_jobs q)) 1 || fle (q_total q) f0
      then let (g, q') := pullSingle q in Done (Some g, q')
      else match j_avg first with
           | None => let (g, q') := pullSingle q in Done (Some g, q')
           | Some d =>
               let target0 := fdiv (fmul (q_total q) maxwork) (fofnat n) in
               let target := if flt f0 (q_ret q) && failed
                             then let m := fmul f09 (fsub (q_ret q) now) in if flt target0 m then m else target0
                             else target0 in
               obind (walk rest d target 1 d) (fun r =>
               obind (extractN (fst r) q) (fun e =>
               let q' := snd e in let dn := fadd now (snd r) in
               Done (Some (fst e), if flt (q_ret q') dn then mkQ (q_jobs q') (q_groups q') (q_total q') dn else q')))
           end
    end = Done (r, q') -> match r with
  | None => q' = q /\ q_jobs q = [] /\ (x = STATIC -> q_groups q = [])
  | Some g => (x = STATIC /\ q_groups q = g :: q_groups q' /\ q_jobs q' = q_jobs q) \/
              ((x = STATIC -> q_groups q = []) /\ q_groups q' = q_groups q /\ q_jobs q = g ++ q_jobs q' /\ g <> []) end).
  { clear E. intros HG E. destruct (q_jobs q) as [|first rest] eqn:Eq; [injection E as <- <-; auto|].
    destruct (pullSingle q) as [g q1] eqn:Es. destruct (Hs g q1 eq_refl ltac:(discriminate)) as (S1 & S2 & S3). rewrite <- Eq in *.
    destruct (_ || _); [injection E as <- <-; right; auto|]. destruct (j_avg first) as [d|]; [|injection E as <- <-; right; auto].
    cbv zeta in E. destruct (walk rest d _ 1 d) as [[sz dd]| |] eqn:Ew; cbn [obind] in E; try discriminate.
    destruct (extractN (fst (sz, dd)) q) as [[l q2]| |] eqn:Ee; cbn [obind] in E; try discriminate. cbn [fst snd] in *.
    destruct (extractN_jobs _ _ _ _ Ee) as (A1 & A2 & A3). apply walk_size in Ew. injection E as <- <-. right.
    assert (Hl : l <> []) by (destruct l; [cbn in A3; lia|discriminate]).
    destruct (flt (q_ret q2) _); cbn [q_groups q_jobs]; auto. }
  destruct x.
  - destruct (q_groups q) as [|g gs] eqn:Eg; [apply HE; auto|]. injection E as <- <-. left. cbn [q_groups q_jobs]. auto.
  - apply HE; [discriminate|exact E].
  - apply HE; [discriminate|exact E].
Qed.

(** ** Preservation *)
Lemma held_wake p : held (wakeW p) = held p. Proof. destruct p; reflexivity. Qed.
Lemma running_wake p : running (wakeW p) = running p. Proof. destruct p; reflexivity. Qed.
Lemma working_wake p : isWorking (wakeW p) = isWorking p. Proof. destruct p; reflexivity. Qed.
Lemma holds_wake p : holdsW (wakeW p) = holdsW p. Proof. destruct p; reflexivity. Qed.
Lemma flat_map_map {X Y Z} (h : X -> Y) (f : Y -> list Z) l : flat_map f (map h l) = flat_map (fun x => f (h x)) l.
Proof. induction l as [|a l IH]; cbn; [reflexivity|]. rewrite IH. reflexivity. Qed.
Lemma flat_ext' {X Z} (f g : X -> list Z) l : (forall a, f a = g a) -> flat_map f l = flat_map g l.
Proof. intros H. induction l as [|a l IH]; cbn; rewrite ?H, ?IH; reflexivity. Qed.

(** the parts of a state the invariant looks at, up to moves of workers which hold nothing *)
Definition wsame (l l' : list wpc) : Prop :=
  length l' = length l /\ cnt isWorking l' = cnt isWorking l /\ cnt holdsW l' = cnt holdsW l /\ flat_map held l' = flat_map held l /\ flat_map running l' = flat_map running l.
Lemma wsame_refl l : wsame l l. Proof. repeat split. Qed.
Lemma wsame_set (l : list wpc) i a o : nth_error l i = Some o -> isWorking a = isWorking o -> holdsW a = holdsW o -> held a = held o -> running a = running o -> wsame l (setNth l i a).
Proof.
  intros H H1 H2 H3 H4. split; [apply setNth_length|]. split; [pose proof (cnt_set isWorking l i a o H); lia|]. split; [pose proof (cnt_set holdsW l i a o H); lia|].
  split; eapply flat_set_same; eassumption.
Qed.
Lemma wsame_wake l : wsame l (map wakeW l).
Proof.
  split; [apply map_length|]. rewrite !cnt_map, !flat_map_map. split; [apply cnt_ext, working_wake|]. split; [apply cnt_ext, holds_wake|].
  split; apply flat_ext'; [apply held_wake|apply running_wake].
Qed.
Lemma wsame_trans l1 l2 l3 : wsame l1 l2 -> wsame l2 l3 -> wsame l1 l3.
Proof. intros (A1 & A2 & A3 & A4 & A5) (B1 & B2 & B3 & B4 & B5). repeat split; congruence. Qed.

(** v and the wsame part may change freely *)
Lemma Inv_ws s l v : Inv s -> wsame (s_ws s) l -> Inv (upWs l (upV v s)).
Proof.
  intros [H1 H2 H3 H4 H5] (A1 & A2 & A3 & A4 & A5). split; cbn; [congruence|rewrite A3; exact H2| | |exact H5].
  - unfold pending in *. cbn. rewrite A4. exact H3.
  - rewrite A5. exact H4.
Qed.
(** only sleeping workers change *)
Definition awake (l l' : list wpc) : Prop := forall i o, o <> WSleep -> nth_error l i = Some o -> nth_error l' i = Some o.
Lemma posted_ws s s' : posted s s' -> exists l, s' = upWs l (upV true s) /\ wsame (s_ws s) l /\ awake (s_ws s) l.
Proof.
  intros [s0 i H|s0 H].
  - exists (setNth (s_ws s0) i WCheck). split; [reflexivity|]. split; [eapply wsame_set; [exact H| | | |]; reflexivity|].
    intros k o Ho Hk. destruct (Nat.eq_dec i k) as [<-|Hn]; [congruence|]. rewrite nth_set_ne by exact Hn. exact Hk.
  - exists (s_ws s0). split; [destruct s0; reflexivity|]. split; [apply wsame_refl|]. intros k o _ Hk. exact Hk.
Qed.
Lemma repost_ws s s' : repost s s' -> exists l v, s' = upWs l (upV v s) /\ wsame (s_ws s) l /\ awake (s_ws s) l.
Proof.
  intros [s0 s1 H P|s0 H].
  - destruct (posted_ws _ _ P) as (l & -> & W & A). exists l, true. auto.
  - exists (s_ws s0), (s_v s0). split; [destruct s0; reflexivity|]. split; [apply wsame_refl|]. intros k o _ Hk. exact Hk.
Qed.
Lemma posted_Inv s s' : Inv s -> posted s s' -> Inv s'.
Proof. intros H P. destruct (posted_ws _ _ P) as (l & -> & W & _). apply Inv_ws; assumption. Qed.
Lemma postAll_Inv s : Inv s -> Inv (postAll s).
Proof. intros H. apply Inv_ws; [exact H|apply wsame_wake]. Qed.

(** a worker which is not counted and holds nothing moves *)
Lemma Inv_setW s i a o : Inv s -> nth_error (s_ws s) i = Some o -> isWorking a = isWorking o -> holdsW a = holdsW o -> held a = held o -> running a = running o -> Inv (setW i a s).
Proof.
  intros H E H1 H2 H3 H4. replace (setW i a s) with (upWs (setNth (s_ws s) i a) (upV (s_v s) s)) by (destruct s; reflexivity).
  apply Inv_ws; [exact H|]. eapply wsame_set; eassumption.
Qed.

(** no one is inside thpool_wait with the lock when it is free *)
Lemma free_T s i t : Inv s -> s_T s = false -> nth_error (s_ts s) i = Some t -> holdsT t = 0.
Proof. intros H E Hi. pose proof (i_T s H) as HT. rewrite E in HT. apply (cnt_zero holdsT (s_ts s) ltac:(lia) i t Hi). Qed.
Lemma working_pos s i o : Inv s -> nth_error (s_ws s) i = Some o -> isWorking o = 1 -> s_work s <> 0.
Proof. intros H E Ho. rewrite (i_work s H). pose proof (cnt_in isWorking (s_ws s) i o E). lia. Qed.
Lemma idle_nothing (l : list wpc) : cnt isWorking l = 0 -> flat_map held l = [].
Proof.
  induction l as [|p l IH]; intros H; [reflexivity|]. cbn [cnt flat_map] in *. rewrite IH by lia. destruct p; cbn in *; try lia; reflexivity.
Qed.
Lemma covered_mono k s (l l' : list job) : covered k s l -> (exists r, Permutation l' (l ++ r)) -> covered k s l'.
Proof. intros (rest & H) (r & Hr). exists (rest ++ r). rewrite Hr, H, app_assoc. reflexivity. Qed.

Lemma setT_ts (s : st) i t t' : nth_error (s_ts s) i = Some t -> forall j u, nth_error (setNth (s_ts s) i t') j = Some u -> (j = i /\ u = t') \/ (j <> i /\ nth_error (s_ts s) j = Some u).
Proof.
  intros E j u H. destruct (Nat.eq_dec i j) as [<-|Hn].
  - rewrite nth_set_eq in H by (apply nth_error_Some; congruence). injection H as <-. left; auto.
  - rewrite nth_set_ne in H by exact Hn. right; auto.
Qed.

Lemma istep_Inv s s' : Inv s -> istep maxwork s s' -> Inv s'.
Proof.
  intros H Hstep. pose proof H as [H1 H2 H3 H4 H5]. destruct Hstep as [s i E|s i E Ev|s i E Ev|s i E Ek|s i E Ek ET|s i E Ek|s s1 i now failed g q' E Ek Ep Er|s s1 i now failed q' E Ek Ep Er|s i j js E|s i j js E|s i E|s s1 i E ET Es|s i E ET|s i E|s i k E ET|s i k E|s i k E|s i k E].
  - eapply Inv_setW; [exact H|exact E|..]; destruct (s_keep s); reflexivity.
  - replace (setW i WWoke (upV false s)) with (upWs (setNth (s_ws s) i WWoke) (upV false s)) by reflexivity.
    apply Inv_ws; [exact H|]. eapply wsame_set; [exact E|..]; reflexivity.
  - eapply Inv_setW; [exact H|exact E|..]; reflexivity.
  - eapply Inv_setW; [exact H|exact E|..]; reflexivity.
  - (* num_threads_working++ *)
    split; cbn.
    + pose proof (cnt_set isWorking (s_ws s) i WPull WWoke E) as C. cbn in C. lia.
    + pose proof (cnt_set holdsW (s_ws s) i WPull WWoke E) as C. cbn in C. lia.
    + unfold pending. cbn. rewrite (flat_set_same held (s_ws s) i WPull WWoke E eq_refl). exact H3.
    + rewrite (flat_set_same running (s_ws s) i WPull WWoke E eq_refl). exact H4.
    + intros m t Ht. pose proof (free_T s m t H ET Ht) as HT0. specialize (H5 m t Ht). destruct t; cbn in HT0; try lia; exact H5.
  - eapply Inv_setW; [exact H|exact E|..]; reflexivity.
  - (* pull: a group *)
    pose proof (pull_spec _ _ _ _ _ _ _ Ep) as HP. cbn in HP. pose proof (working_pos s i WPull H E eq_refl) as Hw.
    destruct (repost_ws _ _ Er) as (l & v & -> & (W1 & W2 & W3 & W4 & W5) & A). cbn in *. specialize (A i WPull ltac:(discriminate) E).
    assert (HP' : Permutation (q_jobs (s_q s) ++ concat (q_groups (s_q s))) (g ++ q_jobs q' ++ concat (q_groups q'))).
    { destruct HP as [(_ & G1 & G2)|(_ & G1 & G2 & _)].
      - rewrite G1, G2. cbn [concat]. rewrite !app_assoc. apply Permutation_app_tail, Permutation_app_comm.
      - rewrite G1, G2, <- app_assoc. reflexivity. }
    split; cbn.
    + pose proof (cnt_set isWorking l i (WRun g) WPull A) as C. cbn in C. lia.
    + pose proof (cnt_set holdsW l i (WRun g) WPull A) as C. cbn in C. lia.
    + pose proof (flat_set held l i (WRun g) WPull A) as C. cbn [held] in C. rewrite app_nil_r in C.
      unfold pending in *. cbn. rewrite C, W4, H3, HP'. rewrite <- !app_assoc. rewrite (Permutation_app_comm g). rewrite <- !app_assoc.
      do 2 apply Permutation_app_head. apply Permutation_app_head. apply Permutation_app_comm.
    + rewrite (flat_set_same running l i (WRun g) WPull A eq_refl), W5. exact H4.
    + intros m t Ht. specialize (H5 m t Ht). destruct t; try exact H5; split; try apply H5; intros; lia.
  - (* pull: nothing *)
    pose proof (pull_spec _ _ _ _ _ _ _ Ep) as HP. cbn in HP. destruct HP as (-> & HP).
    destruct (repost_ws _ _ Er) as (l & v & -> & W & A). cbn in *. specialize (A i WPull ltac:(discriminate) E).
    replace (setW i WIdle (upWs l (upV v (upQ (s_q s) s)))) with (upWs (setNth l i WIdle) (upV v s)) by (destruct s; reflexivity).
    apply Inv_ws; [exact H|]. eapply wsame_trans; [exact W|]. eapply wsame_set; [exact A|..]; reflexivity.
  - (* start *)
    split; cbn.
    + pose proof (cnt_set isWorking (s_ws s) i (WBusy j js) _ E) as C. cbn in C. lia.
    + pose proof (cnt_set holdsW (s_ws s) i (WBusy j js) _ E) as C. cbn in C. lia.
    + unfold pending in *. cbn. rewrite (flat_set_same held (s_ws s) i (WBusy j js) _ E eq_refl). exact H3.
    + pose proof (flat_set running (s_ws s) i (WBusy j js) _ E) as C. cbn [running] in C. rewrite app_nil_r in C.
      rewrite C, H4, <- !app_assoc. apply Permutation_app_head, Permutation_app_comm.
    + exact H5.
  - (* finish *)
    split; cbn.
    + pose proof (cnt_set isWorking (s_ws s) i (WRun js) _ E) as C. cbn in C. lia.
    + pose proof (cnt_set holdsW (s_ws s) i (WRun js) _ E) as C. cbn in C. lia.
    + unfold pending in *. cbn. rewrite H3. apply Permutation_app_head.
      pose proof (flat_set held (s_ws s) i (WRun js) _ E) as C. cbn [held] in C.
      apply (Permutation_app_inv_r js). rewrite swap_mid. rewrite <- C. rewrite <- !app_assoc. apply Permutation_app_head.
      change ([j] ++ js) with (j :: js). apply Permutation_app_comm.
    + pose proof (flat_set running (s_ws s) i (WRun js) _ E) as C. cbn [running] in C. rewrite app_nil_r in C.
      rewrite H4, <- C, <- !app_assoc. apply Permutation_app_head, Permutation_app_comm.
    + intros m t Ht. specialize (H5 m t Ht). destruct t; try exact H5; (split; [apply H5|]); try (intros Hw); destruct H5 as [_ H5]; try (specialize (H5 Hw));
        (eapply covered_mono; [exact H5|]); exists [j]; rewrite <- ?app_assoc; try reflexivity. apply Permutation_app_head, Permutation_app_comm.
  - eapply Inv_setW; [exact H|exact E|..]; reflexivity.
  - (* num_threads_working-- *)
    assert (HI : Inv (setW i WLoop (upWork (s_work s - 1) s))).
    { split; cbn.
      + pose proof (cnt_set isWorking (s_ws s) i WLoop _ E) as C. cbn in C. lia.
      + pose proof (cnt_set holdsW (s_ws s) i WLoop _ E) as C. cbn in C. lia.
      + unfold pending. cbn. rewrite (flat_set_same held (s_ws s) i WLoop _ E eq_refl). exact H3.
      + rewrite (flat_set_same running (s_ws s) i WLoop _ E eq_refl). exact H4.
      + intros m t Ht. pose proof (free_T s m t H ET Ht) as HT0. specialize (H5 m t Ht). destruct t; cbn in HT0; try lia; exact H5. }
    destruct (Nat.eqb _ 0); [|subst s1; exact HI]. remember (upWork (s_work s - 1) s) as s2 eqn:E2. destruct Es as [s2 m k Hm|s2 _]; [|subst; exact HI].
    replace (setW i WLoop (setT m (TLock k) s2)) with (setT m (TLock k) (setW i WLoop s2)) by reflexivity.
    revert HI. generalize (setW i WLoop s2) (eq_refl : s_ts (setW i WLoop s2) = s_ts s2). intros s3 E3 [G1 G2 G3 G4 G5].
    rewrite <- E3 in Hm. split; cbn; auto.
    + pose proof (cnt_set holdsT (s_ts s3) m (TLock k) _ Hm) as C. cbn in C. lia.
    + intros m' t Ht. destruct (setT_ts s3 m _ (TLock k) Hm m' t Ht) as [[-> ->]|[_ Ht']]; [apply (G5 m _ Hm)|apply (G5 m' t Ht')].
  - (* num_threads_alive-- *)
    rewrite ET in H2. split; cbn.
    + pose proof (cnt_set isWorking (s_ws s) i WUnlock _ E) as C. cbn in C. lia.
    + pose proof (cnt_set holdsW (s_ws s) i WUnlock _ E) as C. cbn in C. lia.
    + unfold pending. cbn. rewrite (flat_set_same held (s_ws s) i WUnlock _ E eq_refl). exact H3.
    + rewrite (flat_set_same running (s_ws s) i WUnlock _ E eq_refl). exact H4.
    + exact H5.
  - pose proof (cnt_in holdsW (s_ws s) i _ E) as Hin. cbn in Hin. split; cbn.
    + pose proof (cnt_set isWorking (s_ws s) i WDead _ E) as C. cbn in C. lia.
    + pose proof (cnt_set holdsW (s_ws s) i WDead _ E) as C. cbn in C. destruct (s_T s); lia.
    + unfold pending. cbn. rewrite (flat_set_same held (s_ws s) i WDead _ E eq_refl). exact H3.
    + rewrite (flat_set_same running (s_ws s) i WDead _ E eq_refl). exact H4.
    + exact H5.
  - (* lock *)
    rewrite ET in H2. split; cbn; auto.
    + pose proof (cnt_set holdsT (s_ts s) i (TLen k) _ E) as C. cbn in C. lia.
    + intros m t Ht. destruct (setT_ts s i _ (TLen k) E m t Ht) as [[-> ->]|[_ Ht']]; [apply (H5 i _ E)|apply (H5 m t Ht')].
  - (* len *)
    pose proof (cnt_in holdsT (s_ts s) i _ E) as Hin. cbn in Hin.
    destruct (q_jobs (s_q s)) eqn:Eq; split; cbn; auto.
    + pose proof (cnt_set holdsT (s_ts s) i (TGrp k) _ E) as C. cbn in C. lia.
    + intros m t Ht. destruct (setT_ts s i _ (TGrp k) E m t Ht) as [[-> ->]|[_ Ht']]; [|apply (H5 m t Ht')].
      split; [apply (H5 i _ E)|]. intros Hw. exists (skipn k (s_pushed s)). rewrite firstn_skipn, H3. unfold pending. rewrite Eq.
      rewrite idle_nothing by lia. cbn. apply Permutation_app_comm.
    + pose proof (cnt_set holdsT (s_ts s) i (TSleep k) _ E) as C. cbn in C. destruct (s_T s); lia.
    + intros m t Ht. destruct (setT_ts s i _ (TSleep k) E m t Ht) as [[-> ->]|[_ Ht']]; [apply (H5 i _ E)|apply (H5 m t Ht')].
  - pose proof (cnt_in holdsT (s_ts s) i _ E) as Hin. cbn in Hin.
    destruct (q_groups (s_q s)) eqn:Eq; split; cbn; auto.
    + pose proof (cnt_set holdsT (s_ts s) i (TWork k) _ E) as C. cbn in C. lia.
    + intros m t Ht. destruct (setT_ts s i _ (TWork k) E m t Ht) as [[-> ->]|[_ Ht']].
      * destruct (H5 i _ E) as [G1 G2]. split; [exact G1|]. intros Hw. specialize (G2 Hw). cbn in G2. rewrite app_nil_r in G2. exact G2.
      * specialize (H5 m t Ht'). rewrite Eq; destruct t; exact H5.
    + pose proof (cnt_set holdsT (s_ts s) i (TSleep k) _ E) as C. cbn in C. destruct (s_T s); lia.
    + intros m t Ht. destruct (setT_ts s i _ (TSleep k) E m t Ht) as [[-> ->]|[_ Ht']]; [apply (H5 i _ E)|rewrite Eq; apply (H5 m t Ht')].
  - pose proof (cnt_in holdsT (s_ts s) i _ E) as Hin. cbn in Hin.
    destruct (Nat.eqb_spec (s_work s) 0) as [Hw|Hw]; split; cbn; auto.
    + pose proof (cnt_set holdsT (s_ts s) i (TDone k) _ E) as C. cbn in C. destruct (s_T s); lia.
    + intros m t Ht. destruct (setT_ts s i _ (TDone k) E m t Ht) as [[-> ->]|[_ Ht']]; [|apply (H5 m t Ht')].
      destruct (H5 i _ E) as [G1 G2]. split; [exact G1|exact (G2 Hw)].
    + pose proof (cnt_set holdsT (s_ts s) i (TSleep k) _ E) as C. cbn in C. destruct (s_T s); lia.
    + intros m t Ht. destruct (setT_ts s i _ (TSleep k) E m t Ht) as [[-> ->]|[_ Ht']]; [apply (H5 i _ E)|apply (H5 m t Ht')].
Qed.

Lemma estep_Inv s s' : Inv s -> estep s s' -> Inv s'.
Proof.
  intros H Hs; destruct Hs as [s0 i E|s0 i k E].
  - eapply Inv_setW; [exact H|exact E|..]; reflexivity.
  - destruct H as [H1 H2 H3 H4 H5]. split; cbn; auto.
    + pose proof (cnt_set holdsT (s_ts s0) i (TLock k) _ E) as C. cbn in C. lia.
    + intros m t Ht. destruct (setT_ts s0 i _ (TLock k) E m t Ht) as [[-> ->]|[_ Ht']]; [apply (H5 i _ E)|apply (H5 m t Ht')].
Qed.

(** jobs are added *)
Lemma Inv_push s q js : Inv s -> Permutation (q_jobs q ++ concat (q_groups q)) (pending s ++ js) ->
  (exists l, Permutation (concat (q_groups q)) (concat (q_groups (s_q s)) ++ l)) -> Inv (logPushed js (upQ q s)).
Proof.
  intros [H1 H2 H3 H4 H5] Hq (gl & Hg). split; cbn; auto.
  - unfold pending in *. cbn. rewrite Hq, H3. rewrite <- !app_assoc. do 2 apply Permutation_app_head.
    rewrite (Permutation_app_comm js). rewrite <- !app_assoc. reflexivity.
  - intros m t Ht. specialize (H5 m t Ht).
    assert (Hf : forall k, k <= length (s_pushed s) -> firstn k (s_pushed s ++ js) = firstn k (s_pushed s)).
    { intros k Hk. rewrite firstn_app. replace (k - length (s_pushed s)) with 0 by lia. cbn. apply app_nil_r. }
    unfold covered in *. cbn. destruct t as [k|k|k|k|k|k]; rewrite ?app_length; try lia; destruct H5 as [Hk H5]; rewrite (Hf k Hk); (split; [lia|]); try exact H5.
    intros Hw. destruct (H5 Hw) as (rest & Hr). exists (rest ++ gl). rewrite Hg, app_assoc, Hr, app_assoc. reflexivity.
Qed.
Lemma fold_push1 js : forall q : @queue F, q_jobs (fold_left push1 js q) = q_jobs q ++ js /\ q_groups (fold_left push1 js q) = q_groups q.
Proof.
  induction js as [|j js IH]; intros q; cbn [fold_left]; [rewrite app_nil_r; auto|]. destruct (IH (push1 q j)) as [A B]. rewrite A, B. cbn.
  rewrite <- app_assoc. auto.
Qed.
Lemma cstep_Inv s s' : Inv s -> cstep s s' -> Inv s'.
Proof.
  intros H Hs; destruct Hs as [s0 s1 j P|s0 js|s0 gs ES|s0].
  - destruct (posted_ws _ _ P) as (l & -> & W & _). change (Inv (upWs l (upV true (logPushed [j] (upQ (push1 (s_q s0) j) s0))))).
    apply Inv_ws; [|exact W]. apply Inv_push; [exact H| |exists []; cbn; rewrite app_nil_r; reflexivity].
    cbn. unfold pending. apply swap_mid.
  - change (Inv (postAll (logPushed js (upQ (fold_left push1 js (s_q s0)) s0)))). apply postAll_Inv.
    destruct (fold_push1 js (s_q s0)) as [A B]. apply Inv_push; [exact H| |exists []; rewrite B, app_nil_r; reflexivity].
    rewrite A, B. unfold pending. apply swap_mid.
  - change (Inv (postAll (logPushed (concat gs) (upQ (pushGroups (s_q s0) gs) s0)))). apply postAll_Inv.
    apply Inv_push; [exact H| |exists (concat gs)]; cbn; rewrite concat_app.
    + unfold pending. rewrite <- app_assoc. apply Permutation_app_head, Permutation_app_comm.
    + apply Permutation_app_comm.
  - destruct H as [H1 H2 H3 H4 H5]. split; cbn; auto.
    + rewrite cnt_app. cbn. lia.
    + intros m t Ht. destruct (Nat.lt_ge_cases m (length (s_ts s0))) as [Hm|Hm].
      * rewrite nth_error_app1 in Ht by exact Hm. apply (H5 m t Ht).
      * rewrite nth_error_app2 in Ht by exact Hm. destruct (m - _) as [|[|x]]; try discriminate. injection Ht as <-. auto.
Qed.
Lemma sstep_Inv s s' : Inv s -> sstep s s' -> Inv s'.
Proof. intros H Hs; destruct Hs as [s0 x]; destruct H as [H1 H2 H3 H4 H5]. split; cbn; auto. Qed.
Lemma dstep_Inv s s' : Inv s -> dstep s s' -> Inv s'.
Proof.
  intros H Hs; destruct Hs as [s0|s0 E|s0 E1 E2]; [|apply postAll_Inv, H|]; destruct H as [H1 H2 H3 H4 H5]; split; cbn; auto.
Qed.
Lemma any_Inv s s' : Inv s -> any maxwork s s' -> Inv s'.
Proof.
  intros H Hs; destruct Hs as [s0 s1 Hs|s0 s1 Hs|s0 s1 Hs]; [destruct Hs as [x y Hs|x y Hs|x y Hs]|..]; [eapply istep_Inv|eapply estep_Inv|eapply cstep_Inv|eapply sstep_Inv|eapply dstep_Inv]; eassumption.
Qed.
Theorem reach_Inv n x s : runs (any maxwork) (init n x) s -> Inv s.
Proof. intros H. remember (init n x) as s0 eqn:E. induction H as [|s1 s2 s3 H IH Hs]; [subst; apply init_Inv|eapply any_Inv; eauto]. Qed.
End Sys.

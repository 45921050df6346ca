(** * Proofs on the thread pool: orders and groups of jobs *)
From Coq Require Import List Bool Arith ZArith Lia Permutation.
From Verif Require Import Graph_model Codegen_model Pool_model PoolSys_model Pool_proofs.
Import ListNotations.

Section Group.
Context {F : Type} {FO : FOps F}.
Notation job := (@job F).

(** ** Static groups *)
Lemma firstFit_range (durs : list F) : forall i avg tg r d, firstFit durs i avg tg = Some (r, d) -> i <= r < i + length durs.
Proof.
  induction durs as [|x durs IH]; intros i avg tg r d E; cbn [firstFit] in E; [discriminate|]. destruct (flt _ tg).
  - injection E as <- <-. cbn. lia.
  - apply IH in E. cbn. lia.
Qed.
Lemma bestFit_range (durs : list F) : forall i avg best, fst best < i -> fst (bestFit durs i avg best) < i + length durs.
Proof.
  induction durs as [|x durs IH]; intros i avg best H; cbn [bestFit]; [lia|]. destruct (flt _ _); cbn [length].
  - specialize (IH (S i) avg (i, fadd x avg)). cbn [fst] in IH. lia.
  - specialize (IH (S i) avg best). lia.
Qed.
Lemma place_range (durs : list F) avg tg : durs <> [] -> fst (place durs avg tg) < length durs.
Proof.
  intros Hn. unfold place. destruct (firstFit durs 0 avg tg) as [[r d]|] eqn:E.
  - apply firstFit_range in E. cbn. lia.
  - destruct durs as [|x durs]; [congruence|]. pose proof (bestFit_range durs 1 avg (0, fadd x avg)). cbn in *. lia.
Qed.
Lemma assign_range avg : forall (durs : list F) tg, durs <> [] -> length (assignGroups durs tg avg) = length avg /\ Forall (fun i => i < length durs) (assignGroups durs tg avg).
Proof.
  induction avg as [|a avg IH]; intros durs tg Hn; cbn [assignGroups]; [split; [reflexivity|constructor]|].
  pose proof (place_range durs a tg Hn) as Hp. destruct (place durs a tg) as [i d]. cbn [fst] in Hp.
  assert (Hn' : setNth durs i d <> []). { intros C. apply (f_equal (@length F)) in C. rewrite setNth_length in C. destruct durs; [congruence|discriminate]. }
  destruct (IH (setNth durs i d) tg Hn') as [A B]. rewrite setNth_length in B. split; [cbn; congruence|constructor; assumption].
Qed.

(** the jobs given to group [i] by [c], in order *)
Definition members (i : nat) (c : list nat) (jobs : list job) : list job := map snd (filter (fun p => Nat.eqb i (fst p)) (combine c jobs)).
Definition groupsOf (n : nat) (c : list nat) (jobs : list job) : list (list job) := map (fun i => members i c jobs) (seq 0 n).

Lemma members_length i c : forall jobs, length c = length jobs -> length (members i c jobs) = countOf i c.
Proof.
  unfold members, countOf. induction c as [|x c IH]; intros [|a jobs] E; try discriminate; [reflexivity|]. cbn [combine filter fst]. injection E as E.
  destruct (Nat.eqb i x); cbn; rewrite IH by exact E; reflexivity.
Qed.
Lemma nth_ext_o {A} (l : list A) : forall l', length l = length l' -> (forall i a b, nth_error l i = Some a -> nth_error l' i = Some b -> a = b) -> l = l'.
Proof.
  induction l as [|x l IH]; intros [|y l'] E H; try discriminate; [reflexivity|]. f_equal; [apply (H 0); reflexivity|]. apply IH; [injection E; auto|]. intros i a b. apply (H (S i)).
Qed.
Lemma fill_spec jobs : forall c caps groups n, length c = length jobs -> Forall (fun i => i < n) c -> length groups = n -> length caps = n ->
  (forall i g k, nth_error groups i = Some g -> nth_error caps i = Some k -> length g + countOf i c = k) ->
  exists gs, fillGroups caps groups jobs c = Done gs /\ length gs = n /\ forall i g, nth_error groups i = Some g -> nth_error gs i = Some (g ++ members i c jobs).
Proof.
  induction jobs as [|a jobs IH]; intros [|x c] caps groups n Hl Hr Hg Hc Hk; try discriminate.
  - exists groups. split; [reflexivity|]. split; [exact Hg|]. intros i g E. unfold members. cbn. rewrite app_nil_r. exact E.
  - cbn [fillGroups]. inversion Hr as [|x' c' Hx Hr']; subst x' c'.
    destruct (nth_error groups x) as [g|] eqn:Eg; [|apply nth_error_None in Eg; lia].
    destruct (nth_error caps x) as [k|] eqn:Ek; [|apply nth_error_None in Ek; lia].
    pose proof (Hk x g k Eg Ek) as Hgk. unfold countOf in Hgk. cbn [filter] in Hgk. rewrite Nat.eqb_refl in Hgk. cbn [length] in Hgk.
    destruct (Nat.ltb_spec (length g) k) as [_|C]; [|lia].
    destruct (IH c caps (setNth groups x (g ++ [a])) n) as (gs & E & L & M); auto.
    + rewrite setNth_length; exact Hg.
    + intros i g' k' E1 E2. destruct (Nat.eq_dec x i) as [->|Hn].
      * rewrite nth_set_eq in E1 by lia. injection E1 as <-. assert (k' = k) by congruence. subst k'. rewrite app_length. cbn. unfold countOf. lia.
      * rewrite nth_set_ne in E1 by exact Hn. pose proof (Hk i g' k' E1 E2) as C. unfold countOf in *. cbn [filter] in C.
        destruct (Nat.eqb_spec i x) as [->|_]; [congruence|exact C].
    + exists gs. split; [exact E|]. split; [exact L|]. intros i g' E1. unfold members in *. cbn [combine filter fst]. destruct (Nat.eq_dec x i) as [->|Hn].
      * rewrite Nat.eqb_refl. cbn [map snd]. assert (g' = g) by congruence. subst g'. rewrite (M i (g ++ [a])) by (apply nth_set_eq; lia). rewrite <- app_assoc. reflexivity.
      * destruct (Nat.eqb_spec i x) as [->|_]; [congruence|]. apply M. rewrite nth_set_ne by exact Hn. exact E1.
Qed.
Lemma nth_repeat_o {A} (a : A) n i : i < n -> nth_error (repeat a n) i = Some a.
Proof. revert i. induction n as [|n IH]; intros [|i] H; try lia; cbn; [reflexivity|apply IH; lia]. Qed.
Lemma nth_seq_o n i : i < n -> nth_error (seq 0 n) i = Some i.
Proof. intros H. rewrite (nth_error_nth' _ 0) by (rewrite seq_length; exact H). rewrite seq_nth by exact H. reflexivity. Qed.
Lemma fill_groups n c jobs : length c = length jobs -> Forall (fun i => i < n) c ->
  fillGroups (map (fun i => countOf i c) (seq 0 n)) (repeat [] n) jobs c = Done (groupsOf n c jobs).
Proof.
  intros Hl Hr. destruct (fill_spec jobs c (map (fun i => countOf i c) (seq 0 n)) (repeat [] n) n) as (gs & E & L & M); auto.
  - apply repeat_length.
  - rewrite map_length, seq_length; reflexivity.
  - intros i g k E1 E2. assert (Hi : i < n) by (rewrite <- (repeat_length (@nil job) n); apply nth_error_Some; congruence).
    rewrite nth_repeat_o in E1 by exact Hi. injection E1 as <-. rewrite (map_nth_error _ _ _ (nth_seq_o n i Hi)) in E2. injection E2 as <-. reflexivity.
  - rewrite E. f_equal. apply nth_ext_o; [unfold groupsOf; rewrite map_length, seq_length; exact L|].
    intros i a b E1 E2. assert (Hi : i < n) by (rewrite <- L; apply nth_error_Some; congruence).
    rewrite (M i [] (nth_repeat_o _ _ _ Hi)) in E1. unfold groupsOf in E2. rewrite (map_nth_error _ _ _ (nth_seq_o n i Hi)) in E2. cbn in E1. congruence.
Qed.
(** the groups contain every job once *)
Lemma members_app i c1 j1 c2 j2 : length c1 = length j1 -> members i (c1 ++ c2) (j1 ++ j2) = members i c1 j1 ++ members i c2 j2.
Proof.
  unfold members. revert j1. induction c1 as [|x c1 IH]; intros [|a j1] E; try discriminate; [reflexivity|]. cbn [app combine filter fst]. injection E as E.
  destruct (Nat.eqb i x); cbn; rewrite IH by exact E; reflexivity.
Qed.
Lemma concat_add (l : list nat) (f : nat -> list job) x a : NoDup l -> In x l ->
  Permutation (concat (map (fun i => if Nat.eqb i x then a :: f i else f i) l)) (a :: concat (map f l)).
Proof.
  induction l as [|y l IH]; intros Hd Hin; [destruct Hin|]. inversion Hd as [|y' l' Hy Hd']; subst. cbn [map concat]. destruct (Nat.eqb_spec y x) as [->|Hn].
  - cbn [app]. apply perm_skip, Permutation_app_head. rewrite (map_ext_in _ f); [reflexivity|]. intros z Hz. destruct (Nat.eqb_spec z x) as [->|_]; [contradiction|reflexivity].
  - destruct Hin as [->|Hin]; [congruence|]. rewrite (IH Hd' Hin). symmetry. apply Permutation_middle.
Qed.
Lemma groups_perm n c : forall jobs, length c = length jobs -> Forall (fun i => i < n) c -> Permutation (concat (groupsOf n c jobs)) jobs.
Proof.
  induction c as [|x c IH]; intros [|a jobs] E Hr; try discriminate.
  - unfold groupsOf, members. cbn. induction (seq 0 n); cbn; auto.
  - inversion Hr as [|x' c' Hx Hr']; subst. injection E as E. specialize (IH jobs E Hr').
    assert (Hs : groupsOf n (x :: c) (a :: jobs) = map (fun i => if Nat.eqb i x then a :: members i c jobs else members i c jobs) (seq 0 n)).
    { unfold groupsOf. apply map_ext. intros i. unfold members. cbn [combine filter fst]. destruct (Nat.eqb i x); reflexivity. }
    rewrite Hs. rewrite (concat_add (seq 0 n) (fun i => members i c jobs) x a); [apply perm_skip; exact IH|apply seq_NoDup|apply in_seq; lia].
Qed.

Lemma static_ok numThreads jobs avg j2t changed : 0 < numThreads -> length avg = length jobs -> length j2t = length jobs ->
  changed = true \/ (exists z l, j2t = z :: l /\ (z < 0)%Z) \/ Forall (fun z => (0 <= z < Z.of_nat (Nat.min (length jobs) numThreads))%Z) j2t ->
  exists c, staticGroups numThreads jobs avg j2t changed = Done (c, groupsOf (Nat.min (length jobs) numThreads) c jobs) /\
            length c = length jobs /\ Forall (fun i => i < Nat.min (length jobs) numThreads) c.
Proof.
  intros Ht Ha Hj H. unfold staticGroups. set (n := Nat.min (length jobs) numThreads) in *. cbv zeta.
  set (fresh := match j2t with z :: _ => changed || Z.ltb z 0 | [] => changed end).
  assert (Hsrc : exists c, (if fresh then Done (assignGroups (repeat f0 n) (fdiv (sumF avg) (fofnat n)) avg)
                else if forallb (fun z => Z.leb 0 z && Z.ltb z (Z.of_nat n)) j2t then Done (map Z.to_nat j2t) else Bad) = Done c /\ length c = length jobs /\ Forall (fun i => i < n) c).
  { destruct fresh eqn:Ef.
    - eexists. split; [reflexivity|]. destruct (Nat.eq_dec n 0) as [Hz|Hz].
      + assert (jobs = []) as -> by (destruct jobs; [reflexivity|unfold n in Hz; cbn [length] in Hz; lia]). destruct avg; [|discriminate]. cbn. auto.
      + destruct (assign_range avg (repeat f0 n) (fdiv (sumF avg) (fofnat n))) as [A B]; [destruct n; [congruence|discriminate]|].
        rewrite repeat_length in B. split; [congruence|exact B].
    - assert (HF : Forall (fun z => (0 <= z < Z.of_nat n)%Z) j2t).
      { destruct H as [->|[(z & l & -> & Hz)|H]]; [|unfold fresh in Ef; apply orb_false_iff in Ef; destruct Ef as [_ Ef]; apply Z.ltb_ge in Ef; lia|exact H].
        unfold fresh in Ef. destruct j2t; [constructor|discriminate]. }
      exists (map Z.to_nat j2t). replace (forallb _ j2t) with true.
      + split; [reflexivity|]. split; [rewrite map_length; exact Hj|]. apply Forall_forall. intros i Hi. apply in_map_iff in Hi. destruct Hi as (z & <- & Hz).
        rewrite Forall_forall in HF. specialize (HF z Hz). lia.
      + symmetry. apply forallb_forall. intros z Hz. rewrite Forall_forall in HF. specialize (HF z Hz). apply andb_true_iff. split; [apply Z.leb_le|apply Z.ltb_lt]; lia. }
  destruct Hsrc as (c & E & L & R). exists c. rewrite E. cbn [obind]. rewrite fill_groups by assumption. cbn [obind]. auto.
Qed.

(** ** Order *)
Lemma writeOrder_length (sorted : list (F * nat)) : forall n i order, length (writeOrder n sorted i order) = length order.
Proof. induction sorted as [|[v k] l IH]; intros n i order; cbn [writeOrder]; [reflexivity|]. rewrite IH. apply setNth_length. Qed.
Lemma writeOrder_other (sorted : list (F * nat)) : forall n i order k, ~ In k (map snd sorted) -> nth_error (writeOrder n sorted i order) k = nth_error order k.
Proof.
  induction sorted as [|[v x] l IH]; intros n i order k H; cbn [writeOrder map snd In] in *; [reflexivity|]. rewrite IH by tauto. apply nth_set_ne. tauto.
Qed.
(** order[index of the i-th in ascending order] = n - i - 1 *)
Lemma writeOrder_at (sorted : list (F * nat)) : forall n i order p v k, NoDup (map snd sorted) -> nth_error sorted p = Some (v, k) -> k < length order ->
  nth_error (writeOrder n sorted i order) k = Some (n - (i + p) - 1).
Proof.
  induction sorted as [|[v0 x] l IH]; intros n i order [|p] v k Hd E Hk; cbn [nth_error writeOrder map snd] in *; try discriminate; inversion Hd as [|x' l' Hx Hd']; subst.
  - injection E as -> ->. rewrite writeOrder_other by exact Hx. rewrite nth_set_eq by exact Hk. f_equal. lia.
  - rewrite (IH n (S i) _ p v k Hd' E); [f_equal; lia|rewrite setNth_length; exact Hk].
Qed.
Lemma writeOrder_perm (sorted : list (F * nat)) order : Permutation (map snd sorted) (seq 0 (length order)) -> Permutation (writeOrder (length order) sorted 0 order) (seq 0 (length order)).
Proof.
  intros H. assert (Hd : NoDup (map snd sorted)) by (eapply Permutation_NoDup; [symmetry; exact H|apply seq_NoDup]).
  assert (Hl : length sorted = length order) by (rewrite <- (map_length snd), (Permutation_length H), seq_length; reflexivity).
  set (n := length order) in *. symmetry. apply NoDup_Permutation_bis; [apply seq_NoDup|rewrite writeOrder_length, seq_length; reflexivity|].
  intros r Hr. apply in_seq in Hr. destruct (nth_error sorted (n - r - 1)) as [[v k]|] eqn:E; [|apply nth_error_None in E; lia].
  assert (Hk : k < n). { assert (In k (seq 0 n)) as Hin by (rewrite <- H; apply in_map_iff; exists (v, k); split; [reflexivity|eapply nth_error_In; exact E]). apply in_seq in Hin. lia. }
  eapply nth_error_In. rewrite (writeOrder_at sorted n 0 order _ v k Hd E Hk). f_equal. lia.
Qed.
Lemma newJobs_ok nJobs (avg : option (list F)) order : Forall (fun j => j < nJobs) order -> (forall l, avg = Some l -> length l = nJobs) ->
  exists l, newJobs nJobs avg order = Done l /\ map j_fun l = order.
Proof.
  intros H Ha. induction order as [|j o IH]; cbn [newJobs]; [exists []; auto|]. inversion H as [|j' o' Hj Ho]; subst. destruct (IH Ho) as (l & -> & E).
  destruct (Nat.ltb_spec j nJobs) as [_|C]; [|lia]. unfold newJob. destruct avg as [a|].
  - specialize (Ha a eq_refl). destruct (nth_error a j) as [x|] eqn:Ex; [|apply nth_error_None in Ex; lia]. cbn [obind]. eexists. split; [reflexivity|]. cbn. congruence.
  - cbn [obind]. eexists. split; [reflexivity|]. cbn. congruence.
Qed.
End Group.

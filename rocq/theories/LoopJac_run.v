(** * Sums, and what generated loops leave in an array *)
From Coq Require Import List Bool Arith NArith Reals Sorted Lia Permutation Lra Classical_Prop.
From Verif Require Import Graph_model Codegen_model CSyntax Range_model LoopCond_model LoopCond_spec LoopCond_thm LoopJac_model LoopJac_spec LoopJac_maps.
Import ListNotations.
Local Open Scope nat_scope.

(** ** Sums *)
Fixpoint sumL {A} (f : A -> R) (l : list A) : R := match l with [] => 0%R | a :: l' => (f a + sumL f l')%R end.
Section Sums.
Context {A : Type}.
Implicit Types (f g : A -> R) (l : list A).
Lemma sumL_app : forall f l l', sumL f (l ++ l') = (sumL f l + sumL f l')%R.
Proof. induction l as [|a l IH]; intro l'; cbn [app sumL]; [lra|]. rewrite IH. lra. Qed.
Lemma sumL_ext : forall f g l, (forall a, In a l -> f a = g a) -> sumL f l = sumL g l.
Proof. induction l as [|a l IH]; intro H; cbn [sumL]; [reflexivity|]. rewrite (H a (or_introl eq_refl)), IH; [reflexivity|]. intros b Hb. apply H. right. exact Hb. Qed.
Lemma sumL_zero : forall f l, (forall a, In a l -> f a = 0%R) -> sumL f l = 0%R.
Proof. induction l as [|a l IH]; intro H; cbn [sumL]; [reflexivity|]. rewrite (H a (or_introl eq_refl)), IH; [lra|]. intros b Hb. apply H. right. exact Hb. Qed.
Lemma sumL_plus : forall f g l, sumL (fun a => f a + g a)%R l = (sumL f l + sumL g l)%R.
Proof. induction l as [|a l IH]; cbn [sumL]; [lra|]. rewrite IH. lra. Qed.
Lemma sumL_scale : forall f c l, sumL (fun a => f a * c)%R l = (sumL f l * c)%R.
Proof. induction l as [|a l IH]; cbn [sumL]; [lra|]. rewrite IH. lra. Qed.
Lemma sumL_single : forall f l a, NoDup l -> In a l -> (forall b, In b l -> b <> a -> f b = 0%R) -> sumL f l = f a.
Proof.
  induction l as [|b l IH]; intros a Nd Ha H; [destruct Ha|]. inversion Nd as [|? ? N1 N2]; subst. cbn [sumL]. destruct Ha as [->|Ha].
  - rewrite (sumL_zero f l); [lra|]. intros c Hc. apply H; [right; exact Hc|]. intros ->. contradiction.
  - rewrite (H b (or_introl eq_refl)) by (intros ->; contradiction). rewrite (IH a N2 Ha); [lra|]. intros c Hc. apply H. right. exact Hc.
Qed.
Lemma sumL_perm : forall f l l', Permutation l l' -> sumL f l = sumL f l'.
Proof. induction 1; cbn [sumL]; lra. Qed.
Lemma sumL_support : forall f l l', NoDup l -> NoDup l' -> (forall a, In a l -> f a <> 0%R -> In a l') -> (forall a, In a l' -> f a <> 0%R -> In a l) -> sumL f l = sumL f l'.
Proof.
  intros f. assert (Hf : forall l, sumL f l = sumL f (filter (fun a => if Req_EM_T (f a) 0 then false else true) l)).
  { induction l as [|a l IH]; cbn [filter sumL]; [reflexivity|]. destruct (Req_EM_T (f a) 0) as [E|E]; [rewrite E, IH; lra|]. cbn [sumL]. rewrite IH at 1. reflexivity. }
  intros l l' N1 N2 H1 H2. rewrite (Hf l), (Hf l'). apply sumL_perm. apply NoDup_Permutation; [apply NoDup_filter, N1|apply NoDup_filter, N2|].
  intro a. rewrite !filter_In. destruct (Req_EM_T (f a) 0) as [E|E]; [split; intros [_ H]; discriminate|]. split; intros [H _]; split; auto.
Qed.
End Sums.
Lemma sumL_map : forall {A B} (h : A -> B) (f : B -> R) l, sumL f (map h l) = sumL (fun a => f (h a)) l.
Proof. induction l as [|a l IH]; cbn [map sumL]; [reflexivity|]. rewrite IH. reflexivity. Qed.
Lemma sumL_concat : forall {A} (f : A -> R) ls, sumL f (concat ls) = sumL (sumL f) ls.
Proof. induction ls as [|l ls IH]; cbn [concat sumL]; [reflexivity|]. rewrite sumL_app, IH. reflexivity. Qed.
Lemma sumL_flat_map : forall {A B} (h : A -> list B) (f : B -> R) l, sumL f (flat_map h l) = sumL (fun a => sumL f (h a)) l.
Proof. induction l as [|a l IH]; cbn [flat_map sumL]; [reflexivity|]. rewrite sumL_app, IH. reflexivity. Qed.
Lemma sumL_Forall2 : forall {A B} (P : A -> B -> Prop) (f : A -> R) (g : B -> R) l l', Forall2 P l l' -> (forall a b, P a b -> f a = g b) -> sumL f l = sumL g l'.
Proof. induction 1; intro H'; cbn [sumL]; [reflexivity|]. rewrite (H' _ _ H), IHForall2 by exact H'. reflexivity. Qed.
Lemma sumTo_sumL : forall n f, sumTo n f = sumL f (seq 0 n).
Proof. induction n as [|n IH]; intro f; cbn [sumTo]; [reflexivity|]. rewrite seq_S, sumL_app, IH. cbn [sumL plus]. lra. Qed.

(** ** Locations of a result *)
Lemma locsOf_at : forall p k it, loc_at (k + N.of_nat it) (locsOf k p) = match nth_error p it with Some (Some e) => Some (N.of_nat e) | _ => None end.
Proof.
  assert (Hlt : forall p k k', (k' < k)%N -> loc_at k' (locsOf k p) = None).
  { induction p as [|[e|] p IH]; intros k k' H; cbn [locsOf loc_at]; [reflexivity| |apply IH; lia].
    destruct (k' =? k)%N eqn:E; [apply N.eqb_eq in E; lia|]. apply IH. lia. }
  induction p as [|o p IH]; intros k it; [destruct it; reflexivity|]. destruct it as [|it].
  - rewrite N.add_0_r. cbn [nth_error]. destruct o as [e|]; cbn [locsOf loc_at]; [rewrite N.eqb_refl; reflexivity|]. apply Hlt. lia.
  - cbn [nth_error]. replace (k + N.of_nat (S it))%N with (N.succ k + N.of_nat it)%N by lia. rewrite <- (IH (N.succ k) it). destruct o as [e|]; cbn [locsOf loc_at]; [|reflexivity].
    destruct (N.succ k + N.of_nat it =? k)%N eqn:E; [apply N.eqb_eq in E; lia|reflexivity].
Qed.
Lemma locsOf_iters : forall p k, StronglySorted N.lt (map fst (locsOf k p)) /\ (forall i, In i (map fst (locsOf k p)) -> (k <= i < k + N.of_nat (length p))%N).
Proof.
  induction p as [|o p IH]; intro k; cbn [locsOf map]; [split; [constructor|intros i []]|]. destruct (IH (N.succ k)) as [S1 S2]. cbn [length].
  assert (H : forall i, In i (map fst (locsOf (N.succ k) p)) -> (k < i < k + N.of_nat (S (length p)))%N) by (intros i Hi; specialize (S2 i Hi); lia).
  destruct o as [e|]; cbn [map fst].
  - split; [constructor; [exact S1|apply Forall_forall; intros i Hi; specialize (H i Hi); lia]|]. intros i [<-|Hi]; [lia|specialize (H i Hi); lia].
  - split; [exact S1|]. intros i Hi. specialize (H i Hi). lia.
Qed.

(** ** Requests which the model makes *)
Definition iters (n : nat) : list N := map N.of_nat (seq 0 n).
Lemma iters_sorted : forall n, StronglySorted N.lt (iters n).
Proof.
  intro n. unfold iters. generalize 0 as s. induction n as [|n IH]; intro s; cbn [seq map]; constructor; [apply IH|].
  apply Forall_forall. intros x Hx. apply in_map_iff in Hx. destruct Hx as (y & <- & Hy). apply in_seq in Hy. lia.
Qed.
Lemma iters_In : forall n k, In k (iters n) <-> (k < N.of_nat n)%N.
Proof.
  intros n k. unfold iters. rewrite in_map_iff. split.
  - intros (y & <- & Hy). apply in_seq in Hy. lia.
  - intro H. exists (N.to_nat k). split; [lia|]. apply in_seq. lia.
Qed.
Definition zeroV : V -> bool := fun _ => false.
Definition keepV : V -> V -> V := fun v _ => v.

(** one location of each iteration of a result, and its value there *)
Definition goes (r : request V) (k : N) (p : N) (add : N) (w : R) : Prop :=
  exists locs n v, r = RResult V locs n v add /\ loc_at k locs = Some p /\ w = v k.
Definition contrib (r : request V) (k p : N) : R :=
  match r with RResult _ locs _ v _ => match loc_at k locs with Some q => if N.eqb p q then v k else 0%R | None => 0%R end | _ => 0%R end.
Definition isResult (add : N) (r : request V) : Prop := exists locs n v, r = RResult V locs n v add.

Section Served.
Variable n : nat.
Variable rs : list (request V).
Variable s : loop V.
Hypothesis Hs : forall k, In k (iters n) -> exists fs, Permutation fs (flat_map (fun r => asked V zeroV keepV keepV r k) rs) /\ forall fs', iteration V k s fs' <-> fs' = fs.

Lemma run_exists : forall ks a, incl ks (iters n) -> exists b, run_iters s ks a b.
Proof.
  induction ks as [|k ks IH]; intros a Hk; [exists a; constructor|]. destruct (Hs k (Hk k (or_introl eq_refl))) as (fs & _ & H2).
  destruct (IH (fold_left (act k) fs a)) as (b & Hb). { intros x Hx. apply Hk. right. exact Hx. }
  exists b. econstructor; [apply H2; reflexivity|exact Hb].
Qed.

Lemma act_adds : forall k fs a p, Forall (fun f : effect V => snd (fst f) = 1%N) fs ->
  fold_left (act k) fs a p = (a p + sumL (fun f : effect V => if N.eqb p (fst (fst f)) then snd f k else 0%R) fs)%R.
Proof.
  intros k. induction fs as [|f fs IH]; intros a p H; cbn [fold_left sumL]; [lra|]. inversion H as [|? ? H1 H2]; subst. rewrite IH by exact H2. unfold act at 1. rewrite H1.
  cbn [N.eqb]. destruct (N.eqb p (fst (fst f))); lra.
Qed.
Lemma asked_adds : forall k p, Forall (isResult 1) rs -> 
  sumL (fun f : effect V => if N.eqb p (fst (fst f)) then snd f k else 0%R) (flat_map (fun r => asked V zeroV keepV keepV r k) rs) = sumL (fun r => contrib r k p) rs.
Proof.
  intros k p H. rewrite sumL_flat_map. apply sumL_ext. intros r Hr. rewrite Forall_forall in H. destruct (H r Hr) as (locs & m & v & ->). cbn [asked contrib].
  destruct (loc_at k locs) as [q|]; cbn [sumL fst snd]; lra.
Qed.
Lemma run_adds : forall ks a b p, Forall (isResult 1) rs -> incl ks (iters n) -> run_iters s ks a b ->
  b p = (a p + sumL (fun k => sumL (fun r => contrib r k p) rs) ks)%R.
Proof.
  induction ks as [|k ks IH]; intros a b p Hr Hk H; inversion H as [|? ? fs ? ? H4 H6]; subst; cbn [sumL]; [lra|].
  destruct (Hs k (Hk k (or_introl eq_refl))) as (fs0 & H1 & H2). apply H2 in H4. subst fs.
  rewrite (IH _ _ p Hr (fun x Hx => Hk x (or_intror Hx)) H6). rewrite act_adds.
  - rewrite (sumL_perm _ _ _ H1), asked_adds by exact Hr. lra.
  - apply Forall_forall. intros f Hf. apply (Permutation_in _ H1) in Hf. apply in_flat_map in Hf. destruct Hf as (r & Hr1 & Hr2). rewrite Forall_forall in Hr.
    destruct (Hr r Hr1) as (locs & m & v & ->). cbn [asked] in Hr2. destruct (loc_at k locs); [destruct Hr2 as [<-|[]]; reflexivity|destruct Hr2].
Qed.

(** assigned *)
Lemma act_sets : forall k w fs a p, (forall f : effect V, In f fs -> fst (fst f) = p -> snd (fst f) = 0%N /\ snd f k = w) ->
  fold_left (act k) fs a p = (if existsb (fun f : effect V => N.eqb p (fst (fst f))) fs then w else a p).
Proof.
  intros k w. induction fs as [|f fs IH]; intros a p H; cbn [fold_left existsb]; [reflexivity|]. rewrite IH by (intros g Hg; apply H; right; exact Hg).
  unfold act at 1. destruct (N.eqb p (fst (fst f))) eqn:E; cbn [orb]; [|reflexivity]. apply N.eqb_eq in E. destruct (H f (or_introl eq_refl) (eq_sym E)) as [H1 H2]. rewrite H1, H2.
  cbn [N.eqb]. destruct (existsb _ fs); reflexivity.
Qed.
Lemma run_sets : forall w ks a b p, incl ks (iters n) -> Forall (isResult 0) rs -> (forall r k w', In r rs -> In k ks -> goes r k p 0%N w' -> w' = w) -> run_iters s ks a b ->
  ((exists r k w', In r rs /\ In k ks /\ goes r k p 0%N w') -> b p = w) /\ ((forall r k w', In r rs -> In k ks -> ~ goes r k p 0%N w') -> b p = a p).
Proof.
  intros w. induction ks as [|k ks IH]; intros a b p Hk Hr Hw H; inversion H as [|? ? fs ? ? H4 H6]; subst.
  - split; [intros (r & k & w' & _ & [] & _)|reflexivity].
  - destruct (Hs k (Hk k (or_introl eq_refl))) as (fs0 & H1 & H2). apply H2 in H4. subst fs.
    assert (Hin : forall f : effect V, In f fs0 -> fst (fst f) = p -> exists r, In r rs /\ goes r k p 0%N (snd f k) /\ snd (fst f) = 0%N).
    { intros f Hf Ep. apply (Permutation_in _ H1) in Hf. apply in_flat_map in Hf. destruct Hf as (r & Hr1 & Hr2). rewrite Forall_forall in Hr.
      destruct (Hr r Hr1) as (locs & m & v & ->). exists (RResult V locs m v 0). split; [exact Hr1|]. cbn [asked] in Hr2. destruct (loc_at k locs) as [q|] eqn:El; [|destruct Hr2].
      destruct Hr2 as [<-|[]]. cbn [fst snd] in *. subst q. split; [|reflexivity]. exists locs, m, v. auto. }
    assert (Hout : forall r w', In r rs -> goes r k p 0%N w' -> existsb (fun f : effect V => N.eqb p (fst (fst f))) fs0 = true).
    { intros r w' Hr1 (locs & m & v & -> & El & _). apply existsb_exists. exists (p, 0%N, v). split; [|apply N.eqb_refl]. apply (Permutation_in _ (Permutation_sym H1)), in_flat_map.
      exists (RResult V locs m v 0). split; [exact Hr1|]. cbn [asked]. rewrite El. left. reflexivity. }
    assert (Ha : fold_left (act k) fs0 a p = if existsb (fun f : effect V => N.eqb p (fst (fst f))) fs0 then w else a p).
    { apply act_sets. intros f Hf Ep. destruct (Hin f Hf Ep) as (r & Hr1 & Hg & H0). split; [exact H0|]. exact (Hw r k _ Hr1 (or_introl eq_refl) Hg). }
    destruct (IH _ _ p (fun x Hx => Hk x (or_intror Hx)) Hr (fun r k' w' Hr1 Hk1 => Hw r k' w' Hr1 (or_intror Hk1)) H6) as [I1 I2].
    split.
    + intros (r & k' & w' & Hr1 & [<-|Hk1] & Hg); [|apply I1; exists r, k', w'; auto].
      destruct (classic (exists r k w', In r rs /\ In k ks /\ goes r k p 0%N w')) as [Hc|Hc]; [exact (I1 Hc)|].
      rewrite I2, Ha, (Hout r w' Hr1 Hg); [reflexivity|]. intros r2 k2 w2 Hr2 Hk2 Hg2. apply Hc. exists r2, k2, w2. auto.
    + intro Hn. rewrite I2, Ha.
      * destruct (existsb (fun f : effect V => N.eqb p (fst (fst f))) fs0) eqn:E; [|reflexivity]. exfalso. apply existsb_exists in E. destruct E as (f & Hf & Ef). apply N.eqb_eq in Ef.
        destruct (Hin f Hf (eq_sym Ef)) as (r & Hr1 & Hg & _). exact (Hn r k _ Hr1 (or_introl eq_refl) Hg).
      * intros r k' w' Hr1 Hk1. exact (Hn r k' w' Hr1 (or_intror Hk1)).
Qed.
End Served.

(** the loops made of results *)
Definition servedBy (n : nat) (rs : list (request V)) (s : loop V) : Prop :=
  forall k, In k (iters n) -> exists fs, Permutation fs (flat_map (fun r => asked V zeroV keepV keepV r k) rs) /\ forall fs', iteration V k s fs' <-> fs' = fs.
Lemma makeLoop_served : forall n rs, Forall (valid V zeroV (iters n)) rs -> exists s, makeLoop rs = Ok s /\ servedBy n rs s.
Proof.
  intros n rs Hv. destruct (C63_every_iteration V zeroV keepV keepV (iters n) rs (iters_sorted n) Hv) as (s & E & H). exists s. split; [|exact H].
  unfold makeLoop. change (fun _ : V => false) with zeroV. change (fun v _ : V => v) with keepV. rewrite E. reflexivity.
Qed.
Lemma result_valid : forall n locs v add, 0 < n -> (N.of_nat n <= SIZE_MAX)%N -> locs <> [] -> StronglySorted N.lt (map fst locs) -> (forall k, In k (map fst locs) -> (k < N.of_nat n)%N) ->
  valid V zeroV (iters n) (RResult V locs (N.of_nat n) v add).
Proof.
  intros n locs v add Hn Hm Hne HS Hi. cbn [valid]. split; [|split; [lia|split; [lia|intros k Hk; apply iters_In in Hk; lia]]].
  split; [exact HS|]. split; [destruct locs; [congruence|discriminate]|]. intros k Hk. apply iters_In, Hi, Hk.
Qed.

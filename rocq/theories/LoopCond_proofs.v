(** * Each iteration does what was asked for it *)
From Coq Require Import List Bool Arith NArith ZArith Sorted Lia Permutation.
From Verif Require Import Graph_model Codegen_model CSyntax Index_model Index_spec Index_thm Range_model Range_spec Range_proofs LoopCond_model LoopCond_spec LoopCond_cond.
Import ListNotations.
Local Open Scope N_scope.

Section Proofs.
Variable V : Type.
Notation asg := (asg V). Notation brn := (brn V). Notation ifelse := (ifelse V).

(** ** Execution as a function *)
Definition holdsb (k : N) (h : header) : bool := match h with HIf c | HElseIf c => in_rangesb k c | HElse => true end.
Lemma holdsb_spec k h : holdsb k h = true <-> holds k h.
Proof. destruct h; cbn [holdsb holds]; try apply in_rangesb_spec. tauto. Qed.
Fixpoint runb (k : N) (tk on : bool) (l : list (item V)) : list asg :=
  match l with
  | [] => []
  | IHdr _ h :: r => if tk then runb k true false r else if holdsb k h then runb k true true r else runb k false false r
  | IAsg _ a :: r => if on then a :: runb k tk on r else runb k tk on r
  end.
Lemma exec_runb k l : forall tk on o, (tk = false -> on = false) -> (exec V k tk on l o <-> o = runb k tk on l).
Proof.
  induction l as [|[h|a] l IH]; intros tk on o Hto; cbn [runb].
  - split; [intros H; inversion H; reflexivity|intros ->; constructor].
  - destruct tk.
    + rewrite <- (IH true false o) by discriminate. split; [intros H; inversion H; subst; assumption|intros H; constructor; exact H].
    + rewrite (Hto eq_refl). destruct (holdsb k h) eqn:E.
      * rewrite <- (IH true true o) by discriminate. apply holdsb_spec in E. split; [intros H; inversion H; subst; tauto|intros H; apply X_take; assumption].
      * assert (Hn : ~ holds k h) by (rewrite <- holdsb_spec; congruence).
        rewrite <- (IH false false o) by reflexivity. split; [intros H; inversion H; subst; tauto|intros H; apply X_no; assumption].
  - destruct on.
    + split.
      * intros H. inversion H; subst. f_equal. apply (IH tk true); [exact Hto|assumption].
      * intros ->. constructor. apply (IH tk true); [exact Hto|reflexivity].
    + rewrite <- (IH tk false o Hto). split; [intros H; inversion H; subst; assumption|intros H; constructor; exact H].
Qed.

(** the results of the branch taken *)
Fixpoint pick (k : N) (brs : list brn) (fin : list asg) : list asg :=
  match brs with
  | [] => []
  | b :: r => if holdsb k (b_hdr V b) then match r with [] => fin | b' :: _ => b_pre V b' end else pick k r fin
  end.
Lemma runb_asgs k tk on l r : runb k tk on (map (IAsg V) l ++ r) = (if on then l else []) ++ runb k tk on r.
Proof. induction l as [|a l IH]; cbn [map app runb]; destruct on; auto. rewrite IH. reflexivity. Qed.
Definition textB (brs : list brn) (fin : list asg) : list (item V) :=
  flat_map (fun b => map (IAsg V) (b_pre V b) ++ [IHdr V (b_hdr V b)]) brs ++ map (IAsg V) fin.
Lemma runb_off k brs fin : runb k true false (textB brs fin) = [].
Proof.
  unfold textB. induction brs as [|b brs IH]; cbn [flat_map app].
  - pose proof (runb_asgs k true false fin []) as H. rewrite app_nil_r in H. rewrite H. reflexivity.
  - rewrite <- !app_assoc, runb_asgs. cbn [app runb]. exact IH.
Qed.
Lemma runb_pick k brs fin : runb k false false (textB brs fin) = pick k brs fin.
Proof.
  unfold textB. induction brs as [|b brs IH]; cbn [flat_map pick app].
  - pose proof (runb_asgs k false false fin []) as H. rewrite app_nil_r in H. rewrite H. reflexivity.
  - rewrite <- !app_assoc, runb_asgs. cbn [app runb]. destruct (holdsb k (b_hdr V b)); [|exact IH].
    destruct brs as [|b' r]; cbn [flat_map app].
    + pose proof (runb_asgs k true true fin []) as H. rewrite app_nil_r in H. rewrite H. cbn [runb]. apply app_nil_r.
    + rewrite <- !app_assoc, runb_asgs. cbn [app runb]. pose proof (runb_off k r fin) as Hoff. unfold textB in Hoff. rewrite Hoff. apply app_nil_r.
Qed.
Lemma runs_pick k e o : runs_to V k e o <-> o = pick k (e_brs V e) (e_end V e).
Proof. unfold runs_to. rewrite exec_runb by reflexivity. rewrite <- runb_pick. reflexivity. Qed.

(** ** By iterations *)
Definition inb (k : N) (l : list N) : bool := existsb (N.eqb k) l.
Lemma inb_spec k l : inb k l = true <-> In k l.
Proof.
  unfold inb. rewrite existsb_exists. split; [intros (x & I & E); apply N.eqb_eq in E; subst; exact I|]. intros I. exists k. rewrite N.eqb_refl. auto.
Qed.
Lemma inb_false k l : inb k l = false <-> ~ In k l.
Proof. rewrite <- inb_spec. destruct (inb k l); intuition congruence. Qed.
Fixpoint pickI (k : N) (brs : list brn) (fin : list asg) : list asg :=
  match brs with
  | [] => []
  | b :: r => if inb k (b_iters V b) then match r with [] => fin | b' :: _ => b_pre V b' end else pickI k r fin
  end.
Fixpoint selects (k : N) (brs : list brn) : Prop :=
  match brs with [] => True | b :: r => holdsb k (b_hdr V b) = inb k (b_iters V b) /\ (~ In k (b_iters V b) -> selects k r) end.
Lemma pick_pickI k brs fin : selects k brs -> pick k brs fin = pickI k brs fin.
Proof.
  induction brs as [|b r IH]; cbn [pick pickI selects]; intros H; [reflexivity|]. destruct H as [H1 H2]. rewrite H1.
  destruct (inb k (b_iters V b)) eqn:E; [reflexivity|]. apply IH, H2, inb_false, E.
Qed.

(** the results [xs] pushed onto the branches *)
Fixpoint pushed (brs : list brn) (next : option asg) (xs : list asg) : list brn :=
  match brs, xs with
  | b :: r, x :: xs' => mkBrn V (b_pos V b) (b_iters V b) (b_hdr V b) (b_pre V b ++ opt_list next) :: pushed r (Some x) xs'
  | _, _ => brs
  end.
Fixpoint lastO (next : option asg) (xs : list asg) : option asg := match xs with [] => next | x :: xs' => lastO (Some x) xs' end.
Fixpoint chosen (k : N) (itss : list (list N)) (xs : list asg) : list asg :=
  match itss, xs with
  | its :: r, x :: xs' => if inb k its then [x] else chosen k r xs'
  | _, _ => []
  end.
Lemma pickI_pushed k brs : forall next xs fin, length xs = length brs ->
  pickI k (pushed brs next xs) (fin ++ opt_list (lastO next xs)) = pickI k brs fin ++ chosen k (map (b_iters V) brs) xs.
Proof.
  induction brs as [|b r IH]; intros next xs fin Hl; destruct xs as [|x xs]; cbn [length] in Hl; try discriminate; cbn [pushed pickI map chosen lastO].
  - reflexivity.
  - cbn [b_iters]. destruct (inb k (b_iters V b)).
    + destruct r as [|b' r]; destruct xs as [|x' xs]; cbn [length] in Hl; try discriminate; cbn [pushed lastO]; reflexivity.
    + apply IH. lia.
Qed.
Lemma pickI_empty k brs : (forall b, In b brs -> b_pre V b = []) -> pickI k brs [] = [].
Proof.
  induction brs as [|b r IH]; intros H; cbn [pickI]; [reflexivity|]. destruct (inb k (b_iters V b)).
  - destruct r as [|b' r]; [reflexivity|]. apply H. right. left. reflexivity.
  - apply IH. intros; apply H. right. assumption.
Qed.
Lemma selects_pushed k brs : forall next xs, selects k brs -> selects k (pushed brs next xs).
Proof.
  induction brs as [|b r IH]; intros next [|x xs] H; cbn [pushed selects] in *; auto. destruct H as [H1 H2]. cbn [b_hdr b_iters]. split; [exact H1|]. intros Hn. apply IH, H2, Hn.
Qed.
Lemma pushed_pos brs : forall next xs, map (b_pos V) (pushed brs next xs) = map (b_pos V) brs.
Proof. induction brs as [|b r IH]; intros next [|x xs]; cbn [pushed map]; auto. rewrite IH. reflexivity. Qed.
Lemma pushed_iters brs : forall next xs, map (b_iters V) (pushed brs next xs) = map (b_iters V) brs.
Proof. induction brs as [|b r IH]; intros next [|x xs]; cbn [pushed map]; auto. rewrite IH. reflexivity. Qed.

(** ** Structures of a loop running the iterations [L] *)
Variable L : list N.
Definition keyOf (its : list N) : N * N := (size its, hd 0 its).
Record good (e : ifelse) : Prop := mkGood {
  gd_ne : e_brs V e <> [];
  gd_pos : map (b_pos V) (e_brs V e) = map keyOf (map (b_iters V) (e_brs V e));
  gd_sel : forall k, In k L -> selects k (e_brs V e) }.

Lemma list_eqb_eq a : forall b, list_eqb a b = true -> a = b.
Proof.
  induction a as [|x a IH]; intros [|y b] H; cbn [list_eqb] in H; try discriminate; auto.
  apply andb_true_iff in H. destruct H as [H1 H2]. apply N.eqb_eq in H1. subst. rewrite (IH b H2). reflexivity.
Qed.
Lemma sameIters_eq gs : forall brs, sameIters V gs brs = true -> map (fun g => snd (snd g)) gs = map (b_iters V) brs.
Proof.
  induction gs as [|[p [c its]] gs IH]; intros [|b brs] H; cbn [sameIters] in H; try discriminate; auto.
  apply andb_true_iff in H. destruct H as [H1 H2]. cbn [map fst snd]. rewrite (list_eqb_eq _ _ H1), (IH _ H2). reflexivity.
Qed.
Lemma find_some es gs n : findExistingIfElse V es gs = Some n ->
  exists e, nth_error es n = Some e /\ sameIters V gs (e_brs V e) = true.
Proof.
  revert n. induction es as [|e es IH]; intros n H; cbn [findExistingIfElse] in H; [discriminate|].
  destruct (sameIters V gs (e_brs V e)) eqn:E; [injection H as <-; exists e; auto|].
  destruct (findExistingIfElse V es gs) as [m|]; [|discriminate]. injection H as <-. cbn [nth_error]. apply IH. reflexivity.
Qed.

Definition out1 (k : N) (e : ifelse) : list asg := pick k (e_brs V e) (e_end V e).
Lemma update_out k e' es : forall n e, nth_error es n = Some e -> forall add, Permutation (out1 k e') (out1 k e ++ add) ->
  Permutation (concat (map (out1 k) (update n e' es))) (concat (map (out1 k) es) ++ add).
Proof.
  induction es as [|x es IH]; intros [|n] e H add HP; cbn [nth_error update map concat] in *; try discriminate.
  - injection H as ->. rewrite HP, <- !app_assoc. apply Permutation_app_head, Permutation_app_comm.
  - rewrite (IH n e H add HP), app_assoc. reflexivity.
Qed.
Lemma update_good (P : ifelse -> Prop) e' es : forall n, Forall P es -> P e' -> Forall P (update n e' es).
Proof. induction es as [|x es IH]; intros [|n] H He; cbn [update]; auto; inversion H; subst; constructor; auto. Qed.

(** ** One branch *)
Lemma key_eqb_refl p : key_eqb p p = true.
Proof. unfold key_eqb. rewrite !N.eqb_refl. reflexivity. Qed.
Lemma key_eqb_eq p q : key_eqb p q = true <-> p = q.
Proof. unfold key_eqb. rewrite andb_true_iff, !N.eqb_eq. destruct p, q; cbn [fst snd]. split; [intros [-> ->]; reflexivity|intros E; injection E; auto]. Qed.

Definition adds (es es' : list ifelse) (w : N -> list asg) : Prop :=
  Forall good es' /\ forall k, In k L -> Permutation (concat (map (out1 k) es')) (concat (map (out1 k) es) ++ w k).

Lemma oneBranch_spec its mx a es : Forall good es -> iterations L its -> below L mx ->
  exists es', oneBranch V its mx a es = Done es' /\ adds es es' (fun k => if inb k its then [a] else []).
Proof.
  intros Hg (Hs & Hne & Hi) (Hm1 & Hm2). unfold oneBranch. destruct its as [|i0 r]; [contradiction|]. set (its := i0 :: r) in *. set (pos := (size its, i0)).
  destruct (findExistingIfElse V es [(pos, (1, its))]) as [n|] eqn:E.
  - destruct (find_some _ _ _ E) as (e & En & Es). rewrite En. pose proof (proj1 (Forall_forall _ _) Hg e (nth_error_In _ _ En)) as Ge.
    pose proof (sameIters_eq _ _ Es) as Ei. cbn [map fst snd] in Ei. destruct (e_brs V e) as [|b [|? ?]] eqn:Eb; try discriminate. cbn [map] in Ei. injection Ei as Ei.
    pose proof (gd_pos e Ge) as Gp. rewrite Eb in Gp. cbn [map] in Gp. injection Gp as Gp. rewrite <- Ei in Gp. cbn [existsb]. rewrite Gp. change (keyOf its) with pos. rewrite key_eqb_refl. cbn [orb].
    eexists. split; [reflexivity|]. split.
    + apply update_good; [exact Hg|]. constructor; cbn [e_brs].
      * discriminate.
      * pose proof (gd_pos e Ge) as H. rewrite Eb in H. exact H.
      * pose proof (gd_sel e Ge) as H. rewrite Eb in H. exact H.
    + intros k Hk. apply (update_out k _ es n e En). unfold out1. cbn [e_brs e_end]. pose proof (gd_sel e Ge k Hk) as Gs. rewrite Eb in Gs |- *.
      rewrite !(pick_pickI _ _ _ Gs). cbn [pickI]. rewrite <- Ei. destruct (inb k its); reflexivity.
  - eexists. split; [reflexivity|].
    destruct (cond_spec its [] mx Hne Hm1) as (C1 & C2 & C3 & C4); [intros k [I|[]]; apply Hm2, Hi, I|].
    assert (Gs : forall k, In k L -> holdsb k (HIf (createIndexConditionExpression its [] mx)) = inb k its).
    { intros k Hk. apply eq_true_iff_eq. rewrite holdsb_spec, inb_spec. cbn [holds]. apply C4; [apply Hm2, Hk|left; intros []]. }
    split.
    + apply Forall_app. split; [exact Hg|]. constructor; [|constructor]. constructor; cbn [e_brs map]; [discriminate|reflexivity|].
      intros k Hk. cbn [selects b_hdr b_iters]. split; [apply Gs, Hk|auto].
    + intros k Hk. rewrite map_app, concat_app. apply Permutation_app_head. cbn [map concat]. unfold out1. cbn [e_brs e_end pick b_hdr]. rewrite (Gs k Hk).
      destruct (inb k its); reflexivity.
Qed.

(** ** Several branches *)
Definition asgOf (b : V * list (N * N)) : asg := mkAsg V (fst b) (detect (snd b)) 1.
Definition itersOf (b : N * (V * list (N * N))) : list N := map fst (snd (snd b)).
Definition disj (gs : list (list N)) : Prop := ForallOrdPairs disjoint gs.

Lemma sput_in k l : forall x, In x (sput k l) <-> x = k \/ In x l.
Proof.
  induction l as [|k' l IH]; intros x; cbn [sput]; [cbn [In]; intuition congruence|].
  destruct (k <? k') eqn:E1; [cbn [In]; intuition congruence|]. destruct (N.eqb_spec k k') as [->|].
  - cbn [In]. intuition congruence.
  - cbn [In]. rewrite IH. intuition congruence.
Qed.
Lemma sput_size k l : ~ In k l -> length (sput k l) = S (length l).
Proof.
  induction l as [|k' l IH]; intros Hn; cbn [sput length]; [reflexivity|]. destruct (k <? k'); [reflexivity|].
  destruct (N.eqb_spec k k') as [->|]; [exfalso; apply Hn; left; reflexivity|]. cbn [length]. rewrite IH; [reflexivity|]. intros I; apply Hn; right; exact I.
Qed.
Lemma sputs_spec ks : forall l, NoDup ks -> disjoint ks l -> (forall x, In x (sputs ks l) <-> In x ks \/ In x l) /\ length (sputs ks l) = (length ks + length l)%nat.
Proof.
  unfold sputs. induction ks as [|k ks IH]; intros l Hn Hd; cbn [fold_left length]; [split; [intros; cbn [In]; tauto|reflexivity]|].
  inversion Hn as [|? ? N1 N2]; subst. assert (Hkl : ~ In k l) by (intros I; apply (Hd k); [left; reflexivity|exact I]).
  destruct (IH (sput k l) N2) as [I1 I2].
  - intros x Hx Hl. apply sput_in in Hl. destruct Hl as [->|Hl]; [contradiction|]. apply (Hd x); [right; exact Hx|exact Hl].
  - split; [intros x; rewrite I1, sput_in; cbn [In]; intuition congruence|]. rewrite I2, sput_size by exact Hkl. lia.
Qed.
Lemma sorted_NoDup l : StronglySorted N.lt l -> NoDup l.
Proof.
  induction 1 as [|x l H IH HF]; constructor; [|exact IH]. intros I. rewrite Forall_forall in HF. specialize (HF x I). lia.
Qed.
Lemma bget_spec c bs : NoDup (map fst bs) -> forall b, In (c, b) bs -> bget V c bs = Some b.
Proof.
  induction bs as [|[c' b'] bs IH]; intros Hn b I; [destruct I|]. cbn [map fst] in Hn. inversion Hn as [|? ? N1 N2]; subst. cbn [bget].
  destruct I as [E|I]; [injection E as -> ->; rewrite N.eqb_refl; reflexivity|]. destruct (N.eqb_spec c c') as [->|]; [|exact (IH N2 b I)].
  exfalso. apply N1. exact (in_map fst _ _ I).
Qed.

(** [gs] is made of branches of [bs] *)
Definition gmatch (bs : branches V) (g : (N * N) * (N * list N)) (b : N * (V * list (N * N))) : Prop :=
  In b bs /\ fst (snd g) = fst b /\ snd (snd g) = itersOf b /\ fst g = keyOf (itersOf b).

Lemma full_set (used its : list N) : NoDup used -> NoDup its -> disjoint its used -> incl used L -> incl its L ->
  (size L <= size used + size its) -> forall k, In k L -> In k used \/ In k its.
Proof.
  intros N1 N2 Hd I1 I2 Hs k Hk. assert (Hn : NoDup (used ++ its)).
  { clear -N1 N2 Hd. induction used as [|x u IH]; [exact N2|]. cbn [app]. inversion N1; subst. constructor.
    - rewrite in_app_iff. intros [|]; [contradiction|]. apply (Hd x); [assumption|left; reflexivity].
    - apply IH; [assumption|]. intros y Hy1 Hy2. apply (Hd y); [exact Hy1|right; exact Hy2]. }
  apply in_app_iff. revert k Hk. change (incl L (used ++ its)). apply NoDup_length_incl; [exact Hn| |].
  - rewrite app_length. unfold size in Hs. lia.
  - intros y Hy. apply in_app_iff in Hy. destruct Hy; auto.
Qed.

Lemma newBranches_spec bs mx (Hm : below L mx) (Hnd : NoDup (map fst bs)) gs : forall ds used prev next,
  Forall2 (gmatch bs) gs ds -> (forall d, In d ds -> iterations L (itersOf d)) -> disj (map itersOf ds) ->
  StronglySorted N.lt used \/ NoDup used -> incl used L -> (forall d, In d ds -> disjoint (itersOf d) used) ->
  (prev = true \/ gs <> []) -> (prev = true \/ (used = [] /\ forall d r, ds = d :: r -> size (itersOf d) <> size L)) ->
  exists brs0, newBranches V bs mx (size L) gs used prev next =
      Done (pushed brs0 next (map (fun d => asgOf (snd d)) ds), lastO next (map (fun d => asgOf (snd d)) ds)) /\
    map (b_iters V) brs0 = map itersOf ds /\ map (b_pos V) brs0 = map keyOf (map itersOf ds) /\ (forall b, In b brs0 -> b_pre V b = []) /\
    forall k, In k L -> ~ In k used -> selects k brs0.
Proof.
  induction gs as [|[pos [c its]] gs IH]; intros ds used prev next HF Hi Hd Hu Hul Hdu Hp1 Hp2; inversion HF as [|? d ? ds' G1 G2]; subst; cbn [newBranches].
  - destruct Hp1 as [->|]; [|congruence]. exists []. cbn [map pushed lastO]. repeat split; auto. intros b [].
  - destruct d as [c' [v locs]]. destruct G1 as (Gin & Gc & Gi & Gk). cbn [fst snd] in *. subst c'. unfold itersOf in Gi, Gk. cbn [snd] in Gi, Gk. subst its pos.
    rewrite (bget_spec c bs Hnd _ Gin). assert (Hu' : NoDup used) by (destruct Hu as [Hu|Hu]; [apply sorted_NoDup, Hu|exact Hu]).
    pose proof (Hi _ (or_introl eq_refl)) as (Hs & Hne & Hil). cbn [itersOf snd] in Hs, Hne, Hil. set (its := map fst locs) in *.
    pose proof (Hdu _ (or_introl eq_refl)) as Hdu1. cbn [itersOf snd] in Hdu1. fold its in Hdu1.
    inversion Hd as [|? ? HdF Hd']; subst.
    change (itersOf (c, (v, locs))) with its in *.
    destruct (N.eqb_spec (size used + size its) (size L)) as [Ef|Ef].
    + assert (Hfull := full_set used its Hu' (sorted_NoDup _ Hs) Hdu1 Hul Hil ltac:(lia)).
      assert (Hds : ds' = []).
      { destruct ds' as [|d2 ds']; [reflexivity|]. exfalso. destruct (Hi d2 (or_intror (or_introl eq_refl))) as (_ & Hne2 & Hil2).
        destruct (itersOf d2) as [|x r] eqn:E2; [contradiction|]. destruct (Hfull x (Hil2 x (or_introl eq_refl))) as [I|I].
        - apply (Hdu d2 (or_intror (or_introl eq_refl)) x); [rewrite E2; left; reflexivity|exact I].
        - rewrite Forall_forall in HdF. apply (HdF (itersOf d2)) with x; [left; reflexivity|exact I|rewrite E2; left; reflexivity]. }
      subst ds'. inversion G2; subst gs. destruct Hp2 as [->|[-> Hq]]; [|exfalso; apply (Hq _ _ eq_refl); rewrite <- Ef; reflexivity].
      cbn [newBranches obind]. exists [mkBrn V (keyOf its) its HElse []]. cbn [map pushed lastO b_pos b_iters b_hdr b_pre app fst snd].
      split; [reflexivity|]. split; [reflexivity|]. split; [reflexivity|]. split; [intros b [<-|[]]; reflexivity|].
      intros k Hk Hku. cbn [selects b_hdr b_iters holdsb]. split; [|auto]. symmetry. apply inb_spec. destruct (Hfull k Hk); [contradiction|assumption].
    + destruct (sputs_spec its used (sorted_NoDup _ Hs) Hdu1) as [Q1 Q2].
      assert (Hn' : NoDup (sputs its used)).
      { apply NoDup_incl_NoDup with (l := its ++ used).
        - clear - Hs Hu' Hdu1. pose proof (sorted_NoDup _ Hs) as Hn. clear Hs. induction its as [|x u IH]; [exact Hu'|]. cbn [app]. inversion Hn; subst. constructor.
          + rewrite in_app_iff. intros [|]; [contradiction|]. apply (Hdu1 x); [left; reflexivity|assumption].
          + apply IH; [|assumption]. intros y Hy1 Hy2. apply (Hdu1 y); [right; exact Hy1|exact Hy2].
        - rewrite app_length. lia.
        - intros x Hx. apply Q1. apply in_app_iff in Hx. exact Hx. }
      destruct (IH ds' (sputs its used) true (Some (mkAsg V v (detect locs) 1)) G2) as (brs0 & E & B1 & B2 & B3 & B4).
      * intros d Hdin. apply Hi. right. exact Hdin.
      * exact Hd'.
      * right. exact Hn'.
      * intros x Hx. apply Q1 in Hx. destruct Hx; auto.
      * intros d Hdin x Hx Hx2. apply Q1 in Hx2. destruct Hx2 as [I|I].
        -- rewrite Forall_forall in HdF. exact (HdF _ (in_map itersOf _ _ Hdin) x I Hx).
        -- exact (Hdu d (or_intror Hdin) x Hx I).
      * left. reflexivity.
      * left. reflexivity.
      * rewrite E. cbn [obind fst snd].
        destruct (cond_spec its used mx Hne (proj1 Hm)) as (C1 & C2 & C3 & C4); [intros k [I|I]; apply (proj2 Hm); auto|].
        exists (mkBrn V (keyOf its) its (if prev then HElseIf (createIndexConditionExpression its used mx) else HIf (createIndexConditionExpression its used mx)) [] :: brs0).
        cbn [map pushed lastO b_pos b_iters b_hdr b_pre app fst snd].
        split; [reflexivity|]. split; [rewrite B1; reflexivity|]. split; [rewrite B2; reflexivity|]. split; [intros b [<-|I]; [reflexivity|apply B3, I]|].
        intros k Hk Hku. cbn [selects b_hdr b_iters].
        assert (Hh : holdsb k (if prev then HElseIf (createIndexConditionExpression its used mx) else HIf (createIndexConditionExpression its used mx)) = inb k its).
        { apply eq_true_iff_eq. rewrite holdsb_spec, inb_spec, <- (C4 k (proj2 Hm k Hk) (or_introl Hku)). destruct prev; reflexivity. }
        split; [exact Hh|]. intros Hki. apply B4; [exact Hk|]. rewrite Q1. tauto.
Qed.

End Proofs.

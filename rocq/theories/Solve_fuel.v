(** * More fuel does not change a result *)
From Coq Require Import List Bool Arith Lia.
From Verif Require Import Graph_model CGArith_model Eval_model Path_model Solve_model.
Import ListNotations.

Section Fuel.
Context {B : Type} {O : BaseOps B}.

Definition pstable {A} (x y : pout A) : Prop := x <> Fuel -> y = x.
Definition sstable {A} (x y : sres A) : Prop := x <> SFuel -> y = x.
Lemma pbind_stable {A C} (x y : pout A) (f f' : A -> pout C) : pstable x y -> (forall a, x = Got a -> pstable (f a) (f' a)) ->
  pstable (pbind x f) (pbind y f').
Proof. intros H K N. destruct x as [a| |]; cbn in *; [rewrite (H ltac:(discriminate)); cbn; apply K; auto|now rewrite H by discriminate|congruence]. Qed.
Lemma sbind_stable {A C} (x y : sres A) (f f' : A -> sres C) : sstable x y -> (forall a, x = SOk a -> sstable (f a) (f' a)) ->
  sstable (sbind x f) (sbind y f').
Proof.
  intros H K N. destruct x as [a| | |]; cbn in *; [rewrite (H ltac:(discriminate)); cbn; apply K; auto|now rewrite H by discriminate..|congruence].
Qed.
Lemma pstable_refl {A} (x : pout A) : pstable x x. Proof. now intros _. Qed.
Lemma sstable_refl {A} (x : sres A) : sstable x x. Proof. now intros _. Qed.
Lemma ofpath_stable {A} (x y : pout A) : pstable x y -> sstable (ofpath x) (ofpath y).
Proof. intros H N. destruct x; cbn in *; [rewrite H; auto; discriminate..|congruence]. Qed.

Lemma fpArgs_stable rec rec' root (l : list (arg B)) : (forall a s, pstable (rec a s) (rec' a s)) ->
  forall i found s, pstable (fpArgs rec root l i found s) (fpArgs rec' root l i found s).
Proof.
  intros R. induction l as [|[a|b] l IH]; intros i found s; cbn [fpArgs]; [apply pstable_refl| |apply IH].
  apply pbind_stable; [apply R|]. intros [s1 [|]] _; cbn [fst snd]; apply IH.
Qed.
Lemma findPG_stable g target max : forall f f' root s, f <= f' -> pstable (findPG (B := B) g f target max root s) (findPG g f' target max root s).
Proof.
  induction f as [|f IH]; intros [|f'] root s L; try lia; [now intros ? | now intros ? |]. cbn [findPG].
  destruct (limit_reached max (f_bif s)); [apply pstable_refl|]. destruct (Nat.eqb root target); [apply pstable_refl|].
  destruct (pg_contains (f_graph s) root); [apply pstable_refl|]. destruct (marked s root); [apply pstable_refl|].
  apply pbind_stable; [|intros; apply pstable_refl]. apply fpArgs_stable. intros a s'. apply IH. lia.
Qed.
Lemma findPathGraph_stable g f f' root target bif max : f <= f' ->
  pstable (findPathGraph (B := B) g f root target bif max) (findPathGraph g f' root target bif max).
Proof.
  intros L. unfold findPathGraph. destruct (match max with Some m => bif <=? m | None => true end); [|apply pstable_refl].
  destruct (Nat.eqb root target); [apply pstable_refl|]. apply pbind_stable; [now apply findPG_stable|]. intros. apply pstable_refl.
Qed.
Lemma findPathUpTo_stable (g : heap B) G : forall f f' n acc, f <= f' -> pstable (findPathUpTo g f G n acc) (findPathUpTo g f' G n acc).
Proof.
  induction f as [|f IH]; intros [|f'] n acc L; try lia; [now intros ? | now intros ? |]. cbn [findPathUpTo].
  destruct (pg_find G n) as [e|]; [|apply pstable_refl]. destruct (ed_args e) as [|i1 [|i2 l]]; [apply pstable_refl| |].
  - destruct (child g n i1); [|apply pstable_refl]. apply IH. lia.
  - destruct (child g n i1); [|apply pstable_refl]. destruct (child g n i2); [|apply pstable_refl].
    apply pbind_stable; [apply IH; lia|]. intros ps _. destruct (Nat.eqb (length ps) 2); [apply pstable_refl|].
    apply pbind_stable; [apply IH; lia|]. intros. apply pstable_refl.
Qed.
Lemma pathCommon_stable G e : forall f f' n acc, f <= f' -> pstable (pathCommon f G e n acc) (pathCommon f' G e n acc).
Proof.
  induction f as [|f IH]; intros [|f'] n acc L; try lia; [now intros ? | now intros ? |]. cbn [pathCommon].
  destruct (pg_find G n) as [x|]; [|apply pstable_refl]. destruct (ed_usage x) as [|[m i] l]; [apply pstable_refl|].
  destruct (Nat.eqb m e); [apply pstable_refl|]. apply IH. lia.
Qed.
Lemma findSingle_stable (g : heap B) f f' G e t : f <= f' -> pstable (findSingleBifurcation g f G e t) (findSingleBifurcation g f' G e t).
Proof.
  intros L. unfold findSingleBifurcation. destruct G as [|x G]; [apply pstable_refl|].
  destruct (pg_find (x :: G) t) as [u|]; [|apply pstable_refl]. destruct (ed_usage u); [apply pstable_refl|].
  apply pbind_stable; [now apply findPathUpTo_stable|]. intros [|[|[n i] q] ps] _; try apply pstable_refl.
  destruct (Nat.eqb n e); [apply pstable_refl|]. apply pbind_stable; [now apply pathCommon_stable|]. intros. apply pstable_refl.
Qed.

Section Clone.
Variable decide : spath -> nat -> decision (B := B).
Variable ord : nat -> nat -> list nat.
Variable inds : list nat.
Lemma cloneArgs_stable f f' (args : list (arg B)) : (forall p j s, sstable (f p j s) (f' p j s)) ->
  forall ps acc s, sstable (cloneArgs f args ps acc s) (cloneArgs f' args ps acc s).
Proof.
  intros R. induction ps as [|p ps IH]; intros acc s; cbn [cloneArgs]; [apply sstable_refl|].
  destruct (nth_error args p) as [[j|b]|]; [| |apply sstable_refl].
  - apply sbind_stable; [apply R|]. intros [s1 v] _. apply IH.
  - cbn [sbind]. apply IH.
Qed.
Lemma cloneOps_stable : forall f f' pre i s, f <= f' ->
  sstable (cloneOps decide ord inds f pre i s) (cloneOps decide ord inds f' pre i s).
Proof.
  induction f as [|f IH]; intros [|f'] pre i s L; try lia; [now intros ? | now intros ? |]. cbn [cloneOps].
  destruct (c_memo s i); [apply sstable_refl|]. destruct (decide pre i); try apply sstable_refl.
  destruct (nth_error (c_heap s) i) as [d|]; [|apply sstable_refl].
  destruct (negb (handled (n_op d))); [apply sstable_refl|].
  destruct (n_op d); try apply sstable_refl;
    (apply sbind_stable; [apply cloneArgs_stable; intros; apply IH; lia|intros; apply sstable_refl]).
Qed.
Lemma cloneEval_stable f f' g i : f <= f' -> sstable (cloneEval decide ord inds f g i) (cloneEval decide ord inds f' g i).
Proof. intros L. unfold cloneEval. apply sbind_stable; [now apply cloneOps_stable|]. intros. apply sstable_refl. Qed.
End Clone.

Lemma addsub_stable f f' ord inds g l r : f <= f' ->
  sstable (collectVariableAddSub f ord inds g l r) (collectVariableAddSub f' ord inds g l r).
Proof.
  intros L. unfold collectVariableAddSub. destruct l as [|[nl il] l]; [apply sstable_refl|]. destruct r as [|[nr ir] r]; [apply sstable_refl|].
  destruct (negb (Nat.eqb nl nr)); [apply sstable_refl|]. destruct (nth_error g nl) as [d|]; [|apply sstable_refl].
  destruct (negb match n_op d with GAdd | GSub => true | _ => false end); [apply sstable_refl|].
  match goal with |- context[last_node ?x] => destruct (last_node x) as [v1|] end; [|apply sstable_refl].
  match goal with |- context[last_node ?x] => destruct (last_node x) as [v2|] end; [|apply sstable_refl].
  destruct (negb (Nat.eqb v1 v2)); [apply sstable_refl|].
  apply sbind_stable; [apply sstable_refl|]. intros _ _.
  apply sbind_stable; [apply sstable_refl|]. intros _ _.
  apply sbind_stable; [apply sstable_refl|]. intros [g1 cl] _.
  apply sbind_stable; [apply sstable_refl|]. intros [g2 s1] _.
  apply sbind_stable; [apply sstable_refl|]. intros [g3 cr] _.
  apply sbind_stable; [apply sstable_refl|]. intros [g4 cs] _. cbn zeta.
  apply sbind_stable; [|intros; apply sstable_refl].
  match goal with |- context[if ?c then _ else _] => destruct c end; [now apply cloneEval_stable|apply sstable_refl].
Qed.
Lemma collectVariable_stable f f' ord inds g e p1 p2 k : f <= f' ->
  sstable (collectVariable f ord inds g e p1 p2 k) (collectVariable f' ord inds g e p1 p2 k).
Proof.
  intros L. unfold collectVariable. destruct (nth_error p1 k) as [[m i]|]; [|apply sstable_refl].
  apply sbind_stable; [now apply addsub_stable|]. intros [g1 sub] _.
  apply sbind_stable; [now apply ofpath_stable, findPathGraph_stable|]. intros [G b] _. now apply cloneEval_stable.
Qed.
Lemma solveLoop_stable half max ord inds var : forall n n' f f' g root, n <= n' -> f <= f' ->
  sstable (solveLoop half max n f ord inds g root var) (solveLoop half max n' f' ord inds g root var).
Proof.
  induction n as [|n IH]; intros [|n'] f f' g root L LF; try lia; [now intros ? | now intros ? |]. cbn [solveLoop].
  apply sbind_stable; [now apply ofpath_stable, findPathGraph_stable|]. intros [G b] _.
  destruct (negb (pg_contains G var)); [apply sstable_refl|].
  apply sbind_stable; [now apply ofpath_stable, findSingle_stable|]. intros [[|p1 [|p2 ps]] k] _; try apply sstable_refl.
  destruct k as [k|]; [|apply sstable_refl].
  apply sbind_stable; [now apply collectVariable_stable|]. intros [g1 [b1|root' v]] _; [apply sstable_refl|].
  destruct (Nat.eqb b 0); [apply sstable_refl|]. apply IH; lia.
Qed.
Lemma solveFor_stable half max ord inds var n n' f f' g root : n <= n' -> f <= f' ->
  sstable (solveFor half max n f ord inds g root var) (solveFor half max n' f' ord inds g root var).
Proof. intros. unfold solveFor. destruct (Nat.eqb root var); [apply sstable_refl|]. now apply solveLoop_stable. Qed.
End Fuel.

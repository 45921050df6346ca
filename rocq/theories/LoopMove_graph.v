(** * Expressions which do not depend on the index of a loop: graphs *)
From Coq Require Import List Bool Arith Lia.
From Verif Require Import LoopMove_model LoopMove_spec.
Import ListNotations.

Lemma put_length {A} n (v : A) l : length (put n v l) = length l.
Proof. revert n. induction l as [|a l IH]; intros [|n]; cbn [put length]; [reflexivity..|]. rewrite IH. reflexivity. Qed.
Lemma put_same {A} n (v : A) l : n < length l -> nth_error (put n v l) n = Some v.
Proof. revert n. induction l as [|a l IH]; intros [|n] H; cbn [put nth_error length] in *; [lia..|reflexivity|]. apply IH. lia. Qed.
Lemma put_other {A} n m (v : A) l : n <> m -> nth_error (put n v l) m = nth_error l m.
Proof. revert n m. induction l as [|a l IH]; intros [|n] [|m] H; cbn [put nth_error]; try reflexivity; [congruence|]. apply IH. congruence. Qed.
Lemma In_put {A} n (v a : A) l : In a (put n v l) -> a = v \/ In a l.
Proof. revert n. induction l as [|b l IH]; intros [|n] H; cbn [put In] in *; [tauto..|destruct H as [<-|H]; auto|]. destruct H as [H|H]; [auto|]. destruct (IH n H); auto. Qed.
Lemma nth_In_put {A} n k (v a : A) l : nth_error l k = Some a -> k <> n -> In a (put n v l).
Proof. intros H N. apply (nth_error_In _ k). rewrite put_other by congruence. exact H. Qed.
Lemma insert_In n m l : In m (insert n l) <-> m = n \/ In m l.
Proof.
  unfold insert. destruct (existsb (Nat.eqb n) l) eqn:E.
  - apply existsb_exists in E. destruct E as (k & I & E). apply Nat.eqb_eq in E. subst k. split; [auto|]. intros [->|H]; assumption.
  - rewrite in_app_iff. cbn [In]. split; [intros [H|[<-|[]]]; auto|intros [->|H]; auto].
Qed.
Lemma insert_NoDup n l : NoDup l -> NoDup (insert n l).
Proof.
  intros H. unfold insert. destruct (existsb (Nat.eqb n) l) eqn:E; [exact H|]. assert (N : ~ In n l).
  { intros I. assert (X : existsb (Nat.eqb n) l = true) by (apply existsb_exists; exists n; split; [exact I|apply Nat.eqb_refl]). congruence. }
  clear E. induction l as [|a l IH]; cbn [app]; [constructor; [tauto|constructor]|]. apply NoDup_cons_iff in H. destruct H as [Ha Hl]. constructor.
  - intros I. apply in_app_iff in I. destruct I as [I|[->|[]]]; [exact (Ha I)|]. apply N. left. reflexivity.
  - apply IH; [exact Hl|]. intros I. apply N. right. exact I.
Qed.

Lemma reaches_trans g a b c : reaches g a b -> reaches g b c -> reaches g a c.
Proof. intros H. induction H as [n|n m l C R IH]; intros K; [exact K|]. exact (R_arg g n m c C (IH K)). Qed.
Lemma reaches_inv g n l : reaches g n l -> n = l \/ exists m, child g n m /\ reaches g m l.
Proof. intros H. inversion H as [|? m ? C R]; subst; [left; reflexivity|right; exists m; auto]. Qed.
Lemma reaches_iff g n l : reaches g n l <-> n = l \/ exists m, child g n m /\ reaches g m l.
Proof. split; [apply reaches_inv|]. intros [->|(m & C & R)]; [apply R_here|exact (R_arg g n m l C R)]. Qed.
Lemma child_args g n nd m : nth_error g n = Some nd -> (child g n m <-> In (Ref m) (nargs nd)).
Proof. intros H. split; [intros (nd' & H' & I); congruence|intros I; exists nd; auto]. Qed.

(** ** The assignment between a temporary and its value *)
Section Wrap.
Variable g : graph.
Variables a b : nat.
Variable nd : node.
Hypothesis Ha : nth_error g a = Some nd.
Hypothesis Hb : nth_error (nargs nd) 1 = Some (Ref b).
Hypothesis Hcl : closed g.
Let new := length g.
Let g1 : graph := put a (mkNode (nkind nd) (put 1 (Ref new) (nargs nd))) g ++ [mkNode KAssign [Ref b]].
Lemma alt : a < length g. Proof. apply nth_error_Some. congruence. Qed.
Lemma g1_length : length g1 = S (length g).
Proof. unfold g1. rewrite app_length, put_length. cbn [length]. lia. Qed.
Lemma g1_a : nth_error g1 a = Some (mkNode (nkind nd) (put 1 (Ref new) (nargs nd))).
Proof. pose proof alt. unfold g1. rewrite nth_error_app1 by (rewrite put_length; lia). apply put_same. lia. Qed.
Lemma g1_new : nth_error g1 new = Some (mkNode KAssign [Ref b]).
Proof. unfold g1, new. rewrite nth_error_app2 by (rewrite put_length; lia). rewrite put_length, Nat.sub_diag. reflexivity. Qed.
Lemma g1_old n : n < length g -> n <> a -> nth_error g1 n = nth_error g n.
Proof. intros L N. unfold g1. rewrite nth_error_app1 by (rewrite put_length; lia). apply put_other. congruence. Qed.
Lemma g1_node n nd1 : nth_error g1 n = Some nd1 -> (n = a /\ nd1 = mkNode (nkind nd) (put 1 (Ref new) (nargs nd))) \/ (n = new /\ nd1 = mkNode KAssign [Ref b]) \/ (n < length g /\ n <> a /\ nth_error g n = Some nd1).
Proof.
  intros H. assert (L : n < S (length g)) by (rewrite <- g1_length; apply nth_error_Some; congruence). destruct (Nat.eq_dec n a) as [->|N]; [left; rewrite g1_a in H; split; congruence|right].
  destruct (Nat.eq_dec n new) as [->|N']; [left; rewrite g1_new in H; split; congruence|right]. assert (n < length g) by (unfold new in N'; lia). rewrite g1_old in H by assumption. auto.
Qed.
Lemma child_ab : child g a b. Proof. exists nd. split; [exact Ha|]. exact (nth_error_In _ _ Hb). Qed.
Lemma blt : b < length g. Proof. exact (Hcl a b child_ab). Qed.
Lemma child_new : child g1 new b. Proof. exists (mkNode KAssign [Ref b]). split; [exact g1_new|]. left. reflexivity. Qed.
Lemma child_a_new : child g1 a new.
Proof. exists (mkNode (nkind nd) (put 1 (Ref new) (nargs nd))). split; [exact g1_a|]. cbn [nargs]. apply (nth_error_In _ 1). apply put_same. apply nth_error_Some. congruence. Qed.
Lemma child_cases n m : child g1 n m -> (n = new /\ m = b) \/ (n = a /\ m = new) \/ (n < length g /\ child g n m).
Proof.
  intros (nd1 & H & I). destruct (g1_node n nd1 H) as [[-> ->]|[[-> ->]|(L & _ & H')]].
  - cbn [nargs] in I. apply In_put in I. destruct I as [I|I]; [injection I as ->; auto|]. right. right. split; [exact alt|]. exists nd. auto.
  - cbn [nargs] in I. destruct I as [I|[]]. injection I as ->. auto.
  - right. right. split; [exact L|]. exists nd1. auto.
Qed.
Lemma child_keep n m : child g n m -> child g1 n m \/ (n = a /\ m = b).
Proof.
  intros (nd1 & H & I). destruct (Nat.eq_dec n a) as [->|N].
  - assert (nd1 = nd) by congruence. subst nd1. apply In_nth_error in I. destruct I as (k & E). destruct (Nat.eq_dec k 1) as [->|K]; [right; split; congruence|left].
    exists (mkNode (nkind nd) (put 1 (Ref new) (nargs nd))). split; [exact g1_a|]. exact (nth_In_put 1 k _ _ _ E K).
  - left. exists nd1. split; [|exact I]. rewrite g1_old; [exact H|apply nth_error_Some; congruence|exact N].
Qed.
Lemma wrap_closed : closed g1.
Proof. intros n m C. rewrite g1_length. destruct (child_cases n m C) as [[_ ->]|[[_ ->]|[_ C']]]; [pose proof blt; lia|unfold new; lia|pose proof (Hcl _ _ C'); lia]. Qed.
Lemma wrap_acyclic : acyclic g -> acyclic g1.
Proof.
  intros (rank & H). exists (fun n => if n =? new then 2 * rank b + 1 else 2 * rank n). intros n m C.
  assert (B : b <> new) by (pose proof blt; unfold new; lia). assert (A : a <> new) by (pose proof alt; unfold new; lia).
  destruct (child_cases n m C) as [[-> ->]|[[-> ->]|[L C']]].
  - rewrite Nat.eqb_refl, (proj2 (Nat.eqb_neq b new) B). lia.
  - rewrite Nat.eqb_refl, (proj2 (Nat.eqb_neq a new) A). pose proof (H _ _ child_ab). lia.
  - rewrite (proj2 (Nat.eqb_neq n new)) by (unfold new; lia). rewrite (proj2 (Nat.eqb_neq m new)) by (pose proof (Hcl _ _ C'); unfold new; lia). pose proof (H _ _ C'). lia.
Qed.
Lemma wrap_reaches1 n l : reaches g n l -> reaches g1 n l.
Proof.
  intros H. induction H as [n|n m l C R IH]; [apply R_here|]. destruct (child_keep n m C) as [C'|[-> ->]]; [exact (R_arg g1 n m l C' IH)|].
  exact (R_arg g1 a new l child_a_new (R_arg g1 new b l child_new IH)).
Qed.
Lemma wrap_reaches2 n l : l < length g -> reaches g1 n l -> (n < length g -> reaches g n l) /\ (n = new -> reaches g b l).
Proof.
  intros Ll H. induction H as [n|n m l C R IH].
  - split; [intros; apply R_here|]. intros ->. unfold new in Ll. lia.
  - destruct (IH Ll) as [I1 I2]. split.
    + intros L. destruct (child_cases n m C) as [[X _]|[[-> ->]|[_ C']]]; [unfold new in X; lia| |].
      * exact (R_arg g a b l child_ab (I2 eq_refl)).
      * exact (R_arg g n m l C' (I1 (Hcl _ _ C'))).
    + intros ->. destruct (child_cases new m C) as [[_ ->]|[[X _]|[L _]]]; [exact (I1 blt)|pose proof alt; unfold new in X; lia|unfold new in L; lia].
Qed.
Lemma wrap_reaches n l : n < length g -> l < length g -> (reaches g1 n l <-> reaches g n l).
Proof. intros L Ll. split; [intros H; exact (proj1 (wrap_reaches2 n l Ll H) L)|apply wrap_reaches1]. Qed.

(** ** Values *)
Variable W : Type.
Variable cst : nat -> W.
Variable op : nat -> kind -> list W -> W.
Hypothesis Hop : forall n v, op n KAssign [v] = v.
Hypothesis Hk : nkind nd <> KIndexDcl.
Hypothesis Hac : acyclic g.
Variable env : nat -> W.
Let none : nat -> Prop := fun _ => False.
Let val (h : graph) := value W cst op h none env env.
Let vals (h : graph) := values W cst op h none env env.
Lemma val_new v : val g1 new v <-> val g1 b v.
Proof.
  split.
  - intros H. inversion H as [?|? ? _ E K|? nd1 vs _ E K Hv]; subst; [contradiction| |]; rewrite g1_new in E; injection E as <-; cbn [nkind nargs] in *; [discriminate|].
    inversion Hv as [| |? ? v' vs' H1 H2]; subst. inversion H2; subst. rewrite Hop. exact H1.
  - intros H. rewrite <- (Hop new v). refine (V_op W cst op g1 none env env new (mkNode KAssign [Ref b]) [v] (fun x => x) g1_new _ _); [discriminate|]. apply Vs_ref; [exact H|apply Vs_nil].
Qed.
Lemma vals_map (h h' : graph) (f : nat -> nat) l vs : (forall m v, In (Ref m) l -> val h m v -> val h' m v) -> vals h l vs -> vals h' l vs.
Proof.
  intros F H. induction H as [|c r vs H IH|m r v vs V H IH].
  - apply Vs_nil.
  - apply Vs_cst. apply IH. intros m v I. apply F. right. exact I.
  - apply Vs_ref; [apply F; [left; reflexivity|exact V]|]. apply IH. intros m' v' I. apply F. right. exact I.
Qed.
Lemma vals_put h h' k m m' l vs : nth_error l k = Some (Ref m) -> (forall x v, In (Ref x) l -> val h x v -> val h' x v) -> (forall v, val h m v -> val h' m' v) -> vals h l vs -> vals h' (put k (Ref m') l) vs.
Proof.
  intros E F G H. revert k E. induction H as [|c r vs H IH|x r v vs V H IH]; intros [|k] E; cbn [nth_error put] in *; try discriminate.
  - apply Vs_cst. apply IH; [|exact E]. intros y v I. apply F. right. exact I.
  - injection E as ->. apply Vs_ref; [exact (G v V)|]. apply (vals_map h h' (fun x => x)); [|exact H]. intros y w I. apply F. right. exact I.
  - apply Vs_ref; [apply F; [left; reflexivity|exact V]|]. apply IH; [|exact E]. intros y w I. apply F. right. exact I.
Qed.
Lemma vals_unput h h' k m m' l vs : nth_error l k = Some (Ref m) -> (forall x v, In (Ref x) l -> val h' x v -> val h x v) -> (forall v, val h' m' v -> val h m v) -> vals h' (put k (Ref m') l) vs -> vals h l vs.
Proof.
  intros E F G. revert k vs E. induction l as [|[c|x] l IH]; intros [|k] vs E H; cbn [nth_error put] in *; try discriminate.
  - inversion H; subst. apply Vs_cst. apply (IH (fun x v I => F x v (or_intror I)) k); assumption.
  - injection E as ->. inversion H; subst. apply Vs_ref; [apply G; assumption|]. apply (vals_map h' h (fun x => x)); [|assumption]. intros y w I. apply F. right. exact I.
  - inversion H; subst. apply Vs_ref; [apply F; [left; reflexivity|assumption]|]. apply (IH (fun x v I => F x v (or_intror I)) k); assumption.
Qed.
Lemma wrap_value n v : n < length g -> (val g1 n v <-> val g n v).
Proof.
  destruct Hac as (rank & Hr). remember (S (rank n)) as f eqn:Ef. assert (Lf : rank n < f) by lia. clear Ef. revert n v Lf. induction f as [|f IH]; intros n v Lf L; [lia|].
  assert (IC : forall m w, child g n m -> (val g1 m w <-> val g m w)) by (intros m w C; apply IH; [pose proof (Hr _ _ C); lia|exact (Hcl _ _ C)]).
  destruct (Nat.eq_dec n a) as [->|N].
  - assert (IN : forall w, val g1 new w <-> val g b w) by (intros w; rewrite val_new; apply IC; exact child_ab). split; intros H.
    + inversion H as [?|? ? _ E K|? nd1 vs _ E K Hv]; subst; [contradiction| |]; rewrite g1_a in E; injection E as <-; cbn [nkind nargs] in *; [contradiction|].
      apply (V_op W cst op g none env env a nd vs (fun x => x) Ha Hk). apply (vals_unput g g1 1 b new _ _ Hb); [|intros w X; apply IN, X|exact Hv]. intros x w I X. apply IC; [exists nd; auto|exact X].
    + inversion H as [?|? nd1 _ E K|? nd1 vs _ E K Hv]; subst; [contradiction| |]; assert (nd1 = nd) by congruence; subst nd1; [contradiction|].
      refine (V_op W cst op g1 none env env a _ vs (fun x => x) g1_a Hk _). cbn [nargs]. apply (vals_put g g1 1 b new _ _ Hb); [|intros w X; apply IN, X|exact Hv]. intros x w I X. apply IC; [exists nd; auto|exact X].
  - pose proof (g1_old n L N) as E1. split; intros H.
    + inversion H as [?|? nd1 _ E K|? nd1 vs _ E K Hv]; subst; [contradiction| |]; rewrite E1 in E.
      * exact (V_index W cst op g none env env n nd1 (fun x => x) E K).
      * apply (V_op W cst op g none env env n nd1 vs (fun x => x) E K). apply (vals_map g1 g (fun x => x)); [|exact Hv]. intros x w I X. apply IC; [exists nd1; auto|exact X].
    + inversion H as [?|? nd1 _ E K|? nd1 vs _ E K Hv]; subst; [contradiction| |]; rewrite <- E1 in E.
      * exact (V_index W cst op g1 none env env n nd1 (fun x => x) E K).
      * apply (V_op W cst op g1 none env env n nd1 vs (fun x => x) E K). apply (vals_map g g1 (fun x => x)); [|exact Hv]. intros x w I X. apply IC; [exists nd1; split; [rewrite E1 in E; exact E|exact I]|exact X].
Qed.
End Wrap.

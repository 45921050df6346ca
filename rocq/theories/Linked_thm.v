(** * C36: linked equation groups are the connected components of the links *)
From Coq Require Import List Arith Bool Lia Relations.
From Verif Require Import Pool_model Pool_proofs Sparsity_model Sparsity_proofs Linked_model.
Import ListNotations.
Local Open Scope nat_scope.

(** ** Specification *)

(** A chain of links joins [x] and [y]. *)
Definition joined (E : list (nat * nat)) : nat -> nat -> Prop := clos_refl_sym_trans nat (fun a b => In (a, b) E).
Definition mentioned (E : list (nat * nat)) (x : nat) : Prop := exists y, In (x, y) E \/ In (y, x) E.
Definition same_group (rel : list set) (x y : nat) : Prop := exists s, In s rel /\ In x s /\ In y s.
Definition disjoint (rel : list set) : Prop :=
  forall i j s t x, nth_error rel i = Some s -> nth_error rel j = Some t -> In x s -> In x t -> i = j.

(** ** Proofs *)

Lemma joined_mono E E' x y : (forall p, In p E -> In p E') -> joined E x y -> joined E' x y.
Proof.
  intros H J. induction J as [a b J|a|a b J IH|a b c J1 IH1 J2 IH2]; [apply rst_step, H, J|apply rst_refl|apply rst_sym, IH|apply (rst_trans _ _ _ _ _ IH1 IH2)].
Qed.

Lemma joined_add E a b x y : joined (E ++ [(a, b)]) x y <->
  joined E x y \/ (joined E x a /\ joined E b y) \/ (joined E x b /\ joined E a y).
Proof.
  split.
  - intros J. induction J as [u v J|u|u v J IH|u v w J1 IH1 J2 IH2].
    + apply in_app_iff in J. destruct J as [J|[J|[]]].
      * left. apply rst_step. assumption.
      * injection J as <- <-. right. left. split; apply rst_refl.
    + left. apply rst_refl.
    + destruct IH as [H|[[H1 H2]|[H1 H2]]]; [left; apply rst_sym; assumption| |]; right; [right|left]; split; apply rst_sym; assumption.
    + assert (T := fun p q r => rst_trans nat (fun c d => In (c, d) E) p q r). fold (joined E) in T.
      assert (Sy := fun p q => rst_sym nat (fun c d => In (c, d) E) p q). fold (joined E) in Sy.
      destruct IH1 as [H1|[[H1 H2]|[H1 H2]]]; destruct IH2 as [H3|[[H3 H4]|[H3 H4]]].
      * left. eauto.
      * right; left; split; eauto.
      * right; right; split; eauto.
      * right; left; split; eauto.
      * right; left; split; eauto.
      * left. eauto.
      * right; right; split; eauto.
      * left. eauto.
      * right; right; split; eauto.
  - assert (M : forall p q, joined E p q -> joined (E ++ [(a, b)]) p q) by (intros p q; apply joined_mono; intros; apply in_or_app; auto).
    assert (L : joined (E ++ [(a, b)]) a b) by (apply rst_step, in_or_app; right; left; reflexivity).
    intros [H|[[H1 H2]|[H1 H2]]]; [auto| |].
    + apply (rst_trans _ _ _ a); [apply M, H1|]. apply (rst_trans _ _ _ b); [apply L|apply M, H2].
    + apply (rst_trans _ _ _ b); [apply M, H1|]. apply (rst_trans _ _ _ a); [apply rst_sym, L|apply M, H2].
Qed.

Lemma joined_mentioned E x y : joined E x y -> x = y \/ (mentioned E x /\ mentioned E y).
Proof.
  intros J. induction J as [a b J|a|a b J IH|a b c J1 IH1 J2 IH2].
  - right. split; [exists b; left; assumption|exists a; right; assumption].
  - left. reflexivity.
  - destruct IH as [->|[H1 H2]]; auto.
  - destruct IH1 as [->|[H1 H2]]; [assumption|]. destruct IH2 as [->|[H3 H4]]; auto.
Qed.

Lemma mentioned_add E a b x : mentioned (E ++ [(a, b)]) x <-> mentioned E x \/ x = a \/ x = b.
Proof.
  unfold mentioned. split.
  - intros [y [H|H]]; apply in_app_iff in H; destruct H as [H|[H|[]]]; try (left; exists y; auto; fail); injection H as <- <-; auto.
  - intros [[y H]|[->| ->]].
    + exists y. rewrite !in_app_iff. destruct H; auto.
    + exists b. left. apply in_or_app. right. left. reflexivity.
    + exists a. right. apply in_or_app. right. left. reflexivity.
Qed.

(** The position found. *)
Lemma findRel_spec rel e : match nth_error rel (findRel rel e) with Some s => In e s | None => findRel rel e = length rel /\ forall s, In s rel -> ~ In e s end.
Proof.
  induction rel as [|s rel IH]; cbn [findRel nth_error].
  - split; [reflexivity|]. intros s [].
  - destruct (sfind e s) eqn:F; cbn [nth_error].
    + apply sfind_In. assumption.
    + destruct (nth_error rel (findRel rel e)); [assumption|]. destruct IH as [-> IH]. split; [reflexivity|].
      intros t [<-|Ht]; [|apply IH, Ht]. intros H. apply sfind_In in H. congruence.
Qed.

Lemma findRel_le rel e : findRel rel e <= length rel.
Proof. induction rel as [|s rel IH]; cbn; [lia|]. destruct (sfind e s); lia. Qed.

Lemma nth_erase {A} : forall (l : list A) k i, nth_error (eraseAt l k) i = nth_error l (if i <? k then i else S i).
Proof.
  induction l as [|x l IH]; intros [|k] [|i]; cbn [eraseAt nth_error]; try reflexivity; try (destruct (_ <? _); reflexivity).
  rewrite IH. change (S i <? S k) with (i <? k). destruct (i <? k); reflexivity.
Qed.

Lemma in_erase {A} (l : list A) k x : In x (eraseAt l k) <-> exists i, i <> k /\ nth_error l i = Some x.
Proof.
  split.
  - intros H. apply In_nth_error in H. destruct H as [i H]. rewrite nth_erase in H. destruct (Nat.ltb_spec i k); eexists; (split; [|exact H]); lia.
  - intros [i [H1 H2]]. destruct (Nat.lt_ge_cases i k) as [H|H].
    + apply (nth_error_In _ i). rewrite nth_erase. rewrite (proj2 (Nat.ltb_lt _ _) H). assumption.
    + destruct i as [|i]; [lia|]. apply (nth_error_In _ i). rewrite nth_erase. destruct (Nat.ltb_spec i k); [lia|assumption].
Qed.

(** What a step does, for any relations: [g] tells for every element its group. *)
Record inv (rel : list set) (E : list (nat * nat)) : Prop := {
  inv_dis : disjoint rel;
  inv_same : forall x y, same_group rel x y <-> mentioned E x /\ mentioned E y /\ joined E x y }.

Lemma same_self rel x s : In s rel -> In x s -> same_group rel x x.
Proof. intros H1 H2. exists s. auto. Qed.

Lemma in_setNth {A} (l : list A) k u x : k < length l -> (In x (setNth l k u) <-> x = u \/ exists i, i <> k /\ nth_error l i = Some x).
Proof.
  intros Hk. split.
  - intros H. apply In_nth_error in H. destruct H as [i H]. destruct (Nat.eq_dec k i) as [<-|Hne].
    + rewrite nth_set_eq in H by assumption. left. congruence.
    + rewrite nth_set_ne in H by assumption. right. exists i. auto.
  - intros [->|[i [H1 H2]]].
    + apply (nth_error_In _ k). apply nth_set_eq. assumption.
    + apply (nth_error_In _ i). rewrite nth_set_ne by auto. assumption.
Qed.

(** The members of the group of [e], or [e] alone if it has none. *)
Lemma group_of rel E e : inv rel E -> forall k s, nth_error rel k = Some s -> In e s -> forall x, In x s <-> mentioned E x /\ joined E e x.
Proof.
  intros [D Sm] k s Hk He x. assert (He' : mentioned E e) by (apply (Sm e e); exists s; split; [apply (nth_error_In _ _ Hk)|auto]). split.
  - intros Hx. destruct (proj1 (Sm e x)) as [_ [H2 H3]]; [exists s; split; [apply (nth_error_In _ _ Hk)|auto]|]. auto.
  - intros [H1 H2]. destruct (proj2 (Sm e x)) as [t [Ht [H3 H4]]]; [auto|]. apply In_nth_error in Ht. destruct Ht as [j Hj].
    assert (k = j) by (apply (D k j s t e); assumption). subst j. congruence.
Qed.

Lemma link_inv rel E a b : inv rel E -> inv (linkRel rel a b) (E ++ [(a, b)]).
Proof.
  intros HI. assert (D := inv_dis _ _ HI). assert (Sm := inv_same _ _ HI).
  assert (Ga := group_of rel E a HI). assert (Gb := group_of rel E b HI).
  assert (Fa := findRel_spec rel a). assert (Fb := findRel_spec rel b).
  assert (Na : (exists s, In s rel /\ In a s) <-> mentioned E a).
  { split; [intros [s [H1 H2]]; apply (Sm a a); exists s; auto|]. intros H. destruct (proj2 (Sm a a)) as [s [H1 [H2 _]]]; [split; [assumption|split; [assumption|apply rst_refl]]|]. exists s. auto. }
  assert (Nb : (exists s, In s rel /\ In b s) <-> mentioned E b).
  { split; [intros [s [H1 H2]]; apply (Sm b b); exists s; auto|]. intros H. destruct (proj2 (Sm b b)) as [s [H1 [H2 _]]]; [split; [assumption|split; [assumption|apply rst_refl]]|]. exists s. auto. }
  assert (Tr := fun p q r => rst_trans nat (fun c d => In (c, d) E) p q r). fold (joined E) in Tr.
  assert (Sy := fun p q => rst_sym nat (fun c d => In (c, d) E) p q). fold (joined E) in Sy.
  assert (Re := fun p => rst_refl nat (fun c d => In (c, d) E) p). fold (joined E) in Re.
  assert (JM := joined_mentioned E).
  unfold linkRel. set (p1 := findRel rel a) in *. set (p2 := findRel rel b) in *.
  assert (Oth : forall i s, nth_error rel i = Some s -> forall x y, In x s -> In y s -> mentioned E x /\ mentioned E y /\ joined E x y).
  { intros i s Hi x y Hx Hy. apply Sm. exists s. split; [apply (nth_error_In _ _ Hi)|auto]. }
  (* a set which is in a position other than that of an element does not have it *)
  assert (Nin : forall i k s t e, nth_error rel i = Some s -> nth_error rel k = Some t -> i <> k -> In e t -> ~ In e s) by (intros i k s t e Hi Hk Hne He Hs; apply Hne, (D i k s t e); assumption).
  destruct (Nat.eqb_spec p1 p2) as [Heq|Hne]; [destruct (Nat.eqb_spec p1 (length rel)) as [Hend|Hend]|destruct (Nat.ltb_spec p1 (length rel)) as [H1|H1]; [destruct (Nat.ltb_spec p2 (length rel)) as [H2|H2]|]].
  - (* both new *)
    rewrite <- Heq in Fb. rewrite Hend in *. rewrite (proj2 (nth_error_None _ _) (le_n _)) in Fa, Fb. destruct Fa as [_ Fa], Fb as [_ Fb].
    assert (Ma : ~ mentioned E a) by (rewrite <- Na; intros [s [X Y]]; apply (Fa s X Y)). assert (Mb : ~ mentioned E b) by (rewrite <- Nb; intros [s [X Y]]; apply (Fb s X Y)).
    assert (In2 : forall x, In x (sins b (sins a [])) <-> x = b \/ x = a) by (intros x; rewrite !sins_In; cbn; intuition).
    split.
    + intros i j s t x Hi Hj Hx Hy.
      assert (X : forall i s, nth_error (rel ++ [sins b (sins a [])]) i = Some s -> (i < length rel /\ nth_error rel i = Some s) \/ (i = length rel /\ s = sins b (sins a []))).
      { intros i' s' Hi'. destruct (Nat.lt_ge_cases i' (length rel)); [left; rewrite nth_error_app1 in Hi' by assumption; auto|]. right.
        rewrite nth_error_app2 in Hi' by assumption. destruct (i' - length rel) as [|q] eqn:Q; cbn [nth_error] in Hi'; [split; [lia|congruence]|destruct q; discriminate]. }
      destruct (X _ _ Hi) as [[_ X1]|[-> ->]]; destruct (X _ _ Hj) as [[_ X2]|[-> ->]]; [apply (D i j s t x); assumption| | |reflexivity].
      * exfalso. apply In2 in Hy. destruct Hy as [->| ->]; [apply (Fb s); [apply (nth_error_In _ _ X1)|assumption]|apply (Fa s); [apply (nth_error_In _ _ X1)|assumption]].
      * exfalso. apply In2 in Hx. destruct Hx as [->| ->]; [apply (Fb t); [apply (nth_error_In _ _ X2)|assumption]|apply (Fa t); [apply (nth_error_In _ _ X2)|assumption]].
    + intros x y. unfold same_group. rewrite !mentioned_add, joined_add. split.
      * intros [s [Hs [Hx Hy]]]. apply in_app_iff in Hs. destruct Hs as [Hs|[<-|[]]].
        -- destruct (proj1 (Sm x y)) as [A1 [A2 A3]]; [exists s; auto|]. auto.
        -- apply In2 in Hx. apply In2 in Hy. destruct Hx as [->| ->], Hy as [->| ->]; (split; [auto|split; [auto|]]); auto.
      * intros [Mx [My J]].
        assert (Ja : forall z, joined E a z -> z = a) by (intros z Hz; destruct (JM _ _ Hz) as [|[? _]]; [congruence|tauto]).
        assert (Jb : forall z, joined E b z -> z = b) by (intros z Hz; destruct (JM _ _ Hz) as [|[? _]]; [congruence|tauto]).
        assert (K : (mentioned E x /\ mentioned E y /\ joined E x y) \/ (In x (sins b (sins a [])) /\ In y (sins b (sins a [])))).
        { rewrite !In2. destruct J as [J|[[J1 J2]|[J1 J2]]].
          - destruct Mx as [Mx|[->| ->]].
            + left. destruct (JM _ _ J) as [<-|[? ?]]; auto.
            + right. rewrite (Ja y J). auto.
            + right. rewrite (Jb y J). auto.
          - right. rewrite (Ja x (Sy _ _ J1)), (Jb y J2). auto.
          - right. rewrite (Jb x (Sy _ _ J1)), (Ja y J2). auto. }
        destruct K as [K|K].
        -- apply Sm in K. destruct K as [s [K1 K2]]. exists s. split; [apply in_or_app; left; assumption|assumption].
        -- exists (sins b (sins a [])). split; [apply in_or_app; right; left; reflexivity|assumption].
  - (* already in the same group *)
    assert (L1 : p1 < length rel) by (assert (p1 <= length rel) by apply findRel_le; lia).
    rewrite <- Heq in Fb. destruct (nth_error rel p1) as [s|] eqn:Es; [|apply nth_error_None in Es; lia].
    destruct (Oth p1 s Es a b Fa Fb) as [Ma [Mb Jab]]. split; [assumption|].
    intros x y. rewrite Sm, !mentioned_add, joined_add. split.
    + intros [A1 [A2 A3]]. auto.
    + intros [A1 [A2 A3]]. assert (Mx : mentioned E x) by (destruct A1 as [|[->| ->]]; assumption). assert (My : mentioned E y) by (destruct A2 as [|[->| ->]]; assumption).
      split; [assumption|]. split; [assumption|]. destruct A3 as [A3|[[A3 A4]|[A3 A4]]]; [assumption| |]; eauto.
  - (* merge *)
    destruct (nth_error rel p1) as [s1|] eqn:E1; [|apply nth_error_None in E1; lia].
    destruct (nth_error rel p2) as [s2|] eqn:E2; [|apply nth_error_None in E2; lia].
    rewrite (nth_error_nth _ _ _ E1), (nth_error_nth _ _ _ E2). set (u := sinsAll s2 s1).
    assert (Iu : forall x, In x u <-> In x s2 \/ In x s1) by (intros; apply sinsAll_In).
    destruct (Oth p1 s1 E1 a a Fa Fa) as [Ma _]. destruct (Oth p2 s2 E2 b b Fb Fb) as [Mb _].
    assert (C1 : forall i s, nth_error (eraseAt (setNth rel p1 u) p2) i = Some s -> exists j, j <> p2 /\ j = (if i <? p2 then i else S i) /\ ((j = p1 /\ s = u) \/ (j <> p1 /\ nth_error rel j = Some s))).
    { intros i s Hi. rewrite nth_erase in Hi. exists (if i <? p2 then i else S i). split; [destruct (Nat.ltb_spec i p2); lia|]. split; [reflexivity|].
      destruct (Nat.eq_dec p1 (if i <? p2 then i else S i)) as [Eq|Nq].
      - rewrite <- Eq in Hi. rewrite nth_set_eq in Hi by assumption. left. split; [auto|congruence].
      - rewrite nth_set_ne in Hi by assumption. right. split; [auto|assumption]. }
    split.
    + intros i j s t x Hi Hj Hx Hy. destruct (C1 _ _ Hi) as [i' [I1 [I2 I3]]]. destruct (C1 _ _ Hj) as [j' [J1 [J2 J3]]].
      assert (i' = j').
      { destruct I3 as [[-> ->]|[I3 I4]]; destruct J3 as [[-> ->]|[J3 J4]]; [reflexivity| | |apply (D i' j' s t x); assumption].
        - apply Iu in Hx. destruct Hx as [Hx|Hx]; [exfalso; apply J1; symmetry; apply (D p2 j' s2 t x); assumption|apply (D p1 j' s1 t x); assumption].
        - apply Iu in Hy. destruct Hy as [Hy|Hy]; [exfalso; apply I1; symmetry; apply (D p2 i' s2 s x); assumption|apply (D i' p1 s s1 x); assumption]. }
      subst i' j'. destruct (Nat.ltb_spec i p2); destruct (Nat.ltb_spec j p2); lia.
    + assert (Ju : forall x, In x u <-> (mentioned E x /\ joined E a x) \/ (mentioned E x /\ joined E b x)).
      { intros x. rewrite Iu, (Ga p1 s1 E1 Fa), (Gb p2 s2 E2 Fb). tauto. }
      intros x y. unfold same_group. rewrite !mentioned_add, joined_add. split.
      * intros [s [Hs [Hx Hy]]]. apply in_erase in Hs. destruct Hs as [j [Hj Hs]]. destruct (Nat.eq_dec p1 j) as [<-|Nq].
        -- rewrite nth_set_eq in Hs by assumption. injection Hs as <-. apply Ju in Hx. apply Ju in Hy.
           destruct Hx as [[Hx1 Hx2]|[Hx1 Hx2]], Hy as [[Hy1 Hy2]|[Hy1 Hy2]]; (split; [auto|split; [auto|]]); eauto 6.
        -- rewrite nth_set_ne in Hs by assumption. destruct (Oth j s Hs x y Hx Hy) as [A1 [A2 A3]]. auto.
      * intros [Mx [My J]]. assert (Mx' : mentioned E x) by (destruct Mx as [|[->| ->]]; assumption). assert (My' : mentioned E y) by (destruct My as [|[->| ->]]; assumption).
        assert (K : (joined E x y /\ ~ In x u) \/ (In x u /\ In y u)).
        { destruct J as [J|[[J1 J2]|[J1 J2]]].
          - destruct (in_dec Nat.eq_dec x u) as [Hu|Hu]; [|left; auto]. right. split; [assumption|]. apply Ju. apply Ju in Hu. destruct Hu as [[_ Hu]|[_ Hu]]; eauto.
          - right. rewrite !Ju. split; [left; auto|right; auto].
          - right. rewrite !Ju. split; [right; auto|left; auto]. }
        destruct K as [[K1 K2]|K].
        -- destruct (proj2 (Sm x y)) as [s [Hs [Hx Hy]]]; [auto|]. exists s. split; [|auto]. apply In_nth_error in Hs. destruct Hs as [i Hi]. apply in_erase. exists i.
           rewrite Iu in K2. assert (i <> p1) by (intros ->; apply K2; right; congruence). assert (i <> p2) by (intros ->; apply K2; left; congruence).
           split; [assumption|]. rewrite nth_set_ne by auto. assumption.
        -- exists u. split; [|assumption]. apply in_erase. exists p1. split; [assumption|]. apply nth_set_eq. assumption.
  - (* b is new *)
    destruct (nth_error rel p1) as [s1|] eqn:E1; [|apply nth_error_None in E1; lia]. rewrite (nth_error_nth _ _ _ E1).
    assert (p2 = length rel) by (assert (p2 <= length rel) by apply findRel_le; lia). rewrite (proj2 (nth_error_None rel p2)) in Fb by lia. destruct Fb as [_ Fb].
    assert (Mb : ~ mentioned E b) by (rewrite <- Nb; intros [s [X Y]]; apply (Fb s X Y)). destruct (Oth p1 s1 E1 a a Fa Fa) as [Ma _].
    set (u := sins b s1). assert (Iu : forall x, In x u <-> x = b \/ In x s1) by (intros; apply sins_In).
    assert (Jb : forall z, joined E b z -> z = b) by (intros z Hz; destruct (JM _ _ Hz) as [|[? _]]; [congruence|tauto]).
    assert (Ju : forall x, In x u <-> x = b \/ (mentioned E x /\ joined E a x)) by (intros x; rewrite Iu, (Ga p1 s1 E1 Fa); tauto).
    split.
    + intros i j s t x Hi Hj Hx Hy. destruct (Nat.eq_dec p1 i) as [<-|Ni]; destruct (Nat.eq_dec p1 j) as [<-|Nj]; [reflexivity| | |].
      * rewrite nth_set_eq in Hi by assumption. injection Hi as <-. rewrite nth_set_ne in Hj by assumption. apply Iu in Hx. destruct Hx as [->|Hx]; [exfalso; apply (Fb t); [apply (nth_error_In _ _ Hj)|assumption]|apply (D p1 j s1 t x); assumption].
      * rewrite nth_set_eq in Hj by assumption. injection Hj as <-. rewrite nth_set_ne in Hi by assumption. apply Iu in Hy. destruct Hy as [->|Hy]; [exfalso; apply (Fb s); [apply (nth_error_In _ _ Hi)|assumption]|apply (D i p1 s s1 x); assumption].
      * rewrite nth_set_ne in Hi, Hj by assumption. apply (D i j s t x); assumption.
    + intros x y. unfold same_group. rewrite !mentioned_add, joined_add. split.
      * intros [s [Hs [Hx Hy]]]. apply in_setNth in Hs; [|assumption]. destruct Hs as [->|[j [Hj Hs]]].
        -- apply Ju in Hx. apply Ju in Hy. destruct Hx as [->|[Hx1 Hx2]], Hy as [->|[Hy1 Hy2]]; (split; [auto|split; [auto|]]); auto; eauto 6.
        -- destruct (Oth j s Hs x y Hx Hy) as [A1 [A2 A3]]. auto.
      * intros [Mx [My J]].
        assert (K : (mentioned E x /\ mentioned E y /\ joined E x y /\ ~ In x u) \/ (In x u /\ In y u)).
        { destruct (in_dec Nat.eq_dec x u) as [Hu|Hu].
          - right. split; [assumption|]. apply Ju. apply Ju in Hu. destruct J as [J|[[J1 J2]|[J1 J2]]].
            + destruct Hu as [->|[Hu1 Hu2]]; [left; apply Jb, J|]. right. destruct (JM _ _ J) as [<-|[? ?]]; eauto.
            + left. apply Jb, J2.
            + right. destruct (JM _ _ J2) as [<-|[? ?]]; auto.
          - left. assert (Hub : x <> b) by (intros ->; apply Hu, Ju; auto). assert (Hua : ~ (mentioned E x /\ joined E a x)) by (intros Z; apply Hu, Ju; auto).
            assert (Mx' : mentioned E x) by (destruct Mx as [|[->| ->]]; [assumption|assumption|congruence]). destruct J as [J|[[J1 J2]|[J1 J2]]].
            + split; [assumption|]. split; [|auto]. destruct (JM _ _ J) as [<-|[? ?]]; auto.
            + exfalso. apply Hua. auto.
            + exfalso. apply Hub. apply Jb. auto. }
        destruct K as [[K1 [K2 [K3 K4]]]|K].
        -- destruct (proj2 (Sm x y)) as [s [Hs [Hx Hy]]]; [auto|]. exists s. split; [|auto]. apply In_nth_error in Hs. destruct Hs as [i Hi]. apply in_setNth; [assumption|]. right. exists i. split; [|assumption].
           intros ->. apply K4, Iu. right. congruence.
        -- exists u. split; [|assumption]. apply in_setNth; [assumption|]. auto.
  - (* a is new *)
    assert (p1 = length rel) by (assert (p1 <= length rel) by apply findRel_le; lia). rewrite (proj2 (nth_error_None rel p1)) in Fa by lia. destruct Fa as [_ Fa].
    assert (H2 : p2 < length rel) by (assert (p2 <= length rel) by apply findRel_le; lia).
    destruct (nth_error rel p2) as [s2|] eqn:E2; [|apply nth_error_None in E2; lia]. rewrite (nth_error_nth _ _ _ E2).
    assert (Ma : ~ mentioned E a) by (rewrite <- Na; intros [s [X Y]]; apply (Fa s X Y)). destruct (Oth p2 s2 E2 b b Fb Fb) as [Mb _].
    set (u := sins a s2). assert (Iu : forall x, In x u <-> x = a \/ In x s2) by (intros; apply sins_In).
    assert (Ja : forall z, joined E a z -> z = a) by (intros z Hz; destruct (JM _ _ Hz) as [|[? _]]; [congruence|tauto]).
    assert (Ju : forall x, In x u <-> x = a \/ (mentioned E x /\ joined E b x)) by (intros x; rewrite Iu, (Gb p2 s2 E2 Fb); tauto).
    split.
    + intros i j s t x Hi Hj Hx Hy. destruct (Nat.eq_dec p2 i) as [<-|Ni]; destruct (Nat.eq_dec p2 j) as [<-|Nj]; [reflexivity| | |].
      * rewrite nth_set_eq in Hi by assumption. injection Hi as <-. rewrite nth_set_ne in Hj by assumption. apply Iu in Hx. destruct Hx as [->|Hx]; [exfalso; apply (Fa t); [apply (nth_error_In _ _ Hj)|assumption]|apply (D p2 j s2 t x); assumption].
      * rewrite nth_set_eq in Hj by assumption. injection Hj as <-. rewrite nth_set_ne in Hi by assumption. apply Iu in Hy. destruct Hy as [->|Hy]; [exfalso; apply (Fa s); [apply (nth_error_In _ _ Hi)|assumption]|apply (D i p2 s s2 x); assumption].
      * rewrite nth_set_ne in Hi, Hj by assumption. apply (D i j s t x); assumption.
    + intros x y. unfold same_group. rewrite !mentioned_add, joined_add. split.
      * intros [s [Hs [Hx Hy]]]. apply in_setNth in Hs; [|assumption]. destruct Hs as [->|[j [Hj Hs]]].
        -- apply Ju in Hx. apply Ju in Hy. destruct Hx as [->|[Hx1 Hx2]], Hy as [->|[Hy1 Hy2]]; (split; [auto|split; [auto|]]); auto; eauto 6.
        -- destruct (Oth j s Hs x y Hx Hy) as [A1 [A2 A3]]. auto.
      * intros [Mx [My J]].
        assert (K : (mentioned E x /\ mentioned E y /\ joined E x y /\ ~ In x u) \/ (In x u /\ In y u)).
        { destruct (in_dec Nat.eq_dec x u) as [Hu|Hu].
          - right. split; [assumption|]. apply Ju. apply Ju in Hu. destruct J as [J|[[J1 J2]|[J1 J2]]].
            + destruct Hu as [->|[Hu1 Hu2]]; [left; apply Ja, J|]. right. destruct (JM _ _ J) as [<-|[? ?]]; eauto.
            + right. destruct (JM _ _ J2) as [<-|[? ?]]; auto.
            + left. apply Ja, J2.
          - left. assert (Hub : x <> a) by (intros ->; apply Hu, Ju; auto). assert (Hua : ~ (mentioned E x /\ joined E b x)) by (intros Z; apply Hu, Ju; auto).
            assert (Mx' : mentioned E x) by (destruct Mx as [|[->| ->]]; [assumption|congruence|assumption]). destruct J as [J|[[J1 J2]|[J1 J2]]].
            + split; [assumption|]. split; [|auto]. destruct (JM _ _ J) as [<-|[? ?]]; auto.
            + exfalso. apply Hub. apply Ja. auto.
            + exfalso. apply Hua. auto. }
        destruct K as [[K1 [K2 [K3 K4]]]|K].
        -- destruct (proj2 (Sm x y)) as [s [Hs [Hx Hy]]]; [auto|]. exists s. split; [|auto]. apply In_nth_error in Hs. destruct Hs as [i Hi]. apply in_setNth; [assumption|]. right. exists i. split; [|assumption].
           intros ->. apply K4, Iu. right. congruence.
        -- exists u. split; [|assumption]. apply in_setNth; [assumption|]. auto.
Qed.

Lemma links_inv E : forall rel E0 g, g_rel g = rel -> inv rel E0 -> inv (g_rel (fold_left addLinked E g)) (E0 ++ E).
Proof.
  induction E as [|[a b] E IH]; intros rel E0 g Hg HI; cbn [fold_left].
  - rewrite app_nil_r, Hg. assumption.
  - replace (E0 ++ (a, b) :: E) with ((E0 ++ [(a, b)]) ++ E) by (rewrite <- app_assoc; reflexivity).
    apply (IH (linkRel rel a b)); [cbn [addLinked g_rel fst snd]; rewrite Hg; reflexivity|]. apply link_inv. assumption.
Qed.

Lemma empty_inv : inv [] [].
Proof.
  split.
  - intros i j s t x Hi. destruct i; discriminate.
  - intros x y. split; [intros [s [[] _]]|]. intros [[z [[]|[]]] _].
Qed.

(** ** Theorems *)

(** After any links, the groups are the connected components of the links, and an
    equation is in one group at most. *)
Theorem C36_groups (eqs : set) (E : list (nat * nat)) :
  let g := fold_left addLinked E (emptyGroup eqs) in
  disjoint (g_rel g) /\
  (forall x y, same_group (g_rel g) x y <-> mentioned E x /\ mentioned E y /\ joined E x y) /\
  (forall x, In x (g_linked g) <-> mentioned E x).
Proof.
  cbv zeta. destruct (links_inv E [] [] (emptyGroup eqs) eq_refl empty_inv) as [H1 H2]. split; [assumption|]. split; [assumption|].
  assert (X : forall E g E0, (forall x, In x (g_linked g) <-> mentioned E0 x) -> forall x, In x (g_linked (fold_left addLinked E g)) <-> mentioned (E0 ++ E) x).
  { clear. induction E as [|[a b] E IH]; intros g E0 H x; cbn [fold_left]; [rewrite app_nil_r; apply H|].
    replace (E0 ++ (a, b) :: E) with ((E0 ++ [(a, b)]) ++ E) by (rewrite <- app_assoc; reflexivity).
    apply IH. clear x. intros x. cbn [addLinked g_linked fst snd]. rewrite !sins_In, mentioned_add, H. tauto. }
  apply (X E (emptyGroup eqs) []). intros x. split; [intros []|]. intros [z [[]|[]]].
Qed.
Print Assumptions C36_groups.

(** Looking an equation up gives its only group, exactly when it was linked. *)
Theorem C36_lookup (eqs : set) (E : list (nat * nat)) (x : nat) :
  let g := fold_left addLinked E (emptyGroup eqs) in
  match findNonIndexedLinkedRel g x with
  | Some p => exists s, nth_error (g_rel g) p = Some s /\ forall y, In y s <-> mentioned E y /\ joined E x y
  | None => ~ mentioned E x
  end.
Proof.
  cbv zeta. set (g := fold_left addLinked E (emptyGroup eqs)). assert (HI := links_inv E [] [] (emptyGroup eqs) eq_refl empty_inv). fold g in HI. cbn [app] in HI.
  unfold findNonIndexedLinkedRel. assert (F := findRel_spec (g_rel g) x). destruct (Nat.ltb_spec (findRel (g_rel g) x) (length (g_rel g))) as [H|H].
  - destruct (nth_error (g_rel g) (findRel (g_rel g) x)) as [s|] eqn:Es; [|apply nth_error_None in Es; lia]. exists s. split; [reflexivity|]. apply (group_of _ _ x HI _ _ Es F).
  - rewrite (proj2 (nth_error_None _ _) H) in F. destruct F as [_ F]. intros M. destruct (proj2 (inv_same _ _ HI x x)) as [s [Hs [Hx _]]]; [split; [assumption|split; [assumption|apply rst_refl]]|]. apply (F s Hs Hx).
Qed.
Print Assumptions C36_lookup.

(** Merging loops keeps the groups of the first one and adds the new links: they
    are the components of those links. *)
Theorem C36_merge_partial (eqs1 : set) (E1 : list (nat * nat)) (og : eqGroup) (indexed : list nat) (E : list (nat * nat)) :
  let g := mergeGroups (fold_left addLinked E1 (emptyGroup eqs1)) og indexed E in
  forall x y, same_group (g_rel g) x y <-> mentioned (E1 ++ E) x /\ mentioned (E1 ++ E) y /\ joined (E1 ++ E) x y.
Proof.
  cbv zeta. unfold mergeGroups. intros x y. set (g0 := fold_left addLinked E1 (emptyGroup eqs1)).
  assert (H0 : inv (g_rel g0) E1) by (apply (links_inv E1 [] [] (emptyGroup eqs1) eq_refl empty_inv)).
  match goal with |- context [fold_left addLinked E ?g] => assert (H1 := links_inv E (g_rel g0) E1 g eq_refl H0) end.
  apply (inv_same _ _ H1).
Qed.
Print Assumptions C36_merge_partial.

(** The links of the second loop are lost: its equations are no longer in a common
    group, and one of them is recorded as linked without having any group. *)
Theorem C36_merge_loses_links_refuted :
  exists eqs1 eqs2 E1 E2 indexed E, let og := fold_left addLinked E2 (emptyGroup eqs2) in
    let g := mergeGroups (fold_left addLinked E1 (emptyGroup eqs1)) og indexed E in
    exists x y, joined (E1 ++ E2 ++ E) x y /\ same_group (g_rel og) x y /\ ~ same_group (g_rel g) x y /\
      In y (g_linked g) /\ findNonIndexedLinkedRel g y = None.
Proof.
  exists [1], [2; 3], [], [(2, 3)], [1; 2], [(1, 2)]. cbv zeta. exists 2, 3. split; [|split; [|split; [|split]]].
  - apply rst_step. cbn. left. reflexivity.
  - exists [2; 3]. vm_compute. auto.
  - vm_compute. intros [s [[<-|[]] [_ [H|[H|[]]]]]]; discriminate.
  - vm_compute. auto.
  - vm_compute. reflexivity.
Qed.
Print Assumptions C36_merge_loses_links_refuted.

Example C36_case :
  g_rel (fold_left addLinked [(1, 2); (5, 4); (7, 8); (2, 5)] (emptyGroup [])) = [[1; 2; 4; 5]; [7; 8]].
Proof. vm_compute. reflexivity. Qed.

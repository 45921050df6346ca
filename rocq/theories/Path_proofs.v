(** * findPathGraph: invariants of the search *)
From Coq Require Import List Bool Arith Lia Sorted.
From Verif Require Import Graph_model Path_model Path_spec.
Import ListNotations.

Lemma pg_find_set G n e m : pg_find (pg_set G n e) m = if Nat.eqb n m then Some e else pg_find G m.
Proof.
  induction G as [|[k x] G IH]; cbn; auto.
  destruct (Nat.eqb_spec k n) as [->|H]; cbn.
  - destruct (Nat.eqb_spec n m); auto.
  - rewrite IH. destruct (Nat.eqb_spec k m) as [->|H2]; auto.
    destruct (Nat.eqb_spec n m); congruence.
Qed.
Lemma pg_find_erase G n m : pg_find (pg_erase G n) m = if Nat.eqb n m then None else pg_find G m.
Proof.
  unfold pg_erase. induction G as [|[k x] G IH]; cbn. { now destruct (Nat.eqb n m). }
  destruct (Nat.eqb_spec k n) as [->|H]; cbn.
  - rewrite IH. now destruct (Nat.eqb_spec n m).
  - rewrite IH. destruct (Nat.eqb_spec k m) as [->|H2]; auto.
    destruct (Nat.eqb_spec n m); congruence.
Qed.
Lemma pg_find_connect G n i a m : n <> a ->
  pg_find (connect G n i a) m =
    if Nat.eqb a m then Some (mkEdges (ed_args (pg_get G a)) (ed_usage (pg_get G a) ++ [(n, i)]))
    else if Nat.eqb n m then Some (mkEdges (ed_args (pg_get G n) ++ [i]) (ed_usage (pg_get G n)))
    else pg_find G m.
Proof.
  intros H. unfold connect. cbv zeta. rewrite pg_find_set.
  assert (E : forall x, pg_get (pg_set G n x) a = pg_get G a).
  { intros x. unfold pg_get. rewrite pg_find_set. destruct (Nat.eqb_spec n a); congruence. }
  rewrite !E, pg_find_set. reflexivity.
Qed.
Lemma contains_find G n : pg_contains G n = true <-> exists e, pg_find G n = Some e.
Proof. unfold pg_contains. destruct (pg_find G n); split; eauto; try discriminate. intros [e H]; discriminate. Qed.
Lemma contains_false G n : pg_contains G n = false <-> pg_find G n = None.
Proof. unfold pg_contains. destruct (pg_find G n); split; congruence. Qed.

Lemma marked_in s n : marked s n = true <-> In n (f_marks s).
Proof.
  unfold marked. rewrite existsb_exists. split.
  - intros [x [H E]]. apply Nat.eqb_eq in E. now subst.
  - intros H. exists n. split; auto. apply Nat.eqb_refl.
Qed.

Lemma sorted_snoc l i : StronglySorted lt l -> (forall k, In k l -> k < i) -> StronglySorted lt (l ++ [i]).
Proof.
  induction 1 as [|x l HS IH F]; cbn; intros H.
  - repeat constructor.
  - constructor; [apply IH; auto|]. rewrite Forall_forall in *. intros y Hy. apply in_app_or in Hy.
    destruct Hy as [Hy|[<-|[]]]; auto.
Qed.

Section Search.
Context {B : Type}.
Variable g : heap B.
Variable r : nat -> nat.
Hypothesis RK : forall n i j, link g n i j -> r j < r n.

Lemma child_link n i j : child g n i = Some j <-> link g n i j.
Proof.
  unfold child, nodeArgs, link. split.
  - destruct (nth_error g n) as [d|]; [|destruct i; discriminate].
    intros H. exists d. split; auto. destruct (nth_error (n_args d) i) as [[]|]; congruence.
  - intros [d [-> ->]]. reflexivity.
Qed.
Lemma link_fun n i j k : link g n i j -> link g n i k -> j = k.
Proof. rewrite <- !child_link. congruence. Qed.
Lemma link_args n pre l a : nodeArgs g n = pre ++ a :: l -> forall j, link g n (length pre) j <-> a = ANode j.
Proof.
  intros H j. rewrite <- child_link. unfold child. rewrite H, nth_error_app2, Nat.sub_diag by lia. cbn.
  destruct a; split; congruence.
Qed.

Lemma leads_app n l m l' k : leads g n l m -> leads g m l' k -> leads g n (l ++ l') k.
Proof. induction 1; cbn; auto. intros. econstructor; eauto. Qed.
Lemma occurs_refl n : occurs g n n. Proof. exists []. constructor. Qed.
Lemma occurs_trans n m k : occurs g n m -> occurs g m k -> occurs g n k.
Proof. intros [l H] [l' H']. exists (l ++ l'). eapply leads_app; eauto. Qed.
Lemma occurs_link n i j : link g n i j -> occurs g n j.
Proof. intros H. exists [i]. econstructor; eauto. constructor. Qed.
Lemma occurs_inv n m : occurs g n m -> n = m \/ exists i j, link g n i j /\ occurs g j m.
Proof. intros [l H]. inversion H; subst; auto. right. exists i, j. split; auto. now exists l0. Qed.
Lemma leads_rank n l m : leads g n l m -> r m <= r n.
Proof. induction 1; auto. apply RK in H. lia. Qed.
Lemma occurs_rank n m : occurs g n m -> r m <= r n.
Proof. intros [l H]. eapply leads_rank; eauto. Qed.
Lemma occurs_antisym n m : occurs g n m -> occurs g m n -> n = m.
Proof.
  intros H H'. destruct (occurs_inv _ _ H) as [|[i [j [L O]]]]; auto.
  apply RK in L. apply occurs_rank in O. apply occurs_rank in H'. lia.
Qed.

Variable target : nat.
Variable max : option nat.

(** What holds of the graph at every moment. *)
Record Glob (s : fstate) : Prop := {
  Gl_mark : forall n e, pg_find (f_graph s) n = Some e ->
      (n = target /\ ed_args e = []) \/ (n <> target /\ In n (f_marks s));
  Gl_usage : forall n e p i, pg_find (f_graph s) n = Some e -> In (p, i) (ed_usage e) ->
      link g p i n /\ exists ep, pg_find (f_graph s) p = Some ep /\ In i (ed_args ep);
  Gl_args : forall n e i, pg_find (f_graph s) n = Some e -> In i (ed_args e) ->
      exists j ej, link g n i j /\ pg_find (f_graph s) j = Some ej /\ In (n, i) (ed_usage ej) /\ occurs g j target;
  Gl_sort : forall n e, pg_find (f_graph s) n = Some e -> StronglySorted lt (ed_args e);
  Gl_target : forall e, pg_find (f_graph s) target = Some e -> ed_usage e <> [];
  Gl_bif : f_bif s = 0 <-> (forall n e, pg_find (f_graph s) n = Some e -> length (ed_args e) <= 1)
}.

(** What holds of the nodes of rank below [M], where no search is in progress. *)
Record Low (M : nat) (s : fstate) : Prop := {
  Lo_occ : forall n e, r n < M -> pg_find (f_graph s) n = Some e -> occurs g n target;
  Lo_mark : limit_reached max (f_bif s) = false ->
      forall n, r n < M -> In n (f_marks s) -> occurs g n target -> exists e, pg_find (f_graph s) n = Some e;
  Lo_args : limit_reached max (f_bif s) = false ->
      forall n e i j, r n < M -> n <> target -> pg_find (f_graph s) n = Some e -> link g n i j -> occurs g j target ->
      In i (ed_args e)
}.
Definition Used (M : nat) (s : fstate) (ex : nat -> Prop) : Prop :=
  forall n e, r n < M -> ~ ex n -> pg_find (f_graph s) n = Some e -> ed_usage e <> [].

Lemma limit_mono b b' : b <= b' -> limit_reached max b' = false -> limit_reached max b = false.
Proof. unfold limit_reached. destruct max as [m|]; auto. intros H E. apply Nat.leb_gt in E. apply Nat.leb_gt. lia. Qed.

Lemma Low_mono M M' s : M' <= M -> Low M s -> Low M' s.
Proof.
  intros H [A C D]. constructor.
  - intros; eapply A; eauto; lia.
  - intros E n Hn. apply C; auto. lia.
  - intros E n e i j Hn. apply D; auto. lia.
Qed.

(** What one search changes. *)
Record Post (root : nat) (s s' : fstate) (b : bool) : Prop := {
  P_glob : Glob s';
  P_frame : forall n, r root < r n -> pg_find (f_graph s') n = pg_find (f_graph s) n;
  P_incl : forall n, In n (f_marks s) -> In n (f_marks s');
  P_marks : forall n, In n (f_marks s') -> In n (f_marks s) \/ occurs g root n;
  P_bif : f_bif s <= f_bif s';
  P_true : b = true -> occurs g root target /\ (root = target \/ exists e, pg_find (f_graph s') root = Some e);
  P_false : b = false -> limit_reached max (f_bif s') = false -> ~ occurs g root target
}.

Lemma nat_ltb_case a b : a < b \/ b <= a. Proof. lia. Qed.

Definition GoodRec (R : nat) (rec : nat -> fstate -> pout (fstate * bool)) : Prop :=
  forall a s, r a < R -> Glob s -> Low R s -> Used R s (fun _ => False) ->
    exists s' b, rec a s = Got (s', b) /\ Post a s s' b /\ Low R s' /\ Used R s' (fun n => b = true /\ n = a).

(** connect, when the argument was found *)
Lemma connect_glob s root i a as0 b :
  Glob s -> root <> target -> link g root i a -> occurs g a target ->
  (a = target \/ exists e, pg_find (f_graph s) a = Some e) ->
  pg_find (f_graph s) root = Some (mkEdges as0 []) -> (forall k, In k as0 -> k < i) ->
  b = (match as0 with [] => f_bif s | _ => S (f_bif s) end) ->
  Glob (mkF (connect (f_graph s) root i a) (f_marks s) b).
Proof.
  intros [GM GU GA GS GT GB] Hrt HL HO Ha Hr Hlt Hb.
  assert (Hra : root <> a) by (intros ->; apply RK in HL; lia).
  assert (Har : pg_get (f_graph s) root = mkEdges as0 []) by (unfold pg_get; now rewrite Hr).
  assert (Ta : a = target -> ed_args (pg_get (f_graph s) a) = []).
  { intros ->. unfold pg_get. destruct (pg_find (f_graph s) target) as [e|] eqn:E; auto.
    destruct (GM _ _ E) as [[_ H]|[H _]]; congruence. }
  assert (Fc : forall m, pg_find (connect (f_graph s) root i a) m =
     if Nat.eqb a m then Some (mkEdges (ed_args (pg_get (f_graph s) a)) (ed_usage (pg_get (f_graph s) a) ++ [(root, i)]))
     else if Nat.eqb root m then Some (mkEdges (as0 ++ [i]) []) else pg_find (f_graph s) m).
  { intros m. rewrite pg_find_connect, Har by auto. reflexivity. }
  (* old entries survive *)
  assert (Up : forall n e, pg_find (f_graph s) n = Some e -> exists e', pg_find (connect (f_graph s) root i a) n = Some e' /\
     (forall k, In k (ed_args e) -> In k (ed_args e')) /\ (forall x, In x (ed_usage e) -> In x (ed_usage e'))).
  { intros n e E. rewrite Fc. destruct (Nat.eqb_spec a n) as [->|].
    - eexists. split; [reflexivity|]. cbn. unfold pg_get. rewrite E. split; auto. intros; apply in_or_app; auto.
    - destruct (Nat.eqb_spec root n) as [->|].
      + eexists. split; [reflexivity|]. rewrite Hr in E. injection E as <-. cbn. split; auto. intros; apply in_or_app; auto.
      + exists e. auto. }
  (* new entries come from old ones *)
  assert (Down : forall n e, pg_find (connect (f_graph s) root i a) n = Some e ->
     (forall k, In k (ed_args e) -> (n = root /\ k = i) \/ exists e0, pg_find (f_graph s) n = Some e0 /\ In k (ed_args e0)) /\
     (forall x, In x (ed_usage e) -> (n = a /\ x = (root, i)) \/ exists e0, pg_find (f_graph s) n = Some e0 /\ In x (ed_usage e0))).
  { intros n e. rewrite Fc. destruct (Nat.eqb_spec a n) as [->|].
    - intros [= <-]. cbn. unfold pg_get. destruct (pg_find (f_graph s) n) as [e0|]; cbn.
      + split; [eauto|]. intros x Hx. apply in_app_or in Hx. destruct Hx as [|[<-|[]]]; eauto.
      + split; [intros k []|]. intros x [<-|[]]; auto.
    - destruct (Nat.eqb_spec root n) as [->|].
      + intros [= <-]. cbn. split.
        * intros k Hk. apply in_app_or in Hk. destruct Hk as [Hk|[<-|[]]]; auto. right. rewrite Hr. eexists; split; [reflexivity|auto].
        * intros x [].
      + intros E. split; intros; right; eauto. }
  constructor; cbn [f_graph f_marks f_bif].
  - intros n e. rewrite Fc. destruct (Nat.eqb_spec a n) as [->|].
    + intros [= <-]. cbn. destruct (Nat.eq_dec n target) as [E|E]; [left; auto|].
      right. split; auto. destruct Ha as [|[e Ha]]; [contradiction|]. destruct (GM _ _ Ha) as [[]|[]]; auto; contradiction.
    + destruct (Nat.eqb_spec root n) as [->|].
      * intros [= <-]. right. split; auto. destruct (GM _ _ Hr) as [[]|[]]; auto; contradiction.
      * apply GM.
  - intros n e p k E Hx. destruct (Down _ _ E) as [_ D]. destruct (D _ Hx) as [[-> [= -> ->]]|[e0 [E0 Hx0]]].
    + split; auto. rewrite Fc. destruct (Nat.eqb_spec a root); [congruence|]. rewrite Nat.eqb_refl.
      eexists. split; [reflexivity|]. cbn. apply in_or_app. right. now left.
    + destruct (GU _ _ _ _ E0 Hx0) as [L [ep [Ep Ip]]]. split; auto.
      destruct (Up _ _ Ep) as [e' [E' [U1 _]]]. exists e'. auto.
  - intros n e k E Hk. destruct (Down _ _ E) as [D _]. destruct (D _ Hk) as [[-> ->]|[e0 [E0 Hk0]]].
    + exists a. rewrite Fc, Nat.eqb_refl. eexists. split; [auto|split;[reflexivity|]]. cbn. split; auto.
      apply in_or_app. right. now left.
    + destruct (GA _ _ _ E0 Hk0) as [j [ej [L [Ej [Ij Oj]]]]].
      destruct (Up _ _ Ej) as [e' [E' [_ U2]]]. exists j, e'. auto.
  - intros n e. rewrite Fc. destruct (Nat.eqb_spec a n) as [->|].
    + intros [= <-]. cbn. unfold pg_get. destruct (pg_find (f_graph s) n) eqn:E; [eapply GS; eauto|constructor].
    + destruct (Nat.eqb_spec root n) as [->|].
      * intros [= <-]. cbn. apply sorted_snoc; auto. exact (GS _ _ Hr).
      * apply GS.
  - intros e. rewrite Fc. destruct (Nat.eqb_spec a target) as [->|].
    + intros [= <-]. cbn. destruct (ed_usage (pg_get (f_graph s) target)); discriminate.
    + destruct (Nat.eqb_spec root target); [congruence|]. apply GT.
  - subst b. destruct as0 as [|k0 as0].
    + rewrite GB. split; intros H n e.
      * rewrite Fc. destruct (Nat.eqb_spec a n) as [->|].
        -- intros [= <-]. cbn. unfold pg_get. destruct (pg_find (f_graph s) n) eqn:E; [eapply H; eauto|cbn; lia].
        -- destruct (Nat.eqb_spec root n) as [->|]; [intros [= <-]; cbn; lia|apply H].
      * intros E. specialize (H n). rewrite Fc in H. destruct (Nat.eqb_spec a n) as [->|].
        -- specialize (H _ eq_refl). cbn in H. unfold pg_get in H. now rewrite E in H.
        -- destruct (Nat.eqb_spec root n) as [->|]; [|auto]. rewrite Hr in E. injection E as <-. cbn. lia.
    + split; [discriminate|]. intros H. specialize (H root). rewrite Fc in H.
      destruct (Nat.eqb_spec a root); [congruence|]. rewrite Nat.eqb_refl in H. specialize (H _ eq_refl). cbn in H.
      rewrite app_length in H. cbn in H. lia.
Qed.

(** the loop over the arguments *)
Lemma loop_good root rec : root <> target -> GoodRec (r root) rec ->
  forall l pre as0 s, nodeArgs g root = pre ++ l ->
    Glob s -> Low (r root) s -> Used (r root) s (fun _ => False) ->
    pg_find (f_graph s) root = Some (mkEdges as0 []) -> (forall k, In k as0 -> k < length pre) ->
    (limit_reached max (f_bif s) = false ->
       forall i j, i < length pre -> link g root i j -> occurs g j target -> In i as0) ->
    exists s' as1, fpArgs rec root l (length pre) (negb (Nat.eqb (length as0) 0)) s =
        Got (s', negb (Nat.eqb (length as1) 0)) /\
      Glob s' /\ Low (r root) s' /\ Used (r root) s' (fun _ => False) /\
      pg_find (f_graph s') root = Some (mkEdges as1 []) /\
      (limit_reached max (f_bif s') = false -> forall i j, link g root i j -> occurs g j target -> In i as1) /\
      (forall n, r root <= r n -> n <> root -> pg_find (f_graph s') n = pg_find (f_graph s) n) /\
      (forall n, In n (f_marks s) -> In n (f_marks s')) /\
      (forall n, In n (f_marks s') -> In n (f_marks s) \/ exists i j, link g root i j /\ occurs g j n) /\
      f_bif s <= f_bif s'.
Proof.
  intros Hrt GR. induction l as [|x l IH]; intros pre as0 s HA HG HLo HU HF Hlt HC.
  - exists s, as0. cbn. do 5 (split; [auto|]). split.
    { intros E i j L. apply HC; auto. rewrite <- child_link in L. unfold child in L. rewrite HA, app_nil_r in L.
      destruct (nth_error pre i) eqn:E2; [|discriminate]. apply nth_error_Some. congruence. }
    repeat split; auto.
  - assert (HA' : nodeArgs g root = (pre ++ [x]) ++ l) by (now rewrite <- app_assoc).
    destruct x as [a|p].
    + assert (HL : link g root (length pre) a) by (apply (link_args _ _ _ _ HA); auto).
      assert (Hra : r a < r root) by (eapply RK; eauto).
      destruct (GR a s Hra HG HLo HU) as [s1 [b [Eb [PP [Lo1 U1]]]]].
      cbn [fpArgs]. rewrite Eb. cbn [pbind fst snd].
      assert (F1 : pg_find (f_graph s1) root = Some (mkEdges as0 [])) by (rewrite (P_frame _ _ _ _ PP); auto).
      destruct b.
      * destruct (P_true _ _ _ _ PP eq_refl) as [Oa Ia].
        set (s2 := mkF (connect (f_graph s1) root (length pre) a) (f_marks s1)
                       (if negb (Nat.eqb (length as0) 0) then S (f_bif s1) else f_bif s1)).
        assert (Hne : root <> a) by (intros ->; lia).
        assert (Fc : forall m, pg_find (f_graph s2) m =
           if Nat.eqb a m then Some (mkEdges (ed_args (pg_get (f_graph s1) a)) (ed_usage (pg_get (f_graph s1) a) ++ [(root, length pre)]))
           else if Nat.eqb root m then Some (mkEdges (as0 ++ [length pre]) []) else pg_find (f_graph s1) m).
        { intros m. unfold s2. cbn [f_graph]. rewrite pg_find_connect by auto. unfold pg_get at 3 4. now rewrite F1. }
        assert (B12 : f_bif s1 <= f_bif s2) by (unfold s2; cbn; destruct (negb _); lia).
        destruct (IH (pre ++ [ANode a]) (as0 ++ [length pre]) s2 HA') as [s' [as1 R]].
        -- eapply connect_glob with (as0 := as0); eauto. exact (P_glob _ _ _ _ PP).
           destruct as0; reflexivity.
        -- destruct Lo1 as [A1 C1 D1]. constructor.
           ++ intros n e Hn. rewrite Fc. destruct (Nat.eqb_spec a n) as [->|]; [auto|].
              destruct (Nat.eqb_spec root n) as [->|]; [lia|]. now apply A1.
           ++ intros E n Hn Hm Ho. rewrite Fc. destruct (Nat.eqb a n); [eauto|]. destruct (Nat.eqb root n); [eauto|].
              apply C1; auto. eapply limit_mono; eauto.
           ++ intros E n e i j Hn Hnt. assert (E1 : limit_reached max (f_bif s1) = false) by (eapply limit_mono; eauto).
              rewrite Fc. destruct (Nat.eqb_spec a n) as [->|].
              ** intros [= <-] L Oj. cbn. destruct Ia as [|[e Ie]]; [contradiction|]. unfold pg_get. rewrite Ie. eapply D1; eauto.
              ** destruct (Nat.eqb_spec root n) as [->|]; [lia|]. now apply D1.
        -- intros n e Hn _. rewrite Fc. destruct (Nat.eqb_spec a n) as [->|].
           ++ intros [= <-]. cbn. destruct (ed_usage (pg_get (f_graph s1) n)); discriminate.
           ++ destruct (Nat.eqb_spec root n) as [->|]; [lia|]. apply U1; auto. intros [_ H]; congruence.
        -- rewrite Fc. destruct (Nat.eqb_spec a root); [congruence|]. now rewrite Nat.eqb_refl.
        -- intros k Hk. rewrite app_length. cbn. apply in_app_or in Hk. destruct Hk as [Hk|[<-|[]]]; [apply Hlt in Hk|]; lia.
        -- intros E i j Hi L Oj. rewrite app_length in Hi. cbn in Hi. apply in_or_app.
           destruct (Nat.eq_dec i (length pre)) as [->|Hn]; [right; now left|left].
           apply (HC (limit_mono _ _ (Nat.le_trans _ _ _ (P_bif _ _ _ _ PP) B12) E) i j); auto. lia.
        -- exists s', as1. destruct R as [R0 [R1 [R2 [R3 [R4 [R5 [R6 [R7 [R8 R9]]]]]]]]].
           split.
           { rewrite <- R0. rewrite !app_length. cbn [length]. rewrite !Nat.add_1_r. cbn [Nat.eqb negb]. reflexivity. }
           do 5 (split; [auto|]). split.
           { intros n Hn Hnr. rewrite R6 by auto. rewrite Fc. destruct (Nat.eqb_spec a n) as [->|]; [lia|].
             destruct (Nat.eqb_spec root n) as [->|]; [congruence|]. apply (P_frame _ _ _ _ PP). lia. }
           split. { intros n Hn. apply R7. exact (P_incl _ _ _ _ PP n Hn). }
           split. { intros n Hn. destruct (R8 n Hn) as [H|H]; auto. destruct (P_marks _ _ _ _ PP n H) as [|H']; auto.
             right. exists (length pre), a. auto. }
           pose proof (P_bif _ _ _ _ PP). lia.
      * destruct (IH (pre ++ [ANode a]) as0 s1 HA') as [s' [as1 R]]; auto.
        -- exact (P_glob _ _ _ _ PP).
        -- intros n e Hn Hx. apply U1; auto. intros [H _]; discriminate.
        -- intros k Hk. rewrite app_length. apply Hlt in Hk. lia.
        -- intros E i j Hi L Oj. rewrite app_length in Hi. cbn in Hi.
           destruct (Nat.eq_dec i (length pre)) as [->|Hn].
           ++ assert (j = a) as -> by (eapply link_fun; eauto). exfalso. exact (P_false _ _ _ _ PP eq_refl E Oj).
           ++ apply (HC (limit_mono _ _ (P_bif _ _ _ _ PP) E) i j); auto. lia.
        -- exists s', as1. destruct R as [R0 [R1 [R2 [R3 [R4 [R5 [R6 [R7 [R8 R9]]]]]]]]].
           split. { rewrite app_length in R0. cbn [length] in R0. rewrite Nat.add_1_r in R0. exact R0. }
           do 5 (split; [auto|]). split.
           { intros n Hn Hnr. rewrite R6 by auto. apply (P_frame _ _ _ _ PP). lia. }
           split. { intros n Hn. apply R7. exact (P_incl _ _ _ _ PP n Hn). }
           split. { intros n Hn. destruct (R8 n Hn) as [H|H]; auto. destruct (P_marks _ _ _ _ PP n H) as [|H']; auto.
             right. exists (length pre), a. auto. }
           pose proof (P_bif _ _ _ _ PP). lia.
    + destruct (IH (pre ++ [APar p]) as0 s HA') as [s' [as1 R]]; auto.
      * intros k Hk. rewrite app_length. apply Hlt in Hk. lia.
      * intros E i j Hi L Oj. rewrite app_length in Hi. cbn in Hi.
        destruct (Nat.eq_dec i (length pre)) as [->|Hn].
        -- apply (link_args _ _ _ _ HA) in L. discriminate.
        -- apply (HC E i j); auto. lia.
      * exists s', as1. rewrite app_length in R. cbn [length] in R. rewrite Nat.add_1_r in R. exact R.
Qed.

Lemma Post_refl root s b : Glob s -> (b = true -> occurs g root target /\ (root = target \/ exists e, pg_find (f_graph s) root = Some e)) ->
  (b = false -> limit_reached max (f_bif s) = false -> ~ occurs g root target) -> Post root s s b.
Proof. constructor; auto. Qed.

Lemma findPG_good : forall fuel R, R <= fuel -> GoodRec R (findPG g fuel target max).
Proof.
  induction fuel as [|fuel IH]; intros R HR root s Hr HG HL HU; [lia|].
  cbn [findPG]. destruct (limit_reached max (f_bif s)) eqn:EL.
  { exists s, false. split; [auto|]. split; [apply Post_refl; auto; congruence|]. split; auto.
    intros n e Hn _. apply HU; auto. }
  destruct (Nat.eqb_spec root target) as [->|Hrt].
  { exists s, true. split; [auto|]. split; [apply Post_refl; auto; [|discriminate]|].
    - intros _. split; [apply occurs_refl|auto].
    - split; auto. intros n e Hn _. apply HU; auto. }
  destruct (pg_contains (f_graph s) root) eqn:EC.
  { apply contains_find in EC. destruct EC as [e EC]. exists s, true. split; [auto|]. split; [apply Post_refl; auto; [|discriminate]|].
    - intros _. split; [eapply Lo_occ; eauto|eauto].
    - split; auto. intros n e' Hn _. apply HU; auto. }
  apply contains_false in EC.
  destruct (marked s root) eqn:EM.
  { apply marked_in in EM. exists s, false. split; [auto|]. split; [apply Post_refl; auto; [discriminate|]|].
    - intros _ E O. destruct (Lo_mark _ _ HL E root Hr EM O). congruence.
    - split; auto. intros n e' Hn _. apply HU; auto. }
  assert (ENM : ~ In root (f_marks s)) by (rewrite <- marked_in; congruence).
  set (s0 := mkF (pg_set (f_graph s) root (pg_get (f_graph s) root)) (root :: f_marks s) (f_bif s)).
  assert (F0 : forall m, pg_find (f_graph s0) m = if Nat.eqb root m then Some noEdges else pg_find (f_graph s) m).
  { intros m. unfold s0. cbn [f_graph]. rewrite pg_find_set. unfold pg_get. now rewrite EC. }
  (* no entry refers to root *)
  assert (NU : forall n e i, pg_find (f_graph s) n = Some e -> In i (ed_args e) -> ~ link g n i root).
  { intros n e i E Hi L. destruct (Gl_args _ HG _ _ _ E Hi) as [j [ej [L' [Ej _]]]].
    assert (j = root) as -> by (eapply link_fun; eauto). congruence. }
  destruct (loop_good root (findPG g fuel target max) Hrt (IH (r root) ltac:(lia)) (nodeArgs g root) [] [] s0)
    as [s1 [as1 [R0 [R1 [R2 [R3 [R4 [R5 [R6 [R7 [R8 R9]]]]]]]]]]]; auto.
  - destruct HG as [GM GU GA GS GT GB]. constructor.
    + intros n e. rewrite F0. destruct (Nat.eqb_spec root n) as [->|].
      * intros [= <-]. right. split; auto. now left.
      * intros E. destruct (GM _ _ E) as [|[]]; auto. right. split; auto. now right.
    + intros n e p i. rewrite F0. destruct (Nat.eqb_spec root n) as [->|]; [intros [= <-] []|].
      intros E Hx. destruct (GU _ _ _ _ E Hx) as [L [ep [Ep Ip]]]. split; auto. exists ep. rewrite F0.
      destruct (Nat.eqb_spec root p) as [->|]; [congruence|auto].
    + intros n e i. rewrite F0. destruct (Nat.eqb_spec root n) as [->|]; [intros [= <-] []|].
      intros E Hi. destruct (GA _ _ _ E Hi) as [j [ej [L [Ej [Ij Oj]]]]]. exists j, ej. rewrite F0.
      destruct (Nat.eqb_spec root j) as [->|]; [congruence|auto].
    + intros n e. rewrite F0. destruct (Nat.eqb_spec root n) as [->|]; [intros [= <-]; constructor|apply GS].
    + intros e. rewrite F0. destruct (Nat.eqb_spec root target); [congruence|apply GT].
    + unfold s0 at 1. cbn [f_bif]. rewrite GB. split; intros H n e.
      * rewrite F0. destruct (Nat.eqb_spec root n) as [->|]; [intros [= <-]; cbn; lia|apply H].
      * intros E. apply (H n). rewrite F0. destruct (Nat.eqb_spec root n) as [->|]; congruence.
  - destruct HL as [A C D]. constructor.
    + intros n e Hn. rewrite F0. destruct (Nat.eqb_spec root n) as [->|]; [lia|]. apply A. lia.
    + intros E n Hn Hm Ho. rewrite F0. destruct (Nat.eqb_spec root n) as [->|]; [lia|].
      destruct Hm as [->|Hm]; [congruence|]. apply C; auto. lia.
    + intros E n e i j Hn Hnt. rewrite F0. destruct (Nat.eqb_spec root n) as [->|]; [lia|]. apply D; auto. lia.
  - intros n e Hn Hx. rewrite F0. destruct (Nat.eqb_spec root n) as [->|]; [lia|]. apply HU; auto. lia.
  - rewrite F0, Nat.eqb_refl. reflexivity.
  - intros k [].
  - intros E i j Hi. cbn in Hi. lia.
  - cbn [length Nat.eqb negb] in R0. fold s0. rewrite R0. cbn [pbind fst snd].
    assert (MK : forall n, In n (f_marks s1) -> In n (f_marks s) \/ occurs g root n).
    { intros n Hn. destruct (R8 n Hn) as [H|[i [j [L O]]]].
      - destruct H as [<-|H]; auto. right. apply occurs_refl.
      - right. eapply occurs_trans; [eapply occurs_link; eauto|auto]. }
    assert (FR : forall n, r root <= r n -> n <> root -> pg_find (f_graph s1) n = pg_find (f_graph s) n).
    { intros n Hn Hx. rewrite R6 by auto. rewrite F0. destruct (Nat.eqb_spec root n); congruence. }
    assert (NEW : forall n, In n (f_marks s1) -> r root <= r n -> n <> root -> In n (f_marks s)).
    { intros n Hn Hk Hx. destruct (R8 n Hn) as [[H|H]|[i [j [L O]]]]; auto; [congruence|].
      apply RK in L. apply occurs_rank in O. lia. }
    assert (EMPTY : as1 = [] \/ length as1 <> 0) by (destruct as1; cbn; auto).
    destruct EMPTY as [->|NE].
    + (* nothing found: the entry is removed *)
      cbn [length Nat.eqb negb]. set (s2 := mkF _ _ _).
      assert (F2 : forall m, pg_find (f_graph s2) m = if Nat.eqb root m then None else pg_find (f_graph s1) m).
      { intros m. unfold s2. cbn [f_graph]. apply pg_find_erase. }
      assert (NO : limit_reached max (f_bif s2) = false -> ~ occurs g root target).
      { intros E O. destruct (occurs_inv _ _ O) as [|[i [j [L Oj]]]]; [contradiction|]. exact (R5 E i j L Oj). }
      exists s2, false. split; [auto|]. destruct R1 as [GM GU GA GS GT GB]. split.
      * constructor; auto; try discriminate.
        -- constructor.
           ++ intros n e. rewrite F2. destruct (Nat.eqb_spec root n); [discriminate|]. apply GM.
           ++ intros n e p i. rewrite F2. destruct (Nat.eqb_spec root n); [discriminate|]. intros E Hx.
              destruct (GU _ _ _ _ E Hx) as [L [ep [Ep Ip]]]. split; auto. exists ep. rewrite F2.
              destruct (Nat.eqb_spec root p) as [->|]; [|auto]. rewrite R4 in Ep. injection Ep as <-. destruct Ip.
           ++ intros n e i. rewrite F2. destruct (Nat.eqb_spec root n); [discriminate|]. intros E Hi.
              destruct (GA _ _ _ E Hi) as [j [ej [L [Ej [Ij Oj]]]]]. exists j, ej. rewrite F2.
              destruct (Nat.eqb_spec root j) as [->|]; [|auto]. rewrite R4 in Ej. injection Ej as <-. destruct Ij.
           ++ intros n e. rewrite F2. destruct (Nat.eqb_spec root n); [discriminate|]. apply GS.
           ++ intros e. rewrite F2. destruct (Nat.eqb_spec root target); [congruence|]. apply GT.
           ++ unfold s2 at 1. cbn [f_bif]. rewrite GB. split; intros H n e.
              ** rewrite F2. destruct (Nat.eqb_spec root n); [discriminate|]. apply H.
              ** intros E. destruct (Nat.eq_dec root n) as [->|Hx].
                 --- rewrite R4 in E. injection E as <-. cbn. lia.
                 --- apply (H n). rewrite F2. destruct (Nat.eqb_spec root n); congruence.
        -- intros n Hn. rewrite F2. destruct (Nat.eqb_spec root n) as [->|]; [lia|]. apply FR; auto. lia.
        -- intros n Hn. apply R7. now right.
      * split.
        -- destruct HL as [A C D]. destruct R2 as [A1 C1 D1]. constructor.
           ++ intros n e Hn. rewrite F2. destruct (Nat.eqb_spec root n); [discriminate|].
              destruct (nat_ltb_case (r n) (r root)); [now apply A1|]. rewrite FR by auto. now apply A.
           ++ intros E n Hn Hm Ho. rewrite F2. destruct (Nat.eqb_spec root n) as [->|].
              ** exfalso. now apply NO.
              ** destruct (nat_ltb_case (r n) (r root)); [now apply C1|]. rewrite FR by auto. apply C; auto.
           ++ intros E n e i j Hn Hnt. rewrite F2. destruct (Nat.eqb_spec root n); [discriminate|].
              destruct (nat_ltb_case (r n) (r root)); [now apply D1|]. rewrite FR by auto. apply D; auto.
        -- intros n e Hn Hx. rewrite F2. destruct (Nat.eqb_spec root n); [discriminate|].
           destruct (nat_ltb_case (r n) (r root)); [now apply R3|]. rewrite FR by auto. now apply HU.
    + replace (negb (Nat.eqb (length as1) 0)) with true by (destruct (Nat.eqb_spec (length as1) 0); auto; contradiction).
      assert (OR : occurs g root target).
      { destruct as1 as [|i as1]; [now elim NE|]. destruct (Gl_args _ R1 _ _ i R4) as [j [ej [L [_ [_ Oj]]]]]; [now left|].
        eapply occurs_trans; [eapply occurs_link; eauto|auto]. }
      exists s1, true. split; [auto|]. split.
      * constructor; auto; try discriminate.
        -- intros n Hn. apply FR; [lia|]. intros ->; lia.
        -- intros n Hn. apply R7. now right.
        -- intros _. split; eauto.
      * split.
        -- destruct HL as [A C D]. destruct R2 as [A1 C1 D1]. constructor.
           ++ intros n e Hn E. destruct (Nat.eq_dec n root) as [->|Hx]; [auto|].
              destruct (nat_ltb_case (r n) (r root)); [eapply A1; eauto|]. rewrite FR in E by auto. eapply A; eauto.
           ++ intros E n Hn Hm Ho. destruct (Nat.eq_dec n root) as [->|Hx]; [eauto|].
              destruct (nat_ltb_case (r n) (r root)); [now apply C1|]. rewrite FR by auto. apply C; auto.
           ++ intros E n e i j Hn Hnt E'. destruct (Nat.eq_dec n root) as [->|Hx].
              ** rewrite R4 in E'. injection E' as <-. now apply R5.
              ** destruct (nat_ltb_case (r n) (r root)); [eapply D1; eauto|]. rewrite FR in E' by auto. eapply D; eauto.
        -- intros n e Hn Hx E. assert (Hne : n <> root) by (intros ->; apply Hx; auto).
           destruct (nat_ltb_case (r n) (r root)); [eapply R3; eauto|]. rewrite FR in E by auto. eapply HU; eauto.
Qed.
End Search.

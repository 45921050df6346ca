(** * What is found of the use of atomic functions *)
From Coq Require Import List Bool Arith Lia.
From Verif Require Import AtomicUse_model AtomicUse_spec.
Import ListNotations.

Lemma lookup_update : forall A k k' (a : A) m, lookup k (update k' a m) = if k =? k' then Some a else lookup k m.
Proof.
  intros A k k' a m. induction m as [|[k2 b] m IH]; cbn [update lookup]; [reflexivity|].
  destruct (Nat.eqb_spec k' k2).
  - subst. cbn [lookup]. destruct (Nat.eqb_spec k k2); reflexivity.
  - cbn [lookup]. destruct (Nat.eqb_spec k k2).
    + subst. destruct (Nat.eqb_spec k2 k'); [congruence|reflexivity].
    + rewrite IH. reflexivity.
Qed.
Lemma update_keys : forall A k (a : A) m x, In x (map fst (update k a m)) <-> x = k \/ In x (map fst m).
Proof.
  intros A k a m x. induction m as [|[k2 b] m IH]; cbn [update map In fst]; [intuition|].
  destruct (Nat.eqb_spec k k2); cbn [map In fst]; [subst; intuition|]. rewrite IH. intuition.
Qed.
Lemma update_nodup : forall A k (a : A) m, NoDup (map fst m) -> NoDup (map fst (update k a m)).
Proof.
  intros A k a m. induction m as [|[k2 b] m IH]; cbn [update map fst]; intros H.
  - constructor; [intros []|constructor].
  - inversion H; subst. destruct (Nat.eqb_spec k k2); cbn [map fst]; [subst; constructor; auto|].
    constructor; auto. rewrite update_keys. intros [?|?]; [congruence|tauto].
Qed.
Lemma existsb_nat : forall x s, existsb (Nat.eqb x) s = true <-> In x s.
Proof.
  intros. rewrite existsb_exists. split; [intros (y & Y & E); apply Nat.eqb_eq in E; subst; auto|].
  intros H. exists x. split; [auto|apply Nat.eqb_refl].
Qed.
Lemma in_insertAll : forall l s x, In x (insertAll l s) <-> In x l \/ In x s.
Proof.
  unfold insertAll. induction l as [|a l IH]; intros s x; cbn [fold_left In]; [intuition|]. rewrite IH.
  destruct (existsb (Nat.eqb a) s) eqn:E.
  - apply existsb_nat in E. intuition; subst; auto.
  - rewrite in_app_iff. cbn [In]. intuition.
Qed.
Lemma in_insertPair : forall a s x, In x (insertPair a s) <-> x = a \/ In x s.
Proof.
  intros. unfold insertPair. destruct (existsb (pairEqb a) s) eqn:E.
  - apply existsb_exists in E. destruct E as (y & Y & E). unfold pairEqb in E. apply andb_true_iff in E.
    destruct E as [E1 E2]. apply Nat.eqb_eq in E1, E2. assert (a = y) by (destruct a, y; cbn in *; congruence). subst.
    intuition; subst; auto.
  - rewrite in_app_iff. cbn [In]. intuition.
Qed.

Section Graph.
Variable dbg : bool.
Variable g : list Node.
Hypothesis ORD : made_in_order g.
Hypothesis CWF : calls_well_formed g.
Hypothesis LEAF : forall a nd, nth_error g a = Some nd -> nop nd = Inv -> nargs nd = [].

Definition inner (v : nat) : Prop := exists nd, nth_error g v = Some nd /\ nop nd <> Inv.
Definition keyed (st : State) (v : nat) : Prop := exists s, lookup v (indeps st) = Some s.
Definition calls (v id : nat) : Prop := exists nd p, nth_error g v = Some nd /\ nop nd = AtomicForward id p.
Definition info_ok (m : list (nat * Use)) (K : nat -> Prop) : Prop :=
  NoDup (map fst m) /\
  (forall id, (exists u, lookup id m = Some u) <-> exists v, K v /\ calls v id) /\
  (forall id u, lookup id m = Some u ->
     (forall j, In j (outerIndeps u) <-> exists v, K v /\ calls v id /\ depends_on g v j) /\
     (forall s, In s (sizes u) <-> exists v, K v /\ calls v id /\ call_sizes g v s)).
Definition good (P : list nat) (st : State) : Prop :=
  (forall v s, lookup v (indeps st) = Some s -> inner v /\ forall j, In j s <-> depends_on g v j) /\
  (forall v, In v (visited st) <-> keyed st v \/ In v P) /\
  (forall v w, keyed st v -> needs g v w -> inner w -> keyed st w) /\
  info_ok (info st) (keyed st).

Definition arg_ok (fuel : nat) (P : list nat) (a : option nat) : Prop :=
  match a with
  | Some i => i < length g /\ i + 2 <= fuel /\ forall p, In p P -> i < p
  | None => 1 <= fuel
  end.
Definition reached (a : option nat) (v : nat) : Prop := exists i, a = Some i /\ needs g i v.
Definition found (P : list nat) (a : option nat) (st : State) (r : result (list nat * State)) : Prop :=
  exists s st', r = Ok (s, st') /\ good P st' /\
    (forall j, In j s <-> exists i, a = Some i /\ depends_on g i j) /\
    (forall v, keyed st' v <-> keyed st v \/ (reached a v /\ inner v)).

Lemma args_found : forall fuel P args,
  (forall a st, In a args -> good P st -> found P a st (findUsage dbg g fuel a st)) ->
  forall ind st, good P st ->
  exists s st', overArgs (findUsage dbg g fuel) args ind st = Ok (s, st') /\ good P st' /\
    (forall j, In j s <-> In j ind \/ exists i, In (Some i) args /\ depends_on g i j) /\
    (forall v, keyed st' v <-> keyed st v \/ ((exists i, In (Some i) args /\ needs g i v) /\ inner v)).
Proof.
  intros fuel P. induction args as [|a args IH]; intros F ind st G; cbn [overArgs].
  - exists ind, st. split; [reflexivity|]. split; [exact G|]. split.
    + intros j. split; [auto|]. intros [?|(i & [] & _)]; auto.
    + intros v. split; [auto|]. intros [?|[(i & [] & _) _]]; auto.
  - destruct (F a st (or_introl eq_refl) G) as (s & st' & -> & G' & S' & K').
    destruct (IH (fun b st H => F b st (or_intror H)) (insertAll s ind) st' G') as (s2 & st2 & -> & G2 & S2 & K2).
    exists s2, st2. split; [reflexivity|]. split; [exact G2|]. split.
    + intros j. rewrite S2, in_insertAll, S'. split.
      * intros [[(i & -> & D)|H]|(i & H & D)]; [right; exists i; split; [left; auto|auto]|auto|right; exists i; split; [right; auto|auto]].
      * intros [H|(i & [->|H] & D)]; [auto|left; left; exists i; auto|right; exists i; auto].
    + intros v. rewrite K2, K'. unfold reached. split.
      * intros [[H|[(i & -> & N) I]]|[(i & H & N) I]]; [auto| |]; right; split; auto; exists i; split; auto; [left|right]; auto.
      * intros [H|[(i & [->|H] & N) I]]; [auto|left; right; split; [exists i; auto|auto]|right; split; [exists i; auto|auto]].
Qed.

Lemma needs_in : forall a b nd, nth_error g a = Some nd -> (needs g a b <-> a = b \/ exists c, In (Some c) (nargs nd) /\ needs g c b).
Proof.
  intros a b nd E. split.
  - intros H. inversion H; subst; [auto|]. right. rewrite E in H0. injection H0 as <-. exists c. auto.
  - intros [->|(c & H & N)]; [constructor|econstructor; eauto].
Qed.
Lemma depends_in : forall a j nd, nth_error g a = Some nd -> nop nd <> Inv ->
  (depends_on g a j <-> exists c, In (Some c) (nargs nd) /\ depends_on g c j).
Proof.
  intros a j nd E NI. unfold depends_on. rewrite (needs_in a j nd E). split.
  - intros [[->|(c & H & N)] I]; [|exists c; auto]. destruct I as (nd' & E' & I). congruence.
  - intros (c & H & N & I). split; [right; exists c; auto|auto].
Qed.
Lemma needs_leaf : forall a b nd, nth_error g a = Some nd -> nop nd = Inv -> needs g a b -> a = b.
Proof.
  intros a b nd E I H. apply (needs_in a b nd E) in H. rewrite (LEAF a nd E I) in H. destruct H as [H|(c & [] & _)]; auto.
Qed.

Lemma info_ext : forall m (K K' : nat -> Prop), (forall v, K v <-> K' v) -> info_ok m K -> info_ok m K'.
Proof.
  intros m K K' E (N & H1 & H2). split; [exact N|]. split.
  - intros id. rewrite H1. split; intros (v & H & C); exists v; split; auto; apply E; auto.
  - intros id u L. destruct (H2 id u L) as [A B]. split; intros x; [rewrite A|rewrite B]; split; intros (v & H & C); exists v; split; auto; apply E; auto.
Qed.

(** the node of which all arguments were visited *)
Lemma close : forall P i nd ind st m,
  nth_error g i = Some nd -> nop nd <> Inv -> ~ In i P ->
  good (i :: P) st ->
  (forall j, In j ind <-> depends_on g i j) ->
  (forall c v, In (Some c) (nargs nd) -> needs g c v -> inner v -> keyed st v) ->
  info_ok m (fun v => keyed st v \/ v = i) ->
  good P (mkState (visited st) (update i ind (indeps st)) m).
Proof.
  intros P i nd ind st m E NI NP (G1 & G2 & G3 & _) S C M.
  assert (K : forall v, keyed (mkState (visited st) (update i ind (indeps st)) m) v <-> keyed st v \/ v = i).
  { intros v. unfold keyed. cbn [indeps]. rewrite lookup_update. destruct (Nat.eqb_spec v i).
    - split; [auto|]. intros _. eexists. reflexivity.
    - split; [auto|]. intros [H|H]; [auto|congruence]. }
  split; [|split; [|split]].
  - intros v s. cbn [indeps]. rewrite lookup_update. destruct (Nat.eqb_spec v i); [|apply G1].
    intros H. injection H as <-. subst. split; [exists nd; auto|exact S].
  - intros v. rewrite K. cbn [visited]. rewrite G2. cbn [In]. intuition.
  - intros v w Hv N I. rewrite K in *. destruct Hv as [Hv| ->]; [left; eapply G3; eauto|].
    apply (needs_in i w nd E) in N. destruct N as [->|(c & H & N)]; [auto|]. left. eapply C; eauto.
  - cbn [info]. eapply info_ext; [|exact M]. intros v. rewrite K. reflexivity.
Qed.

Lemma calls_fun : forall v a b, calls v a -> calls v b -> a = b.
Proof. intros v a b (n & p & E & O) (n' & p' & E' & O'). congruence. Qed.
Lemma info_other : forall m K i, (forall id, ~ calls i id) -> info_ok m K -> info_ok m (fun v => K v \/ v = i).
Proof.
  intros m K i NC (N & H1 & H2). split; [exact N|]. split.
  - intros id. rewrite H1. split; [intros (v & H & C); exists v; auto|intros (v & [H| ->] & C); [exists v; auto|destruct (NC id C)]].
  - intros id u L. destruct (H2 id u L) as [A B].
    split; intros x; [rewrite A|rewrite B]; (split; [intros (v & H & C); exists v; auto|intros (v & [H| ->] & C & D); [exists v; auto|destruct (NC id C)]]).
Qed.
Lemma note_ok : forall nd i id p ind st (K : nat -> Prop),
  nth_error g i = Some nd -> nop nd = AtomicForward id p ->
  (forall j, In j ind <-> depends_on g i j) -> info_ok (info st) K ->
  exists m, noteAtomic dbg g nd id p ind st = Ok (mkState (visited st) (indeps st) m) /\ info_ok m (fun v => K v \/ v = i).
Proof.
  intros nd i id p ind st K E O SS (N & H1 & H2).
  destruct (CWF i nd id p E O) as (-> & tx & ty & r & ntx & nty & EA & Ex & Ey & Ox & Oy).
  unfold noteAtomic. rewrite EA. cbn [length nth_error]. rewrite Ex, Ey. unfold isArray. rewrite Ox, Oy.
  replace (1 <? S (S (length r))) with true by (symmetry; apply Nat.ltb_lt; lia). cbn [Nat.eqb negb andb].
  rewrite !andb_false_r. eexists. split; [reflexivity|].
  assert (CI : calls i id) by (exists nd, 0; auto).
  assert (SI : forall s, call_sizes g i s <-> s = (length (nargs ntx), length (nargs nty))).
  { intros s. split.
    - intros (nd' & tx' & ty' & r' & nx & ny & E' & A' & X' & Y' & ->). congruence.
    - intros ->. exists nd, tx, ty, r, ntx, nty. auto 10. }
  split; [apply update_nodup; exact N|]. split.
  - intros id'. rewrite lookup_update. destruct (Nat.eqb_spec id' id).
    + subst. split; [intros _; exists i; auto|intros _; eexists; reflexivity].
    + rewrite H1. split; [intros (v & H & C); exists v; auto|]. intros (v & [H| ->] & C); [exists v; auto|].
      destruct n. eapply calls_fun; eauto.
  - intros id' u. rewrite lookup_update. destruct (Nat.eqb_spec id' id).
    + subst. intros H. injection H as <-. cbn [outerIndeps sizes].
      destruct (lookup id (info st)) as [u|] eqn:L.
      * destruct (H2 id u L) as [A B]. split.
        -- intros j. rewrite in_insertAll, A, SS. split.
           ++ intros [D|(v & H & C)]; [exists i; auto|exists v; tauto].
           ++ intros (v & [H| ->] & C & D); [right; exists v; auto|auto].
        -- intros s. rewrite in_insertPair, B. rewrite <- SI. split.
           ++ intros [D|(v & H & C)]; [exists i; auto|exists v; tauto].
           ++ intros (v & [H| ->] & C & D); [right; exists v; auto|auto].
      * assert (Z : forall v, K v -> calls v id -> False).
        { intros v H C. destruct (proj2 (H1 id)) as [u Lu]; [exists v; auto|congruence]. }
        cbn [outerIndeps sizes]. split.
        -- intros j. rewrite in_insertAll, SS. cbn [In]. split.
           ++ intros [D|[]]. exists i; auto.
           ++ intros (v & [H| ->] & C & D); [destruct (Z v H C)|auto].
        -- intros s. rewrite in_insertPair. rewrite <- SI. cbn [In]. split.
           ++ intros [D|[]]. exists i; auto.
           ++ intros (v & [H| ->] & C & D); [destruct (Z v H C)|auto].
    + intros L. destruct (H2 id' u L) as [A B].
      split; intros x; [rewrite A|rewrite B]; (split; [intros (v & H & C); exists v; tauto|]);
        intros (v & [H| ->] & C & D); [exists v; auto|destruct n; eapply calls_fun; eauto|exists v; auto|destruct n; eapply calls_fun; eauto].
Qed.

Lemma find_ok : forall fuel a P st, arg_ok fuel P a -> good P st -> found P a st (findUsage dbg g fuel a st).
Proof.
  induction fuel as [|fuel IH]; intros a P st A G.
  { destruct a; cbn [arg_ok] in A; lia. }
  cbn [findUsage]. destruct a as [i|].
  2:{ exists [], st. split; [reflexivity|]. split; [exact G|]. split.
      - intros j. split; [intros []|intros (i & H & _); discriminate].
      - intros v. split; [auto|]. intros [H|[(i & H & _) _]]; [auto|discriminate]. }
  destruct A as (A1 & A2 & A3).
  destruct (nth_error g i) as [nd|] eqn:E; [|apply nth_error_None in E; lia].
  assert (NP : ~ In i P) by (intros H; apply A3 in H; lia).
  assert (D : nop nd = Inv \/ nop nd <> Inv) by (destruct (nop nd); auto; right; discriminate).
  destruct D as [I|NI].
  { rewrite I. exists [i], st. split; [reflexivity|]. split; [exact G|]. split.
    - intros j. cbn [In]. split.
      + intros [<-|[]]. exists i. split; [auto|]. split; [constructor|exists nd; auto].
      + intros (i' & H & N & _). injection H as <-. left. eapply needs_leaf; eauto.
    - intros v. split; [auto|]. intros [H|[(i' & H & N) (nd' & E' & NI)]]; [auto|]. injection H as <-.
      pose proof (needs_leaf i v nd E I N) as Q. subst v. congruence. }
  pose proof G as (G1 & G2 & G3 & G4).
  assert (R : forall v, reached (Some i) v <-> needs g i v).
  { intros v. split; [intros (k & H & N); injection H as <-; auto|intros N; exists i; auto]. }
  destruct (existsb (Nat.eqb i) (visited st)) eqn:V.
  { apply existsb_nat, G2 in V. destruct V as [[s L]|V]; [|tauto]. rewrite L.
    assert (F : found P (Some i) st (Ok (s, st))).
    { exists s, st. split; [reflexivity|]. split; [exact G|]. destruct (G1 i s L) as [_ S]. split.
      - intros j. rewrite S. split; [intros H; exists i; auto|intros (k & H & D); injection H as <-; auto].
      - intros v. split; [auto|]. intros [H|[H I]]; [auto|]. apply R in H. eapply G3; eauto. exists s. exact L. }
    destruct (nop nd); [congruence|exact F|exact F|exact F]. }
  assert (NV : ~ In i (visited st)) by (rewrite <- existsb_nat; congruence).
  assert (G' : good (i :: P) (mkState (i :: visited st) (indeps st) (info st))).
  { split; [exact G1|]. split; [|split; [exact G3|exact G4]]. intros v. cbn [visited In]. rewrite G2. unfold keyed. cbn [indeps]. intuition. }
  destruct (args_found fuel (i :: P) (nargs nd)) with (ind := @nil nat) (st := mkState (i :: visited st) (indeps st) (info st))
    as (ind & st2 & EO & G'' & S2 & K2); [|exact G'|].
  { intros a st' Ha Gs. apply IH; [|exact Gs]. destruct a as [c|]; cbn [arg_ok]; [|lia].
    pose proof (ORD i nd c E Ha). split; [lia|]. split; [lia|]. intros p [<-|Hp]; [auto|]. apply A3 in Hp. lia. }
  rewrite EO.
  assert (S3 : forall j, In j ind <-> depends_on g i j).
  { intros j. rewrite S2, (depends_in i j nd E NI). cbn [In]. intuition. }
  assert (C3 : forall c v, In (Some c) (nargs nd) -> needs g c v -> inner v -> keyed st2 v).
  { intros c v H N I. apply K2. right. split; [exists c; auto|auto]. }
  assert (FIN : forall m, info_ok m (fun v => keyed st2 v \/ v = i) ->
     found P (Some i) st (Ok (ind, mkState (visited st2) (update i ind (indeps st2)) m))).
  { intros m M. exists ind. eexists. split; [reflexivity|]. split; [eapply close; eauto|]. split.
    - intros j. rewrite S3. split; [intros H; exists i; auto|intros (k & H & D); injection H as <-; auto].
    - intros v. rewrite R. unfold keyed at 1. cbn [indeps]. rewrite lookup_update. destruct (Nat.eqb_spec v i).
      + subst. split; [|intros _; eexists; reflexivity]. intros _. right. split; [constructor|exists nd; auto].
      + fold (keyed st2 v). rewrite K2. unfold keyed at 1. cbn [indeps]. fold (keyed st v). rewrite (needs_in i v nd E). intuition congruence. }
  pose proof G'' as (_ & _ & _ & M2).
  assert (OTH : (forall id, ~ calls i id) -> found P (Some i) st (Ok (ind, mkState (visited st2) (update i ind (indeps st2)) (info st2)))).
  { intros NC. apply FIN. apply info_other; auto. }
  destruct (nop nd) as [|id p| |] eqn:O; [congruence| | |].
  - destruct (note_ok nd i id p ind (mkState (visited st2) (update i ind (indeps st2)) (info st2)) (keyed st2) E O S3 M2) as (m & -> & M).
    cbn [visited indeps]. apply FIN. exact M.
  - apply OTH. intros id (nd' & p & E' & O'). congruence.
  - apply OTH. intros id (nd' & p & E' & O'). congruence.
Qed.

Lemma deps_ok : forall deps st, (forall d, In (Some d) deps -> d < length g) -> good [] st ->
  exists st', overDeps dbg g deps st = Ok st' /\ good [] st' /\
    forall v, keyed st' v <-> keyed st v \/ ((exists d, In (Some d) deps /\ needs g d v) /\ inner v).
Proof.
  induction deps as [|a deps IH]; intros st R G; cbn [overDeps].
  - exists st. split; [reflexivity|]. split; [exact G|]. intros v. split; [auto|]. intros [H|[(d & [] & _) _]]; auto.
  - destruct (find_ok (S (S (length g))) a [] st) as (s & st1 & E1 & G1 & _ & K1); [|exact G|].
    { destruct a as [i|]; cbn [arg_ok]; [|lia]. pose proof (R i (or_introl eq_refl)). split; [lia|]. split; [lia|]. intros p []. }
    rewrite E1. destruct (IH st1) as (st2 & -> & G2 & K2); [intros d H; apply R; right; auto|exact G1|].
    exists st2. split; [reflexivity|]. split; [exact G2|]. intros v. rewrite K2, K1. unfold reached. split.
    + intros [[H|[(i & -> & N) I]]|[(i & H & N) I]]; [auto| |]; right; split; auto; exists i; split; auto; [left|right]; auto.
    + intros [H|[(i & [->|H] & N) I]]; [auto|left; right; split; [exists i; auto|auto]|right; split; [exists i; auto|auto]].
Qed.
End Graph.

Lemma setAtoms_ok : forall reg m, NoDup (map fst m) -> (forall id u, lookup id m = Some u -> lookup id reg <> None) ->
  exists m', setAtoms reg m = Ok m' /\ map fst m' = map fst m /\
    forall id, lookup id m' = match lookup id m with Some u => Some (mkUse (lookup id reg) (sizes u) (outerIndeps u)) | None => None end.
Proof.
  intros reg. induction m as [|[k u] m IH]; intros N H; cbn [setAtoms].
  - exists []. auto.
  - inversion N as [|? ? N1 N2]; subst. destruct (lookup k reg) as [a|] eqn:L.
    2:{ exfalso. apply (H k u); [|exact L]. cbn [lookup]. rewrite Nat.eqb_refl. reflexivity. }
    destruct IH as (m' & -> & E & Q); [exact N2| |].
    { intros id v Lv. apply (H id v). cbn [lookup]. destruct (Nat.eqb_spec id k); [|exact Lv]. subst. exfalso. apply N1.
      clear -Lv. cbn [fst]. induction m as [|[k' b] m IH]; cbn [lookup] in Lv; [discriminate|]. cbn [map fst In].
      destruct (Nat.eqb_spec k k'); [auto|]. right. auto. }
    eexists. split; [reflexivity|]. split; [cbn [map fst]; congruence|]. intros id. cbn [lookup].
    destruct (Nat.eqb_spec id k); [subst; rewrite L; reflexivity|apply Q].
Qed.

Lemma nth_vars : forall n more a nd, nth_error (repeat (mkNode Inv []) n ++ more) a = Some nd -> a < n -> nd = mkNode Inv [].
Proof.
  intros n more a nd E L. rewrite nth_error_app1 in E by (rewrite repeat_length; lia). apply nth_error_In, repeat_spec in E. exact E.
Qed.

(** For every tape: the search succeeds, with and without assertions. An atomic function is listed exactly if a dependent variable needs a call of it; its
    independent variables are exactly those which affect such a call, and its sizes exactly those of such calls; no function is
    listed twice and each comes with the function which the handler registered. *)
Theorem C72_usage_of_atomic_functions : forall dbg t more deps,
  forward t 0 = (more, deps) ->
  let g := repeat (mkNode Inv []) (domain t) ++ more in
  made_in_order g -> calls_well_formed g ->
  (forall nd, In nd more -> nop nd <> Inv) ->
  (forall d, In (Some d) deps -> d < length g) ->
  (forall id a, is_call g deps id a -> lookup id (registered t) <> None) ->
  exists m l, findAtomicsUsage dbg t newLocator = Ok (m, l) /\
    NoDup (map fst m) /\
    (forall id, (exists u, lookup id m = Some u) <-> exists a, is_call g deps id a) /\
    (forall id u, lookup id m = Some u ->
       atom u = lookup id (registered t) /\
       (forall j, In j (outerIndeps u) <-> j < domain t /\ exists a, is_call g deps id a /\ needs g a j) /\
       (forall s, In s (sizes u) <-> exists a, is_call g deps id a /\ call_sizes g a s)).
Proof.
  intros dbg t more deps F g ORD CWF NI RNG REG.
  assert (VAR : forall a nd, nth_error g a = Some nd -> (nop nd = Inv <-> a < domain t)).
  { intros a nd E. split; intros H.
    - destruct (le_lt_dec (domain t) a) as [L|L]; [|exact L]. exfalso. unfold g in E.
      rewrite nth_error_app2 in E by (rewrite repeat_length; lia). apply nth_error_In in E. exact (NI nd E H).
    - rewrite (nth_vars _ _ _ _ E H). reflexivity. }
  assert (LEAF : forall a nd, nth_error g a = Some nd -> nop nd = Inv -> nargs nd = []).
  { intros a nd E H. rewrite (nth_vars _ _ _ _ E (proj1 (VAR a nd E) H)). reflexivity. }
  assert (G0 : good g [] (mkState [] [] [])).
  { split; [intros v s H; discriminate|]. split; [|split].
    - intros v. split; [intros []|intros [[s H]|[]]; discriminate].
    - intros v w [s H]; discriminate.
    - split; [constructor|]. split; [|intros id u H; discriminate].
      intros id. split; [intros [u H]; discriminate|intros (v & [s H] & _); discriminate]. }
  destruct (deps_ok dbg g ORD CWF LEAF deps (mkState [] [] []) RNG G0) as (st & EO & (_ & _ & _ & N & H1 & H2) & K).
  assert (K' : forall v id, (keyed st v /\ calls g v id) <-> is_call g deps id v).
  { intros v id. rewrite K. split.
    - intros [[[s H]|[(d & D & Nd) _]] (nd & p & E & O)]; [discriminate|]. exists d, nd, p. auto.
    - intros (d & nd & p & D & Nd & E & O). split; [|exists nd, p; auto]. right. split; [exists d; auto|]. exists nd. split; [exact E|congruence]. }
  destruct (setAtoms_ok (registered t) (info st) N) as (m & EM & FM & QM).
  { intros id u L. destruct (proj1 (H1 id)) as (v & Hv); [exists u; exact L|]. apply (REG id v). apply K'. exact Hv. }
  unfold findAtomicsUsage. cbn [noted newLocator info nodes length app]. rewrite F. cbn [Nat.eqb negb]. rewrite andb_false_r.
  fold g. rewrite EO, EM. eexists. eexists. split; [reflexivity|]. split; [rewrite FM; exact N|]. split.
  - intros id. transitivity (exists u, lookup id (info st) = Some u).
    + rewrite QM. destruct (lookup id (info st)) as [u0|]; split; intros [u H]; try discriminate; eexists; reflexivity.
    + rewrite H1. split; intros (v & H); exists v; apply K'; exact H.
  - intros id u L. rewrite QM in L. destruct (lookup id (info st)) as [u'|] eqn:L'; [|discriminate]. injection L as <-.
    cbn [atom outerIndeps sizes]. destruct (H2 id u' L') as [A B]. split; [reflexivity|]. split.
    + intros j. rewrite A. split.
      * intros (v & Kv & C & Nv & nd & E & O). split; [apply (VAR j nd E), O|]. exists v. split; [apply K'; auto|exact Nv].
      * intros (J & v & C & Nv). apply K' in C. exists v. destruct C. split; [auto|]. split; [auto|]. split; [exact Nv|].
        destruct (nth_error g j) as [nd|] eqn:E.
        -- exists nd. split; [reflexivity|]. apply (VAR j nd E), J.
        -- apply nth_error_None in E. unfold g in E. rewrite app_length, repeat_length in E. lia.
    + intros s. rewrite B. split.
      * intros (v & Kv & C & D). exists v. split; [apply K'; auto|exact D].
      * intros (v & C & D). apply K' in C. exists v. tauto.
Qed.
Print Assumptions C72_usage_of_atomic_functions.

(** Once something was found, a further call gives the same and changes nothing. *)
Theorem C72_asked_again : forall dbg dbg' t t' l m l',
  findAtomicsUsage dbg t l = Ok (m, l') -> m <> [] -> findAtomicsUsage dbg' t' l' = Ok (m, l').
Proof.
  intros dbg dbg' t t' l m l' H M. assert (I : info (noted l') = m).
  { unfold findAtomicsUsage in H. destruct (info (noted l)) eqn:E.
    - destruct (dbg && _ && _); [discriminate|]. destruct (forward t _) as [more deps]. destruct (overDeps _ _ _ _); try discriminate.
      destruct (setAtoms _ _); try discriminate. injection H as <- <-. reflexivity.
    - injection H as <- <-. exact E. }
  unfold findAtomicsUsage. rewrite I. destruct m; [congruence|reflexivity].
Qed.
Print Assumptions C72_asked_again.

(** A model without atomic functions: asking the same locator twice fails an assertion, since the new independent variables are
    not the first nodes of the handler any more. *)
Theorem C72_asked_twice_without_atomic_functions_refuted : exists t l,
  findAtomicsUsage true t newLocator = Ok ([], l) /\ findAtomicsUsage true t l = Failed /\
  exists l', findAtomicsUsage false t l = Ok ([], l').
Proof.
  exists (mkTape 1 (fun first => ([mkNode Other [Some first; None]], [Some (S first)])) []). eexists. split; [vm_compute; reflexivity|].
  split; [vm_compute; reflexivity|]. eexists. vm_compute. reflexivity.
Qed.
Print Assumptions C72_asked_twice_without_atomic_functions_refuted.

(** Three independent variables; a call of function 7 with two of them, used twice, and a call of function 5 with a result of the first *)
Definition case72 : Tape := mkTape 3 (fun first =>
  ([mkNode ArrayCreation [Some 0; Some 1]; mkNode ArrayCreation [None]; mkNode (AtomicForward 7 0) [Some 3; Some 4];
    mkNode Other [Some 4; Some 5]; mkNode ArrayCreation [Some 6]; mkNode ArrayCreation [None; None; None];
    mkNode (AtomicForward 5 0) [Some 7; Some 8]; mkNode Other [Some 9; Some 8]; mkNode (AtomicForward 6 0) [Some 3; Some 4]],
   [Some 10; None; Some 6; Some 2])) [(7, 70); (5, 50); (6, 60)].
Example C72_case : exists l, findAtomicsUsage true case72 newLocator =
    Ok ([(7, mkUse (Some 70) [(2, 1)] [0; 1]); (5, mkUse (Some 50) [(1, 3)] [0; 1])], l) /\
  (let g := repeat (mkNode Inv []) 3 ++ fst (forward case72 0) in
   made_in_order g /\ calls_well_formed g).
Proof.
  eexists. split; [vm_compute; reflexivity|]. split.
  - intros a nd c E. do 12 (destruct a as [|a]; [cbn in E; injection E as <-; cbn; intuition; try discriminate;
      match goal with H : Some _ = Some _ |- _ => injection H as <- end; lia|]).
    cbn in E. destruct a; discriminate.
  - intros a nd id p E O. do 12 (destruct a as [|a]; [cbn in E; injection E as <-; cbn in O; first [discriminate|
      injection O as <- <-; split; [reflexivity|]; do 5 eexists; repeat (split; [cbn; reflexivity|]); cbn; reflexivity]|]).
    cbn in E. destruct a; discriminate.
Qed.

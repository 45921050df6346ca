(** * Expressions which do not depend on the index of a loop: the search *)
From Coq Require Import List Bool Arith Lia.
From Verif Require Import LoopMove_model LoopMove_spec LoopMove_graph.
Import ListNotations.

Definition sameValues (N : nat) (g g0 : graph) : Prop := forall W cst op, (forall n (v : W), op n KAssign [v] = v) -> forall env n v, n < N -> (plain W cst op g env n v <-> plain W cst op g0 env n v).

Section Search.
Variable g0 : graph.
Variable L : nat.
Variable rank : nat -> nat.
Hypothesis Hrank : forall n m, child g0 n m -> rank m < rank n.
Hypothesis Hclosed : closed g0.
Let N0 := length g0.
Definition dep (g : graph) (n : nat) : Prop := reaches g n L.

Record Inv (x : option nat) (s : st) : Prop := {
  i_ac : acyclic (gr s);
  i_cl : closed (gr s);
  i_len : N0 <= length (mk s) /\ length (mk s) <= length (gr s);
  i_mk : forall n m, nth_error (mk s) n = Some m -> m = 0 \/ (n < N0 /\ ((m = 1 /\ ~ dep (gr s) n) \/ (m = 2 /\ dep (gr s) n)));
  i_un : forall n, n < N0 -> nth_error (mk s) n = Some 0 -> nth_error (gr s) n = nth_error g0 n;
  i_mv : forall m, In m (mv s) -> m < length (gr s) /\ ~ dep (gr s) m;
  i_nd : NoDup (mv s);
  i_tmp : forall nd, In nd (gr s) -> nkind nd = KLoopTmp -> 2 <= length (nargs nd);
  i_idx : L < N0 /\ exists nd, nth_error (gr s) L = Some nd /\ nkind nd = KIndexDcl /\ nargs nd = [];
  i_done : forall n nd m, x <> Some n -> nth_error (mk s) n = Some 2 -> nth_error (gr s) n = Some nd -> exempt (nkind nd) = false -> In (Ref m) (nargs nd) -> ~ dep (gr s) m -> available (gr s) (mv s) m;
  i_next : forall n nd m v, nth_error (mk s) n = Some (S v) -> nth_error (gr s) n = Some nd -> In (Ref m) (nargs nd) -> m < N0 -> nth_error (mk s) m <> Some 0;
  i_new : forall n, N0 <= n -> n < length (gr s) -> ~ dep (gr s) n;
  i_dep : forall n, n < N0 -> (dep (gr s) n <-> dep g0 n);
  i_val : sameValues N0 (gr s) g0 }.

Definition le (s s' : st) : Prop :=
  length (mk s') = length (mk s) /\ (forall n v, nth_error (mk s) n = Some (S v) -> nth_error (mk s') n = Some (S v)) /\ incl (mv s) (mv s').
Lemma le_refl s : le s s. Proof. split; [reflexivity|]. split; [auto|]. intros m I. exact I. Qed.
Lemma le_trans a b c : le a b -> le b c -> le a c.
Proof. intros (A1 & A2 & A3) (B1 & B2 & B3). split; [congruence|]. split; [intros n v H; exact (B2 n v (A2 n v H))|intros m I; exact (B3 m (A3 m I))]. Qed.

(** ** Moving one argument *)
Lemma wrap_inv x s a nd b : Inv x s -> nth_error (mk s) a = Some 1 -> nth_error (gr s) a = Some nd -> nkind nd = KLoopTmp -> nth_error (nargs nd) 1 = Some (Ref b) ->
  Inv x (wrap a nd b s) /\ available (gr (wrap a nd b s)) (mv (wrap a nd b s)) a /\ (forall m, available (gr s) (mv s) m -> available (gr (wrap a nd b s)) (mv (wrap a nd b s)) m).
Proof.
  intros HI Ma Ha Ka Hb. pose proof (i_cl x s HI) as Hcl. set (g := gr s) in *. unfold wrap. fold g. set (new := length g). set (g1 := put a (mkNode (nkind nd) (put 1 (Ref new) (nargs nd))) g ++ [mkNode KAssign [Ref b]]). cbn [gr mk mv].
  assert (Hk : nkind nd <> KIndexDcl) by congruence. assert (La : a < length g) by (apply nth_error_Some; congruence).
  destruct (i_mk x s HI a 1 Ma) as [X|(LaN & [[_ Na]|[X _]])]; try discriminate X.
  pose proof (proj2 (i_len x s HI)) as Lm. fold g in Lm. pose proof (proj1 (i_len x s HI)) as Lm0.
  assert (Lb : b < length g) by (exact (blt g a b nd Ha Hb Hcl)). destruct (i_idx x s HI) as [LL (ndL & EL & KL & AL)]. fold g in EL. assert (LLg : L < length g) by lia.
  assert (Nb : ~ dep g b) by (intros D; apply Na; exact (R_arg g a b L (child_ab g a b nd Ha Hb) D)).
  assert (Ra : forall n, n < length g -> (dep g1 n <-> dep g n)) by (intros n Ln; exact (wrap_reaches g a b nd Ha Hb Hcl n L Ln LLg)).
  assert (Rnew : ~ dep g1 new) by (intros D; apply Nb; exact (proj2 (wrap_reaches2 g a b nd Ha Hb Hcl new L LLg D) eq_refl)).
  assert (AvA : available g1 (insert new (mv s)) a).
  { right. exists (mkNode (nkind nd) (put 1 (Ref new) (nargs nd))). split; [exact (g1_a g a b nd Ha)|]. right. right. cbn [nkind nargs]. split; [exact Ka|]. right. exists new. split; [apply put_same; apply nth_error_Some; congruence|apply insert_In; auto]. }
  assert (Av : forall m, available g (mv s) m -> available g1 (insert new (mv s)) m).
  { intros m [I|(ndm & Em & H)]; [left; apply insert_In; auto|]. destruct (Nat.eq_dec m a) as [->|Nm]; [exact AvA|]. right. exists ndm. split.
    - unfold g1, new. rewrite (g1_old g a b nd m); [exact Em|apply nth_error_Some; congruence|exact Nm].
    - destruct H as [H|[H|(H1 & [H|(b' & H & I)])]]; [left; exact H|right; left; exact H| |]; right; right; (split; [exact H1|]); [left; exact H|right; exists b'; split; [exact H|apply insert_In; auto]]. }
  split; [|split; [exact AvA|exact Av]]. constructor; cbn [gr mk mv].
  - exact (wrap_acyclic g a b nd Ha Hb Hcl (i_ac x s HI)).
  - exact (wrap_closed g a b nd Ha Hb Hcl).
  - split; [exact Lm0|]. unfold g1, new. rewrite (g1_length g a b nd). lia.
  - intros n m E. destruct (i_mk x s HI n m E) as [->|(Ln & H)]; [left; reflexivity|right]. split; [exact Ln|]. fold g in H. rewrite (Ra n) by lia. exact H.
  - intros n Ln E. unfold g1, new. rewrite (g1_old g a b nd n); [exact (i_un x s HI n Ln E)|lia|congruence].
  - intros m I. apply insert_In in I. assert (Lg1 : length g1 = S (length g)) by exact (g1_length g a b nd). destruct I as [->|I]; [split; [rewrite Lg1; unfold new; lia|exact Rnew]|]. destruct (i_mv x s HI m I) as [Lx Nx]. fold g in Lx, Nx. split; [rewrite Lg1; lia|]. rewrite (Ra m Lx). exact Nx.
  - apply insert_NoDup. exact (i_nd x s HI).
  - intros nd' I K. apply In_nth_error in I. destruct I as (n & E). destruct (g1_node g a b nd Ha n nd' E) as [[-> ->]|[[-> ->]|(_ & _ & E')]].
    + cbn [nargs]. rewrite put_length. apply (i_tmp x s HI nd); [exact (nth_error_In _ _ Ha)|exact Ka].
    + cbn [nkind] in K. discriminate.
    + exact (i_tmp x s HI nd' (nth_error_In _ _ E') K).
  - split; [exact LL|]. exists ndL. split; [|auto]. unfold g1, new. rewrite (g1_old g a b nd L LLg); [exact EL|]. intros E. apply Na. rewrite <- E. apply R_here.
  - intros n nd' m X Mn En Ke I Nd. assert (Ln : n < length g) by (assert (n < length (mk s)) by (apply nth_error_Some; congruence); lia). assert (n <> a) by congruence.
    unfold g1, new in En. rewrite (g1_old g a b nd n Ln) in En by assumption. apply Av. apply (i_done x s HI n nd' m X Mn En Ke I). fold g. rewrite <- (Ra m); [exact Nd|]. apply (Hcl n). exists nd'. auto.
  - intros n nd' m v Mn En I Lm'. destruct (g1_node g a b nd Ha n nd' En) as [[-> ->]|[[-> ->]|(_ & _ & E')]].
    + cbn [nargs] in I. apply In_put in I. destruct I as [I|I]; [injection I as ->; unfold new in Lm'; lia|]. exact (i_next x s HI a nd m v Mn Ha I Lm').
    + assert (length g < length (mk s)) by (apply nth_error_Some; congruence). lia.
    + exact (i_next x s HI n nd' m v Mn E' I Lm').
  - intros n Ln Lg. unfold g1, new in Lg. rewrite (g1_length g a b nd) in Lg. destruct (Nat.eq_dec n new) as [->|Nn]; [exact Rnew|]. rewrite (Ra n) by (unfold new in Nn; lia). apply (i_new x s HI n Ln). fold g. unfold new in Nn. lia.
  - intros n Ln. rewrite (Ra n) by lia. exact (i_dep x s HI n Ln).
  - intros W cst op Hop env n v Ln. rewrite <- (i_val x s HI W cst op Hop env n v Ln). exact (wrap_value g a b nd Ha Hb Hcl W cst op Hop Hk (i_ac x s HI) env n v ltac:(lia)).
Qed.
Lemma available_insert g mvs m k : available g mvs k -> available g (insert m mvs) k.
Proof.
  intros [I|(nd & E & H)]; [left; apply insert_In; auto|right]. exists nd. split; [exact E|]. destruct H as [H|[H|(H1 & [H|(b' & H & I)])]]; [left; exact H|right; left; exact H| |]; right; right; (split; [exact H1|]); [left; exact H|right; exists b'; split; [exact H|apply insert_In; auto]].
Qed.
Lemma insert_inv x s m : Inv x s -> m < length (gr s) -> ~ dep (gr s) m -> Inv x (mkSt (gr s) (mk s) (insert m (mv s))).
Proof.
  intros [A1 A2 A3 A4 A5 A6 A7 A8 A9 A10 A11 A12 A13 A14] Lm Nm. constructor; cbn [gr mk mv]; try assumption.
  - intros k I. apply insert_In in I. destruct I as [->|I]; [auto|exact (A6 k I)].
  - apply insert_NoDup, A7.
  - intros n nd k X H1 H2 H3 H4 H5. apply available_insert. exact (A10 n nd k X H1 H2 H3 H4 H5).
Qed.
Lemma moveArg_spec x s a : Inv x s -> (forall m, a = Ref m -> exists v, nth_error (mk s) m = Some (S v)) ->
  exists s', moveArg s a = Ok s' /\ Inv x s' /\ mk s' = mk s /\ incl (mv s) (mv s') /\ (forall k, nth_error (mk s) k <> Some 1 -> k < length (gr s) -> nth_error (gr s') k = nth_error (gr s) k) /\
    (length (gr s) <= length (gr s')) /\ (forall m, a = Ref m -> nth_error (mk s) m = Some 1 -> available (gr s') (mv s') m) /\ (forall m, available (gr s) (mv s) m -> available (gr s') (mv s') m).
Proof.
  intros HI Hm. assert (Same : forall r, r = Ok s -> (forall m, a = Ref m -> nth_error (mk s) m = Some 1 -> available (gr s) (mv s) m) -> exists s', r = Ok s' /\ Inv x s' /\ mk s' = mk s /\ incl (mv s) (mv s') /\ (forall k, nth_error (mk s) k <> Some 1 -> k < length (gr s) -> nth_error (gr s') k = nth_error (gr s) k) /\
    (length (gr s) <= length (gr s')) /\ (forall m, a = Ref m -> nth_error (mk s) m = Some 1 -> available (gr s') (mv s') m) /\ (forall m, available (gr s) (mv s) m -> available (gr s') (mv s') m)).
  { intros r -> H. exists s. split; [reflexivity|]. split; [exact HI|]. split; [reflexivity|]. split; [intros k I; exact I|]. split; [auto|]. split; [lia|]. split; [exact H|auto]. }
  destruct a as [c|m]; [apply Same; [reflexivity|intros m X; discriminate]|]. destruct (Hm m eq_refl) as (v & Em). destruct (i_mk x s HI m _ Em) as [X|(Lm & C)]; [discriminate|].
  pose proof (i_len x s HI) as [L1 L2]. assert (Lg : m < length (gr s)) by lia. destruct (nth_error (gr s) m) as [nd|] eqn:En; [|apply nth_error_None in En; lia].
  unfold moveArg. rewrite Em, En. destruct C as [[Ev Nd]|[Ev _]]; injection Ev as ->.
  2: { apply Same; [reflexivity|]. intros k E E1. injection E as <-. congruence. }
  assert (Ins : exists s', Ok (mkSt (gr s) (mk s) (insert m (mv s))) = Ok s' /\ Inv x s' /\ mk s' = mk s /\ incl (mv s) (mv s') /\ (forall k, nth_error (mk s) k <> Some 1 -> k < length (gr s) -> nth_error (gr s') k = nth_error (gr s) k) /\
    (length (gr s) <= length (gr s')) /\ (forall m', Ref m = Ref m' -> nth_error (mk s) m' = Some 1 -> available (gr s') (mv s') m') /\ (forall m, available (gr s) (mv s) m -> available (gr s') (mv s') m)).
  { eexists. split; [reflexivity|]. split; [exact (insert_inv x s m HI Lg Nd)|]. cbn [gr mk mv]. split; [reflexivity|]. split; [intros k I; apply insert_In; auto|]. split; [auto|]. split; [lia|]. split; [|intros k; apply available_insert].
    intros m' E _. injection E as <-. left. apply insert_In. auto. }
  assert (There : nkind nd = KInv \/ nkind nd = KTmpDcl -> forall m', Ref m = Ref m' -> nth_error (mk s) m' = Some 1 -> available (gr s) (mv s) m').
  { intros K m' E _. injection E as <-. right. exists nd. split; [exact En|]. tauto. }
  destruct (nkind nd) eqn:K; try exact Ins; try (apply Same; [reflexivity|]; apply There; auto).
  pose proof (i_tmp x s HI nd (nth_error_In _ _ En) K) as L3. destruct (nth_error (nargs nd) 1) as [[c|b]|] eqn:Eb; [| |apply nth_error_None in Eb; lia].
  - apply Same; [reflexivity|]. intros m' E _. injection E as <-. right. exists nd. split; [exact En|]. right. right. split; [exact K|]. left. exists c. exact Eb.
  - destruct (wrap_inv x s m nd b HI Em En K Eb) as (H1 & H2 & H3). eexists. split; [reflexivity|]. split; [exact H1|]. split; [reflexivity|]. split; [intros k I; cbn [wrap mv]; apply insert_In; auto|]. split; [|split; [|split]].
    + intros k Mk Lk. cbn [wrap gr]. apply (g1_old (gr s) m b nd k Lk). congruence.
    + cbn [wrap gr]. rewrite (g1_length (gr s) m b nd). lia.
    + intros m' E _. injection E as <-. exact H2.
    + exact H3.
Qed.
Lemma moveAll_spec x l s : Inv x s -> (forall m, In (Ref m) l -> exists v, nth_error (mk s) m = Some (S v)) ->
  exists s', moveAll s l = Ok s' /\ Inv x s' /\ mk s' = mk s /\ incl (mv s) (mv s') /\ (forall k, nth_error (mk s) k <> Some 1 -> k < length (gr s) -> nth_error (gr s') k = nth_error (gr s) k) /\
    (length (gr s) <= length (gr s')) /\ (forall m, In (Ref m) l -> nth_error (mk s) m = Some 1 -> available (gr s') (mv s') m) /\ (forall m, available (gr s) (mv s) m -> available (gr s') (mv s') m).
Proof.
  revert s. induction l as [|a l IH]; intros s HI Hm; cbn [moveAll].
  - exists s. split; [reflexivity|]. split; [exact HI|]. split; [reflexivity|]. split; [intros k I; exact I|]. split; [auto|]. split; [lia|]. split; [intros m []|auto].
  - destruct (moveArg_spec x s a HI) as (s1 & E1 & H1 & M1 & V1 & G1 & L1 & A1 & B1); [intros m ->; apply Hm; left; reflexivity|]. rewrite E1. cbn [obind].
    destruct (IH s1 H1) as (s2 & E2 & H2 & M2 & V2 & G2 & L2 & A2 & B2); [intros m I; rewrite M1; apply Hm; right; exact I|]. exists s2. split; [exact E2|]. split; [exact H2|]. split; [congruence|]. split; [intros k I; exact (V2 k (V1 k I))|]. split; [|split; [lia|split]].
    + intros k Mk Lk. rewrite G2; [exact (G1 k Mk Lk)|rewrite M1; exact Mk|lia].
    + intros m [->|I] Mm; [apply B2; exact (A1 m eq_refl Mm)|]. apply A2; [exact I|rewrite M1; exact Mm].
    + intros m X. exact (B2 m (B1 m X)).
Qed.

(** ** The search *)
Definition above (n : nat) (s s' : st) : Prop := forall x, rank n < rank x -> nth_error (mk s') x = nth_error (mk s) x.
Definition foundOk (s : st) (n : nat) (r : out (bool * st)) : Prop :=
  exists bb s', r = Ok (bb, s') /\ Inv None s' /\ nth_error (mk s') n = Some (if bb then 1 else 2) /\ le s s' /\ above n s s'.
Lemma visit_spec f n : (forall s m, Inv None s -> m < N0 -> rank m < rank n -> foundOk s m (f s m)) -> forall l s ip na, Inv None s -> (forall m, In (Ref m) l -> m < N0 /\ rank m < rank n) ->
  exists ip' na' s', visit f s l ip na = Ok (ip', na', s') /\ Inv None s' /\ le s s' /\ (forall x, rank n <= rank x -> nth_error (mk s') x = nth_error (mk s) x) /\
    (ip' = true <-> ip = true \/ exists m, In (Ref m) l /\ nth_error (mk s') m = Some 2) /\ (na' = true <-> na = true \/ exists m, In (Ref m) l /\ nth_error (mk s') m = Some 1) /\
    (forall m, In (Ref m) l -> exists v, nth_error (mk s') m = Some (S v)).
Proof.
  intros Hf. induction l as [|[c|m] l IH]; intros s ip na HI Hl; cbn [visit].
  - exists ip, na, s. split; [reflexivity|]. split; [exact HI|]. split; [apply le_refl|]. split; [auto|]. split; [split; [auto|intros [H|(m & [] & _)]; exact H]|]. split; [split; [auto|intros [H|(m & [] & _)]; exact H]|]. intros m [].
  - destruct (IH s ip na HI) as (ip' & na' & s' & E & H1 & H2 & H3 & H4 & H5 & H6); [intros m I; apply Hl; right; exact I|]. exists ip', na', s'. split; [exact E|]. split; [exact H1|]. split; [exact H2|]. split; [exact H3|]. split; [|split].
    + rewrite H4. split; (intros [X|(m & I & X)]; [auto|right; exists m; split; [|exact X]]); [right; exact I|destruct I as [I|I]; [discriminate|exact I]].
    + rewrite H5. split; (intros [X|(m & I & X)]; [auto|right; exists m; split; [|exact X]]); [right; exact I|destruct I as [I|I]; [discriminate|exact I]].
    + intros m [I|I]; [discriminate|exact (H6 m I)].
  - destruct (Hl m (or_introl eq_refl)) as [Lm Rm]. destruct (Hf s m HI Lm Rm) as (bb & s1 & E1 & I1 & M1 & L1 & U1). rewrite E1. cbn [obind fst snd].
    destruct (IH s1 (ip || negb bb) (na || bb) I1) as (ip' & na' & s' & E & H1 & H2 & H3 & H4 & H5 & H6); [intros k I; apply Hl; right; exact I|]. exists ip', na', s'. split; [exact E|]. split; [exact H1|]. split; [exact (le_trans _ _ _ L1 H2)|].
    assert (Mm : nth_error (mk s') m = Some (if bb then 1 else 2)) by (destruct bb; exact (proj1 (proj2 H2) m _ M1)). split; [|split; [|split]].
    + intros x Lx. rewrite (H3 x Lx). apply U1. lia.
    + rewrite H4, orb_true_iff. split.
      * intros [[X|X]|(k & I & X)]; [auto| |right; exists k; split; [right; exact I|exact X]]. right. exists m. split; [left; reflexivity|]. destruct bb; [discriminate X|exact Mm].
      * intros [X|(k & [I|I] & X)]; [auto| |right; exists k; auto]. injection I as <-. left. right. destruct bb; [congruence|reflexivity].
    + rewrite H5, orb_true_iff. split.
      * intros [[X|X]|(k & I & X)]; [auto| |right; exists k; split; [right; exact I|exact X]]. right. exists m. split; [left; reflexivity|]. rewrite X in Mm. exact Mm.
      * intros [X|(k & [I|I] & X)]; [auto| |right; exists k; auto]. injection I as <-. left. right. destruct bb; [reflexivity|congruence].
    + intros k [I|I]; [injection I as <-; destruct bb; eexists; exact Mm|exact (H6 k I)].
Qed.
(** a node gets its mark *)
Lemma mark_inv s n nd v : Inv None s -> n < N0 -> nth_error (mk s) n = Some 0 -> nth_error (gr s) n = Some nd -> (forall m, In (Ref m) (nargs nd) -> exists u, nth_error (mk s) m = Some (S u)) ->
  (v = 1 /\ ~ dep (gr s) n) \/ (v = 2 /\ dep (gr s) n) -> Inv (Some n) (setMark n v s) /\ le s (setMark n v s).
Proof.
  intros [A1 A2 A3 A4 A5 A6 A7 A8 A9 A10 A11 A12 A13 A14] Ln M0 En Hm Hv. assert (Lk : n < length (mk s)) by lia. pose proof (put_same n v (mk s) Lk) as Ps. assert (Po : forall k, k <> n -> nth_error (put n v (mk s)) k = nth_error (mk s) k) by (intros k Nk; apply put_other; congruence).
  split; [constructor; unfold setMark; cbn [gr mk mv]; try assumption|].
  - rewrite put_length. exact A3.
  - intros k m E. destruct (Nat.eq_dec k n) as [->|Nk]; [rewrite Ps in E; injection E as <-; right; split; [exact Ln|exact Hv]|]. rewrite (Po k Nk) in E. exact (A4 k m E).
  - intros k Lk' E. destruct (Nat.eq_dec k n) as [->|Nk]; [rewrite Ps in E; injection E as E; destruct Hv as [[-> _]|[-> _]]; discriminate|]. rewrite (Po k Nk) in E. exact (A5 k Lk' E).
  - intros k ndk m X E. assert (Nk : k <> n) by congruence. rewrite (Po k Nk) in E. exact (A10 k ndk m ltac:(discriminate) E).
  - intros k ndk m u E E' I Lm X. destruct (Nat.eq_dec m n) as [->|Nm]; [rewrite Ps in X; injection X as X; destruct Hv as [[-> _]|[-> _]]; discriminate|]. rewrite (Po m Nm) in X. destruct (Nat.eq_dec k n) as [->|Nk].
    + assert (ndk = nd) by congruence. subst ndk. destruct (Hm m I) as (w & Y). congruence.
    + rewrite (Po k Nk) in E. exact (A11 k ndk m u E E' I Lm X).
  - split; [unfold setMark; cbn [mk]; apply put_length|]. split; [|intros m I; exact I]. intros k u E. unfold setMark. cbn [mk]. rewrite (Po k); [exact E|congruence].
Qed.
Lemma inv_complete s n : Inv (Some n) s -> (forall nd m, nth_error (mk s) n = Some 2 -> nth_error (gr s) n = Some nd -> exempt (nkind nd) = false -> In (Ref m) (nargs nd) -> ~ dep (gr s) m -> available (gr s) (mv s) m) -> Inv None s.
Proof.
  intros [A1 A2 A3 A4 A5 A6 A7 A8 A9 A10 A11 A12 A13 A14] H. constructor; try assumption. intros k nd m _ E. destruct (Nat.eq_dec k n) as [->|Nk]; [exact (H nd m E)|]. apply (A10 k nd m); [congruence|exact E].
Qed.
Lemma find_spec : forall fuel s n, Inv None s -> n < N0 -> rank n < fuel -> foundOk s n (find L fuel s n).
Proof.
  induction fuel as [|f IH]; intros s n HI Ln Lf; [lia|]. cbn [find]. pose proof (i_len _ _ HI) as [L1 L2].
  destruct (nth_error (mk s) n) as [v|] eqn:Em; [|apply nth_error_None in Em; lia]. destruct v as [|v].
  2: { exists (v =? 0), s. split; [reflexivity|]. split; [exact HI|]. split; [|split; [apply le_refl|intros x _; reflexivity]]. destruct (i_mk _ _ HI n _ Em) as [X|(_ & [[X _]|[X _]])]; [discriminate| |]; injection X as ->; exact Em. }
  pose proof (i_un _ _ HI n Ln Em) as Eg. destruct (nth_error g0 n) as [nd|] eqn:En; [|apply nth_error_None in En; unfold N0 in Ln; lia]. rewrite Eg.
  destruct (i_idx _ _ HI) as [LL (ndL & EL & KL & AL)]. destruct (isDcl (nkind nd) && (n =? L)) eqn:EQ.
  - apply andb_true_iff in EQ. destruct EQ as [_ EQ]. apply Nat.eqb_eq in EQ. subst n. assert (ndL = nd) by congruence. subst ndL.
    destruct (mark_inv s L nd 2 HI Ln Em Eg) as [H1 H2]; [intros m I; rewrite AL in I; destruct I|right; split; [reflexivity|apply R_here]|].
    exists false, (setMark L 2 s). split; [reflexivity|]. split; [|split; [|split; [exact H2|]]].
    + apply (inv_complete _ L H1). intros nd' m _ E' _ I. cbn [setMark gr] in E'. assert (nd' = nd) by congruence. subst nd'. rewrite AL in I. destruct I.
    + cbn [setMark mk]. apply put_same. lia.
    + intros x Lx. cbn [setMark mk]. apply put_other. intros ->. lia.
  - assert (NL : n <> L). { intros ->. rewrite Nat.eqb_refl, andb_true_r in EQ. assert (ndL = nd) by congruence. subst ndL. rewrite KL in EQ. discriminate. }
    assert (Hl : forall m, In (Ref m) (nargs nd) -> m < N0 /\ rank m < rank n) by (intros m I; assert (C : child g0 n m) by (exists nd; auto); split; [exact (Hclosed _ _ C)|exact (Hrank _ _ C)]).
    destruct (visit_spec (find L f) n (fun s' m H1 H2 H3 => IH s' m H1 H2 ltac:(lia)) (nargs nd) s false false HI Hl) as (ip & na & s1 & E1 & I1 & Le1 & U1 & Hip & Hna & Hmk). rewrite E1. cbn [obind].
    assert (M1 : nth_error (mk s1) n = Some 0) by (rewrite U1 by lia; exact Em). assert (G1 : nth_error (gr s1) n = Some nd) by (rewrite (i_un _ _ I1 n Ln M1); exact En).
    assert (Dn : dep (gr s1) n <-> ip = true).
    { rewrite Hip. unfold dep. rewrite reaches_iff. split.
      - intros [X|(m & C & R)]; [contradiction|]. apply (child_args _ _ _ _ G1) in C. right. exists m. split; [exact C|]. destruct (Hmk m C) as (v & X). destruct (i_mk _ _ I1 m _ X) as [Y|(_ & [[_ Y]|[Y _]])]; [discriminate|contradiction|congruence].
      - intros [X|(m & C & X)]; [discriminate|]. right. exists m. split; [apply (child_args _ _ _ _ G1); exact C|]. destruct (i_mk _ _ I1 m _ X) as [Y|(_ & [[Y _]|[_ Y]])]; [discriminate|discriminate|exact Y]. }
    destruct (mark_inv s1 n nd (if ip then 2 else 1) I1 Ln M1 G1 Hmk) as [I2 Le2]; [destruct ip; [right; split; [reflexivity|apply Dn; reflexivity]|left; split; [reflexivity|intros D; apply Dn in D; discriminate]]|].
    set (s2 := setMark n (if ip then 2 else 1) s1) in *. assert (Ms2 : nth_error (mk s2) n = Some (if negb ip then 1 else 2)) by (unfold s2; cbn [setMark mk]; rewrite put_same; [destruct ip; reflexivity|destruct Le1 as (X & _); lia]).
    assert (Ab2 : above n s s2) by (intros x Lx; unfold s2; cbn [setMark mk]; rewrite put_other; [apply U1; lia|intros ->; lia]).
    assert (G2 : nth_error (gr s2) n = Some nd) by exact G1.
    assert (Simple : (forall m, nth_error (mk s2) n = Some 2 -> exempt (nkind nd) = false -> In (Ref m) (nargs nd) -> ~ dep (gr s2) m -> available (gr s2) (mv s2) m) -> foundOk s n (Ok (negb ip, s2))).
    { intros H. exists (negb ip), s2. split; [reflexivity|]. split; [apply (inv_complete _ n I2); intros nd' m X Y; assert (nd' = nd) by congruence; subst nd'; exact (H m X)|]. split; [exact Ms2|]. split; [exact (le_trans _ _ _ Le1 Le2)|exact Ab2]. }
    destruct (exempt (nkind nd)) eqn:Ex; [apply Simple; intros m _ X; discriminate X|]. destruct (ip && na) eqn:Both.
    + assert (Hm2 : forall m, In (Ref m) (nargs nd) -> exists v, nth_error (mk s2) m = Some (S v)) by (intros m I; destruct (Hmk m I) as (v & X); exists v; exact (proj1 (proj2 Le2) m v X)).
      destruct (moveAll_spec (Some n) (nargs nd) s2 I2 Hm2) as (s3 & E3 & I3 & M3 & V3 & G3 & L3 & A3 & B3). rewrite E3. cbn [obind]. apply andb_true_iff in Both. destruct Both as [-> ->]. cbn [negb] in Ms2 |- *.
      exists false, s3. split; [reflexivity|]. split; [|split; [rewrite M3; exact Ms2|split; [|intros x Lx; rewrite M3; exact (Ab2 x Lx)]]].
      * apply (inv_complete _ n I3). intros nd' m _ Y _ I Nd. assert (Ln2 : n < length (gr s2)) by (apply nth_error_Some; congruence). rewrite (G3 n) in Y; [|congruence|exact Ln2]. assert (nd' = nd) by congruence. subst nd'. apply (A3 m I). destruct (Hm2 m I) as (v & X).
        rewrite <- M3 in X |- *. destruct (i_mk _ _ I3 m _ X) as [Z|(_ & [[Z _]|[_ Z]])]; [discriminate|congruence|contradiction].
      * refine (le_trans _ _ _ Le1 (le_trans _ _ _ Le2 _)). split; [rewrite M3; reflexivity|]. split; [intros k u H; rewrite M3; exact H|exact V3].
    + apply Simple. intros m X _ I Nd. exfalso. destruct ip; [|rewrite Ms2 in X; discriminate]. cbn [andb] in Both. subst na. destruct (Hmk m I) as (v & Y). destruct (i_mk _ _ I1 m _ Y) as [Z|(_ & [[Z Z']|[_ Z]])]; [discriminate| |exact (Nd Z)].
      rewrite Z in Y. assert (F : false = true) by (apply Hna; right; exists m; auto). discriminate.
Qed.

(** ** All arguments of the end of the loop *)
Lemma adjust_inv s : Inv None s -> Inv None (adjust s).
Proof.
  intros [A1 A2 A3 A4 A5 A6 A7 A8 A9 A10 A11 A12 A13 A14].
  assert (Old : forall n v, nth_error (mk s) n = Some v -> nth_error (mk s ++ repeat 0 (length (gr s) - length (mk s))) n = Some v) by (intros n v E; rewrite nth_error_app1; [exact E|apply nth_error_Some; congruence]).
  assert (Inc : forall n v, nth_error (mk s ++ repeat 0 (length (gr s) - length (mk s))) n = Some v -> nth_error (mk s) n = Some v \/ (v = 0 /\ N0 <= n)).
  { intros n v E. destruct (Nat.lt_ge_cases n (length (mk s))) as [H|H]; [rewrite nth_error_app1 in E by exact H; auto|]. rewrite nth_error_app2 in E by exact H. apply nth_error_In, repeat_spec in E. right. split; [exact E|lia]. }
  constructor; unfold adjust; cbn [gr mk mv]; try assumption.
  - rewrite app_length, repeat_length. lia.
  - intros n m E. destruct (Inc n m E) as [X|[-> _]]; [exact (A4 n m X)|auto].
  - intros n Ln E. destruct (Inc n 0 E) as [X|[_ X]]; [exact (A5 n Ln X)|lia].
  - intros n nd m X E. destruct (Inc n 2 E) as [Y|[Y _]]; [exact (A10 n nd m X Y)|discriminate].
  - intros n nd m v E E' I Lm X. destruct (Inc n (S v) E) as [Y|[Y _]]; [|discriminate]. destruct (Inc m 0 X) as [Z|[_ Z]]; [exact (A11 n nd m v Y E' I Lm Z)|lia].
Qed.
Lemma ends_spec fuel : forall es s, Inv None (adjust s) -> (forall e, In e es -> e < N0 /\ rank e < fuel) ->
  exists s', ends L fuel s es = Ok s' /\ Inv None (adjust s') /\ (forall n v, nth_error (mk s) n = Some (S v) -> nth_error (mk s') n = Some (S v)) /\ (forall e, In e es -> exists v, nth_error (mk s') e = Some (S v)).
Proof.
  induction es as [|e es IH]; intros s HI He; cbn [ends].
  - exists s. split; [reflexivity|]. split; [exact HI|]. split; [auto|intros e []].
  - destruct (He e (or_introl eq_refl)) as [Le Re]. destruct (find_spec fuel (adjust s) e HI Le Re) as (bb & s1 & E1 & I1 & M1 & (_ & L1 & _) & _). rewrite E1. cbn [obind snd].
    destruct (IH s1 (adjust_inv s1 I1)) as (s2 & E2 & I2 & L2 & H2); [intros k I; apply He; right; exact I|]. exists s2. split; [exact E2|]. split; [exact I2|]. split.
    + intros n v E. apply L2, L1. unfold adjust. cbn [mk]. rewrite nth_error_app1; [exact E|apply nth_error_Some; congruence].
    + intros k [<-|I]; [|exact (H2 k I)]. destruct bb; eexists; apply L2; exact M1.
Qed.
Lemma start_inv : loopGraph g0 L -> Inv None (adjust (mkSt g0 [] [])).
Proof.
  intros (H1 & H2 & (ndL & H3 & H4 & H5) & H6). assert (Z : forall n v, nth_error (repeat 0 (length g0 - 0)) n = Some v -> v = 0) by (intros n v E; exact (repeat_spec _ _ _ (nth_error_In _ _ E))).
  constructor; unfold adjust; cbn [gr mk mv app length]; try assumption.
  - rewrite repeat_length. unfold N0. lia.
  - intros n m E. left. exact (Z n m E).
  - auto.
  - intros m [].
  - constructor.
  - split; [unfold N0; apply nth_error_Some; congruence|]. exists ndL. auto.
  - intros n nd m _ E. discriminate (Z _ _ E).
  - intros n nd m v E. discriminate (Z _ _ E).
  - unfold N0. intros n X Y. lia.
  - tauto.
  - intros W cst op _ env n v _. tauto.
Qed.
End Search.

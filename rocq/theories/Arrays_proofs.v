(** Proofs about the places of arrays. *)
Require Import List Arith Bool Lia Sorting.Sorted.
From Verif Require Import Arrays_model Arrays_spec.
Import ListNotations.

(** ** Maps *)
Definition srt (m : smap) : Prop := StronglySorted (fun x y => fst x < fst y) m.

Lemma mget_In m k v : srt m -> (mget k m = Some v <-> In (k, v) m).
Proof.
  induction 1 as [|[k' v'] m S IH F]; cbn [mget In]; [split; [discriminate|tauto]|].
  rewrite Forall_forall in F. destruct (Nat.eqb_spec k k') as [->|N].
  - split; [intros [= ->]; auto|]. intros [[= ->]|H]; auto. apply F in H. cbn in H. lia.
  - rewrite IH. split; auto. intros [[= -> ->]|H]; auto. congruence.
Qed.

Lemma mget_mset m k v k' : mget k' (mset k v m) = if k' =? k then Some v else mget k' m.
Proof.
  induction m as [|[a b] m IH]; cbn [mset mget]; auto.
  destruct (Nat.ltb_spec k a); cbn [mget]; auto.
  destruct (Nat.eqb_spec k a) as [->|N]; cbn [mget].
  - destruct (k' =? a); auto.
  - rewrite IH. destruct (Nat.eqb_spec k' a) as [->|N2]; auto. destruct (Nat.eqb_spec a k); auto. congruence.
Qed.

Lemma mset_keys m k v x : In x (mset k v m) -> fst x = k \/ In x m.
Proof.
  induction m as [|[a b] m IH]; cbn [mset]; [intros [<-|[]]; auto|].
  destruct (k <? a); [intros [<-|H]; auto|]. destruct (Nat.eqb_spec k a) as [->|N]; cbn [In]; [intros [<-|H]; auto|].
  intros [<-|H]; auto. apply IH in H. tauto.
Qed.

Lemma srt_mset m k v : srt m -> srt (mset k v m).
Proof.
  induction 1 as [|[a b] m S IH F]; cbn [mset]; [repeat constructor|].
  pose proof F as F'. rewrite Forall_forall in F'. destruct (Nat.ltb_spec k a).
  - constructor; [constructor; auto|]. constructor; auto. apply Forall_forall. intros x Hx. apply F' in Hx. cbn in *. lia.
  - destruct (Nat.eqb_spec k a) as [->|N].
    + constructor; auto.
    + constructor; auto. apply Forall_forall. intros x Hx. apply mset_keys in Hx. destruct Hx as [E|Hx]; [cbn; lia|auto].
Qed.

Lemma mdel_In m k x : In x (mdel k m) -> In x m.
Proof. induction m as [|[a b] m IH]; cbn [mdel]; auto. destruct (k =? a); cbn; tauto. Qed.

Lemma srt_mdel m k : srt m -> srt (mdel k m).
Proof.
  induction 1 as [|[a b] m S IH F]; cbn [mdel]; [constructor|]. destruct (k =? a); auto. constructor; auto.
  rewrite Forall_forall in *. intros x Hx. apply F. eapply mdel_In; eauto.
Qed.

Lemma mget_mdel m k k' : srt m -> mget k' (mdel k m) = if k' =? k then None else mget k' m.
Proof.
  induction 1 as [|[a b] m S IH F]; cbn [mdel mget]; [now destruct (k' =? k)|]. destruct (Nat.eqb_spec k a) as [->|N]; cbn [mget].
  - destruct (Nat.eqb_spec k' a) as [->|N]; auto. destruct (mget a m) eqn:E; auto. apply mget_In in E; auto.
    rewrite Forall_forall in F. apply F in E. cbn in E. lia.
  - rewrite IH. destruct (Nat.eqb_spec k' a) as [->|N2]; auto. destruct (Nat.eqb_spec a k); auto. congruence.
Qed.

Lemma mdel_absent m k : Forall (fun y => k < fst y) m -> mdel k m = m.
Proof.
  induction 1 as [|[c d] m L F IH]; auto. cbn [mdel]. cbn in L. destruct (Nat.eqb_spec k c) as [->|N]; [lia|]. now rewrite IH.
Qed.

Lemma mset_mdel m k v : srt m -> mset k v (mdel k m) = mset k v m.
Proof.
  induction 1 as [|[a b] m S IH F]; cbn [mdel]; auto. destruct (Nat.eqb_spec k a) as [->|N]; cbn [mset].
  - rewrite Nat.ltb_irrefl, Nat.eqb_refl. destruct m as [|[c d] m]; auto. cbn [mset].
    assert (L : a < c) by (rewrite Forall_forall in F; exact (F (c, d) (or_introl eq_refl))).
    destruct (Nat.ltb_spec a c); auto. lia.
  - destruct (Nat.ltb_spec k a).
    + rewrite mdel_absent; auto. eapply Forall_impl; [|exact F]. intros [c d] L. cbn in *. lia.
    + destruct (Nat.eqb_spec k a); [congruence|]. f_equal. apply IH.
Qed.

(** ** Free spaces *)
Record W (fs fe : smap) (lim : nat) : Prop := {
  w_s : srt fs;
  w_e : srt fe;
  w_m : forall s e, mget s fs = Some e <-> mget e fe = Some s;
  w_b : forall s e, mget s fs = Some e -> s <= e < lim;
  w_d : forall s e s' e', mget s fs = Some e -> mget s' fs = Some e' -> s <> s' -> e < s' \/ e' < s
}.
Definition isfree (fs : smap) (p : nat) : Prop := exists s e, mget s fs = Some e /\ s <= p <= e.

Lemma W_del fs fe lim s e : W fs fe lim -> mget s fs = Some e ->
  W (mdel s fs) (mdel e fe) lim /\ (forall p, isfree (mdel s fs) p -> isfree fs p /\ ~ (s <= p <= e)).
Proof.
  intros [A B C D E] H. split.
  - split; [now apply srt_mdel|now apply srt_mdel| | |].
    + intros s' e'. rewrite !mget_mdel by auto. destruct (Nat.eqb_spec s' s) as [->|N]; destruct (Nat.eqb_spec e' e) as [->|N2].
      * split; discriminate.
      * split; [discriminate|]. intros Q. apply C in Q. congruence.
      * split; [|discriminate]. intros Q. apply C in H. apply C in Q. congruence.
      * apply C.
    + intros s' e'. rewrite mget_mdel by auto. destruct (s' =? s); [discriminate|]. apply D.
    + intros s1 e1 s2 e2. rewrite !mget_mdel by auto. destruct (s1 =? s); [discriminate|]. destruct (s2 =? s); [discriminate|]. apply E.
  - intros p [s' [e' [Q P]]]. rewrite mget_mdel in Q by auto. destruct (Nat.eqb_spec s' s); [discriminate|]. split; [exists s', e'; auto|].
    destruct (E s e s' e' H Q); lia.
Qed.

Lemma W_add fs fe lim s e : W fs fe lim -> s <= e < lim -> (forall p, isfree fs p -> ~ (s <= p <= e)) ->
  W (mset s e fs) (mset e s fe) lim /\ (forall p, isfree (mset s e fs) p -> isfree fs p \/ s <= p <= e).
Proof.
  intros [A B C D E] H N.
  assert (NS : forall e', mget s fs <> Some e') by (intros e' Q; apply (N s); [exists s, e'; split; auto; apply D in Q; lia|lia]).
  assert (NE : forall s', mget s' fs <> Some e) by (intros s' Q; apply (N e); [exists s', e; split; auto; apply D in Q; lia|lia]).
  assert (DJ : forall s' e', mget s' fs = Some e' -> e < s' \/ e' < s).
  { intros s' e' Q. destruct (Nat.lt_ge_cases e s'); auto. destruct (Nat.lt_ge_cases e' s); auto. exfalso. pose proof (D _ _ Q).
    apply (N (max s s')); [exists s', e'; split; auto; lia|lia]. }
  split.
  - split; [now apply srt_mset|now apply srt_mset| | |].
    + intros s' e'. rewrite !mget_mset. destruct (Nat.eqb_spec s' s) as [->|N1]; destruct (Nat.eqb_spec e' e) as [->|N2]; try tauto.
      * split; [congruence|]. intros Q. apply C in Q. now apply NS in Q.
      * split; [|congruence]. intros Q. now apply NE in Q.
      * apply C.
    + intros s' e'. rewrite mget_mset. destruct (Nat.eqb_spec s' s) as [->|N1]; [intros [= <-]; lia|]. apply D.
    + intros s1 e1 s2 e2. rewrite !mget_mset. destruct (Nat.eqb_spec s1 s) as [->|N1]; destruct (Nat.eqb_spec s2 s) as [->|N2]; try congruence.
      * intros [= <-] Q _. apply DJ in Q. lia.
      * intros Q [= <-] _. apply DJ in Q. lia.
      * apply E.
  - intros p [s' [e' [Q P]]]. rewrite mget_mset in Q. destruct (Nat.eqb_spec s' s) as [->|N1].
    + injection Q as <-. auto.
    + left. exists s', e'. auto.
Qed.

Lemma W_more fs fe lim lim' : W fs fe lim -> lim <= lim' -> W fs fe lim'.
Proof. intros [A B C D E] L. split; auto. intros s e Q. apply D in Q. lia. Qed.

(** ** Releasing *)
Lemma addFree_W c start size : let c' := addFree c start size in
  W (c_start c) (c_end c) (c_count c - 1) -> start + size <= c_count c - 1 ->
  (forall p, isfree (c_start c) p -> ~ in_window start size p) ->
  W (c_start c') (c_end c') (c_count c - 1) /\ c_vals c' = c_vals c /\ c_count c' = c_count c /\
  forall p, isfree (c_start c') p -> isfree (c_start c) p \/ in_window start size p.
Proof.
  intros c' HW HB HN. unfold c', addFree. destruct (Nat.eqb_spec size 0) as [->|NZ]; [split; auto|].
  set (e0 := start + size - 1).
  assert (S1 : exists s fs fe, (if 0 <? start then match mget (start - 1) (c_end c) with
        | Some s => (s, mdel s (c_start c), mdel (start - 1) (c_end c)) | None => (start, c_start c, c_end c) end
      else (start, c_start c, c_end c)) = (s, fs, fe) /\ W fs fe (c_count c - 1) /\ s <= start /\
      (forall p, isfree fs p -> isfree (c_start c) p /\ ~ (s <= p <= e0)) /\
      (forall p, s <= p < start -> isfree (c_start c) p)).
  { assert (DEF : W (c_start c) (c_end c) (c_count c - 1) /\ start <= start /\
      (forall p, isfree (c_start c) p -> isfree (c_start c) p /\ ~ (start <= p <= e0)) /\
      (forall p, start <= p < start -> isfree (c_start c) p)).
    { split; auto. split; auto. split; [|lia]. intros p Hp. split; auto. intros Q. apply (HN p Hp). unfold in_window, e0 in *. lia. }
    destruct (Nat.ltb_spec 0 start); [|do 3 eexists; split; [reflexivity|]; exact DEF].
    destruct (mget (start - 1) (c_end c)) as [s|] eqn:E; [|do 3 eexists; split; [reflexivity|]; exact DEF].
    apply HW in E. destruct (W_del _ _ _ _ _ HW E) as [W1 F1]. do 3 eexists. split; [reflexivity|]. split; auto.
    pose proof (w_b _ _ _ HW _ _ E). split; [lia|]. split.
    - intros p Hp. apply F1 in Hp. destruct Hp as [Hp N]. split; auto. intros Q. destruct (Nat.lt_ge_cases p start); [apply N; lia|].
      apply (HN p Hp). unfold in_window, e0 in *. lia.
    - intros p Hp. exists s, (start - 1). split; auto. lia. }
  destruct S1 as [s [fs [fe [-> [W1 [LS [F1 P1]]]]]]].
  assert (S2 : exists e fs' fe', match mget (e0 + 1) fs with
      | Some e' => (e', mdel (e0 + 1) fs, mdel e' fe) | None => (e0, fs, fe) end = (e, fs', fe') /\ W fs' fe' (c_count c - 1) /\ e0 <= e < c_count c - 1 /\
      (forall p, isfree fs' p -> isfree (c_start c) p /\ ~ (s <= p <= e)) /\
      (forall p, e0 < p <= e -> isfree (c_start c) p)).
  { destruct (mget (e0 + 1) fs) as [e|] eqn:E.
    - destruct (W_del _ _ _ _ _ W1 E) as [W2 F2]. do 3 eexists. split; [reflexivity|]. split; auto.
      pose proof (w_b _ _ _ W1 _ _ E). split; [lia|]. split.
      + intros p Hp. apply F2 in Hp. destruct Hp as [Hp N]. apply F1 in Hp. destruct Hp as [Hp N1]. split; auto. lia.
      + intros p Hp. apply (F1 p). exists (e0 + 1), e. split; auto. lia.
    - do 3 eexists. split; [reflexivity|]. split; auto. split; [unfold e0; lia|]. split; auto. lia. }
  destruct S2 as [e [fs' [fe' [-> [W2 [LE [F2 P2]]]]]]]. cbn [c_start c_end c_vals c_count].
  destruct (W_add fs' fe' (c_count c - 1) s e W2) as [W3 F3]; [unfold e0 in *; lia|intros p Hp; now apply F2|].
  split; auto. split; auto. split; auto. intros p Hp. apply F3 in Hp. destruct Hp as [Hp|Hp]; [left; now apply F2|].
  destruct (Nat.lt_ge_cases p start); [left; apply P1; lia|]. destruct (Nat.lt_ge_cases e0 p); [left; apply P2; lia|].
  right. unfold in_window, e0 in *. lia.
Qed.

(** ** Reserving *)
Section Reserve.
Variable ndef : nat -> nexp.
Variable place : nat -> nat.

Lemma commonVals_some vals args start : start + length args <= length vals -> exists k, commonVals vals start args = Some k.
Proof.
  revert start. induction args as [|a l IH]; intros start H; cbn [commonVals length] in *; [eauto|].
  destruct (nth_error vals start) eqn:E; [|apply nth_error_None in E; lia]. destruct (IH (S start)) as [k ->]; [lia|]. eauto.
Qed.

Definition fits (args : list aarg) black (x : nat * nat) : Prop :=
  length args <= snd x - fst x + 1 /\ forall b, In b black -> ~ (fst x <= b <= snd x).

Lemma blackIn_false black s e : blackIn black s e = false -> forall b, In b black -> ~ (s <= b <= e).
Proof.
  unfold blackIn. intros H b Hb Q. assert (X : existsb (fun b => (s <=? b) && (b <=? e)) black = true); [|congruence].
  apply existsb_exists. exists b. split; auto. apply andb_true_iff. split; apply Nat.leb_le; lia.
Qed.
Lemma blackIn_true black s e : blackIn black s e = true -> exists b, In b black /\ s <= b <= e.
Proof.
  unfold blackIn. intros H. apply existsb_exists in H. destruct H as [b [Hb Q]]. apply andb_true_iff in Q. destruct Q as [Q1 Q2].
  apply Nat.leb_le in Q1, Q2. eauto.
Qed.

Lemma bestFit_ok vals args black spaces : forall best common,
  (forall x, In x spaces -> fst x <= snd x < length vals) ->
  (forall x, best = Some x -> fits args black x) ->
  exists r, bestFit vals args black spaces best common = AOk r /\
    match r with
    | Some x => fits args black x /\ (In x spaces \/ best = Some x)
    | None => best = None /\ forall x, In x spaces -> ~ fits args black x
    end.
Proof.
  induction spaces as [|[s e] l IH]; intros best common HS HB; cbn [bestFit].
  - exists best. split; auto. destruct best as [x|]; auto.
  - assert (HS' : forall x, In x l -> fst x <= snd x < length vals) by (intros x Hx; apply HS; now right).
    assert (SKIP : ~ fits args black (s, e) -> exists r, bestFit vals args black l best common = AOk r /\
      match r with
      | Some x => fits args black x /\ (In x ((s, e) :: l) \/ best = Some x)
      | None => best = None /\ forall x, In x ((s, e) :: l) -> ~ fits args black x
      end).
    { intros NF. destruct (IH best common HS' HB) as [r [-> R]]. exists r. split; auto. destruct r as [x|].
      - destruct R as [R1 [R2|R2]]; split; auto. left. now right.
      - destruct R as [R1 R2]. split; auto. intros x [<-|Hx]; auto. }
    assert (TAKE : fits args black (s, e) -> forall k, exists r, bestFit vals args black l (Some (s, e)) k = AOk r /\
      match r with
      | Some x => fits args black x /\ (In x ((s, e) :: l) \/ best = Some x)
      | None => best = None /\ forall x, In x ((s, e) :: l) -> ~ fits args black x
      end).
    { intros F k. destruct (IH (Some (s, e)) k HS') as [r [-> R]]; [intros x [= <-]; auto|]. exists r. split; auto. destruct r as [x|].
      - destruct R as [R1 [R2|R2]]; split; auto; left; [now right|]. injection R2 as <-. now left.
      - destruct R as [R1 R2]. discriminate. }
    destruct (Nat.ltb_spec (e - s + 1) (length args)) as [LT|GE]; [apply SKIP; intros [F _]; cbn in F; lia|].
    destruct (blackIn black s e) eqn:EB.
    + apply SKIP. apply blackIn_true in EB. destruct EB as [b [Hb Q]]. intros [_ F]. exact (F b Hb Q).
    + assert (F : fits args black (s, e)) by (split; [exact GE|now apply blackIn_false]).
      destruct best as [[bs be]|]; [|apply TAKE; auto].
      destruct (commonVals_some vals args s) as [k ->].
      { pose proof (HS (s, e) (or_introl eq_refl)) as Q. cbn in Q. lia. }
      destruct ((e - s + 1 <? be - bs + 1) || (common <? k)).
      * destruct (k =? length args); [|apply TAKE; auto]. eexists. split; [reflexivity|]. cbn. auto.
      * destruct (IH (Some (bs, be)) common HS' HB) as [r [-> R]]. exists r. split; auto. destruct r as [x|].
        -- destruct R as [R1 [R2|R2]]; split; auto. left. now right.
        -- destruct R as [R1 _]. discriminate.
Qed.

Lemma storeVals_ok args : forall vals start, start + length args <= length vals ->
  exists vals', storeVals vals start args = Some vals' /\ length vals' = length vals.
Proof.
  induction args as [|a l IH]; intros vals start H; cbn [storeVals length] in *; [eauto|].
  destruct (Nat.ltb_spec start (length vals)); [|lia].
  assert (LE : length (firstn start vals ++ Some a :: skipn (S start) vals) = length vals).
  { rewrite app_length. cbn [length]. rewrite firstn_length, skipn_length. lia. }
  destruct (IH (firstn start vals ++ Some a :: skipn (S start) vals) (S start)) as [v [E L]]; [lia|]. exists v. split; auto. congruence.
Qed.

Lemma reserve_W c args : 
  W (c_start c) (c_end c) (c_count c - 1) -> 1 <= c_count c -> c_count c - 1 + length args <= length (c_vals c) ->
  exists c' start, reserve ndef place c args = AOk (c', start) /\
    W (c_start c') (c_end c') (c_count c' - 1) /\ length (c_vals c') = length (c_vals c) /\
    c_count c <= c_count c' <= c_count c + length args /\ start + length args <= c_count c' - 1 /\
    (forall p, isfree (c_start c') p -> isfree (c_start c) p /\ ~ in_window start (length args) p) /\
    (forall p, in_window start (length args) p -> isfree (c_start c) p \/ c_count c - 1 <= p) /\
    (forall b, In b (blackList ndef place args) -> b < c_count c - 1 -> ~ in_window start (length args) b).
Proof.
  intros HW H1 HV. unfold reserve. destruct (Nat.eqb_spec (length args) 0) as [Z|NZ].
  { exists c, 0. rewrite Z. split; auto. split; auto. split; auto. split; [lia|]. split; [lia|]. split; [|split].
    - intros p Hp. split; auto. unfold in_window. lia.
    - unfold in_window. lia.
    - unfold in_window. lia. }
  set (black := blackList ndef place args). set (n := length args) in *.
  destruct (bestFit_ok (c_vals c) args black (rev (c_start c)) None 0) as [best [-> HB]].
  { intros [s e] Hx. apply in_rev in Hx. apply mget_In in Hx; [|apply HW]. apply (w_b _ _ _ HW) in Hx. cbn. lia. }
  { discriminate. }
  cbn [abind]. 
  assert (T : exists fs fe count start, takeSpace c n black best = AOk (fs, fe, count, start) /\
    W fs fe (count - 1) /\ c_count c <= count <= c_count c + n /\ start + n <= count - 1 /\
    (forall p, isfree fs p -> isfree (c_start c) p /\ ~ in_window start n p) /\
    (forall p, in_window start n p -> isfree (c_start c) p \/ c_count c - 1 <= p) /\
    (forall b, In b black -> b < c_count c - 1 -> ~ in_window start n b)).
  { unfold takeSpace. destruct best as [[bs be]|].
    - destruct HB as [[F1 F2] [HI|HI]]; [|discriminate]. cbn [fst snd] in *. fold n in F1. apply in_rev in HI. apply mget_In in HI; [|apply HW].
      pose proof (w_b _ _ _ HW _ _ HI) as BD. destruct (W_del _ _ _ _ _ HW HI) as [W1 FR].
      assert (FP : forall p, in_window bs n p -> isfree (c_start c) p \/ c_count c - 1 <= p).
      { intros p Hp. left. exists bs, be. split; auto. unfold in_window in Hp. lia. }
      assert (BP : forall b, In b black -> b < c_count c - 1 -> ~ in_window bs n b).
      { intros b Hb _ Q. apply (F2 b Hb). unfold in_window in Q. lia. }
      destruct (Nat.eqb_spec (be - bs + 1) n) as [E|NE].
      + do 4 eexists. split; [reflexivity|]. split; auto. split; [lia|]. split; [lia|]. split; auto.
        intros p Hp. apply FR in Hp. destruct Hp as [Hp Q]. split; auto. unfold in_window. lia.
      + assert (ME : mget be (c_end c) = Some bs) by now apply HW. rewrite ME. 
        do 4 eexists. split; [reflexivity|]. rewrite <- (mset_mdel (c_end c)) by apply HW.
        destruct (W_add _ _ _ (bs + n) be W1) as [W2 F3]; [lia|intros p Hp Q; apply FR in Hp; lia|].
        split; auto. split; [lia|]. split; [lia|]. split; auto.
        intros p Hp. apply F3 in Hp. destruct Hp as [Hp|Hp].
        * apply FR in Hp. destruct Hp as [Hp Q]. split; auto. unfold in_window. lia.
        * split; [exists bs, be; split; auto; lia|]. unfold in_window. lia.
    - destruct HB as [_ NF].
      assert (NEW : exists fs fe count start, AOk (c_start c, c_end c, c_count c + n, c_count c - 1) = AOk (fs, fe, count, start) /\
        W fs fe (count - 1) /\ c_count c <= count <= c_count c + n /\ start + n <= count - 1 /\
        (forall p, isfree fs p -> isfree (c_start c) p /\ ~ in_window start n p) /\
        (forall p, in_window start n p -> isfree (c_start c) p \/ c_count c - 1 <= p) /\
        (forall b, In b black -> b < c_count c - 1 -> ~ in_window start n b)).
      { do 4 eexists. split; [reflexivity|]. split; [apply (W_more _ _ _ _ HW); lia|]. split; [lia|]. split; [lia|]. split; [|split].
        - intros p Hp. split; auto. destruct Hp as [s [e [Q P]]]. apply (w_b _ _ _ HW) in Q. unfold in_window. lia.
        - unfold in_window. intros. right. lia.
        - unfold in_window. lia. }
      destruct (Nat.leb_spec (c_count c) 1) as [LE|GT]; auto.
      destruct (mget (c_count c - 1 - 1) (c_end c)) as [s|] eqn:ES; auto.
      destruct (blackFrom black s) eqn:EB; auto.
      apply HW in ES. pose proof (w_b _ _ _ HW _ _ ES) as BD.
      assert (NB : forall b, In b black -> b < s).
      { intros b Hb. unfold blackFrom in EB. destruct (Nat.lt_ge_cases b s); auto. exfalso.
        assert (X : existsb (fun b => s <=? b) black = true); [|congruence]. apply existsb_exists. exists b. split; auto. now apply Nat.leb_le. }
      assert (SM : c_count c - 1 - 1 - s + 1 < n).
      { destruct (Nat.lt_ge_cases (c_count c - 1 - 1 - s + 1) n); auto. exfalso. apply (NF (s, c_count c - 1 - 1)).
        - apply -> in_rev. apply mget_In; [apply HW|auto].
        - split; cbn [fst snd]; auto. intros b Hb Q. apply NB in Hb. lia. }
      destruct (Nat.ltb_spec n (c_count c - 1 - 1 - s + 1)); [lia|].
      destruct (W_del _ _ _ _ _ HW ES) as [W1 FR].
      do 4 eexists. split; [reflexivity|]. split; [apply (W_more _ _ _ _ W1); lia|]. split; [lia|]. split; [lia|]. split; [|split].
      + intros p Hp. apply FR in Hp. destruct Hp as [Hp Q]. split; auto. destruct Hp as [s1 [e1 [Q1 P]]]. apply (w_b _ _ _ HW) in Q1.
        unfold in_window. lia.
      + intros p Hp. unfold in_window in Hp. destruct (Nat.lt_ge_cases p (c_count c - 1)); auto. left. exists s, (c_count c - 1 - 1). split; auto. lia.
      + intros b Hb _. apply NB in Hb. unfold in_window. lia. }
  destruct T as [fs [fe [count [start [-> [T1 [T2 [T3 [T4 [T5 T6]]]]]]]]]]. cbn [abind].
  destruct (storeVals_ok args (c_vals c) start) as [v [-> LV]]; [fold n; lia|].
  exists (mkComp fs fe v count), start. cbn [c_start c_end c_vals c_count].
  split; auto. split; auto. split; auto.
Qed.
End Reserve.

(** ** Histories *)
Lemma arun_app ndef h1 h2 s : arun ndef s (h1 ++ h2) = abind (arun ndef s h1) (fun s' => arun ndef s' h2).
Proof.
  revert s. induction h1 as [|e h1 IH]; intros s; cbn [arun app abind]; auto. destruct (astep ndef s e); cbn [abind]; auto.
Qed.

Lemma live_app h e : live (h ++ [e]) = live_step (live h) e.
Proof. unfold live. rewrite fold_left_app. reflexivity. Qed.

Lemma total_app h e : total (h ++ [e]) = total h + total [e].
Proof. unfold total. rewrite map_app, list_sum_app. reflexivity. Qed.

Lemma drop_In l a b n : In (b, n) (drop_array a l) <-> In (b, n) l /\ b <> a.
Proof.
  induction l as [|[c m] l IH]; cbn [drop_array In]; [tauto|]. destruct (Nat.eqb_spec c a) as [->|N]; cbn [In]; rewrite ?IH.
  - split; [tauto|]. intros [[[= -> ->]|H] N]; [congruence|auto].
  - split; [|tauto]. intros [[= -> ->]|H]; auto. tauto.
Qed.

Lemma drop_NoDup l a : NoDup (map fst l) -> NoDup (map fst (drop_array a l)).
Proof.
  induction l as [|[c m] l IH]; cbn [drop_array map]; auto. intros H. inversion H; subst. destruct (c =? a); auto. cbn [map fst]. constructor; auto.
  intros Q. apply H2. apply in_map_iff in Q. destruct Q as [[x y] [E Q]]. apply drop_In in Q. apply in_map_iff. exists (x, y). tauto.
Qed.

Lemma reserved_app h e a n : reserved (h ++ [e]) a n <-> reserved h a n \/ exists args, e = EReserve a args /\ length args = n.
Proof.
  unfold reserved. split.
  - intros [args [H L]]. apply in_app_iff in H. destruct H as [H|[H|[]]]; eauto.
  - intros [[args [H L]]|[args [-> L]]]; exists args; split; auto; apply in_app_iff; cbn; auto.
Qed.

Lemma live_reserved h : legal h -> forall a n, In (a, n) (live h) -> reserved h a n.
Proof.
  induction 1 as [|h a args L IH NR|h a n L IH HI]; intros b m HB.
  - destruct HB.
  - rewrite live_app in HB. apply reserved_app. destruct HB as [[= -> <-]|HB]; eauto.
  - rewrite live_app in HB. apply drop_In in HB. apply reserved_app. left. apply IH, HB.
Qed.

Lemma history_ok ndef max h : legal h -> total h <= max ->
  exists s, arun ndef (mkAst (newComp max) (fun _ => 0)) h = AOk s /\
    let c := a_comp s in
    W (c_start c) (c_end c) (c_count c - 1) /\ 1 <= c_count c /\ c_count c - 1 <= total h /\ length (c_vals c) = max /\
    (forall a n, reserved h a n -> a_place s a + n <= c_count c - 1) /\
    NoDup (map fst (live h)) /\
    (forall a n b m p, In (a, n) (live h) -> In (b, m) (live h) -> a <> b -> in_window (a_place s a) n p -> ~ in_window (a_place s b) m p) /\
    (forall a n p, In (a, n) (live h) -> in_window (a_place s a) n p -> ~ isfree (c_start c) p).
Proof.
  induction 1 as [|h a args L IH NR|h a n L IH HI]; intros TM.
  - eexists. split; [reflexivity|]. cbn. split; [|split; auto; split; auto; split; [apply repeat_length|]].
    + split; [constructor|constructor| | |]; cbn; try discriminate. intros; split; discriminate.
    + split; [intros a n [args [[] _]]|]. split; [constructor|]. split; [|]; intros; contradiction.
  - rewrite total_app in *. cbn in TM. rewrite Nat.add_0_r in TM. destruct IH as [s [E [HW [C1 [CT [LV [RB [ND [DJ NF]]]]]]]]]; [lia|].
    rewrite arun_app, E. cbn [abind arun astep].
    destruct (reserve_W ndef (a_place s) (a_comp s) args HW C1) as [c' [start [-> [W' [LV' [CB [SB [FR [WN _]]]]]]]]]; [lia|].
    cbn [abind fst snd]. eexists. split; [reflexivity|]. cbn [a_comp a_place].
    assert (NL : forall n, ~ In (a, n) (live h)) by (intros n Q; apply (NR n); now apply live_reserved).
    split; auto. split; [lia|]. split; [cbn; lia|]. split; [lia|]. rewrite live_app. cbn [live_step].
    split; [|split; [|split]].
    + intros b m HR. apply reserved_app in HR. unfold setPlace. destruct (Nat.eqb_spec b a) as [->|N].
      * destruct HR as [HR|[args' [[= <-] LA]]]; [now apply NR in HR|]. lia.
      * destruct HR as [HR|[args' [[= -> <-] LA]]]; [|congruence]. apply RB in HR. lia.
    + cbn [map fst]. constructor; auto. intros Q. apply in_map_iff in Q. destruct Q as [[x y] [Q1 Q2]]. cbn in Q1. subst x. exact (NL y Q2).
    + assert (OLD : forall b m p, In (b, m) (live h) -> in_window (a_place s b) m p -> ~ in_window start (length args) p).
      { intros b m p HB P Q. apply WN in Q. destruct Q as [Q|Q]; [exact (NF b m p HB P Q)|].
        apply live_reserved, RB in HB; auto. unfold in_window in P. lia. }
      intros x nx y ny p [[= <- <-]|HX] [[= <- <-]|HY] NE; unfold setPlace; try congruence.
      * rewrite Nat.eqb_refl. destruct (Nat.eqb_spec y a) as [->|N]; [congruence|]. intros P Q. exact (OLD _ _ _ HY Q P).
      * rewrite Nat.eqb_refl. destruct (Nat.eqb_spec x a) as [->|N]; [congruence|]. intros P Q. exact (OLD _ _ _ HX P Q).
      * destruct (Nat.eqb_spec x a) as [->|N1]; [now apply NL in HX|]. destruct (Nat.eqb_spec y a) as [->|N2]; [now apply NL in HY|].
        now apply (DJ x nx y ny).
    + intros x nx p [[= <- <-]|HX] P Q; unfold setPlace in P.
      * rewrite Nat.eqb_refl in P. apply FR in Q. tauto.
      * destruct (Nat.eqb_spec x a) as [->|N1]; [now apply NL in HX|]. apply FR in Q. exact (NF _ _ _ HX P (proj1 Q)).
  - rewrite total_app in *. cbn in TM. destruct IH as [s [E [HW [C1 [CT [LV [RB [ND [DJ NF]]]]]]]]]; [lia|].
    rewrite arun_app, E. cbn [abind arun astep].
    destruct (addFree_W (a_comp s) (a_place s a) n HW) as [W' [EV [EC FR]]].
    { apply RB. now apply live_reserved. }
    { intros p Q P. exact (NF _ _ _ HI P Q). }
    eexists. split; [reflexivity|]. cbn [a_comp a_place]. rewrite EC, EV. split; auto. split; auto. split; [cbn; lia|]. split; auto.
    rewrite live_app. cbn [live_step]. split; [|split; [|split]].
    + intros b m HR. apply reserved_app in HR. destruct HR as [HR|[args [Q _]]]; [auto|discriminate].
    + now apply drop_NoDup.
    + intros x nx y ny p HX HY. apply drop_In in HX. apply drop_In in HY. now apply DJ.
    + intros x nx p HX P Q. apply drop_In in HX. destruct HX as [HX NE]. apply FR in Q. destruct Q as [Q|Q]; [exact (NF _ _ _ HX P Q)|].
      exact (DJ _ _ _ _ _ HX HI NE P Q).
Qed.

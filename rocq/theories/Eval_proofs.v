(** * Proofs about the evaluator: one generic theorem for all target types *)
From Coq Require Import List Bool Arith Lia Permutation.
From Verif Require Import Graph_model Graph_spec CGArith_model Codegen_spec Eval_model.
Import ListNotations.

Lemma indepIndex_some l i k : indepIndex l i = Some k -> nth_error l k = Some i.
Proof.
  revert k. induction l as [|j l IH]; intros k; cbn; [discriminate|].
  destruct (Nat.eqb_spec j i) as [->|N]; [intros [= <-]; reflexivity|].
  destruct (indepIndex l i) as [m|]; cbn; [|discriminate]. intros [= <-]. cbn. auto.
Qed.
Lemma indepIndex_nth l i k : NoDup l -> nth_error l k = Some i -> indepIndex l i = Some k.
Proof.
  intros ND. revert k. induction ND as [|j l Hj ND IH]; intros k; [destruct k; discriminate|].
  destruct k as [|k]; cbn.
  - intros [= ->]. now rewrite Nat.eqb_refl.
  - intros H. destruct (Nat.eqb_spec j i) as [->|N]; [apply nth_error_In in H; contradiction|].
    now rewrite (IH _ H).
Qed.

Section Generic.
Context {B T St : Type}.
Variable tg : target B T St.
Variable g : heap B.
Variable inds : list nat.
Variable xs : list T.
Variable ord : nat -> list nat.
Variable ds : list (arg B).

Notation evalOps := (evalOperations tg g inds xs ord).
Notation es := (estate T St).

(** [rel i st v]: the object v represents node i when the state is st; [le]: the states an operator may lead to *)
Variable rel : nat -> St -> T -> Prop.
Variable prel : B -> St -> T -> Prop.
Variable le : St -> St -> Prop.
Variable inv : St -> Prop.
Variable st0 : St.
Hypothesis le_refl : forall s, le s s.
Hypothesis le_trans : forall a b c, le a b -> le b c -> le a c.
Hypothesis rel_le : forall i s s' v, le s s' -> rel i s v -> rel i s' v.
Hypothesis prel_par : forall b s, prel b s (t_par tg b).
Hypothesis prel_le : forall b s s' v, le s s' -> prel b s v -> prel b s' v.

Definition arel (a : arg B) (s : St) (v : T) : Prop :=
  match a with APar b => prel b s v | ANode j => rel j s v end.

Definition isInv (o : gop) : bool := match o with GInv _ => true | _ => false end.

Variable r : nat -> nat.
Hypothesis r_edge : forall i j, edge g i j -> r j < r i.
Hypothesis inrange : forall i, reach g ds i -> exists n, nth_error g i = Some n.
Hypothesis inv_args : forall i n, nth_error g i = Some n -> isInv (n_op n) = true -> n_args n = [].
Hypothesis ord_ok : forall i n, nth_error g i = Some n -> Permutation (ord i) (seq 0 (length (n_args n))).

(** operations keep the relation *)
Hypothesis op_rel : forall i n s vs s' v, reach g ds i -> nth_error g i = Some n -> isInv (n_op n) = false ->
  handled (n_op n) = true -> inv s ->
  Forall2 (fun a u => arel a s u) (n_args n) vs -> t_op tg (n_op n) vs s = Ok (s', v) ->
  le s s' /\ inv s' /\ rel i s' v.
Hypothesis ind_rel : forall i n v, reach g ds i -> nth_error g i = Some n -> isInv (n_op n) = true ->
  evalIndependent inds xs i = Done v -> forall s, le st0 s -> rel i s v.

(** [good]: every reachable operation is handled, does not throw, and every independent is known *)
Definition live : Prop :=
  (forall i n, reach g ds i -> nth_error g i = Some n -> handled (n_op n) = true) /\
  (forall i n, reach g ds i -> nth_error g i = Some n -> isInv (n_op n) = true ->
     exists v, evalIndependent inds xs i = Done v) /\
  (forall i n s vs, reach g ds i -> nth_error g i = Some n -> isInv (n_op n) = false -> inv s ->
     Forall2 (fun a u => arel a s u) (n_args n) vs -> t_op tg (n_op n) vs s <> Throw).

Definition memo_ok (s : es) : Prop :=
  le st0 (e_st s) /\ inv (e_st s) /\
  (forall i v, e_memo s i = Some v -> reach g ds i /\ rel i (e_st s) v /\
     (forall n, nth_error g i = Some n -> handled (n_op n) = true) /\
     (forall j, edge g i j -> e_memo s j <> None)).
Definition log_ok (s : es) : Prop :=
  NoDup (e_log s) /\ (forall i, e_memo s i <> None -> In i (e_log s)) /\ (forall i, In i (e_log s) -> reach g ds i).
(** no node of rank below m is under evaluation *)
Definition quiet (m : nat) (s : es) : Prop := forall j, r j < m -> In j (e_log s) -> e_memo s j <> None.

(** what one evaluation does to the memory, whatever the outcome *)
Definition ext (m : nat) (s s' : es) : Prop :=
  le (e_st s) (e_st s') /\
  (forall j v, e_memo s j = Some v -> e_memo s' j = Some v) /\
  (forall j, In j (e_log s) -> In j (e_log s')) /\
  (forall j, In j (e_log s') -> In j (e_log s) \/ r j < m) /\
  memo_ok s' /\ log_ok s'.

Lemma ext_refl m s : memo_ok s -> log_ok s -> ext m s s.
Proof. intros M L. split; [auto|]. split; [auto|]. split; [auto|]. split; [auto|]. split; assumption. Qed.
Lemma ext_trans m a b c : ext m a b -> ext m b c -> ext m a c.
Proof.
  intros [A1 [A2 [A3 [A4 _]]]] [B1 [B2 [B3 [B4 [B5 B6]]]]]. split; [eauto|].
  split; [auto|]. split; [auto|]. split; [|auto]. intros j Hj. destruct (B4 _ Hj); auto.
Qed.
Lemma ext_mono m m' a b : m <= m' -> ext m a b -> ext m' a b.
Proof.
  intros Hm [A1 [A2 [A3 [A4 A5]]]]. split; [auto|split; [auto|split; [auto|split; [|auto]]]].
  intros j Hj. destruct (A4 _ Hj); auto. right. lia.
Qed.

(** result of evaluating node i; [fl] says that there is enough fuel *)
Definition node_post (fl : Prop) (i : nat) (s : es) (res : es * out T) : Prop :=
  ext (S (r i)) s (fst res) /\
  match snd res with
  | Done v => e_memo (fst res) i = Some v /\ quiet (S (r i)) (fst res)
  | Thrown => ~ live
  | NoFuel => ~ fl
  end.

Definition fpost (fl : Prop) (f : nat -> es -> es * out T) (m : nat) : Prop :=
  forall j s, r j < m -> reach g ds j -> memo_ok s -> log_ok s -> quiet (S (r j)) s -> node_post fl j s (f j s).

Lemma arel_le a s s' v : le s s' -> arel a s v -> arel a s' v.
Proof. destruct a; cbn; eauto. Qed.

(** evaluation of arguments *)
Lemma evalArgs_post (fl : Prop) f i n : reach g ds i -> nth_error g i = Some n -> fpost fl f (r i) ->
  forall ps acc s, memo_ok s -> log_ok s -> quiet (r i) s ->
  (forall p, In p ps -> p < length (n_args n)) ->
  (forall p v, acc p = Some v -> exists a, nth_error (n_args n) p = Some a /\ arel a (e_st s) v /\
      (forall j, a = ANode j -> e_memo s j <> None)) ->
  let res := evalArgs tg f (n_args n) ps acc s in
  ext (r i) s (fst res) /\ 
  match snd res with
  | Done acc' => quiet (r i) (fst res) /\
      (forall p, In p ps \/ acc p <> None -> acc' p <> None) /\
      (forall p v, acc' p = Some v -> exists a, nth_error (n_args n) p = Some a /\ arel a (e_st (fst res)) v /\
         (forall j, a = ANode j -> e_memo (fst res) j <> None))
  | Thrown => ~ live
  | NoFuel => ~ fl
  end.
Proof.
  intros Hr Hn Hf. induction ps as [|p ps IH]; intros acc s M L Q Hp HA; cbn [evalArgs].
  - cbn. split; [now apply ext_refl|]. split; [auto|]. split; [|auto]. intros p [[]|H]; auto.
  - destruct (nth_error (n_args n) p) as [a|] eqn:Ea;
      [|exfalso; apply nth_error_None in Ea; specialize (Hp p (or_introl eq_refl)); lia].
    assert (EA : ext (r i) s (fst (evalArg tg f a s)) /\
      match snd (evalArg tg f a s) with
      | Done v => quiet (r i) (fst (evalArg tg f a s)) /\ arel a (e_st (fst (evalArg tg f a s))) v /\
           (forall j, a = ANode j -> e_memo (fst (evalArg tg f a s)) j <> None)
      | Thrown => ~ live
      | NoFuel => ~ fl end).
    { destruct a as [j|b]; cbn [evalArg].
      - assert (ED : edge g i j) by (exists n; split; [auto|now apply nth_error_In in Ea]).
        assert (Hj : r j < r i) by now apply r_edge.
        assert (Hrj : reach g ds j) by now apply reach_arg with i.
        assert (Q' : quiet (S (r j)) s) by (intros k Hk; apply Q; lia).
        destruct (Hf j s Hj Hrj M L Q') as [X1 X2]. split; [now apply ext_mono with (S (r j))|].
        destruct (snd (f j s)) as [v| |]; auto. destruct X2 as [X2 X3].
        pose proof X1 as [_ [E2 [_ [E4 [E5 _]]]]]. split.
        + intros k Hk Ik. destruct (E4 _ Ik) as [Hin|Hlt].
          * specialize (Q k Hk Hin). destruct (e_memo s k) eqn:E; [|congruence]. rewrite (E2 _ _ E). discriminate.
          * apply X3; auto.
        + split; [now apply (proj2 (proj2 E5))|]. intros j' [= <-]. congruence.
      - cbn. split; [now apply ext_refl|]. split; [auto|split; [apply prel_par|discriminate]]. }
    destruct (evalArg tg f a s) as [s1 [v| |]] eqn:EE; cbn [fst snd] in EA; [|now cbn..].
    destruct EA as [X1 [X2 [X3 X4]]]. pose proof X1 as [E1 [E2 [_ [_ [E5 E6]]]]].
    specialize (IH (fun q => if Nat.eqb q p then Some v else acc q) s1 E5 E6 X2).
    destruct IH as [Y1 Y2].
    + intros q Hq. apply Hp. now right.
    + intros q u. destruct (Nat.eqb_spec q p) as [->|N].
      * intros [= <-]. eauto.
      * intros Hq. destruct (HA _ _ Hq) as [a' [A1 [A2 A3]]]. exists a'. split; [auto|split; [eapply arel_le; eauto|]].
        intros j Hj. specialize (A3 j Hj). destruct (e_memo s j) eqn:E; [|congruence]. rewrite (E2 _ _ E). discriminate.
    + cbv zeta. split; [eapply ext_trans; eauto|].
      destruct (snd (evalArgs tg f (n_args n) ps _ s1)) as [acc'| |]; auto.
      destruct Y2 as [Y2 [Y3 Y4]]. split; [auto|split; [|auto]].
      intros q Hq. apply Y3. destruct (Nat.eqb_spec q p) as [->|N]; [right; discriminate|].
      destruct Hq as [[->|Hq]|Hq]; auto.
      all: congruence.
Qed.

Lemma all_some_map (acc : nat -> option T) l : (forall p, In p l -> acc p <> None) ->
  exists vs, all_some (map acc l) = Some vs /\ Forall2 (fun p v => acc p = Some v) l vs.
Proof.
  induction l as [|p l IH]; intros H; cbn; [eauto|].
  destruct (acc p) as [v|] eqn:E; [|exfalso; apply (H p); cbn; auto].
  destruct IH as [vs [-> F]]; [intros q Hq; apply H; now right|]. cbn. eauto.
Qed.

Lemma Forall2_seq {X Y} (R : X -> Y -> Prop) (a : list X) : forall vs,
  length vs = length a -> (forall p x v, nth_error a p = Some x -> nth_error vs p = Some v -> R x v) -> Forall2 R a vs.
Proof.
  induction a as [|x a IH]; intros [|v vs]; cbn; try discriminate; [constructor|].
  intros [= E] H. constructor; [now apply (H 0)|]. apply IH; auto. intros p. apply (H (S p)).
Qed.

Lemma Forall2_nth {X Y} (R : X -> Y -> Prop) a b : Forall2 R a b ->
  forall p x y, nth_error a p = Some x -> nth_error b p = Some y -> R x y.
Proof.
  induction 1 as [|x y a b H F IH]; intros [|p] u v; cbn; try discriminate; eauto.
  now intros [= <-] [= <-].
Qed.

Lemma Forall2_len {X Y} (R : X -> Y -> Prop) a b : Forall2 R a b -> length a = length b.
Proof. induction 1; cbn; auto. Qed.

Lemma nth_error_seq n p : p < n -> nth_error (seq 0 n) p = Some p.
Proof.
  intros H. rewrite (nth_error_nth' (seq 0 n) 0) by now rewrite seq_length. f_equal. now rewrite seq_nth.
Qed.

Lemma evalOperation_post (fl : Prop) f i n s : reach g ds i -> nth_error g i = Some n -> fpost fl f (r i) ->
  memo_ok s -> log_ok s -> quiet (r i) s ->
  let res := evalOperation tg inds xs ord f i n s in
  ext (r i) s (fst res) /\
  match snd res with
  | Done v => quiet (r i) (fst res) /\ rel i (e_st (fst res)) v /\ handled (n_op n) = true /\
      (forall j, edge g i j -> e_memo (fst res) j <> None)
  | Thrown => ~ live
  | NoFuel => ~ fl
  end.
Proof.
  intros Hr Hn Hf M L Q. unfold evalOperation. cbv zeta.
  destruct (handled (n_op n)) eqn:Hh; cbn [negb];
    [|cbn; split; [now apply ext_refl|]; intros [Lh _]; rewrite (Lh i n Hr Hn) in Hh; discriminate].
  destruct (isInv (n_op n)) eqn:Hi.
  - destruct (n_op n) as [k| | | | | | | | | |f0|c] eqn:Eo; try discriminate. cbn [fst snd].
    split; [now apply ext_refl|].
    destruct (evalIndependent inds xs i) as [v| |] eqn:EI.
    + split; [auto|split; [|split; [auto|]]].
      * eapply ind_rel; eauto; [now rewrite Eo|apply M].
      * intros j [n' [Hn' Hj]]. exfalso. rewrite Hn in Hn'. injection Hn' as <-.
        rewrite (inv_args i n Hn) in Hj; [destruct Hj|now rewrite Eo].
    + intros [_ [Li _]]. destruct (Li i n Hr Hn) as [v Hv]; [now rewrite Eo|]. congruence.
    + unfold evalIndependent in EI. destruct (indepIndex inds i); [destruct (nth_error xs n0)|]; discriminate.
  - pose proof (ord_ok i n Hn) as PO.
    assert (HP : forall p, In p (ord i) <-> p < length (n_args n)).
    { intros p. split; intros H.
      - apply (Permutation_in p PO) in H. apply in_seq in H. lia.
      - apply (Permutation_in p (Permutation_sym PO)). apply in_seq. lia. }
    pose proof (evalArgs_post fl f i n Hr Hn Hf (ord i) (fun _ => None) s M L Q) as PA.
    cbv zeta in PA. destruct PA as [X1 X2]; [intros p; apply HP|discriminate|].
    set (res := evalArgs tg f (n_args n) (ord i) (fun _ => None) s) in *.
    assert (GOAL : let z := (match res with
        | (s1, Done acc) =>
          match all_some (map acc (seq 0 (length (n_args n)))) with
          | None => (s1, Thrown)
          | Some vs =>
              match t_op tg (n_op n) vs (e_st s1) with
              | Ok (st, v) => (mkE (e_memo s1) st (e_log s1), Done v)
              | Throw => (s1, Thrown)
              end
          end
        | (s1, Thrown) => (s1, Thrown)
        | (s1, NoFuel) => (s1, NoFuel)
        end) in ext (r i) s (fst z) /\
        match snd z with
        | Done v => quiet (r i) (fst z) /\ rel i (e_st (fst z)) v /\ true = true /\
            (forall j, edge g i j -> e_memo (fst z) j <> None)
        | Thrown => ~ live
        | NoFuel => ~ fl
        end).
    { clearbody res. destruct res as [s1 [acc| |]]; cbn [fst snd] in X1, X2; [|now cbn..].
      destruct X2 as [Q1 [A1 A2]].
      destruct (all_some_map acc (seq 0 (length (n_args n)))) as [vs [-> F2]].
      { intros p Hp. apply A1. left. apply HP. apply in_seq in Hp. lia. }
      pose proof X1 as [E1 [E2 [E3 [E4 [E5 E6]]]]].
      assert (FA : Forall2 (fun a u => arel a (e_st s1) u) (n_args n) vs).
      { apply Forall2_seq.
        - apply Forall2_len in F2. rewrite seq_length in F2. auto.
        - intros p x v Hx Hv. assert (Hp : p < length (n_args n)) by (apply nth_error_Some; congruence).
          pose proof (Forall2_nth _ _ _ F2 p p v (nth_error_seq _ _ Hp) Hv) as Ap. cbn in Ap.
          destruct (A2 _ _ Ap) as [a' [B1 [B2 _]]]. congruence. }
      assert (KIDS : forall j, edge g i j -> e_memo s1 j <> None).
      { intros j [n' [Hn' Hj]]. rewrite Hn in Hn'. injection Hn' as <-.
        apply In_nth_error in Hj. destruct Hj as [p Hp].
        assert (Hlt : p < length (n_args n)) by (apply nth_error_Some; congruence).
        destruct (acc p) as [v|] eqn:Ap; [|exfalso; apply (A1 p); auto; left; now apply HP].
        destruct (A2 _ _ Ap) as [a' [B1 [_ B3]]]. apply B3. congruence. }
      destruct (t_op tg (n_op n) vs (e_st s1)) as [[st v]|] eqn:ET; cbn [fst snd].
      - destruct (op_rel i n (e_st s1) vs st v Hr Hn Hi Hh (proj1 (proj2 E5)) FA ET) as [H1 [H2 H3]].
        split; [|auto].
        split; [cbn; eauto|]. split; [auto|]. split; [auto|]. split; [auto|]. split; [|exact E6].
        split; [cbn; apply le_trans with (e_st s1); [apply E5|auto]|]. split; [auto|].
        intros k u Hk. cbn in Hk |- *. destruct (proj2 (proj2 E5) k u Hk) as [K1 [K2 [K3 K4]]].
        split; [auto|split; [eauto|auto]].
      - split; [auto|]. intros [_ [_ Lt]]. apply (Lt i n (e_st s1) vs Hr Hn Hi); auto. apply E5. }
    destruct (n_op n); try exact GOAL. discriminate.
Qed.

Lemma evalOps_post : forall fuel i s, reach g ds i -> memo_ok s -> log_ok s -> quiet (S (r i)) s ->
  node_post (r i < fuel) i s (evalOps fuel i s).
Proof.
  induction fuel as [|fuel IH]; intros i s Hr M L Q; cbn [evalOperations].
  - split; [now apply ext_refl|]. cbn. lia.
  - destruct (e_memo s i) as [v|] eqn:Em.
    + split; [now apply ext_refl|]. cbn. auto.
    + destruct (inrange i Hr) as [n Hn]. rewrite Hn.
      assert (NI : ~ In i (e_log s)). { intros Hi. apply (Q i); auto. }
      set (s0 := mkE (e_memo s) (e_st s) (i :: e_log s)).
      assert (M0 : memo_ok s0) by exact M.
      assert (L0 : log_ok s0).
      { destruct L as [L1 [L2 L3]]. split; [constructor; auto|]. split.
        - intros j Hj. right. auto.
        - intros j [<-|Hj]; auto. }
      assert (Q0 : quiet (r i) s0).
      { intros j Hj [<-|Hin]; [lia|]. apply Q; auto. }
      assert (F : fpost (r i < S fuel) (evalOps fuel) (r i)).
      { intros j s' Hj Hrj M' L' Q'. destruct (IH j s' Hrj M' L' Q') as [P1 P2]. split; [auto|].
        destruct (snd (evalOps fuel j s')); auto. lia. }
      destruct (evalOperation_post _ _ i n s0 Hr Hn F M0 L0 Q0) as [X1 X2].
      assert (EXT0 : ext (S (r i)) s s0).
      { split; [apply le_refl|]. split; [auto|]. split; [now right|]. split; [|split; assumption].
        intros j [<-|Hj]; auto. }
      assert (EXT : ext (S (r i)) s (fst (evalOperation tg inds xs ord (evalOps fuel) i n s0))).
      { eapply ext_trans; [exact EXT0|]. eapply ext_mono; [|exact X1]. lia. }
      destruct (evalOperation tg inds xs ord (evalOps fuel) i n s0) as [s1 [v| |]] eqn:EO;
        cbn [fst snd] in X1, X2, EXT |- *; [|split; auto..].
      destruct X2 as [Q1 [R1 [H1 K1]]].
      destruct EXT as [E1 [E2 [E3 [E4 [E5 E6]]]]].
      assert (NM : e_memo s1 i = None \/ e_memo s1 i <> None) by (destruct (e_memo s1 i); auto; right; discriminate).
      split; cbn [fst snd].
      * split; [exact E1|]. split.
        { intros j u Hj. cbn. destruct (Nat.eqb_spec j i) as [->|]; [congruence|auto]. }
        split; [exact E3|]. split; [exact E4|]. split.
        { destruct E5 as [P1 [P2 P3]]. split; [exact P1|]. split; [exact P2|]. intros j u. cbn [e_memo e_st].
          assert (KK : forall k, e_memo s1 k <> None -> (if Nat.eqb k i then Some v else e_memo s1 k) <> None).
          { intros k Hk. destruct (Nat.eqb k i); [discriminate|auto]. }
          destruct (Nat.eqb_spec j i) as [->|N].
          - intros [= <-]. split; [auto|]. split; [auto|]. split.
            + intros n' Hn'. congruence.
            + auto.
          - intros Hj. destruct (P3 _ _ Hj) as [Y1 [Y2 [Y3 Y4]]]. split; [auto|split; [auto|split; [auto|]]]. auto. }
        { destruct E6 as [P1 [P2 P3]]. split; [exact P1|]. split; [|exact P3]. cbn. intros j.
          destruct (Nat.eqb_spec j i) as [->|]; [|apply P2]. intros _.
          destruct X1 as [_ [_ [X3 _]]]. apply X3. cbn. auto. }
      * cbn [e_memo]. rewrite Nat.eqb_refl. split; [auto|]. intros j Hj Ij. cbn [e_memo e_log] in *.
        destruct (Nat.eqb_spec j i) as [->|N]; [discriminate|].
        destruct X1 as [_ [X2 [_ [X4 _]]]]. destruct (X4 _ Ij) as [[->|Hin]|Hlt]; [congruence| |].
        { specialize (Q j Hj Hin). destruct (e_memo s j) eqn:E; [|congruence]. rewrite (E2 _ _ E). discriminate. }
        { apply Q1; auto. }
Qed.

(** nothing is under evaluation *)
Definition idle (s : es) : Prop := forall j, In j (e_log s) -> e_memo s j <> None.

Lemma evalDeps_post fuel : (forall i, In (ANode i) ds -> r i < fuel) -> forall l s,
  (forall d, In d l -> In d ds) -> memo_ok s -> log_ok s -> idle s ->
  let res := evalDeps tg g inds xs ord fuel l s in
  memo_ok (fst res) /\ log_ok (fst res) /\ le (e_st s) (e_st (fst res)) /\
  (forall j v, e_memo s j = Some v -> e_memo (fst res) j = Some v) /\
  match snd res with
  | Done vs => idle (fst res) /\ Forall2 (fun d v => arel d (e_st (fst res)) v) l vs /\
      (forall i, In (ANode i) l -> e_memo (fst res) i <> None)
  | Thrown => ~ live
  | NoFuel => False
  end.
Proof.
  intros HF. induction l as [|d l IH]; intros s Hl M L ID; cbn [evalDeps].
  - cbn. repeat (split; [auto|]). auto. 
  - assert (EA : memo_ok (fst (evalCG tg g inds xs ord fuel d s)) /\ log_ok (fst (evalCG tg g inds xs ord fuel d s)) /\
      le (e_st s) (e_st (fst (evalCG tg g inds xs ord fuel d s))) /\
      (forall j v, e_memo s j = Some v -> e_memo (fst (evalCG tg g inds xs ord fuel d s)) j = Some v) /\
      match snd (evalCG tg g inds xs ord fuel d s) with
      | Done v => idle (fst (evalCG tg g inds xs ord fuel d s)) /\
          arel d (e_st (fst (evalCG tg g inds xs ord fuel d s))) v /\
          (forall j, d = ANode j -> e_memo (fst (evalCG tg g inds xs ord fuel d s)) j <> None)
      | Thrown => ~ live
      | NoFuel => False end).
    { destruct d as [i|b]; cbn [evalCG].
      - assert (Hr : reach g ds i) by (apply reach_dep, Hl; now left).
        destruct (evalOps_post fuel i s Hr M L) as [X1 X2]; [intros j _; auto|].
        destruct X1 as [E1 [E2 [E3 [E4 [E5 E6]]]]]. split; [auto|split; [auto|split; [auto|split; [auto|]]]].
        destruct (snd (evalOps fuel i s)) as [v| |]; auto.
        + destruct X2 as [X2 X3]. split; [|split].
          * intros j Hj. destruct (E4 _ Hj) as [Hin|Hlt]; [|now apply X3].
            specialize (ID j Hin). destruct (e_memo s j) eqn:E; [|congruence]. rewrite (E2 _ _ E). discriminate.
          * now apply (proj2 (proj2 E5)).
          * intros j [= <-]. congruence.
        + apply X2. apply HF, Hl. now left.
      - cbn. do 5 (split; [auto|]). split; [apply prel_par|discriminate]. }
    destruct (evalCG tg g inds xs ord fuel d s) as [s1 [v| |]] eqn:EE; cbn [fst snd] in EA; [|now cbn|now cbn].
    destruct EA as [M1 [L1 [T1 [K1 [I1 [R1 J1]]]]]].
    specialize (IH s1 (fun d' H => Hl d' (or_intror H)) M1 L1 I1). cbv zeta in IH.
    destruct (evalDeps tg g inds xs ord fuel l s1) as [s2 [vs| |]]; cbn [fst snd] in IH |- *.
    + destruct IH as [M2 [L2 [T2 [K2 [I2 [R2 J2]]]]]].
      split; [auto|split; [auto|split; [eauto|split; [auto|split; [auto|split]]]]].
      * constructor; [eapply arel_le; eauto|auto].
      * intros i [->|Hi]; [|auto]. specialize (J1 i eq_refl). destruct (e_memo s1 i) eqn:E; [|congruence].
        rewrite (K2 _ _ E). discriminate.
    + destruct IH as [M2 [L2 [T2 [K2 I2]]]]. split; [auto|split; [auto|split; [eauto|split; [auto|auto]]]].
    + destruct IH as [_ [_ [_ [_ []]]]].
Qed.

(** ** The generic theorem *)
Definition enough : nat := S (list_max (map (fun d => match d with ANode i => r i | APar _ => 0 end) ds)).
Lemma enough_dep i : In (ANode i) ds -> r i < enough.
Proof.
  intros H. unfold enough. apply Nat.lt_succ_r.
  assert (F := proj1 (list_max_le (map (fun d => match d with ANode i => r i | APar _ => 0 end) ds) _) (Nat.le_refl _)).
  rewrite Forall_forall in F. apply F. apply in_map_iff. exists (ANode i). auto.
Qed.

Theorem evaluate_generic E fuel : enough <= fuel -> ev_under E = false -> length inds = length xs -> inv st0 ->
  exists E' st log res,
    evaluate tg g inds xs ord fuel E st0 (length ds) ds = (E', st, log, res) /\ ev_under E' = false /\
    NoDup log /\ (forall i, In i log -> reach g ds i) /\ inv st /\ le st0 st /\
    ((exists vs, res = Done vs /\ Forall2 (fun d v => arel d st v) ds vs /\ (forall i, reach g ds i -> In i log) /\
        (forall i n, reach g ds i -> nth_error g i = Some n -> handled (n_op n) = true)) \/
     (res = Thrown /\ ~ live)).
Proof.
  intros Hf HU HL HI. unfold evaluate. rewrite Nat.eqb_refl, HL, Nat.eqb_refl, HU. cbn [negb].
  pose proof (evalDeps_post fuel (fun i H => Nat.lt_le_trans _ _ _ (enough_dep i H) Hf) ds
    (mkE (fun _ => None) st0 []) (fun d H => H)) as P.
  cbv zeta in P. cbn [e_st e_memo] in P.
  destruct P as [M [L [T1 [_ R]]]].
  - split; [apply le_refl|]. split; [auto|]. cbn. discriminate.
  - split; [constructor|]. split; cbn; [congruence|tauto].
  - intros j [].
  - destruct (evalDeps tg g inds xs ord fuel ds (mkE (fun _ => None) st0 [])) as [s [vs| |]]; cbn [fst snd] in *.
    + destruct R as [ID [F2 HD]].
      assert (ALL : forall i, reach g ds i -> e_memo s i <> None).
      { intros i Hi. induction Hi as [i Hi|i j Hi IH He]; [auto|].
        destruct (e_memo s i) as [v|] eqn:Ei; [|congruence].
        destruct (proj2 (proj2 M) i v Ei) as [_ [_ [_ K]]]. auto. }
      do 4 eexists. split; [reflexivity|]. split; [reflexivity|].
      split; [apply L|]. split; [apply L|]. split; [apply M|]. split; [auto|]. left.
      exists vs. split; [auto|split; [auto|split]].
      * intros i Hi. apply L. auto.
      * intros i n Hi Hn. specialize (ALL i Hi). destruct (e_memo s i) as [v|] eqn:Ei; [|congruence].
        destruct (proj2 (proj2 M) i v Ei) as [_ [_ [K _]]]. auto.
    + do 4 eexists. split; [reflexivity|]. split; [reflexivity|].
      split; [apply L|]. split; [apply L|]. split; [apply M|]. split; [auto|]. right. auto.
    + destruct R.
Qed.
End Generic.

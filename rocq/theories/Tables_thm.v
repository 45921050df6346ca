(** * C34: the tables stay aligned with the nodes *)
From Coq Require Import List Arith Bool Lia.
From Verif Require Import Tables_model.
Import ListNotations.
Local Open Scope nat_scope.

(** ** Specification *)

(** What is known of each live node, in the order of creation: [None] when the
    table has no entry for it. *)
Definition book (T : Type) := list (nat * option T).

Section Spec.
  Context {T : Type} (dflt : T).

  Definition book_update (b : book T) (n : nat) (v : T) : book T :=
    map (fun p => if fst p =? n then (fst p, Some v) else p) b.
  Definition book_default (b : book T) : book T :=
    map (fun p => (fst p, match snd p with Some v => Some v | None => Some dflt end)) b.
  Definition lookup (b : book T) (n : nat) : option (nat * option T) := find (fun p => fst p =? n) b.

  (** [None]: the operation is not allowed (a node created again, an unknown one, or
      one without an entry). *)
  Definition book_step (b : book T) (o : op) : option (book T) :=
    match o with
    | Create n => match lookup b n with Some _ => None | None => Some (b ++ [(n, None)]) end
    | Manage n => Some (match lookup b n with Some _ => b | None => b ++ [(n, None)] end)
    | Delete start stop => Some (if stop <=? start then b else firstn start b ++ skipn stop b)
    | Adjust => Some (book_default b)
    | AdjustFor n => match lookup b n with None => None | Some (_, Some _) => Some b | Some (_, None) => Some (book_default b) end
    | Set_ n v => match lookup b n with Some (_, Some _) => Some (book_update b n v) | _ => None end
    | Fill v => Some (map (fun p => (fst p, match snd p with Some _ => Some v | None => None end)) b)
    | Clear => Some (map (fun p => (fst p, None)) b)
    | Reset => Some []
    end.

  Fixpoint book_run (b : book T) (l : list op) : option (book T) :=
    match l with [] => Some b | o :: r => match book_step b o with Some b' => book_run b' r | None => None end end.

  (** The table is cleared after each reset. *)
  Fixpoint clears_after_reset (l : list (op (T := T))) : bool :=
    match l with
    | [] => true
    | Reset :: Clear :: r => clears_after_reset r
    | Reset :: _ => false
    | _ :: r => clears_after_reset r
    end.
End Spec.

(** ** Proofs *)

Section Proofs.
  Context {T : Type} (dflt : T).

  (** The state is the book [b]. *)
  Record agrees (h : handler (T := T)) (b : book T) : Prop := {
    ag_nodes : h_nodes h = map fst b;
    ag_nodup : NoDup (map fst b);
    ag_pos : forall i n, nth_error (map fst b) i = Some n -> h_pos h n = Some i;
    ag_len : length (h_data h) <= length b;
    ag_data : forall i n e, nth_error b i = Some (n, e) -> nth_error (h_data h) i = e }.

  Lemma nth_map_fst (b : book T) i n : nth_error (map fst b) i = Some n -> exists e, nth_error b i = Some (n, e).
  Proof. rewrite nth_error_map. destruct (nth_error b i) as [[k e]|]; cbn; [|discriminate]. intros H. injection H as ->. exists e. reflexivity. Qed.

  Lemma lookup_some (b : book T) n p : lookup b n = Some p -> exists i, nth_error b i = Some p /\ fst p = n.
  Proof. intros H. apply find_some in H. destruct H as [H1 H2]. apply Nat.eqb_eq in H2. apply In_nth_error in H1. destruct H1 as [i H1]. exists i. auto. Qed.

  Lemma lookup_none (b : book T) n : lookup b n = None -> ~ In n (map fst b).
  Proof. intros H Hin. apply in_map_iff in Hin. destruct Hin as [p [<- Hp]]. assert (X := find_none _ _ H p Hp). cbn in X. rewrite Nat.eqb_refl in X. discriminate. Qed.

  Lemma setPos_eq (f : nat -> option nat) n p : setPos f n p n = Some p.
  Proof. unfold setPos. rewrite Nat.eqb_refl. reflexivity. Qed.
  Lemma setPos_ne (f : nat -> option nat) n p k : k <> n -> setPos f n p k = f k.
  Proof. unfold setPos. intros H. destruct (Nat.eqb_spec k n); [congruence|reflexivity]. Qed.

  Lemma renumber_notin l : forall (f : nat -> option nat) i n, ~ In n l -> renumber f i l n = f n.
  Proof.
    induction l as [|k l IH]; intros f i n H; cbn [renumber]; [reflexivity|]. rewrite IH by (intros X; apply H; right; assumption).
    apply setPos_ne. intros ->. apply H. left. reflexivity.
  Qed.
  Lemma renumber_in l : forall (f : nat -> option nat) i j n, NoDup l -> nth_error l j = Some n -> renumber f i l n = Some (i + j).
  Proof.
    induction l as [|k l IH]; intros f i [|j] n Hn H; cbn [renumber nth_error] in *; try discriminate; inversion Hn as [|? ? H1 H2]; subst.
    - injection H as ->. rewrite renumber_notin by assumption. rewrite setPos_eq. f_equal. lia.
    - rewrite (IH _ _ j n H2 H). f_equal. lia.
  Qed.

  Lemma resize_nth (l : list T) n i : length l <= n -> nth_error (resize dflt l n) i =
    if i <? length l then nth_error l i else if i <? n then Some dflt else None.
  Proof.
    intros H. unfold resize. destruct (Nat.leb_spec n (length l)) as [L|L].
    - rewrite firstn_all2 by lia. destruct (Nat.ltb_spec i (length l)); [reflexivity|]. destruct (Nat.ltb_spec i n); [lia|]. apply nth_error_None. lia.
    - destruct (Nat.ltb_spec i (length l)); [apply nth_error_app1; assumption|]. rewrite nth_error_app2 by assumption.
      destruct (Nat.ltb_spec i n) as [Hi|Hi].
      + assert (X : forall m k, k < m -> nth_error (repeat dflt m) k = Some dflt) by (induction m as [|m IH]; intros [|k] Hk; cbn; try lia; [reflexivity|apply IH; lia]). apply X. lia.
      + apply nth_error_None. rewrite repeat_length. lia.
  Qed.

  Lemma resize_length (l : list T) n : length l <= n -> length (resize dflt l n) = n.
  Proof. intros H. unfold resize. destruct (Nat.leb_spec n (length l)); [rewrite firstn_length|rewrite app_length, repeat_length]; lia. Qed.

  Lemma put_length : forall (l : list T) i v, length (put l i v) = length l.
  Proof. induction l as [|x l IH]; intros [|i] v; cbn; auto. Qed.
  Lemma put_nth : forall (l : list T) i v j, nth_error (put l i v) j = if (i =? j) && (i <? length l) then Some v else nth_error l j.
  Proof.
    induction l as [|x l IH]; intros i v j.
    - change (i <? length (@nil T)) with (i <? 0). rewrite (proj2 (Nat.ltb_ge i 0)) by lia. rewrite andb_false_r. reflexivity.
    - destruct i as [|i], j as [|j]; cbn [put nth_error]; try reflexivity. rewrite IH. reflexivity.
  Qed.

  Lemma nth_range {A} (l : list A) s t i : s <= t -> t <= length l ->
    nth_error (firstn s l ++ skipn t l) i = nth_error l (if i <? s then i else i + (t - s)).
  Proof.
    assert (Fn : forall n (l : list A) i, i < n -> nth_error (firstn n l) i = nth_error l i).
    { induction n as [|n IH]; intros [|x l'] [|i'] H; cbn; try lia; try reflexivity. apply IH. lia. }
    assert (Sn : forall n (l : list A) i, nth_error (skipn n l) i = nth_error l (n + i)).
    { induction n as [|n IH]; intros [|x l'] i'; cbn; try reflexivity; [destruct i'; reflexivity|apply IH]. }
    intros H1 H2. destruct (Nat.ltb_spec i s) as [H|H].
    - rewrite nth_error_app1 by (rewrite firstn_length; lia). apply Fn. assumption.
    - rewrite nth_error_app2 by (rewrite firstn_length; lia). rewrite firstn_length, Sn. f_equal. lia.
  Qed.

  Lemma map_range {A B} (f : A -> B) (l : list A) s t : map f (firstn s l ++ skipn t l) = firstn s (map f l) ++ skipn t (map f l).
  Proof. rewrite map_app. f_equal; [symmetry; apply firstn_map|]. revert l. induction t as [|t IH]; intros [|x l]; cbn; auto. Qed.

  Lemma NoDup_range {A} (l : list A) s t : s <= t -> NoDup l -> NoDup (firstn s l ++ skipn t l).
  Proof.
    intros H. revert s t H. induction l as [|x l IH]; intros s t H Hn; [destruct s, t; constructor|]. inversion Hn as [|? ? H1 H2]; subst.
    destruct s as [|s].
    - cbn [firstn app]. clear H. revert Hn. generalize (x :: l). intros l' Hn. rewrite <- (firstn_skipn t l') in Hn. revert Hn. generalize (firstn t l') as a. intros a. induction a as [|y a IHa]; intros Hn; [assumption|]. inversion Hn. auto.
    - destruct t as [|t]; [lia|]. cbn [firstn skipn app]. constructor; [|apply IH; [lia|assumption]].
      intros X. apply H1. apply in_app_iff in X. destruct X as [X|X]; [rewrite <- (firstn_skipn s l)|rewrite <- (firstn_skipn t l)]; apply in_or_app; auto.
  Qed.

  Lemma NoDup_app_local {A} (l1 l2 : list A) : NoDup (l1 ++ l2) -> (forall x, In x l1 -> ~ In x l2) /\ NoDup l2.
  Proof.
    induction l1 as [|y l1 IH]; cbn [app]; intros H; [split; [intros x []|assumption]|]. inversion H as [|? ? H1 H2]; subst. destruct (IH H2) as [I1 I2]. split; [|assumption].
    intros x [<-|Hx]; [intros X; apply H1, in_or_app; auto|apply I1, Hx].
  Qed.

  Lemma agrees_get h b n e : agrees h b -> In (n, e) b -> get h n = match e with Some v => TOk v | None => TBad end.
  Proof.
    intros A Hin. apply In_nth_error in Hin. destruct Hin as [i Hi]. unfold get.
    rewrite (ag_pos _ _ A i n) by (rewrite nth_error_map, Hi; reflexivity). rewrite (ag_data _ _ A i n e Hi). reflexivity.
  Qed.

  Lemma create_agrees h b n : agrees h b -> ~ In n (map fst b) -> agrees (manageNode h n) (b ++ [(n, None)]).
  Proof.
    intros [A1 A2 A3 A4 A5] Hn. assert (L : length (h_nodes h) = length b) by (rewrite A1, map_length; reflexivity).
    split; cbn [manageNode h_nodes h_pos h_data]; rewrite ?map_app; cbn [map fst].
    - rewrite A1. reflexivity.
    - clear -A2 Hn. induction (map fst b) as [|x l IH]; cbn [app]; [constructor; [intros []|constructor]|]. inversion A2; subst. constructor.
      + rewrite in_app_iff. intros [X|[X|[]]]; [contradiction|]. apply Hn. left. auto.
      + apply IH; [assumption|]. intros X. apply Hn. right. assumption.
    - intros i k H. destruct (Nat.lt_ge_cases i (length (map fst b))) as [Hi|Hi].
      + rewrite nth_error_app1 in H by assumption. rewrite setPos_ne; [apply A3, H|]. intros ->. apply Hn. apply (nth_error_In _ _ H).
      + rewrite nth_error_app2 in H by assumption. destruct (i - length (map fst b)) as [|q] eqn:Q; cbn in H; [|destruct q; discriminate].
        injection H as <-. rewrite setPos_eq. f_equal. rewrite map_length in *. lia.
    - rewrite app_length. cbn. lia.
    - intros i k e H. destruct (Nat.lt_ge_cases i (length b)) as [Hi|Hi].
      + rewrite nth_error_app1 in H by assumption. apply (A5 i k e H).
      + rewrite nth_error_app2 in H by assumption. destruct (i - length b) as [|q] eqn:Q; cbn in H; [|destruct q; discriminate].
        injection H as <- <-. apply nth_error_None. lia.
  Qed.

  Lemma adjust_agrees h b : agrees h b -> agrees (adjustSize dflt h) (book_default dflt b).
  Proof.
    intros [A1 A2 A3 A4 A5]. assert (L : length (h_nodes h) = length b) by (rewrite A1, map_length; reflexivity).
    assert (M : map fst (book_default dflt b) = map fst b) by (unfold book_default; rewrite map_map; reflexivity).
    split; cbn [adjustSize h_nodes h_pos h_data]; rewrite ?M; try assumption.
    - rewrite resize_length by lia. unfold book_default. rewrite map_length. lia.
    - intros i n e H. unfold book_default in H. rewrite nth_error_map in H. destruct (nth_error b i) as [[k e0]|] eqn:E; [|discriminate]. cbn in H. injection H as -> <-.
      rewrite resize_nth by lia. assert (Hi : i < length b) by (apply nth_error_Some; congruence). specialize (A5 i n e0 E).
      destruct (Nat.ltb_spec i (length (h_data h))) as [Hd|Hd].
      + rewrite A5. destruct e0; [reflexivity|]. apply nth_error_None in A5. lia.
      + apply nth_error_None in Hd. rewrite A5 in Hd. rewrite Hd. destruct (Nat.ltb_spec i (length (h_nodes h))); [reflexivity|lia].
  Qed.

  Lemma nodup_pos (b : book T) i j n e f : NoDup (map fst b) -> nth_error b i = Some (n, e) -> nth_error b j = Some (n, f) -> i = j.
  Proof.
    intros Hn Hi Hj. apply (NoDup_nth_error (map fst b)); [assumption| |].
    - rewrite map_length. apply nth_error_Some. congruence.
    - rewrite !nth_error_map, Hi, Hj. reflexivity.
  Qed.

  Lemma delete_agrees h b start stop : agrees h b -> agrees (deleteManagedNodes h start stop) (if stop <=? start then b else firstn start b ++ skipn stop b).
  Proof.
    intros A. unfold deleteManagedNodes. destruct (Nat.leb_spec stop start) as [Hs|Hs]; [assumption|].
    destruct A as [A1 A2 A3 A4 A5]. assert (L : length (h_nodes h) = length b) by (rewrite A1, map_length; reflexivity).
    rewrite L. set (s := Nat.min start (length b)). set (t := Nat.min stop (length b)).
    assert (Eb : firstn start b ++ skipn stop b = firstn s b ++ skipn t b).
    { unfold s, t. f_equal.
      - destruct (Nat.le_ge_cases start (length b)); [rewrite Nat.min_l by assumption; reflexivity|]. rewrite Nat.min_r by assumption. rewrite !firstn_all2 by lia. reflexivity.
      - destruct (Nat.le_ge_cases stop (length b)); [rewrite Nat.min_l by assumption; reflexivity|]. rewrite Nat.min_r by assumption. rewrite !skipn_all2 by lia. reflexivity. }
    rewrite Eb. assert (Hst : s <= t) by (unfold s, t; lia). assert (Ht : t <= length b) by (unfold t; lia).
    assert (En : eraseRange (h_nodes h) s t = map fst (firstn s b ++ skipn t b)) by (rewrite map_range, A1; reflexivity).
    split; cbn [h_nodes h_pos h_data].
    - assumption.
    - rewrite map_range. apply NoDup_range; assumption.
    - intros i n H. rewrite En.
      assert (ND : NoDup (map fst (firstn s b ++ skipn t b))) by (rewrite map_range; apply NoDup_range; assumption).
      assert (Hsk : skipn s (map fst (firstn s b ++ skipn t b)) = map fst (skipn t b)).
      { rewrite map_app. assert (Hl : length (map fst (firstn s b)) = s) by (rewrite map_length, firstn_length; lia). rewrite skipn_app, Hl, Nat.sub_diag. rewrite skipn_all2 by lia. reflexivity. }
      rewrite Hsk. rewrite map_app in H, ND. assert (Hl : length (map fst (firstn s b)) = s) by (rewrite map_length, firstn_length; lia).
      destruct (Nat.lt_ge_cases i s) as [Hi|Hi].
      + rewrite nth_error_app1 in H by lia. rewrite renumber_notin.
        * apply A3. rewrite <- (firstn_skipn s b), map_app. rewrite nth_error_app1 by lia. assumption.
        * intros X. apply (proj1 (NoDup_app_local _ _ ND) n); [apply (nth_error_In _ _ H)|assumption].
      + rewrite nth_error_app2 in H by lia. rewrite Hl in H. rewrite (renumber_in _ _ _ (i - s) n); [f_equal; lia| |assumption].
        apply (proj2 (NoDup_app_local _ _ ND)).
    - assert (Hlb : length (firstn s b ++ skipn t b) = s + (length b - t)) by (rewrite app_length, firstn_length, skipn_length; lia). rewrite Hlb.
      unfold nodesErased. destruct (Nat.ltb_spec s (length (h_data h))); [|lia]. unfold eraseRange. rewrite app_length, firstn_length, skipn_length. lia.
    - intros i n e H. rewrite nth_range in H by assumption. assert (X := A5 _ _ _ H). unfold nodesErased.
      destruct (Nat.ltb_spec s (length (h_data h))) as [Hd|Hd].
      + unfold eraseRange. destruct (Nat.le_ge_cases t (length (h_data h))) as [Htd|Htd].
        * rewrite Nat.min_l by assumption. rewrite nth_range by assumption. assumption.
        * rewrite Nat.min_r by assumption. rewrite nth_range by lia. destruct (Nat.ltb_spec i s) as [Hi|Hi]; [assumption|].
          rewrite (proj2 (nth_error_None _ _)) by lia. symmetry. rewrite <- X. apply nth_error_None. lia.
      + destruct (Nat.ltb_spec i s) as [Hi|Hi]; [assumption|]. rewrite (proj2 (nth_error_None _ _)) by lia. symmetry. rewrite <- X. apply nth_error_None. lia.
  Qed.

  Lemma step_agrees h b o b' : agrees h b -> o <> Reset -> book_step dflt b o = Some b' -> exists h', step dflt h o = TOk h' /\ agrees h' b'.
  Proof.
    intros A Hr Hb. destruct o as [n|n|start stop| |n|n v|v| |]; cbn [book_step step] in *.
    - destruct (lookup b n) eqn:E; [discriminate|]. injection Hb as <-. eexists. split; [reflexivity|]. apply create_agrees; [assumption|]. apply lookup_none. assumption.
    - injection Hb as <-. eexists. split; [reflexivity|]. unfold manageMemory. destruct (lookup b n) as [p|] eqn:E.
      + destruct (lookup_some _ _ _ E) as [i [Hi <-]]. destruct p as [k e]. cbn [fst]. assert (Hm : nth_error (map fst b) i = Some k) by (rewrite nth_error_map, Hi; reflexivity).
        rewrite (ag_pos _ _ A i k Hm), (ag_nodes _ _ A), Hm, Nat.eqb_refl. assumption.
      + assert (N := lookup_none _ _ E). assert (C := create_agrees h b n A N). destruct (h_pos h n) as [p|]; [|assumption].
        destruct (nth_error (h_nodes h) p) as [k|] eqn:Ek; [|assumption]. destruct (Nat.eqb_spec k n) as [->|]; [|assumption].
        exfalso. apply N. rewrite <- (ag_nodes _ _ A). apply (nth_error_In _ _ Ek).
    - injection Hb as <-. eexists. split; [reflexivity|]. apply delete_agrees. assumption.
    - injection Hb as <-. eexists. split; [reflexivity|]. apply adjust_agrees. assumption.
    - destruct (lookup b n) as [[k e]|] eqn:E; [|discriminate]. destruct (lookup_some _ _ _ E) as [i [Hi Hk]]. cbn in Hk. subst k.
      unfold adjustSizeFor. rewrite (ag_pos _ _ A i n) by (rewrite nth_error_map, Hi; reflexivity). assert (X := ag_data _ _ A _ _ _ Hi). destruct e as [v|]; injection Hb as <-.
      + assert (i < length (h_data h)) by (apply nth_error_Some; congruence). rewrite (proj2 (Nat.leb_gt _ _)) by lia. eexists. split; [reflexivity|assumption].
      + apply nth_error_None in X. rewrite (proj2 (Nat.leb_le _ _) X). eexists. split; [reflexivity|]. apply adjust_agrees. assumption.
    - destruct (lookup b n) as [[k [e|]]|] eqn:E; try discriminate. destruct (lookup_some _ _ _ E) as [i [Hi Hk]]. cbn in Hk. subst k. injection Hb as <-.
      unfold set. rewrite (ag_pos _ _ A i n) by (rewrite nth_error_map, Hi; reflexivity). assert (X := ag_data _ _ A _ _ _ Hi).
      assert (Hl : i < length (h_data h)) by (apply nth_error_Some; congruence). rewrite (proj2 (Nat.ltb_lt _ _) Hl). eexists. split; [reflexivity|].
      assert (M : map fst (book_update b n v) = map fst b) by (unfold book_update; rewrite map_map; apply map_ext; intros [k f]; cbn; destruct (k =? n); reflexivity).
      destruct A as [A1 A2 A3 A4 A5]. split; cbn [h_nodes h_pos h_data]; rewrite ?M; try assumption.
      + rewrite put_length. unfold book_update. rewrite map_length. assumption.
      + intros j k f H. unfold book_update in H. rewrite nth_error_map in H. destruct (nth_error b j) as [[k0 f0]|] eqn:Ej; [|discriminate]. cbn in H.
        rewrite put_nth, (proj2 (Nat.ltb_lt _ _) Hl), andb_true_r. destruct (Nat.eqb_spec k0 n) as [->|Hk].
        * injection H as <- <-. rewrite (nodup_pos b i j n _ _ A2 Hi Ej), Nat.eqb_refl. reflexivity.
        * injection H as <- <-. destruct (Nat.eqb_spec i j) as [->|]; [congruence|]. apply (A5 j k0 f0 Ej).
    - injection Hb as <-. eexists. split; [reflexivity|]. destruct A as [A1 A2 A3 A4 A5].
      assert (M : map fst (map (fun p => (fst p, match snd p with Some _ => Some v | None => None end)) b) = map fst b) by (rewrite map_map; reflexivity).
      split; cbn [fill h_nodes h_pos h_data]; rewrite ?M; try assumption; [rewrite !map_length; assumption|].
      intros i n e H. rewrite nth_error_map in H. destruct (nth_error b i) as [[k f]|] eqn:E; [|discriminate]. cbn in H. injection H as <- <-. rewrite nth_error_map, (A5 _ _ _ E). destruct f; reflexivity.
    - injection Hb as <-. eexists. split; [reflexivity|]. destruct A as [A1 A2 A3 A4 A5].
      assert (M : map fst (map (fun p => (fst p, None (A := T))) b) = map fst b) by (rewrite map_map; reflexivity).
      split; cbn [clear h_nodes h_pos h_data]; rewrite ?M; try assumption; [cbn; lia|].
      intros i n e H. rewrite nth_error_map in H. destruct (nth_error b i) as [[k f]|] eqn:E; [|discriminate]. cbn in H. injection H as <- <-. destruct i; reflexivity.
    - congruence.
  Qed.

  Lemma reset_clear_agrees h : agrees (clear (reset h)) [].
  Proof. split; cbn; try lia; [reflexivity|constructor|intros [|i] n H; discriminate|intros [|i] n e H; discriminate]. Qed.

  Lemma run_agrees : forall l h b b', clears_after_reset l = true -> agrees h b -> book_run dflt b l = Some b' -> exists h', run dflt h l = TOk h' /\ agrees h' b'.
  Proof.
    intros l. induction l as [l IH] using (well_founded_induction (Wf_nat.well_founded_ltof _ (@length (op (T := T))))). unfold ltof in IH. destruct l as [|o l]; intros h b b' Hc A Hb.
    - injection Hb as <-. exists h. auto.
    - destruct (match o with Reset => true | _ => false end) eqn:Er.
      + destruct o; try discriminate. cbn [clears_after_reset] in Hc. destruct l as [|o2 l]; [discriminate|]. destruct o2; try discriminate.
        cbn [book_run book_step map] in Hb. cbn [run step]. apply (IH l) with (b := []); [cbn; lia|assumption|apply reset_clear_agrees|assumption].
      + assert (o <> Reset) by (intros ->; discriminate). assert (Hc' : clears_after_reset l = true) by (destruct o; try discriminate; assumption).
        cbn [book_run] in Hb. destruct (book_step dflt b o) as [b1|] eqn:E; [|discriminate]. destruct (step_agrees h b o b1 A H E) as [h1 [H1 H2]].
        cbn [run]. rewrite H1. apply (IH l) with (b := b1); [cbn; lia|assumption|assumption|assumption].
  Qed.
End Proofs.

(** ** Theorems *)

(** After any allowed history, what is read for a node is what the history stored
    for that node; nodes for which the table has no room are rejected. *)
Theorem C34_aligned {T : Type} (dflt : T) (l : list op) (b : book T) :
  clears_after_reset l = true -> book_run dflt [] l = Some b ->
  exists h, run dflt newHandler l = TOk h /\ h_nodes h = map fst b /\
    forall n e, In (n, e) b -> get h n = match e with Some v => TOk v | None => TBad end.
Proof.
  intros Hc Hb. assert (A0 : agrees (newHandler (T := T)) []) by (split; cbn; try lia; [reflexivity|constructor|intros [|i] n H; discriminate|intros [|i] n e H; discriminate]).
  destruct (run_agrees dflt l newHandler [] b Hc A0 Hb) as [h [H1 H2]]. exists h. split; [assumption|]. split; [apply (ag_nodes _ _ H2)|].
  intros n e. apply agrees_get. assumption.
Qed.
Print Assumptions C34_aligned.

(** Every live node knows its position, so that nothing is stored twice. *)
Theorem C34_positions {T : Type} (dflt : T) (l : list op) (b : book T) :
  clears_after_reset l = true -> book_run dflt [] l = Some b ->
  exists h, run dflt newHandler l = TOk h /\ NoDup (h_nodes h) /\ forall i n, nth_error (h_nodes h) i = Some n -> h_pos h n = Some i.
Proof.
  intros Hc Hb. assert (A0 : agrees (newHandler (T := T)) []) by (split; cbn; try lia; [reflexivity|constructor|intros [|i] n H; discriminate|intros [|i] n e H; discriminate]).
  destruct (run_agrees dflt l newHandler [] b Hc A0 Hb) as [h [H1 H2]]. exists h. split; [assumption|]. rewrite (ag_nodes _ _ H2). split; [apply (ag_nodup _ _ H2)|apply (ag_pos _ _ H2)].
Qed.
Print Assumptions C34_positions.

(** reset does not tell the tables: a node created afterwards finds the data of a
    node of before. *)
Theorem C34_reset_refuted :
  exists (l : list (op (T := nat))) b h n, book_run 0 [] l = Some b /\ run 0 newHandler l = TOk h /\ In (n, Some 0) b /\ get h n = TOk 7.
Proof.
  exists [Create 1; Adjust; Set_ 1 7; Reset; Create 2; Adjust], [(2, Some 0)].
  eexists. exists 2. split; [vm_compute; reflexivity|]. split; [vm_compute; reflexivity|]. split; [left; reflexivity|vm_compute; reflexivity].
Qed.
Print Assumptions C34_reset_refuted.

Example C34_case :
  let l := [Create 1; Create 2; Create 3; Adjust; Set_ 1 10; Set_ 2 20; Set_ 3 30; Create 4; Delete 1 2; AdjustFor 4; Set_ 4 40; Manage 3] in
  clears_after_reset l = true /\ book_run 0 [] l = Some [(1, Some 10); (3, Some 30); (4, Some 40)].
Proof. vm_compute. split; reflexivity. Qed.

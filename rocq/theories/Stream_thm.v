(** * C11: the texts of an expression are written in order, each exactly once *)
From Coq Require Import List Bool Arith Lia.
From Verif Require Import Codegen_model Stream_model Stream_spec.
Import ListNotations.

Section Proofs.
Context {T N : Type}.
Variable pieces : N -> outcome (list (item T N)).
Notation expands := (expands pieces).
Notation expands_all := (expands_all pieces).
Notation drain := (drain pieces).

Lemma expands_det : (forall n t, expands n t -> forall t', expands n t' -> t = t') /\
                    (forall l t, expands_all l t -> forall t', expands_all l t' -> t = t').
Proof.
  apply expands_mutind.
  - intros n l t Hp _ IH t' H. inversion H as [n0 l0 t0 H0 H1]; subst. rewrite Hp in H0. injection H0 as <-. auto.
  - intros t' H. inversion H. reflexivity.
  - intros x l t _ IH t' H. inversion H; subst. f_equal. auto.
  - intros n l t1 t2 _ IH1 _ IH2 t' H. inversion H; subst. f_equal; auto.
Qed.

Lemma expands_all_app l1 l2 t1 t2 : expands_all l1 t1 -> expands_all l2 t2 -> expands_all (l1 ++ l2) (t1 ++ t2).
Proof.
  induction l1 as [|x l1 IH] in t1 |- *; intros H1 H2; inversion H1; subst; [exact H2| |]; cbn [app].
  - constructor. auto.
  - rewrite <- app_assoc. constructor; auto.
Qed.
Lemma expands_all_split l1 l2 t : expands_all (l1 ++ l2) t -> exists t1 t2, t = t1 ++ t2 /\ expands_all l1 t1 /\ expands_all l2 t2.
Proof.
  induction l1 as [|x l1 IH] in t |- *; cbn [app]; intros H.
  - exists [], t. split; [reflexivity|]. split; [constructor|exact H].
  - inversion H as [|x0 l0 t0 H2|n0 l0 t1 t2 H3 H4]; subst.
    + destruct (IH _ H2) as (a & b & -> & Ha & Hb). exists (x0 :: a), b. split; [reflexivity|]. split; [constructor; exact Ha|exact Hb].
    + destruct (IH _ H4) as (a & b & -> & Ha & Hb). exists (t1 ++ a), b. rewrite app_assoc. split; [reflexivity|].
      split; [constructor; assumption|exact Hb].
Qed.

(** where new pieces go: after the texts already written and before the rest of the cache *)
Definition at_front (s : lss T N) : Prop := ls_it s = None.

Lemma sendAll_spec l : forall s, at_front s ->
  exists o a, sendAll s l = mkLss (ls_out s ++ o) (a ++ ls_cache s) (match a with [] => None | _ => Some (length a - 1) end) /\
    map IText o ++ a = l.
Proof.
  induction l as [|x l IH] using rev_ind; intros s Hs.
  - exists [], []. cbn. rewrite app_nil_r. destruct s as [so sc si]; unfold at_front in Hs; cbn in *; subst. auto.
  - unfold sendAll in *. rewrite fold_left_app. destruct (IH s Hs) as (o & a & E & El). rewrite E. cbn [fold_left].
    destruct a as [|y a].
    + rewrite app_nil_r in El. destruct x as [t|n]; cbn [send ls_it ls_out ls_cache emplaceAfter app].
      * exists (o ++ [t]), []. cbn [app]. rewrite app_assoc, map_app, El. rewrite app_nil_r. auto.
      * exists o, [INode n]. cbn [app length Nat.sub]. rewrite El. auto.
    + assert (E' : forall z, send (mkLss (ls_out s ++ o) ((y :: a) ++ ls_cache s) (Some (length (y :: a) - 1))) z
                   = mkLss (ls_out s ++ o) ((y :: a ++ [z]) ++ ls_cache s) (Some (length (y :: a)))).
      { intros z. unfold send. cbn [ls_it]. replace (S (length (y :: a) - 1)) with (length (y :: a)) by (cbn [length]; lia).
        destruct z; cbn [ls_out ls_cache]; unfold emplaceAfter;
        replace (S (length (y :: a) - 1)) with (length (y :: a)) by (cbn [length]; lia);
        rewrite firstn_app, skipn_app, firstn_all, skipn_all, Nat.sub_diag; cbn [firstn skipn];
        rewrite app_nil_r; cbn [app]; rewrite <- app_assoc; reflexivity. }
      rewrite E'. exists o, (y :: a ++ [x]). cbn [length]. rewrite app_length. cbn [length].
      split; [f_equal; f_equal; lia|]. rewrite <- El, <- app_assoc. reflexivity.
Qed.

(** meaning of a state: what was written, then the expansion of the cache *)
Definition means (s : lss T N) (t : list T) : Prop := exists c, expands_all (ls_cache s) c /\ t = ls_out s ++ c.

Lemma sendAll_means l s t c : at_front s -> expands_all l t -> expands_all (ls_cache s) c ->
  means (sendAll s l) (ls_out s ++ t ++ c).
Proof.
  intros Hs Hl Hc. destruct (sendAll_spec l s Hs) as (o & a & E & El). rewrite E. unfold means. cbn [ls_cache ls_out].
  rewrite <- El in Hl. apply expands_all_split in Hl. destruct Hl as (t1 & t2 & -> & H1 & H2).
  assert (t1 = o).
  { clear - H1. revert t1 H1. induction o; intros t1 H1; inversion H1; subst; [reflexivity|]. f_equal. auto. }
  subst t1. exists (t2 ++ c). split; [apply expands_all_app; assumption|]. rewrite <- !app_assoc. reflexivity.
Qed.

Lemma flushTexts_spec c : forall o o' c' t, flushTexts o c = (o', c') -> expands_all c t ->
  exists t', expands_all c' t' /\ o ++ t = o' ++ t' /\ match c' with IText _ :: _ => False | _ => True end.
Proof.
  induction c as [|[x|n] c IH]; intros o o' c' t E H; cbn [flushTexts] in E.
  - injection E as <- <-. exists t. auto.
  - inversion H as [|x0 l0 t0 H2|]; subst. destruct (IH _ _ _ _ E H2) as (t' & Ht & Eq & Hh). exists t'. split; [exact Ht|]. split; [|exact Hh].
    rewrite <- Eq, <- app_assoc. reflexivity.
  - injection E as <- <-. exists t. auto.
Qed.

Lemma flush_means s t : means s t -> means (flush s) t /\
  (ls_cache (flush s) <> [] -> at_front (flush s)) /\ match ls_cache (flush s) with IText _ :: _ => False | _ => True end.
Proof.
  intros (c & Hc & ->). unfold flush. destruct (ls_cache s) as [|x l] eqn:E.
  - rewrite E. split; [exists c; rewrite E; auto|]. split; [congruence|exact I].
  - destruct (flushTexts (ls_out s) (x :: l)) as [o' c'] eqn:Ef.
    destruct (flushTexts_spec _ _ _ _ _ Ef Hc) as (t' & Ht & Eq & Hh). cbn [ls_cache ls_out].
    split; [exists t'; auto|]. split; [reflexivity|exact Hh].
Qed.

Lemma drain_ok fuel : forall s t s', means s t -> drain fuel s = Done s' ->
  ls_out s' = t /\ ls_cache s' = [].
Proof.
  induction fuel as [|fuel IH]; intros s t s' Hm E; [discriminate|]. cbn [Stream_model.drain] in E.
  destruct (flush_means s t Hm) as (Hm' & Hf & Hh). destruct (ls_cache (flush s)) as [|x c] eqn:Ec.
  - injection E as <-. destruct Hm' as (c & Hc & ->). rewrite Ec in Hc. inversion Hc; subst. rewrite app_nil_r, Ec. auto.
  - destruct x as [x|n]; [destruct Hh|]. unfold startNode in E. rewrite Ec in E.
    destruct (pieces n) as [l| |] eqn:Ep; cbn [obind] in E; try discriminate.
    destruct Hm' as (c' & Hc' & ->). rewrite Ec in Hc'. inversion Hc' as [| |n' l' t1 t2 H1 H2]; subst.
    inversion H1 as [n' l' t' Hp' Hl']; subst. rewrite Ep in Hp'. injection Hp' as <-.
    eapply IH; [|exact E].
    exact (sendAll_means l (mkLss (ls_out (flush s)) c None) t1 t2 eq_refl Hl' H2).
Qed.

(** number of sub-expressions: the rounds of the while loop *)
Inductive rounds : list (item T N) -> nat -> Prop :=
 | rounds_nil : rounds [] 0
 | rounds_text x l k : rounds l k -> rounds (IText x :: l) k
 | rounds_node n l' l k1 k2 : pieces n = Done l' -> rounds l' k1 -> rounds l k2 -> rounds (INode n :: l) (S (k1 + k2)).

Lemma expands_rounds : (forall n t, expands n t -> exists l k, pieces n = Done l /\ rounds l k) /\
  (forall l t, expands_all l t -> exists k, rounds l k).
Proof.
  apply expands_mutind.
  - intros n l t E _ [k Hk]. eauto.
  - exists 0. constructor.
  - intros x l t _ [k Hk]. exists k. constructor. exact Hk.
  - intros n l t1 t2 _ (l' & k1 & E & H1) _ [k2 H2]. exists (S (k1 + k2)). econstructor; eassumption.
Qed.
Lemma rounds_app a b ka kb : rounds a ka -> rounds b kb -> rounds (a ++ b) (ka + kb).
Proof.
  induction 1 as [|x l k H IH|n l' l k1 k2 E H1 IH1 H2 IH2]; intros Hb; cbn [app Nat.add]; [exact Hb|constructor; auto|].
  rewrite <- Nat.add_assoc. econstructor; eauto.
Qed.
Lemma rounds_texts o a k : rounds (map IText o ++ a) k -> rounds a k.
Proof. induction o as [|x o IH]; cbn [map app]; intros H; [exact H|]. inversion H; subst. auto. Qed.
Lemma flushTexts_rounds (c : list (item T N)) : forall o k, rounds c k -> rounds (snd (flushTexts o c)) k.
Proof. induction c as [|[x|n] c IH]; intros o k H; cbn [flushTexts snd]; [exact H| |exact H]. inversion H; subst. auto. Qed.
Lemma flushTexts_head (c : list (item T N)) : forall o, match snd (flushTexts o c) with IText _ :: _ => False | _ => True end.
Proof. induction c as [|[x|n] c IH]; intros o; cbn [flushTexts snd]; [exact I|apply IH|exact I]. Qed.

Lemma drain_ends : forall fuel s k, rounds (ls_cache s) k -> k < fuel -> (ls_cache s = [] -> ls_it s = None) ->
  exists s', drain fuel s = Done s' /\ ls_it s' = None.
Proof.
  induction fuel as [|fuel IH]; intros s k Hk Hf Hi; [lia|]. cbn [Stream_model.drain].
  assert (Hw : rounds (ls_cache (flush s)) k).
  { unfold flush. destruct (ls_cache s) eqn:E; [rewrite E; exact Hk|]. pose proof (flushTexts_rounds _ (ls_out s) _ Hk) as H.
    destruct (flushTexts (ls_out s) (i :: l)). exact H. }
  assert (Hh : match ls_cache (flush s) with IText _ :: _ => False | _ => True end).
  { unfold flush. destruct (ls_cache s) eqn:E; [rewrite E; exact I|]. pose proof (flushTexts_head (i :: l) (ls_out s)) as H.
    destruct (flushTexts (ls_out s) (i :: l)). exact H. }
  destruct (ls_cache (flush s)) as [|[x|n] c] eqn:Ec; [|destruct Hh|].
  - eexists. split; [reflexivity|]. unfold flush in *. destruct (ls_cache s) eqn:Es; [auto|]. destruct (flushTexts _ _). reflexivity.
  - unfold startNode. rewrite Ec. inversion Hw as [| |n' l l' k1 k2 Ep H1 H2]; subst. rewrite Ep. cbn [obind].
    destruct (sendAll_spec l (mkLss (ls_out (flush s)) c None) eq_refl) as (o & a & E & El). rewrite E.
    apply IH with (k := k1 + k2).
    + cbn [ls_cache]. apply rounds_app; [|exact H2]. apply rounds_texts with (o := o). rewrite El. exact H1.
    + lia.
    + cbn [ls_cache ls_it]. destruct a; [reflexivity|discriminate].
Qed.
End Proofs.

(** C11: printing node [n] with an empty cache writes, after what was already written, exactly the in-order
    expansion of [n], and leaves the cache empty. *)
Theorem C11_texts_are_written_in_order_and_once :
  forall (T N : Type) (pieces : N -> outcome (list (item T N))) (fuel : nat) (n : N) (out : list T) (s : lss T N) (t : list T),
  expands pieces n t ->
  pushNoVarCheck2 pieces fuel n (mkLss out [] None) = Done s ->
  ls_out s = out ++ t /\ ls_cache s = [].
Proof.
  intros T N pieces fuel n out s t H E. inversion H as [n' l t' Hp Hl]; subst. unfold pushNoVarCheck2 in E. rewrite Hp in E. cbn [obind] in E.
  pose proof (sendAll_means pieces l (mkLss out [] None) t [] eq_refl Hl (expands_nil pieces)) as Hm. cbn [ls_out] in Hm.
  rewrite app_nil_r in Hm. exact (drain_ok pieces fuel _ _ _ Hm E).
Qed.
Print Assumptions C11_texts_are_written_in_order_and_once.

(** It ends: the explicit stack is emptied, whatever the depth of the expression. *)
Theorem C11_every_expression_is_written :
  forall (T N : Type) (pieces : N -> outcome (list (item T N))) (n : N) (t : list T),
  expands pieces n t ->
  exists F, forall fuel out, F <= fuel -> pushNoVarCheck2 pieces fuel n (mkLss out [] None) = Done (mkLss (out ++ t) [] None).
Proof.
  intros T N pieces n t Hexp. destruct (proj1 (expands_rounds pieces) n t Hexp) as (l & k & Ep & Hk).
  exists (S k). intros fuel out Hf.
  assert (E : exists s, pushNoVarCheck2 pieces fuel n (mkLss out [] None) = Done s /\ ls_it s = None).
  { unfold pushNoVarCheck2. rewrite Ep. cbn [obind].
    destruct (sendAll_spec l (mkLss out [] None) eq_refl) as (o & a & E & El). rewrite E.
    apply drain_ends with (k := k); [|lia|].
    - cbn [ls_cache]. rewrite app_nil_r. apply rounds_texts with (o := o). rewrite El. exact Hk.
    - cbn [ls_cache ls_it]. rewrite app_nil_r. destruct a; [reflexivity|discriminate]. }
  destruct E as (s & E & Hi). rewrite E. f_equal.
  destruct (C11_texts_are_written_in_order_and_once T N pieces fuel n out s t Hexp E) as [H1 H2].
  destruct s as [so sc si]. cbn [ls_out ls_cache ls_it] in *. subst. reflexivity.
Qed.
Print Assumptions C11_every_expression_is_written.

(** expressions without cycles, all of whose operations can be printed, have an expansion *)
Theorem C11_every_finite_expression_has_an_expansion :
  forall (T N : Type) (pieces : N -> outcome (list (item T N))) (rank : N -> nat),
  finite pieces rank -> (forall n, exists l, pieces n = Done l) -> forall n, exists t, expands pieces n t.
Proof.
  intros T N pieces rank Hr Ht n.
  assert (Hex : forall k n, rank n < k -> exists t, expands pieces n t).
  { induction k as [|k IH]; intros m Hk; [lia|]. destruct (Ht m) as [l Ep].
    assert (G : forall l' : list (item T N), (forall m', In (INode m') l' -> rank m' < rank m) -> exists t, expands_all pieces l' t).
    { induction l' as [|[x|m'] l' IHl]; intros Hl'.
      - exists []. constructor.
      - destruct IHl as [t Ht']; [intros m' Hm; apply Hl'; right; exact Hm|]. exists (x :: t). constructor. exact Ht'.
      - destruct IHl as [t Ht']; [intros m2 Hm; apply Hl'; right; exact Hm|].
        assert (rank m' < rank m) by (apply Hl'; left; reflexivity). destruct (IH m') as [t1 H1]; [lia|].
        exists (t1 ++ t). constructor; assumption. }
    destruct (G l) as [t H]; [intros m' Hm; eapply Hr; eassumption|]. exists t. econstructor; eassumption. }
  exact (Hex (S (rank n)) n (Nat.lt_succ_diag_r _)).
Qed.
Print Assumptions C11_every_finite_expression_has_an_expansion.

(** A nested expression: node 0 is "a <1> b <2> c", node 1 is "<2> d", node 2 is "e". *)
Definition ex_pieces (n : nat) : outcome (list (item nat nat)) :=
  match n with
  | 0 => Done [IText 10; INode 1; IText 11; INode 2; IText 12]
  | 1 => Done [INode 2; IText 13]
  | _ => Done [IText 14]
  end.
Example C11_ex : finite ex_pieces (fun n => 2 - n) /\ (forall n, exists l, ex_pieces n = Done l) /\
  pushNoVarCheck2 ex_pieces 10 0 (mkLss [9] [] None) = Done (mkLss [9; 10; 14; 13; 11; 14; 12] [] None).
Proof.
  split; [|split; [|reflexivity]].
  - intros [|[|n]] l m E H; injection E as <-; cbn [In] in H;
      repeat (destruct H as [H|H]; [try discriminate; injection H as <-; cbn; lia|]); destruct H.
  - intros [|[|n]]; eexists; reflexivity.
Qed.

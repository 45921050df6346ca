(** * The C expression grammar of [CSyntax] is unambiguous. *)
From Coq Require Import List Arith Lia Bool String.
From Verif Require Import CSyntax.
Import ListNotations.

Section Proofs.
Context {A : Type}.
Implicit Types (t r : list (tok A)) (e a b c : cexpr A).

Lemma bind_some {X Y} (o : option X) (f : X -> option Y) y :
  bind o f = Some y -> exists x, o = Some x /\ f x = Some y.
Proof. destruct o; simpl; [eauto | discriminate]. Qed.

(** one-step unfoldings *)
Lemma plvl0E F t : @plvl A (S F) 0 t = bind (plvl F 1 t) (fun '(a, r) =>
             match r with
             | TQuest :: r1 => bind (plvl F 0 r1) (fun '(b, r2) =>
                 match r2 with
                 | TColon :: r3 => bind (plvl F 0 r3) (fun '(c, r4) => Some (ECond a b c, r4))
                 | _ => None
                 end)
             | _ => Some (a, r)
             end).
Proof. reflexivity. Qed.
Lemma plvl7E F t : @plvl A (S F) 7 t = match t with
           | TOp Minus :: r => bind (plvl F 7 r) (fun '(a, r') => Some (ENeg a, r'))
           | _ => plvl F 8 t
           end.
Proof. reflexivity. Qed.
Lemma plvl8E F t : @plvl A (S F) 8 t = match t with
           | TAtom a :: r => Some (EAtom a, r)
           | TLP :: r => bind (plvl F 0 r) (fun '(e, r') => match r' with TRP :: r'' => Some (e, r'') | _ => None end)
           | TFun f :: TLP :: r =>
               bind (pargs F r) (fun '(es, r') => match r' with TRP :: r'' => Some (ECall f es, r'') | _ => None end)
           | _ => None
           end.
Proof. reflexivity. Qed.
Lemma ploopE F n a r : @ploop A (S F) n a r =
    match r with
    | TOp o :: r' => if lv o =? n then bind (plvl F (S n) r') (fun '(b, r'') => ploop F n (EBin o a b) r'')
                     else Some (a, r)
    | _ => Some (a, r)
    end.
Proof. reflexivity. Qed.
Lemma pargsE F t : @pargs A (S F) t =
    bind (plvl F 0 t) (fun '(e, r) =>
      match r with
      | TComma :: r' => bind (pargs F r') (fun '(es, r'') => Some (e :: es, r''))
      | _ => Some ([e], r)
      end).
Proof. reflexivity. Qed.

(** more fuel does not change an answer *)
Lemma fuel_mono : forall F,
  (forall n t x, plvl F n t = Some x -> forall F', F <= F' -> @plvl A F' n t = Some x) /\
  (forall n a r x, ploop F n a r = Some x -> forall F', F <= F' -> @ploop A F' n a r = Some x) /\
  (forall t x, pargs F t = Some x -> forall F', F <= F' -> @pargs A F' t = Some x).
Proof.
  induction F as [|F [IH1 [IH2 IH3]]]; [repeat split; intros; discriminate|].
  split; [|split].
  - intros n t x H F' HF. destruct F' as [|F']; [lia|]. assert (HF1 : F <= F') by lia.
    destruct n as [|n].
    { rewrite ?plvl0E, ?plvl7E, ?plvl8E in *. apply bind_some in H. destruct H as [[a r] [Ha H]].
      rewrite (IH1 _ _ _ Ha F' HF1). cbn [bind].
      destruct r as [|tk r]; [exact H|]. destruct tk; try exact H.
      apply bind_some in H. destruct H as [[b r2] [Hb H]].
      rewrite (IH1 _ _ _ Hb F' HF1). cbn [bind].
      destruct r2 as [|tk r2]; [exact H|]. destruct tk; try exact H.
      apply bind_some in H. destruct H as [[c r3] [Hc H]].
      rewrite (IH1 _ _ _ Hc F' HF1). exact H. }
    destruct (Nat.eq_dec (S n) 7) as [E7|N7].
    { rewrite E7 in *. rewrite ?plvl0E, ?plvl7E, ?plvl8E in *. destruct t as [|tk t]; [eapply IH1; eauto|].
      destruct tk; try (eapply IH1; eauto; fail).
      destruct o; try (eapply IH1; eauto; fail).
      apply bind_some in H. destruct H as [[a r] [Ha H]].
      rewrite (IH1 _ _ _ Ha F' HF1). exact H. }
    destruct (Nat.eq_dec (S n) 8) as [E8|N8].
    { rewrite E8 in *. rewrite ?plvl0E, ?plvl7E, ?plvl8E in *. destruct t as [|tk t]; [exact H|].
      destruct tk; try exact H.
      - destruct t as [|tk2 t]; [exact H|]. destruct tk2; try exact H.
        apply bind_some in H. destruct H as [[es r] [Ha H]].
        rewrite (IH3 _ _ Ha F' HF1). exact H.
      - apply bind_some in H. destruct H as [[a r] [Ha H]].
        rewrite (IH1 _ _ _ Ha F' HF1). exact H. }
    assert (E : forall f s, plvl (S f) (S n) s =
       if 8 <? S n then None else bind (plvl f (S (S n)) s) (fun '(a, r) => @ploop A f (S n) a r)).
    { intros f s. do 8 (destruct n as [|n]; [try lia; reflexivity|]). reflexivity. }
    rewrite E in *. destruct (8 <? S n); [discriminate|].
    apply bind_some in H. destruct H as [[a r] [Ha H]].
    rewrite (IH1 _ _ _ Ha F' HF1). cbn [bind]. eapply IH2; eauto.
  - intros n a r x H F' HF. destruct F' as [|F']; [lia|]. assert (HF1 : F <= F') by lia.
    rewrite ploopE in *. destruct r as [|tk r]; [exact H|]. destruct tk; try exact H.
    destruct (lv o =? n); [|exact H].
    apply bind_some in H. destruct H as [[b r2] [Hb H]].
    rewrite (IH1 _ _ _ Hb F' HF1). cbn [bind]. eapply IH2; eauto.
  - intros t x H F' HF. destruct F' as [|F']; [lia|]. assert (HF1 : F <= F') by lia.
    rewrite pargsE in *. apply bind_some in H. destruct H as [[b r2] [Hb H]].
    rewrite (IH1 _ _ _ Hb F' HF1). cbn [bind].
    destruct r2 as [|tk r2]; [exact H|]. destruct tk; try exact H.
    apply bind_some in H. destruct H as [[c r3] [Hc H]].
    rewrite (IH3 _ _ Hc F' HF1). exact H.
Qed.

(** [stop n r]: the rest [r] cannot continue an expression of level >= n *)
Definition stop (n : nat) r : Prop :=
  match r with
  | [] | TRP :: _ | TComma :: _ | TColon :: _ => True
  | TQuest :: _ => 1 <= n
  | TOp o :: _ => lv o < n
  | _ => False
  end.

Definition stopS (n : nat) r : Prop := stop (S n) r.

Lemma lv_range o : 1 <= lv o <= 6. Proof. destruct o; simpl; lia. Qed.

Lemma plvl_mid F n t : 1 <= n <= 6 ->
  plvl (S F) n t = bind (plvl F (S n) t) (fun '(a, r) => @ploop A F n a r).
Proof.
  intros Hn. destruct n as [|n]; [lia|]. do 6 (destruct n as [|n]; [reflexivity|]). lia.
Qed.

Definition P (n : nat) t e : Prop :=
  if (1 <=? n) && (n <=? 6) then
    (forall rest x F, stop (S n) rest -> ploop F n e rest = Some x -> exists F', plvl F' n (t ++ rest) = Some x)
  else
    (forall rest, stop n rest -> exists F', plvl F' n (t ++ rest) = Some (e, rest)).

Lemma stop_mono n m r : n <= m -> stop n r -> stop m r.
Proof. destruct r as [|tk r]; simpl; auto. destruct tk; simpl; auto; lia. Qed.

Lemma P_full n t e rest : n <= 8 -> P n t e -> stop n rest -> exists F, plvl F n (t ++ rest) = Some (e, rest).
Proof.
  unfold P. intros Hn HP Hs. destruct ((1 <=? n) && (n <=? 6)) eqn:E.
  - apply HP with (F := 1); [eapply stop_mono; [|exact Hs]; lia|].
    apply andb_true_iff in E. destruct E as [E1 E2]. apply Nat.leb_le in E1, E2.
    cbn. destruct rest as [|tk rest]; [reflexivity|]. destruct tk; try reflexivity.
    simpl in Hs. destruct (Nat.eqb_spec (lv o) n); [lia|reflexivity].
  - auto.
Qed.

Lemma G_level n t e : @G A n t e -> n <= 8.
Proof. induction 1; try lia. Qed.

Lemma G_nonempty_head : 
  (forall n t e, @G A n t e -> exists tk t', t = tk :: t' /\
     match tk with TAtom _ | TFun _ | TLP => True | TOp Minus => n <= 7 | _ => False end) /\
  (forall t es, @GL A t es -> exists tk t', t = tk :: t').
Proof.
  apply G_mutind.
  - intros n t e Hn HG [tk [t' [E HT]]]. exists tk, t'. split; [exact E|]. destruct tk; auto; try (destruct o; auto; simpl in *; lia).
  - intros o t1 t2 a b H1 [tk [t' [E HT]]] H2 _. rewrite E. exists tk, (t' ++ TOp o :: t2). split; [reflexivity|].
    exact HT.
  - intros t t1 t2 a b c H1 [tk [t' [E HT]]] H2 _ H3 _. rewrite E. simpl. do 2 eexists. split; [reflexivity|].
    destruct tk; auto; try (destruct o; auto; simpl in *; lia).
  - intros. do 2 eexists. split; [reflexivity|]. simpl; lia.
  - intros. do 2 eexists. split; [reflexivity|]. exact I.
  - intros. do 2 eexists. split; [reflexivity|]. exact I.
  - intros. do 2 eexists. split; [reflexivity|]. exact I.
  - intros t e _ [tk [t' [E _]]]. eauto.
  - intros t e ts es _ [tk [t' [E _]]] _ _. rewrite E. simpl. eauto.
Qed.

Lemma parser_complete :
  (forall n t e, @G A n t e -> P n t e) /\
  (forall t es, @GL A t es -> forall rest, (match rest with TRP :: _ => True | _ => False end) ->
     exists F, pargs F (t ++ rest) = Some (es, rest)).
Proof.
  apply G_mutind.
  - (* up *)
    intros n t e Hn HG IH.
    pose proof (proj1 G_nonempty_head _ _ _ HG) as [tk [t' [Et Htk]]].
    assert (HN : S n <= 8) by lia.
    unfold P. destruct ((1 <=? n) && (n <=? 6)) eqn:E.
    + apply andb_true_iff in E. destruct E as [E1 E2]. apply Nat.leb_le in E1, E2.
      intros rest x F Hs Hl.
      destruct (P_full (S n) t e rest HN IH Hs) as [F1 HF1].
      exists (S (F + F1)). rewrite plvl_mid by lia.
      rewrite (proj1 (fuel_mono F1) _ _ _ HF1 (F + F1)) by lia. cbn [bind].
      apply (proj1 (proj2 (fuel_mono F)) _ _ _ _ Hl). lia.
    + intros rest Hs.
      destruct (P_full (S n) t e rest HN IH (stop_mono _ _ _ (Nat.le_succ_diag_r n) Hs)) as [F1 HF1].
      exists (S F1).
      apply andb_false_iff in E. destruct n as [|n].
      * rewrite ?plvl0E, ?plvl7E, ?plvl8E. rewrite HF1. cbn [bind]. destruct rest as [|tk2 rest]; [reflexivity|].
        destruct tk2; try reflexivity. simpl in Hs. lia.
      * assert (S n = 7) as E7. { destruct E as [E|E]; apply Nat.leb_gt in E; lia. }
        rewrite E7 in *. rewrite ?plvl0E, ?plvl7E, ?plvl8E. subst t. simpl app in *. destruct tk; try (exact HF1).
        destruct o; try (exact HF1). lia.
  - (* bin *)
    intros o t1 t2 a b H1 IH1 H2 IH2. pose proof (lv_range o) as Ho.
    unfold P. replace ((1 <=? lv o) && (lv o <=? 6)) with true by (symmetry; apply andb_true_iff; split; apply Nat.leb_le; lia).
    intros rest x F Hs Hl.
    unfold P in IH1. replace ((1 <=? lv o) && (lv o <=? 6)) with true in IH1 by (symmetry; apply andb_true_iff; split; apply Nat.leb_le; lia).
    destruct (P_full (S (lv o)) t2 b rest ltac:(lia) IH2 Hs) as [F2 HF2].
    rewrite <- app_assoc. simpl app.
    apply IH1 with (F := S (F + F2)).
    + simpl. lia.
    + rewrite ploopE. rewrite Nat.eqb_refl. rewrite (proj1 (fuel_mono F2) _ _ _ HF2 (F + F2)) by lia. cbn [bind].
      apply (proj1 (proj2 (fuel_mono F)) _ _ _ _ Hl). lia.
  - (* cond *)
    intros t t1 t2 a b c H1 IH1 H2 IH2 H3 IH3. unfold P. cbn [Nat.leb andb]. intros rest Hs.
    destruct (P_full 0 t2 c rest ltac:(lia) IH3 Hs) as [F3 HF3].
    destruct (P_full 0 t1 b (TColon :: t2 ++ rest) ltac:(lia) IH2 I) as [F2 HF2].
    destruct (P_full 1 t a (TQuest :: t1 ++ TColon :: t2 ++ rest) ltac:(lia) IH1 ltac:(simpl; lia)) as [F1 HF1].
    exists (S (F1 + F2 + F3)).
    replace ((t ++ TQuest :: t1 ++ TColon :: t2) ++ rest) with (t ++ TQuest :: t1 ++ TColon :: t2 ++ rest)
      by (rewrite <- !app_assoc; simpl; rewrite <- app_assoc; reflexivity).
    rewrite ?plvl0E, ?plvl7E, ?plvl8E. rewrite (proj1 (fuel_mono F1) _ _ _ HF1 (F1 + F2 + F3)) by lia. cbn [bind].
    rewrite (proj1 (fuel_mono F2) _ _ _ HF2 (F1 + F2 + F3)) by lia. cbn [bind].
    rewrite (proj1 (fuel_mono F3) _ _ _ HF3 (F1 + F2 + F3)) by lia. reflexivity.
  - (* neg *)
    intros t a H IH. unfold P in *. cbn [Nat.leb andb] in *. intros rest Hs.
    destruct (IH rest Hs) as [F HF]. exists (S F). cbn [app]. rewrite ?plvl0E, ?plvl7E, ?plvl8E. rewrite HF. reflexivity.
  - (* atom *)
    intros a. unfold P. cbn [Nat.leb andb]. intros rest Hs. exists 1. reflexivity.
  - (* paren *)
    intros t e H IH. unfold P in *. cbn [Nat.leb andb] in *. intros rest Hs.
    destruct (IH (TRP :: rest) I) as [F HF]. exists (S F). cbn [app]. rewrite ?plvl0E, ?plvl7E, ?plvl8E. rewrite <- app_assoc. cbn [app].
    rewrite HF. reflexivity.
  - (* call *)
    intros f t es H IH. unfold P. cbn [Nat.leb andb]. intros rest Hs.
    destruct (IH (TRP :: rest) I) as [F HF]. exists (S F). cbn [app]. rewrite ?plvl0E, ?plvl7E, ?plvl8E. rewrite <- app_assoc. cbn [app].
    rewrite HF. reflexivity.
  - intros t e H IH rest Hr. destruct rest as [|tk rest]; [contradiction|]. destruct tk; try contradiction.
    destruct (P_full 0 t e (TRP :: rest) ltac:(lia) IH I) as [F HF].
    exists (S F). rewrite pargsE. rewrite HF. reflexivity.
  - intros t e ts es H IH H2 IH2 rest Hr.
    destruct (IH2 rest Hr) as [F2 HF2].
    destruct (P_full 0 t e (TComma :: ts ++ rest) ltac:(lia) IH I) as [F HF].
    exists (S (F + F2)). rewrite <- app_assoc. cbn [app]. rewrite pargsE.
    rewrite (proj1 (fuel_mono F) _ _ _ HF (F + F2)) by lia. cbn [bind].
    rewrite (proj2 (proj2 (fuel_mono F2)) _ _ HF2 (F + F2)) by lia. reflexivity.
Qed.

(** The grammar gives every token list at most one reading. *)
Lemma c_reads_unique t e1 e2 : c_reads t e1 -> c_reads t e2 -> e1 = e2.
Proof.
  unfold c_reads. intros H1 H2.
  destruct (P_full 0 t e1 [] ltac:(lia) (proj1 parser_complete _ _ _ H1) I) as [F1 E1].
  destruct (P_full 0 t e2 [] ltac:(lia) (proj1 parser_complete _ _ _ H2) I) as [F2 E2].
  apply (proj1 (fuel_mono F1)) with (F' := F1 + F2) in E1; [|lia].
  apply (proj1 (fuel_mono F2)) with (F' := F1 + F2) in E2; [|lia].
  congruence.
Qed.

(** climbing several levels at once *)
Lemma G_ups n m t e : n <= m -> @G A m t e -> G n t e.
Proof.
  intros Hnm H. assert (Hm : m <= 8) by (eapply G_level; eauto).
  induction Hnm as [|m Hnm IH]; [exact H|]. apply IH; [|lia]. apply G_up; [lia|exact H].
Qed.

End Proofs.

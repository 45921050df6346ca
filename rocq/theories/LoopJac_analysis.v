(** * The analysis of the elements of a Jacobian: when it throws, and what it finds *)
From Coq Require Import List Bool Arith NArith Reals Sorted Lia Classical_Prop.
From Verif Require Import Graph_model Codegen_model CSyntax Range_model LoopCond_model LoopCond_spec LoopJac_model LoopJac_spec LoopJac_maps LoopJac_row LoopJac_state.
Import ListNotations.
Local Open Scope nat_scope.

Section Analysis.
Variable md : model.
Hypothesis Hg : good md.

Lemma touched_dependence : forall l tapeI row it j, good_loop md l -> nth_error (l_row l) tapeI = Some row -> (touched md l row it j <-> dependence md l it tapeI j).
Proof.
  intros l tapeI row it j Hl Hr. split.
  - intros [(t & H1 & H2)|[(t & H1 & H2)|(k & t & H1 & H2 & H3 & f & sp & H4 & H5 & H6)]]; exists row, t; (split; [exact Hr|]).
    + split; [exact H1|]. left. apply sources_indexed; [|exact H2]. apply entry_Some in H2. destruct H2 as (r & H2 & _). apply nth_error_Some. congruence.
    + split; [exact H2|]. left. apply (getNonIndexed_iff md l Hl) in H1. destruct H1 as [H1 H3]. replace t with (length (l_indexed l) + (t - length (l_indexed l))) by lia.
      rewrite sources_non by lia. replace (length (l_indexed l) + (t - length (l_indexed l)) - length (l_indexed l)) with (t - length (l_indexed l)) in H3 by lia. rewrite H3. reflexivity.
    + split; [exact H1|]. right. exists k, f, sp. split; [|auto]. replace t with (length (l_indexed l) + length (l_non l) + (t - length (l_indexed l) - length (l_non l))) by lia.
      rewrite sources_tmp, H3. reflexivity.
  - intros (row' & t & E & H1 & H2). assert (row' = row) by congruence. subst row'. clear E. destruct (Nat.lt_ge_cases t (length (l_indexed l))) as [Ht|Ht].
    + destruct H2 as [H2|(k & f & sp & H2 & _)].
      * left. exists t. split; [exact H1|]. apply sources_indexed in H2; auto.
      * exfalso. unfold sources in H2. rewrite nth_error_app1 in H2 by (rewrite map_length; exact Ht). rewrite nth_error_map in H2. destruct (nth_error (l_indexed l) t) as [r|]; [|discriminate].
        cbn in H2. destruct (nth_error r it) as [[?|]|]; discriminate.
    + destruct (Nat.lt_ge_cases t (length (l_indexed l) + length (l_non l))) as [Ht2|Ht2].
      * replace t with (length (l_indexed l) + (t - length (l_indexed l))) in H2 by lia. rewrite sources_non in H2 by lia.
        destruct (nth_error (l_non l) (t - length (l_indexed l))) as [j'|] eqn:E; cbn [option_map] in H2; [|destruct H2 as [H2|(k & f & sp & H2 & _)]; discriminate].
        destruct H2 as [H2|(k & f & sp & H2 & _)]; [|discriminate]. inversion H2; subst. right. left. exists t. split; [|exact H1]. apply (getNonIndexed_iff md l Hl). auto.
      * replace t with (length (l_indexed l) + length (l_non l) + (t - length (l_indexed l) - length (l_non l))) in H2 by lia. rewrite sources_tmp in H2.
        destruct (nth_error (l_tmp l) (t - length (l_indexed l) - length (l_non l))) as [k'|] eqn:E; cbn [option_map] in H2; [|destruct H2 as [H2|(k & f & sp & H2 & _)]; discriminate].
        destruct H2 as [H2|(k & f & sp & H2 & H3 & H4 & H5)]; [discriminate|]. inversion H2; subst. right. right. exists k, t. split; [exact H1|]. split; [exact Ht2|]. split; [exact E|]. exists f, sp. auto.
Qed.

Definition elem : Type := (nat * (nat * nat))%type.
Definition Req (P : list elem) (n tapeI : nat) : reqs := fun it j e => exists i, In (e, (i, j)) P /\ findLoop i (m_loops md) = Some (n, (tapeI, it)).
Record Inv (P : list elem) (s : state) : Prop := {
  v_rows : forall n l tapeI row, nth_error (m_loops md) n = Some l -> nth_error (l_row l) tapeI = Some row -> RInv md l row (Req P n tapeI) (infos s n tapeI);
  v_tmps : forall n l tapeI row j k, nth_error (m_loops md) n = Some l -> nth_error (l_row l) tapeI = Some row -> In k (tks (infos s n tapeI) j) -> In j (noLoopEval s (eqCount md + k));
  v_locs : forall il j e, In e (noLoopLocs s il j) <-> exists i f, In (e, (i, j)) P /\ m_free md = Some f /\ nth_error (f_eqs f) il = Some i;
  v_eval : forall il j e, In e (noLoopLocs s il j) -> In j (noLoopEval s il) }.

Lemma Inv0 : Inv [] state0.
Proof.
  split; cbn [state0 infos noLoopEval noLoopLocs].
  - intros. eapply RInv_ext; [|apply RInv0]. intros. split; [tauto|]. intros (i & [] & _).
  - intros. destruct H1.
  - intros. split; [intros []|]. intros (i & f & [] & _).
  - intros ? ? ? [].
Qed.

Lemma loop_row : forall n l tapeI row it i, nth_error (m_loops md) n = Some l -> nth_error (l_deps l) tapeI = Some row -> nth_error row it = Some (Some i) ->
  good_loop md l /\ (exists sp, nth_error (l_row l) tapeI = Some sp) /\ it < l_iters l.
Proof.
  intros n l tapeI row it i H1 H2 H3. assert (Hl : good_loop md l). { pose proof (g_loops md Hg) as H. rewrite Forall_forall in H. exact (H l (nth_error_In _ _ H1)). }
  split; [exact Hl|]. split.
  - destruct (nth_error (l_row l) tapeI) as [sp|] eqn:E; [exists sp; reflexivity|]. apply nth_error_None in E. rewrite (g_rows md l Hl) in E.
    assert (nth_error (l_deps l) tapeI <> None) by congruence. apply nth_error_Some in H. lia.
  - pose proof (g_deps md l Hl) as H. rewrite Forall_forall in H. rewrite <- (H row (nth_error_In _ _ H2)). apply nth_error_Some. congruence.
Qed.

Lemma upd_same : forall {A} k (a : A) f, upd k a f k = a.
Proof. intros. unfold upd. rewrite Nat.eqb_refl. reflexivity. Qed.
Lemma upd_other : forall {A} k k' (a : A) f, k' <> k -> upd k a f k' = f k'.
Proof. intros. unfold upd. apply Nat.eqb_neq in H. rewrite H. reflexivity. Qed.

Lemma element_step : forall P s e i j, Inv P s -> (exists p, place_of md i p) ->
  (depends_in_loop md i j -> (exists e', In (e', (i, j)) P) -> element1 md s (e, (i, j)) = Throw) /\
  ((depends_in_loop md i j -> ~ exists e', In (e', (i, j)) P) -> exists s', element1 md s (e, (i, j)) = Ok s' /\ Inv (P ++ [(e, (i, j))]) s').
Proof.
  intros P s e i j [V1 V2 V3 V4] [p Hp]. unfold element1. pose proof Hp as Hp'. destruct Hp' as [n l tapeI row it H0 H1 H2|f H H0].
  - (* in a loop *)
    destruct (loop_row _ _ _ _ _ _ H0 H1 H2) as (Hl & (sp & Hsp) & Hit). assert (Ef : findLoop i (m_loops md) = Some (n, (tapeI, it))) by (apply (findLoop_iff md i n tapeI it Hg), Hp).
    rewrite Ef, H0. destruct (loopElement_spec md l Hl tapeI sp Hsp (Req P n tapeI) it j e (infos s n tapeI) (noLoopEval s) (V1 _ _ _ _ H0 Hsp) Hit) as [L1 L2].
    assert (Ed : depends_in_loop md i j <-> touched md l sp it j).
    { rewrite (touched_dependence l tapeI sp it j Hl Hsp). split; [|intro H; exists n, l, tapeI, it; auto].
      intros (n' & l' & a & b & Hq & Hl' & Hd). pose proof (g_one md Hg i _ _ Hp Hq) as E. inversion E; subst. congruence. }
    assert (Eq : (exists e', In (e', (i, j)) P) <-> exists e', Req P n tapeI it j e').
    { split; [intros (e' & H); exists e', i; auto|]. intros (e' & i' & Hi & Hf'). exists e'. apply (findLoop_iff md i' n tapeI it Hg) in Hf'. inversion Hf'; subst.
      assert (i' = i) by congruence. subst. exact Hi. }
    rewrite Ed, Eq. split.
    + intros Ht Hq. rewrite (L1 Ht Hq). reflexivity.
    + intro Hc. destruct (L2 Hc) as (r' & ev' & Q1 & Q2 & Q3 & Q4 & Q5). rewrite Q1. cbn [rbind fst snd]. eexists. split; [reflexivity|].
      assert (Happ : forall e' i' j', In (e', (i', j')) (P ++ [(e, (i, j))]) <-> In (e', (i', j')) P \/ (e' = e /\ i' = i /\ j' = j)).
      { intros. rewrite in_app_iff. cbn [In]. split; [intros [H|[H|[]]]; [auto|inversion H; auto]|intros [H|(-> & -> & ->)]; auto]. }
      split; cbn [infos noLoopEval noLoopLocs].
      * intros n' l' t' row' Hn' Hr'. unfold upd. destruct (n' =? n) eqn:En; [apply Nat.eqb_eq in En; subst n'; destruct (t' =? tapeI) eqn:Et; [apply Nat.eqb_eq in Et; subst t'|]|].
        -- assert (l' = l) by congruence. subst l'. assert (row' = sp) by congruence. subst row'. eapply RInv_ext; [|exact Q2]. intros it' j' e'. unfold Req. split.
           ++ intros [(i' & H4 & H5)|(-> & -> & ->)]; [exists i'; rewrite Happ; auto|exists i; rewrite Happ; auto].
           ++ intros (i' & H4 & H5). rewrite Happ in H4. destruct H4 as [H4|(-> & -> & ->)]; [left; exists i'; auto|right; rewrite Ef in H5; inversion H5; auto].
        -- apply Nat.eqb_neq in Et. eapply RInv_ext; [|exact (V1 _ _ _ _ Hn' Hr')]. intros it' j' e'. unfold Req. split; intros (i' & H4 & H5); exists i'; rewrite Happ in *; [auto|].
           destruct H4 as [H4|(-> & -> & ->)]; [auto|]. rewrite Ef in H5. inversion H5. congruence.
        -- apply Nat.eqb_neq in En. eapply RInv_ext; [|exact (V1 _ _ _ _ Hn' Hr')]. intros it' j' e'. unfold Req. split; intros (i' & H4 & H5); exists i'; rewrite Happ in *; [auto|].
           destruct H4 as [H4|(-> & -> & ->)]; [auto|]. rewrite Ef in H5. inversion H5. congruence.
      * intros n' l' t' row' j' k Hn' Hr' Hk. unfold upd in Hk. destruct (n' =? n) eqn:En; [apply Nat.eqb_eq in En; subst n'; destruct (t' =? tapeI) eqn:Et; [apply Nat.eqb_eq in Et; subst t'|]|];
          try (apply Q3; exact (V2 _ _ _ _ _ _ Hn' Hr' Hk)).
        apply Q5 in Hk. destruct Hk as [(-> & Hv)|Hk]; [|apply Q3; exact (V2 _ _ _ _ _ _ Hn' Hr' Hk)].
        assert (Hf : exists f, m_free md = Some f) by (destruct Hv as (t & _ & _ & _ & f & _ & Hf & _); exists f; exact Hf). destruct Hf as [f Hf]. unfold eqCount. rewrite Hf. exact (Q4 f k Hf Hv).
      * intros il j' e'. rewrite V3. split; intros (i' & f & H4 & H5 & H6); exists i', f; rewrite Happ in *; [auto|]. destruct H4 as [H4|(-> & -> & ->)]; [auto|].
        exfalso. pose proof (g_one md Hg i _ _ Hp (P_free md i f H5 (nth_error_In _ _ H6))). discriminate.
      * intros il j' e' He'. apply Q3. exact (V4 _ _ _ He').
  - (* outside the loops *)
    rewrite (findLoop_free md i f Hg H H0), H. assert (Nd : ~ depends_in_loop md i j).
    { intros (n & l & a & b & Hq & _). pose proof (g_one md Hg i _ _ Hp Hq). discriminate. }
    split; [contradiction|]. intros _. destruct (indexOf (Nat.eqb i) (f_eqs f)) as [il|] eqn:Ei.
    2: { exfalso. pose proof (indexOf_None _ _ Ei i H0) as E. rewrite Nat.eqb_refl in E. discriminate. }
    apply (indexOf_eqb i (f_eqs f) il (proj1 (g_free md Hg f H))) in Ei.
    eexists. split; [reflexivity|].
    assert (Happ : forall e' i' j', In (e', (i', j')) (P ++ [(e, (i, j))]) <-> In (e', (i', j')) P \/ (e' = e /\ i' = i /\ j' = j)).
    { intros. rewrite in_app_iff. cbn [In]. split; [intros [H'|[H'|[]]]; [auto|inversion H'; auto]|intros [H'|(-> & -> & ->)]; auto]. }
    assert (Hev : forall il' j', In j' (noLoopEval s il') -> In j' (upd il (sins j (noLoopEval s il)) (noLoopEval s) il')).
    { intros il' j' Hj. unfold upd. destruct (il' =? il) eqn:E; [|exact Hj]. apply Nat.eqb_eq in E. subst. apply sins_In. auto. }
    split; cbn [infos noLoopEval noLoopLocs].
    + intros n' l' t' row' Hn' Hr'. eapply RInv_ext; [|exact (V1 _ _ _ _ Hn' Hr')]. intros it' j' e'. unfold Req. split; intros (i' & H4 & H5); exists i'; rewrite Happ in *; [auto|].
      destruct H4 as [H4|(-> & -> & ->)]; [auto|]. rewrite (findLoop_free md i f Hg H H0) in H5. discriminate.
    + intros n' l' t' row' j' k Hn' Hr' Hk. apply Hev. exact (V2 _ _ _ _ _ _ Hn' Hr' Hk).
    + intros il' j' e'. assert (Hl : In e' (upd il (upd j (sins e (noLoopLocs s il j)) (noLoopLocs s il)) (noLoopLocs s) il' j') <-> (il' = il /\ j' = j /\ e' = e) \/ In e' (noLoopLocs s il' j')).
      { unfold upd. destruct (il' =? il) eqn:E1; [apply Nat.eqb_eq in E1; subst il'; destruct (j' =? j) eqn:E2; [apply Nat.eqb_eq in E2; subst j'; rewrite sins_In; tauto|apply Nat.eqb_neq in E2; tauto]|apply Nat.eqb_neq in E1; tauto]. }
      rewrite Hl, V3. split.
      * intros [(-> & -> & ->)|(i' & f' & H4 & H5 & H6)]; [exists i, f; rewrite Happ; auto|exists i', f'; rewrite Happ; auto].
      * intros (i' & f' & H4 & H5 & H6). rewrite Happ in H4. destruct H4 as [H4|(-> & -> & ->)]; [right; exists i', f'; auto|]. left. split; [|auto].
        rewrite H in H5. inversion H5; subst f'. eapply NoDup_nth_error; [exact (proj1 (g_free md Hg f H))|apply nth_error_Some; congruence|congruence].
    + intros il' j' e' He'. unfold upd in He'. unfold upd. destruct (il' =? il) eqn:E1; [|exact (V4 _ _ _ He')]. apply Nat.eqb_eq in E1. subst il'. apply sins_In.
      destruct (j' =? j) eqn:E2; [left; apply Nat.eqb_eq; exact E2|]. right. exact (V4 _ _ _ He').
Qed.

(** the elements with their locations *)
Definition found (P : list elem) : Prop := forall e i j, In (e, (i, j)) P -> exists p, place_of md i p.
Definition clean (P : list elem) : Prop := forall A e i j B, P = A ++ (e, (i, j)) :: B -> depends_in_loop md i j -> ~ exists e', In (e', (i, j)) A.
Lemma fold_clean : forall B A s, Inv A s -> found B -> clean (A ++ B) -> exists s', rfold (element1 md) B s = Ok s' /\ Inv (A ++ B) s'.
Proof.
  induction B as [|[e [i j]] B IH]; intros A s HI Hf Hc; cbn [rfold].
  - exists s. rewrite app_nil_r. auto.
  - destruct (element_step A s e i j HI (Hf e i j (or_introl eq_refl))) as [_ H2]. destruct H2 as (s1 & E1 & I1).
    { intro Hd. exact (Hc A e i j B eq_refl Hd). }
    rewrite E1. cbn [rbind]. destruct (IH (A ++ [(e, (i, j))]) s1 I1) as (s' & E' & I').
    + intros e' i' j' H. exact (Hf e' i' j' (or_intror H)).
    + rewrite <- app_assoc. exact Hc.
    + rewrite <- app_assoc in I'. exists s'. auto.
Qed.
Lemma fold_repeated : forall B A s, Inv A s -> found B -> ~ clean (A ++ B) -> clean A -> rfold (element1 md) B s = Throw.
Proof.
  induction B as [|[e [i j]] B IH]; intros A s HI Hf Hn Hc; cbn [rfold].
  - rewrite app_nil_r in Hn. contradiction.
  - destruct (element_step A s e i j HI (Hf e i j (or_introl eq_refl))) as [H1 H2].
    destruct (classic (depends_in_loop md i j /\ exists e', In (e', (i, j)) A)) as [[Hd He]|Hx]; [rewrite (H1 Hd He); reflexivity|].
    destruct H2 as (s1 & E1 & I1). { intros Hd He. apply Hx. auto. }
    rewrite E1. cbn [rbind]. apply (IH (A ++ [(e, (i, j))]) s1 I1).
    + intros e' i' j' H. exact (Hf e' i' j' (or_intror H)).
    + rewrite <- app_assoc. exact Hn.
    + intros A1 e1 i1 j1 B1 E Hd He. destruct (exists_last (l := (e1, (i1, j1)) :: B1)) as (B2 & z & Ez); [discriminate|]. rewrite Ez, app_assoc in E. apply app_inj_tail in E. destruct E as [E Ez'].
      destruct B2 as [|b B2]; cbn [app] in Ez; inversion Ez; subst.
      * apply Hx. rewrite app_nil_r. inversion H0; subst. auto.
      * exact (Hc A1 e1 i1 j1 B2 eq_refl Hd He).
Qed.
End Analysis.

Lemma numbered_nth : forall {A} (l : list A) e a, In (e, a) (numbered l) <-> nth_error l e = Some a.
Proof.
  intros A l e a. unfold numbered. assert (G : forall l s, In (e, a) (combine (seq s (length l)) l) <-> s <= e /\ nth_error l (e - s) = Some a).
  { clear l. induction l as [|b l IH]; intro s; cbn [length seq combine In].
    - split; [tauto|]. intros [_ H]. destruct (e - s); discriminate.
    - rewrite IH. split.
      + intros [E|[H1 H2]]; [inversion E; subst; rewrite Nat.sub_diag; auto|]. split; [lia|]. replace (e - s) with (S (e - S s)) by lia. exact H2.
      + intros [H1 H2]. destruct (e - s) as [|d] eqn:Ed; cbn [nth_error] in H2; [left; inversion H2; f_equal; lia|right]. split; [lia|]. replace (e - S s) with d by lia. exact H2. }
  rewrite G. rewrite Nat.sub_0_r. split; [tauto|]. intro H. split; [lia|exact H].
Qed.
Lemma numbered_split : forall {A} (l : list A) P e a Q, numbered l = P ++ (e, a) :: Q -> length P = e /\ forall e' a', In (e', a') P <-> e' < e /\ nth_error l e' = Some a'.
Proof.
  intros A l P e a Q E. assert (Hk : map fst (numbered l) = seq 0 (length l)).
  { unfold numbered. clear E. generalize 0. induction l as [|b l IH]; intro s; cbn [length seq combine map fst]; [reflexivity|]. rewrite IH. reflexivity. }
  rewrite E, map_app in Hk. cbn [map fst] in Hk.
  assert (Hs : forall n s (X Y : list nat) z, X ++ z :: Y = seq s n -> z = s + length X /\ forall w, In w X -> s <= w < s + length X).
  { clear. induction n as [|n IH]; intros s X Y z H; cbn [seq] in H; [destruct X; discriminate|]. destruct X as [|x0 X]; cbn [app] in H; inversion H; subst; cbn [length In].
    - split; [lia|tauto].
    - destruct (IH _ _ _ _ H2) as [I1 I2]. split; [lia|]. intros w [<-|Hw]; [lia|]. specialize (I2 w Hw). lia. }
  destruct (Hs _ _ _ _ _ Hk) as [H1 H2]. rewrite map_length in H1, H2. cbn [plus] in H1, H2. split; [auto|]. intros e' a'. split.
  - intro Hi. split; [specialize (H2 e' (in_map fst _ _ Hi)); cbn in H2; lia|]. apply numbered_nth. rewrite E. apply in_app_iff. auto.
  - intros [He Hn]. apply numbered_nth in Hn. rewrite E in Hn. apply in_app_iff in Hn. destruct Hn as [Hn|[Hn|Hn]]; [exact Hn|inversion Hn; lia|].
    exfalso. (* keys of Q are larger *)
    assert (Hq : forall n s (X Y : list nat) z, X ++ z :: Y = seq s n -> forall w, In w Y -> z < w).
    { clear. induction n as [|n IH]; intros s X Y z H w Hw; cbn [seq] in H; [destruct X; discriminate|]. destruct X as [|x0 X]; cbn [app] in H; inversion H; subst.
      - apply in_seq in Hw. lia.
      - eapply IH; eauto. }
    pose proof (Hq _ _ _ _ _ Hk e' (in_map fst _ _ Hn)). lia.
Qed.
Lemma clean_repeated : forall md els, clean md (numbered els) <-> ~ repeated md els.
Proof.
  intros md els. split.
  - intros Hc (e & e' & i & j & Hlt & H1 & H2 & Hd). assert (Hi : In (e', (i, j)) (numbered els)) by (apply numbered_nth; exact H2). apply in_split in Hi. destruct Hi as (A & B & E).
    apply (Hc A e' i j B E Hd). exists e. apply (numbered_split _ _ _ _ _ E). auto.
  - intros Hn A e i j B E Hd (e' & He'). apply (numbered_split _ _ _ _ _ E) in He'. apply Hn. exists e', e, i, j. split; [apply He'|]. split; [apply He'|]. split; [|exact Hd].
    apply numbered_nth. rewrite E. apply in_app_iff. right. left. reflexivity.
Qed.

Lemma analyse_spec : forall md els, good md -> (forall i j, In (i, j) els -> exists p, place_of md i p) ->
  (repeated md els -> analyse md els = Throw) /\ (~ repeated md els -> exists s, analyse md els = Ok s /\ Inv md (numbered els) s).
Proof.
  intros md els Hg Hp. assert (Hf : found md (numbered els)). { intros e i j H. apply numbered_nth in H. exact (Hp i j (nth_error_In _ _ H)). }
  unfold analyse. split; intro H.
  - apply (fold_repeated md Hg (numbered els) [] state0 (Inv0 md) Hf).
    + cbn [app]. intro Hc. apply clean_repeated in Hc. contradiction.
    + intros A e i j B E. destruct A; discriminate.
  - apply (fold_clean md Hg (numbered els) [] state0 (Inv0 md) Hf). cbn [app]. apply clean_repeated, H.
Qed.

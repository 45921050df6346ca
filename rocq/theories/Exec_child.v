(** Steps of the program, and every execution. *)

From Coq Require Import List Arith NArith Ascii Bool Lia.
Import ListNotations.
From Verif Require Import Exec_model Exec_spec Exec_inv.
Local Open Scope N_scope.

Definition started (p : ppc) : Prop :=
  match p with Creating _ | Forking | Done _ => False | _ => True end.

Lemma live_inv : forall C s, started (pc s) -> Inv C s <-> live C s.
Proof. intros C s A. unfold Inv. destruct (pc s); try contradiction; tauto. Qed.

Lemma phase_outR : forall C s, live C s -> outR (pfds s) = cCapture C /\ msgR (pfds s) = true.
Proof.
  intros C s L. rewrite (lv_p C s L). pose proof (lv_phase C s L) as F. unfold phase in F.
  destruct (pc s); try contradiction; cbn; auto.
Qed.

(** What a step of a running program changes leaves the rest as it was. *)
Lemma phase_running : forall C s s' p, phase C s ->
  child s = CRun p \/ child s = CSetup ->
  pc s' = pc s -> mOut s' = mOut s -> mErr s' = mErr s -> werr s' = werr s -> size s' = size s ->
  (exists c, bSrc s = c ++ bSrc s') ->
  (cCapture C = true -> bOut s = [] -> ended (child s) -> bOut s' = [] /\ ended (child s')) ->
  phase C s'.
Proof.
  intros C s s' p F Hc E1 E2 E3 E4 E5 (c0 & E6) E7. unfold phase in *. rewrite E1.
  assert (Ne : ~ ended (child s)) by (destruct Hc as [-> | ->]; intros []).
  assert (Oe : outEnd C s -> outEnd C s').
  { intros O Ec. destruct (O Ec) as (_ & K). contradiction. }
  destruct (pc s); try contradiction.
  - rewrite E2, E3, E4. destruct F as (F1 & F2 & F3 & F4). repeat split; try assumption.
    rewrite F4 in E6. symmetry in E6. apply app_eq_nil in E6. tauto.
  - rewrite E2, E3, E4. destruct F as (F1 & F2 & F3 & cc & m & F4 & F5). repeat split; try assumption.
    exists (cc ++ c0), m. split; [assumption|]. rewrite F5, E6, <- !app_assoc. reflexivity.
  - rewrite E2, E3. assumption.
  - rewrite E3, E5. assumption.
  - rewrite E2, E3, E5. destruct F as [(F1 & F2)|F]; [left|right]; auto.
  - rewrite E2, E5. destruct F as [(F1 & _)|[F|(F1 & F2)]]; [contradiction|right; left; auto|right; right; auto].
Qed.

Lemma child_live : forall C s s', live C s -> stepC C s = Some s' -> live C s'.
Proof.
  intros C s s' L H.
  destruct (phase_outR C s L) as (Po & Pm).
  destruct L as [Lp Lc Lbo Lbm Ls Lm Ln Lg Lf Lw].
  unfold stepC in H. destruct (child s) as [| |p|t|t] eqn:Ech; try discriminate.
  - injection H as <-. constructor; sim; try assumption.
    + rewrite Lc. cbn [fdsC]. unfold childCloses, allMade; cbn.
      unfold given. destruct (cCapture C), (cStdin C); reflexivity.
    + unfold progress in *; sim. rewrite Ech in Lg. cbn [running] in *. exact Lg.
    + eapply (phase_running C s _ (PExit 0)); try reflexivity; try eassumption.
      * right; exact Ech.
      * exists []. reflexivity.
      * intros _ _ K. rewrite Ech in K. contradiction.
  - assert (Rn : child s = CRun p \/ child s = CSetup) by (left; exact Ech).
    assert (Ne : forall Q : Prop, ended (child s) -> Q) by (intros Q; rewrite Ech; intros []).
    unfold progress in Lg. rewrite Ech in Lg. cbn [running] in Lg.
    destruct p as [c|g|b k|b k|k].
    + injection H as <-. unfold dies. constructor; sim; try assumption.
      * reflexivity.
      * unfold progress; sim. cbn [effectOf eOut eMsg eStatus eUnread] in Lg.
        destruct Lg as (G1 & G2 & G3 & G4). rewrite !app_nil_r in *.
        unfold left, acc in *; sim. repeat split; auto.
      * eapply (phase_running C s); try reflexivity; try eassumption.
        -- exists []; reflexivity.
        -- intros _ _ K. apply (Ne _ K).
    + injection H as <-. unfold dies. constructor; sim; try assumption.
      * reflexivity.
      * unfold progress; sim. cbn [effectOf eOut eMsg eStatus eUnread] in Lg.
        destruct Lg as (G1 & G2 & G3 & G4). rewrite !app_nil_r in *.
        unfold left, acc in *; sim. repeat split; auto.
      * eapply (phase_running C s); try reflexivity; try eassumption.
        -- exists []; reflexivity.
        -- intros _ _ K. apply (Ne _ K).
    + cbn [effectOf eOut eMsg eStatus eUnread] in Lg. cbv beta iota zeta in Lg.
      destruct Lg as (G1 & G2 & G3 & G4).
      destruct (cCapture C) eqn:Ec.
      * rewrite Po in H. cbn [orb] in H.
        destruct (lenN (bOut s) <? cCap C) eqn:El; [|discriminate].
        apply N.ltb_lt in El. injection H as <-. constructor; sim; try assumption.
        -- rewrite lenN_app. cbn. lia.
        -- intros K; congruence.
        -- unfold progress; sim. cbn [running]. unfold left, acc in *; sim. rewrite Ec in *.
           repeat split; auto. rewrite G2. rewrite <- !app_assoc. reflexivity.
        -- eapply (phase_running C s); try reflexivity; try eassumption.
           ++ exists []; reflexivity.
           ++ intros _ _ K. apply (Ne _ K).
      * injection H as <-. constructor; sim; try assumption.
        -- intros _. now apply Ln.
        -- unfold progress; sim. cbn [running]. unfold left, acc in *; sim. rewrite Ec in *.
           repeat split; auto. rewrite G2. rewrite <- !app_assoc. reflexivity.
        -- eapply (phase_running C s); try reflexivity; try eassumption.
           ++ exists []; reflexivity.
           ++ intros _ _ K. apply (Ne _ K).
    + cbn [effectOf eOut eMsg eStatus eUnread] in Lg. cbv beta iota zeta in Lg.
      destruct Lg as (G1 & G2 & G3 & G4).
      rewrite Pm in H. cbn [orb] in H.
      destruct (lenN (bMsg s) <? cCap C) eqn:El; [|discriminate].
      apply N.ltb_lt in El. injection H as <-. constructor; sim; try assumption.
      * rewrite lenN_app. cbn. lia.
      * unfold progress; sim. cbn [running]. unfold left, acc in *; sim.
        repeat split; auto. rewrite G3. rewrite <- !app_assoc. reflexivity.
      * eapply (phase_running C s); try reflexivity; try eassumption.
        -- exists []; reflexivity.
        -- intros _ _ K. apply (Ne _ K).
    + destruct (given C) eqn:Gv.
      * destruct (bSrc s) as [|b r] eqn:Eb.
        -- destruct (orb (srcW (pfds s)) (srcW (cfds s))) eqn:Ew; [discriminate|].
           injection H as <-.
           assert (Lft : left C s = []).
           { unfold left. rewrite Gv, Eb. cbn [app].
             apply orb_false_iff in Ew. destruct Ew as (Ew & _). rewrite Lp in Ew.
             destruct (pc s); cbn [fdsP allMade srcW toWrite] in *; try reflexivity; congruence. }
           constructor; sim; try assumption.
           ++ unfold progress; sim. cbn [running].
              assert (Lft' : left C (setChild (CRun (k None)) (cfds s) s) = []) by exact Lft.
              rewrite Lft'. rewrite Lft in Lg. cbn [effectOf] in Lg. exact Lg.
           ++ eapply (phase_running C s); try reflexivity; try eassumption.
              ** exists []. reflexivity.
              ** intros _ _ K. apply (Ne _ K).
        -- injection H as <-.
           constructor; sim; try assumption.
           ++ unfold progress; sim. cbn [running].
              assert (Lft : left C s = b :: left C (setChild (CRun (k (Some b))) (cfds s) (setBSrc r s))).
              { unfold left; sim. rewrite Gv, Eb. reflexivity. }
              rewrite Lft in Lg. cbn [effectOf] in Lg. exact Lg.
           ++ eapply (phase_running C s); try reflexivity; try eassumption.
              ** exists [b]. rewrite Eb. reflexivity.
              ** intros _ _ K. apply (Ne _ K).
      * destruct (inh s) as [|b r] eqn:Eb.
        -- injection H as <-.
           assert (Lft : left C s = []) by (unfold left; now rewrite Gv).
           constructor; sim; try assumption.
           ++ unfold progress; sim. cbn [running].
              assert (Lft' : left C (setChild (CRun (k None)) (cfds s) s) = []) by exact Lft.
              rewrite Lft'. rewrite Lft in Lg. cbn [effectOf] in Lg. exact Lg.
           ++ eapply (phase_running C s); try reflexivity; try eassumption.
              ** exists []. reflexivity.
              ** intros _ _ K. apply (Ne _ K).
        -- injection H as <-.
           constructor; sim; try assumption.
           ++ unfold progress; sim. cbn [running].
              assert (Lft : left C s = b :: left C (setChild (CRun (k (Some b))) (cfds s) (setInh r s))).
              { unfold left; sim. rewrite Gv, Eb. reflexivity. }
              rewrite Lft in Lg. cbn [effectOf] in Lg. exact Lg.
           ++ eapply (phase_running C s); try reflexivity; try eassumption.
              ** exists []. reflexivity.
              ** intros _ _ K. apply (Ne _ K).
Qed.

Lemma stepC_pc : forall C s s', stepC C s = Some s' -> pc s' = pc s /\ pfds s' = pfds s.
Proof.
  intros C s s' H. unfold stepC in H.
  repeat match goal with
    | H : match ?x with _ => _ end = Some _ |- _ => destruct x; try discriminate
    | H : (if ?x then _ else _) = Some _ |- _ => destruct x; try discriminate
    end; injection H as <-; try (split; reflexivity);
    match goal with |- context [if ?x then _ else _] => destruct x end; split; reflexivity.
Qed.

Lemma child_step : forall C s s', Inv C s -> stepC C s = Some s' -> Inv C s'.
Proof.
  intros C s s' I H. pose proof (stepC_pc C s s' H) as (Ep & Ef).
  destruct (pc s) as [k| | |r| | | | |o] eqn:E.
  - unfold Inv in I; rewrite E in I. destruct I as (_ & _ & B & _). unfold stepC in H.
    rewrite B in H. discriminate.
  - unfold Inv in I; rewrite E in I. destruct I as (_ & B & _). unfold stepC in H.
    rewrite B in H. discriminate.
  - apply live_inv; [rewrite Ep; exact Logic.I|].
    eapply child_live; [|exact H]. apply live_inv; [rewrite E; exact Logic.I|exact I].
  - apply live_inv; [rewrite Ep; exact Logic.I|].
    eapply child_live; [|exact H]. apply live_inv; [rewrite E; exact Logic.I|exact I].
  - apply live_inv; [rewrite Ep; exact Logic.I|].
    eapply child_live; [|exact H]. apply live_inv; [rewrite E; exact Logic.I|exact I].
  - apply live_inv; [rewrite Ep; exact Logic.I|].
    eapply child_live; [|exact H]. apply live_inv; [rewrite E; exact Logic.I|exact I].
  - apply live_inv; [rewrite Ep; exact Logic.I|].
    eapply child_live; [|exact H]. apply live_inv; [rewrite E; exact Logic.I|exact I].
  - apply live_inv; [rewrite Ep; exact Logic.I|].
    eapply child_live; [|exact H]. apply live_inv; [rewrite E; exact Logic.I|exact I].
  - unfold Inv in *. rewrite E in I. rewrite Ep. destruct I as (I1 & I2 & I3).
    split; [exact I1|]. split; [now rewrite Ef|].
    intros K. specialize (I3 K). unfold stepC in H.
    destruct I3 as [I3|(t & I3)]; rewrite I3 in H; discriminate.
Qed.

Lemma turn_inv : forall C s w, Inv C s -> Inv C (turn C s w).
Proof.
  intros C s w I. unfold turn. destruct (move C w s) as [s'|] eqn:E; [|exact I].
  destruct w; cbn [move] in E; [eapply caller_step|eapply child_step]; eassumption.
Qed.

Lemma execution_inv : forall C sched, Inv C (execution C sched).
Proof.
  intros C sched. unfold execution. pose proof (inv_init C) as I. revert I. generalize (init C).
  induction sched as [|w l IH]; intros s I; cbn [fold_left]; [exact I|].
  apply IH. apply turn_inv; exact I.
Qed.

Lemma after_inv : forall C sch n, Inv C (after C sch n).
Proof.
  intros C sch n. induction n as [|n IH]; cbn [after]; [apply inv_init|apply turn_inv; exact IH].
Qed.

(** ** Ends *)

Fixpoint work (p : prog) (i : bytes) : nat :=
  match p with
  | PExit _ | PDies _ => 1
  | POut _ k | PMsg _ k => 2 + work k i
  | PIn k => match i with [] => 1 + work (k None) [] | b :: r => 1 + work (k (Some b)) r end
  end%nat.

Definition rank (C : call) (p : ppc) : nat :=
  match p with
  | Creating k => 12 + List.length (inputOf C) - k
  | Forking => 8 + List.length (inputOf C)
  | Closing => 7 + List.length (inputOf C)
  | Writing r => 6 + List.length r
  | CloseSrc => 5
  | ReadOut => 4
  | ReadMsg => 3
  | Waiting => 2
  | Done _ => 0
  end%nat.

Definition cwork (C : call) (s : st) : nat :=
  match child s with
  | CNone => 2 + work (childProg (cExe C) (cImage C)) (inputOf C)
  | CSetup => 1 + work (childProg (cExe C) (cImage C)) (left C s)
  | CRun p => work p (left C s)
  | _ => 0
  end%nat.

Definition measure (C : call) (s : st) : nat :=
  (rank C (pc s) + List.length (bOut s) + List.length (bMsg s) + cwork C s)%nat.

Lemma work_pos : forall p i, (0 < work p i)%nat.
Proof. intros p i; destruct p; cbn [work]; try destruct i; lia. Qed.

Lemma child_measure : forall C s s', live C s -> stepC C s = Some s' ->
  (measure C s' < measure C s)%nat.
Proof.
  intros C s s' L H. destruct (phase_outR C s L) as (Po & Pm).
  pose proof (stepC_pc C s s' H) as (Ep & _).
  unfold measure. rewrite Ep. unfold stepC in H.
  unfold cwork. destruct (child s) as [| |p|t|t] eqn:Ech; try discriminate.
  - injection H as <-. sim. unfold left; sim. lia.
  - destruct p as [c|g|b k|b k|k].
    + injection H as <-. sim. cbn [work]. lia.
    + injection H as <-. sim. cbn [work]. lia.
    + destruct (cCapture C) eqn:Ec.
      * rewrite Po in H. cbn [orb] in H. destruct (lenN (bOut s) <? cCap C); [|discriminate].
        injection H as <-. sim. unfold left; sim. cbn [work]. rewrite app_length. cbn [List.length]. lia.
      * injection H as <-. sim. unfold left; sim. cbn [work]. lia.
    + rewrite Pm in H. cbn [orb] in H. destruct (lenN (bMsg s) <? cCap C); [|discriminate].
      injection H as <-. sim. unfold left; sim. cbn [work]. rewrite app_length. cbn [List.length]. lia.
    + destruct (given C) eqn:Gv.
      * destruct (bSrc s) as [|b r] eqn:Eb.
        -- destruct (orb (srcW (pfds s)) (srcW (cfds s))) eqn:Ew; [discriminate|].
           injection H as <-.
           assert (Lft : left C s = []).
           { unfold left. rewrite Gv, Eb. cbn [app].
             apply orb_false_iff in Ew. destruct Ew as (Ew & _). rewrite (lv_p C s L) in Ew.
             destruct (pc s); cbn [fdsP allMade srcW toWrite] in *; try reflexivity; congruence. }
           sim. assert (Lft' : left C (setChild (CRun (k None)) (cfds s) s) = []) by exact Lft.
           rewrite Lft, Lft'. cbn [work]. lia.
        -- injection H as <-. sim.
           assert (Lft : left C s = b :: left C (setChild (CRun (k (Some b))) (cfds s) (setBSrc r s))).
           { unfold left; sim. rewrite Gv, Eb. reflexivity. }
           rewrite Lft. cbn [work]. lia.
      * destruct (inh s) as [|b r] eqn:Eb.
        -- injection H as <-. sim. 
           assert (Lft : left C s = []) by (unfold left; now rewrite Gv).
           assert (Lft' : left C (setChild (CRun (k None)) (cfds s) s) = []) by exact Lft.
           rewrite Lft, Lft'. cbn [work]. lia.
        -- injection H as <-. sim.
           assert (Lft : left C s = b :: left C (setChild (CRun (k (Some b))) (cfds s) (setInh r s))).
           { unfold left; sim. rewrite Gv, Eb. reflexivity. }
           rewrite Lft. cbn [work]. lia.
Qed.

Lemma left_pc : forall C s x, toWrite C x = toWrite C (pc s) -> left C (setPc x s) = left C s.
Proof. intros C s x E. unfold left; sim. now rewrite E. Qed.

Lemma pipes_le : forall C, (List.length (pipesMade C) <= 3)%nat.
Proof. intros C. unfold pipesMade. destruct (cCapture C), (given C); cbn; lia. Qed.

Lemma caller_measure : forall C s s', Inv C s -> stepP C s = Some s' ->
  (measure C s' < measure C s)%nat.
Proof.
  intros C s s' I H. unfold measure. unfold stepP in H.
  destruct (pc s) as [k| | |r| | | | |o] eqn:Ep.
  - unfold Inv in I; rewrite Ep in I. destruct I as (Lk & B). pose proof (pipes_le C).
    destruct B as (_ & Bc & _).
    destruct (nth_error (pipesMade C) k) as [mk|] eqn:En.
    + assert (k < List.length (pipesMade C))%nat by (apply nth_error_Some; rewrite En; discriminate).
      destruct (pipeFails C k); injection H as <-; sim; unfold cwork; sim; rewrite Bc; cbn [rank]; lia.
    + injection H as <-. sim. unfold cwork; sim. rewrite Bc. cbn [rank]. lia.
  - unfold Inv in I; rewrite Ep in I. destruct I as (_ & Bc & _ & _ & _ & _ & _ & Bs & _ & _ & _ & Bi).
    destruct (cForkFails C).
    + injection H as <-; sim. unfold cwork; sim. rewrite Bc. cbn [rank]. lia.
    + injection H as <-; sim. unfold cwork; sim. rewrite Bc. cbn [rank]. unfold left; sim.
      cbn [toWrite]. rewrite Bs, Bi. cbn [app].
      assert (E : (if given C then inputOf C else cInherited C) = inputOf C).
      { unfold given, inputOf. destruct (cStdin C); reflexivity. }
      rewrite E. lia.
  - injection H as <-. sim.
    assert (E : cwork C (setPc match cStdin C with Some m => Writing m | None => ReadOut end
              (setPfds (parentCloses (pfds s)) s)) = cwork C s).
    { unfold cwork; sim. unfold left; sim. rewrite Ep. cbn [toWrite]. unfold given, inputOf.
      destruct (cStdin C); reflexivity. }
    rewrite E. cbn [rank]. unfold inputOf. destruct (cStdin C); cbn [rank]; lia.
  - assert (L : live C s) by (unfold Inv in I; now rewrite Ep in I).
    destruct r as [|b r].
    + injection H as <-. sim. unfold cwork; sim. rewrite left_pc by (rewrite Ep; reflexivity).
      cbn [rank List.length]. lia.
    + pose proof (lv_p C s L) as Lp. rewrite Ep in Lp. cbn [fdsP] in Lp.
      rewrite Lp in H. cbn [srcR orb] in H.
      pose proof (lv_phase C s L) as F. unfold phase in F; rewrite Ep in F.
      destruct F as (_ & _ & _ & c0 & m & F & _).
      assert (Gv : given C = true) by (unfold given; now rewrite F).
      destruct (srcR (cfds s)) eqn:Er.
      * destruct (lenN (bSrc s) <? cCap C); [|discriminate]. injection H as <-. sim.
        assert (E : left C (setPc (Writing r) (setBSrc (bSrc s ++ [b]) s)) = left C s).
        { unfold left; sim. rewrite Gv, Ep. cbn [toWrite]. rewrite <- app_assoc. reflexivity. }
        unfold cwork; sim. rewrite E. cbn [rank List.length]. lia.
      * assert (E : cwork C s = 0%nat).
        { rewrite (lv_c C s L) in Er. pose proof (lv_prog C s L) as Lg. unfold progress in Lg.
          unfold cwork. destruct (child s) as [| |p|t|t]; cbn [fdsC allMade srcR running] in *;
          try reflexivity; try contradiction; congruence. }
        assert (E' : child s <> CNone /\ child s <> CSetup /\ forall p, child s <> CRun p).
        { unfold cwork in E. destruct (child s) as [| |p|t|t]; try lia;
            [pose proof (work_pos p (left C s)); lia|..]; repeat split; try discriminate; intros p; discriminate. }
        destruct E' as (E1 & E2 & E3).
        destruct (cIgnPipe C); injection H as <-; sim; rewrite E; unfold cwork; sim;
          destruct (child s) as [| |p|t|t]; try congruence; try (exfalso; eapply E3; reflexivity);
          cbn [rank List.length]; lia.
  - injection H as <-. sim. unfold cwork; sim.
    assert (E : left C (setPc ReadOut (setPfds (closeSrcW (pfds s)) s)) = left C s).
    { unfold left; sim. now rewrite Ep. }
    rewrite E. cbn [rank]. lia.
  - destruct (cCapture C) eqn:Ec.
    + destruct (bOut s) as [|b0 bo] eqn:Eb.
      * destruct (orb (outW (pfds s)) (outW (cfds s))); [discriminate|]. injection H as <-. sim.
        unfold cwork; sim. rewrite left_pc by (rewrite Ep; reflexivity). rewrite Eb. cbn [rank]. lia.
      * rewrite <- Eb in *. cbv beta iota zeta in H.
        assert (Lx : (List.length (skipn chunk (bOut s)) < List.length (bOut s))%nat).
        { rewrite skipn_length, Eb. unfold chunk. cbn [List.length]. lia. }
        revert Lx H. generalize (skipn chunk (bOut s)) (firstn chunk (bOut s)). intros sk x Lx H.
        injection H as <-.
        match goal with |- context [if ?t then _ else _] => destruct t end; sim; unfold cwork; sim;
          unfold left; sim; rewrite ?Ep; cbn [toWrite rank]; lia.
    + injection H as <-. sim. unfold cwork; sim. rewrite left_pc by (rewrite Ep; reflexivity).
      cbn [rank]. lia.
  - destruct (bMsg s) as [|b0 bo] eqn:Eb.
    + destruct (orb (msgW (pfds s)) (msgW (cfds s))); [discriminate|]. injection H as <-. sim.
      unfold cwork; sim. rewrite left_pc by (rewrite Ep; reflexivity). rewrite Eb. cbn [rank]. lia.
    + rewrite <- Eb in *. cbv beta iota zeta in H.
      assert (Lx : (List.length (skipn chunk (bMsg s)) < List.length (bMsg s))%nat).
      { rewrite skipn_length, Eb. unfold chunk. cbn [List.length]. lia. }
        revert Lx H. generalize (skipn chunk (bMsg s)) (firstn chunk (bMsg s)). intros sk x Lx H.
        injection H as <-.
      match goal with |- context [if ?t then _ else _] => destruct t end; sim; unfold cwork; sim;
        unfold left; sim; rewrite ?Ep; cbn [toWrite rank]; lia.
  - destruct (child s) as [| |p|t|t] eqn:Ech; try discriminate.
    destruct (cIgnChld C); injection H as <-; sim; unfold cwork; sim; rewrite Ech; cbn [rank]; lia.
  - discriminate.
Qed.

(** If no pipe can get full while nobody empties it, someone can move. *)
Lemma can_move : forall C s, smallEnough C -> Inv C s ->
  (forall o, pc s <> Done o) ->
  (exists s', stepP C s = Some s') \/ (started (pc s) /\ exists s', stepC C s = Some s').
Proof.
  intros C s (Sc & Sm & So & Si) I Nd.
  destruct (pc s) as [k| | |r| | | | |o] eqn:Ep; try (exfalso; eapply Nd; reflexivity).
  - left. unfold stepP. rewrite Ep. destruct (nth_error (pipesMade C) k); [|eauto].
    destruct (pipeFails C k); eauto.
  - left. unfold stepP. rewrite Ep. destruct (cForkFails C); eauto.
  - left. unfold stepP. rewrite Ep. eauto.
  - (* writing *)
    assert (L : live C s) by (unfold Inv in I; now rewrite Ep in I).
    unfold stepP. rewrite Ep. destruct r as [|b r]; [left; eauto|].
    destruct (orb (srcR (pfds s)) (srcR (cfds s))) eqn:Er; [|left; destruct (cIgnPipe C); eauto].
    destruct (lenN (bSrc s) <? cCap C) eqn:El; [left; eauto|].
    right. split; [exact Logic.I|].
    apply N.ltb_ge in El.
    destruct (phase_outR C s L) as (Po & Pm).
    destruct L as [Lp Lc Lbo Lbm Ls Lm Ln Lg Lf Lw].
    unfold phase in Lf; rewrite Ep in Lf. destruct Lf as (F1 & F2 & F3 & cc & m & F4 & F5).
    assert (Gv : given C = true) by (unfold given; now rewrite F4).
    assert (Li : lenN (inputOf C) > cCap C).
    { unfold inputOf. rewrite F4, F5. rewrite !lenN_app.
      assert (lenN (b :: r) >= 1) by (unfold lenN; cbn [List.length]; lia). lia. }
    rewrite Lp, Ep in Er. cbn [fdsP srcR orb] in Er.
    unfold stepC. unfold progress in Lg. rewrite Lc in Er.
    destruct (child s) as [| |p|t|t] eqn:Ech; cbn [fdsC allMade srcR noFds] in Er;
      try discriminate; [eauto|].
    cbn [running] in Lg.
    destruct p as [c|g|b' k|b' k|k]; try eauto.
    + destruct (cCapture C) eqn:Ec; [|eauto].
      rewrite Po. cbn [orb].
      destruct (lenN (bOut s) <? cCap C) eqn:Eo; [eauto|]. exfalso.
      apply N.ltb_ge in Eo. cbv beta iota zeta in Lg. destruct Lg as (_ & G2 & _).
      destruct (Si Gv eq_refl) as [K|K]; [lia|].
      rewrite G2 in K. unfold acc in K. rewrite Ec, !lenN_app in K.
      cbn [effectOf eOut] in K. unfold lenN in K at 3. cbn [List.length] in K. lia.
    + rewrite Pm. cbn [orb]. destruct (lenN (bMsg s) <? cCap C) eqn:Eo; [eauto|]. exfalso.
      apply N.ltb_ge in Eo. cbv beta iota zeta in Lg. destruct Lg as (_ & _ & G3 & _).
      rewrite G3 in Sm. rewrite !lenN_app in Sm.
      cbn [effectOf eMsg] in Sm. unfold lenN in Sm at 3. cbn [List.length] in Sm. lia.
    + rewrite Gv. destruct (bSrc s) as [|b' r'] eqn:Eb; [|eauto].
      exfalso. cbn in El. lia.
  - left. unfold stepP. rewrite Ep. eauto.
  - (* reading the output *)
    assert (L : live C s) by (unfold Inv in I; now rewrite Ep in I).
    unfold stepP. rewrite Ep. destruct (cCapture C) eqn:Ec; [|left; eauto].
    destruct (bOut s) as [|b0 bo] eqn:Eb; [|left; eauto].
    destruct (orb (outW (pfds s)) (outW (cfds s))) eqn:Ew; [|left; eauto].
    right. split; [exact Logic.I|].
    destruct (phase_outR C s L) as (Po & Pm).
    destruct L as [Lp Lc Lbo Lbm Ls Lm Ln Lg Lf Lw].
    rewrite Lp, Ep in Ew. cbn [fdsP outW orb] in Ew. rewrite Lc in Ew.
    unfold stepC. unfold progress in Lg.
    destruct (child s) as [| |p|t|t] eqn:Ech; cbn [fdsC allMade outW noFds] in Ew;
      try discriminate; [eauto|]. cbn [running] in Lg.
    destruct p as [c|g|b' k|b' k|k]; try eauto.
    + rewrite Ec, Po, Ec, Eb. cbn [orb]. change (lenN []) with 0.
      assert (El : 0 <? cCap C = true) by (apply N.ltb_lt; exact Sc). rewrite El. eexists; reflexivity.
    + rewrite Pm. cbn [orb]. destruct (lenN (bMsg s) <? cCap C) eqn:Eo; [eauto|]. exfalso.
      apply N.ltb_ge in Eo. cbv beta iota zeta in Lg. destruct Lg as (_ & _ & G3 & _).
      rewrite G3 in Sm. rewrite !lenN_app in Sm.
      cbn [effectOf eMsg] in Sm. unfold lenN in Sm at 3. cbn [List.length] in Sm. lia.
    + destruct (given C) eqn:Gv.
      * destruct (bSrc s) as [|b' r']; [|eauto].
        rewrite Lp, Ep, Lc. cbn [fdsP fdsC srcW orb]. eauto.
      * destruct (inh s); eauto.
  - (* reading the messages *)
    assert (L : live C s) by (unfold Inv in I; now rewrite Ep in I).
    unfold stepP. rewrite Ep.
    destruct (bMsg s) as [|b0 bo] eqn:Eb; [|left; eauto].
    destruct (orb (msgW (pfds s)) (msgW (cfds s))) eqn:Ew; [|left; eauto].
    right. split; [exact Logic.I|].
    destruct (phase_outR C s L) as (Po & Pm).
    destruct L as [Lp Lc Lbo Lbm Ls Lm Ln Lg Lf Lw].
    rewrite Lp, Ep in Ew. cbn [fdsP msgW orb] in Ew. rewrite Lc in Ew.
    unfold phase in Lf; rewrite Ep in Lf.
    unfold stepC. unfold progress in Lg.
    destruct (child s) as [| |p|t|t] eqn:Ech; cbn [fdsC allMade msgW noFds] in Ew;
      try discriminate; [eauto|]. cbn [running] in Lg.
    destruct p as [c|g|b' k|b' k|k]; try eauto.
    + destruct (cCapture C) eqn:Ec; [|eauto].
      rewrite Po. cbn [orb].
      destruct (lenN (bOut s) <? cCap C) eqn:Eo; [eauto|]. exfalso.
      apply N.ltb_ge in Eo. cbv beta iota zeta in Lg. destruct Lg as (_ & G2 & _).
      destruct Lf as [(_ & F)|(F & _)].
      { destruct (F Ec) as (_ & K). rewrite Ech in K. exact K. }
      specialize (So eq_refl). rewrite G2 in So. unfold acc in So. rewrite Ec, !lenN_app in So.
      cbn [effectOf eOut] in So. unfold lenN in So at 3. cbn [List.length] in So. lia.
    + rewrite Pm, Eb. cbn [orb]. change (lenN []) with 0.
      assert (El : 0 <? cCap C = true) by (apply N.ltb_lt; exact Sc). rewrite El. eexists; reflexivity.
    + destruct (given C) eqn:Gv.
      * destruct (bSrc s) as [|b' r']; [|eauto].
        rewrite Lp, Ep, Lc. cbn [fdsP fdsC srcW orb]. eauto.
      * destruct (inh s); eauto.
  - (* waiting *)
    assert (L : live C s) by (unfold Inv in I; now rewrite Ep in I).
    unfold stepP. rewrite Ep.
    destruct (phase_outR C s L) as (Po & Pm).
    destruct L as [Lp Lc Lbo Lbm Ls Lm Ln Lg Lf Lw].
    unfold phase in Lf; rewrite Ep in Lf.
    unfold progress in Lg.
    destruct (child s) as [| |p|t|t] eqn:Ech; cbn [running] in Lg; try contradiction;
      [right; split; [exact Logic.I|]; unfold stepC; rewrite Ech; eauto|
      |left; destruct (cIgnChld C); eauto].
    right. split; [exact Logic.I|]. unfold stepC. rewrite Ech.
    destruct p as [c|g|b' k|b' k|k]; try eauto.
    + destruct (cCapture C) eqn:Ec; [|eauto].
      rewrite Po. cbn [orb].
      destruct (lenN (bOut s) <? cCap C) eqn:Eo; [eauto|]. exfalso.
      apply N.ltb_ge in Eo. cbv beta iota zeta in Lg. destruct Lg as (_ & G2 & _).
      destruct Lf as [(K & _)|[F|(F & _)]]; [exact K| |].
      * specialize (So eq_refl). rewrite G2 in So. unfold acc in So. rewrite Ec, !lenN_app in So.
        cbn [effectOf eOut] in So. unfold lenN in So at 3. cbn [List.length] in So. lia.
      * destruct (F Ec) as (_ & K). rewrite Ech in K. exact K.
    + rewrite Pm. cbn [orb]. destruct (lenN (bMsg s) <? cCap C) eqn:Eo; [eauto|]. exfalso.
      apply N.ltb_ge in Eo. cbv beta iota zeta in Lg. destruct Lg as (_ & _ & G3 & _).
      rewrite G3 in Sm. rewrite !lenN_app in Sm.
      cbn [effectOf eMsg] in Sm. unfold lenN in Sm at 3. cbn [List.length] in Sm. lia.
    + destruct (given C) eqn:Gv.
      * destruct (bSrc s) as [|b' r']; [|eauto].
        rewrite Lp, Ep, Lc. cbn [fdsP fdsC srcW orb]. eauto.
      * destruct (inh s); eauto.
Qed.

(** ** Fair executions end *)

Lemma turn_measure : forall C s w, Inv C s -> (forall o, pc s <> Done o) ->
  (measure C (turn C s w) < measure C s)%nat \/ turn C s w = s.
Proof.
  intros C s w I Nd. unfold turn. destruct (move C w s) as [s'|] eqn:E; [left|right; reflexivity].
  destruct w; cbn [move] in E.
  - eapply caller_measure; eassumption.
  - apply child_measure; [|exact E].
    destruct (pc s) as [k| | |r| | | | |o] eqn:Ep;
      try (unfold Inv in I; rewrite Ep in I; exact I).
    + unfold Inv in I; rewrite Ep in I. destruct I as (_ & _ & B & _). unfold stepC in E.
      rewrite B in E; discriminate.
    + unfold Inv in I; rewrite Ep in I. destruct I as (_ & B & _). unfold stepC in E.
      rewrite B in E; discriminate.
    + exfalso; eapply Nd; reflexivity.
Qed.

Lemma fair_ends : forall C sch, smallEnough C -> fair sch ->
  exists n o, pc (after C sch n) = Done o.
Proof.
  intros C sch Sm Fr.
  assert (K : forall d n, (measure C (after C sch n) <= d)%nat ->
              exists m o, pc (after C sch m) = Done o).
  { induction d as [d IH] using lt_wf_ind. intros n Hd.
    destruct (match pc (after C sch n) with Done _ => true | _ => false end) eqn:Ed.
    { destruct (pc (after C sch n)) eqn:Ep; try discriminate. eauto. }
    assert (Nd : forall o, pc (after C sch n) <> Done o) by (intros o E; rewrite E in Ed; discriminate).
    pose proof (after_inv C sch n) as I.
    assert (Mv : exists w s', move C w (after C sch n) = Some s').
    { destruct (can_move C _ Sm I Nd) as [(s' & H)|(_ & s' & H)]; [exists Caller|exists Child]; eauto. }
    destruct Mv as (w & s' & Hm). destruct (Fr n w) as (m & Hm1 & Hm2).
    (* either something moves before m, or the state at m is the same *)
    assert (P : forall j, (n + j <= m)%nat ->
              after C sch (n + j) = after C sch n \/
              exists i, (measure C (after C sch i) < measure C (after C sch n))%nat).
    { induction j as [|j IHj]; intros Hj; [left; now rewrite Nat.add_0_r|].
      destruct IHj as [E|E]; [lia| |right; exact E].
      rewrite Nat.add_succ_r. cbn [after]. rewrite E.
      destruct (turn_measure C (after C sch n) (sch (n + j)%nat) I Nd) as [L|L]; [|left; exact L].
      right. exists (S (n + j)). cbn [after]. rewrite E. exact L. }
    destruct (P (m - n)%nat) as [E|(i & Hi)]; [lia| |].
    - replace (n + (m - n))%nat with m in E by lia.
      assert (L : (measure C (after C sch (S m)) < measure C (after C sch n))%nat).
      { cbn [after]. rewrite E, Hm2.
        destruct (turn_measure C (after C sch n) w I Nd) as [L|L]; [exact L|].
        exfalso. unfold turn in L. rewrite Hm in L.
        destruct w; cbn [move] in Hm.
        - pose proof (caller_measure C _ _ I Hm) as Q. rewrite L in Q. lia.
        - destruct (can_move C _ Sm I Nd) as [(s2 & _)|(St & _)].
          + assert (Lv : live C (after C sch n)).
            { destruct (pc (after C sch n)) as [k| | |r| | | | |o] eqn:Ep;
                try (unfold Inv in I; rewrite Ep in I; exact I).
              - unfold Inv in I; rewrite Ep in I. destruct I as (_ & _ & B & _). unfold stepC in Hm.
                rewrite B in Hm; discriminate.
              - unfold Inv in I; rewrite Ep in I. destruct I as (_ & B & _). unfold stepC in Hm.
                rewrite B in Hm; discriminate.
              - exfalso; eapply Nd; reflexivity. }
            pose proof (child_measure C _ _ Lv Hm) as Q. rewrite L in Q. lia.
          + pose proof (child_measure C _ _ (proj1 (live_inv C _ St) I) Hm) as Q. rewrite L in Q. lia. }
      eapply (IH (measure C (after C sch (S m)))); [lia|reflexivity].
    - eapply (IH (measure C (after C sch i))); [lia|reflexivity]. }
  eapply (K _ O). reflexivity.
Qed.

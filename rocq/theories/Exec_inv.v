(** What holds in every state of a call, whatever the order of the steps. *)

From Coq Require Import List Arith NArith Ascii Bool Lia.
Import ListNotations.
From Verif Require Import Exec_model Exec_spec.
Local Open Scope N_scope.

Lemma lenN_app : forall a b, lenN (a ++ b) = lenN a + lenN b.
Proof. intros a b; unfold lenN; rewrite app_length; lia. Qed.

Lemma lenN_nil : forall a, lenN a = 0 -> a = [].
Proof. intros [|x a] H; [reflexivity|]. unfold lenN in H; cbn [List.length] in H; lia. Qed.

Lemma lenN_firstn : forall l, lenN (firstn chunk l) <= 128.
Proof.
  intros l; unfold lenN. pose proof (firstn_le_length chunk l) as _.
  assert (List.length (firstn chunk l) <= chunk)%nat by apply firstn_le_length.
  unfold chunk in *. lia.
Qed.

Lemma lenN_skipn : forall l, lenN (skipn chunk l) <= lenN l.
Proof. intros l; unfold lenN. rewrite skipn_length. lia. Qed.

Definition allMade (C : call) : fds :=
  {| msgR := true; msgW := true; outR := cCapture C; outW := cCapture C;
     srcR := given C; srcW := given C |}.

Definition fdsP (C : call) (p : ppc) : fds :=
  match p with
  | Creating k => fold_left (fun f mk => mk f) (firstn k (pipesMade C)) noFds
  | Forking | Closing => allMade C
  | Writing _ | CloseSrc =>
      {| msgR := true; msgW := false; outR := cCapture C; outW := false;
         srcR := false; srcW := given C |}
  | ReadOut | ReadMsg | Waiting =>
      {| msgR := true; msgW := false; outR := cCapture C; outW := false;
         srcR := false; srcW := false |}
  | Done _ => noFds
  end.

Definition fdsC (C : call) (c : cpc) : fds :=
  match c with
  | CSetup => allMade C
  | CRun _ => {| msgR := false; msgW := true; outR := false; outW := cCapture C;
                 srcR := given C; srcW := false |}
  | _ => noFds
  end.

(** What the program can still read. *)
Definition toWrite (C : call) (p : ppc) : bytes :=
  match p with Closing => inputOf C | Writing r => r | _ => [] end.
Definition left (C : call) (s : st) : bytes :=
  if given C then bSrc s ++ toWrite C (pc s) else inh s.

Definition running (C : call) (c : cpc) : option prog :=
  match c with
  | CSetup => Some (childProg (cExe C) (cImage C))
  | CRun p => Some p
  | _ => None
  end.

Definition ended (c : cpc) : Prop := match c with CZombie _ => True | _ => False end.

Definition acc (C : call) (s : st) : bytes :=
  if cCapture C then mOut s ++ bOut s else screen s.

Definition src_phase (p : ppc) : Prop :=
  match p with Closing | Writing _ => True | _ => False end.

Definition progress (C : call) (s : st) : Prop :=
  match child s with
  | CZombie t =>
      t = eStatus (effectC C) /\ eOut (effectC C) = acc C s /\
      eMsg (effectC C) = mErr s ++ bMsg s /\
      (given C = true -> src_phase (pc s) -> eUnread (effectC C) = left C s)
  | c =>
      match running C c with
      | Some p =>
          let e := effectOf p (left C s) in
          eStatus (effectC C) = eStatus e /\ eOut (effectC C) = acc C s ++ eOut e /\
          eMsg (effectC C) = mErr s ++ bMsg s ++ eMsg e /\
          eUnread (effectC C) = eUnread e
      | None => False
      end
  end.

Definition outEnd (C : call) (s : st) : Prop :=
  cCapture C = true -> bOut s = [] /\ ended (child s).

Definition phase (C : call) (s : st) : Prop :=
  match pc s with
  | Closing => mOut s = [] /\ mErr s = [] /\ werr s = false /\ bSrc s = []
  | Writing r => mOut s = [] /\ mErr s = [] /\ werr s = false /\
      exists c m, cStdin C = Some m /\ m = c ++ bSrc s ++ r
  | CloseSrc => mOut s = [] /\ mErr s = []
  | ReadOut => mErr s = [] /\ size s <= 10000
  | ReadMsg => (size s <= 10000 /\ outEnd C s) \/ (10000 < lenN (mOut s) <= 10128 /\ mErr s = [])
  | Waiting => (ended (child s) /\ bMsg s = [] /\ outEnd C s /\ size s <= 10000) \/
               (10000 < lenN (mOut s) <= 10128) \/
               (outEnd C s /\ 10000 < size s)
  | _ => False
  end.

Record live (C : call) (s : st) : Prop := {
  lv_p : pfds s = fdsP C (pc s);
  lv_c : cfds s = fdsC C (child s);
  lv_bout : lenN (bOut s) <= cCap C;
  lv_bmsg : lenN (bMsg s) <= cCap C;
  lv_size : size s = lenN (mOut s) + lenN (mErr s);
  lv_max : lenN (mOut s) <= 10128;
  lv_nocap : cCapture C = false -> mOut s = [] /\ bOut s = [];
  lv_prog : progress C s;
  lv_phase : phase C s;
  lv_werr : werr s = true -> excused C (Thr (ThrWrite None)) }.

(** What holds before the program is started. *)
Definition before (C : call) (s : st) : Prop :=
  pfds s = fdsP C (pc s) /\ child s = CNone /\ cfds s = noFds /\
  mOut s = [] /\ mErr s = [] /\ size s = 0 /\ werr s = false /\
  bSrc s = [] /\ bOut s = [] /\ bMsg s = [] /\ screen s = [] /\ inh s = cInherited C.

Definition Inv (C : call) (s : st) : Prop :=
  match pc s with
  | Creating k => (k <= List.length (pipesMade C))%nat /\ before C s
  | Forking => before C s
  | Done o => (expected C o \/ excused C o) /\ pfds s = noFds /\
      (o <> Killed -> child s = CNone \/ exists t, child s = CReaped t)
  | _ => live C s
  end.

Lemma inv_init : forall C, Inv C (init C).
Proof.
  intros C. unfold Inv. cbn [init pc]. split; [lia|].
  unfold before; cbn [init pc pfds child cfds mOut mErr size werr bSrc bOut bMsg screen inh].
  repeat split; reflexivity.
Qed.

Lemma fdsP_all : forall C, fdsP C (Creating (List.length (pipesMade C))) = allMade C.
Proof.
  intros C. cbn [fdsP]. rewrite firstn_all. unfold pipesMade, allMade.
  destruct (cCapture C), (given C); reflexivity.
Qed.

Lemma fdsP_S : forall C k mk, nth_error (pipesMade C) k = Some mk ->
  fdsP C (Creating (S k)) = mk (fdsP C (Creating k)).
Proof.
  intros C k mk H. cbn [fdsP].
  assert (E : firstn (S k) (pipesMade C) = firstn k (pipesMade C) ++ [mk]).
  { clear - H. revert k H. generalize (pipesMade C). induction l as [|x l IH]; intros [|k] H;
      cbn [nth_error] in H; try discriminate.
    - injection H as ->. reflexivity.
    - cbn [firstn app]. now rewrite <- (IH k H). }
  rewrite E, fold_left_app. reflexivity.
Qed.

Ltac sim := cbn [finish dies setPc setPfds setWerr setChild setBSrc setBOut setBMsg setScreen
  setInh gotOut gotMsg pc pfds mOut mErr size werr child cfds bSrc bOut bMsg screen inh] in *.

(** ** Steps of the caller *)

Lemma caller_before : forall C s s',
  Inv C s -> match pc s with Creating _ | Forking => True | _ => False end ->
  stepP C s = Some s' -> Inv C s'.
Proof.
  intros C s s' I T H. unfold Inv in I. unfold stepP in H.
  destruct (pc s) as [k| | | | | | | |o] eqn:Ep; try contradiction.
  - destruct I as [Lk B].
    destruct (nth_error (pipesMade C) k) as [mk|] eqn:En.
    + destruct (pipeFails C k) eqn:Ef.
      * injection H as <-. unfold Inv; sim. split; [|split].
        -- right. cbn [excused]. unfold pipeFails in Ef.
           destruct (cPipeFails C) as [j|]; [now exists j|discriminate].
        -- reflexivity.
        -- intros _; left. now destruct B as (_ & B & _).
      * injection H as <-. unfold Inv; sim. split.
        -- assert (k < List.length (pipesMade C))%nat by (apply nth_error_Some; rewrite En; discriminate).
           lia.
        -- unfold before in *; sim. destruct B as (B1 & B). split; [|exact B].
           rewrite Ep in B1. rewrite (fdsP_S C k mk En), B1. reflexivity.
    + injection H as <-. unfold Inv; sim. unfold before in *; sim.
      destruct B as (B1 & B). split; [|exact B].
      apply nth_error_None in En.
      assert (k = List.length (pipesMade C)) as -> by lia.
      rewrite Ep in B1. rewrite fdsP_all in B1. exact B1.
  - destruct (cForkFails C) eqn:Ef.
    + injection H as <-. unfold Inv; sim. split; [|split].
      * right; exact Ef.
      * reflexivity.
      * intros _; left. now destruct I as (_ & B & _).
    + injection H as <-. unfold Inv; sim.
      destruct I as (B1 & B2 & B3 & B4 & B5 & B6 & B7 & B8 & B9 & B10 & B11 & B12).
      rewrite Ep in B1.
      constructor; sim.
      * exact B1.
      * rewrite B1. reflexivity.
      * rewrite B9. cbn. lia.
      * rewrite B10. cbn. lia.
      * rewrite B4, B5, B6. reflexivity.
      * rewrite B4; cbn; lia.
      * now intros _.
      * unfold progress; sim. cbn [running]. unfold left, acc; sim.
        cbn [toWrite]. rewrite B4, B5, B8, B9, B10, B11, B12. cbn [app].
        assert (E : (if given C then inputOf C else cInherited C) = inputOf C).
        { unfold given, inputOf. destruct (cStdin C); reflexivity. }
        rewrite E. destruct (cCapture C); repeat split; reflexivity.
      * unfold phase; sim. now rewrite B4, B5, B7, B8.
      * rewrite B7. discriminate.
Qed.

Lemma caller_closing : forall C s s', live C s -> pc s = Closing ->
  stepP C s = Some s' -> Inv C s'.
Proof.
  intros C s s' L Ep H. unfold stepP in H. rewrite Ep in H. injection H as <-.
  destruct L as [Lp Lc Lbo Lbm Ls Lm Ln Lg Lf Lw].
  unfold phase in Lf; rewrite Ep in Lf. destruct Lf as (F1 & F2 & F3 & F4).
  rewrite Ep in Lp.
  assert (Hl : forall x, x = match cStdin C with Some m => Writing m | None => ReadOut end ->
             left C (setPc x (setPfds (parentCloses (pfds s)) s)) = left C s).
  { intros x ->. unfold left; sim. rewrite Ep. cbn [toWrite]. unfold given, inputOf.
    destruct (cStdin C); reflexivity. }
  destruct (cStdin C) as [m|] eqn:Es.
  - unfold Inv; sim. constructor; sim; try assumption.
    + rewrite Lp. reflexivity.
    + unfold progress in *; sim. rewrite (Hl (Writing m) eq_refl). rewrite Ep in Lg.
      destruct (child s); try exact Lg.
    + unfold phase; sim. repeat split; try assumption.
      exists [], m. rewrite F4. now split.
  - unfold Inv; sim. constructor; sim; try assumption.
    + rewrite Lp. unfold parentCloses, allMade, fdsP; cbn. unfold given. rewrite Es. reflexivity.
    + unfold progress in *; sim. rewrite (Hl ReadOut eq_refl). rewrite Ep in Lg.
      destruct (child s); try exact Lg.
      destruct Lg as (a & b & c & d). repeat split; try assumption.
      intros G; exfalso. unfold given in G. now rewrite Es in G.
    + unfold phase; sim. split; [assumption|]. rewrite Ls, F1, F2; cbn; lia.
Qed.

Lemma caller_writing : forall C s s' r, live C s -> pc s = Writing r ->
  stepP C s = Some s' -> Inv C s'.
Proof.
  intros C s s' r L Ep H. unfold stepP in H. rewrite Ep in H.
  destruct L as [Lp Lc Lbo Lbm Ls Lm Ln Lg Lf Lw].
  unfold phase in Lf; rewrite Ep in Lf. destruct Lf as (F1 & F2 & F3 & cc & m & F4 & F5).
  assert (Gv : given C = true) by (unfold given; now rewrite F4).
  rewrite Ep in Lp. cbn [fdsP] in Lp.
  destruct r as [|b r].
  - injection H as <-. unfold Inv; sim. constructor; sim; try assumption.
    + unfold progress in *; sim. unfold left in *; sim. rewrite Ep in Lg. cbn [toWrite] in *.
      destruct (child s); try exact Lg.
      destruct Lg as (a & b & c & d). repeat split; try assumption.
      intros G K; exfalso; exact K.
    + unfold phase; sim. now split.
  - rewrite Lp in H. cbn [srcR orb] in H.
    destruct (srcR (cfds s)) eqn:Er.
    + destruct (lenN (bSrc s) <? cCap C) eqn:El; [|discriminate].
      injection H as <-. unfold Inv; sim. constructor; sim; try assumption.
      * unfold progress in *; sim.
        assert (E : left C (setPc (Writing r) (setBSrc (bSrc s ++ [b]) s)) = left C s).
        { unfold left; sim. rewrite Gv, Ep. cbn [toWrite]. rewrite <- app_assoc. reflexivity. }
        rewrite E. rewrite Ep in Lg. destruct (child s); exact Lg.
      * unfold phase; sim. repeat split; try assumption.
        exists cc, m. split; [assumption|]. rewrite <- app_assoc. exact F5.
    + assert (De : ended (child s)).
      { rewrite Lc in Er. unfold progress in Lg.
        destruct (child s) as [| |p|t|t]; cbn [fdsC allMade srcR ended running] in *;
          try exact I; try contradiction; congruence. }
      assert (Un : eUnread (effectC C) = bSrc s ++ b :: r).
      { unfold progress in Lg. destruct (child s); try contradiction.
        destruct Lg as (_ & _ & _ & Lg). rewrite Lg; [|exact Gv|rewrite Ep; exact I].
        unfold left. now rewrite Gv, Ep. }
      destruct (cIgnPipe C) eqn:Ei.
      * injection H as <-. unfold Inv; sim. constructor; sim; try assumption.
        -- unfold progress in *; sim. unfold left; sim. destruct (child s); try contradiction.
           destruct Lg as (a & b' & c & d). repeat split; try assumption.
           intros G K; exfalso; exact K.
        -- unfold phase; sim. now split.
        -- rewrite F4. intros E. apply Nat.eqb_eq in E.
           cbn [excused]. repeat split.
           ++ exact Ei.
           ++ unfold inputOf. rewrite F4. intros ->. cbn in E. lia.
           ++ rewrite F4, Un. f_equal. subst m.
              rewrite !app_length in E. cbn [List.length] in E.
              destruct cc; [reflexivity|cbn in E; lia].
      * injection H as <-. unfold Inv; sim. split; [|split].
        -- right. cbn [excused]. repeat split; [exact Ei|exact Gv|].
           rewrite Un. destruct (bSrc s); discriminate.
        -- reflexivity.
        -- intros K; congruence.
Qed.

Lemma caller_closeSrc : forall C s s', live C s -> pc s = CloseSrc ->
  stepP C s = Some s' -> Inv C s'.
Proof.
  intros C s s' L Ep H. unfold stepP in H. rewrite Ep in H. injection H as <-.
  destruct L as [Lp Lc Lbo Lbm Ls Lm Ln Lg Lf Lw].
  unfold phase in Lf; rewrite Ep in Lf. destruct Lf as (F1 & F2).
  rewrite Ep in Lp.
  unfold Inv; sim. constructor; sim; try assumption.
  - rewrite Lp. reflexivity.
  - unfold progress in *; sim. unfold left in *; sim. rewrite Ep in Lg. cbn [toWrite] in *.
    destruct (child s); exact Lg.
  - unfold phase; sim. split; [assumption|]. rewrite Ls, F1, F2; cbn; lia.
Qed.

Lemma progress_pc : forall C s x, progress C s ->
  match pc s with ReadOut | ReadMsg | Waiting => True | _ => False end ->
  match x with ReadOut | ReadMsg | Waiting => True | _ => False end ->
  progress C (setPc x s).
Proof.
  intros C s x G A B. unfold progress in *; sim.
  assert (E : left C (setPc x s) = left C s).
  { unfold left; sim. destruct (pc s); try contradiction; destruct x; try contradiction; reflexivity. }
  rewrite E. destruct (child s); try exact G.
  destruct G as (a & b & c & d). repeat split; try assumption.
  intros _ K; exfalso. destruct x; contradiction.
Qed.

Lemma live_pc : forall C s x, live C s ->
  match pc s with ReadOut | ReadMsg | Waiting => True | _ => False end ->
  match x with ReadOut | ReadMsg | Waiting => True | _ => False end ->
  phase C (setPc x s) -> Inv C (setPc x s).
Proof.
  intros C s x L A B P.
  assert (Li : live C (setPc x s)).
  { pose proof (lv_prog C s L) as Lg. apply (fun q => progress_pc C s x q A B) in Lg.
    destruct L as [Lp Lc Lbo Lbm Ls Lm Ln _ Lf Lw].
    constructor; sim; try assumption.
    rewrite Lp. destruct (pc s); try contradiction; destruct x; try contradiction; reflexivity. }
  unfold Inv. destruct x; try contradiction; exact Li.
Qed.

Lemma caller_readOut : forall C s s', live C s -> pc s = ReadOut ->
  stepP C s = Some s' -> Inv C s'.
Proof.
  intros C s s' L Ep H. unfold stepP in H. rewrite Ep in H.
  assert (A : match pc s with ReadOut | ReadMsg | Waiting => True | _ => False end) by (rewrite Ep; exact I).
  pose proof (lv_phase C s L) as Lf. unfold phase in Lf; rewrite Ep in Lf.
  destruct Lf as (F1 & F2).
  destruct (cCapture C) eqn:Ec.
  - destruct (bOut s) as [|b0 bo] eqn:Eb.
    + destruct (orb (outW (pfds s)) (outW (cfds s))) eqn:Eo; [discriminate|].
      injection H as <-. apply live_pc; try assumption; [exact I|].
      unfold phase; sim. left. split; [assumption|]. intros _; sim. split; [assumption|].
      apply orb_false_iff in Eo. destruct Eo as (_ & Eo).
      rewrite (lv_c C s L) in Eo. pose proof (lv_prog C s L) as Lg. unfold progress in Lg.
      destruct (child s) as [| |p|t|t]; cbn [fdsC allMade outW ended running] in *;
        try exact I; try contradiction; congruence.
    + rewrite <- Eb in *.
      set (x := firstn chunk (bOut s)) in *.
      set (s1 := gotOut x (setBOut (skipn chunk (bOut s)) s)) in *.
      cbv beta iota zeta in H.
      assert (Bx : lenN x <= 128) by apply lenN_firstn.
      assert (Lx : lenN x = 0 -> False).
      { intros Hx. apply lenN_nil in Hx. unfold x, chunk in Hx. rewrite Eb in Hx. discriminate. }
      assert (Sz : size s = lenN (mOut s)).
      { rewrite (lv_size C s L), F1. cbn. lia. }
      assert (Li : size s1 <= 10000 -> live C s1).
      { intros Hs. pose proof (lv_size C s L) as Ls. pose proof (lv_prog C s L) as Lg.
        destruct L as [Lp Lc Lbo Lbm _ Lm Ln _ _ Lw].
        subst s1. constructor; sim; try assumption.
        - pose proof (lenN_skipn (bOut s)). lia.
        - rewrite lenN_app. lia.
        - rewrite lenN_app. lia.
        - intros K; congruence.
        - unfold progress in *; sim. unfold left, acc in *; sim. rewrite Ec in *.
          subst x. rewrite <- (app_assoc (mOut s)), firstn_skipn. exact Lg.
        - unfold phase; sim. rewrite Ep. split; assumption. }
      assert (Li2 : 10000 < size s1 -> live C (setPc ReadMsg s1)).
      { intros Hs. pose proof (lv_size C s L) as Ls. pose proof (lv_prog C s L) as Lg.
        assert (Sz' : lenN (mOut s) <= 10000) by lia.
        destruct L as [Lp Lc Lbo Lbm _ Lm Ln _ _ Lw].
        subst s1. constructor; sim; try assumption.
        - rewrite Lp, Ep. reflexivity.
        - pose proof (lenN_skipn (bOut s)). lia.
        - rewrite lenN_app. lia.
        - rewrite lenN_app. lia.
        - intros K; congruence.
        - unfold progress in *; sim. unfold left, acc in *; sim. rewrite Ec in *. rewrite Ep in Lg.
          cbn [toWrite] in *.
          subst x. rewrite <- (app_assoc (mOut s)), firstn_skipn. exact Lg.
        - unfold phase; sim. right. split; [|assumption].
          rewrite lenN_app. lia. }
      unfold tooMuch in H. destruct (10000 <? size s1) eqn:Et.
      * apply N.ltb_lt in Et. injection H as <-. unfold Inv; sim. apply Li2; assumption.
      * apply N.ltb_ge in Et. injection H as <-. unfold Inv.
        assert (E1 : pc s1 = ReadOut) by (subst s1; sim; exact Ep). rewrite E1.
        apply Li; assumption.
  - injection H as <-. apply live_pc; try assumption; [exact I|].
    unfold phase; sim. left. split; [assumption|]. intros K; congruence.
Qed.

Lemma caller_readMsg : forall C s s', live C s -> pc s = ReadMsg ->
  stepP C s = Some s' -> Inv C s'.
Proof.
  intros C s s' L Ep H. unfold stepP in H. rewrite Ep in H.
  assert (A : match pc s with ReadOut | ReadMsg | Waiting => True | _ => False end) by (rewrite Ep; exact I).
  pose proof (lv_phase C s L) as Lf. unfold phase in Lf; rewrite Ep in Lf.
  destruct (bMsg s) as [|b0 bo] eqn:Eb.
  - destruct (orb (msgW (pfds s)) (msgW (cfds s))) eqn:Eo; [discriminate|].
    injection H as <-. apply live_pc; try assumption; [exact I|].
    apply orb_false_iff in Eo. destruct Eo as (_ & Eo).
    assert (De : ended (child s)).
    { rewrite (lv_c C s L) in Eo. pose proof (lv_prog C s L) as Lg. unfold progress in Lg.
      destruct (child s) as [| |p|t|t]; cbn [fdsC allMade msgW ended running] in *;
        try exact I; try contradiction; congruence. }
    unfold phase; sim. destruct Lf as [(F1 & F2)|(F1 & F2)].
    + left. repeat split; try assumption; apply F2; assumption.
    + right; left. exact F1.
  - rewrite <- Eb in *.
    set (x := firstn chunk (bMsg s)) in *.
    set (s1 := gotMsg x (setBMsg (skipn chunk (bMsg s)) s)) in *.
    cbv beta iota zeta in H.
    assert (Lx : lenN x = 0 -> False).
    { intros Hx. apply lenN_nil in Hx. unfold x, chunk in Hx. rewrite Eb in Hx. discriminate. }
    pose proof (lv_size C s L) as Ls. pose proof (lv_prog C s L) as Lg.
    assert (Li : forall y, match y with ReadMsg | Waiting => True | _ => False end ->
              phase C (setPc y s1) -> live C (setPc y s1)).
    { intros y Y Hy.
      destruct L as [Lp Lc Lbo Lbm _ Lm Ln _ _ Lw].
      subst s1. constructor; sim; try assumption.
      - rewrite Lp, Ep. destruct y; try contradiction; reflexivity.
      - pose proof (lenN_skipn (bMsg s)). lia.
      - rewrite lenN_app. lia.
      - unfold progress in *; sim. unfold left, acc in *; sim. rewrite Ep in Lg. cbn [toWrite] in Lg.
        assert (Ey : toWrite C y = []) by (destruct y; try contradiction; reflexivity). rewrite Ey.
        assert (Eq : forall z, (mErr s ++ x) ++ skipn chunk (bMsg s) ++ z = mErr s ++ bMsg s ++ z).
        { intros z. subst x. rewrite <- (app_assoc (mErr s)), (app_assoc (firstn chunk (bMsg s))),
            firstn_skipn. reflexivity. }
        destruct (child s) as [| |p|t|t]; try exact Lg.
        + cbn [running] in *. destruct Lg as (a & b & c & d). repeat split; try assumption.
          rewrite Eq. exact c.
        + cbn [running] in *. destruct Lg as (a & b & c & d). repeat split; try assumption.
          rewrite Eq. exact c.
        + destruct Lg as (a & b & c & d). repeat split; try assumption.
          * pose proof (Eq []) as E0. rewrite !app_nil_r in E0. rewrite E0. exact c.
          * intros _ K. destruct y; contradiction. }
    unfold tooMuch in H. destruct (10000 <? size s1) eqn:Et.
    + apply N.ltb_lt in Et. injection H as <-. unfold Inv; cbn [setPc pc]. apply Li; [exact I|].
      unfold phase; subst s1; sim. destruct Lf as [(F1 & F2)|(F1 & F2)].
      * right; right. split; assumption.
      * right; left. exact F1.
    + apply N.ltb_ge in Et. injection H as <-.
      assert (E1 : s1 = setPc ReadMsg s1).
      { subst s1. unfold setPc, gotMsg, setBMsg; cbn. rewrite Ep. reflexivity. }
      rewrite E1. unfold Inv; cbn [setPc pc]. apply Li; [exact I|].
      unfold phase; subst s1; sim. destruct Lf as [(F1 & F2)|(F1 & F2)].
      * left. split; assumption.
      * exfalso. rewrite Ls, F2 in Et. cbn in Et. lia.
Qed.

Lemma caller_waiting : forall C s s', live C s -> pc s = Waiting ->
  stepP C s = Some s' -> Inv C s'.
Proof.
  intros C s s' L Ep H. unfold stepP in H. rewrite Ep in H.
  destruct (child s) as [| |p|t|t] eqn:Ech; try discriminate.
  destruct (cIgnChld C) eqn:Ei.
  - injection H as <-. unfold Inv; sim. split; [|split].
    + right. exact Ei.
    + reflexivity.
    + intros _. right. now exists t.
  - injection H as <-. unfold Inv; sim. split; [|split; [reflexivity|intros _; right; now exists t]].
    destruct L as [Lp Lc Lbo Lbm Ls Lm Ln Lg Lf Lw].
    unfold progress in Lg. rewrite Ech in Lg. destruct Lg as (G1 & G2 & G3 & _).
    unfold phase in Lf. rewrite Ep in Lf.
    assert (Pm : prefix (mErr s) (eMsg (effectC C))) by (exists (bMsg s); exact G3).
    assert (Tx : forall e, e = effectC C ->
        (textOf s = None -> eMsg e = [] /\ (cCapture C = true -> eOut e = [])) /\
        (forall y, textOf s = Some y -> prefix y (eMsg e) /\
           ((if cCapture C then lenN (eOut e) else 0) + lenN (eMsg e) <= 10000 -> y = eMsg e))).
    { intros e ->. unfold textOf. destruct (0 <? size s) eqn:E0.
      - split; [discriminate|]. intros y Hy. injection Hy as <-. split; [exact Pm|].
        intros Hs. rewrite G3. apply N.ltb_lt in E0.
        rewrite G2, G3 in Hs. unfold acc in Hs.
        assert (Hs2 : lenN (mOut s) + lenN (bOut s) + lenN (mErr s) + lenN (bMsg s) <= 10000).
        { destruct (cCapture C) eqn:Ec.
          - rewrite !lenN_app in Hs. lia.
          - destruct (Ln eq_refl) as (E1 & E2). rewrite E1, E2. rewrite lenN_app in Hs. cbn. lia. }
        destruct Lf as [(_ & F & _)|[F|(_ & F)]].
        + rewrite F. now rewrite app_nil_r.
        + exfalso; lia.
        + exfalso; lia.
      - apply N.ltb_ge in E0. split; [|discriminate]. intros _.
        destruct Lf as [(_ & F & F2 & _)|[F|(_ & F)]]; [|exfalso; lia|exfalso; lia].
        assert (mErr s = []) as M1 by (apply lenN_nil; lia).
        assert (mOut s = []) as M2 by (apply lenN_nil; lia).
        rewrite G3, G2, M1, F. split; [reflexivity|]. intros Ec.
        unfold acc. rewrite Ec, M2. destruct (F2 Ec) as (F3 & _). now rewrite F3. }
    specialize (Tx _ eq_refl). destruct Tx as (Tx1 & Tx2).
    unfold verdict; sim.
    destruct (werr s) eqn:Ew.
    { right. pose proof (Lw eq_refl) as X. cbn [excused] in *. exact X. }
    left. destruct t as [c|g].
    + destruct (c =? 0) eqn:E0.
      * apply N.eqb_eq in E0. subst c.
        destruct (cCapture C) eqn:Ec; cbn [expected]; [|now split; [|symmetry]].
        split; [exact Ec|]. split; [now symmetry|].
        unfold received. rewrite G2. unfold acc. rewrite Ec. repeat split.
        -- exists (bOut s). reflexivity.
        -- intros Hl. rewrite lenN_app in Hl.
           destruct Lf as [(_ & _ & F2 & _)|[F|(F2 & _)]].
           ++ destruct (F2 Ec) as (F3 & _). rewrite F3. now rewrite app_nil_r.
           ++ exfalso; lia.
           ++ destruct (F2 Ec) as (F3 & _). rewrite F3. now rewrite app_nil_r.
        -- rewrite lenN_app in H.
           destruct Lf as [(_ & _ & F2 & _)|[F|(F2 & _)]]; [| |];
             try (destruct (F2 Ec) as (F3 & _); rewrite F3 in H; cbn in H); lia.
        -- exact Lm.
      * apply N.eqb_neq in E0. cbn [expected]. repeat split; try now symmetry.
        -- exact E0.
        -- apply Tx1; assumption.
        -- apply Tx1; assumption.
        -- apply (Tx2 y H).
        -- apply (Tx2 y H).
    + cbn [expected]. repeat split; try now symmetry.
      -- apply Tx1; assumption.
      -- apply Tx1; assumption.
      -- apply (Tx2 y H).
      -- apply (Tx2 y H).
Qed.

Lemma caller_step : forall C s s', Inv C s -> stepP C s = Some s' -> Inv C s'.
Proof.
  intros C s s' I H. destruct (pc s) as [k| | |r| | | | |o] eqn:Ep.
  - apply (caller_before C s s' I); [rewrite Ep; exact Logic.I|exact H].
  - apply (caller_before C s s' I); [rewrite Ep; exact Logic.I|exact H].
  - unfold Inv in I; rewrite Ep in I. eapply caller_closing; eassumption.
  - unfold Inv in I; rewrite Ep in I. eapply caller_writing; eassumption.
  - unfold Inv in I; rewrite Ep in I. eapply caller_closeSrc; eassumption.
  - unfold Inv in I; rewrite Ep in I. eapply caller_readOut; eassumption.
  - unfold Inv in I; rewrite Ep in I. eapply caller_readMsg; eassumption.
  - unfold Inv in I; rewrite Ep in I. eapply caller_waiting; eassumption.
  - unfold stepP in H. rewrite Ep in H. discriminate.
Qed.

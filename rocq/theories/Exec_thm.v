(** Property C61: running an external program reports what the program did. *)

From Coq Require Import List Arith NArith Ascii Bool Lia.
Import ListNotations.
From Verif Require Import Exec_model Exec_spec Exec_inv Exec_child.
Local Open Scope N_scope.

Definition plain (im : image) (capture : bool) (i : option bytes) (ign : bool) : call :=
  {| cExe := ["g"; "c"; "c"]%char; cImage := im; cCapture := capture; cStdin := i;
     cInherited := []; cCap := 65536; cIgnPipe := ign; cIgnChld := false;
     cPipeFails := None; cForkFails := false |}.

(** Reads all of a line of at most [n] characters and writes it twice. *)
Fixpoint twice (n : nat) : prog :=
  match n with
  | O => PExit 0
  | S m => PIn (fun x => match x with Some b => POut b (POut b (twice m)) | None => PExit 0 end)
  end.

Definition ex1 : call := plain (Runs (twice 5)) true (Some ["h"; "i"]%char) false.
Definition slow : list who :=
  repeat Caller 20 ++ repeat Child 20 ++ repeat Caller 20 ++ repeat Child 20 ++ repeat Caller 20.
Definition eager : list who := flat_map (fun _ => [Caller; Child]) (repeat tt 40).

(** ** In every execution *)

(** Whatever the order of the steps of the two processes, if the call ends then
    its outcome is the one that follows from what the program does with its
    input, or has an excuse in the surroundings. *)
Theorem C61_outcome : forall C sched o,
  pc (execution C sched) = Done o -> expected C o \/ excused C o.
Proof.
  intros C sched o E. pose proof (execution_inv C sched) as I. unfold Inv in I. rewrite E in I.
  exact (proj1 I).
Qed.
Print Assumptions C61_outcome.

Example C61_outcome_case :
  pc (execution ex1 slow) = Done (Ret (Some ["h"; "h"; "i"; "i"]%char)) /\
  pc (execution ex1 eager) = Done (Ret (Some ["h"; "h"; "i"; "i"]%char)).
Proof. split; vm_compute; reflexivity. Qed.

(** A call that returns: the program ended with 0 and what it wrote, if at most
    10000 bytes, is stored. *)
Theorem C61_returns : forall C sched m,
  pc (execution C sched) = Done (Ret m) ->
  eStatus (effectC C) = Exited 0 /\
  (cCapture C = false -> m = None) /\
  (cCapture C = true -> lenN (eOut (effectC C)) <= 10000 -> m = Some (eOut (effectC C))).
Proof.
  intros C sched m E. apply C61_outcome in E. destruct E as [E|E]; [|destruct E].
  cbn [expected] in E. destruct m as [m|].
  - destruct E as (E1 & E2 & _ & E3 & _). repeat split; [exact E2| |].
    + intros K; congruence.
    + intros _ K. now rewrite (E3 K).
  - destruct E as (E1 & E2). repeat split; [exact E2|]. intros K; congruence.
Qed.
Print Assumptions C61_returns.

(** What is still open is closed and the child does not stay as a zombie. *)
Theorem C61_nothing_left : forall C sched o,
  pc (execution C sched) = Done o ->
  pfds (execution C sched) = noFds /\
  (o <> Killed -> child (execution C sched) = CNone \/ exists t, child (execution C sched) = CReaped t).
Proof.
  intros C sched o E. pose proof (execution_inv C sched) as I. unfold Inv in I. rewrite E in I.
  exact (proj2 I).
Qed.
Print Assumptions C61_nothing_left.

Example C61_nothing_left_case :
  let C := {| cExe := []; cImage := Runs (PExit 0); cCapture := true; cStdin := Some [];
     cInherited := []; cCap := 1; cIgnPipe := false; cIgnChld := false;
     cPipeFails := Some 2%nat; cForkFails := false |} in
  pc (execution C (repeat Caller 9)) = Done (Thr ThrPipe).
Proof. vm_compute. reflexivity. Qed.

(** ** Calls end *)

(** If the sizes are such that no pipe can get full while nobody empties it, no
    state in which both processes wait can be reached. *)
Theorem C61_never_stuck_partial : forall C sched,
  smallEnough C -> (forall o, pc (execution C sched) <> Done o) ->
  exists w s', move C w (execution C sched) = Some s'.
Proof.
  intros C sched S N. destruct (can_move C _ S (execution_inv C sched) N) as [(s' & H)|(_ & s' & H)].
  - exists Caller, s'. exact H.
  - exists Child, s'. exact H.
Qed.
Print Assumptions C61_never_stuck_partial.

(** And the call ends in every execution in which both processes go on being
    given turns. *)
Theorem C61_ends_partial : forall C sch,
  smallEnough C -> fair sch -> exists n o, pc (after C sch n) = Done o.
Proof. exact fair_ends. Qed.
Print Assumptions C61_ends_partial.

Definition alternate (n : nat) : who := if Nat.even n then Caller else Child.

Lemma alternate_fair : fair alternate.
Proof.
  intros n w. unfold alternate. destruct (Nat.even n) eqn:E, w.
  - exists n. rewrite E. now split.
  - exists (S n). split; [lia|]. rewrite Nat.even_succ, <- Nat.negb_even, E. reflexivity.
  - exists (S n). split; [lia|]. rewrite Nat.even_succ, <- Nat.negb_even, E. reflexivity.
  - exists n. rewrite E. now split.
Qed.

Example C61_ends_case : smallEnough ex1 /\ fair alternate.
Proof.
  split; [|exact alternate_fair]. repeat split; vm_compute; try discriminate; auto.
  left; discriminate.
Qed.

Lemma after_execution : forall C sch n, after C sch n = execution C (map sch (seq 0 n)).
Proof.
  intros C sch n. induction n as [|n IH]; [reflexivity|].
  rewrite seq_S, map_app. unfold execution in *. rewrite fold_left_app. cbn [after map fold_left].
  now rewrite IH.
Qed.

(** ** What goes wrong *)

(** A program that writes more than 10128 bytes and the capacity of a pipe is
    never waited for: the call cannot end, whatever the order of the steps. *)
Theorem C61_large_output : forall C sched o,
  cCapture C = true -> 10128 + cCap C < lenN (eOut (effectC C)) ->
  pc (execution C sched) = Done o ->
  o = Thr ThrPipe \/ o = Thr ThrFork \/ o = Killed.
Proof.
  intros C sched o Ec Hs.
  assert (K : forall s, Inv C s ->
            (forall o, pc s = Done o -> o = Thr ThrPipe \/ o = Thr ThrFork \/ o = Killed) ->
            forall w o, pc (turn C s w) = Done o -> o = Thr ThrPipe \/ o = Thr ThrFork \/ o = Killed).
  { intros s I Hd w o0 E. unfold turn in E. destruct (move C w s) as [s'|] eqn:Em; [|now apply Hd].
    destruct w; cbn [move] in Em; [|rewrite (proj1 (stepC_pc C s s' Em)) in E; now apply Hd].
    unfold stepP in Em. destruct (pc s) as [k| | |r| | | | |o1] eqn:Ep.
    - destruct (nth_error (pipesMade C) k); [destruct (pipeFails C k)|];
        injection Em as <-; cbn in E; try discriminate. injection E as <-. auto.
    - destruct (cForkFails C); injection Em as <-; cbn in E; try discriminate. injection E as <-. auto.
    - injection Em as <-. cbn in E. destruct (cStdin C); discriminate.
    - destruct r as [|b r]; [injection Em as <-; discriminate|].
      destruct (orb (srcR (pfds s)) (srcR (cfds s))).
      + destruct (lenN (bSrc s) <? cCap C); [|discriminate]. injection Em as <-. discriminate.
      + destruct (cIgnPipe C); injection Em as <-; cbn in E; try discriminate. injection E as <-. auto.
    - injection Em as <-. discriminate.
    - rewrite Ec in Em. destruct (bOut s) eqn:Eb.
      + destruct (orb (outW (pfds s)) (outW (cfds s))); [discriminate|]. injection Em as <-. discriminate.
      + rewrite <- Eb in Em. revert Em. generalize (skipn chunk (bOut s)) (firstn chunk (bOut s)).
        intros l1 l2 Em. cbv zeta in Em.
        destruct (tooMuch (size (gotOut l2 (setBOut l1 s)))); injection Em as <-; cbn in E;
          [discriminate|congruence].
    - destruct (bMsg s) eqn:Eb.
      + destruct (orb (msgW (pfds s)) (msgW (cfds s))); [discriminate|]. injection Em as <-. discriminate.
      + rewrite <- Eb in Em. revert Em. generalize (skipn chunk (bMsg s)) (firstn chunk (bMsg s)).
        intros l1 l2 Em. cbv zeta in Em.
        destruct (tooMuch (size (gotMsg l2 (setBMsg l1 s)))); injection Em as <-; cbn in E;
          [discriminate|congruence].
    - exfalso. assert (L : live C s) by (unfold Inv in I; now rewrite Ep in I).
      pose proof (lv_prog C s L) as Lg. unfold progress in Lg.
      destruct (child s); try discriminate. destruct Lg as (_ & G2 & _).
      rewrite G2 in Hs. unfold acc in Hs. rewrite Ec, lenN_app in Hs.
      pose proof (lv_bout C s L). pose proof (lv_max C s L). lia.
    - discriminate. }
  unfold execution.
  assert (Q : forall l s, Inv C s ->
            (forall o, pc s = Done o -> o = Thr ThrPipe \/ o = Thr ThrFork \/ o = Killed) ->
            forall o, pc (fold_left (turn C) l s) = Done o ->
              o = Thr ThrPipe \/ o = Thr ThrFork \/ o = Killed).
  { induction l as [|w l IH]; intros s I Hd; cbn [fold_left]; [exact Hd|].
    apply IH; [now apply turn_inv|]. exact (K s I Hd w). }
  apply (Q sched (init C)); [apply inv_init|]. intros o0 E; discriminate.
Qed.
Print Assumptions C61_large_output.

Lemma effect_pouts : forall l k i, eOut (effectOf (pouts l k) i) = l ++ eOut (effectOf k i) /\
  eMsg (effectOf (pouts l k) i) = eMsg (effectOf k i) /\
  eStatus (effectOf (pouts l k) i) = eStatus (effectOf k i) /\
  eUnread (effectOf (pouts l k) i) = eUnread (effectOf k i).
Proof.
  induction l as [|b l IH]; intros k i; cbn [pouts]; [repeat split|].
  cbn [effectOf eOut eMsg eStatus eUnread]. destruct (IH k i) as (A & B & D & E).
  cbv zeta. cbn [eOut eMsg eStatus eUnread app]. rewrite A, B, D, E. repeat split.
Qed.

Lemma effect_pmsgs : forall l k i, eMsg (effectOf (pmsgs l k) i) = l ++ eMsg (effectOf k i) /\
  eOut (effectOf (pmsgs l k) i) = eOut (effectOf k i) /\
  eStatus (effectOf (pmsgs l k) i) = eStatus (effectOf k i) /\
  eUnread (effectOf (pmsgs l k) i) = eUnread (effectOf k i).
Proof.
  induction l as [|b l IH]; intros k i; cbn [pmsgs]; [repeat split|].
  cbn [effectOf eOut eMsg eStatus eUnread]. destruct (IH k i) as (A & B & D & E).
  cbv zeta. cbn [eOut eMsg eStatus eUnread app]. rewrite A, B, D, E. repeat split.
Qed.

(** With the pipes of Linux (65536 bytes): a program that writes 80000 bytes and
    ends with 0 cannot be called. *)
Theorem C61_large_output_refuted : exists C,
  cPipeFails C = None /\ cForkFails C = false /\ cStdin C = None /\ cCap C = 65536 /\
  eStatus (effectC C) = Exited 0 /\
  forall sched o, pc (execution C sched) <> Done o.
Proof.
  exists (plain (Runs (pouts (repeat "a"%char (N.to_nat 80000)) (PExit 0))) true None false).
  assert (S : eStatus (effectC (plain (Runs (pouts (repeat "a"%char (N.to_nat 80000)) (PExit 0)))
                                 true None false)) = Exited 0).
  { unfold effectC, plain, inputOf, childProg. cbn [cExe cImage cStdin cInherited].
    rewrite (proj1 (proj2 (proj2 (effect_pouts _ _ _)))). reflexivity. }
  assert (O : lenN (eOut (effectC (plain (Runs (pouts (repeat "a"%char (N.to_nat 80000)) (PExit 0)))
                                 true None false))) = 80000).
  { unfold effectC, plain, inputOf, childProg. cbn [cExe cImage cStdin cInherited].
    rewrite (proj1 (effect_pouts _ _ _)), lenN_app. unfold lenN. rewrite repeat_length.
    cbn [effectOf eOut List.length]. rewrite N2Nat.id. reflexivity. }
  set (C := plain (Runs (pouts (repeat "a"%char (N.to_nat 80000)) (PExit 0))) true None false) in *.
  split; [reflexivity|]. split; [reflexivity|]. split; [reflexivity|]. split; [reflexivity|].
  split; [exact S|].
  intros sched o E.
  assert (Hb : 10128 + cCap C < lenN (eOut (effectC C))).
  { rewrite O. change (cCap C) with 65536. lia. }
  pose proof (C61_large_output C sched o eq_refl Hb E) as D.
  pose proof (C61_outcome C sched o E) as X.
  destruct D as [-> |[-> | ->]]; destruct X as [X|X]; cbn [expected excused] in X; try contradiction.
  - destruct X as (k & X). discriminate X.
  - discriminate X.
  - destruct X as (_ & X & _). discriminate X.
Qed.
Print Assumptions C61_large_output_refuted.

(** Between 10128 bytes and that, the call ends but only the beginning of what
    the program wrote is stored. *)
Theorem C61_cut_output_refuted : exists C sched m,
  eStatus (effectC C) = Exited 0 /\ pc (execution C sched) = Done (Ret (Some m)) /\
  m <> eOut (effectC C).
Proof.
  set (l := repeat "a"%char (N.to_nat 20000)).
  assert (Ll : lenN l = 20000).
  { unfold lenN, l. rewrite repeat_length, N2Nat.id. reflexivity. }
  set (C := plain (Runs (pouts l (PExit 0))) true None false).
  destruct (effect_pouts l (PExit 0) []) as (A & B & D & F).
  assert (S : eStatus (effectC C) = Exited 0) by exact D.
  assert (O : eOut (effectC C) = l).
  { transitivity (l ++ []); [exact A|apply app_nil_r]. }
  assert (M : eMsg (effectC C) = []) by exact B.
  assert (Sm : smallEnough C).
  { unfold smallEnough. rewrite O, M, Ll. change (cCap C) with 65536.
    split; [lia|]. split; [cbn; lia|]. split; [lia|]. intros G; discriminate G. }
  destruct (fair_ends C alternate Sm alternate_fair) as (n & o & E).
  rewrite after_execution in E.
  exists C, (map alternate (seq 0 n)).
  pose proof (C61_outcome C _ o E) as X.
  destruct X as [X|X].
  - destruct o as [[m|]|[| | |y|c x|g x]|]; cbn [expected] in X; try contradiction.
    + exists m. split; [exact S|]. split; [exact E|]. intros ->.
      destruct X as (_ & _ & _ & _ & X). rewrite O, Ll in X. lia.
    + destruct X as (X & _). discriminate X.
    + destruct X as (X & Y & _). rewrite S in X. injection X as <-. now elim Y.
    + destruct X as (X & _). rewrite S in X. discriminate X.
  - destruct o as [[m|]|[| | |y|c x|g x]|]; cbn [excused] in X; try contradiction.
    + destruct X as (k & X). discriminate X.
    + discriminate X.
    + discriminate X.
    + destruct X as (X & _). discriminate X.
    + destruct X as (_ & X & _). discriminate X.
Qed.
Print Assumptions C61_cut_output_refuted.

(** All of the input is written before anything is read: a program that first
    writes more than a pipe can hold and a caller with more input than a pipe
    can hold wait for each other, whatever the order of the steps. *)
Definition waits (out m : bytes) (s : st) : Prop :=
  (match pc s with
   | Creating _ | Forking => bSrc s = [] /\ bOut s = [] /\ child s = CNone
   | Closing => bSrc s = []
   | Writing r => bSrc s ++ r = m /\ pfds s = fdsP (plain (Runs (pouts out (PExit 0))) true (Some m) false) (Writing r)
   | _ => False
   end) /\ lenN (bSrc s) <= 65536 /\ lenN (bOut s) <= 65536 /\
  match child s with
  | CNone | CSetup => bOut s = []
  | CRun p => exists o, p = pouts o (PExit 0) /\ bOut s ++ o = out
  | _ => False
  end.

Lemma lenN_cons_pos : forall l n, n < lenN l -> l <> [].
Proof. intros l n H ->. cbn in H. lia. Qed.

Lemma waits_turn : forall out m s w, 65536 < lenN out -> 65536 < lenN m ->
  Inv (plain (Runs (pouts out (PExit 0))) true (Some m) false) s ->
  waits out m s -> waits out m (turn (plain (Runs (pouts out (PExit 0))) true (Some m) false) s w).
Proof.
  intros out m s w Ho Hm I W. set (C := plain (Runs (pouts out (PExit 0))) true (Some m) false) in *.
  unfold turn. destruct (move C w s) as [s'|] eqn:E; [|exact W].
  destruct W as (W1 & W2 & W3 & W4). destruct w; cbn [move] in E.
  - unfold stepP in E. destruct (pc s) as [k| | |r| | | | |o] eqn:Ep; try contradiction.
    + destruct W1 as (Wa & Wb & Wc).
      destruct (nth_error (pipesMade C) k).
      * change (pipeFails C k) with false in E. injection E as <-.
        unfold waits; sim. rewrite Wa, Wb, Wc. cbn. repeat split; lia.
      * injection E as <-. unfold waits; sim. rewrite Wa, Wb, Wc. cbn. repeat split; lia.
    + destruct W1 as (Wa & Wb & Wc). change (cForkFails C) with false in E. injection E as <-.
      unfold waits; sim. rewrite Wa, Wb. cbn. repeat split; lia.
    + change (cStdin C) with (Some m) in E. injection E as <-. unfold waits; sim.
      assert (L : live C s) by (unfold Inv in I; now rewrite Ep in I).
      pose proof (lv_p C s L) as Lp. rewrite Ep in Lp.
      split; [split; [now rewrite W1|rewrite Lp; reflexivity]|].
      split; [exact W2|]. split; [exact W3|exact W4].
    + destruct W1 as (Wa & Wb). destruct r as [|b r].
      { exfalso. rewrite app_nil_r in Wa. rewrite Wa in W2. lia. }
      assert (L : live C s) by (unfold Inv in I; now rewrite Ep in I).
      pose proof (lv_c C s L) as Lc.
      assert (Er : orb (srcR (pfds s)) (srcR (cfds s)) = true).
      { rewrite Wb, Lc. pose proof (lv_prog C s L) as Lg. unfold progress in Lg.
        destruct (child s); try contradiction; reflexivity. }
      rewrite Er in E. change (cCap C) with 65536 in E.
      destruct (lenN (bSrc s) <? 65536) eqn:El; [|discriminate].
      apply N.ltb_lt in El. injection E as <-. unfold waits; sim.
      repeat split; try assumption.
      * rewrite <- app_assoc. exact Wa.
      * rewrite lenN_app. cbn. lia.
  - pose proof (stepC_pc C s s' E) as (E1 & E2). unfold stepC in E.
    destruct (child s) as [| |p|t|t] eqn:Ech; try discriminate.
    + injection E as <-. unfold waits; sim. rewrite W4.
      split; [|split; [exact W2|split; [cbn; lia|]]].
      * destruct (pc s); try assumption. destruct W1 as (_ & _ & W1). discriminate. 
        destruct W1 as (_ & _ & W1). discriminate.
      * exists out. split; reflexivity.
    + destruct W4 as (o & -> & W4).
      assert (L : live C s).
      { unfold Inv in I. destruct (pc s); try contradiction; try exact I;
          destruct W1 as (_ & _ & W1); discriminate. }
      destruct o as [|b o].
      { exfalso. rewrite app_nil_r in W4. rewrite W4 in W3. lia. }
      cbn [pouts] in E. change (cCapture C) with true in E. cbv iota in E.
      destruct (phase_outR C s L) as (Po & _). rewrite Po in E.
      change (cCapture C) with true in E. cbn [orb] in E. change (cCap C) with 65536 in E.
      destruct (lenN (bOut s) <? 65536) eqn:El; [|discriminate].
      apply N.ltb_lt in El. injection E as <-. unfold waits; sim.
      split; [|split; [exact W2|split]].
      * destruct (pc s); try assumption; destruct W1 as (_ & _ & W1); discriminate.
      * rewrite lenN_app. cbn. lia.
      * exists o. split; [reflexivity|]. rewrite <- app_assoc. exact W4.
Qed.

Theorem C61_both_ways_refuted : exists C,
  cPipeFails C = None /\ cForkFails C = false /\ cCap C = 65536 /\
  eStatus (effectC C) = Exited 0 /\
  forall sched o, pc (execution C sched) <> Done o.
Proof.
  set (l := repeat "a"%char (N.to_nat 70000)).
  assert (Ll : lenN l = 70000).
  { unfold lenN, l. rewrite repeat_length, N2Nat.id. reflexivity. }
  exists (plain (Runs (pouts l (PExit 0))) true (Some l) false).
  split; [reflexivity|]. split; [reflexivity|]. split; [reflexivity|]. split.
  { exact (proj1 (proj2 (proj2 (effect_pouts l (PExit 0) l)))). }
  intros sched o E.
  set (C := plain (Runs (pouts l (PExit 0))) true (Some l) false) in *.
  assert (W : forall sc s, Inv C s -> waits l l s -> waits l l (fold_left (turn C) sc s)).
  { induction sc as [|w sc IH]; intros s I W; cbn [fold_left]; [exact W|].
    apply IH; [now apply turn_inv|]. apply waits_turn; try assumption; rewrite Ll; lia. }
  assert (W0 : waits l l (execution C sched)).
  { apply W; [apply inv_init|]. unfold waits; cbn. repeat split; lia. }
  destruct W0 as (W0 & _). rewrite E in W0. exact W0.
Qed.
Print Assumptions C61_both_ways_refuted.

(** The input is written whether or not the program reads it: if the program ends
    first the caller is ended by SIGPIPE, and no exception tells that the
    program failed.  It depends on the order of the steps. *)
Theorem C61_sigpipe_refuted : exists C s1 s2,
  eStatus (effectC C) = Exited 1 /\
  pc (execution C s1) = Done Killed /\
  pc (execution C s2) = Done (Thr (ThrCode 1 None)).
Proof.
  exists (plain (Runs (PExit 1)) false (Some ["i"; "n"; "t"]%char) false),
    (repeat Caller 6 ++ repeat Child 9 ++ repeat Caller 9),
    (repeat Caller 9 ++ repeat Child 9 ++ repeat Caller 9).
  vm_compute. repeat split.
Qed.
Print Assumptions C61_sigpipe_refuted.

(** ** What cannot be executed *)

(** If the executable cannot be executed, and nothing is given as its input, the
    exception has its path and the text of the error. *)
Theorem C61_exec_failure_partial : forall C sched o err,
  cImage C = Fails err -> cStdin C = None -> cPipeFails C = None -> cForkFails C = false ->
  cIgnChld C = false ->
  lenN (cExe C) + lenN err <= 9900 ->
  pc (execution C sched) = Done o ->
  o = Thr (ThrCode 1 (Some (cExe C ++ colon ++ err ++ ["000"%char]))).
Proof.
  intros C sched o err Ei Es Ep Ef Ec Hl E.
  set (t := cExe C ++ colon ++ err ++ ["000"%char]).
  assert (M : eMsg (effectC C) = t /\ eOut (effectC C) = execFailed /\ eStatus (effectC C) = Exited 1).
  { unfold effectC. rewrite Ei. cbn [childProg]. fold t.
    destruct (effect_pmsgs t (pouts execFailed (PExit 1)) (inputOf C)) as (A & B & D & _).
    destruct (effect_pouts execFailed (PExit 1) (inputOf C)) as (A' & B' & D' & _).
    rewrite A, B, D, A', B', D'. cbn [effectOf eMsg eOut eStatus].
    repeat split; apply app_nil_r. }
  destruct M as (M & O & S).
  assert (Lt : lenN t <= 9903).
  { unfold t. rewrite !lenN_app. change (lenN colon) with 2. change (lenN ["000"%char]) with 1. lia. }
  assert (Nt : t <> []) by (unfold t; destruct (cExe C); discriminate).
  destruct (C61_outcome C sched o E) as [X|X].
  - destruct o as [[m|]|[| | |y|c x|g x]|]; cbn [expected] in X; try contradiction.
    + destruct X as (_ & X & _). rewrite S in X. discriminate X.
    + destruct X as (_ & X). rewrite S in X. discriminate X.
    + destruct X as (X & _ & X1 & X2). rewrite S in X. injection X as <-. destruct x as [x|].
      * destruct (X2 x eq_refl) as (_ & X3). rewrite X3, M; [reflexivity|].
        rewrite O, M. change (lenN execFailed) with 23. destruct (cCapture C); lia.
      * exfalso. apply Nt. rewrite <- M. apply X1. reflexivity.
    + destruct X as (X & _). rewrite S in X. discriminate X.
  - destruct o as [[m|]|[| | |y|c x|g x]|]; cbn [excused] in X; try contradiction.
    + destruct X as (k & X). congruence.
    + congruence.
    + congruence.
    + destruct X as (_ & _ & X). congruence.
    + destruct X as (_ & X & _). unfold given in X. rewrite Es in X. discriminate X.
Qed.
Print Assumptions C61_exec_failure_partial.

Example C61_exec_failure_case :
  let C := plain (Fails ["N"; "o"]%char) false None false in
  pc (execution C eager) = Done (Thr (ThrCode 1 (Some (["g"; "c"; "c"; ":"; " "; "N"; "o"; "000"]%char)))).
Proof. vm_compute. reflexivity. Qed.

(** A compiler that cannot be executed, given a source file as its input, can end
    the caller with SIGPIPE instead. *)
Theorem C61_exec_failure_refuted : exists C sched err,
  cImage C = Fails err /\ cPipeFails C = None /\ cForkFails C = false /\
  pc (execution C sched) = Done Killed.
Proof.
  exists (plain (Fails ["N"; "o"]%char) false (Some ["i"; "n"; "t"]%char) false),
    (repeat Caller 5 ++ repeat Child 60 ++ repeat Caller 9), ["N"; "o"]%char.
  vm_compute. repeat split.
Qed.
Print Assumptions C61_exec_failure_refuted.

(** ** Diagnostics *)

(** What a failing program wrote is received but is in no exception: only the
    messages, of which a program that is executed knows nothing, are. *)
Theorem C61_diagnostics_refuted : exists C,
  cCapture C = true /\ eOut (effectC C) <> [] /\ eStatus (effectC C) = Exited 1 /\
  (exists sched o, pc (execution C sched) = Done o) /\
  forall sched o, pc (execution C sched) = Done o -> o = Thr (ThrCode 1 (Some [])).
Proof.
  set (C := plain (Runs (pouts ["e"; "r"; "r"]%char (PExit 1))) true None false).
  exists C. split; [reflexivity|]. split; [discriminate|]. split; [reflexivity|]. split.
  { exists eager. eexists. vm_compute. reflexivity. }
  intros sched o E. destruct (C61_outcome C sched o E) as [X|X].
  - destruct o as [[m|]|[| | |y|c x|g x]|]; cbn [expected] in X; try contradiction.
    + destruct X as (_ & X & _). discriminate X.
    + destruct X as (X & _). discriminate X.
    + destruct X as (X & _ & X1 & X2). injection X as <-. destruct x as [x|].
      * destruct (X2 x eq_refl) as (_ & X3). rewrite X3; [reflexivity|]. cbn. lia.
      * destruct (X1 eq_refl) as (_ & X3). specialize (X3 eq_refl). discriminate X3.
    + destruct X as (X & _). discriminate X.
  - destruct o as [[m|]|[| | |y|c x|g x]|]; cbn [excused] in X; try contradiction.
    + destruct X as (k & X). discriminate X.
    + discriminate X.
    + discriminate X.
    + destruct X as (X & _). discriminate X.
    + destruct X as (_ & X & _). discriminate X.
Qed.
Print Assumptions C61_diagnostics_refuted.

(** * Calls of atomic functions in recordings and in the generated code: the theorems (C54) *)
From Coq Require Import List Bool Arith Lia ZArith.
From Verif Require Import Pool_model Pool_proofs AtomicRec_model AtomicRec_proofs.
Import ListNotations.
Local Open Scope nat_scope.

(** ** Specification *)

(** The function does not need the Taylor coefficients of the results (what "stand alone" means in the documentation). *)
Definition standsAlone {V} (fn : atomic V) : Prop :=
  (forall q p tx ty ty', a_forward V fn q p tx ty = a_forward V fn q p tx ty') /\
  (forall p tx ty ty' py, a_reverse V fn p tx ty py = a_reverse V fn p tx ty' py).

(** The Jacobian sparsity in forward mode is right: a first order coefficient of a result is zero when the pattern says so,
    if the directions which are not zero are in the given pattern. *)
Definition forwardPatternOk {V} (zero : V) (n m : nat) (fn : atomic V) : Prop :=
  forall q r x s tx ty, q <= 1 -> a_forJac V fn 1 r x = (true, s) ->
    (forall j, j < n -> nth (j * 2 + 1) tx zero <> zero -> nth j r [] <> []) ->
    forall i, i < m -> nth i s [] = [] -> nth (i * 2 + 1) (snd (a_forward V fn q 1 tx ty)) zero = zero.
(** The same in reverse mode *)
Definition reversePatternOk {V} (zero : V) (n m : nat) (fn : atomic V) : Prop :=
  forall rt x st tx ty py, a_revJac V fn 1 rt x = (true, st) ->
    (forall i, i < m -> nth i py zero <> zero -> nth i rt [] <> []) ->
    forall j, j < n -> nth j st [] = [] -> nth j (snd (a_reverse V fn 0 tx ty py)) zero = zero.
(** The Hessian sparsity is right: with weights on first order coefficients of the results only, the partial derivative with
    respect to a variable is zero when the pattern says so. *)
Definition hessianPatternOk {V} (zero : V) (n m : nat) (fn : atomic V) : Prop :=
  forall vx s r x v tx ty py, a_revHes V fn vx s 1 r (repeat [] m) x = (true, v) ->
    (forall i, i < m -> nth (i * 2) py zero = zero) ->
    (forall i, i < m -> nth (i * 2 + 1) py zero <> zero -> nth i s false = true) ->
    (forall j, j < n -> nth (j * 2 + 1) tx zero <> zero -> nth j r [] <> []) ->
    forall j, j < n -> nth j vx false = true -> nth j v [] = [] -> nth (j * 2) (snd (a_reverse V fn 1 tx ty py)) zero = zero.

(** The value a result was given in the recording. *)
Definition storedValue {V} (r : res V) : option V := match r with RPar v => Some v | RElem _ _ o => o end.
(** Its value in the generated code when the nodes have the values rho. *)
Definition forwardValue {V} (zero : V) add fn (rho : nat -> V) (call : option (fcall V)) (r : res V) : option V :=
  resValue V (match call with Some c => runForward V zero add fn rho c | None => [] end) r.
Definition reverseValue {V} (zero : V) add fn debug (rho : nat -> V) (call : option (rcall V)) (r : res V) : option V :=
  resValue V (match call with Some c => runReverse V zero add fn debug rho c | None => [] end) r.

(** ** Proofs *)
Lemma den_getValue {V} (zero : V) rho l : isParameters V l = true -> map (den V rho) l = map (getValue V zero) l.
Proof.
  intros H. apply map_ext_in. intros c I. unfold isParameters in H. rewrite forallb_forall in H. specialize (H c I).
  destruct c; [reflexivity|discriminate].
Qed.
Lemma resValue_val {V} (arrays : list (rt V)) k i o : resValue V arrays (RElem k i o) = resValue V arrays (RElem k i None).
Proof. reflexivity. Qed.
Lemma el_nonzero {V} (zero : V) isz rho tx p j k : (forall v, isz v = true -> v = zero) ->
  nth (j * S p + k) (map (den V rho) tx) zero <> zero -> isIdenticalZero V isz (el V zero tx p j k) = false.
Proof.
  intros Z H. destruct (isIdenticalZero V isz (el V zero tx p j k)) eqn:E; [|reflexivity]. exfalso. apply H.
  change zero with (den V rho (Par zero)). rewrite map_nth. unfold el in E. unfold isIdenticalZero in E.
  destruct (nth (j * S p + k) tx (Par zero)) as [v|id o]; [|discriminate]. cbn [den]. apply Z. exact E.
Qed.
Lemma forallb_negb_seq (f : nat -> bool) n pos : forallb (fun x => negb (f x)) (seq 0 n) = true -> pos < n -> f pos = false.
Proof. intros H L. rewrite forallb_forall in H. specialize (H pos). rewrite in_seq in H. destruct (f pos); [|reflexivity]. discriminate (H ltac:(lia)). Qed.
Lemma notEmpty_nil l : notEmpty l = false <-> l = [].
Proof. destruct l; cbn [notEmpty]; split; congruence. Qed.

(** what forward does outside of the recording of the call: one case for each way to return *)
Lemma forward_cases {V} (zero : V) isz fn xs junk q p n m tx rs call :
  p <= 1 -> forward V zero isz fn xs junk q p n m [] [] tx = Recorded rs call ->
  (isParameters V tx = true /\ call = None /\
   rs = map (fun pos => RPar (nth pos (snd (a_forward V fn q p (map (getValue V zero) tx) junk)) zero)) (seq 0 (m * S p))) \/
  (isParameters V tx = false /\ exists isVar,
    ((p = 0 /\ forall pos, isVar pos = true) \/
     (p = 1 /\ (exists r s x, a_forJac V fn 1 r x = (true, s) /\
        (forall j, j < n -> isIdenticalZero V isz (el V zero tx 1 j 1) = false -> nth j r [] <> []) /\
        (forall pos, pos < m * 2 -> isVar pos = if pos mod 2 =? 1 then notEmpty (nth (pos / 2) s []) else true)))) /\
    ((m = 0 /\ rs = []) \/
     exists tyb, (tyb = None /\ isValuesDefined V tx = false \/
                  isValuesDefined V tx = true /\ tyb = Some (snd (a_forward V fn q p (map (getValue V zero) tx) junk))) /\
       rs = map (fun pos => if isVar pos then RElem (pos mod S p) (pos / S p) (match tyb with None => None | Some l => Some (nth pos l zero) end)
                           else RPar zero) (seq 0 (m * S p)) /\
       call = Some (mkF V q p (map (fun k => if k =? 0 then makeArray V zero n tx p k else makeSparseArray V zero isz n tx p k) (seq 0 (S p)))
               (map (fun _ => makeZeroArray V zero m) (seq 0 (S p)))))).
Proof.
  intros P. unfold forward. destruct (isParameters V tx) eqn:EP.
  - destruct (a_forward V fn q p (map (getValue V zero) tx) junk) as [[|] tyb]; [|discriminate].
    intros H. injection H as <- <-. left. split; [reflexivity|]. split; reflexivity.
  - intros H. right. split; [reflexivity|]. destruct p as [|[|p]]; [| |lia].
    + exists (fun _ => true). split; [left; split; reflexivity|]. right. cbn [Nat.eqb andb] in H.
      assert (F : forall o : option (list V), forallb (fun pos => true || match o with None => true | Some l => isz (nth pos l zero) end) (seq 0 (m * 1)) = true).
      { intros o. apply forallb_forall. intros; reflexivity. }
      destruct (isValuesDefined V tx) eqn:EV.
      * destruct (a_forward V fn q 0 (map (getValue V zero) tx) junk) as [[|] tyb]; [|discriminate].
        rewrite (F (Some tyb)) in H. injection H as <- <-. exists (Some tyb). split; [right; split; reflexivity|]. split; reflexivity.
      * rewrite (F None) in H. injection H as <- <-. exists None. split; [left; split; reflexivity|]. split; reflexivity.
    + set (r := map (fun j => if isIdenticalZero V isz (el V zero tx 1 j 1) then [] else [0]) (seq 0 n)) in H.
      set (x := sparsityIndeps V zero xs (map (fun j => el V zero tx 1 j 0) (seq 0 n))) in H.
      destruct (a_forJac V fn 1 r x) as [[|] s] eqn:EJ; [|discriminate].
      set (vyL := map (fun pos => if pos mod 2 =? 1 then notEmpty (nth (pos / 2) s []) else true) (seq 0 (m * 2))) in H.
      exists (fun pos => match vyL with [] => true | _ => nth pos vyL false end).
      assert (Lv : length vyL = m * 2) by (unfold vyL; rewrite map_length, seq_length; reflexivity).
      split.
      * right. split; [reflexivity|]. exists r, s, x. split; [exact EJ|]. split.
        -- intros j Hj Z. unfold r. rewrite nth_seq_map by exact Hj. rewrite Z. discriminate.
        -- intros pos Hp. assert (E : (match vyL with [] => true | _ => nth pos vyL false end) = nth pos vyL false).
           { destruct vyL; [cbn [length] in Lv; lia|reflexivity]. }
           rewrite E. unfold vyL. rewrite nth_seq_map by exact Hp. reflexivity.
      * cbn [Nat.eqb andb] in H. destruct (forallb negb vyL) eqn:EA.
        -- left. injection H as <- <-. destruct m as [|m]; [split; reflexivity|]. exfalso.
           unfold vyL in EA. replace (S m * 2) with (S (S (m * 2))) in EA by lia. cbn [seq map forallb] in EA.
           change (0 mod 2 =? 1) with false in EA. discriminate.
        -- right. destruct (isValuesDefined V tx) eqn:EV.
           ++ destruct (a_forward V fn q 1 (map (getValue V zero) tx) junk) as [[|] tyb]; [|discriminate].
              match type of H with context [forallb ?a ?b] => destruct (forallb a b) end; [|discriminate]. injection H as <- <-. exists (Some tyb). split; [right; split; reflexivity|]. split; reflexivity.
           ++ match type of H with context [forallb ?a ?b] => destruct (forallb a b) end; [|discriminate]. injection H as <- <-. exists None. split; [left; split; reflexivity|]. split; reflexivity.
Qed.

(** ** C54: forward mode *)

(** When a sweep of forward mode of order 0, or of order 1 (also together with 0), records a call, the results of the highest
    order have in the generated code the values the function of the user gives for the values of the operands.
    Partial: orders 0 and 1; not the results of order 0 of a sweep of the orders 0 and 1. *)
Theorem C54_forward_partial : forall V (zero : V) isz add fn xs junk q p n m tx rs call,
  (forall v, isz v = true -> v = zero) -> (forall v, add zero v = v) ->
  standsAlone fn -> forwardPatternOk zero n m fn ->
  q <= p -> p <= 1 -> length tx = n * S p ->
  forward V zero isz fn xs junk q p n m [] [] tx = Recorded rs call ->
  length rs = m * S p /\
  forall rho i, i < m ->
    forwardValue zero add fn rho call (nth (i * S p + p) rs (RPar zero)) =
    Some (nth (i * S p + p) (snd (a_forward V fn q p (map (den V rho) tx) [])) zero).
Proof.
  intros V zero isz add fn xs junk q p n m tx rs call Z A [S1 S2] FP Q P L H.
  destruct (forward_cases _ _ _ _ _ _ _ _ _ _ _ _ P H) as [[EP [-> ->]]|[EP [isVar [HV HR]]]].
  - split; [rewrite map_length, seq_length; reflexivity|]. intros rho i Hi. destruct (unpos m p i p Hi ltac:(lia)) as [B _].
    rewrite nth_seq_map by exact B. cbn [forwardValue resValue]. rewrite (S1 q p _ junk []). rewrite (den_getValue zero rho tx EP). reflexivity.
  - destruct HR as [[-> ->]|[tyb [HT [-> ->]]]].
    + split; [reflexivity|]. intros rho i Hi. lia.
    + split; [rewrite map_length, seq_length; reflexivity|]. intros rho i Hi. destruct (unpos m p i p Hi ltac:(lia)) as [B [D M]].
      rewrite nth_seq_map by exact B. rewrite D, M. destruct (isVar (i * S p + p)) eqn:EV.
      * unfold forwardValue. rewrite resValue_val. rewrite (runForward_ok V zero isz add Z A fn q p n m tx rho i L Hi).
        rewrite (S1 q p _ (repeat zero (m * S p)) []). reflexivity.
      * destruct HV as [[_ HV]|[-> [r [s [x [EJ [HJ HV]]]]]]]; [rewrite HV in EV; discriminate|].
        rewrite HV in EV by exact B. rewrite M, D in EV. cbn [Nat.eqb] in EV. apply notEmpty_nil in EV.
        cbn [forwardValue resValue]. f_equal. symmetry. apply (FP q r x s); [exact Q|exact EJ| |exact Hi|exact EV].
        intros j Hj N. apply HJ; [exact Hj|]. apply (el_nonzero zero isz rho); assumption.
Qed.
Print Assumptions C54_forward_partial.

(** The stored values: when all operands have values, every result of the orders q to p has the value the function gives. *)
Theorem C54_forward_values_partial : forall V (zero : V) isz fn xs junk q p n m tx rs call,
  (forall v, isz v = true -> v = zero) ->
  standsAlone fn -> forwardPatternOk zero n m fn ->
  q <= p -> p <= 1 -> length tx = n * S p ->
  forward V zero isz fn xs junk q p n m [] [] tx = Recorded rs call ->
  forall k i, q <= k -> k <= p -> i < m ->
    storedValue (nth (i * S p + k) rs (RPar zero)) = Some (nth (i * S p + k) (snd (a_forward V fn q p (map (getValue V zero) tx) [])) zero) \/
    isValuesDefined V tx = false.
Proof.
  intros V zero isz fn xs junk q p n m tx rs call Z [S1 S2] FP Q P L H k i Qk Kp Hi.
  destruct (unpos m p i k Hi ltac:(lia)) as [B [D M]].
  destruct (forward_cases _ _ _ _ _ _ _ _ _ _ _ _ P H) as [[EP [-> ->]]|[EP [isVar [HV HR]]]].
  - left. rewrite nth_seq_map by exact B. cbn [storedValue]. rewrite (S1 q p _ junk []). reflexivity.
  - destruct HR as [[-> ->]|[tyb [HT [-> ->]]]]; [lia|].
    destruct HT as [[-> EU]|[EU ->]]; [right; exact EU|left].
    rewrite nth_seq_map by exact B. destruct (isVar (i * S p + k)) eqn:EV; cbn [storedValue].
    + rewrite (S1 q p _ junk []). reflexivity.
    + destruct HV as [[_ HV]|[-> [r [s [x [EJ [HJ HV]]]]]]]; [rewrite HV in EV; discriminate|].
      rewrite HV in EV by exact B. rewrite M, D in EV. destruct (Nat.eqb_spec k 1) as [->|]; [|discriminate]. apply notEmpty_nil in EV.
      f_equal. symmetry. apply (FP q r x s); [exact Q|exact EJ| |exact Hi|exact EV].
      intros j Hj N. apply HJ; [exact Hj|]. destruct (isIdenticalZero V isz (el V zero tx 1 j 1)) eqn:E; [|reflexivity]. exfalso. apply N.
      change zero with (getValue V zero (Par zero)). rewrite map_nth. unfold el in E.
      destruct (nth (j * 2 + 1) tx (Par zero)) as [v|id o]; cbn [isIdenticalZero] in E; [|discriminate]. cbn. apply Z. exact E.
Qed.
Print Assumptions C54_forward_values_partial.

(** A sweep of forward mode succeeds when the function does (it neither throws nor fails). *)
Theorem C54_forward_succeeds_partial : forall V (zero : V) isz fn xs junk q p n m tx,
  (forall v, isz v = true <-> v = zero) ->
  standsAlone fn -> forwardPatternOk zero n m fn ->
  q <= p -> p <= 1 -> length tx = n * S p ->
  (forall x, fst (a_forward V fn q p x junk) = true) -> (forall r x, fst (a_forJac V fn 1 r x) = true) ->
  exists rs call, forward V zero isz fn xs junk q p n m [] [] tx = Recorded rs call.
Proof.
  intros V zero isz fn xs junk q p n m tx Z [S1 S2] FP Q P L GF GJ. unfold forward.
  specialize (GF (map (getValue V zero) tx)).
  destruct (a_forward V fn q p (map (getValue V zero) tx) junk) as [okf tyb] eqn:EF. cbn [fst] in GF. subst okf.
  destruct (isParameters V tx); [eexists; eexists; reflexivity|].
  destruct p as [|[|p]]; [| |lia].
  - cbn [Nat.eqb andb].
    assert (F : forall o : option (list V), forallb (fun pos => true || match o with None => true | Some l => isz (nth pos l zero) end) (seq 0 (m * 1)) = true).
    { intros o. apply forallb_forall. intros; reflexivity. }
    destruct (isValuesDefined V tx); [rewrite (F (Some tyb))|rewrite (F None)]; eexists; eexists; reflexivity.
  - set (r := map (fun j => if isIdenticalZero V isz (el V zero tx 1 j 1) then [] else [0]) (seq 0 n)).
    set (x := sparsityIndeps V zero xs (map (fun j => el V zero tx 1 j 0) (seq 0 n))).
    specialize (GJ r x). destruct (a_forJac V fn 1 r x) as [okj s] eqn:EJ. cbn [fst] in GJ. subst okj.
    set (vyL := map (fun pos => if pos mod 2 =? 1 then notEmpty (nth (pos / 2) s []) else true) (seq 0 (m * 2))).
    destruct ((1 =? 1) && forallb negb vyL); [eexists; eexists; reflexivity|].
    assert (F : forall o, (o = None \/ isValuesDefined V tx = true /\ o = Some tyb) ->
      forallb (fun pos => match vyL with [] => true | _ => nth pos vyL false end || match o with None => true | Some l => isz (nth pos l zero) end) (seq 0 (m * 2)) = true).
    { intros o Ho. apply forallb_forall. intros pos Hp. apply in_seq in Hp.
      destruct (match vyL with [] => true | _ => nth pos vyL false end) eqn:EV; [reflexivity|]. cbn [orb].
      destruct Ho as [->|[EU ->]]; [reflexivity|]. apply Z.
      assert (Lv : length vyL = m * 2) by (unfold vyL; rewrite map_length, seq_length; reflexivity).
      assert (EV' : nth pos vyL false = false) by (destruct vyL; [discriminate|exact EV]).
      unfold vyL in EV'. rewrite nth_seq_map in EV' by lia.
      destruct (divmod m 1 pos ltac:(lia)) as [Hd [Hm E]]. destruct (Nat.eqb_spec (pos mod 2) 1) as [E1|]; [|discriminate].
      apply notEmpty_nil in EV'. rewrite <- E. rewrite E1. replace tyb with (snd (a_forward V fn q 1 (map (getValue V zero) tx) junk)) by (rewrite EF; reflexivity).
      apply (FP q r x s); [exact Q|exact EJ| |exact Hd|exact EV'].
      intros j Hj N. unfold r. rewrite nth_seq_map by exact Hj.
      destruct (isIdenticalZero V isz (el V zero tx 1 j 1)) eqn:EZ; [|discriminate]. exfalso. apply N.
      change zero with (getValue V zero (Par zero)). rewrite map_nth. unfold el in EZ. change (S 1) with 2 in EZ.
      destruct (nth (j * 2 + 1) tx (Par zero)) as [v|id o]; cbn [isIdenticalZero] in EZ; [|discriminate]. cbn. apply Z. exact EZ. }
    destruct (isValuesDefined V tx) eqn:EU.
    + change (m * S 1) with (m * 2). rewrite (F (Some tyb)) by (right; split; reflexivity). eexists; eexists; reflexivity.
    + change (m * S 1) with (m * 2). rewrite (F None) by (left; reflexivity). eexists; eexists; reflexivity.
Qed.
Print Assumptions C54_forward_succeeds_partial.

(** While the operations are being recorded (vx tells which operands are variables of the recording), the results which depend
    on a variable are right, and all of them when all the operands are parameters. *)
Lemma nth_error_nth_default {A} (l : list A) j d : nth j l d = match nth_error l j with Some x => x | None => d end.
Proof. revert j. induction l as [|a l IH]; intros [|j]; try reflexivity. apply IH. Qed.
Lemma nth_set (l : list bool) k j : nth j (setNth l k true) false = if (j =? k) && (k <? length l) then true else nth j l false.
Proof.
  rewrite !nth_error_nth_default. destruct (Nat.eqb_spec j k) as [->|N]; cbn [andb].
  - destruct (Nat.ltb_spec k (length l)) as [B|B]; [rewrite nth_set_eq by exact B; reflexivity|].
    replace (nth_error (setNth l k true) k) with (@None bool) by (symmetry; apply nth_error_None; rewrite setNth_length; exact B).
    replace (nth_error l k) with (@None bool) by (symmetry; apply nth_error_None; exact B). reflexivity.
  - rewrite nth_set_ne by congruence. reflexivity.
Qed.
Lemma mark_keeps l vy i : nth i vy false = true -> nth i (fold_left (fun vy i => setNth vy i true) l vy) false = true.
Proof.
  revert vy. induction l as [|a l IH]; intros vy H; [exact H|]. cbn [fold_left]. apply IH.
  rewrite nth_set. destruct ((i =? a) && (a <? length vy)); [reflexivity|exact H].
Qed.
Lemma mark_length l vy : length (fold_left (fun vy i => setNth vy i true) l vy) = length vy.
Proof. revert vy. induction l as [|a l IH]; intros vy; [reflexivity|]. cbn [fold_left]. rewrite IH. apply setNth_length. Qed.
Lemma mark_in l vy i : In i l -> i < length vy -> nth i (fold_left (fun vy i => setNth vy i true) l vy) false = true.
Proof.
  revert vy. induction l as [|a l IH]; intros vy I B; [destruct I|]. cbn [fold_left]. destruct I as [->|I].
  - apply mark_keeps. rewrite nth_set. rewrite Nat.eqb_refl. apply Nat.ltb_lt in B. rewrite B. reflexivity.
  - apply IH; [exact I|]. rewrite setNth_length. exact B.
Qed.
Definition markStep (vx : list bool) (st : list (list nat)) (vy : list bool) (j : nat) : list bool :=
  if nth j vx false then fold_left (fun vy i => setNth vy i true) (nth j st []) vy else vy.
Lemma marks_keeps vx st js vy i : nth i vy false = true -> nth i (fold_left (markStep vx st) js vy) false = true.
Proof.
  revert vy. induction js as [|j js IH]; intros vy H; [exact H|]. cbn [fold_left]. apply IH. unfold markStep.
  destruct (nth j vx false); [apply mark_keeps|]; exact H.
Qed.
Lemma markStep_length vx st vy j : length (markStep vx st vy j) = length vy.
Proof. unfold markStep. destruct (nth j vx false); [apply mark_length|reflexivity]. Qed.
Lemma marks_length vx st js vy : length (fold_left (markStep vx st) js vy) = length vy.
Proof. revert vy. induction js as [|j js IH]; intros vy; [reflexivity|]. cbn [fold_left]. rewrite IH. apply markStep_length. Qed.
Lemma marks_in vx st js vy i j : In j js -> nth j vx false = true -> In i (nth j st []) -> i < length vy ->
  nth i (fold_left (markStep vx st) js vy) false = true.
Proof.
  revert vy. induction js as [|j0 js IH]; intros vy I X Y B; [destruct I|]. cbn [fold_left]. destruct I as [->|I].
  - apply marks_keeps. unfold markStep. rewrite X. apply mark_in; assumption.
  - apply IH; try assumption. rewrite markStep_length. exact B.
Qed.

Theorem C54_recording_partial : forall V (zero : V) isz add fn xs junk n m vx vy tx rs call,
  (forall v, isz v = true -> v = zero) -> (forall v, add zero v = v) -> standsAlone fn ->
  length tx = n -> length vy = m -> length vx = n -> 0 < n ->
  forward V zero isz fn xs junk 0 0 n m vx vy tx = Recorded rs call ->
  length rs = m /\
  forall rho i, i < m ->
    isParameters V tx = true \/
    (exists j, j < n /\ nth j vx false = true /\
       In i (nth j (snd (a_revJac V fn m (map (fun i => [i]) (seq 0 m)) (sparsityIndeps V zero xs tx))) [])) ->
    forwardValue zero add fn rho call (nth i rs (RPar zero)) =
    Some (nth i (snd (a_forward V fn 0 0 (map (den V rho) tx) [])) zero).
Proof.
  intros V zero isz add fn xs junk n m vx vy tx rs call Z A [S1 S2] L Ly Lx Hn H.
  assert (EX : map (fun j => el V zero tx 0 j 0) (seq 0 n) = tx).
  { apply nth_ext with (d := Par zero) (d' := Par zero); [rewrite map_length, seq_length; symmetry; exact L|].
    intros j Hj. rewrite map_length, seq_length in Hj. rewrite nth_seq_map by exact Hj. unfold el. f_equal. lia. }
  unfold forward in H. rewrite EX in H.
  destruct vx as [|b vx']; [cbn [length] in Lx; lia|]. set (vx := b :: vx') in *.
  unfold zeroOrderDependency in H.
  destruct (a_revJac V fn m (map (fun j => [j]) (seq 0 m)) (sparsityIndeps V zero xs tx)) as [[|] st]; [|discriminate].
  change (fold_left (fun b j => if nth j vx false then fold_left (fun b' i => setNth b' i true) (nth j st []) b else b) (seq 0 n) vy)
    with (fold_left (markStep vx st) (seq 0 n) vy) in H.
  set (vy' := fold_left (markStep vx st) (seq 0 n) vy) in H.
  assert (Lv : length vy' = m) by (unfold vy'; rewrite marks_length; exact Ly).
  cbn [snd]. destruct (isParameters V tx) eqn:EP.
  - destruct (a_forward V fn 0 0 (map (getValue V zero) tx) junk) as [[|] tyb] eqn:EF; [|discriminate]. injection H as <- <-.
    split; [rewrite map_length, seq_length; lia|]. intros rho i Hi _. rewrite nth_seq_map by lia. cbn [forwardValue resValue].
    rewrite (S1 0 0 _ [] junk), (den_getValue zero rho tx EP), EF. reflexivity.
  - cbn [Nat.eqb andb] in H.
    assert (G : forall tyb,
      rs = map (fun pos => if (match vy' with [] => true | _ => nth pos vy' false end)
                          then RElem (pos mod 1) (pos / 1) (match tyb with None => None | Some l => Some (nth pos l zero) end) else RPar zero) (seq 0 (m * 1)) ->
      call = Some (mkF V 0 0 (map (fun k => if k =? 0 then makeArray V zero n tx 0 k else makeSparseArray V zero isz n tx 0 k) (seq 0 1))
               (map (fun _ => makeZeroArray V zero m) (seq 0 1))) ->
      length rs = m /\
      forall rho i, i < m ->
      false = true \/ (exists j, j < n /\ nth j vx false = true /\ In i (nth j st [])) ->
      forwardValue zero add fn rho call (nth i rs (RPar zero)) = Some (nth i (snd (a_forward V fn 0 0 (map (den V rho) tx) [])) zero)).
    { intros tyb -> ->. split; [rewrite map_length, seq_length; lia|]. intros rho i Hi [F|[j [Hj [Hx Hs]]]]; [discriminate|].
      rewrite nth_seq_map by lia. rewrite Nat.div_1_r, Nat.mod_1_r.
      assert (E : nth i vy' false = true).
      { unfold vy'. apply marks_in with (j := j); [apply in_seq; lia|exact Hx|exact Hs|lia]. }
      assert (E' : (match vy' with [] => true | _ => nth i vy' false end) = true) by (destruct vy'; [reflexivity|exact E]).
      rewrite E'. unfold forwardValue. rewrite resValue_val.
      pose proof (runForward_ok V zero isz add Z A fn 0 0 n m tx rho i ltac:(lia) Hi) as R. rewrite R.
      rewrite (S1 0 0 _ (repeat zero (m * 1)) []). do 2 f_equal. lia. }
    destruct (isValuesDefined V tx).
    + destruct (a_forward V fn 0 0 (map (getValue V zero) tx) junk) as [[|] tyb]; [|discriminate].
      match type of H with context [forallb ?a ?b] => destruct (forallb a b) end; [|discriminate]. injection H as HA HB.
      exact (G (Some tyb) (eq_sym HA) (eq_sym HB)).
    + match type of H with context [forallb ?a ?b] => destruct (forallb a b) end; [|discriminate]. injection H as HA HB.
      exact (G None (eq_sym HA) (eq_sym HB)).
Qed.
Print Assumptions C54_recording_partial.

(** ** C54: reverse mode *)

(** First order (the orders of the Taylor coefficients are 0): every partial derivative is right in the generated code and as
    a stored value. *)
Theorem C54_reverse_partial : forall V (zero : V) isz add fn xs sa debug n m tx ty py rs call,
  (forall v, isz v = true -> v = zero) -> (forall v, add zero v = v) ->
  standsAlone fn -> reversePatternOk zero n m fn ->
  length tx = n -> length py = m ->
  reverse V zero isz fn xs sa 0 n m tx ty py = Recorded rs call ->
  length rs = n /\
  (forall rho j, j < n -> (debug = true -> fst (a_forward V fn 0 0 (map (den V rho) tx) (repeat zero m)) = true) ->
    reverseValue zero add fn debug rho call (nth j rs (RPar zero)) =
    Some (nth j (snd (a_reverse V fn 0 (map (den V rho) tx) [] (map (den V rho) py))) zero)) /\
  (forall j, j < n -> isValuesDefined V tx && isValuesDefined V ty && isValuesDefined V py = true ->
    storedValue (nth j rs (RPar zero)) = Some (nth j (snd (a_reverse V fn 0 (map (getValue V zero) tx) [] (map (getValue V zero) py))) zero)).
Proof.
  intros V zero isz add fn xs sa debug n m tx ty py rs call Z A [S1 S2] RP L Lp H. unfold reverse in H.
  destruct (isParameters V tx && isParameters V ty && isParameters V py) eqn:EP.
  - destruct (a_reverse V fn 0 (map (getValue V zero) tx) (map (getValue V zero) ty) (map (getValue V zero) py)) as [[|] pxb] eqn:ER; [|discriminate].
    injection H as <- <-. apply andb_true_iff in EP. destruct EP as [EP E3]. apply andb_true_iff in EP. destruct EP as [E1 E2].
    split; [rewrite map_length, seq_length; lia|]. split.
    + intros rho j Hj _. rewrite nth_seq_map by lia. cbn [reverseValue resValue].
      rewrite (den_getValue zero rho tx E1), (den_getValue zero rho py E3).
      rewrite (S2 0 _ [] (map (getValue V zero) ty)), ER. reflexivity.
    + intros j Hj _. rewrite nth_seq_map by lia. cbn [storedValue]. rewrite (S2 0 _ [] (map (getValue V zero) ty)), ER. reflexivity.
  - set (rt := map (fun i => if isIdenticalZero V isz (el V zero py 0 i 0) then [] else [0]) (seq 0 m)) in H.
    set (x := sparsityIndeps V zero xs (map (fun j => el V zero tx 0 j 0) (seq 0 n))) in H.
    destruct (a_revJac V fn 1 rt x) as [[|] st] eqn:EJ; [|discriminate]. cbn [negb] in H.
    assert (ZD : forall g j, (forall v, g (Par v) = v) -> j < n -> nth j st [] = [] ->
      nth j (snd (a_reverse V fn 0 (map g tx) [] (map g py))) zero = zero).
    { intros g j Hg Hj E. apply (RP rt x st); [exact EJ| |exact Hj|exact E]. intros i Hi N. unfold rt. rewrite nth_seq_map by exact Hi.
      destruct (isIdenticalZero V isz (el V zero py 0 i 0)) eqn:EI; [|discriminate]. exfalso. apply N.
      rewrite <- (Hg zero). rewrite map_nth. unfold el in EI. replace (i * 1 + 0) with i in EI by lia.
      rewrite Hg. destruct (nth i py (Par zero)) as [v|id o]; cbn [isIdenticalZero] in EI; [|discriminate]. rewrite Hg. apply Z. exact EI. }
    match type of H with (if ?c then _ else _) = _ => destruct c eqn:EA end.
    + injection H as <- <-. split; [rewrite map_length, seq_length; lia|].
      assert (ES : forall j, j < n -> nth j st [] = []).
      { intros j Hj. pose proof (forallb_negb_seq _ _ j EA ltac:(lia)) as F. cbn beta in F. rewrite Nat.div_1_r in F. apply notEmpty_nil. exact F. }
      split; intros j Hj.
      * intros Hlt _. rewrite nth_seq_map by lia. cbn [reverseValue resValue]. f_equal. symmetry. apply ZD; [reflexivity|exact Hlt|apply ES; exact Hlt].
      * intros _. rewrite nth_seq_map by lia. cbn [storedValue]. f_equal. symmetry. apply ZD; [reflexivity|exact Hj|apply ES; exact Hj].
    + assert (G : forall pxb,
        rs = map (fun pos => if notEmpty (nth (pos / 1) st []) then RElem (pos mod 1) (pos / 1) (match pxb with None => None | Some l => Some (nth pos l zero) end) else RPar zero) (seq 0 (n * 1)) ->
        call = Some (mkR V 0 (map (fun k => if k =? 0 then makeArray V zero n tx 0 k else makeSparseArray V zero isz n tx 0 k) (seq 0 1))
                     (map (fun k => if sa then makeEmptySparseArray V m else makeSparseArray V zero isz m ty 0 k) (seq 0 1))
                     (map (fun k => if k =? 0 then makeZeroArray V zero n else makeEmptySparseArray V n) (seq 0 1))
                     (map (fun k => if k =? 0 then makeSparseArray V zero isz m py 0 k else makeArray V zero m py 0 k) (seq 0 1))) ->
        (isValuesDefined V tx && isValuesDefined V ty && isValuesDefined V py = true -> pxb = Some (snd (a_reverse V fn 0 (map (getValue V zero) tx) [] (map (getValue V zero) py)))) ->
        length rs = n /\
        (forall rho j, j < n -> (debug = true -> fst (a_forward V fn 0 0 (map (den V rho) tx) (repeat zero m)) = true) ->
          reverseValue zero add fn debug rho call (nth j rs (RPar zero)) =
          Some (nth j (snd (a_reverse V fn 0 (map (den V rho) tx) [] (map (den V rho) py))) zero)) /\
        (forall j, j < n -> isValuesDefined V tx && isValuesDefined V ty && isValuesDefined V py = true ->
          storedValue (nth j rs (RPar zero)) = Some (nth j (snd (a_reverse V fn 0 (map (getValue V zero) tx) [] (map (getValue V zero) py))) zero))).
      { intros pxb -> -> HP. split; [rewrite map_length, seq_length; lia|]. split.
        - intros rho j Hj HD. rewrite nth_seq_map by lia. rewrite Nat.div_1_r, Nat.mod_1_r. destruct (notEmpty (nth j st [])) eqn:EN.
          + unfold reverseValue. rewrite resValue_val.
            pose proof (runReverse_ok V zero isz add Z A fn debug 0 n m tx
              (map (fun k => if sa then makeEmptySparseArray V m else makeSparseArray V zero isz m ty 0 k) (seq 0 1)) py rho j ltac:(lia) ltac:(lia) Hj
              ltac:(intros; apply S2) ltac:(replace (m * 1) with m by lia; exact HD)) as R.
            rewrite R. do 2 f_equal. lia.
          + apply notEmpty_nil in EN. cbn [reverseValue resValue]. f_equal. symmetry. apply ZD; [reflexivity|exact Hj|exact EN].
        - intros j Hj HV. rewrite nth_seq_map by lia. rewrite Nat.div_1_r, Nat.mod_1_r. rewrite (HP HV). destruct (notEmpty (nth j st [])) eqn:EN; [reflexivity|].
          apply notEmpty_nil in EN. cbn [storedValue]. f_equal. symmetry. apply ZD; [reflexivity|exact Hj|exact EN]. }
      destruct (isValuesDefined V tx && isValuesDefined V ty && isValuesDefined V py) eqn:EV.
      * rewrite (S2 0 _ (map (getValue V zero) ty) []) in H.
        destruct (a_reverse V fn 0 (map (getValue V zero) tx) [] (map (getValue V zero) py)) as [[|] pxb] eqn:ER; [|discriminate].
        injection H as HA HB. apply (G (Some pxb) (eq_sym HA) (eq_sym HB)). reflexivity.
      * injection H as HA HB. apply (G None (eq_sym HA) (eq_sym HB)). discriminate.
Qed.
Print Assumptions C54_reverse_partial.

(** Second order, when the partial derivatives of the results of order 0 are identically zero (as at the end of a sweep whose
    weights are given to the last operation): those with respect to the coefficients of order 0 of the operands which are not
    parameters are right.  Partial: not the coefficients of order 1, not other partial derivatives of the results, and the
    function must be able to give its Hessian sparsity. *)
Theorem C54_reverse_second_partial : forall V (zero : V) isz add fn xs sa debug n m tx ty py rs call,
  (forall v, isz v = true -> v = zero) -> (forall v, add zero v = v) ->
  standsAlone fn -> hessianPatternOk zero n m fn ->
  length tx = n * 2 -> length py = m * 2 ->
  (forall i, i < m -> isIdenticalZero V isz (el V zero py 1 i 0) = true) ->
  (forall vx s q r u x, fst (a_revHes V fn vx s q r u x) = true) ->
  reverse V zero isz fn xs sa 1 n m tx ty py = Recorded rs call ->
  length rs = n * 2 /\
  forall rho j, j < n -> isPar V (el V zero tx 1 j 0) = false ->
    (debug = true -> fst (a_forward V fn 1 1 (map (den V rho) tx) (repeat zero (m * 2))) = true) ->
    reverseValue zero add fn debug rho call (nth (j * 2) rs (RPar zero)) =
    Some (nth (j * 2) (snd (a_reverse V fn 1 (map (den V rho) tx) [] (map (den V rho) py))) zero).
Proof.
  intros V zero isz add fn xs sa debug n m tx ty py rs call Z A [S1 S2] HP L Lp PZ GH H. unfold reverse in H.
  destruct (isParameters V tx && isParameters V ty && isParameters V py) eqn:EP.
  - destruct (a_reverse V fn 1 (map (getValue V zero) tx) (map (getValue V zero) ty) (map (getValue V zero) py)) as [[|] pxb] eqn:ER; [|discriminate].
    injection H as <- <-. apply andb_true_iff in EP. destruct EP as [EP E3]. apply andb_true_iff in EP. destruct EP as [E1 E2].
    split; [rewrite map_length, seq_length; lia|].
    intros rho j Hj _ _. rewrite nth_seq_map by lia. cbn [reverseValue resValue].
    rewrite (den_getValue zero rho tx E1), (den_getValue zero rho py E3).
    rewrite (S2 1 _ [] (map (getValue V zero) ty)), ER. reflexivity.
  - set (rt := map (fun i => if isIdenticalZero V isz (el V zero py 1 i 0) then [] else [0]) (seq 0 m)) in H.
    set (x := sparsityIndeps V zero xs (map (fun j => el V zero tx 1 j 0) (seq 0 n))) in H.
    destruct (a_revJac V fn 1 rt x) as [[|] st] eqn:EJ; [|discriminate]. cbn [negb] in H.
    set (vx := map (fun j => negb (isPar V (el V zero tx 1 j 0))) (seq 0 n)) in H.
    set (r := map (fun j => if isIdenticalZero V isz (el V zero tx 1 j 1) then [] else [0]) (seq 0 n)) in H.
    set (s := map (fun i => negb (isIdenticalZero V isz (el V zero py 1 i 1))) (seq 0 m)) in H.
    specialize (GH vx s 1 r (repeat [] m) x). destruct (a_revHes V fn vx s 1 r (repeat [] m) x) as [okh v] eqn:EH. cbn [fst] in GH. subst okh. cbn [snd] in H.
    assert (ZD : forall rho j, j < n -> isPar V (el V zero tx 1 j 0) = false -> nth j v [] = [] ->
      nth (j * 2) (snd (a_reverse V fn 1 (map (den V rho) tx) [] (map (den V rho) py))) zero = zero).
    { intros rho j Hj HN E. apply (HP vx s r x v); [exact EH| | | |exact Hj| |exact E].
      - intros i Hi. specialize (PZ i Hi). unfold el in PZ. replace (i * 2 + 0) with (i * 2) in PZ by lia.
        change zero with (den V rho (Par zero)) at 1. rewrite map_nth.
        destruct (nth (i * 2) py (Par zero)) as [w|id o]; cbn [isIdenticalZero] in PZ; [|discriminate]. cbn [den]. apply Z. exact PZ.
      - intros i Hi N. unfold s. rewrite nth_seq_map by exact Hi. rewrite (el_nonzero zero isz rho py 1 i 1 Z N). reflexivity.
      - intros i Hi N. unfold r. rewrite nth_seq_map by exact Hi. rewrite (el_nonzero zero isz rho tx 1 i 1 Z N). discriminate.
      - unfold vx. rewrite nth_seq_map by exact Hj. rewrite HN. reflexivity. }
    match type of H with (if ?c then _ else _) = _ => destruct c eqn:EA end.
    + injection H as <- <-. split; [rewrite map_length, seq_length; lia|]. intros rho j Hj HN _. rewrite nth_seq_map by lia. cbn [reverseValue resValue].
      f_equal. symmetry. apply ZD; [exact Hj|exact HN|].
      pose proof (forallb_negb_seq _ _ (j * 2) EA ltac:(lia)) as F. cbn beta in F.
      destruct (unpos n 1 j 0 Hj ltac:(lia)) as [_ [D M]]. replace (j * 2 + 0) with (j * 2) in D, M by lia. rewrite D, M in F. cbn [Nat.eqb] in F.
      apply notEmpty_nil. exact F.
    + assert (G : forall pxb,
        rs = map (fun pos => if (if pos mod 2 =? 0 then notEmpty (nth (pos / 2) v []) else if pos mod 2 =? 1 then notEmpty (nth (pos / 2) st []) else true)
               then RElem (pos mod 2) (pos / 2) (match pxb with None => None | Some l => Some (nth pos l zero) end) else RPar zero) (seq 0 (n * 2)) ->
        call = Some (mkR V 1 (map (fun k => if k =? 0 then makeArray V zero n tx 1 k else makeSparseArray V zero isz n tx 1 k) (seq 0 2))
                     (map (fun k => if sa then makeEmptySparseArray V m else makeSparseArray V zero isz m ty 1 k) (seq 0 2))
                     (map (fun k => if k =? 0 then makeZeroArray V zero n else makeEmptySparseArray V n) (seq 0 2))
                     (map (fun k => if k =? 0 then makeSparseArray V zero isz m py 1 k else makeArray V zero m py 1 k) (seq 0 2))) ->
        length rs = n * 2 /\
        forall rho j, j < n -> isPar V (el V zero tx 1 j 0) = false ->
          (debug = true -> fst (a_forward V fn 1 1 (map (den V rho) tx) (repeat zero (m * 2))) = true) ->
          reverseValue zero add fn debug rho call (nth (j * 2) rs (RPar zero)) =
          Some (nth (j * 2) (snd (a_reverse V fn 1 (map (den V rho) tx) [] (map (den V rho) py))) zero)).
      { intros pxb -> ->. split; [rewrite map_length, seq_length; lia|]. intros rho j Hj HN HD. rewrite nth_seq_map by lia.
        destruct (unpos n 1 j 0 Hj ltac:(lia)) as [_ [D M]]. replace (j * 2 + 0) with (j * 2) in D, M by lia. rewrite D, M. cbn [Nat.eqb].
        destruct (notEmpty (nth j v [])) eqn:EN.
        - unfold reverseValue. rewrite resValue_val.
          exact (runReverse_ok V zero isz add Z A fn debug 1 n m tx
              (map (fun k => if sa then makeEmptySparseArray V m else makeSparseArray V zero isz m ty 1 k) (seq 0 2)) py rho j L Lp Hj
              ltac:(intros; apply S2) HD).
        - apply notEmpty_nil in EN. cbn [reverseValue resValue]. f_equal. symmetry. apply ZD; [exact Hj|exact HN|exact EN]. }
      destruct (isValuesDefined V tx && isValuesDefined V ty && isValuesDefined V py) eqn:EV.
      * match type of H with context [a_reverse V fn 1 ?a ?b ?c] => destruct (a_reverse V fn 1 a b c) as [[|] pxb] end; [|discriminate].
        injection H as HA HB. exact (G (Some pxb) (eq_sym HA) (eq_sym HB)).
      * injection H as HA HB. exact (G None (eq_sym HA) (eq_sym HB)).
Qed.
Print Assumptions C54_reverse_second_partial.

(** With a model of another library as the atomic function, the call of second order reverse mode throws exactly when the
    recorded partial derivative of order 0 of some result is not identically zero, whatever its value. *)
Theorem C54_inner_model_throws : forall V (zero : V) isz fn xs sa n m tx ty py rs c rho,
  reverse V zero isz fn xs sa 1 n m tx ty py = Recorded rs (Some c) ->
  modelReverseThrows V (r_p V c) (map (evalArr V rho) (r_py V c)) = true <->
  exists i, i < m /\ isIdenticalZero V isz (el V zero py 1 i 0) = false.
Proof.
  intros V zero isz fn xs sa n m tx ty py rs c rho H.
  assert (E : r_p V c = 1 /\ nth 0 (r_py V c) (Dense []) = makeSparseArray V zero isz m py 1 0 /\ r_py V c <> []).
  { unfold reverse in H. destruct (isParameters V tx && isParameters V ty && isParameters V py).
    - destruct (a_reverse V fn 1 _ _ _) as [[|] ?] in H; [|discriminate]. injection H as _ H. discriminate.
    - destruct (a_revJac V fn 1 _ _) as [[|] st] in H; cbn [negb] in H; [|discriminate].
      match type of H with (if ?b then _ else _) = _ => destruct b end; [injection H as _ H; discriminate|].
      destruct (isValuesDefined V tx && isValuesDefined V ty && isValuesDefined V py).
      + destruct (a_reverse V fn 1 _ _ _) as [[|] ?] in H; [|discriminate]. injection H as _ <-. cbn. repeat split. discriminate.
      + injection H as _ <-. cbn. repeat split. discriminate. }
  destruct E as [-> [E NE]]. destruct (r_py V c) as [|a l]; [congruence|]. cbn [nth] in E. subst a. cbn [modelReverseThrows map nth makeSparseArray evalArr].
  rewrite map_map. cbn [fst snd]. split.
  - intros T. destruct (filter (fun i => negb (isIdenticalZero V isz (el V zero py 1 i 0))) (seq 0 m)) as [|i l'] eqn:EF; [discriminate|].
    assert (I : In i (filter (fun i => negb (isIdenticalZero V isz (el V zero py 1 i 0))) (seq 0 m))) by (rewrite EF; left; reflexivity).
    apply filter_In in I. destruct I as [I N]. apply in_seq in I. exists i. split; [lia|]. destruct (isIdenticalZero _ _ _); [discriminate|reflexivity].
  - intros [i [Hi N]]. destruct (filter (fun i => negb (isIdenticalZero V isz (el V zero py 1 i 0))) (seq 0 m)) as [|i' l'] eqn:EF; [|reflexivity].
    assert (I : In i (filter (fun i => negb (isIdenticalZero V isz (el V zero py 1 i 0))) (seq 0 m))).
    { apply filter_In. split; [apply in_seq; lia|]. rewrite N. reflexivity. }
    rewrite EF in I. destruct I.
Qed.
Print Assumptions C54_inner_model_throws.

(** ** Functions over the integers *)
Definition isz0 (v : Z) : bool := Z.eqb v 0.
Lemma isz0_ok v : isz0 v = true <-> v = 0%Z.
Proof. apply Z.eqb_eq. Qed.
Definition at' (l : list Z) (i : nat) : Z := nth i l 0%Z.

(** f(x0, x1) = x0 x1 *)
Definition mul : atomic Z := mkAtomic
  (fun q p tx ty => (true, match p with
     | 0 => [at' tx 0 * at' tx 1]%Z
     | _ => [at' tx 0 * at' tx 2; at' tx 1 * at' tx 2 + at' tx 0 * at' tx 3]%Z end))
  (fun p tx ty py => (true, match p with
     | 0 => [at' py 0 * at' tx 1; at' py 0 * at' tx 0]%Z
     | _ => [at' py 0 * at' tx 2 + at' py 1 * at' tx 3; at' py 1 * at' tx 2; at' py 0 * at' tx 0 + at' py 1 * at' tx 1; at' py 1 * at' tx 0]%Z end))
  (fun q r x => (true, [nth 0 r [] ++ nth 1 r []]))
  (fun q rt x => (true, [nth 0 rt []; nth 0 rt []]))
  (fun vx s q r u x => (true, if nth 0 s false then [if nth 0 vx false then nth 1 r [] else []; if nth 1 vx false then nth 0 r [] else []] else [[]; []])).
Lemma mul_standsAlone : standsAlone mul.
Proof. split; intros; reflexivity. Qed.
Lemma Z_dec0 (v : Z) : v = 0%Z \/ v <> 0%Z.
Proof. destruct (Z.eq_dec v 0); [left|right]; assumption. Qed.
Lemma mul_forward : forwardPatternOk 0%Z 2 1 mul.
Proof.
  intros q r x s tx ty _ E H i Hi N. cbn in E. injection E as <-. destruct i as [|i]; [|lia]. cbn [nth] in N. apply app_eq_nil in N. destruct N as [N0 N1].
  cbn [snd a_forward mul Nat.mul Nat.add nth].
  destruct (Z_dec0 (nth 1 tx 0%Z)) as [E0|E0]; [|destruct (H 0 ltac:(lia) E0 N0)].
  destruct (Z_dec0 (nth 3 tx 0%Z)) as [E1|E1]; [|destruct (H 1 ltac:(lia) E1 N1)].
  unfold at'. rewrite E0, E1. lia.
Qed.
Lemma mul_reverse : reversePatternOk 0%Z 2 1 mul.
Proof.
  intros rt x st tx ty py E H j Hj N. cbn in E. injection E as <-. cbn [snd a_reverse mul].
  assert (N0 : nth 0 rt [] = []) by (destruct j as [|[|j]]; [exact N|exact N|lia]).
  destruct (Z_dec0 (nth 0 py 0%Z)) as [E0|E0]; [|destruct (H 0 ltac:(lia) E0 N0)].
  unfold at'. rewrite E0. destruct j as [|[|j]]; [reflexivity|reflexivity|lia].
Qed.
Lemma mul_hessian : hessianPatternOk 0%Z 2 1 mul.
Proof.
  intros vx s r x v tx ty py E P0 P1 H j Hj HV N. cbn in E. injection E as <-. cbn [snd a_reverse mul]. specialize (P0 0 ltac:(lia)). cbn [Nat.mul] in P0. unfold at'. rewrite P0.
  destruct (Z_dec0 (nth 1 py 0%Z)) as [E1|E1].
  - rewrite E1. destruct j as [|[|j]]; [reflexivity|reflexivity|lia].
  - specialize (P1 0 ltac:(lia) E1). rewrite P1 in N. destruct j as [|[|j]]; [| |lia]; cbn [nth] in N; rewrite HV in N.
    + destruct (Z_dec0 (nth 3 tx 0%Z)) as [E|E]; [|destruct (H 1 ltac:(lia) E N)]. cbn [nth Nat.mul]. rewrite E. lia.
    + destruct (Z_dec0 (nth 1 tx 0%Z)) as [E|E]; [|destruct (H 0 ltac:(lia) E N)]. cbn [nth Nat.mul Nat.add]. rewrite E. lia.
Qed.

(** The identity of two variables *)
Definition same : atomic Z := mkAtomic (fun q p tx ty => (true, tx)) (fun p tx ty py => (true, py)) (fun q r x => (true, r)) (fun q rt x => (true, rt))
  (fun vx s q r u x => (true, repeat [] (length r))).
Lemma same_standsAlone : standsAlone same.
Proof. split; intros; reflexivity. Qed.
Lemma same_forward n : forwardPatternOk 0%Z n n same.
Proof.
  intros q r x s tx ty _ E H i Hi N. cbn in E. injection E as <-. cbn. destruct (Z_dec0 (nth (i * 2 + 1) tx 0%Z)) as [E|E]; [exact E|destruct (H i Hi E N)].
Qed.
Lemma same_reverse n : reversePatternOk 0%Z n n same.
Proof. intros rt x st tx ty py E H j Hj N. cbn in E. injection E as <-. cbn. destruct (Z_dec0 (nth j py 0%Z)) as [E|E]; [exact E|destruct (H j Hj E N)]. Qed.
Lemma same_hessian n : hessianPatternOk 0%Z n n same.
Proof. intros vx s r x v tx ty py E P0 P1 H j Hj HV N. cbn. apply P0. exact Hj. Qed.

(** The theorems apply: the product of x and of the sine of x (nodes 0 and 1), then with a direction, and backwards. *)
Definition rho0 (id : nat) : Z := nth id [3; 5; 7; 11; 13]%Z 0%Z.
Example C54_case :
  (exists rs call, forward Z 0%Z isz0 mul [] [] 0 0 2 1 [] [] [Node 0 None; Node 1 None] = Recorded rs call /\
     map (forwardValue 0%Z Z.add mul rho0 call) rs = [Some 15%Z]) /\
  (exists rs call, forward Z 0%Z isz0 mul [] [] 1 1 2 1 [] [] [Node 0 None; Par 1%Z; Node 1 (Some 4%Z); Node 2 None] = Recorded rs call /\
     map (forwardValue 0%Z Z.add mul rho0 call) rs = [Some 0%Z; Some 26%Z]) /\
  (exists rs call, forward Z 0%Z isz0 mul [] [] 1 1 2 1 [] [] [Node 0 None; Par 0%Z; Node 1 None; Par 0%Z] = Recorded rs call /\ nth 1 rs (RPar 9%Z) = RPar 0%Z) /\
  (exists rs call, reverse Z 0%Z isz0 mul [] false 0 2 1 [Node 0 None; Node 1 None] [Node 3 None] [Par 1%Z] = Recorded rs call /\
     map (reverseValue 0%Z Z.add mul false rho0 call) rs = [Some 5%Z; Some 3%Z]) /\
  (exists rs call, reverse Z 0%Z isz0 mul [] true 1 2 1 [Node 0 None; Node 2 None; Node 1 None; Par 0%Z] [Node 3 None; Node 4 None] [Par 0%Z; Node 4 None] = Recorded rs call /\
     map (reverseValue 0%Z Z.add mul true rho0 call) rs = [Some 0%Z; Some 0%Z; Some (13 * 7)%Z; Some 0%Z]) /\
  (exists rs call, forward Z 0%Z isz0 same [] [] 0 0 2 2 [true; true] [false; false] [Node 0 None; Node 1 None] = Recorded rs call /\
     map (forwardValue 0%Z Z.add same rho0 call) rs = [Some 3%Z; Some 5%Z]).
Proof. repeat split; (eexists; eexists; split; vm_compute; reflexivity). Qed.

(** ** Refuted *)

(** A sweep of the orders 0 and 1 together: the results of order 0 are not computed by the generated code. *)
Theorem C54_two_orders_refuted : exists n m (fn : atomic Z) tx rs call rho,
  standsAlone fn /\ forwardPatternOk 0%Z n m fn /\ length tx = n * 2 /\
  forward Z 0%Z isz0 fn [] [] 0 1 n m [] [] tx = Recorded rs call /\
  forwardValue 0%Z Z.add fn rho call (nth 0 rs (RPar 9%Z)) = Some 0%Z /\
  nth 0 (snd (a_forward Z fn 0 1 (map (den Z rho) tx) [])) 0%Z = 15%Z.
Proof.
  exists 2, 1, mul, [Node 0 None; Node 2 None; Node 1 None; Node 3 None]. eexists. eexists. exists rho0.
  split; [exact mul_standsAlone|]. split; [exact mul_forward|]. split; [reflexivity|]. split; [vm_compute; reflexivity|]. split; vm_compute; reflexivity.
Qed.
Print Assumptions C54_two_orders_refuted.

(** While recording, a result which depends only on constants of the recording (here on 3) is taken as zero when some operand
    is a variable of the generated code, or an exception is thrown if the values are known. *)
Theorem C54_constant_result_refuted : exists n m (fn : atomic Z) vx vy tx tx' rs call,
  standsAlone fn /\ reversePatternOk 0%Z n m fn /\
  forward Z 0%Z isz0 fn [] [] 0 0 n m vx vy tx = Recorded rs call /\
  (forall rho, forwardValue 0%Z Z.add fn rho call (nth 1 rs (RPar 9%Z)) = Some 0%Z /\
               nth 1 (snd (a_forward Z fn 0 0 (map (den Z rho) tx) [])) 0%Z = 3%Z) /\
  map (isPar Z) tx' = map (isPar Z) tx /\ forward Z 0%Z isz0 fn [] [] 0 0 n m vx vy tx' = Thrown.
Proof.
  exists 2, 2, same, [true; false], [false; false], [Node 0 None; Par 3%Z], [Node 0 (Some 1%Z); Par 3%Z]. eexists. eexists.
  split; [exact same_standsAlone|]. split; [exact (same_reverse 2)|]. split; [vm_compute; reflexivity|]. split; [|split; vm_compute; reflexivity].
  intros rho. split; reflexivity.
Qed.
Print Assumptions C54_constant_result_refuted.

(** A function whose derivative uses the result of order 0 (as the exponential does: y' = y x'), which CppAD gives to it and
    which is allowed when it is not declared as stand alone: the generated code gives zero. *)
Definition likeExp (f : Z -> Z) : atomic Z := mkAtomic
  (fun q p tx ty => (true, match p with
     | 0 => [f (at' tx 0)]%Z
     | _ => let y0 := if q =? 0 then f (at' tx 0) else at' ty 0 in [y0; y0 * at' tx 1]%Z end))
  (fun p tx ty py => (true, match p with
     | 0 => [at' py 0 * at' ty 0]%Z
     | _ => [at' py 0 * at' ty 0 + at' py 1 * at' ty 1; at' py 1 * at' ty 0]%Z end))
  (fun q r x => (true, r)) (fun q rt x => (true, rt))
  (fun vx s q r u x => (true, if nth 0 s false then r else [[]])).
Theorem C54_not_standalone_refuted : forall f, f 2%Z <> 0%Z ->
  exists tx ty py rs call rs' call',
  (* forward mode, first order, with the value of the result of order 0 *)
  forward Z 0%Z isz0 (likeExp f) [] [] 1 1 1 1 [] [] tx = Recorded rs call /\
  forwardValue 0%Z Z.add (likeExp f) (fun _ => 2%Z) call (nth 1 rs (RPar 9%Z)) = Some 0%Z /\
  nth 1 (snd (a_forward Z (likeExp f) 1 1 (map (den Z (fun _ => 2%Z)) tx) [f 2%Z; 0%Z])) 0%Z <> 0%Z /\
  (* reverse mode, not stand alone: the Taylor coefficients of the results are not given *)
  reverse Z 0%Z isz0 (likeExp f) [] false 0 1 1 [Node 0 None] ty py = Recorded rs' call' /\
  reverseValue 0%Z Z.add (likeExp f) false (fun _ => 2%Z) call' (nth 0 rs' (RPar 9%Z)) = Some 0%Z /\
  nth 0 (snd (a_reverse Z (likeExp f) 0 [2%Z] [f 2%Z] (map (den Z (fun _ => 2%Z)) py))) 0%Z <> 0%Z.
Proof.
  intros f F. exists [Node 0 None; Par 1%Z], [Node 1 None], [Par 1%Z]. eexists. eexists. eexists. eexists.
  split; [reflexivity|]. split; [reflexivity|]. split; [cbn; unfold at'; cbn [nth]; lia|].
  split; [reflexivity|]. split; [reflexivity|]. cbn. unfold at'. cbn [nth]. destruct (f 2%Z); congruence.
Qed.
Print Assumptions C54_not_standalone_refuted.

(** Second order reverse mode when the partial derivatives of order 0 are not identically zero (a nonlinear operation follows):
    those of the operands are lost; also those with respect to the coefficients of order 1 (which an operation before the
    call needs) are lost, or are read from an array without elements. *)
Theorem C54_second_order_refuted : exists n m (fn : atomic Z) tx ty py py' rs call rs' call',
  standsAlone fn /\ reversePatternOk 0%Z n m fn /\ hessianPatternOk 0%Z n m fn /\
  reverse Z 0%Z isz0 fn [] true 1 n m tx ty py = Recorded rs call /\
  reverse Z 0%Z isz0 fn [] true 1 n m tx ty py' = Recorded rs' call' /\
  (forall rho, reverseValue 0%Z Z.add fn false rho call (nth 0 rs (RPar 9%Z)) = Some 0%Z /\
               nth 0 (snd (a_reverse Z fn 1 (map (den Z rho) tx) [] (map (den Z rho) py))) 0%Z = rho 4 /\
               reverseValue 0%Z Z.add fn false rho call (nth 1 rs (RPar 9%Z)) = None /\
               reverseValue 0%Z Z.add fn false rho call' (nth 1 rs' (RPar 9%Z)) = Some 0%Z /\
               nth 1 (snd (a_reverse Z fn 1 (map (den Z rho) tx) [] (map (den Z rho) py'))) 0%Z = rho 5).
Proof.
  exists 1, 1, same, [Node 0 None; Node 1 None], [Node 2 None; Node 3 None], [Node 4 None; Node 5 None], [Par 0%Z; Node 5 None]. eexists. eexists. eexists. eexists.
  split; [exact same_standsAlone|]. split; [exact (same_reverse 1)|]. split; [exact (same_hessian 1)|]. split; [vm_compute; reflexivity|]. split; [vm_compute; reflexivity|].
  intros rho. repeat split.
Qed.
Print Assumptions C54_second_order_refuted.

(** Second order reverse mode with an operand which is a parameter of the generated code: its row of the Hessian is lost (when
    the function uses the information on which operands are variables). *)
Theorem C54_parameter_operand_refuted : exists n m (fn : atomic Z) tx ty py rs call rho,
  standsAlone fn /\ hessianPatternOk 0%Z n m fn /\
  (forall i, i < m -> isIdenticalZero Z isz0 (el Z 0%Z py 1 i 0) = true) /\
  reverse Z 0%Z isz0 fn [] true 1 n m tx ty py = Recorded rs call /\
  reverseValue 0%Z Z.add fn false rho call (nth 0 rs (RPar 9%Z)) = Some 0%Z /\
  nth 0 (snd (a_reverse Z fn 1 (map (den Z rho) tx) [] (map (den Z rho) py))) 0%Z = 11%Z.
Proof.
  exists 2, 1, mul, [Par 2%Z; Par 1%Z; Node 1 None; Node 3 None], [Node 2 None; Node 3 None], [Par 0%Z; Par 1%Z]. eexists. eexists. exists rho0.
  split; [exact mul_standsAlone|]. split; [exact mul_hessian|]. split; [intros [|i] Hi; [reflexivity|lia]|]. split; [vm_compute; reflexivity|].
  split; vm_compute; reflexivity.
Qed.
Print Assumptions C54_parameter_operand_refuted.

(** A function which cannot give its Hessian sparsity (false is returned): the second order derivatives are taken as zero. *)
Definition mulNoHessian : atomic Z := mkAtomic (a_forward Z mul) (a_reverse Z mul) (a_forJac Z mul) (a_revJac Z mul) (fun vx s q r u x => (false, [[]; []])).
Theorem C54_no_hessian_pattern_refuted : exists tx ty py rs call rho,
  (forall i, i < 1 -> isIdenticalZero Z isz0 (el Z 0%Z py 1 i 0) = true) /\
  (forall j, j < 2 -> isPar Z (el Z 0%Z tx 1 j 0) = false) /\
  reverse Z 0%Z isz0 mulNoHessian [] true 1 2 1 tx ty py = Recorded rs call /\
  reverseValue 0%Z Z.add mulNoHessian false rho call (nth 0 rs (RPar 9%Z)) = Some 0%Z /\
  nth 0 (snd (a_reverse Z mulNoHessian 1 (map (den Z rho) tx) [] (map (den Z rho) py))) 0%Z = 11%Z.
Proof.
  exists [Node 0 None; Par 1%Z; Node 1 None; Node 3 None], [Node 2 None; Node 3 None], [Par 0%Z; Par 1%Z]. eexists. eexists. exists rho0.
  split; [intros [|i] Hi; [reflexivity|lia]|]. split; [intros [|[|j]] Hj; [reflexivity|reflexivity|lia]|]. split; [vm_compute; reflexivity|].
  split; vm_compute; reflexivity.
Qed.
Print Assumptions C54_no_hessian_pattern_refuted.

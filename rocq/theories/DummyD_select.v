From Coq Require Import List Arith Bool ZArith Permutation Lia.
From Verif Require Import DaeGen_model DummyD_model DummyD_spec DaeGen_lists.
Import ListNotations.
Local Open Scope nat_scope.

Lemma filter_split {A} (f : A -> bool) l : Permutation (filter f l ++ filter (fun x => negb (f x)) l) l.
Proof.
  induction l as [|x l IH]; [reflexivity|]. cbn [filter]. destruct (f x); cbn [negb app].
  - now constructor.
  - rewrite <- Permutation_middle. now constructor.
Qed.
Lemma filter_len {A} (f : A -> bool) l : List.length (filter f l) + List.length (filter (fun x => negb (f x)) l) = List.length l.
Proof. rewrite <- app_length. apply Permutation_length, filter_split. Qed.

Lemma NoDup_app_l {A} (l r : list A) : NoDup (l ++ r) -> NoDup l.
Proof.
  induction l as [|x l IH]; [constructor|]. cbn [app]. intro H. inversion H; subst. constructor; [|now apply IH].
  intro I. apply H2. apply in_or_app. now left.
Qed.
(** ** The columns *)
Definition at_ (cols : list nat) (piv : list nat) := map (fun i => nth i cols 0) piv.
Lemma map_nth_seq (cols : list nat) : map (fun i => nth i cols 0) (seq 0 (List.length cols)) = cols.
Proof.
  induction cols as [|c r IH]; [reflexivity|]. cbn [List.length seq map nth]. f_equal. rewrite <- seq_shift, map_map. exact IH.
Qed.
Lemma at_perm cols piv : Permutation piv (seq 0 (List.length cols)) -> Permutation (at_ cols piv) cols.
Proof. intro H. unfold at_. rewrite (Permutation_map _ H). now rewrite map_nth_seq. Qed.

Section Sel.
Variable algebraic : nat -> bool.
Lemma remaining_ok cols piv need : (forall i, In i piv -> i < List.length cols) ->
  need <= List.length (filter (fun v => negb (algebraic v)) (at_ cols piv)) ->
  remaining algebraic cols piv need = Some (firstn need (filter (fun v => negb (algebraic v)) (at_ cols piv))).
Proof.
  revert need. induction piv as [|i r IH]; intros need B L.
  - cbn [at_ map filter List.length] in L. assert (need = 0) by lia. subst. reflexivity.
  - destruct need as [|k]; [reflexivity|]. cbn [remaining at_ map filter].
    assert (N : nth_error cols i = Some (nth i cols 0)) by (apply nth_error_nth'; apply B; now left).
    rewrite N. cbn [at_ map filter] in L. destruct (algebraic (nth i cols 0)); cbn [negb] in *.
    + apply IH; [intros; apply B; now right|exact L].
    + cbn [List.length] in L. change (map (fun i0 => nth i0 cols 0) r) with (at_ cols r) in *.
      rewrite IH; [reflexivity|intros; apply B; now right|lia].
Qed.
Lemma firstn_filter_prefix {A} (f : A -> bool) rows l :
  firstn (List.length (filter f (firstn rows l))) (filter f l) = filter f (firstn rows l).
Proof.
  revert l. induction rows as [|n IH]; intros l; [reflexivity|]. destruct l as [|x l]; [reflexivity|].
  cbn [firstn filter]. destruct (f x); cbn [List.length firstn]; now rewrite IH.
Qed.
Lemma at_firstn n cols piv : at_ cols (firstn n piv) = firstn n (at_ cols piv).
Proof. unfold at_. now rewrite firstn_map. Qed.
Lemma pick_ok avoidAlg rows cols piv : Permutation piv (seq 0 (List.length cols)) -> rows <= List.length cols ->
  exists l, pick avoidAlg algebraic rows cols piv = Some l /\ Permutation l (firstn rows (at_ cols piv)).
Proof.
  intros P L. unfold pick. fold (at_ cols (firstn rows piv)). rewrite at_firstn. destruct avoidAlg.
  - assert (LP : List.length (at_ cols piv) = List.length cols) by (apply Permutation_length, at_perm, P).
    set (pre := firstn rows (at_ cols piv)).
    assert (LR : List.length pre = rows) by (unfold pre; rewrite firstn_length; lia).
    assert (LF := filter_len algebraic pre).
    assert (E : firstn rows (filter algebraic pre) = filter algebraic pre) by (apply firstn_all2; lia).
    cbv zeta. rewrite E. rewrite remaining_ok.
    + cbn [option_map]. eexists; split; [reflexivity|].
      replace (rows - List.length (filter algebraic pre)) with (List.length (filter (fun v => negb (algebraic v)) pre)) by lia.
      unfold pre at 2. rewrite firstn_filter_prefix. apply filter_split.
    + intros i I. apply (Permutation_in _ P) in I. apply in_seq in I. lia.
    + replace (rows - List.length (filter algebraic pre)) with (List.length (filter (fun v => negb (algebraic v)) pre)) by lia.
      rewrite <- (firstn_skipn rows (at_ cols piv)). fold pre. rewrite filter_app, app_length. lia.
  - eexists; split; [reflexivity|reflexivity].
Qed.
End Sel.

Lemma existsb_perm {A} (f : A -> bool) l r : Permutation l r -> existsb f l = existsb f r.
Proof.
  intro P. destruct (existsb f r) eqn:E.
  - apply existsb_exists in E as (x & I & F). apply existsb_exists. exists x. split; [|exact F]. now apply Permutation_in with r.
  - destruct (existsb f l) eqn:E'; [|reflexivity]. apply existsb_exists in E' as (x & I & F).
    apply (Permutation_in _ P) in I. assert (existsb f r = true) by (apply existsb_exists; eauto). congruence.
Qed.
Lemma existsb_ext' {A} (f h : A -> bool) l : (forall x, f x = h x) -> existsb f l = existsb h l.
Proof. intro E. induction l; cbn; [reflexivity|]. now rewrite E, IHl. Qed.

(** ** One round *)
Section Round.
Variables (debug : bool) (nz : nat -> nat -> bool) (avoid : nat -> bool) (algebraic : nat -> bool).
Variable qr : list nat -> list nat -> option (list nat).
Hypothesis Q : qrOk qr.

Lemma incl_perm_firstn (l cols vars : list nat) rows piv : NoDup vars -> (exists f, cols = filter f vars) ->
  Permutation piv (seq 0 (List.length cols)) -> Permutation l (firstn rows (at_ cols piv)) -> rows <= List.length cols ->
  NoDup l /\ List.length l = rows /\ incl l cols.
Proof.
  intros ND (f & F) P PL L.
  assert (NC : NoDup cols) by (subst; now apply NoDup_filter).
  assert (NP : NoDup (at_ cols piv)) by (eapply Permutation_NoDup; [apply Permutation_sym, at_perm, P|exact NC]).
  split; [|split].
  - eapply Permutation_NoDup; [apply Permutation_sym, PL|]. rewrite <- (firstn_skipn rows (at_ cols piv)) in NP.
    now apply NoDup_app_l in NP.
  - rewrite (Permutation_length PL), firstn_length. rewrite (Permutation_length (at_perm _ _ P)). lia.
  - intros x I. apply (Permutation_in _ PL) in I. eapply Permutation_in; [apply at_perm, P|].
    rewrite <- (firstn_skipn rows). apply in_or_app. now left.
Qed.

Lemma filter_filter {A} (f h : A -> bool) l : filter f (filter h l) = filter (fun x => h x && f x) l.
Proof. induction l as [|x l IH]; cbn; [reflexivity|]. destruct (h x); cbn; [destruct (f x); cbn; now rewrite IH|exact IH]. Qed.

(** what a selection of some columns is *)
Lemma select_ok avoidAlg eqs vars ds l : NoDup vars -> select debug nz avoid avoidAlg algebraic qr eqs vars ds = ROk l ->
  NoDup l /\ List.length l = List.length eqs /\ incl l vars /\
  (List.length eqs <> List.length vars -> forall v, In v l ->
     (exists i, In i eqs /\ nz i v = true) /\
     (avoid v = true ->
        let ok := filter (fun v => existsb (fun i => nz i v) eqs && negb (avoid v)) vars in
        List.length ok < List.length eqs \/ qr eqs ok = None)).
Proof.
  intros ND. unfold select. destruct (Nat.eqb_spec (List.length eqs) (List.length vars)) as [EQ|NE].
  { destruct (debug && _); [discriminate|]. intro H. injection H as <-. split; [exact ND|]. split; [easy|]. split; [apply incl_refl|easy]. }
  cbv zeta.
  set (all := filter (fun v => negb (zeroCol nz eqs v)) vars).
  set (avoided := filter (fun v => negb (zeroCol nz eqs v) && avoid v) vars).
  set (ea := _ <=? _).
  set (cols1 := if ea then filter (fun v => negb (avoid v)) all else all).
  assert (F1 : exists f, cols1 = filter f vars).
  { unfold cols1, all. destruct ea; [rewrite filter_filter|]; eauto. }
  assert (F2 : exists f, all = filter f vars) by (unfold all; eauto).
  assert (IN : forall v, In v all -> exists i, In i eqs /\ nz i v = true).
  { intros v I. unfold all in I. apply filter_In in I as (_ & Z). unfold zeroCol in Z. rewrite negb_involutive in Z.
    now apply existsb_exists in Z. }
  assert (I1 : incl cols1 all).
  { unfold cols1. destruct ea; [|apply incl_refl]. intros v I. now apply filter_In in I. }
  assert (OKE : filter (fun v => existsb (fun i => nz i v) eqs && negb (avoid v)) vars = filter (fun v => negb (avoid v)) all).
  { unfold all. rewrite filter_filter. apply filter_ext. intro v. unfold zeroCol. now rewrite negb_involutive. }
  assert (LEN : List.length (filter (zeroCol nz eqs) vars) + (List.length avoided + List.length (filter (fun v => negb (avoid v)) all)) = List.length vars).
  { rewrite <- (filter_len (zeroCol nz eqs) vars). fold all. f_equal. rewrite <- (filter_len avoid all). f_equal.
    unfold avoided, all. now rewrite filter_filter. }
  assert (OUT : forall cols piv, (exists f, cols = filter f vars) -> incl cols all -> qr eqs cols = Some piv ->
     (forall v, In v cols -> avoid v = true ->
        List.length (filter (fun v => negb (avoid v)) all) < List.length eqs \/ qr eqs (filter (fun v => negb (avoid v)) all) = None) ->
     match pick avoidAlg algebraic (List.length eqs) cols piv with
     | None => RBad
     | Some l => if debug && existsb (fun v => existsb (Nat.eqb v) ds) l then RAssert else ROk l end = ROk l ->
     NoDup l /\ List.length l = List.length eqs /\ incl l vars /\
     (List.length eqs <> List.length vars -> forall v, In v l ->
       (exists i, In i eqs /\ nz i v = true) /\
       (avoid v = true -> let ok := filter (fun v => existsb (fun i => nz i v) eqs && negb (avoid v)) vars in
          List.length ok < List.length eqs \/ qr eqs ok = None))).
  { intros cols piv F I HQ AV. destruct (Q _ _ _ HQ) as (P & L).
    destruct (pick_ok algebraic avoidAlg (List.length eqs) cols piv P L) as (l' & -> & PL).
    destruct (debug && _); [discriminate|]. intro H. injection H as <-.
    destruct (incl_perm_firstn _ _ vars _ _ ND F P PL L) as (A & B & C). split; [exact A|]. split; [exact B|]. split.
    - intros v Iv. apply C, I in Iv. unfold all in Iv. now apply filter_In in Iv.
    - intros _ v Iv. split; [apply IN, I, C, Iv|]. intro E. cbv zeta. rewrite OKE. eapply AV; [apply C, Iv|exact E]. }
  destruct (qr eqs cols1) as [piv|] eqn:HQ1.
  - apply OUT; [exact F1|exact I1|exact HQ1|]. intros v I E. left. unfold cols1, ea in I.
    destruct (Nat.leb_spec (List.length eqs) (List.length vars - (List.length (filter (zeroCol nz eqs) vars) + List.length avoided))); [|lia].
    apply filter_In in I as (_ & E'). rewrite E in E'. discriminate.
  - destruct avoided as [|a r] eqn:AE; [discriminate|]. destruct (qr eqs all) as [piv|] eqn:HQ2; [|discriminate].
    apply OUT; [exact F2|apply incl_refl|exact HQ2|]. intros v I E. unfold cols1 in HQ1.
    destruct (ea) eqn:EA; [right; exact HQ1|]. left. unfold ea in EA. apply Nat.leb_gt in EA. lia.
Qed.
Lemma try_ok (eqs c1 all av cols piv : list nat) :
  match qr eqs c1 with
  | Some piv => Some (c1, piv)
  | None => match av with [] => None | _ => match qr eqs all with Some piv => Some (all, piv) | None => None end end
  end = Some (cols, piv) -> qr eqs cols = Some piv.
Proof.
  destruct (qr eqs c1) eqn:E1; [intro E; now injection E as <- <-|].
  destruct av; [discriminate|]. destruct (qr eqs all) eqn:E2; [intro E; now injection E as <- <-|discriminate].
Qed.
(** no index past the end *)
Lemma select_good avoidAlg eqs vars ds : select debug nz avoid avoidAlg algebraic qr eqs vars ds <> RBad.
Proof.
  unfold select. destruct (_ =? _); [destruct (debug && _); discriminate|]. cbv zeta.
  match goal with |- match ?m with _ => _ end <> _ => destruct m as [(cols & piv)|] eqn:E end; [|discriminate].
  assert (HQ : qr eqs cols = Some piv).
  { exact (try_ok _ _ _ _ _ _ E). }
  destruct (Q _ _ _ HQ) as (P & L). destruct (pick_ok algebraic avoidAlg (List.length eqs) cols piv P L) as (l' & -> & PL).
  destruct (debug && _); discriminate.
Qed.
(** the option changes nothing but the order *)
Inductive same : res (list nat) -> res (list nat) -> Prop :=
  | same_ok l r : Permutation l r -> same (ROk l) (ROk r)
  | same_throw : same RThrow RThrow | same_assert : same RAssert RAssert | same_bad : same RBad RBad.
Lemma select_same eqs vars ds ds' : Permutation ds ds' ->
  same (select debug nz avoid true algebraic qr eqs vars ds) (select debug nz avoid false algebraic qr eqs vars ds').
Proof.
  intro PD. assert (ME : forall v, existsb (Nat.eqb v) ds = existsb (Nat.eqb v) ds') by (intro; now apply existsb_perm).
  unfold select. destruct (_ =? _).
  - rewrite (existsb_ext' (fun v => existsb (Nat.eqb v) (ds ++ vars)) (fun v => existsb (Nat.eqb v) (ds' ++ vars))).
    + destruct (debug && _); constructor. reflexivity.
    + intro v. rewrite !existsb_app. now rewrite ME.
  - cbv zeta. match goal with |- same (match ?m with _ => _ end) _ => destruct m as [(cols & piv)|] eqn:E end; [|constructor].
    assert (HQ : qr eqs cols = Some piv).
    { exact (try_ok _ _ _ _ _ _ E). }
    destruct (Q _ _ _ HQ) as (P & L).
    destruct (pick_ok algebraic true (List.length eqs) cols piv P L) as (l & -> & PL).
    destruct (pick_ok algebraic false (List.length eqs) cols piv P L) as (l' & -> & PL').
    assert (PP : Permutation l l') by (now rewrite PL, PL').
    rewrite (existsb_ext' _ (fun v => existsb (Nat.eqb v) ds') l ME), (existsb_perm _ _ _ PP).
    destruct (debug && _); constructor. exact PP.
Qed.

(** ** The rounds *)
Variable g : gr.
Lemma rounds_same fuel eqs vars ds ds' : Permutation ds ds' ->
  match rounds debug nz avoid true algebraic qr g fuel eqs vars ds, rounds debug nz avoid false algebraic qr g fuel eqs vars ds' with
  | Some a, Some b => same a b | None, None => True | _, _ => False end.
Proof.
  revert eqs vars ds ds'. induction fuel as [|fuel IH]; intros eqs vars ds ds' P; [exact I|]. cbn [rounds].
  destruct (select_same eqs vars ds ds' P) as [l r PL| | |]; [|constructor|constructor|constructor].
  destruct (pred (eOf g) eqs) as [|e es]; [constructor; now apply Permutation_app|]. apply IH. now apply Permutation_app.
Qed.
Lemma rounds_good avoidAlg fuel eqs vars ds : rounds debug nz avoid avoidAlg algebraic qr g fuel eqs vars ds <> Some RBad.
Proof.
  revert eqs vars ds. induction fuel as [|fuel IH]; intros eqs vars ds; [discriminate|]. cbn [rounds].
  assert (G := select_good avoidAlg eqs vars ds).
  destruct (select _ _ _ _ _ _ _ _ _); [|discriminate|discriminate|congruence]. destruct (pred _ _); [discriminate|]. apply IH.
Qed.
End Round.

(** ** Chains of derivatives *)
Section Chains.
Variables (idx : list nat) (anti der : nat -> option nat).
Hypothesis LK : linkedBy idx anti der.

Lemma anti_inj a b o : In a idx -> In b idx -> anti a = Some o -> anti b = Some o -> a = b.
Proof.
  destruct LK as (_ & A & _). intros Ia Ib Ea Eb. destruct (A _ _ Ia Ea) as (_ & D1). destruct (A _ _ Ib Eb) as (_ & D2). congruence.
Qed.
(** [level k j]: [k] derivatives above [j]; the first level are the last derivatives *)
Fixpoint up (k : nat) (j : nat) : option nat := match k with 0 => Some j | S k => match der j with Some d => up k d | None => None end end.
Definition level (k j : nat) : Prop := match up k j with Some t => der t = None | None => False end.
Lemma level_uniq j k k' : level k j -> level k' j -> k = k'.
Proof.
  revert j k'. induction k as [|k IH]; intros j k' H H'; destruct k' as [|k']; [reflexivity| | |].
  - unfold level in *. cbn [up] in *. rewrite H in H'. easy.
  - unfold level in *. cbn [up] in *. rewrite H' in H. easy.
  - f_equal. unfold level in *. cbn [up] in *. destruct (der j); [|easy]. eapply IH; eauto.
Qed.
(** A round has the derivatives of one level *)
Definition isRound (k : nat) (l : list nat) : Prop := NoDup l /\ forall j, In j l <-> In j idx /\ anti j <> None /\ level k j.

Lemma pred_In l o : In o (pred anti l) <-> exists j, In j l /\ anti j = Some o /\ anti o <> None.
Proof.
  unfold pred. rewrite in_concat. split.
  - intros (x & Ix & Io). apply in_map_iff in Ix as (j & <- & Ij). destruct (anti j) as [a|] eqn:E; [|easy].
    destruct (anti a) eqn:E2; cbn [some] in Io; [|easy]. destruct Io as [<-|[]]. exists j. split; [easy|]. split; [easy|congruence].
  - intros (j & Ij & E & N). exists [o]. split; [|now left]. apply in_map_iff. exists j. split; [|easy]. rewrite E.
    now destruct (anti o).
Qed.
Lemma pred_NoDup l : incl l idx -> NoDup l -> NoDup (pred anti l).
Proof.
  intros INC ND. induction ND as [|x l NI ND IH]; [constructor|]. change (NoDup (match anti x with Some o => if some (anti o) then [o] else [] | None => [] end ++ pred anti l)).
  assert (IHl : NoDup (pred anti l)) by (apply IH; intros y I; apply INC; now right).
  destruct (anti x) as [o|] eqn:E; [|exact IHl]. destruct (some (anti o)); [|exact IHl]. cbn [app]. constructor; [|exact IHl].
  rewrite pred_In. intros (j & Ij & Ej & _). assert (j = x); [|congruence].
  apply (anti_inj j x o); [apply INC; now right|apply INC; now left|exact Ej|exact E].
Qed.
Lemma round_pred k l : isRound k l -> isRound (S k) (pred anti l).
Proof.
  intros (ND & C). assert (INC : incl l idx) by (intros j I; now apply C in I). split; [now apply pred_NoDup|].
  intro o. rewrite pred_In. destruct LK as (_ & A & D & _). split.
  - intros (j & Ij & E & N). apply C in Ij as (Ij & _ & L). destruct (A _ _ Ij E) as (Io & Eo). split; [easy|]. split; [easy|].
    unfold level. cbn [up]. rewrite Eo. exact L.
  - intros (Io & N & L). unfold level in L. cbn [up] in L. destruct (der o) as [j|] eqn:E; [|easy].
    destruct (D _ _ Io E) as (Ij & Ej). exists j. split; [|easy]. apply C. split; [easy|]. split; [congruence|exact L].
Qed.
(** No derivatives further down *)
Lemma round_empty k : (forall j, ~ (In j idx /\ anti j <> None /\ level k j)) -> forall k', k <= k' -> forall j, ~ (In j idx /\ anti j <> None /\ level k' j).
Proof.
  intros H k' L. induction L as [|k' L IH]; [exact H|]. intros j (I & N & Lv).
  destruct LK as (_ & A & D & _). unfold level in Lv. cbn [up] in Lv. destruct (der j) as [d|] eqn:E; [|easy].
  destruct (D _ _ I E) as (Id & Ed). apply (IH d). split; [easy|]. split; [congruence|exact Lv].
Qed.
(** Every derivative has a level *)
Lemma has_level j : In j idx -> exists k, k < List.length idx /\ level k j.
Proof.
  destruct LK as (ND & A & D & rank & R).
  assert (G : forall n j, In j idx -> List.length (filter (fun i => rank j <? rank i) idx) <= n ->
     exists k, k <= n /\ level k j).
  { induction n as [|n IH]; intros i Ii L.
    - exists 0. split; [lia|]. unfold level. cbn [up]. destruct (der i) as [d|] eqn:E; [|easy]. destruct (D _ _ Ii E) as (Id & Ed).
      assert (R1 := R _ _ Id Ed). assert (In d (filter (fun k => rank i <? rank k) idx)) by (apply filter_In; split; [easy|]; now apply Nat.ltb_lt).
      destruct (filter _ idx); [easy|cbn in L; lia].
    - destruct (der i) as [d|] eqn:E.
      + destruct (D _ _ Ii E) as (Id & Ed). assert (R1 := R _ _ Id Ed).
        destruct (IH d Id) as (k & Lk & Lv).
        * assert (LT : List.length (filter (fun k => rank d <? rank k) idx) < List.length (filter (fun k => rank i <? rank k) idx)); [|lia].
          clear -R1 Id. induction idx as [|x l IHl]; [easy|]. cbn [filter].
          assert (MONO : List.length (filter (fun k => rank d <? rank k) l) <= List.length (filter (fun k => rank i <? rank k) l)).
          { clear -R1. induction l as [|y l IH]; [easy|]. cbn [filter].
            destruct (Nat.ltb_spec (rank d) (rank y)), (Nat.ltb_spec (rank i) (rank y)); cbn [List.length]; lia. }
          destruct Id as [->|Id].
          -- rewrite Nat.ltb_irrefl. rewrite (proj2 (Nat.ltb_lt _ _) R1). cbn [List.length]. lia.
          -- specialize (IHl Id). destruct (Nat.ltb_spec (rank d) (rank x)), (Nat.ltb_spec (rank i) (rank x)); cbn [List.length]; lia.
        * exists (S k). split; [lia|]. unfold level. cbn [up]. now rewrite E.
      + exists 0. split; [lia|]. unfold level. cbn [up]. exact E. }
  intro I. destruct (G (List.length (filter (fun i => rank j <? rank i) idx)) j I (le_n _)) as (k & Lk & Lv). exists k. split; [|exact Lv].
  assert (LT : List.length (filter (fun i => rank j <? rank i) idx) < List.length idx); [|lia].
  clear -I. induction idx as [|x l IH]; [easy|]. cbn [filter List.length]. destruct I as [->|I].
  - rewrite Nat.ltb_irrefl. cbv iota. assert (H := filter_len (fun i => rank j <? rank i) l). cbv beta in H. lia.
  - specialize (IH I). destruct (_ <? _); cbn [List.length]; lia.
Qed.
Lemma round0 (l : list nat) : Permutation l (filter (fun j => some (anti j) && negb (some (der j))) (rev idx)) -> isRound 0 l.
Proof.
  intro P. destruct LK as (ND & _). split.
  - eapply Permutation_NoDup; [apply Permutation_sym, P|]. apply NoDup_filter. now apply NoDup_rev.
  - intro j. assert (X : In j l <-> In j (filter (fun j => some (anti j) && negb (some (der j))) (rev idx))).
    { split; apply Permutation_in; [exact P|now apply Permutation_sym]. }
    rewrite X, filter_In, <- in_rev. unfold level. cbn [up]. destruct (anti j), (der j); cbn; intuition congruence.
Qed.
End Chains.

Section All.
Variables (debug : bool) (nz : nat -> nat -> bool) (avoid : nat -> bool) (avoidAlg : bool) (algebraic : nat -> bool).
Variable qr : list nat -> list nat -> option (list nat).
Hypothesis Q : qrOk qr.
Variable g : gr.
Hypothesis LK : linked g.

(** [b] levels are left *)
Lemma rounds_ok fuel k eqs vars ds r :
  isRound (g_ea g) (eOf g) (eDer g) k eqs -> isRound (g_va g) (vAnti g) (vDer g) k vars ->
  NoDup ds -> (forall d, In d ds -> In d (g_va g) /\ vAnti g d <> None /\ exists k', k' < k /\ level (vDer g) k' d) ->
  rounds debug nz avoid avoidAlg algebraic qr g fuel eqs vars ds = Some (ROk r) ->
  exists new, r = ds ++ new /\ NoDup r /\ (forall d, In d r -> In d (g_va g) /\ vAnti g d <> None) /\
    exists rest, List.length new = List.length eqs + List.length rest /\ NoDup rest /\
      forall i, In i rest <-> In i (g_ea g) /\ eOf g i <> None /\ exists k', k < k' /\ level (eDer g) k' i.
Proof.
  destruct LK as (LV & LE & _).
  revert k eqs vars ds. induction fuel as [|fuel IH]; intros k eqs vars ds RE RV ND DS; [discriminate|]. cbn [rounds].
  destruct (select _ _ _ _ _ _ _ _ _) as [new| | |] eqn:SE; [|discriminate|discriminate|discriminate].
  destruct (select_ok debug nz avoid algebraic qr Q avoidAlg eqs vars ds new (proj1 RV) SE) as (N1 & L1 & I1 & _).
  assert (NN : NoDup (ds ++ new)).
  { clear -ND N1 DS I1 RV. revert N1 I1. intros N1 I1. assert (DJ : forall x, In x ds -> ~ In x new).
    { intros x Ix Iy. destruct (DS x Ix) as (_ & _ & k' & Lk & Lv). apply I1 in Iy. apply RV in Iy as (_ & _ & Lv').
      assert (k' = k) by (eapply level_uniq; eauto). lia. }
    clear -ND N1 DJ. induction ds as [|x l IH]; [exact N1|]. inversion ND; subst. cbn [app]. constructor.
    - intro I. apply in_app_or in I as [I|I]; [easy|]. now apply (DJ x (or_introl eq_refl)).
    - apply IH; [easy|]. intros y I. apply DJ. now right. }
  assert (DN : forall d, In d (ds ++ new) -> In d (g_va g) /\ vAnti g d <> None /\ exists k', k' < S k /\ level (vDer g) k' d).
  { intros d I. apply in_app_or in I as [I|I].
    - destruct (DS d I) as (A & B & k' & Lk & Lv). split; [easy|]. split; [easy|]. exists k'. split; [lia|easy].
    - apply I1, RV in I as (A & B & Lv). split; [easy|]. split; [easy|]. exists k. split; [lia|easy]. }
  assert (RE' := round_pred _ _ _ LE _ _ RE). assert (RV' := round_pred _ _ _ LV _ _ RV).
  destruct (pred (eOf g) eqs) as [|e es] eqn:PE.
  - intro H. injection H as <-. exists new. split; [reflexivity|]. split; [exact NN|]. split; [intros d I; destruct (DN d I) as (A & B & _); easy|].
    exists []. split; [cbn; lia|]. split; [constructor|]. intro i. split; [easy|]. intros (I & N & k' & Lk & Lv).
    eapply (round_empty _ _ _ LE (S k)); [|exact Lk|split; [exact I|split; [exact N|exact Lv]]].
    intros j H. now apply (proj2 RE') in H.
  - intro H. destruct (IH (S k) _ _ _ RE' RV' NN DN H) as (new' & -> & NR & DR & rest & LR & NDr & CR).
    exists (new ++ new'). split; [now rewrite app_assoc|]. split; [exact NR|]. split; [exact DR|].
    exists ((e :: es) ++ rest). split; [rewrite !app_length; lia|]. split.
    + destruct RE' as (NE & CE). clear -NE CE NDr CR. assert (DJ : forall x, In x (e :: es) -> ~ In x rest).
      { intros x Ix Iy. apply CE in Ix as (_ & _ & Lv). apply CR in Iy as (_ & _ & k' & Lk & Lv').
        assert (k' = S k) by (eapply level_uniq; eauto). lia. }
      clear CE. revert NE DJ. generalize (e :: es). intro l. induction l as [|x l IH]; intros NE DJ; [exact NDr|]. inversion NE; subst.
      cbn [app]. constructor.
      * intro I. apply in_app_or in I as [I|I]; [easy|]. now apply (DJ x (or_introl eq_refl)).
      * apply IH; [easy|]. intros y I. apply DJ. now right.
    + intro i. rewrite in_app_iff, CR. rewrite (proj2 RE' i). split.
      * intros [(A & B & Lv)|(A & B & k' & Lk & Lv)]; split; try easy; split; try easy; [exists (S k)|exists k']; split; try lia; easy.
      * intros (A & B & k' & Lk & Lv). destruct (Nat.eq_dec k' (S k)) as [->|NE]; [left|right]; split; try easy; split; try easy.
        exists k'. split; [lia|easy].
Qed.
Lemma rounds_end fuel k eqs vars ds : isRound (g_ea g) (eOf g) (eDer g) k eqs -> List.length (g_ea g) < fuel + k ->
  fuel <> 0 -> rounds debug nz avoid avoidAlg algebraic qr g fuel eqs vars ds <> None.
Proof.
  destruct LK as (LV & LE & _).
  revert k eqs vars ds. induction fuel as [|fuel IH]; intros k eqs vars ds RE L NZ; [congruence|]. cbn [rounds].
  destruct (select _ _ _ _ _ _ _ _ _); [|discriminate|discriminate|discriminate].
  assert (RE' := round_pred _ _ _ LE _ _ RE).
  destruct (pred (eOf g) eqs) as [|e es] eqn:PE; [discriminate|].
  apply (IH (S k)); [exact RE'|lia|]. intro Z. subst fuel.
  assert (I : In e (e :: es)) by now left. apply (proj2 RE') in I as (I & _ & Lv).
  destruct (has_level _ _ _ LE e I) as (k' & Lk & Lv'). assert (k' = S k) by (eapply level_uniq; eauto). lia.
Qed.
End All.

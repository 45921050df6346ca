(** * The statements of one direction and of one iteration *)
From Coq Require Import List Arith Bool NArith ZArith Sorting.Sorted Sorting.Permutation Lia.
From Verif Require Import Pool_model Pool_proofs Graph_model Codegen_model Index_model Index_spec Range_model Range_spec LoopCond_model LoopCond_cond LoopCond_proofs Assemble_model Assemble_proofs
  LoopAsm_model LoopAsm_spec LoopAsm_maps.
Import ListNotations.
Local Open Scope nat_scope.

Lemma holdsAt_spec l : forall k, holdsAt l k = true <-> In_ranges k l.
Proof.
  assert (G : forall m l, length l <= m -> forall k, holdsAt l k = true <-> In_ranges k l).
  { clear l. induction m as [|m IH]; intros [|a [|b l]] L k; cbn [holdsAt In_ranges length] in *; try lia; try (split; [discriminate|intros []]).
    rewrite orb_true_iff, andb_true_iff, !N.leb_le, IH by lia. reflexivity. }
  exact (G (length l) l (le_n _)).
Qed.
Lemma sputs_in kl : forall l x, In x (sputs kl l) <-> In x kl \/ In x l.
Proof.
  unfold sputs. induction kl as [|k kl IH]; intros l x; cbn [fold_left]; [cbn [In]; tauto|]. rewrite IH, sput_in. cbn [In]. intuition.
Qed.
Lemma unused_spec kl : forall from k, StronglySorted lt kl -> (forall x, In x kl -> from <= x) -> (In k (unused from kl) <-> from <= k /\ k < last kl 0 /\ ~ In k kl) \/ kl = [].
Proof.
  induction kl as [|a kl IH]; intros from k S L; [right; reflexivity|]. left. cbn [unused]. rewrite in_app_iff, in_seq. inversion S as [|? ? S1 F]; subst. rewrite Forall_forall in F.
  pose proof (L a (or_introl eq_refl)) as La.
  destruct (IH (Datatypes.S a) k S1) as [I|I].
  - intros x Ix. specialize (F x Ix). lia.
  - rewrite I. destruct kl as [|b kl']; [cbn [last unused In] in *; intuition lia|].
    change (last (a :: b :: kl') 0) with (last (b :: kl') 0).
    assert (Hl : a < last (b :: kl') 0). { apply F. destruct (exists_last (l := b :: kl')) as (l' & z & E); [discriminate|]. rewrite E, last_last. apply in_app_iff. right. left. reflexivity. }
    cbn [In]. specialize (F k). cbn [In] in F. split; [intros [H|(H1 & H2 & H3)]|intros (H1 & H2 & H3)].
    + split; [lia|]. split; [lia|]. intros [X|X]; [lia|]. specialize (F X). lia.
    + split; [lia|]. split; [exact H2|]. intros [X|X]; [lia|tauto].
    + destruct (Nat.lt_ge_cases k a); [left; lia|]. right. split; [lia|]. split; [exact H2|tauto].
  - subst kl. cbn [unused last In]. split; [intros [H|[]]; intuition lia|intros (H1 & H2 & H3); left; lia].
Qed.
Lemma last_max kl k : StronglySorted lt kl -> In k kl -> k <= last kl 0.
Proof.
  induction 1 as [|a kl S IH F]; intros I; [destruct I|]. destruct kl as [|b kl]; [destruct I as [->|[]]; cbn; lia|].
  change (last (a :: b :: kl) 0) with (last (b :: kl) 0). destruct I as [<-|I]; [|exact (IH I)].
  rewrite Forall_forall in F. pose proof (F b (or_introl eq_refl)). pose proof (IH).
  assert (In (last (b :: kl) 0) (b :: kl)). { destruct (exists_last (l := b :: kl)) as (l' & z & E); [discriminate|]. rewrite E, last_last. apply in_app_iff. right. left. reflexivity. }
  pose proof (F _ H1). lia.
Qed.

Section Run.
Variable V : Type.
Variable zero : V.
Variable add : V -> V -> V.
Hypothesis Hmon : monoid V zero add.

(** an array of n elements given by a function *)
Definition arr (n : nat) (a : list V) (F : nat -> V) : Prop := length a = n /\ forall p, p < n -> nth_error a p = Some (F p).

Lemma addAt_ok n a F p v : arr n a F -> p < n -> exists a', addAt V add a p v = Some a' /\ arr n a' (fun q => if q =? p then add (F q) v else F q).
Proof.
  intros [L H] Hp. unfold addAt. rewrite (H p Hp). eexists. split; [reflexivity|]. split; [rewrite setNth_length; exact L|].
  intros q Hq. destruct (Nat.eqb_spec q p) as [->|N]; [rewrite nth_set_eq by lia; reflexivity|]. rewrite nth_set_ne by congruence. exact (H q Hq).
Qed.

Lemma addAll_ok n l : forall a F base, arr n a F -> NoDup (map fst l) -> (forall e v, In (e, v) l -> base + e < n) ->
  exists a' F', addAll V add a base l = Some a' /\ arr n a' F' /\ (forall e v, In (e, v) l -> F' (base + e) = add (F (base + e)) v) /\
    (forall q, (forall e v, In (e, v) l -> q <> base + e) -> F' q = F q).
Proof.
  induction l as [|[e v] l IH]; intros a F base H N B; cbn [addAll].
  - exists a, F. split; [reflexivity|]. split; [exact H|]. split; [intros e v []|reflexivity].
  - destruct (addAt_ok n a F (base + e) v H (B e v (or_introl eq_refl))) as (a1 & E1 & H1). rewrite E1. cbn [map fst] in N. inversion N as [|? ? N1 N2]; subst.
    destruct (IH a1 _ base H1 N2) as (a' & F' & E' & H' & P' & Q'); [intros e0 v0 I; apply (B e0 v0); right; exact I|].
    exists a', F'. split; [exact E'|]. split; [exact H'|]. split.
    + intros e0 v0 [X|I].
      * injection X as <- <-. rewrite Q', Nat.eqb_refl; [reflexivity|]. intros e1 v1 I X. apply N1. replace e with e1 by lia. apply (in_map fst) in I. exact I.
      * rewrite (P' _ _ I). destruct (Nat.eqb_spec (base + e0) (base + e)); [|reflexivity]. exfalso. apply N1. replace e with e0 by lia. apply (in_map fst) in I. exact I.
    + intros q Hq. rewrite Q'; [|intros e0 v0 I; apply (Hq e0 v0); right; exact I].
      destruct (Nat.eqb_spec q (base + e)); [|reflexivity]. exfalso. exact (Hq e v (or_introl eq_refl) e0).
Qed.

Lemma addAll_sum n l : forall a F base, arr n a F -> (forall e v, In (e, v) l -> base + e < n) ->
  exists a' F', addAll V add a base l = Some a' /\ arr n a' F' /\ (forall e, F' (base + e) = add (F (base + e)) (addedAt V zero add l e)) /\
    (forall q, (forall e v, In (e, v) l -> q <> base + e) -> F' q = F q).
Proof.
  assert (R : forall v, add v zero = v) by (intro v; rewrite (mo_comm _ _ _ Hmon); apply (mo_zero _ _ _ Hmon)).
  induction l as [|[e v] l IH]; intros a F base H B; cbn [addAll].
  - exists a, F. split; [reflexivity|]. split; [exact H|]. split; [intros e; symmetry; apply R|reflexivity].
  - destruct (addAt_ok n a F (base + e) v H (B e v (or_introl eq_refl))) as (a1 & E1 & H1). rewrite E1.
    destruct (IH a1 _ base H1) as (a' & F' & E' & H' & P' & Q'); [intros e0 v0 I; apply (B e0 v0); right; exact I|].
    exists a', F'. split; [exact E'|]. split; [exact H'|]. split.
    + intros e0. rewrite (P' e0). unfold addedAt. cbn [filter fst]. rewrite (Nat.eqb_sym e e0). destruct (Nat.eqb_spec (base + e0) (base + e)) as [X|X], (Nat.eqb_spec e0 e) as [Y|Y]; try lia; [|reflexivity].
      cbn [map snd total fold_right]. symmetry. apply (mo_assoc _ _ _ Hmon).
    + intros q Hq. rewrite Q'; [|intros e0 v0 I; apply (Hq e0 v0); right; exact I].
      destruct (Nat.eqb_spec q (base + e)); [|reflexivity]. exfalso. exact (Hq e v (or_introl eq_refl) e0).
Qed.

Lemma writeAll_ok n vs : forall a F p, arr n a F -> p + length vs <= n ->
  exists a' F', writeAll V a p vs = Some a' /\ arr n a' F' /\ (forall e v, nth_error vs e = Some v -> F' (p + e) = v) /\
    (forall q, (q < p \/ p + length vs <= q) -> F' q = F q).
Proof.
  induction vs as [|v vs IH]; intros a F p H L; cbn [writeAll].
  - exists a, F. split; [reflexivity|]. split; [exact H|]. split; [intros [|e] v X; discriminate X|reflexivity].
  - cbn [length] in L. destruct H as [La H]. destruct (Nat.ltb_spec p (length a)); [|lia].
    assert (H1 : arr n (setNth a p v) (fun q => if q =? p then v else F q)).
    { split; [rewrite setNth_length; exact La|]. intros q Hq. destruct (Nat.eqb_spec q p) as [->|N]; [apply nth_set_eq; lia|]. rewrite nth_set_ne by congruence. exact (H q Hq). }
    destruct (IH _ _ (S p) H1 ltac:(lia)) as (a' & F' & E' & H' & P' & Q'). exists a', F'. split; [exact E'|]. split; [exact H'|]. split.
    + intros [|e] w X; cbn [nth_error] in X.
      * injection X as <-. rewrite Nat.add_0_r, Q' by lia. rewrite Nat.eqb_refl. reflexivity.
      * replace (p + S e) with (S p + e) by lia. exact (P' e w X).
    + intros q Hq. rewrite Q' by (cbn [length] in Hq; lia). destruct (Nat.eqb_spec q p); [cbn [length] in Hq; lia|reflexivity].
Qed.

Lemma copyAll_ok n it C ps : forall tg m F,
  Forall2 (fun rc pe => patAt (fst rc) it = Some (fst pe) /\ patAt (snd rc) it = Some (snd pe)) ps tg ->
  arr n (m_result V m) F -> NoDup (map fst tg) -> (forall p e, In (p, e) tg -> p < n /\ nth_error (m_compressed V m) e = Some (C e)) ->
  exists a' F', copyAll V add it ps m = Some (mkLM V a' (m_compressed V m) (m_place V m) (m_key V m)) /\ arr n a' F' /\
    (forall p e, In (p, e) tg -> F' p = add (F p) (C e)) /\ (forall p, ~ In p (map fst tg) -> F' p = F p).
Proof.
  induction ps as [|[r c] ps IH]; intros tg m F HF H N B; inversion HF as [|? [p e] ? tg' [Er Ec] HF']; subst; cbn [copyAll].
  - exists (m_result V m), F. destruct m; cbn. split; [reflexivity|]. split; [exact H|]. split; [intros p e []|reflexivity].
  - cbn [fst snd] in Er, Ec. rewrite Er, Ec. destruct (B p e (or_introl eq_refl)) as [Bp Be]. rewrite Be.
    destruct (addAt_ok n (m_result V m) F p (C e) H Bp) as (a1 & E1 & H1). rewrite E1. cbn [map fst] in N. inversion N as [|? ? N1 N2]; subst.
    destruct (IH tg' (mkLM V a1 (m_compressed V m) (m_place V m) (m_key V m)) _ HF' H1 N2) as (a' & F' & E' & H' & P' & Q').
    { intros p0 e0 I. exact (B p0 e0 (or_intror I)). }
    exists a', F'. split; [exact E'|]. split; [exact H'|]. split.
    + intros p0 e0 [X|I].
      * injection X as <- <-. rewrite Q' by exact N1. rewrite Nat.eqb_refl. reflexivity.
      * rewrite (P' _ _ I). destruct (Nat.eqb_spec p0 p) as [->|]; [|reflexivity]. exfalso. apply N1. apply (in_map fst) in I. exact I.
    + intros p0 Hp. cbn [map fst In] in Hp. rewrite Q' by tauto. destruct (Nat.eqb_spec p0 p) as [->|]; [tauto|reflexivity].
Qed.

Lemma addR a : add a zero = a.
Proof. rewrite (mo_comm _ _ _ Hmon). apply (mo_zero _ _ _ Hmon). Qed.
Lemma total_app l1 l2 : total V zero add (l1 ++ l2) = add (total V zero add l1) (total V zero add l2).
Proof.
  induction l1 as [|a l1 IH]; cbn [app total fold_right]; [symmetry; apply (mo_zero _ _ _ Hmon)|]. fold (total V zero add (l1 ++ l2)). fold (total V zero add l1).
  rewrite IH. apply (mo_assoc _ _ _ Hmon).
Qed.
Lemma total_perm l1 l2 : Permutation l1 l2 -> total V zero add l1 = total V zero add l2.
Proof.
  induction 1 as [|a l l' H IH|a b l|l l' l'' H1 IH1 H2 IH2]; cbn [total fold_right]; [reflexivity| | |congruence].
  - fold (total V zero add l). fold (total V zero add l'). rewrite IH. reflexivity.
  - rewrite !(mo_assoc _ _ _ Hmon). rewrite (mo_comm _ _ _ Hmon b a). reflexivity.
Qed.
Lemma total_zero {A} (f : A -> V) l : (forall a, In a l -> f a = zero) -> total V zero add (map f l) = zero.
Proof.
  induction l as [|a l IH]; intros H; cbn [map total fold_right]; [reflexivity|]. fold (total V zero add (map f l)).
  rewrite (H a (or_introl eq_refl)), IH by (intros x I; apply H; right; exact I). apply (mo_zero _ _ _ Hmon).
Qed.
Lemma total_add {A} (f g : A -> V) l : total V zero add (map (fun a => add (f a) (g a)) l) = add (total V zero add (map f l)) (total V zero add (map g l)).
Proof.
  induction l as [|a l IH]; cbn [map total fold_right]; [symmetry; apply (mo_zero _ _ _ Hmon)|].
  fold (total V zero add (map f l)). fold (total V zero add (map g l)). fold (total V zero add (map (fun a => add (f a) (g a)) l)). rewrite IH.
  rewrite !(mo_assoc _ _ _ Hmon). f_equal. rewrite <- !(mo_assoc _ _ _ Hmon). f_equal. apply (mo_comm _ _ _ Hmon).
Qed.
Lemma total_swap {A B} (f : A -> B -> V) la lb :
  total V zero add (map (fun a => total V zero add (map (f a) lb)) la) = total V zero add (map (fun b => total V zero add (map (fun a => f a b) la)) lb).
Proof.
  induction la as [|a la IH]; cbn [map].
  - symmetry. apply total_zero. reflexivity.
  - rewrite <- (total_add (f a) (fun b => total V zero add (map (fun a => f a b) la)) lb) in * || idtac.
    change (add (total V zero add (map (f a) lb)) (total V zero add (map (fun a => total V zero add (map (f a) lb)) la))
      = total V zero add (map (fun b => add (f a b) (total V zero add (map (fun a => f a b) la))) lb)).
    rewrite total_add, IH. reflexivity.
Qed.
Lemma total_flat {A} (f : A -> list V) l : total V zero add (flat_map f l) = total V zero add (map (fun a => total V zero add (f a)) l).
Proof.
  induction l as [|a l IH]; cbn [flat_map map]; [reflexivity|]. rewrite total_app, IH. reflexivity.
Qed.

Lemma branches_select it k m maxKey : (N.of_nat maxKey < SIZE_MAX)%N -> forall els used j eg,
  nth_error els j = Some eg -> In k (eg_keys eg) -> (forall j' eg', nth_error els j' = Some eg' -> In k (eg_keys eg') -> j' = j) ->
  (forall eg' k', In eg' els -> In k' (eg_keys eg') -> k' <= maxKey) -> (forall eg', In eg' els -> eg_keys eg' <> []) ->
  (forall u, In u used -> (u <= N.of_nat maxKey)%N) -> ~ In (N.of_nat k) used ->
  ifAll V add it k (branchesOf maxKey used els) m = copyAll V add it (eg_pats eg) m.
Proof.
  intros HM. induction els as [|eg0 els IH]; intros used j eg Hj Hk Hu Hb Hne Hub Hn; [destruct j; discriminate|].
  assert (Hkm : k <= maxKey) by (apply (Hb eg k); [exact (nth_error_In _ _ Hj)|exact Hk]).
  destruct els as [|eg1 els].
  - destruct j as [|j]; [|destruct j; discriminate]. injection Hj as ->. reflexivity.
  - set (rest := eg1 :: els) in *.
    change (branchesOf maxKey used (eg0 :: rest)) with
      ((Some (createIndexConditionExpression (map N.of_nat (eg_keys eg0)) used (N.of_nat maxKey)), eg_pats eg0) :: branchesOf maxKey (sputs (map N.of_nat (eg_keys eg0)) used) rest).
    cbn [ifAll].
    destruct (cond_spec (map N.of_nat (eg_keys eg0)) used (N.of_nat maxKey)) as (_ & _ & _ & C).
    { intros X. apply map_eq_nil in X. exact (Hne eg0 (or_introl eq_refl) X). }
    { exact HM. }
    { intros x [I|I]; [|exact (Hub x I)]. apply in_map_iff in I. destruct I as (k' & <- & I). pose proof (Hb eg0 k' (or_introl eq_refl) I). lia. }
    specialize (C (N.of_nat k) ltac:(lia) (or_introl Hn)).
    assert (Hin : In (N.of_nat k) (map N.of_nat (eg_keys eg0)) <-> In k (eg_keys eg0)).
    { rewrite in_map_iff. split; [intros (x & E & I); apply Nat2N.inj in E; subst x; exact I|intros I; exists k; auto]. }
    set (c := createIndexConditionExpression (map N.of_nat (eg_keys eg0)) used (N.of_nat maxKey)) in *. destruct (holdsAt c (N.of_nat k)) eqn:Eh.
    + apply holdsAt_spec in Eh. apply C, Hin in Eh. pose proof (Hu 0 eg0 eq_refl Eh). subst j. injection Hj as ->. reflexivity.
    + assert (Nk : ~ In k (eg_keys eg0)). { intros I. apply Hin, C, holdsAt_spec in I. congruence. }
      destruct j as [|j]; [injection Hj as ->; contradiction|].
      apply (IH _ j eg Hj Hk).
      * intros j' eg' H' I'. specialize (Hu (S j') eg' H' I'). lia.
      * intros eg' k' I. apply Hb. right. exact I.
      * intros eg' I. apply Hne. right. exact I.
      * intros u Iu. apply sputs_in in Iu. destruct Iu as [I|I]; [|exact (Hub u I)]. apply in_map_iff in I. destruct I as (k' & <- & I). pose proof (Hb eg0 k' (or_introl eq_refl) I). lia.
      * intros I. apply sputs_in in I. destruct I as [I|I]; [apply Nk, Hin; exact I|contradiction].
Qed.

Variables ks vs : list nat.
Hypothesis Hlen : length ks = length vs.
Hypothesis Hnd : NoDup (combine ks vs).
Variable is : list info.
Hypothesis Hent : entries ks vs = Some is.
Let n := length ks.
Let M := maxCompressed is.

(** what a function adds at the place p *)
Definition part (f : nat -> nat -> V) (k : nat) (s : list nat) (p : nat) : V :=
  match nth_error ks p with
  | Some k' => if (k' =? k) && existsb (Nat.eqb (rank ks p)) s then f k (rank ks p) else zero
  | None => zero
  end.
Lemma part_in f k s e p : isPlace ks k e p -> In e s -> part f k s p = f k e.
Proof.
  intros [H1 H2] I. unfold part. rewrite H1, H2, Nat.eqb_refl. cbn [andb]. assert (E : existsb (Nat.eqb e) s = true) by (apply existsb_exists; exists e; split; [exact I|apply Nat.eqb_refl]).
  rewrite E. reflexivity.
Qed.
Lemma part_out f k s p : (forall e, isPlace ks k e p -> ~ In e s) -> part f k s p = zero.
Proof.
  intros H. unfold part. destruct (nth_error ks p) as [k'|] eqn:E; [|reflexivity]. destruct (Nat.eqb_spec k' k) as [->|]; [|reflexivity]. cbn [andb].
  destruct (existsb (Nat.eqb (rank ks p)) s) eqn:X; [|reflexivity]. exfalso. apply existsb_exists in X. destruct X as (e & I & Ee). apply Nat.eqb_eq in Ee. subst e.
  exact (H (rank ks p) (conj E eq_refl) I).
Qed.

Definition st (m : lmem V) (F : nat -> V) (b : bool) : Prop :=
  arr n (m_result V m) F /\ length (m_compressed V m) = M /\ (b = true -> m_place V m = PCompressed).

Variable noLoop : nat -> option (list V).
Variable loopFn : nat -> nat -> option (list (nat * V)).

Lemma lrun_app it l1 l2 m : lrun V zero add noLoop loopFn it (l1 ++ l2) m = match lrun V zero add noLoop loopFn it l1 m with Some m' => lrun V zero add noLoop loopFn it l2 m' | None => None end.
Proof. revert m. induction l1 as [|s l1 IH]; intros m; cbn [app lrun]; [reflexivity|]. destruct (lstep V zero add noLoop loopFn it s m); [apply IH|reflexivity]. Qed.

Lemma list_fun (l : list V) d : arr (length l) l (fun p => nth p l d).
Proof. split; [reflexivity|]. intros p Hp. apply nth_error_nth'. exact Hp. Qed.

Lemma elPos_adds it m F C : forall k i s, infoAt is k = Some i -> In k ks -> NoDup s -> (forall e, In e s -> e < count ks k) ->
  arr n (m_result V m) F -> (forall e, In e s -> nth_error (m_compressed V m) e = Some (C e)) ->
  exists t, mapO (fun e => match nth_error (i_loc i) e with Some ls => Some (SAdd ls e) | None => None end) s = Some t /\
  exists a' F', lrun V zero add noLoop loopFn it t m = Some (mkLM V a' (m_compressed V m) (m_place V m) (m_key V m)) /\ arr n a' F' /\
    forall p, F' p = add (F p) (part (fun _ e => C e) k s p).
Proof.
  intros k i s Hi Hk. revert m F. induction s as [|e s IH]; intros m F N B H HC; cbn [mapO].
  - exists []. split; [reflexivity|]. exists (m_result V m), F. destruct m; cbn. split; [reflexivity|]. split; [exact H|].
    intros p. rewrite part_out by (intros e _ []). symmetry. apply addR.
  - inversion N as [|? ? N1 N2]; subst. destruct (info_loc ks vs Hlen Hnd is Hent k i e Hi Hk (B e (or_introl eq_refl))) as (p & E & P & U). rewrite E.
    destruct (addAt_ok n (m_result V m) F p (C e) H (place_lt _ _ _ _ P)) as (a1 & E1 & H1).
    destruct (IH (mkLM V a1 (m_compressed V m) (m_place V m) (m_key V m)) _ N2 (fun e0 I => B e0 (or_intror I)) H1 (fun e0 I => HC e0 (or_intror I)))
      as (t & Et & a' & F' & E' & H' & P'). rewrite Et. eexists. split; [reflexivity|]. exists a', F'.
    split; [|split; [exact H'|]].
    + cbn [lrun lstep]. rewrite (HC e (or_introl eq_refl)). cbn [addLocs]. rewrite E1. exact E'.
    + intros q. rewrite P'. destruct (Nat.eqb_spec q p) as [->|Nq].
      * rewrite (part_in _ k (e :: s) e p P (or_introl eq_refl)), part_out; [apply addR|]. intros e0 [_ R0] I. apply N1. destruct P as [_ R]. congruence.
      * f_equal. unfold part. destruct (nth_error ks q) as [k'|] eqn:Eq; [|reflexivity]. destruct (Nat.eqb_spec k' k) as [->|]; [|reflexivity]. cbn [andb existsb].
        destruct (Nat.eqb_spec (rank ks q) e) as [Er|]; [|reflexivity]. exfalso. apply Nq. apply U. split; assumption.
Qed.

(** ** The function of a direction outside of loops *)
Variable NL : nat -> nat -> V.
Lemma noLoop_step k s out m F last : In k ks -> NoDup s -> (forall e, In e s -> e < count ks k) ->
  noLoop k = Some out -> length out = count ks k -> (forall e, In e s -> nth_error out e = Some (NL k e)) ->
  (forall e, e < count ks k -> ~ In e s -> nth_error out e = Some zero) -> st m F last -> (forall p, nth_error ks p = Some k -> F p = zero) ->
  exists i t1 t2, infoAt is k = Some i /\
    (if i_ord i then match locationOf is k 0 with Some p => Some [SDirect p] | None => None end else Some (if last then [] else [SCompressed])) = Some t1 /\
    (if i_ord i then Some [] else mapO (fun e => match nth_error (i_loc i) e with Some ls => Some (SAdd ls e) | None => None end) s) = Some t2 /\
    exists m' F', lrun V zero add noLoop loopFn None (t1 ++ [SNoLoop k] ++ t2) m = Some m' /\ st m' F' (negb (i_ord i)) /\
      forall p, p < n -> F' p = add (F p) (part NL k s p).
Proof.
  intros Hk N B Eo Lo O1 O2 (HA & HM & HP) HZ. destruct (infoAt_ok ks vs Hlen is Hent k Hk) as (i & Ei & _). exists i. destruct (i_ord i) eqn:Ord.
  - destruct (direct_loc ks vs Hlen Hnd is Hent k i Ei Hk Ord) as (p0 & El & D). rewrite El. exists [SDirect p0], []. split; [exact Ei|]. split; [reflexivity|]. split; [reflexivity|].
    rewrite app_nil_r. cbn [app lrun lstep]. rewrite Eo. unfold writeTo. cbn [m_place m_result m_compressed m_key].
    assert (Lb : p0 + length out <= n).
    { rewrite Lo. pose proof (count_pos ks vs Hlen k Hk) as Hc. pose proof (place_lt _ _ _ _ (D (count ks k - 1) ltac:(lia))). unfold n. lia. }
    destruct (writeAll_ok n out (m_result V m) F p0 HA Lb) as (a' & F' & E' & H' & P' & Q'). rewrite E'. eexists; exists F'. split; [reflexivity|].
    split; [split; [exact H'|split; [exact HM|discriminate]]|].
    intros p Hp. destruct (Nat.lt_ge_cases p p0) as [L1|L1]; [|destruct (Nat.lt_ge_cases p (p0 + length out)) as [L2|L2]].
    1,3: rewrite Q' by lia; rewrite part_out; [symmetry; apply addR|]; intros e Pe Ie; destruct (info_loc ks vs Hlen Hnd is Hent k i e Ei Hk (B e Ie)) as (q & _ & _ & U);
      pose proof (U _ Pe); pose proof (U _ (D e (B e Ie))); pose proof (B e Ie); lia.
    assert (Pl : isPlace ks k (p - p0) p) by (pose proof (D (p - p0) ltac:(lia)) as X; replace (p0 + (p - p0)) with p in X by lia; exact X).
    rewrite (HZ p (proj1 Pl)), (mo_zero _ _ _ Hmon). replace p with (p0 + (p - p0)) at 1 by lia.
    destruct (in_dec Nat.eq_dec (p - p0) s) as [Is|Is].
    + rewrite (P' _ _ (O1 _ Is)). symmetry. apply part_in; assumption.
    + rewrite (P' _ _ (O2 (p - p0) ltac:(lia) Is)). symmetry. apply part_out. intros e Pe Ie. apply Is. destruct Pe as [_ R1], Pl as [_ R2]. congruence.
  - pose proof (maxCompressed_ge ks vs Hlen is Hent k i Ei Hk Ord) as Lm.
    destruct (writeAll_ok M out (m_compressed V m) (fun p => nth p (m_compressed V m) zero) 0) as (c & G & Ec & Hc & Pc & _).
    { rewrite <- HM. apply list_fun. }
    { unfold M. lia. }
    set (m1 := mkLM V (m_result V m) c PCompressed (m_key V m)).
    destruct (elPos_adds None m1 F (NL k) k i s Ei Hk N B HA) as (t & Et & a' & F' & E' & H' & P').
    { intros e Ie. unfold m1. cbn [m_compressed]. destruct Hc as [Lc Hc]. rewrite Hc by (pose proof (B e Ie); unfold M; lia). f_equal. exact (Pc e _ (O1 e Ie)). }
    exists (if last then [] else [SCompressed]), t. split; [exact Ei|]. split; [reflexivity|]. split; [exact Et|].
    exists (mkLM V a' c PCompressed (m_key V m)), F'.
    split; [|split; [split; [exact H'|split; [exact (proj1 Hc)|reflexivity]]|]].
    + assert (E1 : lrun V zero add noLoop loopFn None ((if last then [] else [SCompressed]) ++ [SNoLoop k]) m = Some m1).
      { destruct last; cbn [app lrun lstep]; rewrite Eo; unfold writeTo; [rewrite (HP eq_refl)|cbn [m_place m_compressed m_result m_key]]; rewrite Ec; reflexivity. }
      rewrite app_assoc, lrun_app, E1. exact E'.
    + intros p _. rewrite P'. reflexivity.
Qed.

Lemma noLoop_all nl : forall last, NoDup (map fst nl) ->
  (forall k s, In (k, s) nl -> In k ks /\ NoDup s /\ (forall e, In e s -> e < count ks k)) -> noLoop_ok V zero NL ks nl noLoop ->
  forall m F, st m F last -> (forall p k, In k (map fst nl) -> nth_error ks p = Some k -> F p = zero) ->
  exists t b, emitNoLoop is last nl = Some (t, b) /\
  exists m' F', lrun V zero add noLoop loopFn None t m = Some m' /\ st m' F' b /\
    forall p, p < n -> F' p = add (F p) (total V zero add (map (fun q => part NL (fst q) (snd q) p) nl)).
Proof.
  induction nl as [|[k s] nl IH]; intros last N B Hf m F H HZ; cbn [emitNoLoop].
  - exists [], last. split; [reflexivity|]. exists m, F. split; [reflexivity|]. split; [exact H|]. intros p _. symmetry. apply addR.
  - cbn [map fst] in N. inversion N as [|? ? N1 N2]; subst. destruct (B k s (or_introl eq_refl)) as (Hk & Ns & Bs).
    destruct (Hf k s (or_introl eq_refl)) as (out & Eo & Lo & O1 & O2).
    destruct (noLoop_step k s out m F last Hk Ns Bs Eo Lo O1 O2 H) as (i & t1 & t2 & Ei & E1 & E2 & m1 & F1 & R1 & H1 & P1).
    { intros p Hp. apply (HZ p k); [left; reflexivity|exact Hp]. }
    assert (H1' : st m1 (fun p => if p <? n then F1 p else zero) (negb (i_ord i))).
    { destruct H1 as [[La Ha] R]. split; [split; [exact La|]|exact R]. intros p Hp. rewrite (Ha p Hp). destruct (Nat.ltb_spec p n); [reflexivity|lia]. }
    destruct (IH (negb (i_ord i)) N2 (fun k0 s0 I => B k0 s0 (or_intror I)) (fun k0 s0 I => Hf k0 s0 (or_intror I)) m1 _ H1') as (t & b & Et & m' & F' & R' & H' & P').
    { intros p k0 I0 Hp. assert (Lp : p < n) by (unfold n; apply nth_error_Some; rewrite Hp; discriminate). destruct (Nat.ltb_spec p n); [|lia].
      rewrite P1 by exact Lp. rewrite (HZ p k0); [|right; exact I0|exact Hp]. rewrite (mo_zero _ _ _ Hmon). apply part_out. intros e [X _]. exfalso. apply N1.
      rewrite Hp in X. injection X as <-. exact I0. }
    rewrite Ei, E1, E2, Et. exists (t1 ++ [SNoLoop k] ++ t2 ++ t), b. split; [reflexivity|]. exists m', F'. split; [|split; [exact H'|]].
    + replace (t1 ++ [SNoLoop k] ++ t2 ++ t) with ((t1 ++ [SNoLoop k] ++ t2) ++ t) by (rewrite <- !app_assoc; reflexivity). rewrite lrun_app, R1. exact R'.
    + intros p Hp. rewrite P' by exact Hp. destruct (Nat.ltb_spec p n); [|lia]. rewrite P1 by exact Hp. cbn [map total fold_right fst snd].
      symmetry. apply (mo_assoc _ _ _ Hmon).
Qed.

(** ** Conditions on the direction *)


End Run.

(** * Each entry of the position maps of a loop has a position, so the group of an equation pattern has an equation *)
From Coq Require Import List Bool Arith NArith ZArith Reals Sorted Lia.
From Verif Require Import Graph_model Codegen_model CSyntax Index_model Range_model LoopCond_model Assemble_thm
  LoopAsm_model LoopAsm_spec LoopJac_model LoopJac_spec LoopJac_maps LoopJac_row LoopJac_state LoopJac_analysis LoopJac_run LoopJac_main
  LoopRev1_model LoopRev1_exec LoopRev1_analysis LoopRev1_main.
Import ListNotations.
Local Open Scope nat_scope.

Definition usedMap (mp : list (nat * positions)) : Prop := forall k p, In (k, p) mp -> exists it e, nth_error p it = Some (Some e).
Lemma mput_only {A} k (a : A) mp k' a' : In (k', a') (mput k a mp) -> (k' = k /\ a' = a) \/ In (k', a') mp.
Proof.
  induction mp as [|[k1 a1] mp IH]; cbn [mput]; intros I.
  - destruct I as [I|[]]. injection I as <- <-. left. auto.
  - destruct (k <? k1); [destruct I as [I|I]; [injection I as <- <-; left; auto|right; exact I]|]. destruct (k =? k1).
    + destruct I as [I|I]; [injection I as <- <-; left; auto|right; right; exact I].
    + destruct I as [I|I]; [right; left; exact I|]. destruct (IH I) as [X|X]; [left; exact X|right; right; exact X].
Qed.
Lemma place_used iters it key e mp mp' : usedMap mp -> place iters it key e mp = Ok mp' -> usedMap mp'.
Proof.
  unfold place. intros H E. set (p := match mget key mp with Some p => p | None => repeat None iters end) in *. destruct (nth_error p it) as [[o|]|] eqn:E1; try discriminate. injection E as <-.
  intros k q I. apply mput_only in I. destruct I as [[-> ->]|I]; [|exact (H k q I)]. exists it, e. rewrite nth_set_nth by (apply nth_error_Some; congruence). rewrite Nat.eqb_refl. reflexivity.
Qed.
Definition rowUsed (r : rowInfo) : Prop := usedMap (indexedPositions r) /\ usedMap (nonIndexedPositions r).
Lemma loopElement_used md l tapeI it j e r ev r' ev' : rowUsed r -> loopElement md l tapeI it j e r ev = Ok (r', ev') -> rowUsed r'.
Proof.
  intros U. unfold loopElement. destruct (nth_error (l_row l) tapeI) as [row|]; [|discriminate]. destruct (rfold (indexed1 l row it e) _ r) as [r1| |] eqn:E1; try discriminate. cbn [rbind].
  assert (U1 : rowUsed r1).
  { refine (rfold_inv rowUsed _ _ _ _ _ U E1). clear. intros r t r' U E. unfold indexed1 in E. destruct (mem t row); [|injection E as <-; exact U]. destruct (place _ _ _ _ _) as [mp| |] eqn:P; try discriminate.
    cbn [rbind] in E. injection E as <-. split; cbn [indexedPositions nonIndexedPositions]; [exact (place_used _ _ _ _ _ _ (proj1 U) P)|exact (proj2 U)]. }
  destruct (nonIndexed1 l row it j e r1) as [rb| |] eqn:E2; try discriminate. cbn [rbind].
  assert (U2 : rowUsed (fst rb)).
  { unfold nonIndexed1 in E2. destruct (getNonIndexed l j) as [t|]; [|injection E2 as <-; exact U1]. destruct (mem t row); [|injection E2 as <-; exact U1]. destruct (place _ _ _ _ _) as [mp| |] eqn:P; try discriminate.
    cbn [rbind] in E2. injection E2 as <-. split; cbn [fst indexedPositions nonIndexedPositions]; [exact (proj1 U1)|exact (place_used _ _ _ _ _ _ (proj2 U1) P)]. }
  destruct (m_free md) as [f|]; [|intros E; injection E as <- _; exact U2]. destruct (rfold (temporary1 l f it j e) _ _) as [s| |] eqn:E3; try discriminate. cbn [rbind]. intros E. injection E as <- _.
  refine (rfold_inv (fun s => rowUsed (fst (fst s))) _ _ _ _ _ _ E3); [|exact U2]. clear. intros [[r1 ev1] b] t s' U E. cbn [fst snd] in *. unfold temporary1 in E.
  destruct (nth_error (l_tmp l) _) as [k|]; [|discriminate]. destruct (nth_error (f_row f) _) as [sp|]; [|discriminate]. destruct (mem j sp); [|injection E as <-; exact U].
  destruct (if b then Ok (nonIndexedPositions r1) else _) as [mp| |] eqn:P; try discriminate. cbn [rbind] in E. injection E as <-. cbn [fst]. split; cbn [indexedPositions nonIndexedPositions]; [exact (proj1 U)|].
  destruct b; [injection P as <-; exact (proj2 U)|exact (place_used _ _ _ _ _ _ (proj2 U) P)].
Qed.
Definition stUsed (s : state) : Prop := forall n t, rowUsed (infos s n t).
Lemma element1_used md s a s' : stUsed s -> element1 md s a = Ok s' -> stUsed s'.
Proof.
  destruct a as [e [i j]]. unfold element1. destruct (findLoop i (m_loops md)) as [[n [t it]]|].
  - destruct (nth_error (m_loops md) n) as [l|]; [|discriminate]. destruct (loopElement md l t it j e (infos s n t) (noLoopEval s)) as [[r ev]| |] eqn:E1; try discriminate. cbn [rbind fst snd]. intros H E. injection E as <-.
    intros n' t'. cbn [infos]. unfold upd. destruct (n' =? n) eqn:En; [|apply H]. destruct (t' =? t); [exact (loopElement_used _ _ _ _ _ _ _ _ _ _ (H n t) E1)|apply Nat.eqb_eq in En; subst; apply H].
  - destruct (m_free md) as [f|]; [|discriminate]. destruct (indexOf (Nat.eqb i) (f_eqs f)) as [il0|]; [|discriminate]. intros H E. injection E as <-. exact H.
Qed.
Lemma analyseLocal_used md rows cols s : analyseLocal md rows cols = Ok s -> stUsed s.
Proof. intros E. refine (rfold_inv stUsed _ (fun s a s' H X => element1_used md s a s' H X) _ _ _ _ E). intros n t. split; intros k p []. Qed.

Lemma used_position r : rowUsed r -> keyed (indexedPositions r) -> keyed (nonIndexedPositions r) -> emptyRow r = false ->
  exists it e, (exists t, pget (indexedPositions r) t it = Some e) \/ (exists j, pget (nonIndexedPositions r) j it = Some e).
Proof.
  intros [U1 U2] K1 K2 E. unfold emptyRow in E. destruct (indexedPositions r) as [|[k p] mp] eqn:X.
  - destruct (nonIndexedPositions r) as [|[k p] mp] eqn:Y; [discriminate|]. destruct (U2 k p (or_introl eq_refl)) as (it & e & H). exists it, e. right. exists k. unfold pget.
    rewrite (proj1 (mget_In k p _ K2) (or_introl eq_refl)), H. reflexivity.
  - destruct (U1 k p (or_introl eq_refl)) as (it & e & H). exists it, e. left. exists k. unfold pget. rewrite (proj1 (mget_In k p _ K1) (or_introl eq_refl)), H. reflexivity.
Qed.

Lemma group_nonempty (dF : nat -> nat -> nat -> (nat -> R) -> R) (G : nat -> (nat -> R) -> R) (dG : nat -> nat -> (nat -> R) -> R) (absent : nat -> nat -> nat -> R) md x m rows cols s n t l deps : good md ->
  (forall n l tapeI row t u, nth_error (m_loops md) n = Some l -> nth_error (l_row l) tapeI = Some row -> ~ In t row -> dF n tapeI t u = 0%R) ->
  (forall f il row j, m_free md = Some f -> nth_error (f_row f) il = Some row -> ~ In j row -> dG il j x = 0%R) ->
  length rows = length cols -> (forall p, ~ Assemble_thm.repeated rows cols p) -> (forall i p, place_of md i p -> i < m) -> Inv md (localElements rows cols) s -> stUsed s ->
  nth_error (m_loops md) n = Some l -> nth_error (l_deps l) t = Some deps -> emptyRow (infos s n t) = false -> row2position m deps (infos s n t) <> [].
Proof.
  intros Hg HdF HdG Hlen Honce Hm HI HU Hn Ht E Z. destruct (HRI dF G dG absent md x m Hg HdF HdG rows cols Hlen Honce Hm s HI n t l deps Hn Ht) as (row & _ & R0).
  destruct (used_position (infos s n t) (HU n t) (proj1 (r_wi _ _ _ _ _ R0)) (proj1 (r_wn _ _ _ _ _ R0)) E) as (it & e & H).
  apply (proj2 (positions_spec dF G dG absent md x m Hg HdF HdG rows cols Hlen Honce Hm s HI n t l deps Hn Ht it)) in H.
  destruct (positions_els dF G dG absent md x m Hg HdF HdG rows cols Hlen Honce Hm s HI n t l deps Hn Ht it e H) as (i & j & E1 & _).
  assert (I : In (i, rowPositions (infos s n t) it) (row2position m deps (infos s n t))).
  { apply (proj2 (row2position_spec md m Hg Hm s n t l deps Hn Ht)). exists it. split; [exact E1|]. split; [reflexivity|]. intros X. rewrite X in H. destruct H. }
  rewrite Z in I. destruct I.
Qed.

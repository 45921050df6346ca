(** * Execution of the function of an equation pattern in one iteration *)
From Coq Require Import List Bool Arith NArith ZArith Reals Sorted Lia Permutation Lra.
From Verif Require Import Pool_model Graph_model Codegen_model CSyntax Index_model Index_spec Range_model Range_spec LoopCond_model LoopCond_spec Assemble_model
  LoopAsm_model LoopAsm_spec LoopAsm_maps LoopAsm_run LoopJac_model LoopJac_spec LoopJac_maps LoopJac_run LoopRev1_model.
Import ListNotations.
Local Open Scope nat_scope.

Lemma holdsAt_header k h : (match h with HIf c | HElseIf c => holdsAt c k | HElse => true end) = true <-> holds k h.
Proof. destruct h; cbn [holds]; try apply holdsAt_spec. tauto. Qed.
Lemma exec_takeB k l : forall tk on o, (tk = false -> on = false) -> exec V k tk on l o -> o = takeB V k tk on l.
Proof.
  induction l as [|[h|a] l IH]; intros tk on o Hto H; inversion H; subst; cbn [takeB]; auto.
  - match goal with X : holds k h |- _ => apply holdsAt_header in X; rewrite X end. auto.
  - match goal with X : ~ holds k h |- _ => rewrite <- holdsAt_header in X; apply not_true_is_false in X; rewrite X end. auto.
  - f_equal. auto.
Qed.
Lemma executed_iteration k s fs : iteration V k s fs -> Forall2 (does V k) (executed V k s) fs.
Proof.
  intros (os & H1 & H2). unfold executed. replace (map (fun e => takeB V k false false (textOf V e)) (ifElses V s)) with os; [exact H2|].
  clear H2. induction H1 as [|e o es os H _ IH]; cbn [map]; [reflexivity|]. rewrite IH. f_equal. apply exec_takeB; auto.
Qed.

(** ** The assignments of a loop made of results *)
Section All.
Variable Q : asg V -> Prop.
Definition allIn (s : loop V) : Prop :=
  Forall (fun e => Forall Q (e_end V e) /\ Forall (fun b => Forall Q (b_pre V b)) (e_brs V e)) (ifElses V s) /\ Forall Q (always V s).
Lemma update_Forall {A} (T : A -> Prop) n a l : T a -> Forall T l -> Forall T (update n a l).
Proof. intros Ha Hf. revert n. induction Hf as [|x l Hx Hl IH]; intros [|n]; cbn [update]; constructor; auto. Qed.
Lemma oneBranch_all its mx a es es' : Q a -> oneBranch V its mx a es = Codegen_model.Done es' ->
  Forall (fun e => Forall Q (e_end V e) /\ Forall (fun b => Forall Q (b_pre V b)) (e_brs V e)) es ->
  Forall (fun e => Forall Q (e_end V e) /\ Forall (fun b => Forall Q (b_pre V b)) (e_brs V e)) es'.
Proof.
  intros Ha E H. unfold oneBranch in E. destruct its as [|i0 its]; [discriminate|]. destruct (findExistingIfElse V es _) as [n|].
  - destruct (nth_error es n) as [e|] eqn:En; [|discriminate]. destruct (existsb _ _); [|discriminate]. injection E as <-. apply update_Forall; [|exact H].
    rewrite Forall_forall in H. destruct (H e (nth_error_In _ _ En)) as [H1 H2]. cbn [e_end e_brs]. split; [|exact H2]. apply Forall_app. auto.
  - injection E as <-. apply Forall_app. split; [exact H|]. constructor; [|constructor]. cbn [e_end e_brs]. split; [auto|]. constructor; [|constructor]. cbn [b_pre]. constructor.
Qed.
Lemma requests_all : forall rs s s', (forall locs n v add, In (RResult V locs n v add) rs -> Q (mkAsg V v (detect locs) add)) -> Forall (fun r => exists add, isResult add r) rs ->
  allIn s -> requests V zeroV keepV keepV rs s = Codegen_model.Done s' -> allIn s'.
Proof.
  induction rs as [|r rs IH]; intros s s' HQ HR [H1 H2] E; cbn [requests] in E; [injection E as <-; split; assumption|]. inversion HR as [|? ? (add & locs & n & v & ->) HR']; subst.
  cbn [request1] in E. pose proof (HQ locs n v add (or_introl eq_refl)) as Ha. unfold createLoopResult in E. destruct (size (map fst locs) =? n)%N.
  - cbn [obind] in E. refine (IH _ _ _ HR' _ E); [intros; eapply HQ; right; eassumption|]. split; cbn [ifElses always]; [exact H1|]. apply Forall_app. auto.
  - destruct (oneBranch V (map fst locs) (wsub n 1) (mkAsg V v (detect locs) add) (ifElses V s)) as [es| |] eqn:Eb; cbn [obind] in E; try discriminate.
    refine (IH _ _ _ HR' _ E); [intros; eapply HQ; right; eassumption|]. split; cbn [ifElses always]; [|exact H2]. exact (oneBranch_all _ _ _ _ _ Ha Eb H1).
Qed.
Lemma takeB_sub k l : forall tk on a, In a (takeB V k tk on l) -> In (IAsg V a) l.
Proof.
  induction l as [|[h|b] l IH]; intros tk on a H; cbn [takeB] in H; [destruct H| |].
  - right. destruct tk; [eapply IH; exact H|]. destruct (match h with HIf c | HElseIf c => holdsAt c k | HElse => true end); eapply IH; exact H.
  - destruct on; [destruct H as [<-|H]; [left; reflexivity|]|]; right; eapply IH; exact H.
Qed.
Lemma executed_all k s : allIn s -> Forall Q (executed V k s).
Proof.
  intros [H1 H2]. unfold executed. apply Forall_app. split; [|exact H2]. apply Forall_forall. intros a Ha. apply in_concat in Ha. destruct Ha as (o & Ho & Ha). apply in_map_iff in Ho.
  destruct Ho as (e & <- & He). rewrite Forall_forall in H1. destruct (H1 e He) as [E1 E2]. apply takeB_sub in Ha. unfold textOf in Ha. apply in_app_iff in Ha. destruct Ha as [Ha|Ha].
  - apply in_flat_map in Ha. destruct Ha as (b & Hb & Ha). apply in_app_iff in Ha. destruct Ha as [Ha|[Ha|[]]]; [|discriminate]. apply in_map_iff in Ha. destruct Ha as (a' & X & Ha). injection X as <-.
    rewrite Forall_forall in E2. specialize (E2 b Hb). rewrite Forall_forall in E2. auto.
  - apply in_map_iff in Ha. destruct Ha as (a' & X & Ha). injection X as <-. rewrite Forall_forall in E1. auto.
Qed.
End All.

Definition tidy (a : asg V) : Prop := exists locs, a_pat V a = detect locs /\ StronglySorted N.lt (map fst locs) /\ a_add V a = 1%N.
Lemma makeLoop_tidy n rs s : Forall (valid V zeroV (iters n)) rs -> Forall (isResult 1) rs -> makeLoop rs = Ok s -> allIn tidy s.
Proof.
  intros Hv Hr E. unfold makeLoop in E. change (fun _ : V => false) with zeroV in E. change (fun v _ : V => v) with keepV in E.
  destruct (requests V zeroV keepV keepV rs (mkLoop V [] [])) as [s'| |] eqn:Er; try discriminate. injection E as <-.
  refine (requests_all tidy rs (mkLoop V [] []) s' _ _ _ Er).
  - intros locs m v add I. rewrite Forall_forall in Hv, Hr. destruct (Hr _ I) as (l' & m' & v' & X). injection X as <- <- <- ->. specialize (Hv _ I). cbn [valid] in Hv.
    exists locs. split; [reflexivity|]. split; [apply Hv|reflexivity].
  - rewrite Forall_forall in *. intros r I. exists 1%N. auto.
  - split; constructor.
Qed.

Lemma effectOf_does it a f : tidy a -> does V (N.of_nat it) a f -> effectOf it a = Some (N.to_nat (fst (fst f)), snd f (N.of_nat it)).
Proof.
  intros (locs & Ep & Hs & Ha) (p & E & Hv & _ & Ef). unfold effectOf. rewrite E. rewrite (patAt_some p it (Z.of_N (fst (fst f)))).
  - rewrite Ha, Ef. cbn [N.eqb Pos.eqb]. f_equal. f_equal. lia.
  - lia.
  - rewrite nat_N_Z in Hv. exact Hv.
  - intros m ->. rewrite Ep in E. unfold detect in E. apply detectMap_table in E. subst m. apply sorted_NoDup_Z. rewrite map_map. cbn [fst]. rewrite <- (map_map fst Z.of_N).
    clear - Hs. induction Hs as [|a l S IH F]; cbn [map]; constructor; [exact IH|]. apply Forall_map. eapply Forall_impl; [|exact F]. cbn. intros; lia.
Qed.
Lemma mapO_Forall2 {A B} (f : A -> option B) l bs : Forall2 (fun a b => f a = Some b) l bs -> mapO f l = Some bs.
Proof. induction 1 as [|a b l bs H _ IH]; cbn [mapO]; [reflexivity|]. rewrite H, IH. reflexivity. Qed.

Lemma effects : forall n rs s it, Forall (valid V zeroV (iters n)) rs -> Forall (isResult 1) rs -> makeLoop rs = Ok s -> it < n ->
  exists l, mapO (effectOf it) (executed V (N.of_nat it) s) = Some l /\
    (forall e, addedAt R 0%R Rplus l e = sumL (fun r => contrib r (N.of_nat it) (N.of_nat e)) rs) /\
    (forall e v, In (e, v) l -> exists locs m w, In (RResult V locs m w 1%N) rs /\ loc_at (N.of_nat it) locs = Some (N.of_nat e)).
Proof.
  intros n rs s it Hv Hr E Hit. pose proof (makeLoop_tidy n rs s Hv Hr E) as Ht. destruct (makeLoop_served n rs Hv) as (s' & E' & Hs). assert (s' = s) by congruence. subst s'.
  destruct (Hs (N.of_nat it)) as (fs & Hp & Hi); [apply iters_In; lia|]. pose proof (proj2 (Hi fs) eq_refl) as Hi1. apply executed_iteration in Hi1. pose proof (executed_all tidy (N.of_nat it) s Ht) as Ha.
  exists (map (fun f : effect V => (N.to_nat (fst (fst f)), snd f (N.of_nat it))) fs). split; [|split].
  - apply mapO_Forall2. revert Ha. clear - Hi1. induction Hi1 as [|a f l fs H _ IH]; intros Ha; cbn [map]; constructor; inversion Ha; subst; auto. apply effectOf_does; assumption.
  - intros e. rewrite <- (asked_adds rs (N.of_nat it) (N.of_nat e) Hr). rewrite <- (sumL_perm _ _ _ Hp). clear. unfold addedAt. induction fs as [|f fs IH]; cbn [map filter sumL fst]; [reflexivity|].
    replace (N.to_nat (fst (fst f)) =? e) with (N.of_nat e =? fst (fst f))%N.
    + destruct (N.of_nat e =? fst (fst f))%N; cbn [map snd total fold_right]; [rewrite <- IH; reflexivity|]. rewrite <- IH. lra.
    + destruct (N.eqb_spec (N.of_nat e) (fst (fst f))); symmetry; [apply Nat.eqb_eq|apply Nat.eqb_neq]; lia.
  - intros e v I. apply in_map_iff in I. destruct I as (f & X & I). injection X as <- <-. apply (Permutation_in _ Hp) in I. apply in_flat_map in I. destruct I as (r & I & J). rewrite Forall_forall in Hr.
    destruct (Hr r I) as (locs & m & w & ->). exists locs, m, w. split; [exact I|]. cbn [asked] in J. destruct (loc_at (N.of_nat it) locs) as [q|]; [|destruct J]. destruct J as [<-|[]]. cbn [fst]. f_equal. lia.
Qed.

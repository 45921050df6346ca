(** * Values and sparse Jacobian of a model with loops: theorems *)
From Coq Require Import List Bool Arith NArith Reals Sorted Lia Lra FunctionalExtensionality.
From Verif Require Import Graph_model Codegen_model CSyntax Range_model LoopCond_model LoopCond_spec LoopJac_model LoopJac_spec LoopJac_maps LoopJac_row LoopJac_state LoopJac_analysis LoopJac_run LoopJac_main LoopJac_final LoopJac_values.
Import ListNotations.
Local Open Scope nat_scope.

(** The sparse Jacobian: for every model made of loops, every list of elements without a repeated dependence in a loop and every point where the
    tapes are differentiable, the function is generated, it runs, and each element it produces is the derivative of the equation. *)
Theorem C64_jacobian : forall F dF G dG absent md x els,
  good md -> tapes_right F dF G dG md x -> (forall i j, In (i, j) els -> exists p, place_of md i p) -> ~ repeated md els ->
  exists prog, jacobianProgram dF G dG absent md x els = Ok prog /\ (exists b, produces prog b) /\
    forall b, produces prog b -> forall e i j y, nth_error els e = Some (i, j) -> equation F G md i y -> partial y x j (b e).
Proof.
  intros F dF G dG absent md x els Hg HT Hp Hrep. destruct (proj2 (analyse_spec md els Hg Hp) Hrep) as (s & Es & HI). pose proof HT as (_ & HF & HG).
  assert (HdF : forall n l tapeI row t u, nth_error (m_loops md) n = Some l -> nth_error (l_row l) tapeI = Some row -> ~ In t row -> dF n tapeI t u = 0%R) by (intros n l tapeI row t u H1 H2; exact (proj1 (proj2 (HF n l tapeI row H1 H2)) t u)).
  assert (HdG : forall f il row j, m_free md = Some f -> nth_error (f_row f) il = Some row -> ~ In j row -> dG il j x = 0%R) by (intros f il row j H1 H2; exact (proj2 (HG f il row H1 H2 j))).
  destruct (jac_loops dF G dG absent md x Hg HdF HdG els s HI) as (ps & E & L1 & L2). unfold jacobianProgram. rewrite Es. cbn [rbind]. rewrite E. cbn [rbind]. eexists. split; [reflexivity|]. split.
  { destruct (L1 (fun _ => 0%R)) as (a & Ha). eexists. exists a. split; [exact Ha|]. intro q. reflexivity. }
  intros b (a & Ha & Hb) e i j y He Hy. cbn [p_loops p_set] in Ha, Hb. inversion Hy as [n l tapeI deps it i' Hn Hd Hi|f il i' Hf Hi]; subst.
  - destruct (assign_spec 0%R (outside dG md x s) (fun q => a (N.of_nat q)) e) as [_ A2].
    { intros w Hw. apply (outside_In dF G dG absent md x HdF HdG els s HI) in Hw. destruct Hw as (il & j' & i' & f & _ & H1 & H2 & H3). rewrite He in H1. inversion H1; subst.
      pose proof (g_one md Hg _ _ _ (P_loop md _ n l tapeI deps it Hn Hd Hi) (P_free md _ f H2 (nth_error_In _ _ H3))). discriminate. }
    rewrite Hb, A2.
    2: { intro H. apply in_map_iff in H. destruct H as ([e' w] & H0 & Hw). cbn [fst] in H0. subst e'. apply (outside_In dF G dG absent md x HdF HdG els s HI) in Hw. destruct Hw as (il & j' & i' & f & _ & H1 & H2 & H3). rewrite He in H1. inversion H1; subst.
      pose proof (g_one md Hg _ _ _ (P_loop md _ n l tapeI deps it Hn Hd Hi) (P_free md _ f H2 (nth_error_In _ _ H3))). discriminate. }
    destruct (nth_error (l_row l) tapeI) as [row|] eqn:Er.
    2: { destruct (loop_row md Hg n l tapeI deps it i Hn Hd Hi) as (Gl & _ & _). apply nth_error_None in Er. rewrite (g_rows md l Gl) in Er. assert (nth_error (l_deps l) tapeI = None) by (apply nth_error_None; exact Er). congruence. }
    pose proof (L2 _ _ (N.of_nat e) Ha) as Ev. cbn beta in Ev. rewrite Ev, Rplus_0_l.
    rewrite (total_element dF G dG absent md x Hg HdF HdG els s HI n l tapeI row it e i j Hn Er He (proj2 (findLoop_iff md i n tapeI it Hg) (P_loop md i n l tapeI deps it Hn Hd Hi))).
    exact (total_derivative F dF G dG absent md Hg x n l tapeI deps row it i j HT Hn Hd Hi Er).
  - destruct (assign_spec (dG il j x) (outside dG md x s) (fun q => a (N.of_nat q)) e) as [A1 _].
    { intros w Hw. apply (outside_In dF G dG absent md x HdF HdG els s HI) in Hw. destruct Hw as (il' & j' & i' & f' & -> & H1 & H2 & H3). rewrite He in H1. inversion H1; subst. rewrite Hf in H2. inversion H2; subst. f_equal.
      eapply NoDup_nth_error; [exact (proj1 (g_free md Hg _ Hf))|apply nth_error_Some; congruence|congruence]. }
    rewrite Hb, A1.
    + destruct (g_free md Hg f Hf) as [_ Hlen]. destruct (nth_error (f_row f) il) as [row|] eqn:Er; [exact (proj1 (HG f il row Hf Er j))|]. apply nth_error_None in Er. assert (il < length (f_eqs f)) by (apply nth_error_Some; congruence). lia.
    + apply (in_map fst (outside dG md x s) (e, dG il j x)). apply (outside_In dF G dG absent md x HdF HdG els s HI). exists il, j, i, f. auto.
Qed.
Print Assumptions C64_jacobian.

(** A request which repeats an element of a loop (one the sparsity patterns do not make zero) is refused. *)
Theorem C64_repeated : forall dF G dG absent md x els,
  good md -> (forall i j, In (i, j) els -> exists p, place_of md i p) -> repeated md els -> jacobianProgram dF G dG absent md x els = Throw.
Proof. intros dF G dG absent md x els Hg Hp Hr. unfold jacobianProgram. rewrite (proj1 (analyse_spec md els Hg Hp) Hr). reflexivity. Qed.
Print Assumptions C64_repeated.

(** The values: whatever is read for the variables which an iteration does not have, each equation has its value. *)
Theorem C64_values : forall F G absent md x m,
  good md -> covers F md -> (forall i p, place_of md i p -> i < m) ->
  exists prog, valueProgram F G absent md x m = Ok prog /\ (exists b, produces prog b) /\
    forall b, produces prog b -> forall i y, equation F G md i y -> b i = y x.
Proof.
  intros F G absent md x m Hg Hc Hm. destruct (value_program F G absent md x m Hg Hm) as (prog & E & H1 & H2). exists prog. split; [exact E|]. split; [exact H1|].
  intros b Hb i y Hy. destruct (H2 b Hb) as [Hloop Hfree]. inversion Hy as [n l tapeI deps it i' Hn Hd Hi|f il i' Hf Hi]; subst; [|exact (Hfree f il i Hf Hi)].
  rewrite (Hloop n l tapeI deps it i Hn Hd Hi). destruct (loop_row md Hg n l tapeI deps it i Hn Hd Hi) as (Gl & _ & _).
  destruct (nth_error (l_row l) tapeI) as [row|] eqn:Er.
  - apply (Hc n l tapeI row Hn Er). intros t Ht. apply (tapeVars_read F (fun _ _ _ _ => 0%R) G (fun _ _ _ => 0%R)). exact (g_present md l Gl tapeI row deps it i t Er Hd Hi Ht).
  - apply nth_error_None in Er. rewrite (g_rows md l Gl) in Er. assert (nth_error (l_deps l) tapeI = None) by (apply nth_error_None; exact Er). congruence.
Qed.
Print Assumptions C64_values.

(** ** A model: y_i = x_i x_3 + z for i = 0, 1, 2 with z = x_3 x_3, y_3 = x_0 x_0 and y_4 = x_2 x_2 (no such equation in iteration 1), y_5 = x_4 *)
Definition ex_loop : loopM := mkLoopM 3 [[Some 0; Some 1; Some 2]; [Some 3; None; Some 4]] [[Some 0; Some 1; Some 2]] [3] [0] [[0; 1; 2]; [0]].
Definition ex_model : model := mkModel [ex_loop] (Some (mkFreeM [5] [[4]; [3]])).
Definition ex_F (n tapeI : nat) (u : nat -> R) : R := match tapeI with 0 => (u 0%nat * u 1%nat + u 2%nat)%R | _ => (u 0%nat * u 0%nat)%R end.
Definition ex_dF (n tapeI t : nat) (u : nat -> R) : R :=
  match tapeI with 0 => match t with 0 => u 1%nat | 1 => u 0%nat | 2 => 1%R | _ => 0%R end | _ => match t with 0 => (u 0%nat + u 0%nat)%R | _ => 0%R end end.
Definition ex_G (il : nat) (x : nat -> R) : R := match il with 0 => x 4%nat | _ => (x 3%nat * x 3%nat)%R end.
Definition ex_dG (il j : nat) (x : nat -> R) : R :=
  match il with 0 => if j =? 4 then 1%R else 0%R | _ => if j =? 3 then (x 3%nat + x 3%nat)%R else 0%R end.

Lemma ex_loop_at : forall n l, nth_error (m_loops ex_model) n = Some l -> n = 0 /\ l = ex_loop.
Proof. intros [|n] l H; cbn in H; [inversion H; auto|destruct n; discriminate]. Qed.
Lemma ex_deps : forall tapeI r it i, nth_error (l_deps ex_loop) tapeI = Some r -> nth_error r it = Some (Some i) -> (tapeI = 0 /\ it = i /\ i < 3) \/ (tapeI = 1 /\ it = 0 /\ i = 3) \/ (tapeI = 1 /\ it = 2 /\ i = 4).
Proof.
  intros tapeI r it i H1 H2. destruct tapeI as [|[|tapeI]]; cbn in H1; [inversion H1; subst r; clear H1..|destruct tapeI; discriminate];
    destruct it as [|[|[|it]]]; cbn in H2; try (destruct it); try discriminate; inversion H2; subst; repeat split; try lia.
Qed.
Lemma ex_good : good ex_model.
Proof.
  constructor.
  - constructor; [|constructor]. constructor; cbn [l_iters l_deps l_indexed l_non l_tmp l_row ex_loop length].
    + split; [lia|]. vm_compute. discriminate.
    + repeat constructor.
    + repeat constructor.
    + repeat constructor; cbn; tauto.
    + repeat constructor; cbn; tauto.
    + reflexivity.
    + constructor; [exists 0, 0; reflexivity|constructor; [exists 0, 3; reflexivity|constructor]].
    + constructor; [split; [repeat constructor; cbn; intuition lia|cbn; intuition lia]|constructor; [split; [repeat constructor; cbn; tauto|cbn; intuition lia]|constructor]].
    + intros tapeI row deps it i t H1 H2 H3 H4.
      assert (Hit : it < 3) by (destruct (ex_deps tapeI deps it i H2 H3) as [?|[?|?]]; lia).
      assert (Ht : t < 3) by (destruct tapeI as [|[|tapeI]]; cbn in H1; [inversion H1; subst row; cbn in H4; intuition lia..|destruct tapeI; discriminate]).
      destruct it as [|[|[|it]]]; [..|lia]; destruct t as [|[|[|t]]]; try lia; cbn; discriminate.
    + intros k [<-|[]]. eexists. split; [reflexivity|]. cbn. lia.
  - intros i p p' H H'. inversion H as [n l tapeI r it H1 H2 H3|f H1 H2]; inversion H' as [n' l' tapeI' r' it' H1' H2' H3'|f' H1' H2']; subst.
    + destruct (ex_loop_at n l H1) as [-> ->]. destruct (ex_loop_at n' l' H1') as [-> ->]. destruct (ex_deps _ _ _ _ H2 H3) as [?|[?|?]]; destruct (ex_deps _ _ _ _ H2' H3') as [?|[?|?]]; repeat f_equal; lia.
    + destruct (ex_loop_at n l H1) as [-> ->]. cbn in H1'. inversion H1'; subst. cbn in H2'. destruct (ex_deps _ _ _ _ H2 H3) as [?|[?|?]]; lia.
    + destruct (ex_loop_at n' l' H1') as [-> ->]. cbn in H1. inversion H1; subst. cbn in H2. destruct (ex_deps _ _ _ _ H2' H3') as [?|[?|?]]; lia.
    + reflexivity.
  - intros f H. cbn in H. inversion H; subst. cbn. split; [repeat constructor; cbn; tauto|lia].
Qed.
Lemma ex_rows : forall n l tapeI row, nth_error (m_loops ex_model) n = Some l -> nth_error (l_row l) tapeI = Some row -> l = ex_loop /\ ((tapeI = 0 /\ row = [0; 1; 2]) \/ (tapeI = 1 /\ row = [0])).
Proof. intros n l tapeI row H1 H2. destruct (ex_loop_at n l H1) as [-> ->]. split; [reflexivity|]. destruct tapeI as [|[|tapeI]]; cbn in H2; [inversion H2; auto..|destruct tapeI; discriminate]. Qed.
Lemma ex_covers : covers ex_F ex_model.
Proof.
  intros n l tapeI row H1 H2 u u' H. destruct (ex_rows n l tapeI row H1 H2) as [-> [[-> ->]|[-> ->]]]; cbn [ex_F]; rewrite ?(H 0), ?(H 1), ?(H 2) by (cbn; auto); reflexivity.
Qed.
Lemma dl_eq : forall f t a b, a = b -> derivable_pt_lim f t a -> derivable_pt_lim f t b.
Proof. intros f t a b -> H. exact H. Qed.
Lemma ex_tapes : forall x, tapes_right ex_F ex_dF ex_G ex_dG ex_model x.
Proof.
  intro x. split; [exact ex_covers|]. split.
  - intros n l tapeI row H1 H2. destruct (ex_rows n l tapeI row H1 H2) as [-> Hr]. split; [|split].
    + intros deps it i _ _ u c d Hc Hd. cbn in Hd. destruct Hr as [[-> ->]|[-> ->]]; cbn [ex_F ex_dF sumTo l_indexed l_non l_tmp ex_loop length plus].
      * eapply dl_eq; [|apply (derivable_pt_lim_plus (fun s => c s 0%nat * c s 1%nat)%R (fun s => c s 2%nat)); [apply (derivable_pt_lim_mult (fun s => c s 0%nat) (fun s => c s 1%nat)); apply Hd; lia|apply Hd; lia]]. cbn beta. rewrite !Hc. lra.
      * eapply dl_eq; [|apply (derivable_pt_lim_mult (fun s => c s 0%nat) (fun s => c s 0%nat)); apply Hd; lia]. cbn beta. rewrite !Hc. lra.
    + intros t u Ht. destruct Hr as [[-> ->]|[-> ->]]; cbn [ex_dF]; destruct t as [|[|[|t]]]; try reflexivity; exfalso; apply Ht; cbn; auto.
    + intros t u u' H. destruct Hr as [[-> ->]|[-> ->]]; cbn [ex_dF]; destruct t as [|[|[|t]]]; rewrite ?(H 0), ?(H 1), ?(H 2) by (cbn; auto); reflexivity.
  - intros f il row Hf Hr j. cbn in Hf. inversion Hf; subst f. destruct il as [|[|il]]; cbn in Hr; [inversion Hr; subst row..|destruct il; discriminate]; unfold partial, ex_G, ex_dG, moved.
    + split; [|intro H; destruct (j =? 4) eqn:E; [apply Nat.eqb_eq in E; subst; cbn in H; tauto|reflexivity]].
      rewrite (Nat.eqb_sym 4 j). destruct (j =? 4); [|apply derivable_pt_lim_const]. eapply dl_eq; [|apply (derivable_pt_lim_plus (fun _ => x 4%nat) (fun s => s)); [apply derivable_pt_lim_const|apply derivable_pt_lim_id]]. lra.
    + split; [|intro H; destruct (j =? 3) eqn:E; [apply Nat.eqb_eq in E; subst; cbn in H; tauto|reflexivity]].
      rewrite (Nat.eqb_sym 3 j). destruct (j =? 3); [|apply (derivable_pt_lim_const (x 3%nat * x 3%nat)%R)].
      assert (D : derivable_pt_lim (fun s => x 3%nat + s)%R 0%R 1%R) by (eapply dl_eq; [|apply (derivable_pt_lim_plus (fun _ => x 3%nat) (fun s => s)); [apply derivable_pt_lim_const|apply derivable_pt_lim_id]]; lra).
      eapply dl_eq; [|apply (derivable_pt_lim_mult _ _ _ _ _ D D)]. lra.
Qed.
Lemma ex_place : forall i, i < 6 -> exists p, place_of ex_model i p.
Proof.
  intros i Hi. destruct i as [|[|[|[|[|[|i]]]]]]; [..|lia].
  - eexists. exact (P_loop ex_model 0 0 ex_loop 0 _ 0 eq_refl eq_refl eq_refl).
  - eexists. exact (P_loop ex_model 1 0 ex_loop 0 _ 1 eq_refl eq_refl eq_refl).
  - eexists. exact (P_loop ex_model 2 0 ex_loop 0 _ 2 eq_refl eq_refl eq_refl).
  - eexists. exact (P_loop ex_model 3 0 ex_loop 1 _ 0 eq_refl eq_refl eq_refl).
  - eexists. exact (P_loop ex_model 4 0 ex_loop 1 _ 2 eq_refl eq_refl eq_refl).
  - eexists. apply (P_free ex_model 5 _ eq_refl). cbn. auto.
Qed.
(** the derivatives by x_3 go through the temporary; the elements need not be in order, and (5, 4), outside the loops, may be repeated *)
Definition ex_els : list (nat * nat) := [(5, 4); (2, 3); (0, 0); (4, 2); (1, 3); (3, 1); (5, 4)].
Lemma ex_not_repeated : ~ repeated ex_model ex_els.
Proof.
  intros (e & e' & i & j & Hlt & H1 & H2 & n & l & tapeI & it & Hp & _).
  assert (He : e' < 7) by (change 7 with (length ex_els); apply nth_error_Some; congruence).
  assert (i = 5).
  { destruct e as [|[|[|[|[|[|[|e]]]]]]]; [..|lia]; cbn in H1; inversion H1; subst i j; [reflexivity|..];
    destruct e' as [|[|[|[|[|[|[|e']]]]]]]; try lia; cbn in H2; discriminate. }
  subst i. pose proof (g_one ex_model ex_good _ _ _ Hp (P_free ex_model 5 _ eq_refl (or_introl eq_refl))). discriminate.
Qed.
Example C64_jacobian_case : forall absent x, exists prog b, jacobianProgram ex_dF ex_G ex_dG absent ex_model x ex_els = Ok prog /\ produces prog b /\ b 4 = (x 1%nat + (x 3%nat + x 3%nat))%R /\ b 5 = 0%R.
Proof.
  intros absent x. destruct (C64_jacobian ex_F ex_dF ex_G ex_dG absent ex_model x ex_els ex_good (ex_tapes x)) as (prog & E & (b & Hb) & H).
  - intros i j Hi. apply ex_place. cbn in Hi. repeat (destruct Hi as [Hi|Hi]; [inversion Hi; lia|]). destruct Hi.
  - exact ex_not_repeated.
  - exists prog, b. split; [exact E|]. split; [exact Hb|]. split.
    + pose proof (H b Hb 4 1 3 _ eq_refl (EqLoop ex_F ex_G ex_model 0 ex_loop 0 _ 1 1 eq_refl eq_refl eq_refl)) as P. unfold partial in P. refine (uniqueness_limite _ _ _ _ P _).
      cbn [ex_F sources ex_loop l_indexed l_non l_tmp map app nth_error read eqCount m_free ex_model f_eqs length plus ex_G]. unfold moved. cbn [Nat.eqb].
      assert (D : derivable_pt_lim (fun s => x 3%nat + s)%R 0%R 1%R) by (eapply dl_eq; [|apply (derivable_pt_lim_plus (fun _ => x 3%nat) (fun s => s)); [apply derivable_pt_lim_const|apply derivable_pt_lim_id]]; lra).
      eapply dl_eq; [|apply derivable_pt_lim_plus; [apply (derivable_pt_lim_mult (fun _ => x 1%nat) _ _ _ _ (derivable_pt_lim_const (x 1%nat) 0%R) D)|apply (derivable_pt_lim_mult _ _ _ _ _ D D)]]. lra.
    + pose proof (H b Hb 5 3 1 _ eq_refl (EqLoop ex_F ex_G ex_model 0 ex_loop 1 _ 0 3 eq_refl eq_refl eq_refl)) as P. unfold partial in P. refine (uniqueness_limite _ _ _ _ P _).
      cbn [ex_F sources ex_loop l_indexed l_non l_tmp map app nth_error read]. unfold moved. cbn [Nat.eqb]. apply (derivable_pt_lim_const (x 0%nat * x 0%nat)%R).
Qed.
Example C64_repeated_case : forall dF G dG absent x, jacobianProgram dF G dG absent ex_model x [(1, 3); (0, 0); (1, 3)] = Throw.
Proof.
  intros. apply C64_repeated; [exact ex_good|intros i j Hi; apply ex_place; cbn in Hi; repeat (destruct Hi as [Hi|Hi]; [inversion Hi; lia|]); destruct Hi|].
  exists 0, 2, 1, 3. split; [lia|]. split; [reflexivity|]. split; [reflexivity|]. exists 0, ex_loop, 0, 1. split; [exact (P_loop ex_model 1 0 ex_loop 0 _ 1 eq_refl eq_refl eq_refl)|]. split; [reflexivity|].
  exists [0; 1; 2], 1. split; [reflexivity|]. split; [cbn; auto|left; reflexivity].
Qed.
Example C64_values_case : forall absent x, exists prog b, valueProgram ex_F ex_G absent ex_model x 6%nat = Ok prog /\ produces prog b /\ b 2 = (x 2%nat * x 3%nat + x 3%nat * x 3%nat)%R /\ b 4 = (x 2%nat * x 2%nat)%R /\ b 5 = x 4%nat.
Proof.
  intros absent x. destruct (C64_values ex_F ex_G absent ex_model x 6%nat ex_good ex_covers) as (prog & E & (b & Hb) & H).
  - intros i p Hp. inversion Hp as [n l tapeI r it H1 H2 H3|f H1 H2]; subst.
    + destruct (ex_loop_at n l H1) as [-> ->]. destruct (ex_deps _ _ _ _ H2 H3) as [?|[?|?]]; lia.
    + cbn in H1. inversion H1; subst. cbn in H2. lia.
  - exists prog, b. split; [exact E|]. split; [exact Hb|]. split; [|split].
    + exact (H b Hb 2 _ (EqLoop ex_F ex_G ex_model 0 ex_loop 0 _ 2 2 eq_refl eq_refl eq_refl)).
    + exact (H b Hb 4 _ (EqLoop ex_F ex_G ex_model 0 ex_loop 1 _ 2 4 eq_refl eq_refl eq_refl)).
    + exact (H b Hb 5 _ (EqFree ex_F ex_G ex_model _ 0 5 eq_refl eq_refl)).
Qed.

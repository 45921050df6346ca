(** * The two instances of the generic evaluation theorem: numbers and CG<Base> *)
From Coq Require Import List Bool Arith Lia Permutation.
From Verif Require Import Graph_model Graph_spec Graph_proofs CGArith_model CGArith_spec CGArith_proofs Codegen_spec
  Eval_model Eval_spec Eval_proofs.
Import ListNotations.

(** ** Independent variables *)
Section Inds.
Context {B : Type}.
Implicit Type g : heap B.

Lemma filter_seq_shift (P : nat -> bool) (Q : nat -> bool) n m : (forall i, i < n -> P (m + i) = Q i) ->
  filter P (seq m n) = map (fun i => m + i) (filter Q (seq 0 n)).
Proof.
  revert m P Q. induction n as [|n IH]; intros m P Q H; [reflexivity|].
  cbn [seq filter]. rewrite <- (H 0) by lia. rewrite Nat.add_0_r.
  rewrite (IH (S m) P (fun i => Q (S i))), (IH 1 Q (fun i => Q (S i))).
  - destruct (P m); cbn [map]; rewrite map_map; [f_equal; [lia|]|]; apply map_ext; intros; lia.
  - intros i Hi. reflexivity.
  - intros i Hi. rewrite <- H by lia. f_equal. lia.
Qed.

Lemma independents_cons n g h : independents (n :: g) h =
  (if is_inv_of h n then [0] else []) ++ map S (independents g h).
Proof.
  unfold independents. cbn [length seq filter nth_error].
  rewrite (filter_seq_shift _ (fun i => match nth_error g i with Some n => is_inv_of h n | None => false end)) by reflexivity.
  destruct (is_inv_of h n); reflexivity.
Qed.

Lemma independents_length g h : length (independents g h) = indepCount g h.
Proof.
  induction g as [|n g IH]; [reflexivity|]. rewrite independents_cons, app_length, map_length, IH.
  unfold indepCount. cbn [filter]. destruct (is_inv_of h n); reflexivity.
Qed.

Lemma independents_nodup g h : NoDup (independents g h).
Proof. apply NoDup_filter, seq_NoDup. Qed.

Lemma independents_nth g h : forall i n, nth_error g i = Some n -> is_inv_of h n = true ->
  nth_error (independents g h) (indepCount (firstn i g) h) = Some i.
Proof.
  induction g as [|m g IH]; intros [|i] n; cbn [nth_error firstn]; try discriminate.
  - intros [= ->] Hi. rewrite independents_cons, Hi. reflexivity.
  - intros Hn Hi. rewrite independents_cons. unfold indepCount. cbn [filter].
    specialize (IH i n Hn Hi).
    destruct (is_inv_of h m); cbn [length app nth_error]; fold (indepCount (firstn i g) h);
      rewrite nth_error_map, IH; reflexivity.
Qed.

Lemma evalIndependent_nth {T} g h (xs : list T) i n k : numbered g -> nth_error g i = Some n -> n_handler n = h ->
  n_op n = GInv k -> length xs = indepCount g h ->
  exists v, nth_error xs k = Some v /\ evalIndependent (independents g h) xs i = Done v.
Proof.
  intros NB Hn Hh Ho Hx.
  assert (Hi : is_inv_of h n = true) by (unfold is_inv_of; rewrite Hh, Ho, Nat.eqb_refl; reflexivity).
  pose proof (independents_nth g h i n Hn Hi) as E.
  rewrite (NB i n k Hn Ho), Hh in *.
  assert (LT : indepCount (firstn i g) h < length (independents g h)) by (apply nth_error_Some; congruence).
  rewrite independents_length, <- Hx in LT.
  destruct (nth_error xs (indepCount (firstn i g) h)) as [v|] eqn:Ev; [|apply nth_error_None in Ev; lia].
  exists v. split; [auto|]. unfold evalIndependent.
  now rewrite (indepIndex_nth _ _ _ (independents_nodup g h) E), Ev.
Qed.

Lemma handled_missing o : handled o = true <-> (forall f, o = GFun f -> ~ missing f).
Proof.
  unfold missing. split.
  - intros H f -> HI. cbn in HI. destruct f; cbn in H; try discriminate; decompose [or] HI; try discriminate; auto.
  - intros H. destruct o as [| | | | | | | | | |f|]; auto. cbn. destruct f; auto; exfalso; apply (H _ eq_refl); cbn; tauto.
Qed.
End Inds.

(** ** numbers *)
Section Num.
Context {B V : Type} {O : BaseOps V}.
Variable conv : B -> V.
Variable g : heap B.
Variable h : nat.
Variable ds : list (arg B).
Variable ord : nat -> list nat.
Variable xs : list V.
Variable d : V.
Variable sol : nat -> V.
Hypothesis AC : acyclic g.
Hypothesis OW : owned g ds h.
Hypothesis NB : numbered g.
Hypothesis OR : is_order g ord.
Hypothesis LX : length xs = indepCount g h.
Hypothesis SO : numsolves conv (fun k => nth k xs d) g sol.

Lemma num_args_len i n : nth_error g i = Some n -> length (n_args n) = arity (n_op n).
Proof.
  intros Hn. specialize (SO i n Hn). rewrite <- (map_length (argnum conv sol)).
  destruct (n_op n), (map (argnum conv sol) (n_args n)) as [|a [|b [|c0 [|e [|]]]]]; cbn in *; congruence.
Qed.

Lemma num_op_val st o vs : isInv o = false ->
  num_op o vs st = match numval (fun k => nth k xs d) o vs with Some v => Ok (tt, v) | None => Throw end.
Proof.
  intros Hi. unfold num_op, numval, signValue.
  destruct o; cbn in Hi; try discriminate; destruct vs as [|a [|b [|c0 [|e [|]]]]]; reflexivity.
Qed.

Lemma num_args_eq st (args : list (arg B)) vs :
  Forall2 (fun a u => arel (fun i (_ : unit) v => v = sol i) (fun b _ v => v = conv b) a st u) args vs ->
  vs = map (argnum conv sol) args.
Proof.
  induction 1 as [|a u args vs H F IH]; [reflexivity|]. cbn. f_equal; [|auto]. destruct a; exact H.
Qed.

Lemma num_generic : exists N, forall fuel E, N <= fuel -> ev_under E = false ->
  exists E' log res,
    evaluate (num_target conv) g (independents g h) xs ord fuel E tt (length ds) ds = (E', tt, log, res) /\
    ev_under E' = false /\ NoDup log /\ (forall i, In i log -> reach g ds i) /\
    ((res = Done (map (argnum conv sol) ds) /\ (forall i, reach g ds i -> In i log) /\ no_missing g ds) \/
     (res = Thrown /\ ~ no_missing g ds)).
Proof.
  destruct AC as [r Hr]. exists (enough ds r). intros fuel E Hf HU.
  destruct (evaluate_generic (num_target conv) g (independents g h) xs ord ds
    (fun i (_ : unit) v => v = sol i) (fun b _ v => v = conv b) (fun _ _ => True) (fun _ => True) tt
    (fun _ => I) (fun _ _ _ _ _ => I) (fun _ _ _ _ _ H => H) (fun _ _ => eq_refl) (fun _ _ _ _ _ H => H)
    r Hr) with (E := E) (fuel := fuel) as [E' [st [log [res [EV [HU' [ND [LR [_ [_ RES]]]]]]]]]]; auto.
  - intros i Hi. destruct (OW i Hi) as [n [Hn _]]. eauto.
  - intros i n Hn Hi. pose proof (num_args_len i n Hn) as HL. destruct (n_op n); try discriminate.
    now apply length_zero_iff_nil.
  - intros i n s vs s' v Hi Hn HI _ _ F2 HO. split; [auto|split; [auto|]].
    apply num_args_eq in F2. subst vs. cbn [t_op num_target] in HO. rewrite num_op_val, (SO i n Hn) in HO by auto.
    now injection HO as _ <-.
  - intros i n v Hi Hn HI EI s _. destruct (n_op n) as [k| | | | | | | | | |f0|c] eqn:Ho; try discriminate.
    destruct (OW i Hi) as [n' [Hn' Hh]]. rewrite Hn in Hn'. injection Hn' as <-.
    destruct (evalIndependent_nth g h xs i n k NB Hn Hh Ho LX) as [v' [Hv' EI']]. rewrite EI in EI'. injection EI' as <-.
    pose proof (SO i n Hn) as S1. rewrite Ho in S1. cbn [numval] in S1.
    destruct (map (argnum conv sol) (n_args n)); [|discriminate]. injection S1 as <-. symmetry. now apply nth_error_nth.
  - rewrite independents_length. auto.
  - destruct st. exists E', log, res. split; [exact EV|]. split; [auto|]. split; [auto|]. split; [auto|].
    destruct RES as [[vs [-> [F2 [AL HD]]]]|[-> NL]]; [left|right].
    + apply num_args_eq in F2. subst vs. split; [auto|]. split; [auto|].
      intros i n f Hi Hn Ho. exact (proj1 (handled_missing (n_op n)) (HD i n Hi Hn) f Ho).
    + split; [auto|]. intros NM. apply NL. split; [|split].
      * intros i n Hi Hn. apply handled_missing. intros f Ho. eapply NM; eauto.
      * intros i n Hi Hn HI. destruct (n_op n) as [k| | | | | | | | | |f0|c] eqn:Ho; try discriminate.
        destruct (OW i Hi) as [n' [Hn' Hh]]. rewrite Hn in Hn'. injection Hn' as <-.
        destruct (evalIndependent_nth g h xs i n k NB Hn Hh Ho LX) as [v' [_ EI']]. eauto.
      * intros i n s vs Hi Hn HI _ F2. apply num_args_eq in F2. subst vs. cbn [t_op num_target].
        rewrite num_op_val, (SO i n Hn) by auto. discriminate.
Qed.
End Num.

(** ** CG<Base> *)
Section Cg.
Context {B : Type} {O : BaseOps B}.
Implicit Type g : heap B.

Definition inh (h : nat) g (x : cg B) : Prop := owner g x = None \/ owner g x = Some h.

Lemma owner_grow g g' x : grow g g' -> valid g x -> owner g' x = owner g x.
Proof.
  intros [t [-> _]] Vx. destruct x as [b|i v]; [reflexivity|]. cbn in Vx |- *. now rewrite nth_error_app1.
Qed.
Lemma owner_new g h o args v : owner (g ++ [mkNode h o args]) (Var (length g) v) = Some h.
Proof. cbn. rewrite nth_error_app2, Nat.sub_diag by lia. reflexivity. Qed.
Lemma inh_foreign h g x y : inh h g x -> inh h g y -> ~ foreign g x y.
Proof. intros H1 H2 [a [b [E1 [E2 N]]]]. destruct H1, H2; congruence. Qed.
Lemma inh_par h g b : inh h g (Par b).
Proof. now left. Qed.
Hint Resolve inh_par : core.

(** result stays in handler h and nothing is thrown *)
Definition stays (h : nat) (res : result (heap B * cg B)) : Prop :=
  exists g' x, res = Ok (g', x) /\ inh h g' x.

Lemma stays_old h g x : inh h g x -> stays h (Ok (g, x)).
Proof. intros. exists g, x. auto. Qed.
Lemma stays_new h g o args v : stays h (Ok (newnode g h o args v)).
Proof. unfold newnode, makeNode. do 2 eexists. split; [reflexivity|]. right. apply owner_new. Qed.

Lemma inh_var h g i v : valid g (Var i v) -> inh h g (Var i v) -> owner g (Var i v) = Some h.
Proof. intros V [H|H]; auto. destruct (owner_var g i v V) as [k Hk]. congruence. Qed.

Lemma mkBin_stays h g o l r : valid g l -> valid g r -> inh h g l -> inh h g r ->
  (exists i v, l = Var i v) \/ (exists i v, r = Var i v) -> stays h (mkBin g o l r).
Proof.
  intros Vl Vr Hl Hr HV. unfold mkBin, getHandler. rewrite (getCodeHandler_owner g l), (getCodeHandler_owner g r).
  assert (HH : owner g l = Some h \/ owner g r = Some h).
  { destruct HV as [[i [v ->]]|[i [v ->]]]; [left|right]; now apply inh_var. }
  destruct Hl as [E1|E1], Hr as [E2|E2]; rewrite E1, E2; try (rewrite Nat.eqb_refl); try apply stays_new.
  destruct HH; congruence.
Qed.

Lemma cbin_stays h g o l r : valid g l -> valid g r -> inh h g l -> inh h g r -> stays h (cbin g o l r).
Proof.
  intros Vl Vr Hl Hr. destruct o, l as [a|i vl], r as [b|j vr]; cbn [cbin cadd csub cmul cdiv];
    repeat match goal with |- context[if ?c then _ else _] => destruct c end;
    first [apply stays_old; auto; fail | apply mkBin_stays; eauto].
Qed.

Lemma mkUn_stays h g o f i v : valid g (Var i v) -> inh h g (Var i v) -> stays h (mkUn g o f (Var i v)).
Proof.
  intros Vl Hl. unfold mkUn. rewrite (getCodeHandler_owner g (Var i v)), (inh_var h g i v Vl Hl). apply stays_new.
Qed.

Lemma cpow_stays h g l r : valid g l -> valid g r -> inh h g l -> inh h g r -> stays h (cpow g l r).
Proof.
  intros Vl Vr Hl Hr. destruct l as [a|i vl], r as [b|j vr]; unfold cpow.
  - apply stays_old; auto.
  - rewrite (getCodeHandler_owner g (Var j vr)), (inh_var h g j vr Vr Hr). apply stays_new.
  - destruct (bisz b); [apply stays_old; auto|]. destruct (biso b); [apply stays_old; auto|].
    rewrite (getCodeHandler_owner g (Var i vl)), (inh_var h g i vl Vl Hl). apply stays_new.
  - rewrite (getCodeHandler_owner g (Var j vr)), (inh_var h g j vr Vr Hr). apply stays_new.
Qed.

Lemma ccond_stays h g c l r t f : valid g l -> valid g r -> valid g t -> valid g f ->
  inh h g l -> inh h g r -> inh h g t -> inh h g f -> stays h (ccond g c l r t f).
Proof.
  intros Vl Vr Vt Vf Hl Hr Ht Hf.
  destruct (ccond g c l r t f) as [[g' x]|] eqn:EC.
  - exists g', x. split; [auto|].
    destruct (ccond_shape g c l r t f g' x EC) as [[-> [HI|[b ->]]]|[h' [o [-> [[v ->] [_ [_ HO]]]]]]].
    + destruct HI as [<-|[<-|[<-|[<-|[]]]]]; auto.
    + auto.
    + right. rewrite owner_new. f_equal.
      (* a node is only recorded when one of the compared operands is a variable *)
      assert (HV : (exists i w, l = Var i w) \/ (exists i w, r = Var i w)).
      { destruct l as [a|i w]; [|eauto]. destruct r as [b|j w]; [|eauto]. cbn in EC.
        exfalso. destruct (bcmp c a b); injection EC as E1 E2;
          apply (f_equal (@length _)) in E1; rewrite app_length in E1; cbn in E1; lia. }
      destruct HV as [[i [w ->]]|[i [w ->]]].
      * pose proof (inh_var h g i w Vl Hl) as OL. destruct (HO eq_refl (Var i w)) as [X|X]; [cbn; auto|congruence|congruence].
      * pose proof (inh_var h g i w Vr Hr) as OL. destruct (HO eq_refl (Var i w)) as [X|X]; [cbn; auto|congruence|congruence].
  - exfalso. apply ccond_throws in EC; auto. destruct EC as [_ [_ [x [y [Hx [Hy F]]]]]].
    revert F. apply inh_foreign with h.
    + destruct Hx as [<-|[<-|[<-|[<-|[]]]]]; auto.
    + destruct Hy as [<-|[<-|[<-|[<-|[]]]]]; auto.
Qed.

Lemma cg_op_stays h g o vs : isInv o = false -> length vs = arity o -> Forall (valid g) vs -> Forall (inh h g) vs ->
  stays h (cg_op o vs g).
Proof.
  intros HI HL HV HH.
  destruct o; try discriminate; destruct vs as [|a [|b [|c0 [|e [|]]]]]; try discriminate;
    repeat match goal with H : Forall _ (_ :: _) |- _ => inversion H; clear H; subst end; cbn [cg_op].
  1-4: now apply cbin_stays.
  - now apply cpow_stays.
  - destruct a; cbn [cneg]; [now apply stays_old|now apply mkUn_stays].
  - destruct a; cbn [csign]; [now apply stays_old|now apply mkUn_stays].
  - now apply stays_old.
  - now apply stays_old.
  - destruct a; cbn [cfun]; [now apply stays_old|now apply mkUn_stays].
  - now apply ccond_stays.
Qed.

Section Run.
Variable L : BaseLaws B.
Variable g : heap B.
Variable h : nat.
Variable ds : list (arg B).
Variable ord : nat -> list nat.
Variable xs : list (cg B).
Variable g2 : heap B.
Hypothesis AC : acyclic g.
Hypothesis OW : owned g ds h.
Hypothesis NB : numbered g.
Hypothesis WA : wf_arity g.
Hypothesis OR : is_order g ord.
Hypothesis LX : length xs = indepCount g h.
Hypothesis W2 : wf_heap g2.
Hypothesis VX : Forall (valid g2) xs.

(** values of the old independents and of the new objects agree *)
Definition agree (env1 env2 : nat -> nat -> B) : Prop :=
  forall k x, nth_error xs k = Some x -> cgval env2 g2 x = Some (env1 h k).

Definition crel (i : nat) (s : heap B) (y : cg B) : Prop :=
  valid s y /\
  (forall env1 env2 sol, solves env1 g sol -> agree env1 env2 -> okv env2 s y (sol i)) /\
  (forall h2, Forall (inh h2 g2) xs -> inh h2 s y).
Definition cprel (b : B) (s : heap B) (y : cg B) : Prop := y = Par b.
Definition cle (s s' : heap B) : Prop := grow s s'.

Lemma okv_grow env s s' y v : grow s s' -> valid s y -> okv env s y v -> okv env s' y v.
Proof. intros G V H u Hu. rewrite (cgval_grow env _ _ _ G V). auto. Qed.

Lemma crel_le i s s' y : cle s s' -> crel i s y -> crel i s' y.
Proof.
  intros G [V [H1 H2]]. split; [|split].
  - eapply valid_grow; [apply grow_length; eauto|auto].
  - intros env1 env2 sol HS HA. eapply okv_grow; eauto.
  - intros h2 F. unfold inh. rewrite (owner_grow _ _ _ G V). exact (H2 h2 F).
Qed.

Definition carel := arel crel cprel.
Lemma carel_valid a s y : carel a s y -> valid s y.
Proof. destruct a; cbn; [intros [V _]; auto|]. intros ->. exact I. Qed.
Lemma carel_okv a s y : carel a s y -> forall env1 env2 sol, solves env1 g sol -> agree env1 env2 ->
  okv env2 s y (sval sol a).
Proof.
  destruct a; cbn; [intros [_ [H _]]; auto|]. intros -> env1 env2 sol _ _ v [= <-]. reflexivity.
Qed.
Lemma carel_inh a s y h2 : carel a s y -> Forall (inh h2 g2) xs -> inh h2 s y.
Proof. destruct a; cbn; [intros [_ [_ H]]; auto|]. intros ->. auto. Qed.

Lemma okv_ext env s y a b : a = b -> okv env s y a -> okv env s y b.
Proof. now intros ->. Qed.

Lemma cg_op_rel i n s vs s' y : nth_error g i = Some n -> isInv (n_op n) = false -> wf_heap s ->
  Forall2 (fun a u => carel a s u) (n_args n) vs -> cg_op (n_op n) vs s = Ok (s', y) ->
  cle s s' /\ wf_heap s' /\ crel i s' y.
Proof.
  intros Hn HI WS F2 HO.
  assert (HA : length (n_args n) = arity (n_op n)).
  { pose proof (proj1 (Forall_forall _ _) WA n) as HW. cbn in HW. apply HW. eapply nth_error_In; eauto. }
  assert (HL : length vs = arity (n_op n)) by (rewrite <- HA; symmetry; eapply Forall2_len; eauto).
  assert (HV : Forall (valid s) vs).
  { clear -F2. induction F2; constructor; auto. eapply carel_valid; eauto. }
  assert (HH : forall h2, Forall (inh h2 g2) xs -> Forall (inh h2 s) vs).
  { intros h2 Hx. clear -F2 Hx. induction F2; constructor; auto. eapply carel_inh; eauto. }
  assert (ST : forall h2, Forall (inh h2 g2) xs -> inh h2 s' y).
  { intros h2 Hx. destruct (cg_op_stays h2 s (n_op n) vs HI HL HV (HH h2 Hx)) as [g' [x [E K]]]. congruence. }
  assert (SV : forall env1 sol, solves env1 g sol ->
     sol i = opval env1 (n_handler n) (n_op n) (map (sval sol) (n_args n))).
  { intros env1 sol HS. apply HS. auto. }
  assert (K : cle s s' /\ wf_heap s' /\ valid s' y /\
     (forall env1 env2 sol, solves env1 g sol -> agree env1 env2 -> okv env2 s' y (sol i))).
  { destruct (n_op n); try discriminate; destruct (n_args n) as [|a0 [|a1 [|a2 [|a3 [|]]]]]; try discriminate;
      repeat match goal with H : Forall2 _ (_ :: _) _ |- _ => inversion H; clear H; subst end;
      match goal with H : Forall2 _ [] _ |- _ => inversion H; clear H; subst end;
      repeat match goal with H : Forall (valid s) (_ :: _) |- _ => inversion H; clear H; subst end;
      cbn [cg_op] in HO.
    1-4: lazymatch type of HO with cbin ?s1 ?o ?l ?r = Ok (?s2, ?y1) =>
        let VL := fresh in let VR := fresh in
        assert (VL : valid s1 l) by assumption; assert (VR : valid s1 r) by assumption;
        destruct (cbin_ok L s1 o l r WS VL VR s2 y1 HO) as [G [W [V [S _]]]] end;
      split; [exact G|split; [exact W|split; [exact V|]]];
      intros env1 env2 sol HS HAg; eapply okv_ext; [symmetry; apply (SV env1 sol HS)|];
      cbn [map opval]; apply S; (eapply carel_okv; eauto).
    - match type of HO with cpow s ?l ?r = _ =>
        destruct (cpow_ok L s l r WS ltac:(assumption) ltac:(assumption) s' y HO) as [G [W [V [S _]]]] end.
      split; [exact G|split; [exact W|split; [exact V|]]].
      intros env1 env2 sol HS HAg; eapply okv_ext; [symmetry; apply (SV env1 sol HS)|].
      cbn [map opval]; apply S; (eapply carel_okv; eauto).
    - match type of HO with cneg s ?l = _ =>
        destruct (cneg_ok s l WS ltac:(assumption) s' y HO) as [G [W [V [S _]]]] end.
      split; [exact G|split; [exact W|split; [exact V|]]].
      intros env1 env2 sol HS HAg; eapply okv_ext; [symmetry; apply (SV env1 sol HS)|].
      cbn [map opval]; apply S; (eapply carel_okv; eauto).
    - match type of HO with csign s ?l = _ =>
        destruct (csign_ok L s l WS ltac:(assumption) s' y HO) as [G [W [V [S _]]]] end.
      split; [exact G|split; [exact W|split; [exact V|]]].
      intros env1 env2 sol HS HAg; eapply okv_ext; [symmetry; apply (SV env1 sol HS)|].
      cbn [map opval]; apply S; (eapply carel_okv; eauto).
    - injection HO as <- <-. split; [apply grow_refl|split; [auto|split; [auto|]]].
      intros env1 env2 sol HS HAg; eapply okv_ext; [symmetry; apply (SV env1 sol HS)|].
      cbn [map opval]. eapply carel_okv; eauto.
    - injection HO as <- <-. split; [apply grow_refl|split; [auto|split; [auto|]]].
      intros env1 env2 sol HS HAg; eapply okv_ext; [symmetry; apply (SV env1 sol HS)|].
      cbn [map opval]. eapply carel_okv; eauto.
    - match type of HO with cfun s ?f ?l = _ =>
        destruct (cfun_ok s f l WS ltac:(assumption) s' y HO) as [G [W [V [S _]]]] end.
      split; [exact G|split; [exact W|split; [exact V|]]].
      intros env1 env2 sol HS HAg; eapply okv_ext; [symmetry; apply (SV env1 sol HS)|].
      cbn [map opval]; apply S; (eapply carel_okv; eauto).
    - match type of HO with ccond s ?c ?l ?r ?t ?f = _ =>
        destruct (ccond_ok L s c l r t f WS ltac:(assumption) ltac:(assumption) ltac:(assumption) ltac:(assumption) s' y HO)
          as [G [W [V [S _]]]] end.
      split; [exact G|split; [exact W|split; [exact V|]]].
      intros env1 env2 sol HS HAg; eapply okv_ext; [symmetry; apply (SV env1 sol HS)|].
      cbn [map opval]; apply S; (eapply carel_okv; eauto). }
  destruct K as [K1 [K2 [K3 K4]]]. split; [auto|split; [auto|split; [auto|split; auto]]].
Qed.

Lemma cg_generic : exists N, forall fuel E, N <= fuel -> ev_under E = false ->
  exists E' g3 log res,
    evaluate cg_target g (independents g h) xs ord fuel E g2 (length ds) ds = (E', g3, log, res) /\
    ev_under E' = false /\ NoDup log /\ (forall i, In i log -> reach g ds i) /\ wf_heap g3 /\ grow g2 g3 /\
    ((exists ys, res = Done ys /\ Forall2 (fun d y => carel d g3 y) ds ys /\
        (forall i, reach g ds i -> In i log) /\ no_missing g ds) \/
     (res = Thrown /\ forall h2, ~ (no_missing g ds /\ Forall (inh h2 g2) xs))).
Proof.
  destruct AC as [r Hr]. exists (enough ds r). intros fuel E Hf HU.
  destruct (evaluate_generic cg_target g (independents g h) xs ord ds crel cprel cle wf_heap g2
    grow_refl grow_trans crel_le (fun _ _ => eq_refl) (fun _ _ _ _ _ H => H)
    r Hr) with (E := E) (fuel := fuel) as [E' [st [log [res [EV [HU' [ND [LR [WS [GS RES]]]]]]]]]]; auto.
  - intros i Hi. destruct (OW i Hi) as [n [Hn _]]. eauto.
  - intros i n Hn Hi. pose proof (proj1 (Forall_forall _ _) WA n) as HW. cbn in HW.
    apply nth_error_In in Hn. specialize (HW Hn). destruct (n_op n); try discriminate. now apply length_zero_iff_nil.
  - intros i n s vs s' v Hi Hn HI _ WS F2 HO. exact (cg_op_rel i n s vs s' v Hn HI WS F2 HO).
  - intros i n v Hi Hn HI EI s Hs. destruct (n_op n) as [k| | | | | | | | | |f0|c] eqn:Ho; try discriminate.
    destruct (OW i Hi) as [n' [Hn' Hh]]. rewrite Hn in Hn'. injection Hn' as <-.
    destruct (evalIndependent_nth g h xs i n k NB Hn Hh Ho LX) as [v' [Hv' EI']]. rewrite EI in EI'. injection EI' as <-.
    assert (VV : valid g2 v) by (apply (proj1 (Forall_forall _ _) VX); eapply nth_error_In; eauto).
    apply crel_le with g2; [exact Hs|]. split; [auto|split].
    + intros env1 env2 sol HS HA u Hu. rewrite (HS i n Hn), Ho in Hu.
      assert (EA : n_args n = []).
      { pose proof (proj1 (Forall_forall _ _) WA n) as HW. cbn in HW. rewrite Ho in HW.
        apply length_zero_iff_nil, HW. eapply nth_error_In; eauto. }
      rewrite EA, Hh in Hu. cbn in Hu. injection Hu as <-. now apply HA.
    + intros h2 F. apply (proj1 (Forall_forall _ _) F). eapply nth_error_In; eauto.
  - rewrite independents_length. auto.
  - exists E', st, log, res. split; [exact EV|]. split; [auto|]. split; [auto|]. split; [auto|].
    split; [auto|]. split; [exact GS|].
    destruct RES as [[ys [-> [F2 [AL HD]]]]|[-> NL]]; [left|right].
    + exists ys. split; [auto|split; [exact F2|split; [auto|]]].
      intros i n f Hi Hn Ho. exact (proj1 (handled_missing (n_op n)) (HD i n Hi Hn) f Ho).
    + split; [auto|]. intros h2 [NM FX]. apply NL. split; [|split].
      * intros i n Hi Hn. apply handled_missing. intros f Ho. eapply NM; eauto.
      * intros i n Hi Hn HI. destruct (n_op n) as [k| | | | | | | | | |f0|c] eqn:Ho; try discriminate.
        destruct (OW i Hi) as [n' [Hn' Hh]]. rewrite Hn in Hn'. injection Hn' as <-.
        destruct (evalIndependent_nth g h xs i n k NB Hn Hh Ho LX) as [v' [_ EI']]. eauto.
      * intros i n s vs Hi Hn HI WS' F2. cbn [t_op cg_target].
        assert (HA : length (n_args n) = arity (n_op n)).
        { pose proof (proj1 (Forall_forall _ _) WA n) as HW. cbn in HW. apply HW. eapply nth_error_In; eauto. }
        destruct (cg_op_stays h2 s (n_op n) vs HI) as [g' [x [-> _]]]; [| | |discriminate].
        { rewrite <- HA. symmetry. eapply Forall2_len; eauto. }
        { clear -F2. induction F2; constructor; auto. eapply carel_valid; eauto. }
        { clear -F2 FX. induction F2; constructor; auto. eapply carel_inh; eauto. }
Qed.
End Run.
End Cg.

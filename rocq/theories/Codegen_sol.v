(** * Node values seen by the generated code; links with the recorded graphs *)
From Coq Require Import List Bool Arith Lia.
From Verif Require Import Graph_model Graph_spec Graph_proofs Codegen_model Codegen_spec Codegen_dfs Codegen_use Codegen_create
  Codegen_order Codegen_reuse Codegen_plan Codegen_emit Codegen_exec.
Import ListNotations.

Section Sol.
Context {B : Type} {O : BaseOps B}.
Variable g : heap B.
Variable indeps : list nat.
Variable deps : list (arg B).
Hypothesis HG : gen_input g indeps deps.
Notation P := (reach g deps).
Notation csolves := (csolves g indeps deps).

Definition cop (sv : arg B -> option B) (i : nat) : option B :=
  match opc g i, gargs g i with
  | GCom c, [x; y; t; f] => if sameArg t f then sv t else ocond c (sv x) (sv y) (sv t) (sv f)
  | o, a => opval (fun _ _ => b0) 0 o (map sv a)
  end.

Lemma cop_ext sv sv' i : (forall a, In a (gargs g i) -> sv a = sv' a) -> cop sv i = cop sv' i.
Proof.
  intros H. unfold cop.
  assert (E : map sv (gargs g i) = map sv' (gargs g i)) by (apply map_ext_in; exact H).
  destruct (opc g i); try (rewrite E; reflexivity).
  destruct (gargs g i) as [|x [|y [|t [|f [|z l]]]]]; try (rewrite E; reflexivity).
  rewrite (H x), (H y), (H t), (H f) by (cbn; auto). reflexivity.
Qed.

Definition idx (l : list nat) (i : nat) : nat :=
  (fix go l p := match l with [] => p | x :: l' => if Nat.eqb x i then p else go l' (S p) end) l 0.
Lemma idx_gen l i : forall p k, NoDup l -> nth_error l k = Some i ->
  (fix go l p := match l with [] => p | x :: l' => if Nat.eqb x i then p else go l' (S p) end) l p = p + k.
Proof.
  induction l as [|x l IH]; intros p k Hn Hk; [destruct k; discriminate|]. apply NoDup_cons_iff in Hn. destruct Hn as [Hx Hn].
  destruct k as [|k]; cbn in Hk.
  - injection Hk as ->. rewrite Nat.eqb_refl. lia.
  - destruct (Nat.eqb_spec x i) as [->|Hne]; [exfalso; apply Hx; eapply nth_error_In, Hk|].
    rewrite (IH (S p) k Hn Hk). lia.
Qed.
Lemma idx_ok k i : nth_error indeps k = Some i -> idx indeps i = k.
Proof. intros H. apply (idx_gen indeps i 0 k (gi_indeps _ _ _ HG) H). Qed.

Variable inp : nat -> option B.

Fixpoint ceval (f : nat) (i : nat) : option B :=
  match f with
  | 0 => None
  | S f => if isInv g i then inp (idx indeps i)
           else cop (fun a => match a with ANode j => ceval f j | APar b => Some b end) i
  end.

Lemma csolves_ex : exists sol, csolves inp sol.
Proof.
  destruct (gi_acyclic _ _ _ HG) as [r Hr].
  assert (Hst : forall k i k', r i < k -> r i < k' -> ceval k i = ceval k' i).
  { induction k as [|k IH]; intros i k' H1 H2; [lia|]. destruct k' as [|k']; [lia|]. cbn [ceval].
    destruct (isInv g i); [reflexivity|]. apply cop_ext. intros [j|b] Ha; [|reflexivity].
    assert (He : edge g i j) by (apply nargs_edge, anodes_in; exact Ha). specialize (Hr _ _ He). apply IH; lia. }
  exists (fun i => ceval (S (r i)) i). constructor.
  - intros p i Hp. cbn [ceval]. rewrite (indep_inv g indeps deps HG i) by (eapply nth_error_In, Hp). rewrite (idx_ok p i Hp). reflexivity.
  - intros i Pi Hi. change (ceval (S (r i)) i = cop (sval (fun i => ceval (S (r i)) i)) i). cbn [ceval]. rewrite Hi.
    apply cop_ext. intros [j|b] Ha; [|reflexivity]. cbn [sval].
    assert (He : edge g i j) by (apply nargs_edge, anodes_in; exact Ha). specialize (Hr _ _ He). exact (Hst (r i) j (S (r j)) ltac:(lia) ltac:(lia)).
Qed.

Lemma cs_cop sol i : csolves inp sol -> P i -> isInv g i = false -> sol i = cop (sval sol) i.
Proof. intros H Pi Hi. exact (cs_op _ _ _ _ _ H i Pi Hi). Qed.

Lemma csolves_unique sol sol' : csolves inp sol -> csolves inp sol' -> forall i, P i -> sol i = sol' i.
Proof.
  intros H H'. destruct (gi_acyclic _ _ _ HG) as [r Hr].
  enough (forall k i, r i < k -> P i -> sol i = sol' i) by (intros i; apply (H0 (S (r i))); lia).
  induction k as [|k IH]; intros i Hk Pi; [lia|]. destruct (isInv g i) eqn:Hi.
  - pose proof (inv_indep g indeps deps HG i Pi Hi) as Hin. apply In_nth_error in Hin. destruct Hin as [p Hp].
    rewrite (cs_x _ _ _ _ _ H p i Hp), (cs_x _ _ _ _ _ H' p i Hp). reflexivity.
  - rewrite (cs_cop sol i H Pi Hi), (cs_cop sol' i H' Pi Hi). apply cop_ext. intros [j|b] Ha; [|reflexivity]. cbn [sval].
    assert (He : edge g i j) by (apply nargs_edge, anodes_in; exact Ha). specialize (Hr _ _ He).
    apply IH; [lia|]. eapply reach_arg; eassumption.
Qed.

(** ** The values of the graph *)
Definition le (a b : option B) : Prop := forall v, a = Some v -> b = Some v.

Lemma opval_mono env h o l l' : Forall2 le l l' -> le (opval env h o l) (opval env h o l').
Proof.
  intros H v. destruct o; destruct H as [|x x' l l' Hx H]; cbn [opval]; auto; try discriminate;
  (destruct H as [|y y' l l' Hy H]; cbn [opval lift1]; auto; try discriminate);
  try (destruct H as [|z z' l l' Hz H]; cbn [opval lift2 odiv]; auto; try discriminate).
  all: try (destruct x; [rewrite (Hx _ eq_refl)|discriminate]; auto; fail).
  all: try (destruct x as [a|]; [rewrite (Hx _ eq_refl)|discriminate]; destruct y as [b|]; [rewrite (Hy _ eq_refl)|discriminate]; auto; fail).
  destruct H as [|w w' l l' Hw H]; cbn [opval]; auto; try discriminate.
  destruct H as [|u u' l l' Hu H]; cbn [opval]; auto; try discriminate.
  unfold ocond. destruct x as [a|]; [rewrite (Hx _ eq_refl)|discriminate]. destruct y as [b|]; [rewrite (Hy _ eq_refl)|discriminate].
  destruct (bcmp c a b); auto.
Qed.

Lemma csolves_ge env sol sol' : branches_ok g deps ->
  solves env g sol -> csolves inp sol' -> (forall p i, nth_error indeps p = Some i -> inp p = sol i) ->
  forall i, P i -> le (sol i) (sol' i).
Proof.
  intros Heq H H' Hin. destruct (gi_acyclic _ _ _ HG) as [r Hr].
  enough (forall k i, r i < k -> P i -> le (sol i) (sol' i)) by (intros i; apply (H0 (S (r i))); lia).
  induction k as [|k IH]; intros i Hk Pi; [lia|].
  assert (Ha : forall a, In a (gargs g i) -> le (sval sol a) (sval sol' a)).
  { intros [j|b] Ha; [|intros v Hv; exact Hv]. cbn [sval].
    assert (He : edge g i j) by (apply nargs_edge, anodes_in; exact Ha). specialize (Hr _ _ He).
    apply IH; [lia|]. eapply reach_arg; eassumption. }
  destruct (isInv g i) eqn:Hi.
  - pose proof (inv_indep g indeps deps HG i Pi Hi) as Hii. apply In_nth_error in Hii. destruct Hii as [p Hp].
    intros v Hv. rewrite (cs_x _ _ _ _ _ H' p i Hp), (Hin p i Hp). exact Hv.
  - destruct (P_node g indeps deps HG i Pi) as [n En]. rewrite (H i n En), (cs_cop sol' i H' Pi Hi). unfold cop.
    assert (Eo : opc g i = n_op n) by (unfold opc; rewrite En; reflexivity).
    assert (Ea : gargs g i = n_args n) by (unfold gargs; rewrite En; reflexivity).
    rewrite Ea in *. rewrite Eo. unfold isInv in Hi. rewrite Eo in Hi.
    assert (Hmap : forall l, (forall a, In a l -> le (sval sol a) (sval sol' a)) -> Forall2 le (map (sval sol) l) (map (sval sol') l)).
    { induction l as [|a l IHl]; intros Hl; [constructor|]. cbn [map]. constructor; [apply Hl; left; reflexivity|].
      apply IHl. intros; apply Hl; right; assumption. }
    assert (G : le (opval env (n_handler n) (n_op n) (map (sval sol) (n_args n))) (opval (fun _ _ => b0) 0 (n_op n) (map (sval sol') (n_args n)))).
    { intros v Hv. rewrite (opval_env (fun _ _ => b0) env 0 (n_handler n)); [revert v Hv; apply opval_mono, Hmap, Ha|].
      intros k' Ek. rewrite Ek in Hi. discriminate. }
    destruct (n_op n) eqn:En_op; try exact G.
    destruct (n_args n) as [|x [|y [|t [|f [|z l]]]]] eqn:Eargs; try exact G.
    destruct (sameArg t f) eqn:Es; [|exact G].
    cbn [map opval]. intros v Hv. unfold ocond in Hv.
    assert (Etf : t = f).
    { destruct t, f; cbn [sameArg] in Es; try discriminate; f_equal; [apply Nat.eqb_eq, Es|exact (Heq i n c x y _ _ Pi En En_op Eargs Es)]. }
    subst f. apply (Ha t); [cbn; auto|].
    destruct (sval sol x) as [u|]; [|discriminate]. destruct (sval sol y) as [w|]; [|discriminate]. destruct (bcmp c u w); exact Hv.
Qed.

(** a vector of dependents with an operation makes the evaluation queue non-empty *)
Lemma queue_nonempty uc vid0 n0 cv j : created g deps uc vid0 n0 cv -> In (ANode j) deps -> (forall k, ~ has_op g j (GInv k)) -> c_q cv <> [].
Proof.
  intros CR Hj Hk E. assert (Hi : isInv g j = false).
  { destruct (isInv g j) eqn:Ei; [|reflexivity]. exfalso. pose proof (opc_has_op g indeps deps HG j (reach_dep _ _ _ Hj)) as Ho.
    unfold isInv in Ei. destruct (opc g j); try discriminate. eapply Hk, Ho. }
  pose proof (cr_dep _ _ _ _ _ _ CR j Hj Hi) as H. rewrite E in H. destruct H.
Qed.
End Sol.

(** the recorded values are the solution of the equations of a graph recorded in order *)
Lemma denote_solves {B} {O : BaseOps B} env (g : heap B) : wf_heap g -> solves env g (denote env g).
Proof.
  intros W i n En. rewrite (denote_unfold env g i n W En). f_equal.
Qed.

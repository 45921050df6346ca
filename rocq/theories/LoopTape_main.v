(** * The model of a loop *)
From Coq Require Import List Arith Bool Lia Sorted Permutation.
From Verif Require Import LoopTape_model LoopTape_spec LoopTape_graph LoopTape_cmp LoopTape_find LoopTape_path LoopTape_loop LoopTape_clone.
Import ListNotations.
Local Open Scope nat_scope.

(** Lists *)
Lemma insertBy_perm {A} (lt : A -> A -> bool) x l : Permutation (insertBy lt x l) (x :: l).
Proof.
  induction l as [|y l IH]; [apply Permutation_refl|]. cbn [insertBy]. destruct (lt y x); [|apply Permutation_refl].
  eapply Permutation_trans; [apply perm_skip, IH|apply perm_swap].
Qed.
Lemma sortBy_perm {A} (lt : A -> A -> bool) l : Permutation (sortBy lt l) l.
Proof. induction l as [|x l IH]; [constructor|]. cbn [sortBy fold_right]. eapply Permutation_trans; [apply insertBy_perm|apply perm_skip, IH]. Qed.
Lemma find_fst {B} (L : list (nat * B)) a b : NoDup (map fst L) -> In (a, b) L -> find (fun e => fst e =? a) L = Some (a, b).
Proof.
  induction L as [|[a' b'] L IH]; intros N I; [destruct I|]. cbn in N. inversion N as [|? ? N1 N2]; subst. cbn [find fst]. destruct I as [I|I].
  - injection I as -> ->. rewrite Nat.eqb_refl. reflexivity.
  - destruct (a' =? a) eqn:E; [|apply IH; assumption]. apply Nat.eqb_eq in E. subst a'. exfalso. apply N1. apply in_map_iff. exists (a, b). auto.
Qed.
Lemma map_fst_combine {A B} (l : list A) (k : list B) : List.length l = List.length k -> map fst (combine l k) = l.
Proof. revert k. induction l as [|x l IH]; intros [|y k] E; try discriminate; [reflexivity|]. cbn. f_equal. apply IH. cbn in E. lia. Qed.
Lemma combine_app {A B} (a a' : list A) (b b' : list B) : List.length a = List.length b -> combine (a ++ a') (b ++ b') = combine a b ++ combine a' b'.
Proof. revert b. induction a as [|x a IH]; intros [|y b] E; try discriminate; [reflexivity|]. cbn. f_equal. apply IH. cbn in E. lia. Qed.
Lemma combine_map2 {A B C} (f : A -> B) (h : A -> C) l : combine (map f l) (map h l) = map (fun e => (f e, h e)) l.
Proof. induction l as [|x l IH]; cbn; [reflexivity|f_equal; exact IH]. Qed.

(** The numbers of the temporaries. *)
Lemma positionOf_ok x l : In x l -> positionOf x l < List.length l /\ nth (positionOf x l) l 0 = x.
Proof.
  induction l as [|y l IH]; intros H; [destruct H|]. cbn [positionOf]. destruct (y =? x) eqn:E.
  - apply Nat.eqb_eq in E. subst. cbn. split; [lia|reflexivity].
  - destruct H as [->|H]; [rewrite Nat.eqb_refl in E; discriminate|]. destruct (IH H) as [L N]. cbn. split; [lia|exact N].
Qed.
Lemma numberTemps_ok : forall ks temps, exists nums more, numberTemps ks temps = (nums, temps ++ more) /\ List.length nums = List.length ks /\
  forall i k, nth_error ks i = Some k -> exists n, nth_error nums i = Some n /\ n < List.length (temps ++ more) /\ nth n (temps ++ more) 0 = k.
Proof.
  induction ks as [|k ks IH]; intros temps; [exists [], []; split; [rewrite app_nil_r; reflexivity|]; split; [reflexivity|]; intros [|i] x H; discriminate|].
  cbn [numberTemps]. set (t1 := if mem k temps then temps else temps ++ [k]).
  assert (T1 : exists m1, t1 = temps ++ m1) by (unfold t1; destruct (mem k temps); [exists []; rewrite app_nil_r; reflexivity|exists [k]; reflexivity]).
  assert (I1 : In k t1) by (unfold t1; destruct (mem k temps) eqn:E; [apply mem_In, E|apply in_or_app; right; left; reflexivity]).
  destruct (IH t1) as [nums [more [E [L H]]]]. rewrite E. cbn [fst snd]. destruct T1 as [m1 T1].
  exists (positionOf k t1 :: nums), (m1 ++ more). rewrite app_assoc, <- T1. split; [reflexivity|]. split; [cbn; lia|]. intros [|i] x Hx.
  - injection Hx as <-. destruct (positionOf_ok k t1 I1) as [A B]. eexists. split; [reflexivity|]. rewrite app_length. split; [lia|]. rewrite app_nth1 by exact A. exact B.
  - apply (H i x Hx).
Qed.

Section Main.
Context {V : Type}.
Variable sem : opc -> list nat -> list V -> V.
Variable dflt : V.
Notation value := (valueOf sem dflt).
Variable g : graph V.
Hypothesis W : recordedGraph g.
Variable deps : list (arg V).
Variable ps : list pattern.
Variable iters : list (list nat).
Variable refs : list nat.
Hypothesis HT : forall p, In p ps -> tableOk g deps p.
Hypothesis Hdis : forall e e' p q d, nth_error ps e = Some p -> nth_error ps e' = Some q -> In d (p_deps p) -> In d (p_deps q) -> e = e'.
Hypothesis Hit : iterations ps iters.
Hypothesis Hag : agreeAll g deps ps iters.
Hypothesis Hrefs : In refs iters.
Hypothesis Href : forall p, In p ps -> In (p_ref p) refs.
Variable m : marks.
Variable l : indexes.
Hypothesis Hcol : collect g deps ps iters refs [] [] = POk (m, l).

Definition paired (it k t : nat) : Prop :=
  exists p d r s u, In p ps /\ In d (p_deps p) /\ nth_error iters it = Some u /\ In d u /\
    nth_error deps (p_ref p) = Some (AN r) /\ nth_error deps d = Some (AN s) /\ below g (r, s) (k, t).

Lemma P0 it k t : paired it k t -> it < List.length iters.
Proof. intros [p [d [r [s [u [_ [_ [E _]]]]]]]]. apply nth_error_Some. rewrite E. discriminate. Qed.
Lemma P1 it k t : paired it k t -> k < List.length g /\ t < List.length g /\ isInv g k = false /\ shapeOf g (AN k) = shapeOf g (AN t).
Proof.
  intros [p [d [r [s [u [Hp [Hd [_ [_ [Er [Es Hb]]]]]]]]]]]. destruct (dep_facts g deps ps HT p d s r Hp Hd Es Er) as [[Ls Is] [[Lr Ir] Sh]].
  destruct (below_lt g r s k t W Lr Ls Ir Hb) as [A [B C]]. split; [exact A|]. split; [exact B|]. split; [exact C|].
  apply (below_shape g r s k t W Lr Ls Ir Sh Hb).
Qed.
Lemma P2 it k t a k' t' : paired it k t -> argAt g k a = Some (AN k') -> argAt g t a = Some (AN t') -> isInv g k' = false -> paired it k' t'.
Proof.
  intros [p [d [r [s [u [Hp [Hd [E [I [Er [Es Hb]]]]]]]]]]] A1 A2 I'. exists p, d, r, s, u. repeat (split; [assumption|]). apply (B_step g _ k t a); assumption.
Qed.
Lemma P3 it k t a j0 j : paired it k t -> argAt g k a = Some (AN j0) -> argAt g t a = Some (AN j) -> isInv g j0 = true -> isInv g j = true ->
  if hasPos l k a then idxAt l k a it = Some j else j = j0.
Proof.
  intros [p [d [r [s [u [Hp [Hd [E [I [Er [Es Hb]]]]]]]]]]] A1 A2 I0 I1.
  assert (Hu : uses g r s k a j) by (exists t; auto).
  destruct (hasPos l k a) eqn:Hl.
  - eapply (tab_idx g W deps ps iters refs HT Hdis Hit Hag Hrefs Href m l Hcol p d r s it u); eassumption.
  - destruct (dep_facts g deps ps HT p d s r Hp Hd Es Er) as [Ds [Dr Sh]].
    apply (tab_const g W deps ps HT p d r s k a j j0 Hp Hd Er Es Hu A1 I0).
    destruct (hasPos (p_idx p) k a) eqn:Hpp; [|reflexivity]. exfalso.
    destruct (uses_ref g W r s k a j Dr Ds Sh Hu) as [_ [_ [_ R]]].
    assert (K : hasPos l k a = true); [|congruence].
    apply (tab_pos g W deps ps iters refs HT Hdis Hit Hag Hrefs Href m l Hcol p k a Hp); [exists r; auto|exact Hpp].
Qed.
Lemma const_value p d r s x : In p ps -> In d (p_deps p) -> nth_error deps (p_ref p) = Some (AN r) -> nth_error deps d = Some (AN s) ->
  forall k t, below g (r, s) (k, t) -> ~ indexed g (p_idx p) k -> value g x (AN t) = value g x (AN k).
Proof.
  intros Hp Hd Er Es. destruct (dep_facts g deps ps HT p d s r Hp Hd Es Er) as [Ds [Dr Sh]]. destruct Ds as [Ls Is]. destruct Dr as [Lr Ir].
  intros k. induction k as [k IH] using lt_wf_ind. intros t Hb Hn.
  destruct (below_lt g r s k t W Lr Ls Ir Hb) as [Lk [Lt Ik]]. pose proof (below_shape g r s k t W Lr Ls Ir Sh Hb) as Sk.
  destruct (nth_error g k) as [nk|] eqn:Ek; [|apply nth_error_None in Ek; lia]. destruct (nth_error g t) as [nt|] eqn:Et; [|apply nth_error_None in Et; lia].
  destruct (shape_node g k t nk nt W Ek Et Ik Sk) as [It [Eo [Ei Em]]].
  rewrite (value_op sem dflt g x k nk W Ek Ik), (value_op sem dflt g x t nt W Et It), Eo, Ei. f_equal.
  apply (args_value sem dflt g k nk g x x (n_args nt) Ek).
  - rewrite <- (map_length (shapeOf g) (n_args nt)), <- Em, map_length. reflexivity.
  - intros i y Hy. assert (At : argAt g t i = Some y) by (unfold argAt; rewrite Et; exact Hy).
    destruct (shape_arg g t k i y W Lt Lk It (eq_sym Sk) At) as [z [Az Sz]]. exists z. assert (Az' := Az). unfold argAt in Az'. rewrite Ek in Az'. split; [exact Az'|].
    destruct z as [v|k'], y as [w|t'].
    + cbn in Sz. assert (v = w) by congruence. subst. reflexivity.
    + exfalso. destruct (argAt_lt g t _ t' W At) as [L1 L2]. destruct (nth_error g t') as [n'|] eqn:E'; [|apply nth_error_None in E'; lia].
      rewrite (shape_eq g t' n' W E') in Sz. destruct (n_op n'); discriminate.
    + exfalso. destruct (argAt_lt g k _ k' W Az) as [L1 L2]. destruct (nth_error g k') as [n'|] eqn:E'; [|apply nth_error_None in E'; lia].
      rewrite (shape_eq g k' n' W E') in Sz. destruct (n_op n'); discriminate.
    + destruct (argAt_lt g k _ k' W Az) as [L1 _]. destruct (argAt_lt g t _ t' W At) as [L2 _]. destruct (isInv g k') eqn:I'.
      * rewrite (shape_inv g k' W I') in Sz. apply shape_TX in Sz; [|exact W|lia].
        assert (t' = k'); [|subst; reflexivity]. apply (tab_const g W deps ps HT p d r s k i t' k' Hp Hd Er Es); auto.
        -- exists t. auto.
        -- destruct (hasPos (p_idx p) k i) eqn:Hh; [|reflexivity]. exfalso. apply Hn. exists k, i, k'. split; [constructor|]. auto.
      * apply (IH k' L1 t'); [apply (B_step g _ k t i); assumption|]. intros [q [b [j [R K]]]]. apply Hn. exists q, b, j. split; [|exact K].
        apply (reach_trans g k k' q); [apply (R_step g k k i); [constructor|exact Az|exact I']|exact R].
Qed.
Lemma P4 it k t x : paired it k t -> marked m k = false -> value g x (AN t) = value g x (AN k).
Proof.
  intros P Hm. pose proof (P1 it k t P) as [_ [_ [Ik _]]]. destruct P as [p [d [r [s [u [Hp [Hd [E [I [Er [Es Hb]]]]]]]]]]].
  apply (const_value p d r s x Hp Hd Er Es k t Hb). intros K. destruct (dep_facts g deps ps HT p d s r Hp Hd Es Er) as [[Ls Is] [[Lr Ir] Sh]].
  assert (G : inG g deps p k) by (exists r; split; [exact Er|exact (below_reach g r s Lr Ls Ir k t Hb)]).
  apply (marked_ok g W deps ps iters refs HT Hdis Hit Hag Hrefs Href m l Hcol p k Hp G Ik) in K. congruence.
Qed.

(** ** The dependents of the tape *)
Notation cinv' := (cinv sem dflt g paired).
Notation cext' := (@cext V).
Notation src' := (src sem dflt g).
Definition outOk (c : clones V) (o : nat * arg V) : Prop :=
  (forall j, snd o = AN j -> j < List.length (c_g c)) /\
  forall it x env u p d a, src' it x c env -> nth_error ps (fst o) = Some p -> In d (p_deps p) -> nth_error iters it = Some u -> In d u ->
    nth_error deps d = Some a -> value (c_g c) env (snd o) = value g x a.
Lemma outOk_ext c c' o : cext' c c' -> outOk c o -> outOk c' o.
Proof.
  intros E [H1 H2]. split; [intros j Hj; pose proof (cext_len c c' E); specialize (H1 j Hj); lia|].
  intros it x env u p d a S. rewrite (value_ext sem dflt c c' env (snd o) E H1). apply H2, (src_ext sem dflt g it x c c' env E S).
Qed.

Lemma cloneDeps_ok : forall rs out c, incl rs refs -> cinv' c -> (forall o, In o out -> outOk c o) ->
  exists out' c', cloneDeps g deps ps m l (List.length iters) rs out c = POk (out', c') /\ cinv' c' /\ (forall o, In o out' -> outOk c' o) /\
    (incl out out') /\ (forall e p, nth_error ps e = Some p -> In (p_ref p) rs -> exists y, In (e, y) out').
Proof.
  induction rs as [|d rs IH]; intros out c Hin C O.
  - exists out, c. split; [reflexivity|]. split; [exact C|]. split; [exact O|]. split; [apply incl_refl|]. intros e p _ [].
  - cbn [cloneDeps]. destruct (ref_dep g deps ps iters refs HT Hit Hrefs Href d (Hin d (or_introl eq_refl))) as [e [p [E [Hp ->]]]].
    pose proof (HT p Hp) as [_ [_ [_ [T4 T5]]]]. rewrite (patternOf_ok ps Hdis e p (p_ref p) E T5).
    destruct (T4 _ T5) as [[a [Ea Da]] _]. rewrite Ea.
    assert (Hn : exists c1 y, (match a with
                  | AC v => cloneDeps g deps ps m l (List.length iters) rs ((e, AC v) :: out) c
                  | AN k => pbind (if isInv g k then POk (cloneNonIndexed k c) else clone (S (List.length g)) g m l (List.length iters) k c) (fun o =>
                            cloneDeps g deps ps m l (List.length iters) rs ((e, AN (fst o)) :: out) (snd o))
                  end = cloneDeps g deps ps m l (List.length iters) rs ((e, y) :: out) c1) /\ cinv' c1 /\ cext' c c1 /\ outOk c1 (e, y)).
    { destruct a as [v|k].
      - exists c, (AC v). split; [reflexivity|]. split; [exact C|]. split; [apply cext_refl|]. split; [discriminate|]. cbn [fst snd].
        intros it x env u p' d a S E' Hd _ _ Ed. rewrite E in E'. injection E' as <-. destruct (T4 d Hd) as [[a' [Ea' Da']] Sh]. rewrite Ed in Ea'. injection Ea' as <-.
        unfold shapeDep in Sh. rewrite Ed, Ea in Sh. cbn [option_map] in Sh. destruct a as [w|k]; [cbn in Sh; assert (w = v) by congruence; subst; reflexivity|].
        exfalso. assert (Sk : shapeOf g (AN k) = shapeOf g (AC v)) by congruence. destruct Da' as [Lk Ik].
        destruct (nth_error g k) as [n|] eqn:En; [|apply nth_error_None in En; lia]. rewrite (shape_op g k n W En Ik) in Sk. discriminate.
      - destruct Da as [Lk Ik]. rewrite Ik. assert (Lf : k < S (List.length g)) by lia.
        destruct (clone_ok sem dflt g W m l (List.length iters) paired P0 P1 P2 P3 P4 (S (List.length g)) k c Lf Lk Ik C) as [kc [c1 [Ec [C1 [X1 [L1 K1]]]]]].
        rewrite Ec. cbn [pbind fst snd]. exists c1, (AN kc). split; [reflexivity|]. split; [exact C1|]. split; [exact X1|].
        split; [cbn [snd]; intros j Hj; injection Hj as <-; exact L1|]. cbn [fst snd]. intros it x env u p' d a S E' Hd Eu Iu Ed. rewrite E in E'. injection E' as <-.
        destruct (dep_op g W deps ps HT p d k Hp Hd Ea) as [s Es]. rewrite Ed in Es. injection Es as ->.
        apply (K1 it x env S s). exists p, d, k, s, u. repeat (split; [assumption|]). constructor. }
    destruct Hn as [c1 [y [Eq [C1 [X1 O1]]]]]. rewrite Eq.
    destruct (IH ((e, y) :: out) c1) as [out' [c' [Ed [C' [O' [I' K']]]]]].
    + intros x Hx. apply Hin. right. exact Hx.
    + exact C1.
    + intros o [<-|Ho]; [exact O1|apply (outOk_ext c c1 o X1), O, Ho].
    + exists out', c'. split; [exact Ed|]. split; [exact C'|]. split; [exact O'|]. split; [intros o Ho; apply I'; right; exact Ho|].
      intros e' q E' [Hq|Hq].
      * pose proof (HT q (nth_error_In _ _ E')) as [_ [_ [_ [_ T5q]]]]. rewrite <- Hq in T5q. rewrite (Hdis e' e q p (p_ref p) E' E T5q T5).
        exists y. apply I'. left. reflexivity.
      * apply (K' e' q E' Hq).
Qed.

(** ** The whole *)
Lemma depIndexes_ok e p d it u : nth_error ps e = Some p -> In d (p_deps p) -> nth_error iters it = Some u -> In d u ->
  nth it (nth e (depIndexes ps iters) []) None = Some d.
Proof.
  intros E Hd Eu Iu. unfold depIndexes. assert (Le : e < List.length ps) by (apply nth_error_Some; rewrite E; discriminate).
  assert (Li : it < List.length iters) by (apply nth_error_Some; rewrite Eu; discriminate).
  set (F := fun e0 => map (fun it0 => find (fun d0 => match patternOf ps d0 with Some e' => e' =? e0 | None => false end) (rev (nth it0 iters []))) (seq 0 (List.length iters))).
  rewrite (nth_indep _ [] (F 0)) by (rewrite map_length, seq_length; exact Le). rewrite (map_nth F), seq_nth by exact Le. unfold F. cbn [Nat.add].
  set (G := fun it0 => find (fun d0 => match patternOf ps d0 with Some e' => e' =? e | None => false end) (rev (nth it0 iters []))).
  rewrite (nth_indep _ None (G 0)) by (rewrite map_length, seq_length; exact Li). rewrite (map_nth G), seq_nth by exact Li. cbn [Nat.add]. unfold G.
  rewrite (nth_error_nth iters it [] Eu). destruct (find _ (rev u)) as [d'|] eqn:Ff.
  - apply find_some in Ff. destruct Ff as [I' Fp]. rewrite <- in_rev in I'. destruct Hit as [_ [_ [H3 H4]]].
    destruct (H3 u d' (nth_error_In _ _ Eu) I') as [q [Hq Hd']]. destruct (In_nth_error ps q Hq) as [e' E']. rewrite (patternOf_ok ps Hdis e' q d' E' Hd') in Fp.
    apply Nat.eqb_eq in Fp. subst e'. rewrite E in E'. injection E' as <-. f_equal.
    apply (H4 u p d' d (nth_error_In _ _ Eu) Hq I' Iu Hd' Hd).
  - exfalso. apply find_none with (x := d) in Ff; [|rewrite <- in_rev; exact Iu]. rewrite (patternOf_ok ps Hdis e p d E Hd), Nat.eqb_refl in Ff. discriminate.
Qed.

Lemma tail_ok temps : exists lm temps' more,
  pbind (cloneDeps g deps ps m l (List.length iters) refs [] (mkC [] 0 [] [] [] [])) (fun o =>
      let '(out, c) := o in
      let is := sortBy (fun a b => Compare_model.indexedIndepLt (indexesOf g (fst (fst a))) (indexesOf g (fst (fst b)))) (c_idx c) in
      let ns := sortBy (fun a b => indexOf g (fst (fst a)) <? indexOf g (fst (fst b))) (c_non c) in
      let o := numberTemps (map fst (c_tmp c)) temps in
      POk (mkLM (c_g c) out (map snd is ++ map snd ns ++ map snd (c_tmp c))
                (map (fun e => indexesOf g (fst (fst e))) is) (map (fun e => indexOf g (fst (fst e))) ns) (fst o)
                (depIndexes ps iters), snd o)) = POk (lm, temps') /\ temps' = temps ++ more /\
  forall x z, (forall k, k < List.length temps' -> z k = value g x (AN (nth k temps' 0))) ->
  forall it u e p d a, nth_error ps e = Some p -> In d (p_deps p) -> nth_error iters it = Some u -> In d u -> nth_error deps d = Some a ->
    nth it (nth e (lm_dep lm) []) None = Some d /\ loopValue sem dflt lm x z it e = value g x a.
Proof.
  assert (C0 : cinv' (mkC [] 0 [] [] [] [])).
  { constructor; cbn.
    - intros [|k] n j H; discriminate.
    - intros o k i [].
    - intros o k i [].
    - intros i [].
    - constructor.
    - intros k kc []. }
  destruct (cloneDeps_ok refs [] _ (incl_refl _) C0) as [out [c [E [C [O [_ K]]]]]]. { intros o []. }
  rewrite E. cbn [pbind].
  set (is := sortBy (fun a b => Compare_model.indexedIndepLt (indexesOf g (fst (fst a))) (indexesOf g (fst (fst b)))) (c_idx c)).
  set (ns := sortBy (fun a b => indexOf g (fst (fst a)) <? indexOf g (fst (fst b))) (c_non c)).
  assert (Pi : Permutation is (c_idx c)) by apply sortBy_perm. assert (Pn : Permutation ns (c_non c)) by apply sortBy_perm.
  destruct (numberTemps_ok (map fst (c_tmp c)) temps) as [nums [more [En [Ln Kn]]]]. rewrite En. cbn [fst snd].
  eexists. exists (temps ++ more), more. split; [reflexivity|]. split; [reflexivity|].
  intros x z Hz it u e p d a Ee Hd Eu Iu Ed. split; [apply (depIndexes_ok e p d it u); assumption|].
  unfold loopValue. cbn [lm_deps lm_g]. destruct (find (fun o => fst o =? e) out) as [[e' y]|] eqn:Ff.
  2: { exfalso. destruct (K e p Ee (Href p (nth_error_In _ _ Ee))) as [y Iy]. apply find_none with (x := (e, y)) in Ff; [|exact Iy]. cbn in Ff. rewrite Nat.eqb_refl in Ff. discriminate. }
  apply find_some in Ff. destruct Ff as [Iy Fe]. cbn in Fe. apply Nat.eqb_eq in Fe. subst e'. cbn [snd].
  destruct (O (e, y) Iy) as [_ Ov]. cbn [fst snd] in Ov. apply (Ov it x _ u p d a); try assumption.
  (* the inputs *)
  set (lm := mkLM (c_g c) out _ _ _ nums (depIndexes ps iters)). set (ins := loopInputs dflt lm x z it).
  set (I1 := map (fun e => (snd e, match nth it (indexesOf g (fst (fst e))) None with Some j => x j | None => dflt end)) is).
  set (I2 := map (fun e => (snd e, x (indexOf g (fst (fst e))))) ns).
  assert (Eq : combine (lm_local lm) ins = I1 ++ I2 ++ combine (map snd (c_tmp c)) (map z nums)).
  { unfold ins, loopInputs. cbn [lm lm_local lm_indexed lm_non lm_tmp]. rewrite !map_map.
    rewrite combine_app by (rewrite !map_length; reflexivity). rewrite combine_app by (rewrite !map_length; reflexivity). rewrite !combine_map2. reflexivity. }
  assert (Lc : List.length (lm_local lm) = List.length ins).
  { unfold ins, loopInputs. cbn [lm lm_local lm_indexed lm_non lm_tmp]. rewrite !app_length, !map_length. rewrite Ln, map_length. reflexivity. }
  assert (Nd : NoDup (map fst (combine (lm_local lm) ins))).
  { rewrite map_fst_combine by exact Lc. cbn [lm lm_local]. eapply Permutation_NoDup; [|apply (ci_nd _ _ _ _ c C)]. apply Permutation_sym.
    apply Permutation_app; [apply Permutation_map, Pi|]. apply Permutation_app_tail, Permutation_map, Pn. }
  assert (Look : forall i v, In (i, v) (combine (lm_local lm) ins) -> localEnv dflt lm ins i = v).
  { intros i v Hv. unfold localEnv. rewrite (find_fst _ i v Nd Hv). reflexivity. }
  split; [|split].
  - intros o k i Hi. apply Look. rewrite Eq. apply in_or_app. left. apply in_map_iff. exists (o, k, i). split.
    + cbn [fst snd]. f_equal. unfold indexesOf. change None with (option_map (indexOf g) (@None nat)) at 1. rewrite map_nth.
      destruct (nth it o None); reflexivity.
    + apply (Permutation_in _ (Permutation_sym Pi) Hi).
  - intros j k i Hi. apply Look. rewrite Eq. apply in_or_app. right. apply in_or_app. left. apply in_map_iff. exists (j, k, i). split; [reflexivity|].
    apply (Permutation_in _ (Permutation_sym Pn) Hi).
  - intros k i Hi. apply Look. rewrite Eq. apply in_or_app. right. apply in_or_app. right.
    apply In_nth_error in Hi. destruct Hi as [q Hq]. pose proof (map_nth_error fst _ _ Hq) as Hf. cbn in Hf. destruct (Kn q k Hf) as [n [Hn [Lnn Nn]]].
    apply nth_error_In with (n := q).
    assert (Cn : forall (A : list nat) (B : list V) q a b, nth_error A q = Some a -> nth_error B q = Some b -> nth_error (combine A B) q = Some (a, b)).
    { clear. induction A as [|a0 A IH]; intros B [|q] a b HA HB; try discriminate; destruct B as [|b0 B]; try discriminate.
      - cbn in *. congruence.
      - cbn in *. apply IH; assumption. }
    apply Cn; [apply (map_nth_error snd _ _ Hq)|]. rewrite (map_nth_error z _ _ Hn). f_equal. rewrite (Hz n Lnn), Nn. reflexivity.
Qed.
End Main.

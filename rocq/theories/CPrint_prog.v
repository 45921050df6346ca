(** * Proofs for CPrint: statements and whole function bodies *)
From Coq Require Import List Bool Arith Lia String.
From Verif Require Import Graph_model Graph_spec Codegen_model Codegen_spec Codegen_dfs Codegen_exec CSyntax CSyntax_proofs CText CPrint_model CPrint_spec
  Stream_model Stream_spec Stream_thm CPrint_expr.
Import ListNotations.
Local Open Scope list_scope.
Local Open Scope nat_scope.

(** ** The reading of statements is unique *)
Section Unique.
Context {B : Type}.
Lemma map_PT_split (t t' : list (tok (catom B))) x x' r r' : (forall y, x <> PT y) -> (forall y, x' <> PT y) ->
  map PT t ++ x :: r = map PT t' ++ x' :: r' -> t = t' /\ x = x' /\ r = r'.
Proof.
  intros Hx Hx'. revert t'. induction t as [|a t IH]; intros [|a' t']; cbn [map app]; intros E.
  - injection E as -> ->. auto.
  - injection E as E1 E2. exfalso. eapply Hx, E1.
  - injection E as E1 E2. exfalso. eapply Hx'. symmetry; exact E1.
  - injection E as -> E. destruct (IH t' E) as (-> & -> & ->). auto.
Qed.
Lemma map_PT_split' (t t' : list (tok (catom B))) x x' r r' : (forall y, x <> PT y) -> (forall y, x' <> PT y) ->
  map PT t ++ PT TRP :: x :: r = map PT t' ++ PT TRP :: x' :: r' -> t = t' /\ x = x' /\ r = r'.
Proof.
  intros Hx Hx' E. assert (E' : map PT (t ++ [TRP]) ++ x :: r = map PT (t' ++ [TRP]) ++ x' :: r')
    by (rewrite !map_app; cbn [map]; rewrite <- !app_assoc; exact E).
  apply map_PT_split in E'; auto. destruct E' as (E1 & -> & ->). apply app_inj_tail in E1. destruct E1 as [-> _]. auto.
Qed.
Lemma reads1_prefix (t : list (ptok B)) s : reads1 t s -> forall t' s' r r', reads1 t' s' -> t ++ r = t' ++ r' -> t = t' /\ s = s' /\ r = r'.
Proof.
  induction 1 as [l a t e H|t c b1 s1 b2 s2 Hc H1 IH1 H2 IH2|n]; intros t' s' r r' H' E;
    inversion H' as [l' a' u e' He|u c' b1' s1' b2' s2' Hc' H1' H2'|n']; subst; cbn [app] in E; try discriminate.
  - injection E as -> E1 E2. rewrite <- !app_assoc in E2. apply map_PT_split in E2; [|discriminate|discriminate]. destruct E2 as (-> & _ & ->).
    rewrite (c_reads_unique _ _ _ H He). assert (a = a') as -> by (destruct a, a'; try reflexivity; discriminate). auto.
  - injection E as E. rewrite <- !app_assoc in E. cbn [app] in E. apply map_PT_split' in E; [|discriminate|discriminate]. destruct E as (-> & _ & E).
    rewrite <- !app_assoc in E. destruct (IH1 _ _ _ _ H1' E) as (-> & -> & E'). cbn [app] in E'. injection E' as E'.
    rewrite <- !app_assoc in E'. destruct (IH2 _ _ _ _ H2' E') as (-> & -> & E''). cbn [app] in E''. injection E'' as ->.
    rewrite (c_reads_unique _ _ _ Hc Hc'). auto.
  - injection E as -> ->. auto.
Qed.
Lemma reads1_nonempty (t : list (ptok B)) s : reads1 t s -> t <> [].
Proof. intros H. inversion H; discriminate. Qed.
Lemma reads_unique (t : list (ptok B)) p p' : reads t p -> reads t p' -> p = p'.
Proof.
  intros H. revert p'. induction H as [|t s ts p H1 H2 IH]; intros p' H'.
  - inversion H' as [|t s ts p H1 H2 E]; [reflexivity|]. subst. apply app_eq_nil in E. destruct E as [E _]. exfalso. eapply reads1_nonempty; eassumption.
  - inversion H' as [E|t' s' ts' q H1' H2' E].
    + symmetry in E. apply app_eq_nil in E. destruct E as [E _]. exfalso. eapply reads1_nonempty; [exact H1|exact E].
    + destruct (reads1_prefix _ _ H1 _ _ _ _ H1' (eq_sym E)) as (-> & -> & ->). f_equal. apply IH, H2'.
Qed.
End Unique.

Section Proofs.
Context {B : Type} {O : BaseOps B} {PO : PrintOps B}.
Variable libm : string -> option cfun.
Variable fname : ufun -> string.
Hypothesis HF : names_functions libm fname.
Hypothesis HSign : SignLaws B.
Notation ceval := (ceval libm).
Notation cexec1 := (cexec1 libm).
Notation cexec := (cexec libm).

Definition meq (m m' : @mem B) : Prop := forall l, m l = m' l.
Lemma xval_meq m m' e : meq m m' -> xval m e = xval m' e.
Proof. intros H. apply xval_ext. intros l _. apply H. Qed.

(** a text which ends with a token that cannot fuse with what follows, reads as one statement, and does what [s] does *)
Definition stext (t : list (ptok B)) (s : stmt B) : Prop :=
  separated t = true /\ (exists t' x, t = t' ++ [x] /\ neutral x) /\
  exists cs, reads1 (strip t) cs /\ forall m m', meq m m' -> meq (cexec1 m cs) (exec1 m' s).

Lemma assign_meq m m' l a v v' : meq m m' -> v = v' -> meq (assign m l a v) (assign m' l a v').
Proof.
  intros H -> l'. unfold assign, setm. destruct (loc_eqb l' l); [|apply H]. destruct a; [reflexivity|]. rewrite H. reflexivity.
Qed.

(** "l op e;" *)
Definition assignText (l : loc) (a : aop) (t : list (ptok B)) : list (ptok B) := [tLoc l; PB; aopTok a; PB] ++ t ++ [PSemi].
Lemma strip_assign l a t k : strip t = map PT k -> strip (assignText l a t) = PT (TAtom (ALoc l)) :: aopTok a :: map PT k ++ [PSemi].
Proof.
  intros E. unfold assignText. destruct a; cbn [app strip filter blank negb aopTok tLoc];
  fold (strip (t ++ [PSemi])); rewrite strip_app, E; reflexivity.
Qed.
Lemma separated_assign l a t : separated t = true -> separated (assignText l a t) = true.
Proof.
  intros H. unfold assignText. apply (separated_app [tLoc l]); [reflexivity|split; reflexivity|].
  apply (separated_app [aopTok a]); [destruct a; reflexivity|split; reflexivity|]. apply separated_app; [exact H|split; reflexivity|reflexivity].
Qed.
Lemma assign_stext l a t e : good libm 0 t e -> stext (assignText l a t) (SAssign l a e).
Proof.
  intros (c & [S1 (k & E & HG)] & V). split; [apply separated_assign, S1|]. split.
  - exists ([tLoc l; PB; aopTok a; PB] ++ t), PSemi. split; [unfold assignText; rewrite app_assoc; reflexivity|split; reflexivity].
  - exists (CAssign l a c). split.
    + rewrite (strip_assign _ _ _ _ E). constructor. exact HG.
    + intros m m' Hm. cbn [CText.cexec1 exec1]. apply assign_meq; [exact Hm|]. rewrite (V m). apply xval_meq, Hm.
Qed.

(** "if( x c y ) { l op t; } else { l op f; }" *)
Definition ifText (c : cmp) (x y : list (ptok B)) (l : loc) (a : aop) (t f : list (ptok B)) : list (ptok B) :=
  [PIf; PT TLP; PB] ++ x ++ [PB; tOp (cmpTok c); PB] ++ y ++ [PB; PT TRP; PB; PLBrace; PB] ++ assignText l a t ++
  [PB; PRBrace; PB; PElse; PB; PLBrace; PB] ++ assignText l a f ++ [PB; PRBrace].
Lemma cmpOf_tok c : cmpOf (cmpTok c) = Some c. Proof. destruct c; reflexivity. Qed.
Lemma lv_cmp c : lv (cmpTok c) <= 4. Proof. destruct c; cbn; lia. Qed.

Lemma if_stext c x y l a t f ex ey et ef : good libm 5 x ex -> good libm 5 y ey -> good libm 0 t et -> good libm 0 f ef ->
  stext (ifText c x y l a t f) (SCond c ex ey l a et ef).
Proof.
  intros (ax & [Sx (kx & Ex & Gx)] & Vx) (ay & [Sy (ky & Ey & Gy)] & Vy) (at' & [St (kt & Et & Gt')] & Vt) (af & [Sf (kf & Ef & Gf)] & Vf).
  pose proof (lv_cmp c) as Hl.
  split; [|split].
  - unfold ifText. apply (separated_app [PIf]); [reflexivity|split; reflexivity|]. apply separated_cons; [split; reflexivity|].
    apply separated_app; [exact Sx|split; reflexivity|]. apply (separated_app [tOp (cmpTok c)]); [reflexivity|split; reflexivity|].
    apply separated_app; [exact Sy|split; reflexivity|]. do 4 (apply separated_cons; [split; reflexivity|]).
    apply separated_app; [apply separated_assign, St|split; reflexivity|]. do 2 (apply separated_cons; [split; reflexivity|]).
    apply (separated_app [PElse]); [reflexivity|split; reflexivity|]. do 2 (apply separated_cons; [split; reflexivity|]).
    apply separated_app; [apply separated_assign, Sf|split; reflexivity|reflexivity].
  - unfold ifText. eexists (_ ++ [PB]), PRBrace. split; [|split; reflexivity]. rewrite <- app_assoc. cbn [app].
    repeat rewrite app_comm_cons. repeat rewrite app_assoc. reflexivity.
  - exists (CIf (EBin (cmpTok c) ax ay) (CAssign l a at') (CAssign l a af)). split.
    + unfold ifText. rewrite !strip_app, Ex, Ey. rewrite (strip_assign _ _ _ _ Et), (strip_assign _ _ _ _ Ef).
      cbn [strip filter blank negb tOp]. unfold tOp. cbn [app].
      replace (map PT kx ++ PT (TOp (cmpTok c)) :: map PT ky ++ PT TRP :: PLBrace :: PT (TAtom (ALoc l)) :: aopTok a :: (map PT kt ++ [PSemi]) ++
          PRBrace :: PElse :: PLBrace :: PT (TAtom (ALoc l)) :: aopTok a :: (map PT kf ++ [PSemi]) ++ [PRBrace])
        with (map PT (kx ++ TOp (cmpTok c) :: ky) ++ PT TRP :: PLBrace :: (PT (TAtom (ALoc l)) :: aopTok a :: map PT kt ++ [PSemi]) ++
          PRBrace :: PElse :: PLBrace :: (PT (TAtom (ALoc l)) :: aopTok a :: map PT kf ++ [PSemi]) ++ [PRBrace]).
      * apply R_if; [|constructor; assumption|constructor; assumption].
        apply (G_ups 0 (lv (cmpTok c))); [lia|]. apply G_bin; [eapply G_ups; [|exact Gx]; lia|eapply G_ups; [|exact Gy]; lia].
      * rewrite map_app. cbn [map]. rewrite <- app_assoc. reflexivity.
    + intros m m' Hm. cbn [CText.cexec1 exec1 ctest cwrites]. rewrite cmpOf_tok, (Vx m), (Vy m), (xval_meq m m' ex Hm), (xval_meq m m' ey Hm).
      destruct (xval m' ex) as [u|]; [destruct (xval m' ey) as [v|]|].
      * destruct (bcmp c u v); (apply assign_meq; [exact Hm|]); [rewrite (Vt m)|rewrite (Vf m)]; apply xval_meq, Hm.
      * intros l'. cbn [app existsb]. unfold setm. rewrite Hm. destruct (loc_eqb l' l); reflexivity.
      * intros l'. cbn [app existsb]. unfold setm. rewrite Hm. destruct (loc_eqb l' l); reflexivity.
Qed.

Definition assoc_stmt (s : stmt B) : Prop := AssocLaws B \/ left_associated_stmt s = true.

Section Node.
Variable g : heap B.
Variable o : options.
Variable indeps : list nat.
Variable deps : list (arg B).
Variable pl : plan.
Variable nm : nat -> option loc.
Variable F : nat.
Hypothesis HXC : exact_constants g deps.
Notation varName := (varName g indeps deps pl nm).
Notation exprOf := (exprOf g indeps deps pl nm).
Notation argExpr := (argExpr g indeps deps pl nm).
Notation stmtOf := (stmtOf g o indeps deps pl nm).
Notation push := (push g indeps deps pl nm).
Notation pieces := (pieces fname g o indeps deps pl nm F).
Notation expands := (expands pieces).
Notation expands_all := (expands_all pieces).
Notation printAssignment := (printAssignment fname g o indeps deps pl nm F).

Lemma X0 : exact b0 /\ exact b1 /\ exact (bneg b1).
Proof. destruct HXC. auto. Qed.
Lemma XA : forall i b, In (APar b) (gargs g i) -> exact b /\ exact (bneg b).
Proof. intros i b H. unfold gargs in H. destruct (nth_error g i) as [n|] eqn:E; [|destruct H]. exact (xc_args _ _ HXC i n b E H). Qed.

Lemma print_arg i a e : In a (gargs g i) -> argExpr F a = Done e -> assoc_ok e -> prints libm fname g o indeps deps pl nm F a e.
Proof.
  intros Hi E Ha. eapply push_prints; [exact XA| |exact Hi|exact E|exact Ha].
  apply (print_expr libm fname HF HSign g o indeps deps pl nm F X0 XA F (le_n _)).
Qed.

Lemma lev5 (e : cx B) : 5 <= lev e. Proof. destruct e as [| |[]]; cbn; lia. Qed.

Lemma stmt_print i s : stmtOf F i = Done s -> assoc_stmt s ->
  exists R t, (forall r, R <= r -> printAssignment r i = Done t) /\ stext t s.
Proof.
  intros E Ha. unfold Codegen_model.stmtOf in E. destruct (varName i) as [l|] eqn:El; [|discriminate]. cbv zeta in E.
  destruct (isCom g i) eqn:Ec.
  - unfold isCom in Ec. destruct (opc g i) eqn:Eo; try discriminate. clear Ec.
    assert (Hdone : forall t, expands i t -> exists R, forall r, R <= r -> printAssignment r i = Done t).
    { intros t Ht. destruct (C11_every_expression_is_written _ _ _ _ _ Ht) as [R HR]. exists R. intros r Hr.
      unfold CPrint_model.printAssignment. rewrite El. cbv zeta. unfold isCom. rewrite Eo, (HR r [] Hr). reflexivity. }
    destruct (gargs g i) as [|x [|y [|t [|f [|]]]]] eqn:Ea; try discriminate E;
      try (destruct F; [discriminate|]; cbn [Codegen_model.exprOf] in E; rewrite Eo in E; discriminate E).
    destruct (sameArg t f) eqn:Es.
    + apply obind_done' in E. destruct E as (e & Ee & [= <-]).
      destruct (print_arg i t e) as (lt & tt & Elt & Htt & Hgt); [rewrite Ea; right; right; left; reflexivity|exact Ee| |].
      { destruct Ha as [H|H]; [left; exact H|right; exact H]. }
      set (a := if isDependent indeps pl i then o_aop o else ASet) in *.
      assert (Hx : expands i (assignText l a tt)).
      { apply expands_node with (l := txt (startText o indeps pl i l) ++ lt ++ txt endText).
        - unfold CPrint_model.pieces. rewrite Eo, Ea, El, Es, Elt. reflexivity.
        - apply (expands_all_app pieces _ _ (startText o indeps pl i l)); [apply expands_txt|]. apply expands_all_app; [exact Htt|apply expands_txt]. }
      destruct (Hdone _ Hx) as [R HR]. exists R, (assignText l a tt). split; [exact HR|]. apply assign_stext. eapply good_ups; [|exact Hgt]. lia.
    + apply obind_done' in E. destruct E as (ex & Eex & E). apply obind_done' in E. destruct E as (ey & Eey & E).
      apply obind_done' in E. destruct E as (et & Eet & E). apply obind_done' in E. destruct E as (ef & Eef & [= <-]).
      assert (Hall : assoc_ok ex /\ assoc_ok ey /\ assoc_ok et /\ assoc_ok ef).
      { destruct Ha as [H|H]; [repeat split; left; exact H|]. cbn [left_associated_stmt] in H. rewrite !andb_true_iff in H.
        destruct H as [[[H1 H2] H3] H4]. repeat split; right; assumption. }
      destruct Hall as (A1 & A2 & A3 & A4).
      destruct (print_arg i x ex) as (lx & tx & Elx & Htx & Hgx); [rewrite Ea; left; reflexivity|exact Eex|exact A1|].
      destruct (print_arg i y ey) as (ly & ty & Ely & Hty & Hgy); [rewrite Ea; right; left; reflexivity|exact Eey|exact A2|].
      destruct (print_arg i t et) as (lt & tt & Elt & Htt & Hgt); [rewrite Ea; right; right; left; reflexivity|exact Eet|exact A3|].
      destruct (print_arg i f ef) as (lf & tf & Elf & Htf & Hgf); [rewrite Ea; right; right; right; left; reflexivity|exact Eef|exact A4|].
      set (a := if isDependent indeps pl i then o_aop o else ASet) in *.
      assert (Hx : expands i (ifText c tx ty l a tt tf)).
      { eapply expands_node.
        - unfold CPrint_model.pieces. rewrite Eo, Ea, El, Es, Elx. cbn [obind]. rewrite Ely. cbn [obind]. rewrite Elt. cbn [obind]. rewrite Elf. reflexivity.
        - unfold ifText, assignText. change [@tLoc B l; PB; aopTok a; PB] with (@startText B o indeps pl i l).
          repeat (rewrite <- app_assoc). 
          repeat (first [apply expands_all_app; [first [apply expands_txt|assumption]|]]). apply expands_txt. }
      destruct (Hdone _ Hx) as [R HR]. exists R, (ifText c tx ty l a tt tf). split; [exact HR|].
      apply if_stext; (eapply good_ups; [|eassumption]); try lia; apply lev5.
  - assert (E' : obind (exprOf F i) (fun e => Done (SAssign l (if isDependent indeps pl i then o_aop o else ASet) e)) = Done s).
    { unfold isCom in Ec. destruct (opc g i); try discriminate; exact E. }
    apply obind_done' in E'. destruct E' as (e & Ee & [= <-]).
    destruct (print_expr libm fname HF HSign g o indeps deps pl nm F X0 XA F (le_n _) i e Ee) as (t & Ht & Hg).
    { destruct Ha as [H|H]; [left; exact H|right; exact H]. }
    destruct (C11_every_expression_is_written _ _ _ _ _ Ht) as [R HR]. exists R. eexists. split.
    + intros r Hr. unfold CPrint_model.printAssignment. rewrite El. cbv zeta. rewrite Ec, (HR r _ Hr). cbn [obind]. reflexivity.
    + cbn [flush sendAll fold_left send txt map endText ls_it ls_out ls_cache]. rewrite <- app_assoc.
      apply assign_stext. eapply good_ups; [|exact Hg]. lia.
Qed.

(** lists of statements *)
Definition ptext (ts : list (list (ptok B))) (p : list (stmt B)) : Prop := Forall2 stext ts p.

Lemma omap_print l : forall p, omap (stmtOf F) l = Done p -> (forall s, In s p -> assoc_stmt s) ->
  exists R ts, (forall r, R <= r -> omap (printAssignment r) l = Done ts) /\ ptext ts p.
Proof.
  induction l as [|i l IH]; intros p E Ha; cbn [omap] in E.
  - injection E as <-. exists 0, []. split; [reflexivity|constructor].
  - apply obind_done' in E. destruct E as (s & Es & E). apply obind_done' in E. destruct E as (p' & Ep & [= <-]).
    destruct (stmt_print i s Es) as (R1 & t & H1 & H2); [apply Ha; left; reflexivity|].
    destruct (IH p' Ep) as (R2 & ts & H3 & H4); [intros s' Hs; apply Ha; right; exact Hs|].
    exists (R1 + R2), (t :: ts). split; [|constructor; assumption]. intros r Hr. cbn [omap]. rewrite H1 by lia. cbn [obind]. rewrite H3 by lia. reflexivity.
Qed.

Lemma loc_good n l : n <= 8 -> good libm n [tLoc l] (XLoc l).
Proof. intros H. exists (EAtom (ALoc l)). split; [eapply Rd_ups; [exact H|apply Rd_loc]|intros m; reflexivity]. Qed.
Lemma param_good b : exact b -> good libm 0 (param b) (XPar b).
Proof. intros H. destruct (Rd_param libm b H) as (a & Ha & Hv). exists a. split; [eapply Rd_ups; [|exact Ha]; lia|exact Hv]. Qed.

Lemma dup_print : forall l i p, duplicates g o deps pl nm l i = Done p ->
  exists ts, dupTexts g o deps pl nm l i = Done ts /\ ptext ts p.
Proof.
  induction l as [|a l IH]; intros i p E; cbn [duplicates dupTexts] in *.
  - injection E as <-. exists []. split; [reflexivity|constructor].
  - destruct a as [j|b]; [|apply IH, E]. apply obind_done' in E. destruct E as (r & Er & E). destruct (IH _ _ Er) as (ts & Ets & Hts).
    rewrite Ets. cbn [obind]. destruct (_ && _).
    + destruct (nm j) as [n|]; [|discriminate]. injection E as <-. eexists. split; [reflexivity|]. constructor; [|exact Hts].
      exact (assign_stext (LY i) (o_aop o) [tLoc n] (XLoc n) (loc_good 0 n ltac:(lia))).
    + injection E as <-. eexists. split; [reflexivity|exact Hts].
Qed.
Lemma cst_print : forall l i p, (forall b, In (APar b) l -> exact b) -> constants g o nm l i = Done p ->
  exists ts, cstTexts g o nm l i = Done ts /\ ptext ts p.
Proof.
  induction l as [|a l IH]; intros i p HX E; cbn [constants cstTexts] in *.
  - injection E as <-. exists []. split; [reflexivity|constructor].
  - assert (HX' : forall b, In (APar b) l -> exact b) by (intros b Hb; apply HX; right; exact Hb).
    destruct a as [j|b]; (apply obind_done' in E; destruct E as (r & Er & E); destruct (IH _ _ HX' Er) as (ts & Ets & Hts); rewrite Ets; cbn [obind]).
    + destruct (isInv g j).
      * destruct (nm j) as [n|]; [|discriminate]. injection E as <-. eexists. split; [reflexivity|]. constructor; [|exact Hts].
        exact (assign_stext (LY i) (o_aop o) [tLoc n] (XLoc n) (loc_good 0 n ltac:(lia))).
      * injection E as <-. eexists. split; [reflexivity|exact Hts].
    + destruct (_ || _).
      * injection E as <-. eexists. split; [reflexivity|]. constructor; [|exact Hts].
        exact (assign_stext (LY i) (o_aop o) (param b) (XPar b) (param_good b (HX b (or_introl eq_refl)))).
      * injection E as <-. eexists. split; [reflexivity|exact Hts].
Qed.

Lemma in_seq_y n l : existsb (loc_eqb l) (map LY (seq 0 n)) = match l with LY i => Nat.ltb i n | _ => false end.
Proof.
  assert (G : forall k, existsb (loc_eqb l) (map LY (seq k n)) = match l with LY i => Nat.leb k i && Nat.ltb i (k + n) | _ => false end).
  { induction n as [|n IH]; intros k; cbn [seq map existsb].
    - destruct l as [p|i|v]; try reflexivity. symmetry. apply andb_false_iff. destruct (Nat.leb k i) eqn:E; [|left; reflexivity].
      right. apply Nat.leb_le in E. apply Nat.ltb_ge. lia.
    - rewrite IH. destruct l as [p|i|v]; cbn [loc_eqb]; try reflexivity. apply eq_true_iff_eq.
      rewrite orb_true_iff, !andb_true_iff, Nat.eqb_eq, !Nat.leb_le, !Nat.ltb_lt. lia. }
  rewrite G. destruct l; reflexivity.
Qed.
Lemma zero_stext n : stext [PZero n] (SZero n).
Proof.
  split; [reflexivity|]. split; [exists [], (PZero n); split; [reflexivity|split; reflexivity]|]. exists (CZero n). split; [constructor|].
  intros m m' Hm l. cbn [CText.cexec1 exec1]. rewrite in_seq_y. destruct l; try apply Hm. destruct (Nat.ltb i n); [reflexivity|apply Hm].
Qed.

Lemma body_print p : source g o indeps deps pl nm F = Done p -> (forall s, In s p -> assoc_stmt s) ->
  exists R ts, (forall r, R <= r -> bodyTexts fname g o indeps deps pl nm F r = Done ts) /\ ptext ts p.
Proof.
  intros E Ha. unfold source in E. apply obind_done' in E. destruct E as (body & Eb & E). apply obind_done' in E. destruct E as (dup & Ed & E).
  apply obind_done' in E. destruct E as (cst & Ec & [= <-]).
  destruct (omap_print _ _ Eb) as (R & tb & HR & Hb). { intros s Hs. apply Ha. rewrite !in_app_iff. auto. }
  destruct (dup_print _ _ _ Ed) as (td & Etd & Hd). destruct (cst_print _ _ _ (xc_deps _ _ HXC) Ec) as (tc & Etc & Hc).
  exists R. eexists. split.
  - intros r Hr. unfold bodyTexts. rewrite (HR r Hr). cbn [obind]. rewrite Etd. cbn [obind]. rewrite Etc. reflexivity.
  - apply Forall2_app; [|apply Forall2_app; [exact Hb|apply Forall2_app; assumption]].
    destruct (p_vo pl); [constructor|]. destruct (o_zeroDeps o); [|constructor]. constructor; [apply zero_stext|constructor].
Qed.
End Node.

Lemma ptext_reads ts p : ptext ts p -> exists cp, text_of (List.concat ts) cp /\ forall m m', meq m m' -> meq (cexec m cp) (exec m' p).
Proof.
  induction 1 as [|t s ts p (S1 & (t' & x & Et & Nx) & cs & Hr & Hx) _ (cp & [S2 Hr2] & Hx2)].
  - exists []. split; [split; [reflexivity|constructor]|]. intros m m' H. exact H.
  - exists (cs :: cp). split.
    + split; [|cbn [List.concat]; rewrite strip_app; constructor; assumption]. cbn [List.concat]. subst t.
      rewrite <- app_assoc. cbn [app]. apply separated_app; [|exact Nx|exact S2].
      clear - S1. induction t' as [|a t' IH]; [reflexivity|]. destruct t' as [|b t']; [reflexivity|]. cbn [app] in *. rewrite separated_cons2 in *.
      apply andb_true_iff in S1. destruct S1 as [-> S1]. apply IH, S1.
    + intros m m' Hm. cbn [CText.cexec exec fold_left]. apply Hx2. apply Hx. exact Hm.
Qed.
End Proofs.

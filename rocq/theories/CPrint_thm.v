(** * C08, C09: the C text of the generated assignments *)
From Coq Require Import List Bool Arith Lia String QArith Qcanon ZArith SpecFloat.
From Verif Require Import Graph_model Graph_spec Graph_Qc Graph_Double CGArith_model CGArith_spec CGArith_proofs CGArith_thm Codegen_model Codegen_spec
  Codegen_link Codegen_thm CSyntax CSyntax_proofs CText CPrint_model CPrint_spec CPrint_expr CPrint_prog.
Import ListNotations.
Local Open Scope list_scope.
Local Open Scope nat_scope.

(** ** C08 *)

(** The text has at most one reading. *)
Theorem C08_a_text_has_one_reading :
  forall (B : Type) (t : list (ptok B)) (p p' : list (cstmt B)), text_of t p -> text_of t p' -> p = p'.
Proof. intros B t p p' [_ H] [_ H']. exact (reads_unique _ _ _ H H'). Qed.
Print Assumptions C08_a_text_has_one_reading.

(** The names printed for the mathematical functions are those of the functions. *)
Theorem C08_function_names_are_right :
  names_functions libm_double fname_double /\ names_functions libm_float fname_float.
Proof. split; split; try reflexivity; intros []; reflexivity. Qed.
Print Assumptions C08_function_names_are_right.

(** The text of a generated function body is a sequence of C statements which, read with the grammar of C (precedences,
    associativity, parentheses), do exactly what the assignments of the expression trees do: omitted parentheses and
    the signs moved around are harmless, for numbers with the laws of a field. *)
Theorem C08_generated_text_does_what_the_assignments_do :
  forall (B : Type) (O : BaseOps B) (PO : PrintOps B) (libm : string -> option cfun) (fname : ufun -> string),
  names_functions libm fname -> SignLaws B -> AssocLaws B ->
  forall (g : heap B) (indeps : list nat) (deps : list (arg B)), exact_constants g deps ->
  forall fuel o nm ge, generateCode g fuel o indeps deps nm = Done ge ->
  exists R t p, (forall rounds, R <= rounds -> generateText fname g fuel rounds o indeps deps nm = Done t) /\
    text_of t p /\ forall m l, cexec libm m p l = exec m (ge_prog ge) l.
Proof.
  intros B O PO libm fname HF HS HA g indeps deps HX fuel o nm ge E. unfold generateCode in E.
  apply obind_done' in E. destruct E as (pl & Ep & E). cbv zeta in E. apply obind_done' in E. destruct E as (prog & Es & [= <-]).
  destruct (body_print libm fname HF HS g o indeps deps pl _ fuel HX prog Es) as (R & ts & HR & Hts); [intros s _; left; exact HA|].
  destruct (ptext_reads libm ts prog Hts) as (cp & Hcp & Hx). exists R, (List.concat ts), cp. split; [|split; [exact Hcp|]].
  - intros r Hr. unfold generateText. rewrite Ep. cbn [obind]. rewrite (HR r Hr). reflexivity.
  - intros m l. cbn [ge_prog]. apply Hx. intros l'. reflexivity.
Qed.
Print Assumptions C08_generated_text_does_what_the_assignments_do.

(** From operations on CG objects to the C text: executing the C text leaves in every dependent the value of the
    operations which were recorded. *)
Theorem C08_operations_to_text :
  forall (B : Type) (O : BaseOps B) (PO : PrintOps B) (libm : string -> option cfun) (fname : ufun -> string),
  names_functions libm fname -> BaseLaws B -> SignLaws B -> AssocLaws B -> (forall b : B, exact b) ->
  forall (h : nat) (p : list (instr B)) (s : state B) (outs : list nat),
  Forall (handler_of h) p -> run init p = Ok s ->
  exists F, forall fuel o, F <= fuel -> o_aop o = ASet -> o_ignoreZero o = false ->
  exists R t cp,
    (forall rounds, R <= rounds -> generateText fname (s_heap s) fuel rounds o (indepNodes (s_heap s))
        (map (fun r => argument (s_reg s r)) outs) noNames = Done t) /\
    text_of t cp /\
    forall (env : nat -> nat -> B) (m : mem), (forall k, k < List.length (indepNodes (s_heap s)) -> m (LX k) = Some (env h k)) ->
    forall i r v, nth_error outs i = Some r -> r_reg (rrun env p) r = Some v -> cexec libm m cp (LY i) = Some v.
Proof.
  intros B O PO libm fname HF HB HS HA HE h p s outs Hh E.
  destruct (C05_operations_to_generated_code B O HB h p s outs Hh E) as [F HF'].
  exists F. intros fuel o H1 H2 H3. destruct (HF' fuel o H1 H2 H3) as (ge & Ege & Hv).
  assert (HX : exact_constants (s_heap s) (map (fun r => argument (s_reg s r)) outs)) by (constructor; intros; auto).
  destruct (C08_generated_text_does_what_the_assignments_do B O PO libm fname HF HS HA (s_heap s) _ _ HX _ _ _ _ Ege) as (R & t & cp & HR & Ht & Hx).
  exists R, t, cp. split; [exact HR|]. split; [exact Ht|]. intros env m Hm i r v Hr Hrv. rewrite Hx. eapply Hv; eassumption.
Qed.
Print Assumptions C08_operations_to_text.

(** The rationals: numbers written exactly, all the laws hold *)
#[export] Instance QcPrint : PrintOps Qc := {| pneg := fun x => negb (Qcle_bool 0%Qc x); pmag := fun x => if Qcle_bool 0%Qc x then x else Qcopp x |}.
Lemma Qc_exact (b : Qc) : exact b.
Proof. unfold exact. cbn. destruct (Qcle_bool 0 b); cbn [negb]; [reflexivity|]. ring. Qed.
Lemma Qc_cmp_eq0 (b : Qc) : @bcmp Qc QcOps CEq b b0 = false -> b <> 0%Qc.
Proof. cbn. intros H ->. discriminate. Qed.
Lemma QcSign : SignLaws Qc.
Proof.
  constructor; cbn [badd bsub bmul bdiv bneg QcOps]; intros; try ring. apply Qc_cmp_eq0 in H. field. exact H.
Qed.
Lemma QcAssoc : AssocLaws Qc.
Proof.
  constructor; cbn [badd bsub bmul bdiv bneg QcOps]; intros; try ring. apply Qc_cmp_eq0 in H. field. exact H.
Qed.

(** y = a + (b - c) * -2 / (d * (a * d)) - -(a / b) is written "x[0] + (x[1] - x[2]) * -2. / ..." : a text with omitted
    parentheses, negative numbers and calls satisfies the hypotheses *)
Definition c08_prog : list (instr Qc) :=
  [ IIndep 0 7 None; IIndep 1 7 None; IIndep 2 7 None; IIndep 3 7 None; IConst 4 (Q2Qc (-2#1));
    IBin BSub 5 1 2; IBin BMul 6 5 4; IBin BMul 7 0 3; IBin BMul 8 3 7; IBin BDiv 9 6 8; IBin BAdd 10 0 9;
    IBin BDiv 11 0 1; INeg 12 11; IBin BSub 13 10 12; IConst 14 (Q2Qc (-3#1)); IBin BAdd 15 13 14; IFun Sin 16 15;
    IBin BAdd 17 0 16; IBin BAdd 18 1 17; ICond CLe 19 18 0 16 5; ISign 20 18 ].
Definition c08_text (outs : list nat) : outcome (list (ptok Qc)) :=
  match run init c08_prog with
  | Ok s => generateText fname_double (s_heap s) 200 200 (mkOpts 100 true false false ASet) (indepNodes (s_heap s))
              (map (fun r => argument (s_reg s r)) outs) noNames
  | Throw => Bad end.
Example C08_ex : names_functions libm_double fname_double /\ BaseLaws Qc /\ SignLaws Qc /\ AssocLaws Qc /\ (forall b : Qc, exact b) /\
  Forall (handler_of 7) c08_prog /\ (exists s, run init c08_prog = Ok s) /\
  (exists t, c08_text [18] = Done t /\ List.length t = 64) /\
  (exists t, c08_text [19; 20] = Done t /\ List.length t = 135).
Proof.
  split; [apply C08_function_names_are_right|]. split; [exact QcLaws|]. split; [exact QcSign|]. split; [exact QcAssoc|].
  split; [exact Qc_exact|]. split; [repeat constructor|]. split; [|split].
  - destruct (run init c08_prog) as [s|] eqn:E; [eauto|vm_compute in E; discriminate].
  - eexists. split; [vm_compute; reflexivity|reflexivity].
  - eexists. split; [vm_compute; reflexivity|reflexivity].
Qed.

(** ** C09 *)

(** IEEE doubles: the sign laws hold bit by bit *)
#[export] Instance DoublePrint : PrintOps spec_float :=
  {| pneg := fun x => match x with S754_zero s | S754_infinity s | S754_finite s _ _ => s | S754_nan => false end; pmag := SFabs |}.
Lemma double_exact (b : spec_float) : exact b.
Proof. destruct b as [[]|[]| |[] m e]; reflexivity. Qed.
Lemma opp_round s m e l : SFopp (binary_round_aux prec emax s m e l) = binary_round_aux prec emax (negb s) m e l.
Proof.
  unfold binary_round_aux. destruct (shr_fexp prec emax m e l) as [mrs e'].
  destruct (shr_fexp prec emax _ e' loc_Exact) as [mrs' e'']. destruct (shr_m mrs') as [|p|p]; try reflexivity.
  destruct (Z.leb e'' _); reflexivity.
Qed.
Lemma DoubleSign : SignLaws spec_float.
Proof.
  constructor; cbn [badd bsub bmul bdiv bneg bcmp DoubleOps].
  - intros [s|s| |s m e] [t|t| |t n f]; cbn [SFopp SFsub SFadd]; rewrite ?negb_involutive; try reflexivity.
    cbv zeta. f_equal. destruct s, t; cbn [negb cond_Zopp]; lia.
  - intros [s|s| |s m e] [t|t| |t n f]; cbn [SFopp SFsub SFadd]; try reflexivity.
    cbv zeta. f_equal. destruct s, t; cbn [negb cond_Zopp]; lia.
  - intros [s|s| |s m e] [t|t| |t n f]; cbn [SFopp SFmul]; rewrite ?negb_xorb_l; try reflexivity.
    rewrite opp_round, negb_xorb_l. reflexivity.
  - intros [s|s| |s m e] [t|t| |t n f] H; cbn [SFopp SFdiv]; rewrite ?negb_xorb_l; try reflexivity.
    destruct (SFdiv_core_binary prec emax (Z.pos m) e (Z.pos n) f) as [[mz ez] lz]. rewrite opp_round, negb_xorb_l. reflexivity.
Qed.

(** Full statement: for doubles, the text does, bit by bit, what the assignments of the expression trees do.  Proved here when no
    right operand of + is a sum or difference, and no right operand of * a product or quotient, of the same assignment
    (otherwise the statement is false, see below).  No associativity is used. *)
Theorem C09_text_keeps_the_association_partial :
  forall (B : Type) (O : BaseOps B) (PO : PrintOps B) (libm : string -> option cfun) (fname : ufun -> string),
  names_functions libm fname -> SignLaws B ->
  forall (g : heap B) (indeps : list nat) (deps : list (arg B)), exact_constants g deps ->
  forall fuel o nm ge, generateCode g fuel o indeps deps nm = Done ge ->
  forallb left_associated_stmt (ge_prog ge) = true ->
  exists R t p, (forall rounds, R <= rounds -> generateText fname g fuel rounds o indeps deps nm = Done t) /\
    text_of t p /\ forall m l, cexec libm m p l = exec m (ge_prog ge) l.
Proof.
  intros B O PO libm fname HF HS g indeps deps HX fuel o nm ge E HL. unfold generateCode in E.
  apply obind_done' in E. destruct E as (pl & Ep & E). cbv zeta in E. apply obind_done' in E. destruct E as (prog & Es & [= <-]).
  cbn [ge_prog] in *. rewrite forallb_forall in HL.
  destruct (body_print libm fname HF HS g o indeps deps pl _ fuel HX prog Es) as (R & ts & HR & Hts); [intros s Hs; right; apply HL, Hs|].
  destruct (ptext_reads libm ts prog Hts) as (cp & Hcp & Hx). exists R, (List.concat ts), cp. split; [|split; [exact Hcp|]].
  - intros r Hr. unfold generateText. rewrite Ep. cbn [obind]. rewrite (HR r Hr). reflexivity.
  - intros m l. apply Hx. intros l'. reflexivity.
Qed.
Print Assumptions C09_text_keeps_the_association_partial.

(** with doubles: -(x0 * x1) / (x1 + -3) - (x0 + x1) meets the hypotheses *)
Definition d3 : spec_float := S754_finite true 6755399441055744 (-51).
Definition c09_prog : list (instr spec_float) :=
  [ IIndep 0 7 None; IIndep 1 7 None; IConst 2 d3; IBin BMul 3 0 1; INeg 4 3; IBin BAdd 5 1 2; IBin BDiv 6 4 5; IBin BAdd 7 0 1; IBin BSub 8 6 7 ].
Definition c09_gen (p : list (instr spec_float)) (outs : list nat) : outcome (generated spec_float * list (ptok spec_float)) :=
  match run init p with
  | Ok s => let deps := map (fun r => argument (s_reg s r)) outs in
            obind (generateCode (s_heap s) 200 (mkOpts 100 true false false ASet) (indepNodes (s_heap s)) deps noNames) (fun ge =>
            obind (generateText fname_double (s_heap s) 200 200 (mkOpts 100 true false false ASet) (indepNodes (s_heap s)) deps noNames) (fun t =>
            Done (ge, t)))
  | Throw => Bad end.
Example C09_ex : SignLaws spec_float /\ (forall b : spec_float, exact b) /\
  exists ge t, c09_gen c09_prog [8] = Done (ge, t) /\ forallb left_associated_stmt (ge_prog ge) = true /\ List.length t = 34.
Proof.
  split; [exact DoubleSign|]. split; [exact double_exact|]. do 2 eexists. split; [vm_compute; reflexivity|]. split; reflexivity.
Qed.

(** The full statement is false for doubles: x0 + (x1 - x2) is written "x[0] + x[1] - x[2]"; x0 * (x1 / x2) and
    x0 * (x1 * x2) are written without parentheses too. *)
Definition ld (a : nat) : tok (catom spec_float) := TAtom (ALoc (LX a)).
Definition el (a : nat) : cexpr (catom spec_float) := EAtom (ALoc (LX a)).
Lemma three o1 o2 : lv o1 = lv o2 -> G (lv o2) [ld 0; TOp o1; ld 1; TOp o2; ld 2] (EBin o2 (EBin o1 (el 0) (el 1)) (el 2)).
Proof.
  intros E. assert (Ho1 : lv o1 <= 6) by (destruct o1; cbn; lia).
  apply (G_bin o2 [ld 0; TOp o1; ld 1] [ld 2]).
  - rewrite <- E. apply (G_bin o1 [ld 0] [ld 1]); (eapply G_ups; [|apply G_atom]); lia.
  - eapply G_ups; [|apply G_atom]. lia.
Qed.
Lemma three_text o1 o2 : lv o1 = lv o2 ->
  text_of [PT (TAtom (ALoc (LY 0))); PB; PSet; PB; PT (ld 0); PB; PT (TOp o1); PB; PT (ld 1); PB; PT (TOp o2); PB; PT (ld 2); PSemi]
          [CAssign (LY 0) ASet (EBin o2 (EBin o1 (el 0) (el 1)) (el 2))].
Proof.
  intros E. split; [reflexivity|]. cbn [strip filter blank negb].
  apply (R_cons [PT (TAtom (ALoc (LY 0))); PSet; PT (ld 0); PT (TOp o1); PT (ld 1); PT (TOp o2); PT (ld 2); PSemi] _ [] []); [|constructor].
  apply (R_assign (LY 0) ASet [ld 0; TOp o1; ld 1; TOp o2; ld 2]). unfold c_reads. eapply G_ups; [|apply three, E]. lia.
Qed.
Definition dbl (z e : Z) : spec_float := binary_normalize prec emax z e false.
Definition xmem (a b c : spec_float) : @mem spec_float := fun l => match l with LX 0 => Some a | LX 1 => Some b | LX _ => Some c | _ => None end.

Definition text_differs (p : list (instr spec_float)) : Prop :=
  exists ge t cp m v w, c09_gen p [4] = Done (ge, t) /\ text_of t cp /\
    exec m (ge_prog ge) (LY 0) = Some v /\ cexec libm_double m cp (LY 0) = Some w /\ SFeqb v v = true /\ SFeqb w w = true /\ SFeqb v w = false.

Theorem C09_sum_of_difference_reassociated_refuted :
  text_differs [IIndep 0 7 None; IIndep 1 7 None; IIndep 2 7 None; IBin BSub 3 1 2; IBin BAdd 4 0 3].
Proof.
  do 2 eexists. exists [CAssign (LY 0) ASet (EBin Minus (EBin Plus (el 0) (el 1)) (el 2))], (xmem (dbl (-1) 0) (dbl 1 0) (dbl 1 (-60))).
  do 2 eexists. split; [vm_compute; reflexivity|]. split; [apply (three_text Plus Minus); reflexivity|].
  split; [vm_compute; reflexivity|]. split; [vm_compute; reflexivity|]. repeat split.
Qed.
Print Assumptions C09_sum_of_difference_reassociated_refuted.

Theorem C09_product_of_quotient_reassociated_refuted :
  text_differs [IIndep 0 7 None; IIndep 1 7 None; IIndep 2 7 None; IBin BDiv 3 1 2; IBin BMul 4 0 3].
Proof.
  do 2 eexists. exists [CAssign (LY 0) ASet (EBin Slash (EBin Star (el 0) (el 1)) (el 2))], (xmem (dbl 3 0) (dbl 1 0) (dbl 10 0)).
  do 2 eexists. split; [vm_compute; reflexivity|]. split; [apply (three_text Star Slash); reflexivity|].
  split; [vm_compute; reflexivity|]. split; [vm_compute; reflexivity|]. repeat split.
Qed.
Print Assumptions C09_product_of_quotient_reassociated_refuted.

(** 2^1000 * (2^1000 * 2^-1000): the text overflows to infinity *)
Theorem C09_product_of_product_reassociated_refuted :
  text_differs [IIndep 0 7 None; IIndep 1 7 None; IIndep 2 7 None; IBin BMul 3 1 2; IBin BMul 4 0 3].
Proof.
  do 2 eexists. exists [CAssign (LY 0) ASet (EBin Star (EBin Star (el 0) (el 1)) (el 2))], (xmem (dbl 1 1000) (dbl 1 1000) (dbl 1 (-1000))).
  do 2 eexists. split; [vm_compute; reflexivity|]. split; [apply (three_text Star Star); reflexivity|].
  split; [vm_compute; reflexivity|]. split; [vm_compute; reflexivity|]. repeat split.
Qed.
Print Assumptions C09_product_of_product_reassociated_refuted.

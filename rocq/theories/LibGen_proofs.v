(** * Proofs about the creation of libraries *)
From Coq Require Import List Bool Arith String Ascii Permutation Lia.
From Verif Require Import Names_model Names_thm LibGen_model LibGen_spec.
Import ListNotations.
Local Open Scope string_scope.
Local Open Scope nat_scope.

(** ** Names as lists of words between underscores *)
Definition us : ascii := "_"%char.
Fixpoint tok (s : string) : list string :=
  match s with
  | EmptyString => [""]
  | String c r => if Ascii.eqb c us then "" :: tok r else match tok r with h :: t => String c h :: t | [] => [String c ""] end
  end.
Fixpoint join (l : list string) : string :=
  match l with [] => "" | x :: r => match r with [] => x | _ :: _ => x ++ String us (join r) end end.

Lemma tok_cons s : exists h t, tok s = h :: t.
Proof. destruct s as [|c r]; cbn [tok]; [eexists; eexists; reflexivity|]. destruct (Ascii.eqb c us); [eexists; eexists; reflexivity|]. destruct (tok r); eexists; eexists; reflexivity. Qed.

Lemma join_tok s : join (tok s) = s.
Proof.
  induction s as [|c r IH]; [reflexivity|]. cbn [tok]. destruct (tok_cons r) as [h [t E]]. rewrite E in *. destruct (Ascii.eqb c us) eqn:X.
  - apply Ascii.eqb_eq in X. subst c. change (join ("" :: h :: t)) with ("" ++ String us (join (h :: t))). rewrite IH. reflexivity.
  - destruct t as [|h2 t]; cbn [join] in *; rewrite <- IH; reflexivity.
Qed.
Lemma tok_inj a b : tok a = tok b -> a = b.
Proof. intros E. rewrite <- (join_tok a), <- (join_tok b), E. reflexivity. Qed.

Lemma tok_app a b : tok (a ++ String us b) = (tok a ++ tok b)%list.
Proof.
  induction a as [|c a IH]; [reflexivity|]. cbn [append tok]. rewrite IH. destruct (Ascii.eqb c us); [reflexivity|].
  destruct (tok_cons a) as [h [t E]]. rewrite E. reflexivity.
Qed.
Lemma tok_single s : ~ has us s -> tok s = [s].
Proof.
  induction s as [|c s IH]; intros H; [reflexivity|]. cbn [tok]. cbn in H. destruct (Ascii.eqb c us) eqn:X; [apply Ascii.eqb_eq in X; subst; tauto|].
  rewrite IH by tauto. reflexivity.
Qed.
Lemma dec_us k : ~ has us (dec k).
Proof. apply dec_no. cbn. intuition discriminate. Qed.
Lemma dec_head k c r : dec k = String c r -> In c ["0"; "1"; "2"; "3"; "4"; "5"; "6"; "7"; "8"; "9"]%char.
Proof. intros E. destruct (in_dec ascii_dec c ["0"; "1"; "2"; "3"; "4"; "5"; "6"; "7"; "8"; "9"]%char) as [H|H]; [exact H|]. exfalso. apply (dec_no c k H). rewrite E. left. reflexivity. Qed.
Lemma app_nil_s s : s ++ "" = s.
Proof. induction s as [|c s IH]; [reflexivity|]. cbn [append]. rewrite IH. reflexivity. Qed.
Lemma app_assoc_s a b c : (a ++ b) ++ c = a ++ b ++ c.
Proof. induction a as [|x a IH]; [reflexivity|]. cbn [append]. rewrite IH. reflexivity. Qed.

Definition fnTok (f : fn) : list string :=
  match f with
  | FZero => ["forward"; "zero"] | FJac => ["jacobian"] | FHes => ["hessian"]
  | FFor1 => ["forward"; "one"] | FRev1 => ["reverse"; "one"] | FRev2 => ["reverse"; "two"]
  | FSJac => ["sparse"; "jacobian"] | FSHes => ["sparse"; "hessian"]
  | FJacSp => ["jacobian"; "sparsity"] | FHesSp => ["hessian"; "sparsity"] | FHesSp2 => ["hessian"; "sparsity2"]
  | FSFor1 => ["sparse"; "forward"; "one"] | FSRev1 => ["sparse"; "reverse"; "one"] | FSRev2 => ["sparse"; "reverse"; "two"]
  | FFor1Sp => ["forward"; "one"; "sparsity"] | FRev1Sp => ["reverse"; "one"; "sparsity"]
  | FRev2Sp => ["sparse"; "reverse"; "two"; "sparsity"]
  | FInfo => ["info"] | FAtomics => ["atomic"; "functions"]
  | FFor1J j => ["sparse"; "forward"; "one"; "indep" ++ dec j]
  | FRev1I i => ["sparse"; "reverse"; "one"; "dep" ++ dec i]
  | FRev2J j => ["sparse"; "reverse"; "two"; "indep" ++ dec j]
  end.
Lemma tok_fn f : tok (fnText f) = fnTok f.
Proof.
  destruct f; try reflexivity; cbn [fnText fnTok].
  - change ("sparse_forward_one_indep" ++ dec j) with ("sparse" ++ String us ("forward" ++ String us ("one" ++ String us ("indep" ++ dec j)))).
    rewrite !tok_app, (tok_single ("indep" ++ dec j)); [reflexivity|]. rewrite has_app. intros [H|H]; [cbn in H; intuition discriminate|exact (dec_us j H)].
  - change ("sparse_reverse_one_dep" ++ dec i) with ("sparse" ++ String us ("reverse" ++ String us ("one" ++ String us ("dep" ++ dec i)))).
    rewrite !tok_app, (tok_single ("dep" ++ dec i)); [reflexivity|]. rewrite has_app. intros [H|H]; [cbn in H; intuition discriminate|exact (dec_us i H)].
  - change ("sparse_reverse_two_indep" ++ dec j) with ("sparse" ++ String us ("reverse" ++ String us ("two" ++ String us ("indep" ++ dec j)))).
    rewrite !tok_app, (tok_single ("indep" ++ dec j)); [reflexivity|]. rewrite has_app. intros [H|H]; [cbn in H; intuition discriminate|exact (dec_us j H)].
Qed.
Definition partTok (p : part) : list string := match p with PWhole => [] | PPart k => [""; dec k] | PWrap => ["wrap"] end.
Lemma tok_cname n f p : tok (cname n f p) = (tok n ++ fnTok f ++ partTok p)%list.
Proof.
  unfold cname. change ("_" ++ fnText f ++ partText p) with (String us (fnText f ++ partText p)). rewrite tok_app. f_equal. destruct p as [|k|]; cbn [partText partTok].
  - rewrite app_nil_s, app_nil_r. apply tok_fn.
  - change ("__" ++ dec k) with (String us (String us (dec k))). rewrite tok_app, tok_fn. f_equal. cbn [tok]. rewrite Ascii.eqb_refl, (tok_single (dec k) (dec_us k)). reflexivity.
  - change "_wrap" with (String us "wrap"). rewrite tok_app, tok_fn. reflexivity.
Qed.

(** The words from the last to the first. *)
Definition rname (f : fn) (p : part) : list string := (rev (partTok p) ++ rev (fnTok f))%list.
Lemma rtok_cname n f p : rev (tok (cname n f p)) = (rname f p ++ rev (tok n))%list.
Proof. rewrite tok_cname, !rev_app_distr. reflexivity. Qed.

Ltac notdigit H := apply dec_head in H; cbn in H; intuition discriminate.

Lemma app_inj_l : forall (a : string) b c, a ++ b = a ++ c -> b = c.
Proof. exact app_head. Qed.

Lemma rname_eq f1 p1 a1 f2 p2 a2 : (rname f1 p1 ++ a1 = rname f2 p2 ++ a2)%list ->
  p1 = p2 /\ ((f1 = f2 /\ a1 = a2) \/ (sparseOf f1 f2 /\ a2 = "sparse" :: a1) \/ (sparseOf f2 f1 /\ a1 = "sparse" :: a2)).
Proof.
  intros E. unfold rname in E. rewrite <- !app_assoc in E.
  assert (P : p1 = p2 /\ (rev (fnTok f1) ++ a1 = rev (fnTok f2) ++ a2)%list).
  { destruct p1 as [|k1|]; destruct p2 as [|k2|]; cbn [partTok rev app] in E.
    - split; [reflexivity|exact E].
    - exfalso. destruct f1; cbn [fnTok rev app append] in E; injection E as E _; symmetry in E; notdigit E.
    - exfalso. destruct f1; cbn [fnTok rev app append] in E; discriminate E.
    - exfalso. destruct f2; cbn [fnTok rev app append] in E; injection E as E _; notdigit E.
    - injection E as E1 E2. apply dec_inj in E1. subst k2. split; [reflexivity|exact E2].
    - exfalso. injection E as E _. notdigit E.
    - exfalso. destruct f2; cbn [fnTok rev app append] in E; discriminate E.
    - exfalso. injection E as E _. symmetry in E. notdigit E.
    - injection E as E. split; [reflexivity|exact E]. }
  destruct P as [P1 P2]. split; [exact P1|]. clear E P1.
  destruct f1; destruct f2; cbn [fnTok rev app append] in P2; try discriminate P2;
    try (injection P2 as P2; first [ left; split; [reflexivity|exact P2]
                                   | left; split; [f_equal; apply dec_inj; apply (app_inj_l _ _ _ P2)|assumption]
                                   | right; left; split; [constructor|symmetry; exact P2]
                                   | right; right; split; [constructor|exact P2] ]).
  all: injection P2 as P2 P3; left; apply dec_inj in P2; subst; split; reflexivity.
Qed.

Lemma rev_tok_sparse n1 n2 : rev (tok n2) = "sparse" :: rev (tok n1) -> n2 = n1 ++ "_sparse".
Proof.
  intros E. apply tok_inj. change "_sparse" with (String us "sparse"). rewrite tok_app. rewrite <- (rev_involutive (tok n2)), E. cbn [rev]. rewrite rev_involutive. reflexivity.
Qed.
Lemma rev_inj {A} (a b : list A) : rev a = rev b -> a = b.
Proof. intros E. rewrite <- (rev_involutive a), E, rev_involutive. reflexivity. Qed.

Lemma cname_eq n1 f1 p1 n2 f2 p2 : cname n1 f1 p1 = cname n2 f2 p2 ->
  p1 = p2 /\ ((f1 = f2 /\ n1 = n2) \/ (sparseOf f1 f2 /\ n2 = n1 ++ "_sparse") \/ (sparseOf f2 f1 /\ n1 = n2 ++ "_sparse")).
Proof.
  intros E. apply (f_equal tok), (f_equal (@rev string)) in E. rewrite !rtok_cname in E. apply rname_eq in E. destruct E as [P E]. split; [exact P|].
  destruct E as [[F E]|[[F E]|[F E]]].
  - left. split; [exact F|]. apply tok_inj, rev_inj. exact E.
  - right. left. split; [exact F|]. apply rev_tok_sparse. exact E.
  - right. right. split; [exact F|]. apply rev_tok_sparse. exact E.
Qed.
Lemma cname_sparse n f g p : sparseOf f g -> cname n f p = cname (n ++ "_sparse") g p.
Proof. intros S. destruct S; unfold cname; cbn [fnText]; rewrite app_assoc_s; reflexivity. Qed.

Lemma cfile_eq n1 f1 p1 n2 f2 p2 : cfile n1 f1 p1 = cfile n2 f2 p2 <-> cname n1 f1 p1 = cname n2 f2 p2.
Proof.
  split; [|unfold cfile; congruence]. unfold cfile. intros E. apply (app_end "c"%char). apply (app_end "c"%char). 
  assert (X : forall s, s ++ ".c" = (s ++ ".") ++ "c") by (intros s; rewrite app_assoc_s; reflexivity). rewrite !X in E. apply app_end in E. apply app_end in E. rewrite E. reflexivity.
Qed.

(** Names which end with another word are not names of functions. *)
Definition lastWord (s : string) : string := hd "" (rev (tok s)).
Definition freeWord (s : string) : bool :=
  negb (existsb (String.eqb s) ["zero"; "jacobian"; "hessian"; "one"; "two"; "sparsity"; "sparsity2"; "info"; "functions"; "wrap"])
  && match s with String c _ => negb (existsb (Ascii.eqb c) ["0"; "1"; "2"; "3"; "4"; "5"; "6"; "7"; "8"; "9"]%char) && negb (prefix "dep" s) && negb (prefix "indep" s) | EmptyString => false end.
Lemma lastWord_cname n f p : freeWord (lastWord (cname n f p)) = false.
Proof.
  unfold lastWord. rewrite rtok_cname. unfold rname. destruct p as [|k|]; cbn [partTok rev app hd].
  - destruct f; try reflexivity; cbn [fnTok rev app hd append]; unfold freeWord; try (cbn [existsb Ascii.eqb negb andb]; rewrite ?andb_false_r; reflexivity).
    + change (String "i" (String "n" (String "d" (String "e" (String "p" (dec j)))))) with ("indep" ++ dec j). rewrite (prefix_app "indep"). cbn [negb]. rewrite !andb_false_r. reflexivity.
    + change (String "d" (String "e" (String "p" (dec i)))) with ("dep" ++ dec i). rewrite (prefix_app "dep"). cbn [negb]. rewrite !andb_false_r. reflexivity.
    + change (String "i" (String "n" (String "d" (String "e" (String "p" (dec j)))))) with ("indep" ++ dec j). rewrite (prefix_app "indep"). cbn [negb]. rewrite !andb_false_r. reflexivity.
  - unfold freeWord. destruct (dec k) as [|c r] eqn:E; [rewrite andb_false_r; reflexivity|]. apply dec_head in E.
    replace (existsb (Ascii.eqb c) _) with true; [cbn [negb andb]; rewrite andb_false_r; reflexivity|]. symmetry. apply existsb_exists. exists c. split; [exact E|apply Ascii.eqb_refl].
  - reflexivity.
Qed.
Lemma not_cname s n f p : freeWord (lastWord s) = true -> s <> cname n f p.
Proof. intros H ->. rewrite lastWord_cname in H. discriminate. Qed.

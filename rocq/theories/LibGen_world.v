(** * Proofs about the world in which libraries are created *)
From Coq Require Import List Bool Arith String Ascii Permutation Lia.
From Verif Require Import Names_model Names_thm LibGen_model LibGen_spec LibGen_proofs LibGen_maps.
Import ListNotations.
Local Open Scope string_scope.
Local Open Scope nat_scope.

(** ** The sources of one model *)
Definition opt {A} (b : bool) (l : list A) : list A := if b then l else [].
Definition fl (s : cfg) : list fn :=
  (opt (zero s) [FZero] ++ opt (jac s) [FJac] ++ opt (hes s) [FHes]
   ++ opt (for1 s) (map FFor1J (jcols s) ++ [FSFor1] ++ [FFor1Sp] ++ [FFor1])
   ++ opt (rev1 s) (map FRev1I (jrows s) ++ [FSRev1] ++ [FRev1Sp] ++ [FRev1])
   ++ opt (rev2 s) (map FRev2J (hrows s) ++ [FSRev2] ++ [FRev2Sp] ++ [FRev2])
   ++ opt (sjac s) [FSJac] ++ opt (shes s) [FSHes]
   ++ opt (sjac s || for1 s || rev1 s) [FJacSp]
   ++ opt (shes s || rev2 s) ([FHesSp] ++ opt (byEq s || rev2 s) [FHesSp2])
   ++ [FInfo] ++ [FAtomics])%list.
Definition pl (s : cfg) (f : fn) : list part := if divided s f then (map PPart (seq 1 (parts s f)) ++ [PWhole])%list else [PWhole].
Definition wl (s : cfg) : list (fn * part) := flat_map (fun f => map (pair f) (pl s f)) (fl s).

Definition src1 (n : string) (s : cfg) (t : mt) (fp : fn * part) : string * content := (cfile n (fst fp) (snd fp), CModel n (fst fp) (snd fp) s t).
Lemma lang_wl n s t f : divided s f = true -> langWrites n s t f = map (src1 n s t) (map (pair f) (pl s f)).
Proof. intros D. unfold langWrites, pl. rewrite D, !map_app, !map_map. reflexivity. Qed.
Lemma text_wl n s t f : divided s f = false -> textWrite n s t f = map (src1 n s t) (map (pair f) (pl s f)).
Proof. intros D. unfold textWrite, pl. rewrite D. reflexivity. Qed.
Lemma lang_flat {A} n s t (c : A -> fn) : (forall j, divided s (c j) = true) -> forall js, flat_map (fun j => langWrites n s t (c j)) js = map (src1 n s t) (flat_map (fun f => map (pair f) (pl s f)) (map c js)).
Proof. intros D. induction js as [|j js IH]; [reflexivity|]. cbn [flat_map map]. rewrite map_app, IH, lang_wl by apply D. reflexivity. Qed.
Lemma flat_one (s : cfg) f : flat_map (fun f => map (pair f) (pl s f)) [f] = map (pair f) (pl s f).
Proof. cbn [flat_map]. apply app_nil_r. Qed.
Lemma flat_opt {A B} (g : A -> list B) b l : flat_map g (opt b l) = opt b (flat_map g l).
Proof. destruct b; reflexivity. Qed.
Lemma map_opt {A B} (g : A -> B) b l : map g (opt b l) = opt b (map g l).
Proof. destruct b; reflexivity. Qed.

Lemma writes_wl n s t : writes n s t = map (src1 n s t) (wl s).
Proof.
  unfold writes, wl, fl. cbn zeta.
  assert (FA : forall (a b : list fn), flat_map (fun f => map (pair f) (pl s f)) (a ++ b) = (flat_map (fun f => map (pair f) (pl s f)) a ++ flat_map (fun f => map (pair f) (pl s f)) b)%list) by (intros a b; apply flat_map_app).
  rewrite !FA, !flat_opt, !FA, !flat_opt, !flat_one, !map_app, !map_opt, !map_app, !map_opt.
  rewrite !(lang_flat n s t) by reflexivity. rewrite !lang_wl by reflexivity. rewrite !text_wl by reflexivity.
  assert (J : (if jacReuses s then textWrite n s t FSJac else langWrites n s t FSJac) = map (src1 n s t) (map (pair FSJac) (pl s FSJac))).
  { destruct (jacReuses s) eqn:E; [apply text_wl|apply lang_wl]; cbn [divided]; rewrite E; reflexivity. }
  assert (H : (if hesReuses s then textWrite n s t FSHes else langWrites n s t FSHes) = map (src1 n s t) (map (pair FSHes) (pl s FSHes))).
  { destruct (hesReuses s) eqn:E; [apply text_wl|apply lang_wl]; cbn [divided]; rewrite E; reflexivity. }
  rewrite <- J, <- H. unfold opt. reflexivity.
Qed.

Lemma In_opt {A} b (l : list A) x : In x (opt b l) <-> b = true /\ In x l.
Proof. destruct b; cbn [opt]; [intuition|split; [intros []|intros [H _]; discriminate]]. Qed.
Lemma isIn_In l i : isIn l i = true <-> In i l.
Proof. unfold isIn. rewrite existsb_exists. split; [intros [x [H E]]; apply Nat.eqb_eq in E; subst; exact H|intros H; exists i; split; [exact H|apply Nat.eqb_refl]]. Qed.

Lemma In_one {A} (a x : A) : In x [a] <-> a = x.
Proof. cbn. tauto. Qed.
Lemma fl_In s f : In f (fl s) <-> creates s f = true.
Proof.
  unfold fl. repeat (rewrite in_app_iff || rewrite In_opt || rewrite In_one || rewrite in_map_iff).
  destruct f; cbn [creates]; rewrite ?andb_true_iff, ?isIn_In; (split;
    [ intros H; decompose [or and ex] H; clear H; try discriminate; repeat match goal with E : FFor1J _ = FFor1J _ |- _ => injection E as -> | E : FRev1I _ = FRev1I _ |- _ => injection E as -> | E : FRev2J _ = FRev2J _ |- _ => injection E as -> end; tauto
    | intros H; repeat match goal with H : _ /\ _ |- _ => destruct H end;
      repeat (first [ reflexivity | match goal with |- _ \/ _ => first [ left; first [reflexivity | split; [assumption|]; solve [reflexivity | (left; eexists; split; [reflexivity|assumption]) | (right; left; reflexivity) | (right; right; left; reflexivity) | (right; right; right; reflexivity) | (left; reflexivity) | (right; split; [assumption|reflexivity]) ] ] | right ] end ]) ]).
Qed.

Definition rank (f : fn) : nat :=
  match f with
  | FZero => 0 | FJac => 1 | FHes => 2
  | FFor1J _ => 3 | FSFor1 => 4 | FFor1Sp => 5 | FFor1 => 6
  | FRev1I _ => 7 | FSRev1 => 8 | FRev1Sp => 9 | FRev1 => 10
  | FRev2J _ => 11 | FSRev2 => 12 | FRev2Sp => 13 | FRev2 => 14
  | FSJac => 15 | FSHes => 16 | FJacSp => 17 | FHesSp => 18 | FHesSp2 => 19 | FInfo => 20 | FAtomics => 21
  end.
Definition seg (lo hi : nat) (l : list fn) : Prop := NoDup l /\ forall f, In f l -> lo <= rank f < hi.
Lemma NoDup_app2 {A} (a b : list A) : NoDup a -> NoDup b -> (forall x, In x a -> In x b -> False) -> NoDup (a ++ b).
Proof.
  induction a as [|x a IH]; intros Na Nb D; [exact Nb|]. inversion Na as [|? ? N1 N2]. subst. cbn [app]. constructor.
  - rewrite in_app_iff. intros [H|H]; [exact (N1 H)|exact (D x (or_introl eq_refl) H)].
  - apply IH; [exact N2|exact Nb|]. intros y Ha Hb. apply (D y); [right; exact Ha|exact Hb].
Qed.
Lemma seg_app mid lo hi a b : lo <= mid -> mid <= hi -> seg lo mid a -> seg mid hi b -> seg lo hi (a ++ b).
Proof.
  intros L1 L2 [Na Ha] [Nb Hb]. split.
  - apply NoDup_app2; [exact Na|exact Nb|]. intros x H1 H2. apply Ha in H1. apply Hb in H2. lia.
  - intros f H. apply in_app_iff in H. destruct H as [H|H]; [apply Ha in H|apply Hb in H]; lia.
Qed.
Lemma seg_opt lo hi b l : seg lo hi l -> seg lo hi (opt b l).
Proof. destruct b; [tauto|]. intros _. split; [constructor|intros f []]. Qed.
Lemma seg_one f : seg (rank f) (S (rank f)) [f].
Proof. split; [constructor; [intros []|constructor]|]. intros g [<-|[]]. lia. Qed.
Lemma seg_map (c : nat -> fn) r js : (forall j, rank (c j) = r) -> (forall i j, c i = c j -> i = j) -> NoDup js -> seg r (S r) (map c js).
Proof.
  intros R I N. split; [apply FinFun.Injective_map_NoDup; [intros i j; apply I|exact N]|]. intros f H. apply in_map_iff in H. destruct H as [j [<- _]]. rewrite R. lia.
Qed.
Lemma fl_NoDup s : settingsOk s -> NoDup (fl s).
Proof.
  intros [N1 [N2 N3]]. apply (proj1 (A := NoDup (fl s)) (B := forall f, In f (fl s) -> 0 <= rank f < 22)). change (seg 0 22 (fl s)). unfold fl.
  apply (seg_app 1); [lia|lia|apply seg_opt, (seg_one FZero)|]. apply (seg_app 2); [lia|lia|apply seg_opt, (seg_one FJac)|]. apply (seg_app 3); [lia|lia|apply seg_opt, (seg_one FHes)|].
  apply (seg_app 7); [lia|lia| |].
  { apply seg_opt. apply (seg_app 4); [lia|lia|apply seg_map; [reflexivity|congruence|exact N1]|]. apply (seg_app 5); [lia|lia|apply (seg_one FSFor1)|]. apply (seg_app 6); [lia|lia|apply (seg_one FFor1Sp)|apply (seg_one FFor1)]. }
  apply (seg_app 11); [lia|lia| |].
  { apply seg_opt. apply (seg_app 8); [lia|lia|apply seg_map; [reflexivity|congruence|exact N2]|]. apply (seg_app 9); [lia|lia|apply (seg_one FSRev1)|]. apply (seg_app 10); [lia|lia|apply (seg_one FRev1Sp)|apply (seg_one FRev1)]. }
  apply (seg_app 15); [lia|lia| |].
  { apply seg_opt. apply (seg_app 12); [lia|lia|apply seg_map; [reflexivity|congruence|exact N3]|]. apply (seg_app 13); [lia|lia|apply (seg_one FSRev2)|]. apply (seg_app 14); [lia|lia|apply (seg_one FRev2Sp)|apply (seg_one FRev2)]. }
  apply (seg_app 16); [lia|lia|apply seg_opt, (seg_one FSJac)|]. apply (seg_app 17); [lia|lia|apply seg_opt, (seg_one FSHes)|]. apply (seg_app 18); [lia|lia|apply seg_opt, (seg_one FJacSp)|].
  apply (seg_app 20); [lia|lia| |]. { apply seg_opt. apply (seg_app 19); [lia|lia|apply (seg_one FHesSp)|apply seg_opt, (seg_one FHesSp2)]. }
  apply (seg_app 21); [lia|lia|apply (seg_one FInfo)|apply (seg_one FAtomics)].
Qed.

Lemma pl_In s f p : In p (pl s f) <-> match p with PWhole => True | PPart k => divided s f = true /\ 1 <= k <= parts s f | PWrap => False end.
Proof.
  unfold pl. destruct (divided s f) eqn:D.
  - rewrite in_app_iff, In_one, in_map_iff. destruct p as [|k|].
    + tauto.
    + split.
      * intros [[j [E H]]|E]; [|discriminate]. injection E as ->. apply in_seq in H. split; [reflexivity|lia].
      * intros [_ H]. left. exists k. split; [reflexivity|]. apply in_seq. lia.
    + split; [intros [[j [E H]]|E]; discriminate|tauto].
  - rewrite In_one. destruct p as [|k|]; [tauto| |]; (split; [intros E; discriminate|]); [intros [H _]; discriminate|tauto].
Qed.
Lemma pl_NoDup s f : NoDup (pl s f).
Proof.
  unfold pl. destruct (divided s f).
  - apply NoDup_app2; [apply FinFun.Injective_map_NoDup; [intros i j; congruence|apply seq_NoDup]|constructor; [intros []|constructor]|].
    intros x H1 H2. apply in_map_iff in H1. destruct H1 as [j [<- _]]. destruct H2 as [H|[]]; discriminate.
  - constructor; [intros []|constructor].
Qed.
Lemma NoDup_flat {A B} (g : A -> list B) l : NoDup l -> (forall x, In x l -> NoDup (g x)) -> (forall x y b, In x l -> In y l -> In b (g x) -> In b (g y) -> x = y) -> NoDup (flat_map g l).
Proof.
  induction l as [|x l IH]; intros N G D; [constructor|]. inversion N as [|? ? N1 N2]. subst. cbn [flat_map]. apply NoDup_app2.
  - apply G. left. reflexivity.
  - apply IH; [exact N2|intros y Hy; apply G; right; exact Hy|]. intros y z b Hy Hz. apply D; right; assumption.
  - intros b H1 H2. apply in_flat_map in H2. destruct H2 as [y [Hy H2]]. assert (x = y) by (apply (D x y b); [left; reflexivity|right; exact Hy|exact H1|exact H2]). subst y. exact (N1 Hy).
Qed.
Lemma wl_In s f p : In (f, p) (wl s) <-> hasSource s f p.
Proof.
  unfold wl, hasSource. rewrite in_flat_map. split.
  - intros [g [H1 H2]]. apply in_map_iff in H2. destruct H2 as [q [E H2]]. injection E as -> ->. split; [apply fl_In, H1|apply pl_In, H2].
  - intros [H1 H2]. exists f. split; [apply fl_In, H1|]. apply in_map_iff. exists p. split; [reflexivity|apply pl_In, H2].
Qed.
Lemma wl_NoDup s : settingsOk s -> NoDup (wl s).
Proof.
  intros K. apply NoDup_flat; [apply fl_NoDup, K| |].
  - intros f _. apply FinFun.Injective_map_NoDup; [intros a b; congruence|apply pl_NoDup].
  - intros f g [h p] _ _ H1 H2. apply in_map_iff in H1. destruct H1 as [a [E1 _]]. apply in_map_iff in H2. destruct H2 as [b [E2 _]]. congruence.
Qed.

Lemma writes_In n s t k c : In (k, c) (writes n s t) <-> exists f p, hasSource s f p /\ k = cfile n f p /\ c = CModel n f p s t.
Proof.
  rewrite writes_wl, in_map_iff. split.
  - intros [[f p] [E H]]. apply wl_In in H. injection E as <- <-. exists f, p. repeat split; exact H || apply H.
  - intros [f [p [H [-> ->]]]]. exists (f, p). split; [reflexivity|apply wl_In, H].
Qed.
Lemma not_own_sparse n : n <> n ++ "_sparse".
Proof. intros E. apply (f_equal String.length) in E. assert (L : forall a b, String.length (a ++ b) = String.length a + String.length b) by (induction a as [|c a IH]; intros b; [reflexivity|cbn; rewrite IH; reflexivity]). rewrite L in E. cbn in E. lia. Qed.
Lemma cname_inj n f p g q : cname n f p = cname n g q -> f = g /\ p = q.
Proof. intros E. apply cname_eq in E. destruct E as [-> [[-> _]|[[_ E]|[_ E]]]]; [split; reflexivity|exfalso; exact (not_own_sparse n E)|exfalso; exact (not_own_sparse n E)]. Qed.
Lemma writes_NoDup n s t : settingsOk s -> NoDup (map fst (writes n s t)).
Proof.
  intros K. rewrite writes_wl, map_map. cbn [src1 fst]. change (fun x : fn * part => fst (src1 n s t x)) with (fun x : fn * part => cfile n (fst x) (snd x)).
  apply FinFun.Injective_map_NoDup; [|apply wl_NoDup, K]. intros [f p] [g q] E. cbn [fst snd] in E. apply cfile_eq, cname_inj in E. destruct E as [-> ->]. reflexivity.
Qed.
Lemma writes_nonempty n s t : writes n s t <> [].
Proof. intros E. assert (H : In (cfile n FInfo PWhole, CModel n FInfo PWhole s t) (writes n s t)) by (apply writes_In; exists FInfo, PWhole; repeat split). rewrite E in H. destruct H. Qed.
Lemma mputs_nonempty {A} (ws : smap A) : ws <> [] -> mputs ws [] <> [].
Proof. intros H E. destruct ws as [|[k v] ws]; [apply H; reflexivity|]. assert (X : In k (map fst (mputs ((k, v) :: ws) []))) by (apply mputs_keys; left; left; reflexivity). rewrite E in X. destruct X. Qed.

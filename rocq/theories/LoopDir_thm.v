(** * Directional derivatives of models with loops: the theorems (C66) *)
From Coq Require Import List Arith Bool NArith ZArith Sorting.Sorted Lia.
From Verif Require Import Pool_model Pool_proofs Assemble_model Assemble_proofs Assemble_thm Drivers_model Drivers_proofs Drivers_thm
  LoopAsm_model LoopAsm_spec LoopAsm_maps LoopAsm_run LoopAsm_group LoopAsm_main LoopAsm_thm LoopDir_model LoopDir_proofs.
Import ListNotations.
Local Open Scope nat_scope.

(** ** Specification *)

(** A model with loops: each value D k v s (element v of the direction k times the seed s) is the sum of the parts which the equations outside of loops
    and the groups of results of loops contribute; the functions give their parts. *)
Record loopModel (V : Type) (zero : V) (add : V -> V -> V) (ks vs : list nat) (nl : keymap) (gs : list lgroup)
  (noLoop : nat -> V -> option (list V)) (loopFn : nat -> nat -> V -> option (list (nat * V))) (D : nat -> nat -> V -> V) : Prop := mkLoopModel
{ lm_sum : monoid V zero add;
  lm_length : length ks = length vs;
  lm_once : forall p, ~ repeated ks vs p;
  lm_nl : keymap_ok ks nl;
  lm_gs : forall g, In g gs -> keymap_ok ks (lg_keys g);
  lm_parts : exists (NL : V -> nat -> nat -> V) (LV : V -> nat -> nat -> nat -> V),
    (forall s, noLoop_ok V zero (NL s) ks nl (fun k => noLoop k s)) /\ (forall s, loopFn_ok V zero add (LV s) gs (fun f k => loopFn f k s)) /\
    (forall p k v s, nth_error ks p = Some k -> nth_error vs p = Some v -> D k v s = expected V zero add (NL s) (LV s) nl gs k (rank ks p)) }.

Lemma nth_error_firstn_lt {A} : forall n (l : list A) e, e < n -> nth_error (firstn n l) e = nth_error l e.
Proof. induction n as [|n IH]; intros l e L; [lia|]. destruct l as [|x l]; [reflexivity|]. destruct e as [|e]; [reflexivity|]. cbn [firstn nth_error]. apply IH. lia. Qed.

(** ** The theorems *)

(** ForwardOne of a model with loops: as without loops (C53), whatever the work array had.  As in C53, requests with repeated elements are missing. *)
Theorem C66_loops_forward_one_partial : forall V (zero : V) add isz rows cols nl gs noLoop loopFn D ok garbage n m tx ty,
  loopModel V zero add cols rows nl gs noLoop loopFn D -> (forall i, In i rows -> i < m) ->
  2 * n <= length tx -> 2 * m <= length ty -> length cols <= length garbage ->
  (exists ty', forwardOneL V zero add isz noLoop loopFn cols rows nl gs ok garbage n m tx ty = Ret Done ty' /\
     outputs (fun i => 2 * i + 1) m (fun i => sumOf add zero (terms isz D cols rows (fun j => nth_error tx (2 * j + 1)) n i)) ty ty') \/
  ((exists r, ok r = false) /\ forwardOneL V zero add isz noLoop loopFn cols rows nl gs ok garbage n m tx ty = Ret NoMemory ty).
Proof.
  intros V zero add isz rows cols nl gs noLoop loopFn D ok garbage n m tx ty [Hm Hl Ho Hn Hg (NL & LV & H1 & H2 & H3)] B L1 L2 Lg.
  unfold forwardOneL. rewrite (directional_same V zero add Hm cols rows Hl Ho nl gs Hn Hg noLoop loopFn NL LV H1 H2 D H3).
  - apply (C53_forward_one_partial V zero add isz D false rows cols ok garbage n m tx ty); try assumption. intros p X. apply (Ho p). apply repeated_flip. exact X.
  - intros k Hk. apply nth_error_Some. lia.
  - exact Lg.
Qed.
Print Assumptions C66_loops_forward_one_partial.

Theorem C66_loops_reverse_one_partial : forall V (zero : V) add isz rows cols nl gs noLoop loopFn D ok garbage n m px py,
  loopModel V zero add rows cols nl gs noLoop loopFn D -> (forall j, In j cols -> j < n) ->
  n <= length px -> m <= length py -> length rows <= length garbage ->
  (exists px', reverseOneL V zero add isz noLoop loopFn rows cols nl gs ok garbage n m px py = Ret Done px' /\
     outputs (fun j => j) n (fun j => sumOf add zero (terms isz D rows cols (fun i => nth_error py i) m j)) px px') \/
  ((exists r, ok r = false) /\ reverseOneL V zero add isz noLoop loopFn rows cols nl gs ok garbage n m px py = Ret NoMemory px).
Proof.
  intros V zero add isz rows cols nl gs noLoop loopFn D ok garbage n m px py [Hm Hl Ho Hn Hg (NL & LV & H1 & H2 & H3)] B L1 L2 Lg.
  unfold reverseOneL. rewrite (directional_same V zero add Hm rows cols Hl Ho nl gs Hn Hg noLoop loopFn NL LV H1 H2 D H3).
  - apply (C53_reverse_one_partial V zero add isz D false rows cols ok garbage n m px py); assumption.
  - intros k Hk. apply nth_error_Some. lia.
  - exact Lg.
Qed.
Print Assumptions C66_loops_reverse_one_partial.

(** ReverseTwo; the weights w are an argument of the functions. *)
Theorem C66_loops_reverse_two_partial : forall V (zero : V) add isz rows cols nl gs noLoop loopFn D ok garbage n m tx px py,
  (forall w, loopModel V zero add rows cols nl gs (noLoop w) (loopFn w) (D w)) -> (forall j, In j cols -> j < n) ->
  2 * n <= length tx -> 2 * n <= length px -> 2 * m <= length py -> length rows <= length garbage ->
  let result := reverseTwoL V zero add isz noLoop loopFn rows cols nl gs ok garbage n m tx px py in
  ((exists i p, i < m /\ nth_error py (2 * i) = Some p /\ isz p = false) /\ result = Ret Failed px) \/
  ((forall i p, i < m -> nth_error py (2 * i) = Some p -> isz p = true) /\
   exists w, length w = m /\ (forall i, i < m -> nth_error w i = nth_error py (2 * i + 1)) /\
   ((exists px', result = Ret Done px' /\
      outputs (fun j => 2 * j) n (fun j => if forallb isz w then zero else
        sumOf add zero (terms isz (D w) rows cols (fun j => nth_error tx (2 * j + 1)) n j)) px px') \/
    ((exists r, ok r = false) /\ exists px', result = Ret NoMemory px' /\ outputs (fun j => 2 * j) n (fun _ => zero) px px'))).
Proof.
  intros V zero add isz rows cols nl gs noLoop loopFn D ok garbage n m tx px py HM B L1 L2 L3 Lg result.
  assert (Ho : forall p, ~ repeated rows cols p) by (destruct (HM []); assumption).
  assert (E : result = reverseTwo V zero add isz D false rows cols ok true garbage n m tx px py).
  { unfold result, reverseTwoL, reverseTwo. destruct (weights V isz py (seq 0 m)) as [[w|]|]; try reflexivity. destruct (clear V zero (fun j => j * 2) (seq 0 n) px) as [px'|]; [|reflexivity].
    destruct (forallb isz w); [reflexivity|]. destruct (HM w) as [Hm Hl _ Hn Hg (NL & LV & H1 & H2 & H3)].
    destruct (scan_ok V isz rows cols ok (fun j => nth_error tx (j * 2 + 1)) (seq 0 n)) with (pos := @nil nat) (nnzMax := 0) as [[mx [E L]]|[_ E]].
    - intros j I. apply in_seq in I. apply nth_error_Some. lia.
    - intros j [].
    - rewrite E. cbn [app] in L |- *. destruct (filter _ (seq 0 n)) as [|j pos] eqn:Ef; [reflexivity|].
      apply (eachDirection_same V zero add Hm rows cols Hl Ho nl gs Hn Hg (noLoop w) (loopFn w) NL LV H1 H2 (D w) H3).
      + intros j' I. apply (scanned_keys V rows cols Hl isz (fun j => nth_error tx (j * 2 + 1)) (seq 0 n)). rewrite Ef. exact I.
      + intros j' I. apply (firstn_enough V rows cols Hl); [exact (L j' I)|exact Lg].
    - rewrite E. reflexivity. }
  rewrite E. exact (C53_reverse_two_partial V zero add isz D false rows cols ok garbage n m tx px py Ho B L1 L2 L3 Lg).
Qed.
Print Assumptions C66_loops_reverse_two_partial.

(** The methods with sparse arguments: right when all the directions have a function outside of loops, because it assigns all the elements.
    Full statement: for all directions with requested elements; refuted below. *)
Theorem C66_loops_sparse_arguments_partial : forall V (zero : V) add ks vs nl gs noLoop loopFn D nOut comp idx seeds out,
  loopModel V zero add ks vs nl gs noLoop loopFn D -> (forall v, In v vs -> v < nOut) -> nOut <= length out -> nOut <= length comp ->
  length seeds = length idx -> (forall k, In k idx -> In k (map fst nl)) ->
  exists comp' out', sparseMethodL V zero add noLoop loopFn ks vs nl gs nOut comp idx seeds out = LDone comp' out' /\
    outputs (fun v => v) nOut
      (fun v => sumOf add zero (flat_map (fun p => if wanted ks vs (fst p) v then [D (fst p) v (snd p)] else []) (combine idx seeds))) out out'.
Proof.
  intros V zero add ks vs nl gs noLoop loopFn D nOut comp idx seeds out [Hm Hl Ho Hn Hg (NL & LV & H1 & H2 & H3)] B Lo Lc Ls W.
  assert (Wk : forall k, In k idx -> In k ks). { intros k I. specialize (W k I). apply in_map_iff in W. destruct W as ([k' sn] & <- & J). exact (proj1 (proj2 Hn k' sn J)). }
  destruct (C53_sparse_arguments_partial V zero add D false ks vs nOut comp idx seeds out Ho B Lo Lc Ls) as (out' & E & O).
  { intros k I. apply Wk in I. apply (elsOf_key k ks vs Hl) in I. destruct (elsOf k (combine ks vs)) as [|v r] eqn:X; [congruence|]. exists v. rewrite wanted_els, X. cbn [existsb]. rewrite Nat.eqb_refl. reflexivity. }
  unfold sparseMethod in E. unfold sparseMethodL. destruct (nOut <=? length out); [|discriminate]. cbn [negb] in *. destruct (clear V zero (fun i => i) (seq 0 nOut) out) as [out1|]; [|discriminate].
  pose proof (sparseLoop_same V zero add Hm ks vs Hl Ho nl gs Hn Hg noLoop loopFn NL LV H1 H2 D H3 idx seeds (firstn nOut comp) out1 W) as S. rewrite E in S.
  destruct S as (comp' & S). { intros k I. rewrite <- (elsOf_count k ks vs Hl), firstn_length. pose proof (els_length ks vs k nOut Ho B). lia. }
  exists comp', out'. split; [exact S|exact O].
Qed.
Print Assumptions C66_loops_sparse_arguments_partial.

(** A direction with no function outside of loops: to each value is added what was in the work array. *)
Theorem C66_loops_leftovers : forall V (zero : V) add ks vs nl gs noLoop loopFn D nOut comp k s out,
  loopModel V zero add ks vs nl gs noLoop loopFn D -> (forall v, In v vs -> v < nOut) -> nOut <= length out -> nOut <= length comp ->
  In k ks -> ~ In k (map fst nl) ->
  exists comp' out', sparseMethodL V zero add noLoop loopFn ks vs nl gs nOut comp [k] [s] out = LDone comp' out' /\
    forall p v old, nth_error ks p = Some k -> nth_error vs p = Some v -> nth_error comp (rank ks p) = Some old ->
      nth_error out' v = Some (add old (D k v s)) /\ nth_error comp' (rank ks p) = Some (add old (D k v s)).
Proof.
  intros V zero add ks vs nl gs noLoop loopFn D nOut comp k s out [Hm Hl Ho Hn Hg (NL & LV & H1 & H2 & H3)] B Lo Lc Hk Nk. unfold sparseMethodL.
  replace (nOut <=? length out) with true by (symmetry; apply Nat.leb_le; exact Lo). cbn [negb].
  destruct (clear_ok V zero (fun i => i) (fun a b H => H) (seq 0 nOut) out) as [out1 [E1 [L1 [P1 Q1]]]]; [intros i I; apply in_seq in I; lia|]. rewrite E1. cbn [sparseLoopL]. rewrite sparsityOf_ok.
  pose proof (els_length ks vs k nOut Ho B) as Le. pose proof (elsOf_count k ks vs Hl) as Lel.
  assert (Lf : length (firstn nOut comp) = nOut) by (rewrite firstn_length; lia).
  assert (A0 : arr V nOut (firstn nOut comp) (fun e => nth e (firstn nOut comp) zero)). { rewrite <- Lf at 1. apply list_fun. }
  destruct (dirRun_ok V zero add Hm ks vs Hl nl gs Hn Hg noLoop loopFn NL LV H1 H2 k s nOut (firstn nOut comp) (fun e => nth e (firstn nOut comp) zero) Hk) as (c' & F' & E' & [Lc' Ac'] & P' & _); [lia|exact A0|]. rewrite E'.
  assert (Hh : hasKey nl k = false) by (destruct (hasKey nl k) eqn:X; [apply hasKey_In in X; contradiction|reflexivity]). rewrite Hh in P'.
  set (els := elsOf k (combine ks vs)) in *.
  assert (N : NoDup els) by (apply elsOf_NoDup, distinct_NoDup; exact Ho).
  assert (Pl : forall e v, nth_error els e = Some v -> exists old, nth_error comp e = Some old /\ nth_error c' e = Some (add old (D k v s))).
  { intros e v He. assert (e < length els) by (apply nth_error_Some; rewrite He; discriminate). destruct (nth_error comp e) as [old|] eqn:Ec; [|apply nth_error_None in Ec; lia]. exists old. split; [reflexivity|].
    rewrite (Ac' e) by lia. f_equal. rewrite (P' e) by lia. destruct (elsOf_place k ks vs e v He) as (p & A & C & R). rewrite (H3 p k v s A C), R. f_equal. apply nth_error_nth. rewrite nth_error_firstn_lt by lia. exact Ec. }
  assert (G : exists g rest, c' = map g els ++ rest /\ forall e v, nth_error els e = Some v -> nth_error c' e = Some (g v)).
  { assert (X : forall (es : list nat) (c : list V), NoDup es -> length es <= length c -> exists g rest, c = map g es ++ rest /\ forall e v, nth_error es e = Some v -> nth_error c e = Some (g v)).
    { clear -zero. induction es as [|v es IH]; intros c Nd L; [exists (fun _ : nat => zero), c; split; [reflexivity|intros [|e] v X; discriminate]|]. destruct c as [|x c]; [cbn [length] in L; lia|]. inversion Nd as [|? ? N1 N2]; subst.
      destruct (IH c N2) as (g & rest & -> & P); [cbn [length] in L; lia|]. exists (fun u => if u =? v then x else g u), rest. cbn [map app]. rewrite Nat.eqb_refl.
      assert (M : map (fun u => if u =? v then x else g u) es = map g es). { apply map_ext_in. intros u I. destruct (Nat.eqb_spec u v) as [->|]; [contradiction|reflexivity]. }
      rewrite M. split; [reflexivity|]. intros [|e] u Hu; cbn [nth_error] in *; [injection Hu as <-; rewrite Nat.eqb_refl; reflexivity|]. rewrite (P e u Hu). f_equal. destruct (Nat.eqb_spec u v) as [->|]; [exfalso; apply N1; exact (nth_error_In _ _ Hu)|reflexivity]. }
    apply X; [exact N|lia]. }
  destruct G as (g & rest & Ec' & Pg).
  destruct (accumulate_ok V add (fun i => i) (fun a b H => H) g els N rest out1) as (out2 & Ea & _ & Pa & _).
  { intros v I. apply elsOf_In in I. destruct I as [e [_ X]]. pose proof (B v (nth_error_In _ _ X)). lia. }
  rewrite firstn_all. rewrite Ec', Ea. exists (map g els ++ rest), out2. split; [reflexivity|]. rewrite <- Ec'. intros p v old Hp Hv Hold.
  assert (He : nth_error els (rank ks p) = Some v).
  { subst els. clear -Hp Hv. revert ks vs Hp Hv. induction p as [|p IH]; intros ks vs Hp Hv.
    - destruct ks as [|a ks]; [discriminate|]. destruct vs as [|b vs]; [discriminate|]. injection Hp as ->. injection Hv as ->. unfold elsOf. cbn [combine filter fst]. rewrite Nat.eqb_refl. reflexivity.
    - destruct ks as [|a ks]; [discriminate|]. destruct vs as [|b vs]; [discriminate|]. cbn [nth_error] in Hp, Hv. rewrite (rank_S _ _ _ _ Hp). specialize (IH ks vs Hp Hv). unfold elsOf in *. cbn [combine filter fst].
      rewrite (Nat.eqb_sym k a). destruct (a =? k); exact IH. }
  destruct (Pl _ _ He) as (old' & Eo & Ev). rewrite Hold in Eo. injection Eo as <-. split; [|exact Ev].
  rewrite (Pa v zero (nth_error_In _ _ He)).
  - rewrite (Pg _ _ He) in Ev. injection Ev as ->. f_equal. apply (mo_zero _ _ _ Hm).
  - apply P1. apply in_seq. pose proof (B v (nth_error_In _ _ Hv)). lia.
Qed.
Print Assumptions C66_loops_leftovers.

(** A case: the equations 0 and 1 are in a loop (two iterations), the equation 2 is outside; J is their Jacobian. *)
Definition d_ks : list nat := [0; 0; 1; 1; 2].
Definition d_vs : list nat := [0; 2; 1; 2; 1].
Definition d_J (i j : nat) : Z := nth j (nth i [[3; 0; 4]; [0; 5; 6]; [0; 7; 0]]%Z []) 0%Z.
Definition d_nl : keymap := [(2, [0])].
Definition d_gs : list lgroup := [mkLG 0 [(0, [0]); (1, [0])]; mkLG 1 [(0, [1]); (1, [1])]].
Definition d_noLoop (k : nat) (s : Z) : option (list Z) := match k with 2 => Some [(7 * s)%Z] | _ => None end.
Definition d_loopFn (f k : nat) (s : Z) : option (list (nat * Z)) :=
  match f, k with 0, 0 => Some [(0, (3 * s)%Z)] | 0, 1 => Some [(0, (5 * s)%Z)] | 1, 0 => Some [(1, (4 * s)%Z)] | 1, 1 => Some [(1, (6 * s)%Z)] | _, _ => None end.
Lemma d_model : loopModel Z 0%Z Z.add d_ks d_vs d_nl d_gs d_noLoop d_loopFn (fun i j s => (d_J i j * s)%Z).
Proof.
  split.
  - exact Z_monoid.
  - reflexivity.
  - intros p (q & k & v & Hq & [A B] & [C E]).
    assert (N : NoDup (combine d_ks d_vs)) by (vm_compute; repeat (constructor; [cbn [In]; intuition discriminate|]); constructor).
    assert (X : nth_error (combine d_ks d_vs) q = nth_error (combine d_ks d_vs) p) by (rewrite (proj2 (combine_nth_iff d_ks d_vs q k v)), (proj2 (combine_nth_iff d_ks d_vs p k v)); [reflexivity| |]; split; assumption).
    apply (proj1 (NoDup_nth_error _) N) in X; [lia|]. apply nth_error_Some. rewrite (proj2 (combine_nth_iff d_ks d_vs q k v)); [discriminate|]. split; assumption.
  - split; [cbn; sorted|]. intros k s I. cbn in I. destruct I as [E|[]]; injection E as <- <-.
    split; [vm_compute; tauto|split; [discriminate|split; [sorted|intros e Ie; cbn in Ie; intuition subst; vm_compute; lia]]].
  - intros g I. cbn in I. destruct I as [<-|[<-|[]]]; (split; [cbn; sorted|]); intros k s I; cbn in I; destruct I as [E|[E|[]]]; injection E as <- <-;
      (split; [vm_compute; tauto|split; [discriminate|split; [sorted|intros e Ie; cbn in Ie; intuition subst; vm_compute; lia]]]).
  - exists (fun s _ _ => (7 * s)%Z), (fun s f k _ => match f, k with 0, 0 => (3 * s)%Z | 0, _ => (5 * s)%Z | _, 0 => (4 * s)%Z | _, _ => (6 * s)%Z end). split; [|split].
    + intros s k sn I. cbn in I. destruct I as [E|[]]; injection E as <- <-. eexists. split; [reflexivity|]. split; [reflexivity|]. split.
      * intros e [<-|[]]. reflexivity.
      * intros e He Ne. vm_compute in He. destruct e; [exfalso; apply Ne; left; reflexivity|lia].
    + intros s g k sn I Ik. cbn in I. destruct I as [<-|[<-|[]]]; cbn in Ik; destruct Ik as [E|[E|[]]]; injection E as <- <-; eexists; (split; [reflexivity|]);
        (split; [intros e v H; cbn in H; cbn; intuition congruence|intros e H; cbn in H; intuition (subst; cbn -[Z.mul]; lia)]).
    + intros p k v s Hp Hv. do 5 (destruct p as [|p]; [injection Hp as <-; injection Hv as <-; cbn -[Z.mul Z.add]; vm_compute (d_J _ _); lia|]). destruct p; discriminate.
Qed.
Example C66_case : exists px', reverseOneL Z 0%Z Z.add (Z.eqb 0) d_noLoop d_loopFn d_ks d_vs d_nl d_gs (fun _ => true) [9; 9; 9; 9; 9]%Z 3 3 [8; 8; 8]%Z [10; 100; 1]%Z = Ret Done px' /\
  outputs (fun j => j) 3 (fun j => sumOf Z.add 0%Z (terms (Z.eqb 0) (fun i j s => (d_J i j * s)%Z) d_ks d_vs (fun i => nth_error [10; 100; 1]%Z i) 3 j)) [8; 8; 8]%Z px'.
Proof.
  destruct (C66_loops_reverse_one_partial Z 0%Z Z.add (Z.eqb 0) d_ks d_vs d_nl d_gs d_noLoop d_loopFn (fun i j s => (d_J i j * s)%Z) (fun _ => true) [9; 9; 9; 9; 9]%Z 3 3 [8; 8; 8]%Z [10; 100; 1]%Z d_model) as [H|[[r X] _]].
  - intros j I. cbn in I. intuition lia.
  - cbn. lia.
  - cbn. lia.
  - cbn. lia.
  - exact H.
  - discriminate.
Qed.
Example C66_case_value : reverseOneL Z 0%Z Z.add (Z.eqb 0) d_noLoop d_loopFn d_ks d_vs d_nl d_gs (fun _ => true) [9; 9; 9; 9; 9]%Z 3 3 [8; 8; 8]%Z [10; 100; 1]%Z = Ret Done [30; 507; 640]%Z.
Proof. vm_compute. reflexivity. Qed.

(** ReverseOne with sparse arguments, called twice for the equation 0 of the loop with a work array which is zero at first: the first call is right and
    the second one gives twice the derivatives. *)
Theorem C66_loops_sparse_arguments_second_call_refuted : exists ks vs nl gs noLoop loopFn (J : nat -> nat -> Z) comp1 comp2,
  loopModel Z 0%Z Z.add ks vs nl gs noLoop loopFn (fun i j s => (J i j * s)%Z) /\ J 0 0 = 3%Z /\ J 0 1 = 0%Z /\ J 0 2 = 4%Z /\
  sparseMethodL Z 0%Z Z.add noLoop loopFn ks vs nl gs 3 [0; 0; 0]%Z [0] [1]%Z [0; 0; 0]%Z = LDone comp1 [3; 0; 4]%Z /\
  sparseMethodL Z 0%Z Z.add noLoop loopFn ks vs nl gs 3 comp1 [0] [1]%Z [0; 0; 0]%Z = LDone comp2 [6; 0; 8]%Z.
Proof.
  exists d_ks, d_vs, d_nl, d_gs, d_noLoop, d_loopFn, d_J, [3; 4; 0]%Z, [6; 8; 0]%Z. split; [exact d_model|]. repeat split; vm_compute; reflexivity.
Qed.
Print Assumptions C66_loops_sparse_arguments_second_call_refuted.

(** and one call for the equations 0 and 1: the values of the first one are added to those of the second one. *)
Theorem C66_loops_sparse_arguments_two_directions_refuted : exists ks vs nl gs noLoop loopFn (J : nat -> nat -> Z) comp1,
  loopModel Z 0%Z Z.add ks vs nl gs noLoop loopFn (fun i j s => (J i j * s)%Z) /\
  (forall j, j < 3 -> (J 0%nat j * 1 + J 1%nat j * 10)%Z = nth j [3; 50; 64]%Z 0%Z) /\
  sparseMethodL Z 0%Z Z.add noLoop loopFn ks vs nl gs 3 [0; 0; 0]%Z [0; 1] [1; 10]%Z [0; 0; 0]%Z = LDone comp1 [3; 53; 68]%Z.
Proof.
  exists d_ks, d_vs, d_nl, d_gs, d_noLoop, d_loopFn, d_J, [53; 64; 0]%Z. split; [exact d_model|]. split.
  - intros j Hj. do 3 (destruct j as [|j]; [reflexivity|]). lia.
  - vm_compute. reflexivity.
Qed.
Print Assumptions C66_loops_sparse_arguments_two_directions_refuted.

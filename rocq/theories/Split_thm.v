(** * Splitting generated code over functions: specification and theorems (C40) *)
From Coq Require Import List Bool Arith String Lia Ascii QArith Qcanon.
From Verif Require Import Graph_model Graph_spec Graph_Qc Codegen_model Codegen_spec Codegen_thm Names_model Names_thm Split_model.
Import ListNotations.
Local Open Scope string_scope.
Local Open Scope list_scope.
Local Open Scope nat_scope.

(** ** Specification *)

(** The statements of a piece of text. *)
Definition text {T} (x : item T) : list T := match x with ILine t _ _ => [t] | IDeps t => [t] | ISilent => [] end.
Definition texts {T} (l : list (item T)) : list T := flat_map text l.

(** What calling a local function does: its file exists, has nothing outside of the function, and its parameters are the
    arguments of the call (a parameter is bound to the variable of the same name). *)
Definition callLocal {T} (m : files T) (c : string * list string) : option (list T) :=
  match fget (fileName (fst c)) m with
  | Some (mkFile [] ps _ body [] after) =>
      if list_eq_dec string_dec ps (snd c) then Some (texts body ++ after) else None
  | _ => None
  end.
Fixpoint callAll {T} (m : files T) (l : list (string * list string)) : option (list T) :=
  match l with
  | [] => Some []
  | c :: l' => match callLocal m c, callAll m l' with Some x, Some y => Some (x ++ y) | _, _ => None end
  end.
(** The statements executed by a call of the function [fn], in order. *)
Definition call {T} (m : files T) (fn : string) : option (list T) :=
  match fget (fileName fn) m with
  | Some (mkFile [] _ _ body calls after) =>
      match callAll m calls with Some x => Some (texts body ++ x ++ after) | None => None end
  | _ => None
  end.

(** Number of open loops after [l], from [k]; [None]: a loop is closed which is not open, or a dependent of a loop is outside of
    every loop. *)
Fixpoint level {T} (k : nat) (l : list (item T)) : option nat :=
  match l with
  | [] => Some k
  | ISilent :: l' => level k l'
  | IDeps _ :: l' => match k with 0 => None | S _ => level k l' end
  | ILine _ _ LNone :: l' => level k l'
  | ILine _ _ LOpen :: l' => level (S k) l'
  | ILine _ _ LClose :: l' => match k with 0 => None | S k' => level k' l' end
  end.
(** all loops are closed *)
Definition complete {T} (l : list (item T)) : Prop := level 0 l = Some 0.
(** every printed statement outside of loops counts at least one assignment *)
Definition counted {T} (l : list (item T)) : Prop := forall t d, ~ In (ILine t 0 d) l.

(** assignments counted in [l] *)
Fixpoint lines {T} (l : list (item T)) : nat :=
  match l with
  | [] => 0
  | ILine _ n _ :: l' => n + lines l'
  | _ :: l' => lines l'
  end.

(** One statement, or a whole loop. *)
Definition block {T} (b : list (item T)) : Prop :=
  b <> [] /\ complete b /\ forall p q, b = p ++ q -> p <> [] -> q <> [] -> exists k, level 0 p = Some (S k).

(** A function within the limit: fewer than [limit] assignments in front of the last statement or loop. *)
Definition within {T} (limit : nat) (body : list (item T)) : Prop :=
  exists l b, body = l ++ b /\ complete l /\ lines l < limit /\ block b.

(** The text of the whole program when it is not split. *)
Definition unsplit {T} (zeroDeps : bool) (zero : T) (order : list (item T)) (tail : list T) : list T :=
  (match order with [] => [] | _ => if zeroDeps then [zero] else [] end) ++ texts order ++ tail.

(** ** Maps of files *)
Lemma fget_same {T} k (v : cfile T) m : fget k (fset k v m) = Some v.
Proof.
  induction m as [|[k' v'] m IH]; cbn; [rewrite String.eqb_refl; reflexivity|].
  destruct (String.eqb k k') eqn:E; cbn; [rewrite String.eqb_refl|rewrite E]; auto.
Qed.

Lemma fget_other {T} k k' (v : cfile T) m : k' <> k -> fget k' (fset k v m) = fget k' m.
Proof.
  intros H. induction m as [|[k2 v2] m IH]; cbn.
  - apply String.eqb_neq in H. rewrite H. reflexivity.
  - destruct (String.eqb k k2) eqn:E; cbn.
    + apply String.eqb_eq in E. subst k2. apply String.eqb_neq in H. rewrite H. reflexivity.
    + destruct (String.eqb k' k2); auto.
Qed.

Lemma app_len s t : String.length (s ++ t) = String.length s + String.length t.
Proof. induction s as [|a s IH]; cbn; [reflexivity|]. rewrite IH. reflexivity. Qed.

Lemma app_last : forall s t u, (s ++ u = t ++ u)%string -> s = t.
Proof.
  induction s as [|a s IH]; intros [|b t] u E; [reflexivity| | |].
  - apply (f_equal String.length) in E. cbn in E. rewrite app_len in E. lia.
  - apply (f_equal String.length) in E. cbn in E. rewrite app_len in E. lia.
  - cbn in E. injection E as -> E. f_equal. eapply IH, E.
Qed.

Lemma app_assoc_s : forall s t u : string, ((s ++ t) ++ u = s ++ (t ++ u))%string.
Proof. induction s as [|a s IH]; intros; cbn; [reflexivity|]. f_equal. apply IH. Qed.

Lemma fileName_inj a b : fileName a = fileName b -> a = b.
Proof. apply app_last. Qed.

Lemma localName_inj fn k k' : localName fn k = localName fn k' -> k = k'.
Proof. unfold localName. intros E. apply app_head in E. apply app_head in E. apply dec_inj, E. Qed.

Lemma localName_ne fn k : localName fn k <> fn.
Proof.
  unfold localName. intros E. apply (f_equal String.length) in E. rewrite !app_len in E. cbn in E. lia.
Qed.

(** ** Levels and lines *)
Lemma level_app {T} : forall (a b : list (item T)) k, level k (a ++ b) = match level k a with Some j => level j b | None => None end.
Proof.
  induction a as [|x a IH]; intros b k; [reflexivity|]. cbn [app level]. destruct x as [t n [| |]|t|]; auto.
  - destruct k; auto.
  - destruct k; auto.
Qed.

Lemma lines_app {T} (a b : list (item T)) : lines (a ++ b) = lines a + lines b.
Proof. induction a as [|[t n d|t|] a IH]; cbn; lia. Qed.

Lemma texts_app {T} (a b : list (item T)) : texts (a ++ b) = texts a ++ texts b.
Proof. apply flat_map_app. Qed.

(** the items which print something *)
Definition printed {T} (l : list (item T)) : list (item T) := filter (fun x => match x with ISilent => false | _ => true end) l.

Lemma texts_printed {T} (l : list (item T)) : texts (printed l) = texts l.
Proof. induction l as [|[t n d|t|] l IH]; cbn; [reflexivity| | |]; unfold texts, printed in *; cbn; rewrite ?IH; auto. Qed.

(** ** The invariant of the loop *)
Section Inv.
Context {T : Type}.
Variable fn : string.
Variable indexes : list string.
Variable limit : nat.
Variable arrays zeroDeps : bool.
Variable src : files T.

Definition localFile (k : nat) (body : list (item T)) : cfile T :=
  mkFile [] (localParams indexes) (arrays || (Nat.eqb k 0 && zeroDeps)) body [] [].

(** the saved functions *)
Record saved (s : sst T) (groups : list (list (item T))) : Prop := {
  sv_names : s_names s = map (fun k => localName fn (S k)) (seq 0 (List.length groups));
  sv_files : forall k body, nth_error groups k = Some body -> fget (fileName (localName fn (S k))) (s_src s) = Some (localFile k body);
  sv_other : forall f, (forall k, k < List.length groups -> f <> fileName (localName fn (S k))) -> fget f (s_src s) = fget f src
}.

Lemma saved_save s groups z : saved s groups -> z = (Nat.eqb (List.length groups) 0 && zeroDeps) ->
  saved (saveLocal fn indexes arrays s z) (groups ++ [s_code s]).
Proof.
  intros [Hn Hf Ho] Hz.
  assert (Hl : List.length (s_names s) = List.length groups) by (rewrite Hn, map_length, seq_length; reflexivity).
  constructor; unfold saveLocal; cbn [s_names s_src].
  - rewrite app_length. cbn [List.length]. rewrite Hl, !Nat.add_1_r, seq_S, map_app. cbn [map]. rewrite <- Hn. reflexivity.
  - rewrite Hl, Nat.add_1_r. intros k body Hk. destruct (Nat.lt_trichotomy k (List.length groups)) as [H|[H|H]].
    + rewrite nth_error_app1 in Hk by exact H. rewrite fget_other; [apply Hf, Hk|].
      intros E. apply fileName_inj, localName_inj in E. lia.
    + rewrite H in *. rewrite nth_error_app2, Nat.sub_diag in Hk by lia. injection Hk as <-. rewrite fget_same. rewrite Hz. reflexivity.
    + assert (nth_error (groups ++ [s_code s]) k = None) by (apply nth_error_None; rewrite app_length; cbn; lia). congruence.
  - rewrite app_length. cbn [List.length]. intros f H. rewrite fget_other.
    + apply Ho. intros k Hk. apply H. lia.
    + rewrite Hl, Nat.add_1_r. apply H. lia.
Qed.

Lemma noNames_groups s groups : saved s groups -> noNamesYet s = Nat.eqb (List.length groups) 0.
Proof. intros H. unfold noNamesYet. rewrite (sv_names _ _ H). destruct groups; reflexivity. Qed.

(** A part of a block which is not finished. *)
Definition openBlock (k : nat) (b : list (item T)) : Prop :=
  b <> [] /\ level 0 b = Some (S k) /\ forall p q, b = p ++ q -> p <> [] -> q <> [] -> exists j, level 0 p = Some (S j).

(** the text printed since the last function was saved *)
Definition pending (s : sst T) : Prop :=
  match s_loops s with
  | 0 => complete (s_code s) /\ (lines (s_code s) < limit \/ within limit (s_code s))
  | S k => exists l b, s_code s = l ++ b /\ complete l /\ lines l < limit /\ openBlock k b
  end.

Record inv (s : sst T) (groups : list (list (item T))) : Prop := {
  iv_saved : saved s groups;
  iv_count : s_count s = lines (s_code s);
  iv_within : Forall (within limit) groups;
  iv_complete : Forall complete groups;
  iv_full : Forall (fun g => limit <= lines g) groups;
  iv_pending : pending s;
  iv_empty : groups <> [] -> s_count s = 0 -> s_code s = []
}.

Lemma open_snoc k b x : openBlock k b -> forall k', level 0 (b ++ [x]) = Some k' ->
  match k' with 0 => block (b ++ [x]) | S j => openBlock j (b ++ [x]) end.
Proof.
  intros (Hne & Hl & Hp) k' E.
  assert (P : forall p q, b ++ [x] = p ++ q -> p <> [] -> q <> [] -> exists j, level 0 p = Some (S j)).
  { intros p q Epq Hpn Hq. destruct (exists_last Hq) as (q' & y & ->). rewrite app_assoc in Epq. apply app_inj_tail in Epq.
    destruct Epq as [Eb _]. destruct q' as [|z q'].
    - rewrite app_nil_r in Eb. rewrite <- Eb. exists k. exact Hl.
    - apply (Hp p (z :: q') Eb Hpn). discriminate. }
  destruct k' as [|j]; (split; [destruct b; discriminate|split; [exact E|exact P]]).
Qed.

Lemma single_block (x : item T) : level 0 [x] = Some 0 -> block [x].
Proof.
  intros E. split; [discriminate|]. split; [exact E|]. intros p q Epq Hp Hq.
  destruct p as [|a p]; [congruence|]. injection Epq as _ Epq. destruct p; [|discriminate]. destruct q; [congruence|discriminate].
Qed.

Lemma single_open (x : item T) k : level 0 [x] = Some (S k) -> openBlock k [x].
Proof.
  intros E. split; [discriminate|]. split; [exact E|]. intros p q Epq Hp Hq.
  destruct p as [|a p]; [congruence|]. injection Epq as _ Epq. destruct p; [|discriminate]. destruct q; [congruence|discriminate].
Qed.

(** One more printed item. *)
Lemma pending_add s x k' : pending s -> s_count s = lines (s_code s) ->
  (s_loops s = 0 -> lines (s_code s) < limit) -> level (s_loops s) [x] = Some k' ->
  forall s', s_code s' = s_code s ++ [x] -> s_loops s' = k' -> pending s'.
Proof.
  intros Hp Hc Hlim Hk s' Ec El. unfold pending. rewrite Ec, El. unfold pending in Hp.
  destruct (s_loops s) as [|j] eqn:EL.
  - destruct Hp as [Hcomp _]. specialize (Hlim eq_refl). destruct k' as [|k'].
    + split; [unfold complete; rewrite level_app, Hcomp; exact Hk|]. right. exists (s_code s), [x].
      split; [reflexivity|]. split; [exact Hcomp|]. split; [exact Hlim|]. apply single_block, Hk.
    + exists (s_code s), [x]. split; [reflexivity|]. split; [exact Hcomp|]. split; [exact Hlim|]. apply single_open, Hk.
  - destruct Hp as (l & b & Eb & Hcl & Hll & Ho).
    assert (E : level 0 (b ++ [x]) = Some k') by (rewrite level_app; destruct Ho as (_ & -> & _); exact Hk).
    pose proof (open_snoc _ _ x Ho _ E) as Q. rewrite Eb, <- app_assoc. destruct k' as [|k'].
    + assert (C : complete (l ++ b ++ [x])) by (unfold complete; rewrite level_app, Hcl; exact E).
      split; [exact C|]. right. exists l, (b ++ [x]). auto.
    + exists l, (b ++ [x]). auto.
Qed.

Lemma save_needed s groups : inv s groups -> (Nat.leb limit (s_count s) && true && Nat.eqb (s_loops s) 0)%bool = true ->
  inv (saveLocal fn indexes arrays s (noNamesYet s && zeroDeps)) (groups ++ [s_code s]).
Proof.
  intros [Hs Hc Hw Hco Hf Hp He] E. rewrite andb_true_r in E. apply andb_prop in E. destruct E as [E1 E2].
  apply Nat.leb_le in E1. apply Nat.eqb_eq in E2. pose proof Hp as Hp'. unfold pending in Hp'. rewrite E2 in Hp'. destruct Hp' as [Hp1 Hp2].
  constructor.
  - apply saved_save; [exact Hs|]. rewrite (noNames_groups _ _ Hs). reflexivity.
  - reflexivity.
  - apply Forall_app. split; [exact Hw|]. constructor; [|constructor]. destruct Hp2 as [Hp2|Hp2]; [lia|exact Hp2].
  - apply Forall_app. split; [exact Hco|]. constructor; [exact Hp1|constructor].
  - apply Forall_app. split; [exact Hf|]. constructor; [lia|constructor].
  - unfold pending, saveLocal. cbn [s_loops s_code]. rewrite E2. split; [reflexivity|].
    destruct limit as [|m] eqn:El; [|left; cbn; lia].
    destruct Hp2 as [Hp2|(l & b & _ & _ & Hl & _)]; lia.
  - intros _ _. reflexivity.
Qed.

Lemma step_inv s groups x k' : 0 < limit -> inv s groups -> (forall t d, x <> ILine t 0 d) -> level (s_loops s) [x] = Some k' ->
  exists groups', inv (splitStep fn indexes limit arrays zeroDeps true s x) groups' /\
    s_loops (splitStep fn indexes limit arrays zeroDeps true s x) = k' /\
    List.concat groups' ++ s_code (splitStep fn indexes limit arrays zeroDeps true s x) =
    (List.concat groups ++ s_code s) ++ printed [x].
Proof.
  intros Hlim0 HI Hx Hk. unfold splitStep.
  set (c := (Nat.leb limit (s_count s) && true && Nat.eqb (s_loops s) 0)%bool).
  set (s1 := if c then saveLocal fn indexes arrays s (noNamesYet s && zeroDeps) else s).
  assert (H1 : exists g1, inv s1 g1 /\ s_loops s1 = s_loops s /\ (s_loops s1 = 0 -> lines (s_code s1) < limit) /\
    List.concat g1 ++ s_code s1 = List.concat groups ++ s_code s).
  { unfold s1. destruct c eqn:E.
    - exists (groups ++ [s_code s]). split; [apply save_needed; assumption|]. split; [reflexivity|]. split; [intros _; exact Hlim0|].
      unfold saveLocal. cbn [s_code]. rewrite List.concat_app. cbn [List.concat]. rewrite !app_nil_r. reflexivity.
    - exists groups. split; [exact HI|]. split; [reflexivity|]. split; [|reflexivity]. intros H0. rewrite <- (iv_count _ _ HI).
      unfold c in E. rewrite H0, andb_true_r in E. cbn [Nat.eqb] in E. rewrite andb_true_r in E. apply Nat.leb_gt in E. exact E. }
  destruct H1 as (g1 & I1 & EL & Hlim & ET). rewrite <- EL in Hk. clearbody s1. clear c.
  destruct x as [t n d|t|].
  - exists g1. set (s2 := mkSst (s_code s1 ++ [ILine t n d]) (s_count s1 + n) (loopsAfter d (s_loops s1)) (s_names s1) (s_src s1)).
    assert (E2 : s_loops s2 = k').
    { unfold s2. cbn [s_loops]. cbn in Hk. destruct d; cbn [loopsAfter].
      - injection Hk as <-. reflexivity.
      - injection Hk as <-. reflexivity.
      - destruct (s_loops s1); [discriminate|]. injection Hk as <-. reflexivity. }
    split; [|split; [exact E2|]].
    + destruct I1 as [Hs Hc Hw Hco Hf Hp He]. constructor; try assumption.
      * destruct Hs as [A1 A2 A3]. constructor; assumption.
      * unfold s2. cbn [s_count s_code]. rewrite lines_app, Hc. cbn [lines]. lia.
      * eapply (pending_add s1 (ILine t n d) k'); eauto.
      * unfold s2. cbn [s_count]. intros _ H0. exfalso. apply (Hx t d). f_equal. lia.
    + unfold s2. cbn [s_code]. rewrite app_assoc, ET. reflexivity.
  - exists g1. set (s2 := mkSst (s_code s1 ++ [IDeps t]) (s_count s1) (s_loops s1) (s_names s1) (s_src s1)).
    cbn in Hk. destruct (s_loops s1) as [|j] eqn:EL1; [discriminate|]. injection Hk as Hk.
    split; [|split; [exact Hk|]].
    + pose proof I1 as [Hs Hc Hw Hco Hf Hp He]. constructor; try assumption.
      * destruct Hs as [A1 A2 A3]. constructor; assumption.
      * unfold s2. cbn [s_count s_code]. rewrite lines_app, Hc. cbn [lines]. lia.
      * eapply (pending_add s1 (IDeps t) k'); eauto; [rewrite EL1; discriminate|rewrite EL1; cbn; congruence].
      * unfold s2. cbn [s_count s_code]. intros Hg H0. specialize (He Hg H0). unfold pending in Hp. rewrite EL1 in Hp.
        destruct Hp as (l & b & Eb & _ & _ & (Hb & _)). rewrite He in Eb. destruct l; [|discriminate]. cbn in Eb. congruence.
    + unfold s2. cbn [s_code]. rewrite app_assoc, ET. reflexivity.
  - exists g1. split; [exact I1|]. split; [cbn in Hk; congruence|]. rewrite ET. cbn. rewrite app_nil_r. reflexivity.
Qed.

Lemma steps_inv : 0 < limit -> forall order s groups k, inv s groups -> counted order -> level (s_loops s) order = Some k ->
  exists groups', let s' := fold_left (splitStep fn indexes limit arrays zeroDeps true) order s in
    inv s' groups' /\ s_loops s' = k /\
    List.concat groups' ++ s_code s' = (List.concat groups ++ s_code s) ++ printed order.
Proof.
  intros Hlim0. induction order as [|x order IH]; intros s groups k HI Hc Hk.
  - exists groups. cbn. rewrite app_nil_r. injection Hk as Hk. auto.
  - change (x :: order) with ([x] ++ order) in Hk. rewrite level_app in Hk.
    destruct (level (s_loops s) [x]) as [k1|] eqn:E1; [|discriminate].
    destruct (step_inv s groups x k1 Hlim0 HI) as (g1 & I1 & EL & ET); [intros t d ->; apply (Hc t d); left; reflexivity|exact E1|].
    cbn [fold_left]. destruct (IH _ g1 k I1) as (g2 & I2 & EL2 & ET2); [intros t d H; apply (Hc t d); right; exact H|rewrite EL; exact Hk|].
    exists g2. cbv zeta. split; [exact I2|]. split; [exact EL2|]. rewrite ET2, ET. change (x :: order) with ([x] ++ order).
    unfold printed. rewrite filter_app, <- !app_assoc. reflexivity.
Qed.
End Inv.

(** ** The files of a split program *)
Definition zeroItem {T} (zeroDeps : bool) (zero : T) : list (item T) := if zeroDeps then [ILine zero 0 LNone] else [].

Lemma split_cases {T} fn indexes limit arrays zeroDeps (zero : T) order tail src :
  0 < limit -> complete order -> counted order -> order <> [] ->
  let m := splitSource fn indexes limit arrays zeroDeps zero order tail src in
  (exists code, fget (fileName fn) m = Some (mkFile [] (params indexes) (arrays || zeroDeps) code [] tail) /\
    code = zeroItem zeroDeps zero ++ printed order /\ complete code /\ (lines code < limit \/ within limit code) /\
    (forall f, f <> fileName fn -> fget f m = fget f src)) \/
  (exists groups, groups <> [] /\
    fget (fileName fn) m = Some (mkFile [] (params indexes) false [] (map (fun k => (localName fn (S k), localArgs)) (seq 0 (List.length groups))) tail) /\
    (forall k body, nth_error groups k = Some body -> fget (fileName (localName fn (S k))) m = Some (localFile indexes arrays zeroDeps k body)) /\
    (forall f, f <> fileName fn -> (forall k, k < List.length groups -> f <> fileName (localName fn (S k))) -> fget f m = fget f src) /\
    List.concat groups = zeroItem zeroDeps zero ++ printed order /\
    Forall (within limit) groups /\ Forall complete groups /\
    forall k body, nth_error groups k = Some body -> S k < List.length groups -> limit <= lines body).
Proof.
  intros Hlim Hc Hct Hne m. unfold m, splitSource, splitBody. destruct order as [|x0 order0]; [congruence|]. set (order := x0 :: order0) in *.
  apply Nat.ltb_lt in Hlim as Hlim'. rewrite Hlim'.
  set (s0 := mkSst (if zeroDeps then [ILine zero 0 LNone] else []) 0 0 [] src).
  assert (I0 : inv fn indexes limit arrays zeroDeps src s0 []).
  { constructor; try constructor; cbn; try reflexivity; try congruence.
    - intros [|k] body; discriminate.
    - destruct zeroDeps; reflexivity.
    - destruct zeroDeps; reflexivity.
    - left. destruct zeroDeps; exact Hlim. }
  destruct (steps_inv fn indexes limit arrays zeroDeps src Hlim order s0 [] 0 I0 Hct Hc) as (groups & HI & EL & ET). cbv zeta in HI, EL, ET.
  set (s := fold_left (splitStep fn indexes limit arrays zeroDeps true) order s0) in *. cbn [List.concat app] in ET.
  change (s_code s0) with (zeroItem zeroDeps zero) in ET. pose proof (noNames_groups _ _ _ _ _ _ _ (iv_saved _ _ _ _ _ _ _ _ HI)) as HN.
  destruct HI as [Hs Hcnt Hw Hco Hf Hp He]. destruct groups as [|g0 gs].
  - left. rewrite HN. cbn [Nat.eqb List.length negb andb]. rewrite HN. cbn [Nat.eqb List.length]. exists (s_code s).
    unfold pending in Hp. rewrite EL in Hp. destruct Hp as [Hp1 Hp2].
    split; [apply fget_same|]. split; [exact ET|]. split; [exact Hp1|]. split; [exact Hp2|].
    intros f Hf0. rewrite fget_other by exact Hf0. apply (sv_other _ _ _ _ _ _ _ Hs). cbn. intros k Hk. lia.
  - right. set (groups := g0 :: gs) in *. rewrite HN. cbn [Nat.eqb List.length negb andb groups].
    destruct (Nat.ltb 0 (s_count s)) eqn:EC.
    + set (s2 := saveLocal fn indexes arrays s false).
      assert (Hs2 : saved fn indexes arrays zeroDeps src s2 (groups ++ [s_code s])) by (apply saved_save; [exact Hs|reflexivity]).
      assert (N2 : noNamesYet s2 = false) by (rewrite (noNames_groups _ _ _ _ _ _ _ Hs2); reflexivity). rewrite N2.
      exists (groups ++ [s_code s]). split; [discriminate|]. unfold pending in Hp. rewrite EL in Hp. destruct Hp as [Hp1 Hp2].
      apply Nat.ltb_lt in EC.
      split; [rewrite fget_same; rewrite (sv_names _ _ _ _ _ _ _ Hs2), map_map; reflexivity|].
      split; [|split; [|split; [|split; [|split]]]].
      * intros k body Hk. rewrite fget_other; [apply (sv_files _ _ _ _ _ _ _ Hs2), Hk|].
        intros E. apply fileName_inj in E. exact (localName_ne _ _ E).
      * intros f Hf1 Hf2. rewrite fget_other by exact Hf1. apply (sv_other _ _ _ _ _ _ _ Hs2), Hf2.
      * rewrite List.concat_app. cbn [List.concat]. rewrite app_nil_r. exact ET.
      * apply Forall_app. split; [exact Hw|]. constructor; [|constructor]. destruct Hp2 as [Hp2|Hp2]; [|exact Hp2].
        (* fewer lines than the limit: the last item is the block *)
        rewrite Hcnt in EC. clear -EC Hp1 Hp2. destruct (s_code s) as [|y code] eqn:Ec; [cbn in EC; lia|].
        assert (G : forall (l : list (item T)), complete l -> l <> [] -> exists a b, l = a ++ b /\ complete a /\ block b).
        { intros l. induction l as [|z l IH] using rev_ind; intros Hl Hne; [congruence|].
          assert (P : forall l : list (item T), (exists a b k, l = a ++ b /\ complete a /\ openBlock k b) \/ complete l \/ level 0 l = None).
          { clear. intros l. induction l as [|z l IH] using rev_ind; [right; left; reflexivity|].
            destruct IH as [(a & b & k & -> & Ha & Hb)|[H|H]].
            - destruct (level 0 (b ++ [z])) as [[|j]|] eqn:E.
              + right. left. unfold complete. rewrite <- app_assoc, level_app, Ha. exact E.
              + left. exists a, (b ++ [z]), j. rewrite <- app_assoc. split; [reflexivity|]. split; [exact Ha|]. apply (open_snoc _ _ z Hb _ E).
              + right. right. rewrite <- app_assoc, level_app, Ha. exact E.
            - destruct (level 0 [z]) as [[|j]|] eqn:E.
              + right. left. unfold complete. rewrite level_app, H. exact E.
              + left. exists l, [z], j. split; [reflexivity|]. split; [exact H|]. apply single_open, E.
              + right. right. rewrite level_app, H. exact E.
            - right. right. rewrite level_app, H. reflexivity. }
          destruct (P l) as [(a & b & k & -> & Ha & Hb)|[H|H]].
          - exists a, (b ++ [z]). rewrite <- app_assoc. split; [reflexivity|]. split; [exact Ha|].
            unfold complete in Hl. rewrite <- app_assoc, level_app, Ha in Hl. apply (open_snoc _ _ z Hb _ Hl).
          - exists l, [z]. split; [reflexivity|]. split; [exact H|]. apply single_block. unfold complete in Hl. rewrite level_app, H in Hl. exact Hl.
          - unfold complete in Hl. rewrite level_app, H in Hl. discriminate. }
        destruct (G (y :: code) Hp1) as (a & b & E & Ha & Hb); [discriminate|]. exists a, b. split; [exact E|]. split; [exact Ha|]. split; [|exact Hb].
        rewrite E, lines_app in Hp2. lia.
      * apply Forall_app. split; [exact Hco|]. constructor; [exact Hp1|constructor].
      * intros k body Hk Hlt. rewrite app_length in Hlt. cbn [List.length] in Hlt. rewrite nth_error_app1 in Hk by lia.
        rewrite Forall_forall in Hf. apply Hf. eapply nth_error_In, Hk.
    + rewrite HN. cbn [Nat.eqb List.length groups]. exists groups. split; [discriminate|]. apply Nat.ltb_ge in EC.
      assert (Ec : s_code s = []) by (apply He; [discriminate|lia]). rewrite Ec in *. rewrite app_nil_r in ET.
      split; [rewrite fget_same; rewrite (sv_names _ _ _ _ _ _ _ Hs), map_map; reflexivity|].
      split; [|split; [|split; [exact ET|split; [exact Hw|split; [exact Hco|]]]]].
      * intros k body Hk. rewrite fget_other; [apply (sv_files _ _ _ _ _ _ _ Hs), Hk|].
        intros E. apply fileName_inj in E. exact (localName_ne _ _ E).
      * intros f Hf1 Hf2. rewrite fget_other by exact Hf1. apply (sv_other _ _ _ _ _ _ _ Hs), Hf2.
      * intros k body Hk _. rewrite Forall_forall in Hf. apply Hf. eapply nth_error_In, Hk.
Qed.

(** no limit, or nothing to print *)
Lemma split_nolimit {T} fn indexes arrays zeroDeps : forall order (s : sst T),
  s_names s = [] -> let s' := fold_left (splitStep fn indexes 0 arrays zeroDeps false) order s in
  s_names s' = [] /\ s_src s' = s_src s /\ s_code s' = s_code s ++ printed order.
Proof.
  induction order as [|x order IH]; intros s Hn; cbn zeta.
  - cbn. rewrite app_nil_r. auto.
  - cbn [fold_left]. assert (E : splitStep fn indexes 0 arrays zeroDeps false s x =
      match x with ISilent => s | IDeps t => mkSst (s_code s ++ [x]) (s_count s) (s_loops s) (s_names s) (s_src s)
      | ILine t n d => mkSst (s_code s ++ [x]) (s_count s + n) (loopsAfter d (s_loops s)) (s_names s) (s_src s) end).
    { unfold splitStep. rewrite andb_false_r. reflexivity. }
    rewrite E. destruct (IH (match x with ISilent => s | IDeps t => mkSst (s_code s ++ [x]) (s_count s) (s_loops s) (s_names s) (s_src s)
      | ILine t n d => mkSst (s_code s ++ [x]) (s_count s + n) (loopsAfter d (s_loops s)) (s_names s) (s_src s) end)) as (A & B & C);
      [destruct x; exact Hn|].
    split; [exact A|]. split; [rewrite B; destruct x; reflexivity|]. rewrite C. destruct x; cbn; rewrite <- ?app_assoc; reflexivity.
Qed.

Lemma single_cases {T} fn indexes limit arrays zeroDeps (zero : T) order tail src : limit = 0 \/ order = [] ->
  let m := splitSource fn indexes limit arrays zeroDeps zero order tail src in
  exists code, fget (fileName fn) m = Some (mkFile [] (params indexes) (arrays || zeroDeps) code [] tail) /\
    code = (match order with [] => [] | _ => zeroItem zeroDeps zero end) ++ printed order /\
    (forall f, f <> fileName fn -> fget f m = fget f src).
Proof.
  intros H m. unfold m, splitSource, splitBody. destruct order as [|x order].
  - cbn. exists []. split; [apply fget_same|]. split; [reflexivity|]. intros f Hf. apply fget_other, Hf.
  - destruct H as [->|H]; [|discriminate]. change (Nat.ltb 0 0) with false.
    set (s0 := mkSst (if zeroDeps then [ILine zero 0 LNone] else []) 0 0 [] src).
    destruct (split_nolimit fn indexes arrays zeroDeps (x :: order) s0 eq_refl) as (A & B & C). cbv zeta in A, B, C.
    set (s := fold_left (splitStep fn indexes 0 arrays zeroDeps false) (x :: order) s0) in *.
    assert (N : noNamesYet s = true) by (unfold noNamesYet; rewrite A; reflexivity). rewrite N. cbn [negb andb]. rewrite N.
    exists (s_code s). split; [apply fget_same|]. split; [exact C|]. intros f Hf. rewrite fget_other by exact Hf. rewrite B. reflexivity.
Qed.

Lemma texts_zero {T} zeroDeps (zero : T) : texts (zeroItem zeroDeps zero) = if zeroDeps then [zero] else [].
Proof. destruct zeroDeps; reflexivity. Qed.

(** ** C40: the functions called in order perform the assignments of the unsplit program *)
Theorem C40_functions_perform_the_same_assignments :
  forall (T : Type) (fn : string) (limit : nat) (arrays zeroDeps : bool) (zero : T) order tail src,
  complete order -> counted order ->
  call (splitSource fn [] limit arrays zeroDeps zero order tail src) fn = Some (unsplit zeroDeps zero order tail).
Proof.
  intros T fn limit arrays zeroDeps zero order tail src Hc Hct.
  assert (D : (limit = 0 \/ order = []) \/ (0 < limit /\ order <> [])).
  { destruct limit; [auto|]. destruct order; [auto|]. right. split; [lia|discriminate]. }
  assert (Z : texts ((match order with [] => [] | _ => zeroItem zeroDeps zero end) ++ printed order) ++ tail = unsplit zeroDeps zero order tail).
  { rewrite texts_app, texts_printed. unfold unsplit. rewrite <- app_assoc. destruct order; [reflexivity|]. rewrite texts_zero. reflexivity. }
  destruct D as [D|[D1 D2]].
  - destruct (single_cases fn [] limit arrays zeroDeps zero order tail src D) as (code & E & Ec & _). unfold call. rewrite E. cbn [callAll].
    rewrite Ec. cbn [app]. rewrite Z. reflexivity.
  - assert (Z' : texts (zeroItem zeroDeps zero ++ printed order) ++ tail = unsplit zeroDeps zero order tail) by (rewrite <- Z; destruct order; [congruence|reflexivity]).
    destruct (split_cases fn [] limit arrays zeroDeps zero order tail src D1 Hc Hct D2) as [(code & E & Ec & _)|(groups & _ & E & Hl & _ & Ec & _)].
    + unfold call. rewrite E. cbn [callAll app]. rewrite Ec, Z'. reflexivity.
    + unfold call. rewrite E. set (m := splitSource fn [] limit arrays zeroDeps zero order tail src) in *.
      assert (A : forall gs k, (forall j body, nth_error gs j = Some body -> nth_error groups (k + j) = Some body) ->
        callAll m (map (fun k => (localName fn (S k), localArgs)) (seq k (List.length gs))) = Some (texts (List.concat gs))).
      { induction gs as [|b gs IH]; intros k H; [reflexivity|]. cbn [List.length seq map callAll].
        unfold callLocal at 1. cbn [fst snd]. rewrite (Hl k b) by (specialize (H 0 b eq_refl); rewrite Nat.add_0_r in H; exact H).
        unfold localFile. destruct (list_eq_dec string_dec (localParams []) localArgs) as [_|F]; [|exfalso; apply F; reflexivity].
        rewrite IH by (intros j body Hj; rewrite Nat.add_succ_comm; apply H, Hj). rewrite app_nil_r. cbn [List.concat]. rewrite texts_app. reflexivity. }
      rewrite (A groups 0) by (intros j body Hj; exact Hj). rewrite Ec. cbn [texts flat_map app]. rewrite Z'. reflexivity.
Qed.
Print Assumptions C40_functions_perform_the_same_assignments.

(** ** C40: every function has complete loops and stays within the limit; all functions but the last one are full; the counter
    of the loop which clears the dependents is declared where the loop is *)
Theorem C40_functions_stay_within_the_limit :
  forall (T : Type) (fn : string) (indexes : list string) (limit : nat) (arrays zeroDeps : bool) (zero : T) order tail src,
  0 < limit -> complete order -> counted order ->
  let m := splitSource fn indexes limit arrays zeroDeps zero order tail src in
  exists w, fget (fileName fn) m = Some w /\
   (f_calls w = [] -> complete (f_body w) /\ (lines (f_body w) < limit \/ within limit (f_body w)) /\
     (In (ILine zero 0 LNone) (f_body w) -> f_counter w = true)) /\
   (f_calls w <> [] -> f_body w = [] /\ NoDup (map fst (f_calls w)) /\ ~ In fn (map fst (f_calls w)) /\
     forall k c, nth_error (f_calls w) k = Some c -> exists f, fget (fileName (fst c)) m = Some f /\
       complete (f_body f) /\ within limit (f_body f) /\ (S k < List.length (f_calls w) -> limit <= lines (f_body f)) /\
       (In (ILine zero 0 LNone) (f_body f) -> f_counter f = true)).
Proof.
  intros T fn indexes limit arrays zeroDeps zero order tail src Hlim Hc Hct m.
  assert (PC : counted (printed order)) by (intros t d H; apply filter_In in H; apply (Hct t d), H).
  assert (DO : order = [] \/ order <> []) by (destruct order; [auto|right; discriminate]). destruct DO as [->|Hne].
  - destruct (single_cases fn indexes limit arrays zeroDeps zero [] tail src (or_intror eq_refl)) as (code & E & Ec & _).
    eexists. split; [exact E|]. cbn [f_calls f_body f_counter]. rewrite Ec. split; [|congruence]. intros _. split; [reflexivity|].
    split; [left; exact Hlim|]. cbn. tauto.
  - destruct (split_cases fn indexes limit arrays zeroDeps zero order tail src Hlim Hc Hct Hne)
      as [(code & E & Ec & Hcc & Hll & _)|(groups & Hg & E & Hl & _ & Ec & Hw & Hco & Hf)].
    + eexists. split; [exact E|]. cbn [f_calls f_body f_counter]. split; [|congruence]. intros _. split; [exact Hcc|]. split; [exact Hll|].
      rewrite Ec. intros H. apply in_app_or in H. destruct H as [H|H]; [destruct zeroDeps; [apply orb_true_r|destruct H]|exfalso; exact (PC _ _ H)].
    + eexists. split; [exact E|]. cbn [f_calls f_body f_counter].
      assert (Hlen : List.length (map (fun k => (localName fn (S k), localArgs)) (seq 0 (List.length groups))) = List.length groups) by (rewrite map_length, seq_length; reflexivity).
      split; [intros H; exfalso; apply Hg; destruct groups; [reflexivity|discriminate]|]. intros _. split; [reflexivity|].
      rewrite map_map. cbn [fst]. split; [|split].
      * apply FinFun.Injective_map_NoDup; [|apply seq_NoDup]. intros a b H. apply localName_inj in H. lia.
      * intros H. apply in_map_iff in H. destruct H as (k & H & _). exact (localName_ne _ _ H).
      * intros k c Hk. rewrite Hlen. rewrite nth_error_map in Hk. destruct (nth_error (seq 0 (List.length groups)) k) as [k'|] eqn:Ek; [|discriminate].
        injection Hk as <-. assert (Hlt : k < List.length groups) by (rewrite <- (seq_length (List.length groups) 0); apply nth_error_Some; congruence).
        assert (k' = k). { apply (nth_error_nth _ _ 0) in Ek. rewrite seq_nth in Ek by exact Hlt. lia. } subst k'.
        destruct (nth_error groups k) as [body|] eqn:Eb; [|apply nth_error_None in Eb; lia]. cbn [fst].
        exists (localFile indexes arrays zeroDeps k body). split; [apply Hl, Eb|]. unfold localFile. cbn [f_body f_counter].
        rewrite Forall_forall in Hw, Hco. pose proof (nth_error_In _ _ Eb) as Hin. split; [apply Hco, Hin|]. split; [apply Hw, Hin|].
        split; [intros H; eapply Hf; eauto|]. intros HZ.
        destruct zeroDeps; [|exfalso; cbn in Ec; apply (PC zero LNone); rewrite <- Ec; apply in_concat; exists body; auto].
        destruct k as [|k]; [apply orb_true_r|]. exfalso. destruct groups as [|g0 gs]; [cbn in Hlt; lia|].
        destruct (Hw g0 (or_introl eq_refl)) as (l & b & E0 & _ & _ & (Hb & _)). destruct g0 as [|z g0]; [symmetry in E0; apply app_eq_nil in E0; destruct E0; congruence|].
        cbn in Ec. injection Ec as _ Ec. apply (PC zero LNone). rewrite <- Ec. apply in_or_app. right. apply in_concat. exists body. split; [|exact HZ].
        cbn in Eb. eapply nth_error_In, Eb.
Qed.
Print Assumptions C40_functions_stay_within_the_limit.

(** ** C40: other functions in the map of sources are not touched *)
Theorem C40_other_functions_are_kept :
  forall (T : Type) (fn : string) (indexes : list string) (limit : nat) (arrays zeroDeps : bool) (zero : T) order tail src g,
  complete order -> counted order -> g <> fn -> (forall k, g <> localName fn k) ->
  fget (fileName g) (splitSource fn indexes limit arrays zeroDeps zero order tail src) = fget (fileName g) src.
Proof.
  intros T fn indexes limit arrays zeroDeps zero order tail src g Hc Hct Hg Hgk.
  assert (F1 : fileName g <> fileName fn) by (intros E; apply Hg, fileName_inj, E).
  assert (D : (limit = 0 \/ order = []) \/ (0 < limit /\ order <> [])).
  { destruct limit; [auto|]. destruct order; [auto|]. right. split; [lia|discriminate]. }
  destruct D as [D|[D1 D2]].
  - destruct (single_cases fn indexes limit arrays zeroDeps zero order tail src D) as (code & _ & _ & H). apply H, F1.
  - destruct (split_cases fn indexes limit arrays zeroDeps zero order tail src D1 Hc Hct D2) as [(code & _ & _ & _ & _ & H)|(groups & _ & _ & _ & H & _)].
    + apply H, F1.
    + apply H; [exact F1|]. intros k _ E. apply (Hgk (S k)), fileName_inj, E.
Qed.
Print Assumptions C40_other_functions_are_kept.

(** ** C40 for generated code: statements without loops *)
Section Plain.
Context {T : Type}.
Lemma plain_level (l : list T) k : level k (map (fun t => ILine t 1 LNone) l) = Some k.
Proof. induction l as [|t l IH]; cbn; auto. Qed.
Lemma plain_counted (l : list T) : counted (map (fun t => ILine t 1 LNone) l).
Proof. intros t d H. apply in_map_iff in H. destruct H as (x & H & _). discriminate. Qed.
Lemma plain_texts (l : list T) : texts (map (fun t => ILine t 1 LNone) l) = l.
Proof. induction l as [|t l IH]; cbn; [reflexivity|]. unfold texts in IH. rewrite IH. reflexivity. Qed.
End Plain.

Definition one {T} (x : item T) : Prop := match x with ILine _ 1 LNone => True | _ => False end.

Lemma one_block {T} (b : list (item T)) : Forall one b -> block b -> List.length b = 1.
Proof.
  intros H (Hne & _ & Hp). destruct b as [|x [|y b]]; [congruence|reflexivity|].
  destruct (Hp [x] (y :: b) eq_refl) as [k E]; [discriminate|discriminate|]. inversion H as [|? ? Hx _]; subst.
  destruct x as [t [|[|n]] [| |]|t|]; try contradiction. discriminate E.
Qed.

Lemma one_lines {T} (l : list (item T)) : Forall one l -> lines l = List.length l.
Proof. induction 1 as [|x l Hx _ IH]; [reflexivity|]. destruct x as [t [|[|n]] [| |]|t|]; try contradiction. cbn. rewrite IH. reflexivity. Qed.

(** A generation with a function name and a limit gives files whose call performs the program of C05. *)
Theorem C40_generated_files_run_the_generated_code :
  forall (B : Type) (O : BaseOps B) (g : heap B) (indeps : list nat) (deps : list (arg B)) fuel o nm ge fn limit src,
  generateCode g fuel o indeps deps nm = Done ge ->
  exists m, generateFiles g fuel o indeps deps nm fn limit src = Done m /\ call m fn = Some (ge_prog ge) /\
    forall w, fget (fileName fn) m = Some w -> 0 < limit -> o_zeroDeps o = false ->
      (f_calls w = [] -> List.length (f_body w) <= limit) /\
      (forall k c f, nth_error (f_calls w) k = Some c -> fget (fileName (fst c)) m = Some f ->
         List.length (f_body f) <= limit /\ (S k < List.length (f_calls w) -> List.length (f_body f) = limit)).
Proof.
  intros B O g indeps deps fuel o nm ge fn limit src. unfold generateCode, generateFiles, source.
  destruct (makePlan g fuel o indeps deps) as [pl| |]; try discriminate. cbn [obind]. cbv zeta.
  destruct (omap (stmtOf g o indeps deps pl (allNames g indeps deps pl nm) fuel) (p_vo pl)) as [body| |] eqn:Eb; try discriminate. cbn [obind].
  destruct (duplicates g o deps pl (allNames g indeps deps pl nm) deps 0) as [dup| |]; try discriminate. cbn [obind].
  destruct (constants g o (allNames g indeps deps pl nm) deps 0) as [cst| |]; try discriminate. cbn [obind].
  intros [= <-]. cbn [ge_prog].
  assert (Hbody : p_vo pl = [] <-> body = []).
  { destruct (p_vo pl) as [|i vo]; cbn in Eb; [injection Eb as <-; tauto|].
    destruct (stmtOf _ _ _ _ _ _ _ i); try discriminate. cbn [obind] in Eb. destruct (omap _ vo); try discriminate. cbn [obind] in Eb.
    injection Eb as <-. split; discriminate. }
  eexists. split; [reflexivity|].
  assert (Hcomp : complete (map assign1 body)) by apply plain_level. assert (Hcnt : counted (map assign1 body)) by apply plain_counted.
  set (m := splitSource fn [] limit false (o_zeroDeps o) (SZero (List.length deps)) (map assign1 body) (dup ++ cst) src).
  split.
  - unfold m. rewrite C40_functions_perform_the_same_assignments; [|exact Hcomp|exact Hcnt]. f_equal. unfold unsplit.
    change (texts (map assign1 body)) with (texts (map (fun t : stmt B => ILine t 1 LNone) body)). rewrite plain_texts. f_equal.
    destruct (p_vo pl) as [|i vo].
    + rewrite (proj1 Hbody eq_refl). reflexivity.
    + destruct body; [exfalso; pose proof (proj2 Hbody eq_refl); discriminate|reflexivity].
  - intros w Hw Hlim Hz.
    assert (P : forall l : list (item (stmt B)), incl l (map assign1 body) -> Forall one l).
    { intros l H. apply Forall_forall. intros x Hx. apply H in Hx. apply in_map_iff in Hx. destruct Hx as (t & <- & _). exact I. }
    assert (PR : incl (printed (map assign1 body)) (map assign1 body)) by (intros x Hx; apply filter_In in Hx; apply Hx).
    assert (W : forall l, incl l (map assign1 body) -> within limit l -> List.length l <= limit).
    { intros l Hl (a & b & E & _ & Ha & Hb). assert (F : Forall one (a ++ b)) by (rewrite <- E; apply P, Hl). apply Forall_app in F. destruct F as [F1 F2].
      rewrite E, app_length, (one_block b F2 Hb). rewrite (one_lines a F1) in Ha. lia. }
    assert (DB : body = [] \/ body <> []) by (destruct body; [auto|right; discriminate]). destruct DB as [Ebody|Ebody].
    + destruct (single_cases fn [] limit false (o_zeroDeps o) (SZero (List.length deps)) [] (dup ++ cst) src (or_intror eq_refl)) as (code & E & Ec & _).
      unfold m in Hw. rewrite Ebody in Hw. cbn [map] in Hw. rewrite E in Hw. injection Hw as <-. cbn [f_calls f_body]. rewrite Ec. split; [intros _; cbn; lia|].
      intros [|k]; discriminate.
    + assert (Hne : map assign1 body <> []) by (destruct body; [congruence|discriminate]).
      destruct (split_cases fn [] limit false (o_zeroDeps o) (SZero (List.length deps)) (map assign1 body) (dup ++ cst) src Hlim Hcomp Hcnt Hne)
        as [(code & E & Ec & Hcc & Hll & _)|(groups & Hg & E & Hl & _ & Ec & Hwi & Hco & Hf)].
      * unfold m in Hw. rewrite E in Hw. injection Hw as <-. cbn [f_calls f_body]. split; [|intros [|k]; discriminate]. intros _.
        rewrite Hz in Ec. cbn [zeroItem app] in Ec. rewrite Ec in *. destruct Hll as [Hll|Hll]; [|apply W; assumption].
        rewrite one_lines in Hll by (apply P, PR). lia.
      * unfold m in Hw. rewrite E in Hw. injection Hw as <-. cbn [f_calls f_body].
        assert (Hlen : List.length (map (fun k => (localName fn (S k), localArgs)) (seq 0 (List.length groups))) = List.length groups) by (rewrite map_length, seq_length; reflexivity).
        split; [intros H; exfalso; apply Hg; destruct groups; [reflexivity|discriminate]|]. intros k c f Hk Hff. rewrite Hlen.
        rewrite nth_error_map in Hk. destruct (nth_error (seq 0 (List.length groups)) k) as [k'|] eqn:Ek; [|discriminate].
        injection Hk as <-. assert (Hlt : k < List.length groups) by (rewrite <- (seq_length (List.length groups) 0); apply nth_error_Some; congruence).
        assert (k' = k). { apply (nth_error_nth _ _ 0) in Ek. rewrite seq_nth in Ek by exact Hlt. lia. } subst k'.
        destruct (nth_error groups k) as [gb|] eqn:Eg; [|apply nth_error_None in Eg; lia]. cbn [fst] in Hff. unfold m in Hff. rewrite (Hl k gb Eg) in Hff.
        injection Hff as <-. cbn [localFile f_body].
        assert (Hin : incl gb (map assign1 body)).
        { intros x Hx. apply PR. rewrite Hz in Ec. cbn [zeroItem app] in Ec. rewrite <- Ec. apply in_concat. exists gb. split; [eapply nth_error_In, Eg|exact Hx]. }
        rewrite Forall_forall in Hwi. assert (HL : List.length gb <= limit) by (apply W; [exact Hin|apply Hwi; eapply nth_error_In, Eg]).
        split; [exact HL|]. intros H. specialize (Hf k gb Eg H). rewrite one_lines in Hf by (apply P, Hin). lia.
Qed.
Print Assumptions C40_generated_files_run_the_generated_code.

(** A case: a limit of 2, seven nodes with a loop of three lines and the dependents of the loop. *)
Definition caseOrder : list (item nat) :=
  [ILine 10 1 LNone; ILine 20 1 LOpen; ILine 21 1 LNone; IDeps 22; ILine 23 1 LClose; ISilent; ILine 30 1 LNone; ILine 31 1 LNone; ILine 32 1 LNone].
Example C40_case :
  complete caseOrder /\ counted caseOrder /\
  map (fun k => option_map (fun f => texts (f_body f)) (fget (fileName (localName "f" k)) (splitSource "f" [] 2 false true 0 caseOrder [90] []))) [1; 2; 3] =
    [Some [0; 10; 20; 21; 22; 23]; Some [30; 31]; Some [32]] /\
  call (splitSource "f" [] 2 false true 0 caseOrder [90] []) "f" = Some [0; 10; 20; 21; 22; 23; 30; 31; 32; 90] /\
  ~ (lines [ILine 10 1 LNone; ILine 20 1 LOpen; ILine 21 1 LNone; IDeps 22; ILine 23 1 LClose] <= 2).
Proof.
  split; [reflexivity|]. split; [|split; [vm_compute; reflexivity|split; [vm_compute; reflexivity|vm_compute; lia]]].
  intros t d H. cbn in H. repeat (destruct H as [H|H]; [discriminate|]). exact H.
Qed.

(** Without the hypothesis on loops: dependents of a loop written outside of every loop would end up in front of the wrapper. *)
Example C40_case_needs_loops :
  call (splitSource "f" [] 1 false false 0 [ILine 1 1 LNone; ILine 2 1 LNone; ISilent; IDeps 3] [] []) "f" = None.
Proof. vm_compute. reflexivity. Qed.

(** ** What does not hold *)

(** "Every function stays within the limit": the dependents which are constants, or copies of other dependents, are not counted. *)
Theorem C40_constant_dependents_refuted :
  exists (deps : list (arg Qc)) fn limit m w,
  generateFiles [] 9 (mkOpts 9 true false false ASet) [] deps (fun _ => None) fn limit [] = Done m /\
  fget (fileName fn) m = Some w /\ 0 < limit /\ limit < List.length (texts (f_body w) ++ f_after w).
Proof.
  exists [APar (Q2Qc 5); APar (Q2Qc 6)], "f", 1. eexists. eexists. split; [vm_compute; reflexivity|]. split; [vm_compute; reflexivity|].
  split; [lia|]. vm_compute. lia.
Qed.
Print Assumptions C40_constant_dependents_refuted.

(** "A function with index arguments can be split": the wrapper calls its local functions without the indexes they are declared
    with (localFuncArgDcl_ starts with the indexes, localFuncArgs_ does not). *)
Theorem C40_index_arguments_refuted :
  exists (fn : string) indexes limit order m f c,
  complete order /\ counted order /\ m = splitSource fn indexes limit false false 0 order [] [] /\
  call m fn = None /\ fget (fileName fn) m = Some f /\ In c (f_calls f) /\
  exists l, fget (fileName (fst c)) m = Some l /\ List.length (snd c) < List.length (f_params l).
Proof.
  exists "f", ["j"], 1, [ILine 1 1 LNone; ILine 2 1 LNone]. eexists. eexists. eexists.
  split; [reflexivity|]. split; [intros t d H; cbn in H; repeat (destruct H as [H|H]; [discriminate|]); exact H|].
  split; [reflexivity|]. split; [vm_compute; reflexivity|]. split; [vm_compute; reflexivity|]. split; [left; reflexivity|].
  eexists. split; [vm_compute; reflexivity|]. vm_compute. lia.
Qed.
Print Assumptions C40_index_arguments_refuted.

(** "Functions generated into the same sources do not disturb each other": a function called like a local function of another. *)
Theorem C40_same_file_name_refuted :
  exists (order1 order2 : list (item nat)) m1 m2 limit,
  complete order1 /\ counted order1 /\ complete order2 /\ counted order2 /\
  m1 = splitSource "f__1" [] limit false false 0 order1 [] [] /\ m2 = splitSource "f" [] limit false false 0 order2 [] m1 /\
  call m1 "f__1" = Some (texts order1) /\ call m2 "f__1" <> Some (texts order1).
Proof.
  exists [ILine 7 1 LNone], [ILine 1 1 LNone; ILine 2 1 LNone]. eexists. eexists. exists 1.
  split; [reflexivity|]. split; [intros t d H; cbn in H; repeat (destruct H as [H|H]; [discriminate|]); exact H|].
  split; [reflexivity|]. split; [intros t d H; cbn in H; repeat (destruct H as [H|H]; [discriminate|]); exact H|].
  split; [reflexivity|]. split; [reflexivity|]. split; [vm_compute; reflexivity|]. vm_compute. discriminate.
Qed.
Print Assumptions C40_same_file_name_refuted.

(** A case of C40_generated_files_run_the_generated_code: two dependents with operations and a constant one, at most one assignment
    per function. *)
Definition caseHeap : heap Qc :=
  [mkNode 0 (GInv 0) []; mkNode 0 GMul [ANode 0; ANode 0]; mkNode 0 GAdd [ANode 1; ANode 0]].
Definition caseDeps : list (arg Qc) := [ANode 1; APar (Q2Qc 3); ANode 2].
Example C40_files_case :
  exists ge m, generateCode caseHeap 50 (mkOpts 9 true false false ASet) [0] caseDeps (fun _ => None) = Done ge /\
  generateFiles caseHeap 50 (mkOpts 9 true false false ASet) [0] caseDeps (fun _ => None) "f" 1 [] = Done m /\
  List.length (ge_prog ge) = 3 /\
  match fget (fileName "f") m with Some w => map fst (f_calls w) = ["f__1"; "f__2"] /\ List.length (f_after w) = 1 | None => False end.
Proof. eexists. eexists. split; [vm_compute; reflexivity|]. split; [vm_compute; reflexivity|]. split; [reflexivity|]. vm_compute. auto. Qed.

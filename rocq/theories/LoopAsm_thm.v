(** * The sparse Jacobian and Hessian of models with loops: the theorems (C65) *)
From Coq Require Import List Arith Bool NArith ZArith Sorting.Sorted Lia.
From Verif Require Import Range_model Assemble_model Assemble_proofs LoopAsm_model LoopAsm_spec LoopAsm_maps LoopAsm_run LoopAsm_group LoopAsm_main.
Import ListNotations.
Local Open Scope nat_scope.

(** C65.  Full statement: whatever elements the user asks for, in whatever order, the generated function finds in each place of its result the sum of
    what the equations outside of loops and of all the iterations of the loops contribute to that element, and never leaves its arrays.
    Missing here: a request with a repeated element, and a request for which [fits] does not hold (see the two refutations below). *)
Theorem C65_loops_assembly_partial : forall V (zero : V) add ks vs nl gs NL LV noLoop loopFn,
  monoid V zero add -> length ks = length vs -> NoDup (combine ks vs) ->
  keymap_ok ks nl -> (forall g, In g gs -> group_ok ks g /\ fits ks g) ->
  noLoop_ok V zero NL ks nl noLoop -> loopFn_ok V zero add LV gs loopFn ->
  exists prog, assemble ks vs nl gs = Some prog /\
  forall garbage result, lp_size prog <= length garbage -> length result = length ks ->
  exists res, runAssemble V zero add noLoop loopFn prog garbage result = Some res /\ length res = length ks /\
    forall p k, nth_error ks p = Some k -> nth_error res p = Some (expected V zero add NL LV nl gs k (rank ks p)).
Proof.
  intros V zero add ks vs nl gs NL LV noLoop loopFn Hm Hl Hd Hn Hg Ho Hf. destruct (entries_ok ks vs) as (is & Hent & _).
  destruct (assemble_ok V zero add Hm ks vs Hl Hd is Hent noLoop loopFn LV NL nl gs Hn Hg Ho Hf) as (prog & E & _ & R). exists prog. split; [exact E|exact R].
Qed.
Print Assumptions C65_loops_assembly_partial.

(** When the elements of each direction are requested one after the other, as in a list sorted by direction, nothing else is needed. *)
Theorem C65_loops_assembly_sorted : forall V (zero : V) add ks vs nl gs NL LV noLoop loopFn,
  monoid V zero add -> length ks = length vs -> NoDup (combine ks vs) -> (forall k, together ks k) ->
  keymap_ok ks nl -> (forall g, In g gs -> group_ok ks g) ->
  noLoop_ok V zero NL ks nl noLoop -> loopFn_ok V zero add LV gs loopFn ->
  exists prog, assemble ks vs nl gs = Some prog /\
  forall garbage result, lp_size prog <= length garbage -> length result = length ks ->
  exists res, runAssemble V zero add noLoop loopFn prog garbage result = Some res /\ length res = length ks /\
    forall p k, nth_error ks p = Some k -> nth_error res p = Some (expected V zero add NL LV nl gs k (rank ks p)).
Proof.
  intros V zero add ks vs nl gs NL LV noLoop loopFn Hm Hl Hd Ht Hn Hg Ho Hf. apply (C65_loops_assembly_partial V zero add ks vs nl gs NL LV noLoop loopFn); try assumption.
  intros g I. split; [exact (Hg g I)|]. left. intros k _. exact (Ht k).
Qed.
Print Assumptions C65_loops_assembly_sorted.

Lemma Z_monoid : monoid Z 0%Z Z.add.
Proof. split; intros; lia. Qed.

Ltac sorted := repeat first [apply SSorted_nil | apply SSorted_cons | apply Forall_nil | apply Forall_cons | lia].
Lemma together_b ks k : (forallb (fun p => forallb (fun r => forallb (fun q => negb ((p <? q) && (q <? r) && (nth p ks (S k) =? k) && (nth r ks (S k) =? k)) || (nth q ks (S k) =? k))
    (seq 0 (length ks))) (seq 0 (length ks))) (seq 0 (length ks))) = true -> together ks k.
Proof.
  intros H p q r [L1 L2] Hp Hr. assert (Lr : r < length ks) by (apply nth_error_Some; rewrite Hr; discriminate).
  rewrite forallb_forall in H. specialize (H p ltac:(apply in_seq; lia)). cbv beta in H. rewrite forallb_forall in H. specialize (H r ltac:(apply in_seq; lia)). cbv beta in H.
  rewrite forallb_forall in H. specialize (H q ltac:(apply in_seq; lia)). cbv beta in H. apply Nat.ltb_lt in L1, L2. rewrite L1, L2, (nth_error_nth _ _ _ Hp), (nth_error_nth _ _ _ Hr), !Nat.eqb_refl in H. cbn [andb negb orb] in H.
  apply Nat.eqb_eq in H. rewrite <- H. apply nth_error_nth'. lia.
Qed.

(** A case: three directions; the elements of the direction 1 are not requested together; a loop whose directions have different numbers of elements,
    a loop with one direction and an equation outside of loops. *)
Definition c_ks : list nat := [1; 0; 0; 1; 2; 2].
Definition c_vs : list nat := [3; 0; 1; 2; 0; 3].
Definition c_nl : keymap := [(1, [1]); (2, [0])].
Definition c_gs : list lgroup := [mkLG 5 [(0, [0; 1]); (1, [0]); (2, [1])]; mkLG 6 [(2, [0; 1])]].
Definition c_noLoop (k : nat) : option (list Z) := match k with 1 => Some [0; 100]%Z | 2 => Some [200; 0]%Z | _ => None end.
Definition c_loopFn (f k : nat) : option (list (nat * Z)) :=
  match f, k with
  | 5, 0 => Some [(1, 2%Z); (0, 1%Z)] | 5, 1 => Some [(0, 3%Z)] | 5, 2 => Some [(1, 4%Z)] | 6, 2 => Some [(0, 10%Z); (1, 20%Z)] | _, _ => None
  end.
Definition c_NL (k e : nat) : Z := (Z.of_nat k * 100)%Z.
Definition c_LV (f k e : nat) : Z := match f, k, e with 5, 0, 0 => 1%Z | 5, 0, 1 => 2%Z | 5, 1, _ => 3%Z | 5, 2, _ => 4%Z | 6, 2, 0 => 10%Z | _, _, _ => 20%Z end.

Example C65_case : exists prog, assemble c_ks c_vs c_nl c_gs = Some prog /\
  forall garbage result, lp_size prog <= length garbage -> length result = 6 ->
  exists res, runAssemble Z 0%Z Z.add c_noLoop c_loopFn prog garbage result = Some res /\ length res = 6 /\
    forall p k, nth_error c_ks p = Some k -> nth_error res p = Some (expected Z 0%Z Z.add c_NL c_LV c_nl c_gs k (rank c_ks p)).
Proof.
  apply (C65_loops_assembly_partial Z 0%Z Z.add c_ks c_vs c_nl c_gs c_NL c_LV c_noLoop c_loopFn Z_monoid eq_refl).
  - vm_compute. repeat (constructor; [cbn [In]; intuition discriminate|]). constructor.
  - split; [cbn; sorted|]. intros k s I. cbn in I. destruct I as [E|[E|[]]]; injection E as <- <-;
      (split; [vm_compute; tauto|split; [discriminate|split; [sorted|intros e Ie; cbn in Ie; destruct Ie as [<-|[]]; vm_compute; lia]]]).
  - intros g I. cbn in I. destruct I as [<-|[<-|[]]].
    + split.
      * split; [split; [cbn; sorted|]|split; [discriminate|]].
        -- intros k s I. cbn in I. destruct I as [E|[E|[E|[]]]]; injection E as <- <-;
             (split; [vm_compute; tauto|split; [discriminate|split; [sorted|intros e Ie; cbn in Ie; intuition subst; vm_compute; lia]]]).
        -- intros k I. cbn in I. unfold SIZE_MAX. intuition subst; vm_compute; reflexivity.
      * right. intros k I. exists 1. split; [vm_compute; tauto|]. split; [intros T; specialize (T 0 1 3 ltac:(lia) eq_refl eq_refl); discriminate|]. cbn in I. intuition subst; vm_compute; lia.
    + split.
      * split; [split; [cbn; sorted|]|split; [discriminate|]].
        -- intros k s I. cbn in I. destruct I as [E|[]]; injection E as <- <-;
             (split; [vm_compute; tauto|split; [discriminate|split; [sorted|intros e Ie; cbn in Ie; intuition subst; vm_compute; lia]]]).
        -- intros k I. cbn in I. unfold SIZE_MAX. intuition subst; vm_compute; reflexivity.
      * left. intros k I. cbn in I. destruct I as [<-|[]]. apply together_b. reflexivity.
  - intros k s I. cbn in I. destruct I as [E|[E|[]]]; injection E as <- <-; eexists; (split; [reflexivity|]); (split; [reflexivity|]); split; intros e Ie;
      try (cbn in Ie; destruct Ie as [<-|[]]; reflexivity); intros Ni; vm_compute in Ie; (destruct e as [|[|e]]; [|cbn in Ni; try reflexivity|lia]); try reflexivity; exfalso; apply Ni; cbn; tauto.
  - intros g k s I Ik. cbn in I. destruct I as [<-|[<-|[]]]; cbn in Ik; intuition;
      match goal with E : (_, _) = (_, _) |- _ => injection E as <- <- end; eexists; (split; [reflexivity|]); (split; [intros e v H; cbn in H; cbn; intuition congruence|intros e H; cbn in H; intuition (subst; reflexivity)]).
Qed.
Example C65_case_value : option_map (fun p => runAssemble Z 0%Z Z.add c_noLoop c_loopFn p [9; 9]%Z [8; 8; 8; 8; 8; 8]%Z) (assemble c_ks c_vs c_nl c_gs) = Some (Some [3; 1; 2; 100; 210; 24]%Z).
Proof. vm_compute. reflexivity. Qed.

(** The array [compressed] has the size of the largest direction which is not requested in consecutive places, but a group with one such direction
    uses it for all of its directions: here the direction 0 (three elements, requested one after the other) shares its function with the direction 1
    (two elements, requested apart).  Whatever is in the array, the function writes behind its end. *)
Definition o_ks : list nat := [1; 0; 0; 0; 1].
Definition o_vs : list nat := [3; 0; 1; 2; 4].
Definition o_g : lgroup := mkLG 0 [(0, [0; 1; 2]); (1, [0; 1])].
Definition o_loopFn (f k : nat) : option (list (nat * Z)) :=
  match f, k with 0, 0 => Some [(0, 1%Z); (1, 2%Z); (2, 3%Z)] | 0, 1 => Some [(0, 10%Z); (1, 20%Z)] | _, _ => None end.
Definition o_LV (f k e : nat) : Z := match k, e with 0, 0 => 1%Z | 0, 1 => 2%Z | 0, _ => 3%Z | _, 0 => 10%Z | _, _ => 20%Z end.
Theorem C65_loops_assembly_overflow_refuted : exists ks vs g LV loopFn prog,
  length ks = length vs /\ NoDup (combine ks vs) /\ group_ok ks g /\ loopFn_ok Z 0%Z Z.add LV [g] loopFn /\
  assemble ks vs [] [g] = Some prog /\
  forall noLoop garbage result, length result = length ks -> runAssemble Z 0%Z Z.add noLoop loopFn prog garbage result = None.
Proof.
  exists o_ks, o_vs, o_g, o_LV, o_loopFn. destruct (assemble o_ks o_vs [] [o_g]) as [prog|] eqn:E; [|discriminate E]. exists prog. split; [reflexivity|]. split; [|split; [|split; [|split; [reflexivity|]]]].
  - vm_compute. repeat (constructor; [cbn [In]; intuition discriminate|]). constructor.
  - split; [split; [cbn; sorted|]|split; [discriminate|]].
    + intros k s I. cbn in I. destruct I as [X|[X|[]]]; injection X as <- <-;
        (split; [vm_compute; tauto|split; [discriminate|split; [sorted|intros e Ie; cbn in Ie; intuition subst; vm_compute; lia]]]).
    + intros k I. cbn in I. unfold SIZE_MAX. intuition subst; vm_compute; reflexivity.
  - intros g k s [<-|[]] Ik. cbn in Ik. destruct Ik as [X|[X|[]]]; injection X as <- <-; eexists; (split; [reflexivity|]);
      (split; [intros e v H; cbn in H; cbn; intuition congruence|intros e H; cbn in H; intuition (subst; reflexivity)]).
  - intros noLoop garbage result L. vm_compute in E. injection E as <-. do 6 (destruct result as [|? result]; try discriminate L).
    destruct garbage as [|g1 [|g2 garbage]]; vm_compute; reflexivity.
Qed.
Print Assumptions C65_loops_assembly_overflow_refuted.

(** A repeated element: the first place gets the value twice and the others nothing. *)
Theorem C65_loops_assembly_repeated_refuted : exists ks vs g LV loopFn prog,
  length ks = length vs /\ group_ok ks g /\ fits ks g /\ loopFn_ok Z 0%Z Z.add LV [g] loopFn /\
  assemble ks vs [] [g] = Some prog /\
  forall noLoop garbage, lp_size prog <= length garbage ->
  exists res, runAssemble Z 0%Z Z.add noLoop loopFn prog garbage [7; 7]%Z = Some res /\
    nth_error ks 0 = nth_error ks 1 /\ nth_error vs 0 = nth_error vs 1 /\ nth_error res 0 = Some 14%Z /\ nth_error res 1 = Some 0%Z /\
    expected Z 0%Z Z.add (fun _ _ => 0%Z) LV [] [g] 0 0 = 7%Z /\ expected Z 0%Z Z.add (fun _ _ => 0%Z) LV [] [g] 0 1 = 7%Z.
Proof.
  exists [0; 0], [5; 5], (mkLG 0 [(0, [0; 1])]), (fun _ _ _ => 7%Z), (fun f k => match f, k with 0, 0 => Some [(0, 7%Z); (1, 7%Z)] | _, _ => None end).
  destruct (assemble [0; 0] [5; 5] [] [mkLG 0 [(0, [0; 1])]]) as [prog|] eqn:E; [|discriminate E]. exists prog. split; [reflexivity|]. split; [|split; [|split; [|split; [reflexivity|]]]].
  - split; [split; [cbn; sorted|]|split; [discriminate|]].
    + intros k s I. cbn in I. destruct I as [X|[]]; injection X as <- <-.
      split; [vm_compute; tauto|split; [discriminate|split; [sorted|intros e Ie; cbn in Ie; intuition subst; vm_compute; lia]]].
    + intros k I. cbn in I. unfold SIZE_MAX. intuition subst; vm_compute; reflexivity.
  - left. intros k I. cbn in I. destruct I as [<-|[]]. apply together_b. reflexivity.
  - intros g k s [<-|[]] Ik. cbn in Ik. destruct Ik as [X|[]]; injection X as <- <-. eexists. split; [reflexivity|].
    split; [intros e v H; cbn in H; cbn; intuition congruence|intros e H; cbn in H; intuition (subst; reflexivity)].
  - intros noLoop garbage L. vm_compute in E. injection E as <-. cbn [lp_size] in L. destruct garbage as [|g1 [|g2 garbage]]; cbn [length] in L; try lia.
    eexists. split; [vm_compute; reflexivity|]. repeat split; reflexivity.
Qed.
Print Assumptions C65_loops_assembly_repeated_refuted.

(** * What the values and the sparse Jacobian of a model with loops must be *)
From Coq Require Import List Bool Arith NArith Reals.
From Verif Require Import Graph_model Codegen_model CSyntax Range_model LoopCond_model LoopCond_spec LoopJac_model.
Import ListNotations.
Local Open Scope nat_scope.

(** ** The equations of the model *)
Inductive source : Type := XVar (j : nat) | ZTmp (k : nat).         (* a variable of the model, a temporary *)
(** what the variables of the tape of a loop are in an iteration, in their order: indexed, non-indexed, temporaries *)
Definition sources (l : loopM) (it : nat) : list (option source) :=
  map (fun r => match nth_error r it with Some (Some j) => Some (XVar j) | _ => None end) (l_indexed l)
  ++ map (fun j => Some (XVar j)) (l_non l) ++ map (fun k => Some (ZTmp k)) (l_tmp l).

Section Spec.
Variable F : nat -> nat -> (nat -> R) -> R.
Variable dF : nat -> nat -> nat -> (nat -> R) -> R.
Variable G : nat -> (nat -> R) -> R.
Variable dG : nat -> nat -> (nat -> R) -> R.
Variable md : model.

Definition eqCount : nat := match m_free md with Some f => length (f_eqs f) | None => 0 end.
Definition read (x : nat -> R) (o : option (option source)) : R :=
  match o with Some (Some (XVar j)) => x j | Some (Some (ZTmp k)) => G (eqCount + k) x | _ => 0%R end.
(** equation [i] of the model is the function [y] *)
Inductive equation : nat -> ((nat -> R) -> R) -> Prop :=
 | EqLoop n l tapeI row it i : nth_error (m_loops md) n = Some l -> nth_error (l_deps l) tapeI = Some row -> nth_error row it = Some (Some i) ->
     equation i (fun x => F n tapeI (fun t => read x (nth_error (sources l it) t)))
 | EqFree f il i : m_free md = Some f -> nth_error (f_eqs f) il = Some i -> equation i (G il).

(** ** Derivatives *)
Fixpoint sumTo (n : nat) (f : nat -> R) : R := match n with O => 0%R | S n' => (sumTo n' f + f n')%R end.
(** along every differentiable curve through [u] the function has the derivative which the partial derivatives [g] give *)
Definition differential (n : nat) (f : (nat -> R) -> R) (u : nat -> R) (g : nat -> R) : Prop :=
  forall (c : R -> nat -> R) (d : nat -> R), (forall t, c 0%R t = u t) -> (forall t, t < n -> derivable_pt_lim (fun s => c s t) 0 (d t)) ->
  derivable_pt_lim (fun s => f (c s)) 0 (sumTo n (fun t => g t * d t)%R).
(** [x] with its element [j] moved by [s] *)
Definition moved (x : nat -> R) (j : nat) (s : R) : nat -> R := fun j' => if j' =? j then (x j' + s)%R else x j'.
Definition partial (y : (nat -> R) -> R) (x : nat -> R) (j : nat) (d : R) : Prop := derivable_pt_lim (fun s => y (moved x j s)) 0 d.

(** the tapes at [x]: the sparsity patterns cover all dependencies, and the partial derivatives are right where the model evaluates them *)
Definition covers : Prop :=
  forall n l tapeI row, nth_error (m_loops md) n = Some l -> nth_error (l_row l) tapeI = Some row ->
  forall u u', (forall t, In t row -> u t = u' t) -> F n tapeI u = F n tapeI u'.
Definition tapes_right (x : nat -> R) : Prop :=
  covers /\
  (forall n l tapeI row, nth_error (m_loops md) n = Some l -> nth_error (l_row l) tapeI = Some row ->
     (forall deps it i, nth_error (l_deps l) tapeI = Some deps -> nth_error deps it = Some (Some i) ->
        let u := fun t => read x (nth_error (sources l it) t) in
        differential (length (l_indexed l) + length (l_non l) + length (l_tmp l)) (F n tapeI) u (fun t => dF n tapeI t u)) /\
     (forall t u, ~ In t row -> dF n tapeI t u = 0%R) /\
     (forall t u u', (forall t, In t row -> u t = u' t) -> dF n tapeI t u = dF n tapeI t u')) /\
  (forall f il row, m_free md = Some f -> nth_error (f_row f) il = Some row -> forall j,
     partial (G il) x j (dG il j x) /\ (~ In j row -> dG il j x = 0%R)).

(** ** Execution of a generated function: the array is zero, the loops run, then the other elements are assigned *)
Definition act (k : N) (a : N -> R) (f : effect V) : N -> R :=
  fun p => if N.eqb p (fst (fst f)) then (if N.eqb (snd (fst f)) 0 then snd f k else a p + snd f k)%R else a p.
Inductive run_iters (s : loop V) : list N -> (N -> R) -> (N -> R) -> Prop :=
 | I_nil a : run_iters s [] a a
 | I_cons k ks fs a b : iteration V k s fs -> run_iters s ks (fold_left (act k) fs a) b -> run_iters s (k :: ks) a b.
Inductive run_loops : list (nat * loop V) -> (N -> R) -> (N -> R) -> Prop :=
 | L_nil a : run_loops [] a a
 | L_cons n s ls a b c : run_iters s (map N.of_nat (seq 0 n)) a b -> run_loops ls b c -> run_loops ((n, s) :: ls) a c.
Definition assign (b : nat -> R) (p : nat * R) : nat -> R := fun q => if q =? fst p then snd p else b q.
Definition produces (p : program) (b : nat -> R) : Prop :=
  exists a, run_loops (p_loops p) (fun _ => 0%R) a /\ forall q, b q = fold_left assign (p_set p) (fun q => a (N.of_nat q)) q.

(** ** Models which are made of loops *)
Record good_loop (l : loopM) : Prop := {
  g_iters : 0 < l_iters l /\ (N.of_nat (l_iters l) <= SIZE_MAX)%N;
  g_deps : Forall (fun r => length r = l_iters l) (l_deps l);
  g_indexed : Forall (fun r => length r = l_iters l) (l_indexed l);
  g_non : NoDup (l_non l);
  g_tmp : NoDup (l_tmp l);
  g_rows : length (l_row l) = length (l_deps l);
  (* each pattern is an equation of some iteration *)
  g_used : Forall (fun r => exists it i, nth_error r it = Some (Some i)) (l_deps l);
  g_sparsity : Forall (fun row => NoDup row /\ forall t, In t row -> t < length (l_indexed l) + length (l_non l) + length (l_tmp l)) (l_row l);
  (* the variables which an equation uses exist in its iterations *)
  g_present : forall tapeI row deps it i t, nth_error (l_row l) tapeI = Some row -> nth_error (l_deps l) tapeI = Some deps ->
     nth_error deps it = Some (Some i) -> In t row -> nth_error (sources l it) t <> Some None;
  g_temps : forall k, In k (l_tmp l) -> exists f, m_free md = Some f /\ length (f_eqs f) + k < length (f_row f) }.
(** where an equation is *)
Inductive place_of (i : nat) : option (nat * (nat * nat)) -> Prop :=
 | P_loop n l tapeI row it : nth_error (m_loops md) n = Some l -> nth_error (l_deps l) tapeI = Some row -> nth_error row it = Some (Some i) ->
     place_of i (Some (n, (tapeI, it)))
 | P_free f : m_free md = Some f -> In i (f_eqs f) -> place_of i None.
Record good : Prop := {
  g_loops : Forall good_loop (m_loops md);
  g_one : forall i p p', place_of i p -> place_of i p' -> p = p';
  g_free : forall f, m_free md = Some f -> NoDup (f_eqs f) /\ length (f_eqs f) <= length (f_row f) }.

(** the derivative of equation [i] by [j] is in the sparsity patterns, the equation being one of a loop *)
Definition dependence (l : loopM) (it tapeI j : nat) : Prop :=
  exists row t, nth_error (l_row l) tapeI = Some row /\ In t row /\
    (nth_error (sources l it) t = Some (Some (XVar j)) \/
     exists k f sp, nth_error (sources l it) t = Some (Some (ZTmp k)) /\ m_free md = Some f /\ nth_error (f_row f) (length (f_eqs f) + k) = Some sp /\ In j sp).
Definition depends_in_loop (i j : nat) : Prop :=
  exists n l tapeI it, place_of i (Some (n, (tapeI, it))) /\ nth_error (m_loops md) n = Some l /\ dependence l it tapeI j.
(** an element of a loop which is not known to be zero is requested twice *)
Definition repeated (els : list (nat * nat)) : Prop :=
  exists e e' i j, e < e' /\ nth_error els e = Some (i, j) /\ nth_error els e' = Some (i, j) /\ depends_in_loop i j.

End Spec.

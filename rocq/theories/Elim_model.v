(** * The choice of the equations which eliminate derivatives and dummy derivatives

    Models dae_index_reduction/dummy_deriv.hpp 725-958 (matchVars2Eqs4Elimination) and 960-1115 (assignVar2Equation), with the nodes of
    Match_model.v (bipartite_nodes.hpp).

    Simplifications: a variable is its index in the tape (the nodes made in 762-777 have distinct ones) and an equation its position;
    std::set<Enode*> (ordered by address) is in the order of equations; the residuals with the handler are a value of [X], about which the
    code asks whether an equation can be solved for a variable ([solvable], CodeHandler::isSolvable) and in which an independent is replaced by
    the solution of an equation ([subst], CodeHandler::substituteIndependent with removeIndependent; [None]: an exception).
    undoSubstituteIndependent (1065) gives back the value from before (C35). Names and the log are left out. *)
From Coq Require Import List Bool Arith.
From Verif Require Import Match_model.
Import ListNotations.

(** outcomes: [EThrow] a CGException, [ENull] a null pointer is used, [EFuel] the end of the fuel *)
Inductive eout (A : Type) : Type := EOk (a : A) | EThrow | ENull | EFuel.
Arguments EOk {A} a. Arguments EThrow {A}. Arguments ENull {A}. Arguments EFuel {A}.
Definition ebind {A B} (r : eout A) (f : A -> eout B) : eout B := match r with EOk a => f a | EThrow => EThrow | ENull => ENull | EFuel => EFuel end.
Definition mem (n : nat) (l : list nat) : bool := existsb (Nat.eqb n) l.

Section Elim.
Variable X : Type.
Variable solvable : X -> nat -> nat -> bool.      (* equation, variable *)
Variable subst : X -> nat -> nat -> option X.
Record est : Type := mkE {
  eg : graph;                                      (* the new bipartite graph (754-799) *)
  ex : X;                                          (* handler, res0 and indep0 *)
  ej : nat -> nat -> bool }.                       (* jacSparsity: equation, variable *)

Section Assign.
Variable free : list nat.                          (* tape2FreeVariables, by tape index *)
(** 1002-1021: the other equations with the variable, and their sparsity after the substitution *)
Definition affected (s : est) (i j : nat) : list nat := filter (fun e => negb (e =? i) && ej s e j) (seq 0 (ne (eg s))).
Definition nonZeros (s : est) (i j : nat) : list nat := filter (fun v => ej s i v && negb (v =? j)) free.
Definition newJac (s : est) (i j : nat) : nat -> nat -> bool :=
  fun e v => if mem e (affected s i j) then mem v (nonZeros s i j) || (negb (v =? j) && ej s e v) else ej s e v.
(** 1024-1048: solvable[v] contains e *)
Definition solv (s : est) (x1 : X) (i j v e : nat) : bool :=
  if mem e (affected s i j) then newJac s i j e v && solvable x1 e v else negb (e =? i) && mem v (e_vars (ge (eg s) e)).
(** 1050-1066: no variable stops being solvable *)
Definition stays (s : est) (x1 : X) (i j : nat) : bool :=
  forallb (fun v => (v =? j) ||
    match v_asg (gv (eg s) v) with
    | Some e => negb (mem e (affected s i j)) || solv s x1 i j v e
    | None => existsb (solv s x1 i j v) (seq 0 (ne (eg s)))
    end) free.
(** 1077-1093: changes in the graph *)
Definition change (s : est) (x1 : X) (i j : nat) (a : nat) (g : graph) (v : nat) : graph :=
  if newJac s i j a v then (if solv s x1 i j v a then add_variable g a v else upde g a (e_delete v)) else g.
Definition changes (s : est) (x1 : X) (i j : nat) : graph :=
  fold_left (fun g a => fold_left (change s x1 i j a) free g) (affected s i j) (eg s).
(** assignVar2Equation (960-1115) *)
Definition assign (s : est) (i j : nat) : eout (bool * est) :=
  match subst (ex s) i j with
  | None => EThrow
  | Some x1 =>
      match affected s i j with
      | [] => EOk (true, mkE (delete_node (set_assign (eg s) j i) j) x1 (newJac s i j))
      | _ :: _ =>
          if stays s x1 i j then EOk (true, mkE (delete_node (set_assign (changes s x1 i j) j i) j) x1 (newJac s i j))
          else EOk (false, s)
      end
  end.

(** 818-833 ([must]) and 839-850: variables with a single equation; whether some was assigned *)
Fixpoint passVars (must : bool) (js : list nat) (s : est) (any : bool) : eout (bool * est) :=
  match js with
  | [] => EOk (any, s)
  | j :: r =>
      if v_del (gv (eg s) j) then passVars must r s any
      else match v_eqs (gv (eg s) j) with
      | [i] =>
          if is_none (e_asg (ge (eg s) i)) then
            ebind (assign s i j) (fun q => if fst q then passVars must r (snd q) true else if must then EThrow else passVars must r (snd q) any)
          else passVars must r s any
      | _ => passVars must r s any
      end
  end.
(** 857-866: equations with a single variable *)
Fixpoint passEqs (is_ : list nat) (s : est) (any : bool) : eout (bool * est) :=
  match is_ with
  | [] => EOk (any, s)
  | i :: r =>
      if is_none (e_asg (ge (eg s) i)) then
        match e_vars (ge (eg s) i) with
        | [j] => ebind (assign s i j) (fun q => passEqs r (snd q) (any || fst q))
        | _ => passEqs r s any
        end
      else passEqs r s any
  end.
(** 876-890: the first variable and equation which can be assigned *)
Fixpoint tearEqs (j : nat) (is_ : list nat) (s : est) : eout (bool * est) :=
  match is_ with
  | [] => EOk (false, s)
  | i :: r => if is_none (e_asg (ge (eg s) i)) then ebind (assign s i j) (fun q => if fst q then EOk q else tearEqs j r (snd q)) else tearEqs j r s
  end.
Fixpoint tear (js : list nat) (s : est) : eout (bool * est) :=
  match js with
  | [] => EOk (false, s)
  | j :: r => if v_del (gv (eg s) j) then tear r s else ebind (tearEqs j (v_eqs (gv (eg s) j)) s) (fun q => if fst q then EOk q else tear r (snd q))
  end.
End Assign.

(** do ... while (assigned > 0) *)
Fixpoint loop (pass : est -> eout (bool * est)) (fuel : nat) (s : est) : eout est :=
  match fuel with 0 => EFuel | S f => ebind (pass s) (fun q => if fst q then loop pass f (snd q) else EOk (snd q)) end.
(** 810-896 *)
Definition matchLoops (free diff dummy : list nat) (s : est) : eout est :=
  let m := ne (eg s) in
  let loop1 := loop (fun s => passVars free true diff s false) (S m) in
  let loop2 := loop (fun s => ebind (loop1 s) (fun s => passVars free false dummy s false)) (S m) in
  let loop3 := loop (fun s => ebind (loop2 s) (fun s => passEqs free (seq 0 m) s false)) (S m) in
  loop (fun s => ebind (loop3 s) (fun s => tear free (diff ++ dummy) s)) (S m) s.

(** 754-808: the new graph; [rows i] the original variables of equation i *)
Definition freeOf (n : nat) (diff dummy : list nat) : list nat := filter (fun v => mem v (diff ++ dummy)) (seq 0 n).
Definition start (n m : nat) (diff dummy : list nat) (rows : nat -> list nat) (jac : nat -> nat -> bool) (x : X) : est :=
  mkE (fold_left (fun g i => fold_left (fun g v => if mem v (diff ++ dummy) && jac i v && solvable x i v then add_variable g i v else g) (rows i) g)
         (seq 0 m) (Gr n m (fun _ => VN false [] None None None false) (fun _ => EN [] [] None None None false))) x jac.

(** 899-910: assigned variables are deleted; the others are matched, for information *)
Fixpoint augmentAll (is_ : list nat) (g : graph) : eout graph :=
  match is_ with
  | [] => EOk g
  | i :: r =>
      if is_none (e_asg (ge g i)) then
        match augment Depth (S (ne g)) i g with Ret g' _ => augmentAll r g' | Null => ENull | NoFuel => EFuel end
      else augmentAll r g
  end.
Definition forInformation (vars : list nat) (g : graph) : eout graph :=
  augmentAll (seq 0 (ne g)) (fold_left (fun g j => if is_none (v_asg (gv g j)) then g else delete_node g j) vars g).
(** 915-925: assigned variables of the equations; the others keep theirs *)
Fixpoint setAt (l : list (option nat)) (i : nat) (v : option nat) : list (option nat) :=
  match l, i with [], _ => [] | _ :: r, 0 => v :: r | a :: r, S k => a :: setAt r k v end.
Definition save (vars : list nat) (g : graph) (old : list (option nat)) : list (option nat) :=
  fold_left (fun l j => match v_asg (gv g j) with Some i => setAt l i (Some j) | None => l end) vars old.

(** matchVars2Eqs4Elimination (725-958): the assigned variables, the state after 896 and the last graph.
    [diff] is empty unless a semi-explicit model is wanted, [dummy] unless equations are to be removed (762-777). *)
Definition choose (semi : bool) (n : nat) (diff dummy : list nat) (rows : nat -> list nat) (jac : nat -> nat -> bool) (x : X) (old : list (option nat)) : eout (list (option nat) * est * graph) :=
  ebind (matchLoops (freeOf n diff dummy) diff dummy (start n (length old) diff dummy rows jac x)) (fun s =>
  ebind (forInformation (diff ++ dummy) (eg s)) (fun g =>
  if semi && existsb (fun j => is_none (v_asg (gv g j))) diff then EThrow (* 928-941 *)
  else EOk (save (diff ++ dummy) g old, s, g))).
End Elim.

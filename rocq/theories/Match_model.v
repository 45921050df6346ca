(** * The bipartite graph of equations and variables, the two augmenting path
    procedures and the loop of Pantelides' method.

    Sources (all in /repo/include/cppad/cg/dae_index_reduction/):
    - bipartite_nodes.hpp (nodes of the graph)
    - bipartite_graph.hpp (derivatives, colours)
    - augment_path_depth_lookahead.hpp and augment_path_depth_lookahead_a.hpp
    - pantelides.hpp (detectSubset2Dif).

    A node is named by its position in the vectors [vnodes_] and [enodes_] of
    the graph; positions stand for the pointers of the C++ code.  The logger
    and the names of nodes are not modelled.  [Vnode::makeParameter]
    (bipartite_nodes.hpp 346-350) is never called by the library, so no
    variable is a parameter and [parameter_] is left out. *)
From Coq Require Import List Arith Bool.
Import ListNotations.

(** bipartite_nodes.hpp 206-244, [Vnode] ([colored_] of line 34 included):
    [deleted_], [enodes_], [assign_], [derivative_], [antiDerivative_]. *)
Record vnode := VN {
  v_del : bool; v_eqs : list nat; v_asg : option nat;
  v_der : option nat; v_anti : option nat; v_col : bool }.

(** bipartite_nodes.hpp 80-108, [Enode]: [vnodes_orig_], [vnodes_],
    [differentiation_], [differentiationOf_], [assign_]. *)
Record enode := EN {
  e_orig : list nat; e_vars : list nat;
  e_der : option nat; e_of : option nat; e_asg : option nat; e_col : bool }.

(** bipartite_graph.hpp 44-46: [vnodes_] (size [nv]) and [enodes_] (size
    [ne]). *)
Record graph := Gr { nv : nat; ne : nat; gv : nat -> vnode; ge : nat -> enode }.

Definition updv (g : graph) (j : nat) (f : vnode -> vnode) : graph :=
  Gr (nv g) (ne g) (fun x => if x =? j then f (gv g x) else gv g x) (ge g).
Definition upde (g : graph) (i : nat) (f : enode -> enode) : graph :=
  Gr (nv g) (ne g) (gv g) (fun x => if x =? i then f (ge g x) else ge g x).

(** bipartite_nodes.hpp 42-48, [color()] *)
Definition v_color (n : vnode) : vnode :=
  VN (v_del n) (v_eqs n) (v_asg n) (v_der n) (v_anti n) true.
Definition e_color (n : enode) : enode :=
  EN (e_orig n) (e_vars n) (e_der n) (e_of n) (e_asg n) true.
(** bipartite_nodes.hpp 50-52, [uncolor()] *)
Definition v_uncolor (n : vnode) : vnode :=
  VN (v_del n) (v_eqs n) (v_asg n) (v_der n) (v_anti n) false.
Definition e_uncolor (n : enode) : enode :=
  EN (e_orig n) (e_vars n) (e_der n) (e_of n) (e_asg n) false.

(** bipartite_nodes.hpp 372-381 [Vnode::setAssignmentEquation] and 156-158
    [Enode::setAssigmentVariable]: both ends of the edge are written, the
    former partner of either end is not touched. *)
Definition set_assign (g : graph) (j i : nat) : graph :=
  upde (updv g j (fun n => VN (v_del n) (v_eqs n) (Some i) (v_der n) (v_anti n) (v_col n)))
       i (fun n => EN (e_orig n) (e_vars n) (e_der n) (e_of n) (Some j) (e_col n)).

(** ** Augmenting paths *)

(** What the two procedures differ in:
    [look]: the search for a variable that is not assigned;
    [pass]: the condition of the last loop on a variable;
    [marks]: whether that loop colours the variable. *)
Record variant := Var {
  look : graph -> list nat -> option nat;
  pass : graph -> nat -> bool;
  marks : bool }.

Definition is_none {A} (o : option A) : bool :=
  match o with None => true | Some _ => false end.

(** augment_path_depth_lookahead.hpp 43-60 (derivatives first, then algebraic
    variables) and 63-65. *)
Definition Depth : variant :=
  {| look g l :=
       match find (fun j => negb (is_none (v_anti (gv g j))) && is_none (v_asg (gv g j))) l with
       | Some j => Some j
       | None => find (fun j => is_none (v_anti (gv g j)) && is_none (v_asg (gv g j))) l
       end;
     pass g j := negb (v_col (gv g j));
     marks := true |}.

(** augment_path_depth_lookahead_a.hpp 45-53 and 55-63. *)
Definition DepthA : variant :=
  {| look g l :=
       find (fun j => is_none (v_der (gv g j)) && negb (is_none (v_anti (gv g j)))
                      && is_none (v_asg (gv g j))) l;
     pass g j := negb (v_col (gv g j)) && is_none (v_der (gv g j))
                 && negb (is_none (v_anti (gv g j)));
     marks := false |}.

(** Result of a call.  [Null]: a null assignment was dereferenced.
    [NoFuel]: the bound on the depth of the recursion was reached; it is not
    an outcome of the C++ code and is excluded by a theorem. *)
Inductive res := Ret (g : graph) (found : bool) | Null | NoFuel.

(** augment_path_depth_lookahead.hpp 37-79 and
    augment_path_depth_lookahead_a.hpp 39-75, [augmentPath(Enode& i)]. *)
Fixpoint augment (K : variant) (fuel : nat) (i : nat) (g0 : graph) : res :=
  match fuel with
  | O => NoFuel
  | S f =>
      let g := upde g0 i e_color in
      match look K g (e_vars (ge g i)) with
      | Some j => Ret (set_assign g j i) true
      | None =>
          (fix loop (js : list nat) (g : graph) : res :=
             match js with
             | [] => Ret g false
             | j :: js =>
                 if pass K g j then
                   let g := if marks K then updv g j v_color else g in
                   match v_asg (gv g j) with
                   | None => Null
                   | Some k =>
                       if e_col (ge g k) then loop js g
                       else match augment K f k g with
                            | Ret g' true => Ret (set_assign g' j i) true
                            | Ret g' false => loop js g'
                            | r => r
                            end
                   end
                 else loop js g
             end) (e_vars (ge g i)) g
      end
  end.

(** The loop over the variables of the equation, by itself. *)
Definition augment_loop (K : variant) (f : nat) (i : nat) : list nat -> graph -> res :=
  fix loop (js : list nat) (g : graph) : res :=
    match js with
    | [] => Ret g false
    | j :: js =>
        if pass K g j then
          let g := if marks K then updv g j v_color else g in
          match v_asg (gv g j) with
          | None => Null
          | Some k =>
              if e_col (ge g k) then loop js g
              else match augment K f k g with
                   | Ret g' true => Ret (set_assign g' j i) true
                   | Ret g' false => loop js g'
                   | r => r
                   end
          end
        else loop js g
    end.

(** ** Changes of the graph *)

(** std::find and erase of bipartite_nodes.hpp 181-185 *)
Fixpoint remove1 (j : nat) (l : list nat) : list nat :=
  match l with [] => [] | a :: l => if a =? j then l else a :: remove1 j l end.

(** bipartite_nodes.hpp 181-185 [Enode::deleteNode] *)
Definition e_delete (j : nat) (n : enode) : enode :=
  EN (e_orig n) (remove1 j (e_vars n)) (e_der n) (e_of n) (e_asg n) (e_col n).

(** bipartite_nodes.hpp 356-366 [Vnode::deleteNode] *)
Definition delete_node (g : graph) (j : nat) : graph :=
  updv (fold_left (fun g i => upde g i (e_delete j)) (v_eqs (gv g j)) g) j
    (fun n => VN true [] (v_asg n) (v_der n) (v_anti n) (v_col n)).

(** pantelides.hpp 133-137 *)
Definition delete_low (g : graph) : graph :=
  fold_left (fun g j =>
    if negb (v_del (gv g j)) && negb (is_none (v_der (gv g j)))
    then delete_node g j else g) (seq 0 (nv g)) g.

(** bipartite_graph.hpp 374-382 [uncolorAll] *)
Definition uncolor_all (g : graph) : graph :=
  Gr (nv g) (ne g) (fun x => v_uncolor (gv g x)) (fun x => e_uncolor (ge g x)).

(** bipartite_nodes.hpp 143-151 [Enode::addVariable] with 400-405
    [Vnode::addEquation] *)
Definition add_variable (g : graph) (i j : nat) : graph :=
  if existsb (Nat.eqb j) (e_orig (ge g i)) then g
  else
    let g := upde g i (fun n => EN (e_orig n ++ [j]) (e_vars n) (e_der n) (e_of n) (e_asg n) (e_col n)) in
    if v_del (gv g j) then g
    else updv (upde g i (fun n => EN (e_orig n) (e_vars n ++ [j]) (e_der n) (e_of n) (e_asg n) (e_col n)))
           j (fun n => VN (v_del n) (v_eqs n ++ [i]) (v_asg n) (v_der n) (v_anti n) (v_col n)).

(** bipartite_graph.hpp 384-399 [createDerivate(Vnode& j)] with the constructor
    bipartite_nodes.hpp 272-287; returns the graph and the derivative. *)
Definition create_v (g : graph) (j : nat) : graph * nat :=
  match v_der (gv g j) with
  | Some d => (g, d)
  | None =>
      let d := nv g in
      let g' := updv g j (fun n => VN (v_del n) (v_eqs n) (v_asg n) (Some d) (v_anti n) (v_col n)) in
      (Gr (S d) (ne g') (fun x => if x =? d then VN false [] None None (Some j) false else gv g' x)
          (ge g'), d)
  end.

(** bipartite_graph.hpp 498-512 [dirtyDifferentiateEq(i, iDiff, addOrigVars)];
    the loop runs over the original variables of [i]. *)
Definition dirty_differentiate (addOrig : bool) (g : graph) (i d : nat) : graph :=
  fold_left (fun g j =>
    let g := if addOrig then add_variable g d j else g in
    match v_der (gv g j) with
    | Some dj => add_variable g d dj
    | None => let '(g', dj) := create_v g j in add_variable g' d dj
    end) (e_orig (ge g i)) g.

(** bipartite_graph.hpp 401-416 [createDerivate(Enode& i, addOrigVars)] with
    the constructor bipartite_nodes.hpp 119-127 *)
Definition create_e (addOrig : bool) (g : graph) (i : nat) : graph :=
  match e_der (ge g i) with
  | Some _ => g
  | None =>
      let d := ne g in
      let g' := upde g i (fun n => EN (e_orig n) (e_vars n) (Some d) (e_of n) (e_asg n) (e_col n)) in
      dirty_differentiate addOrig
        (Gr (nv g') (S d) (gv g')
           (fun x => if x =? d then EN [] [] None (Some i) None false else ge g' x)) i d
  end.

(** ** Pantelides' method *)

(** pantelides.hpp 144-151 *)
Definition differentiate_vars (g : graph) : graph :=
  fold_left (fun g j => if v_col (gv g j) && negb (v_del (gv g j)) then fst (create_v g j) else g)
    (seq 0 (nv g)) g.

(** pantelides.hpp 153-160 *)
Definition differentiate_eqs (g : graph) : graph :=
  fold_left (fun g i => if e_col (ge g i) then create_e true g i else g) (seq 0 (ne g)) g.

(** pantelides.hpp 163-175: every equation from position [from] on needs a
    variable which is present in more than one equation *)
Definition structural_check (g : graph) (from : nat) : bool :=
  forallb (fun l => existsb (fun j => 1 <? length (v_eqs (gv g j))) (e_orig (ge g l)))
    (seq from (ne g - from)).

(** pantelides.hpp 177-182; [None] when a null pointer is dereferenced *)
Definition assign_derivatives (g : graph) : option graph :=
  fold_left (fun og j =>
    match og with
    | None => None
    | Some g =>
        if v_col (gv g j) && negb (v_del (gv g j)) then
          match v_der (gv g j), v_asg (gv g j) with
          | Some dj, Some k =>
              match e_der (ge g k) with
              | Some dk => Some (set_assign g dj dk)
              | None => None
              end
          | _, _ => None
          end
        else Some g
    end) (seq 0 (nv g)) (Some g).

(** Outcome of the method: [PDone] it returns; [PThrow] it throws "Invalid
    equation structure"; [PNull] undefined behaviour; [PFuel] the bound of the
    model on the number of passes was reached. *)
Inductive pres := PDone (g : graph) | PThrow (g : graph) | PNull | PFuel.

(** pantelides.hpp 129-141: one pass of the inner loop until the augmentation
    has been tried *)
Definition prepare (g : graph) : graph := uncolor_all (delete_low g).

(** pantelides.hpp 143-184, after a failed augmentation of [i]: the outcome is
    the next graph and the next equation *)
Inductive fres := FNext (g : graph) (i : nat) | FThrow (g : graph) | FNull.
Definition failed (g : graph) (i : nat) : fres :=
  let esize := ne g in
  let g := differentiate_eqs (differentiate_vars g) in
  if structural_check g esize then
    match assign_derivatives g with
    | None => FNull
    | Some g =>
        match e_der (ge g i) with
        | Some i' => FNext g i'
        | None => FNull
        end
    end
  else FThrow g.

(** pantelides.hpp 119-194: [k] the counter of the outer loop, [i] the current
    equation.  [fuel] bounds the passes of both loops together. *)
Fixpoint pantelides_from (fuel : nat) (nd k : nat) (i : nat) (g : graph) : pres :=
  match fuel with
  | O => PFuel
  | S f =>
      let g := prepare g in
      match augment Depth (S (ne g)) i g with
      | Ret g true =>
          if S k <? nd then pantelides_from f nd (S k) (S k) g else PDone g
      | Ret g false =>
          match failed g i with
          | FNext g i' => pantelides_from f nd k i' g
          | FThrow g => PThrow g
          | FNull => PNull
          end
      | Null => PNull
      | NoFuel => PFuel
      end
  end.

(** pantelides.hpp 110-196 [detectSubset2Dif] *)
Definition pantelides (fuel : nat) (g : graph) : pres :=
  match ne g with
  | O => PDone g
  | S _ => pantelides_from fuel (ne g) 0 0 g
  end.

(** bipartite_graph.hpp 129-133, 195-228: the graph of a model.  [anti j] is
    the variable whose derivative is [j]; [rows] the variables present in each
    equation.  (The numbering of the variables by order of derivative is taken
    as given; the last variable declared as derivative of [j] is the one
    recorded in [j].)  *)
Definition init_graph (anti : list (option nat)) (rows : list (list nat)) : graph :=
  let n := length anti in
  let g0 := Gr n (length rows)
     (fun j => VN false [] None
        (find (fun d => match nth d anti None with Some a => a =? j | None => false end) (rev (seq 0 n)))
        (nth j anti None) false)
     (fun _ => EN [] [] None None None false) in
  fold_left (fun g i => fold_left (fun g j => add_variable g i j) (nth i rows []) g)
    (seq 0 (length rows)) g0.

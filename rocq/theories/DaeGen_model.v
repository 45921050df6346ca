(** * The index reduced model of a DAE

    Models
    - include/cppad/cg/dae_index_reduction/bipartite_graph.hpp 76-252 (the constructor), 384-416 (createDerivate), 427-478 (remove),
      498-512 (dirtyDifferentiateEq), 517-720 (generateNewModel), 743-773 (reverseTimeDiff),
      784-815 (prepareTimeDependentVariables), 995-1034 (determineVariableDiffOrder, determineVariableOrder)
    - include/cppad/cg/dae_index_reduction/time_diff.hpp (the atomic function time_var)
    - include/cppad/cg/dae_index_reduction/dae_var_info.hpp, dae_equation_info.hpp (without names)
    - the calls of pantelides.hpp 145-160 and soares_secchi.hpp 134-138, 219-223: any sequence of them

    Functions of CppAD are lists of expressions of the variables of the tape.  That Forward(0) gives the values, Reverse(1) the
    partial derivatives and the Evaluator the same values (C25) is how the operations on expressions are defined here.
    Comparisons (CondExp) are not in the expressions.  Sizes are natural numbers, and the values which are used to avoid NaN in
    tapes (x_) are left out. *)
From Coq Require Import List Arith Bool ZArith.
Import ListNotations.
Local Open Scope nat_scope.

(** ** Variables, dae_var_info.hpp: negative indexes are None *)
Record vinfo := mkI {
  i_id : nat; i_anti : option nat; i_der : option nat;
  i_fun : bool;                              (* integratedDependent_ *)
  i_int : bool;                              (* integratedVariable_ *)
  i_orig : option nat; i_order : Z; i_oanti : option nat
}.
Definition setDer (v : vinfo) (d : option nat) : vinfo :=
  mkI (i_id v) (i_anti v) d (i_fun v) (i_int v) (i_orig v) (i_order v) (i_oanti v).
Definition setOrder (v : vinfo) (o : Z) (a : option nat) : vinfo :=
  mkI (i_id v) (i_anti v) (i_der v) (i_fun v) (i_int v) (i_orig v) o a.

Fixpoint upd {A} (f : A -> A) (k : nat) (l : list A) : list A :=
  match l, k with
  | [], _ => []
  | x :: r, 0 => f x :: r
  | x :: r, S k => x :: upd f k r
  end.

(** bipartite_graph.hpp 95-98 *)
Definition number (vs : list vinfo) : list vinfo :=
  map (fun p => let '(j, v) := p in mkI j (i_anti v) (i_der v) (i_fun v) (i_int v) (Some j) (i_order v) (i_oanti v))
      (combine (seq 0 (List.length vs)) vs).
(** 100-106: varInfo_[deriv].setDerivative(j) for j = 0, 1, ... *)
Definition linkDers (vs : list vinfo) : list vinfo :=
  fold_left (fun acc j => match nth_error vs j with
                          | Some v => match i_anti v with Some a => upd (fun w => setDer w (Some j)) a acc | None => acc end
                          | None => acc end) (seq 0 (List.length vs)) vs.
(** determineVariableOrder (1024-1034) for variable [j]: None is a recursion that does not end. *)
Fixpoint orderOf (fuel : nat) (j : nat) (vs : list vinfo) : option (list vinfo) :=
  match fuel with
  | 0 => None
  | S fuel =>
      match nth_error vs j with
      | None => Some vs
      | Some v =>
          match i_anti v with
          | None => Some vs
          | Some a =>
              match (match nth_error vs a with
                     | Some w => match i_oanti w with Some _ => Some vs | None => orderOf fuel a vs end
                     | None => Some vs end) with
              | None => None
              | Some vs =>
                  match nth_error vs a with
                  | None => Some vs
                  | Some w => let o := (i_order w + 1)%Z in
                              Some (upd (fun v => setOrder v o (if (o =? 1)%Z then i_orig w else i_oanti w)) j vs)
                  end
              end
          end
      end
  end.
Fixpoint orders (js : list nat) (vs : list vinfo) : option (list vinfo) :=
  match js with
  | [] => Some vs
  | j :: r => match orderOf (S (List.length vs)) j vs with Some vs => orders r vs | None => None end
  end.

(** determineVariableDiffOrder (995-1022): None is a loop that does not end; -1 is [Some None]. *)
Fixpoint chain (fuel : nat) (vs : list vinfo) (j : nat) : option nat :=
  match fuel with
  | 0 => None
  | S fuel => match nth_error vs j with
              | Some v => match i_anti v with Some a => option_map S (chain fuel vs a) | None => Some 0 end
              | None => Some 0
              end
  end.
Definition diffOrder (vs : list vinfo) (j : nat) : option (option nat) :=
  match nth_error vs j with
  | Some v => if i_fun v then option_map Some (chain (S (List.length vs)) vs j) else Some None
  | None => None
  end.

(** ** The graph: nodes by their number of creation; [g_va] is vnodes_ and [g_ea] is enodes_; the index of a node is its position
    there.  Colours, assignments and deleted nodes are left out: [e_vars] is vnodes_orig_, and the equations of a variable
    are those which have it (deleteNode is not used together with remove). *)
Record vnode := mkV { v_tape : nat; v_anti : option nat; v_der : option nat }.
Record enode := mkE { e_vars : list nat; e_of : option nat; e_der : option nat }.
Record gr := mkG { g_v : list vnode; g_va : list nat; g_e : list enode; g_ea : list nat }.

(** The variables of the graph: time dependent ones by order, then by index (130-136, 190-202) *)
Definition timeDependent (vs : list vinfo) : list nat :=
  concat (map (fun o => filter (fun j => match diffOrder vs j with Some (Some k) => k =? o | _ => false end) (seq 0 (List.length vs)))
              (seq 0 (S (List.length vs)))).
Fixpoint posOf (x : nat) (l : list nat) : nat := match l with [] => 0 | y :: r => if y =? x then 0 else S (posOf x r) end.
Definition antiOf (vs : list vinfo) (j : nat) : option nat := match nth_error vs j with Some v => i_anti v | None => None end.
Definition isAnti (vs : list vinfo) (a d : nat) : bool := match antiOf vs d with Some b => b =? a | None => false end.
(** The nodes (204-222): the derivative of a node is the last node which was created with it as antiderivative. *)
Definition vnodesOf (vs : list vinfo) : list vnode :=
  let ts := timeDependent vs in
  map (fun t => mkV t (option_map (fun a => posOf a ts) (antiOf vs t))
                      (option_map (fun d => posOf d ts) (find (isAnti vs t) (rev ts)))) ts.
(** The number of unknowns (236-245) *)
Definition unknowns (ws : list vnode) : nat :=
  List.length (filter (fun w => match v_anti w, v_der w with None, Some _ => false | _, _ => true end) ws).
(** The constructor: [sparsity i p]: the pattern of the Jacobian.  None: it does not end, throws
    (two integrated variables, 124-127; wrong number of equations, 247-252), or uses a variable of the tape which is not a node (218). *)
Definition build (m : nat) (vs : list vinfo) (sparsity : nat -> nat -> bool) : option (list vinfo * gr) :=
  match orders (seq 0 (List.length vs)) (linkDers (number vs)) with
  | None => None
  | Some vs =>
      if 1 <? List.length (filter i_int vs) then None
      else if existsb (fun j => match diffOrder vs j with None => true | _ => false end) (seq 0 (List.length vs)) then None
      else
        let ts := timeDependent vs in
        let ws := vnodesOf vs in
        if negb (forallb (fun t => match antiOf vs t with Some a => existsb (Nat.eqb a) ts | None => true end) ts) then None
        else if negb (unknowns ws =? m) then None
        else
        Some (vs, mkG ws (seq 0 (List.length ws))
                      (map (fun i => mkE (map (fun p => posOf p ts) (filter (fun p => existsb (Nat.eqb p) ts && sparsity i p) (seq 0 (List.length vs)))) None None)
                           (seq 0 m)) (seq 0 m))
  end.

Section Ops.
Variable n : nat.                            (* varInfo_.size() *)
Variable n0 : nat.                           (* origTimeDependentCount_ *)

Definition setVDer (d : option nat) (v : vnode) := mkV (v_tape v) (v_anti v) d.
Definition setEDer (d : option nat) (e : enode) := mkE (e_vars e) (e_of e) d.
Definition addVar (x : nat) (e : enode) := mkE (if existsb (Nat.eqb x) (e_vars e) then e_vars e else e_vars e ++ [x]) (e_of e) (e_der e).

(** createDerivate for variables (384-399), with the constructor of Vnode (bipartite_nodes.hpp 272-287) *)
Definition createVar (j : nat) (g : gr) : nat * gr :=
  match nth_error (g_v g) j with
  | Some v =>
      match v_der v with
      | Some d => (d, g)
      | None => let k := List.length (g_v g) in
                (k, mkG (upd (setVDer (Some k)) j (g_v g) ++ [mkV (n + (List.length (g_va g) - n0)) (Some j) None]) (g_va g ++ [k]) (g_e g) (g_ea g))
      end
  | None => (j, g)
  end.
(** dirtyDifferentiateEq (498-512): [k] is the new equation *)
Fixpoint dirty (addOrig : bool) (k : nat) (js : list nat) (g : gr) : gr :=
  match js with
  | [] => g
  | j :: r =>
      let g := if addOrig then mkG (g_v g) (g_va g) (upd (addVar j) k (g_e g)) (g_ea g) else g in
      let '(d, g) := createVar j g in
      dirty addOrig k r (mkG (g_v g) (g_va g) (upd (addVar d) k (g_e g)) (g_ea g))
  end.
(** createDerivate for equations (401-416), with the constructor of Enode (bipartite_nodes.hpp 122-130) *)
Definition createEq (addOrig : bool) (i : nat) (g : gr) : gr :=
  match nth_error (g_e g) i with
  | Some e =>
      match e_der e with
      | Some _ => g
      | None => let k := List.length (g_e g) in
                dirty addOrig k (e_vars e)
                  (mkG (g_v g) (g_va g) (upd (setEDer (Some k)) i (g_e g) ++ [mkE [] (Some i) None]) (g_ea g ++ [k]))
      end
  | None => g
  end.

(** remove (427-478): the loop over the antiderivatives of [j]; [done]: the variables from which the equation [i] was erased.
    None: a null pointer, or a loop that does not end (a variable in no equation which has a derivative). *)
Fixpoint removeAt {A} (k : nat) (l : list A) : list A :=
  match l, k with [], _ => [] | _ :: r, 0 => r | x :: r, S k => x :: removeAt k r end.
Definition used (g : gr) (i : nat) (done : list nat) (j : nat) : bool :=
  existsb (fun k => match nth_error (g_e g) k with
                    | Some e => existsb (Nat.eqb j) (e_vars e) && negb ((k =? i) && existsb (Nat.eqb j) done)
                    | None => false end) (g_ea g).
Definition eraseVar (j : nat) (g : gr) : gr :=
  let p := posOf j (g_va g) in
  let va := removeAt p (g_va g) in
  mkG (fold_left (fun vs k => upd (fun v => mkV (v_tape v - 1) (v_anti v) (v_der v)) k vs) (skipn p va) (g_v g)) va (g_e g) (g_ea g).
Fixpoint eraseUnused (fuel : nat) (i : nat) (done : list nat) (j : nat) (g : gr) : option gr :=
  match fuel with
  | 0 => None
  | S fuel =>
      if used g i done j then Some g
      else match nth_error (g_v g) j with
           | None => None
           | Some v =>
               match v_der v, v_anti v with
               | Some _, _ => None                                   (* while (true) ; *)
               | None, None => None                                  (* jOrig is null *)
               | None, Some a =>
                   let g := eraseVar j g in
                   eraseUnused fuel i done a (mkG (upd (setVDer None) a (g_v g)) (g_va g) (g_e g) (g_ea g))
               end
           end
  end.
Fixpoint removeVars (i : nat) (done js : list nat) (g : gr) : option gr :=
  match js with
  | [] => Some g
  | j :: r => match eraseUnused (S (List.length (g_v g))) i (j :: done) j g with
              | Some g => removeVars i (j :: done) r g
              | None => None
              end
  end.
Definition removeEq (i : nat) (g : gr) : option gr :=
  match nth_error (g_e g) i with
  | None => None
  | Some e =>
      match removeVars i [] (e_vars e) g with
      | None => None
      | Some g =>
          let es := match e_of e with Some o => upd (setEDer None) o (g_e g) | None => g_e g end in
          Some (mkG (g_v g) (g_va g) es (removeAt (posOf i (g_ea g)) (g_ea g)))
      end
  end.

(** A history of calls. *)
Inductive op := CreateVar (j : nat) | CreateEq (addOrig : bool) (i : nat) | Remove (i : nat).
Definition step (o : op) (g : gr) : option gr :=
  match o with
  | CreateVar j => Some (snd (createVar j g))
  | CreateEq b i => Some (createEq b i g)
  | Remove i => removeEq i g
  end.
Fixpoint run (os : list op) (g : gr) : option gr :=
  match os with [] => Some g | o :: r => match step o g with Some g => run r g | None => None end end.

(** ** generateNewModel: the variables (559-578) *)
Definition newInfo (vs : list vinfo) (g : gr) : list vinfo :=
  fold_left (fun acc j =>
    match nth_error (g_v g) j with
    | None => acc
    | Some v =>
        match v_anti v with
        | None => acc
        | Some a =>
            let at_ := match nth_error (g_v g) a with Some w => v_tape w | None => 0 end in
            match nth_error acc at_ with
            | None => acc
            | Some w =>
                let o := (i_order w + 1)%Z in
                upd (fun w => setDer w (Some (v_tape v))) at_ acc ++
                [mkI (List.length acc) (Some at_)
                     (match v_der v with Some d => option_map v_tape (nth_error (g_v g) d) | None => None end)
                     true false None o (if (o =? 1)%Z then i_orig w else i_oanti w)]
            end
        end
    end) (skipn n0 (g_va g)) vs.
End Ops.

(** The equations (588-596), without the assigned variable: (id, original index, antiderivative). *)
Record einfo := mkEI { q_id : nat; q_orig : option nat; q_anti : option nat }.
Definition eqInfo (g : gr) : list einfo :=
  map (fun p => let '(i, k) := p in
    match nth_error (g_e g) k with
    | Some e => match e_of e with Some o => mkEI i None (Some (posOf o (g_ea g))) | None => mkEI i (Some i) None end
    | None => mkEI i None None end) (combine (seq 0 (List.length (g_ea g))) (g_ea g)).

(** The equations to differentiate, by order (524-550). *)
Definition dersOf (g : gr) (ks : list nat) : list nat :=
  concat (map (fun k => match nth_error (g_e g) k with Some e => match e_der e with Some d => [d] | None => [] end | None => [] end) ks).
Fixpoint levels (fuel : nat) (g : gr) (ks : list nat) : option (list (list nat)) :=
  match fuel with
  | 0 => None
  | S fuel => match dersOf g ks with [] => Some [] | l => option_map (cons l) (levels fuel g l) end
  end.

(** ** Expressions *)
Section Expr.
Context {K : Type}.
Variables k0 k1 : K.
(** Constants, variables of the tape, operations, functions of one and two arguments with the orders of their derivatives,
    and time_var(x, dxdt, t). *)
Inductive ex :=
  | ECst (k : K) | EVar (j : nat) | EAdd (a b : ex) | ESub (a b : ex) | EMul (a b : ex)
  | EFun (f o : nat) (a : ex) | EFun2 (f o o' : nat) (a b : ex) | ETime (a b c : ex).

(** Forward(0): time_diff_forward (time_diff.hpp 54-56) *)
Fixpoint strip (e : ex) : ex :=
  match e with
  | ECst k => ECst k | EVar j => EVar j
  | EAdd a b => EAdd (strip a) (strip b) | ESub a b => ESub (strip a) (strip b) | EMul a b => EMul (strip a) (strip b)
  | EFun f o a => EFun f o (strip a) | EFun2 f o o' a b => EFun2 f o o' (strip a) (strip b)
  | ETime a _ _ => strip a
  end.
(** The element of Reverse(1) for the variable [t]; time_diff_reverse (time_diff.hpp 98-103): 1 for x, 0 for dxdt and dxdt for t. *)
Fixpoint diff (t : nat) (e : ex) : ex :=
  match e with
  | ECst _ => ECst k0
  | EVar j => if j =? t then ECst k1 else ECst k0
  | EAdd a b => EAdd (diff t a) (diff t b)
  | ESub a b => ESub (diff t a) (diff t b)
  | EMul a b => EAdd (EMul (diff t a) (strip b)) (EMul (strip a) (diff t b))
  | EFun f o a => EMul (EFun f (S o) (strip a)) (diff t a)
  | EFun2 f o o' a b => EAdd (EMul (EFun2 f (S o) o' (strip a) (strip b)) (diff t a)) (EMul (EFun2 f o (S o') (strip a) (strip b)) (diff t b))
  | ETime a b c => EAdd (diff t a) (EMul (strip b) (diff t c))
  end.
(** ADFun::Parameter *)
Fixpoint constant (e : ex) : bool :=
  match e with
  | ECst _ => true | EVar _ => false
  | EAdd a b | ESub a b | EMul a b | EFun2 _ _ _ a b => constant a && constant b
  | EFun _ _ a => constant a
  | ETime a b c => constant a && constant b && constant c
  end.
(** The Evaluator with other independents *)
Fixpoint subst (s : nat -> ex) (e : ex) : ex :=
  match e with
  | ECst k => ECst k | EVar j => s j
  | EAdd a b => EAdd (subst s a) (subst s b) | ESub a b => ESub (subst s a) (subst s b) | EMul a b => EMul (subst s a) (subst s b)
  | EFun f o a => EFun f o (subst s a) | EFun2 f o o' a b => EFun2 f o o' (subst s a) (subst s b)
  | ETime a b c => ETime (subst s a) (subst s b) (subst s c)
  end.

(** prepareTimeDependentVariables (784-815) *)
Definition prepare (vs : list vinfo) (t : nat) (j : nat) : ex :=
  match nth_error vs j with
  | Some v => match i_der v with Some d => ETime (EVar j) (EVar d) (EVar t) | None => EVar j end
  | None => EVar j
  end.

(** reverseTimeDiff (743-773) for the equations of a level *)
Definition timeDiff (t : nat) (g : gr) (fs : list ex) (ks : list nat) (dep : list ex) : list ex :=
  fold_left (fun dep k => match nth_error (g_e g) k with
    | Some e => match e_of e with
        | Some o => match nth_error fs (posOf o (g_ea g)) with
            | Some f => upd (fun _ => if constant f then ECst k0 else diff t f) (posOf k (g_ea g)) dep
            | None => dep end
        | None => dep end
    | None => dep end) ks dep.
(** The loop (652-716) *)
Fixpoint regenerate (vs : list vinfo) (t : nat) (userTime : bool) (g : gr) (ls : list (list nat)) (fs : list ex) : list ex :=
  match ls with
  | [] => fs
  | ks :: r =>
      let dep := timeDiff t g fs ks (map strip fs) in
      let s := match r with
               | [] => fun j => if negb userTime && (j =? t) then ECst k0 else EVar j
               | _ => prepare vs t
               end in
      regenerate vs t userTime g r (map (subst s) dep)
  end.

(** generateNewModel: None if there is nothing to do. *)
Definition generate (n0 : nat) (vs : list vinfo) (g : gr) (fun_ : list ex) : option (list vinfo * list einfo * list ex) :=
  match levels (S (List.length (g_e g))) g (firstn (List.length fun_) (g_ea g)) with
  | None | Some [] => None
  | Some ls =>
      let vs' := newInfo n0 vs g in
      let time := find (fun j => match nth_error vs j with Some v => i_int v | None => false end) (seq 0 (List.length vs)) in
      let t := match time with Some t => t | None => List.length vs' end in
      let fs := map (subst (prepare vs' t)) (map strip fun_) ++ repeat (ECst k0) (List.length (g_ea g) - List.length fun_) in
      Some (vs', eqInfo g, regenerate vs' t (match time with Some _ => true | None => false end) g ls fs)
  end.
End Expr.
Arguments ex : clear implicits.

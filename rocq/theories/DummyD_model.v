(** * Dummy derivatives

    Models include/cppad/cg/dae_index_reduction/dummy_deriv.hpp (the graph and the information of variables are those of
    DaeGen_model) and dummy_deriv_util.hpp.  The values of the Jacobian, the QR decomposition of Eigen and std::sort are
    parameters; the substitutions in the operation graph are C35, here equations are functions of the values of the variables. *)
From Coq Require Import List Arith Bool ZArith.
From Verif Require Import DaeGen_model Compare_model.
Import ListNotations.
Local Open Scope nat_scope.

Inductive res (A : Type) := ROk (a : A) | RThrow | RAssert | RBad.
Arguments ROk {A}. Arguments RThrow {A}. Arguments RAssert {A}. Arguments RBad {A}.

(** ** The selection *)
Section Select.
Variable debug : bool.                       (* NDEBUG is not defined *)
Variable nz : nat -> nat -> bool.            (* the element of jacobian_ of an equation and a variable is not zero *)
Variable avoid : nat -> bool.                (* the name is in avoidAsDummy_ *)
Variable avoidAlg : bool.                    (* avoidConvertAlg2DifVars_ *)
Variable algebraic : nat -> bool.            (* the original variable has no derivative in the user's model *)
(** ColPivHouseholderQR of the given rows and columns: the order of the columns, None if the decomposition fails or the rank is
    less than the number of rows *)
Variable qr : list nat -> list nat -> option (list nat).

(** The last loop of 1518-1528: None is an index past the end. *)
Fixpoint remaining (cols : list nat) (piv : list nat) (need : nat) : option (list nat) :=
  match need, piv with
  | 0, _ => Some []
  | S _, [] => None
  | S k, i :: r => match nth_error cols i with
                   | None => None
                   | Some v => if algebraic v then remaining cols r need else option_map (cons v) (remaining cols r k)
                   end
  end.
(** 1500-1535 *)
Definition pick (rows : nat) (cols : list nat) (piv : list nat) : option (list nat) :=
  if avoidAlg then
    let first := firstn rows (filter algebraic (map (fun i => nth i cols 0) (firstn rows piv))) in
    option_map (app first) (remaining cols piv (rows - List.length first))
  else Some (map (fun i => nth i cols 0) (firstn rows piv)).

(** selectDummyDerivatives (1379-1552): the new dummy derivatives *)
Definition zeroCol (eqs : list nat) (v : nat) : bool := negb (existsb (fun i => nz i v) eqs).
Definition select (eqs vars dummies : list nat) : res (list nat) :=
  if List.length eqs =? List.length vars then
    (* 1383-1394: the assertion comes after the insertion *)
    if debug && existsb (fun v => existsb (Nat.eqb v) (dummies ++ vars)) vars then RAssert else ROk vars
  else
    let excluded := filter (zeroCol eqs) vars in
    let avoided := filter (fun v => negb (zeroCol eqs v) && avoid v) vars in
    let excludeAvoided := List.length eqs <=? List.length vars - (List.length excluded + List.length avoided) in
    let all := filter (fun v => negb (zeroCol eqs v)) vars in
    let cols1 := if excludeAvoided then filter (fun v => negb (avoid v)) all else all in
    (* 1479-1497 *)
    match (match qr eqs cols1 with
           | Some piv => Some (cols1, piv)
           | None => match avoided with
                     | [] => None
                     | _ => match qr eqs all with Some piv => Some (all, piv) | None => None end
                     end
           end) with
    | None => RThrow
    | Some (cols, piv) =>
        match pick (List.length eqs) cols piv with
        | None => RBad
        | Some l => if debug && existsb (fun v => existsb (Nat.eqb v) dummies) l then RAssert else ROk l
        end
    end.

(** ** The rounds of addDummyDerivatives (285-385); [srt] is std::sort *)
Variable g : gr.
Variable srt : list nat -> list nat.
Definition vAnti (j : nat) : option nat := match nth_error (g_v g) j with Some v => v_anti v | None => None end.
Definition vDer (j : nat) : option nat := match nth_error (g_v g) j with Some v => v_der v | None => None end.
Definition eOf (i : nat) : option nat := match nth_error (g_e g) i with Some e => e_of e | None => None end.
Definition eDer (i : nat) : option nat := match nth_error (g_e g) i with Some e => e_der e | None => None end.
Definition some {A} (o : option A) : bool := match o with Some _ => true | None => false end.
Definition vars0 : list nat := srt (filter (fun j => some (vAnti j) && negb (some (vDer j))) (rev (g_va g))).
Definition eqs0 : list nat := filter (fun i => some (eOf i) && negb (some (eDer i))) (rev (g_ea g)).
(** The predecessors which are derivatives themselves (333-365) *)
Definition pred (f : nat -> option nat) (l : list nat) : list nat :=
  concat (map (fun i => match f i with Some o => if some (f o) then [o] else [] | None => [] end) l).
Fixpoint rounds (fuel : nat) (eqs vars dummies : list nat) : option (res (list nat)) :=
  match fuel with
  | 0 => None
  | S fuel =>
      match select eqs vars dummies with
      | ROk new =>
          match pred eOf eqs with
          | [] => Some (ROk (dummies ++ new))
          | eqs => rounds fuel eqs (pred vAnti vars) (dummies ++ new)
          end
      | RThrow => Some RThrow | RAssert => Some RAssert | RBad => Some RBad
      end
  end.
Definition addDummies : option (res (list nat)) := rounds (S (List.length (g_e g))) eqs0 vars0 [].
End Select.

(** ** The information (370-382): [ds]: indexes in the tape of the dummy derivatives and of their antiderivatives *)
Definition setAnti (v : vinfo) (a : option nat) : vinfo :=
  mkI (i_id v) a (i_der v) (i_fun v) (i_int v) (i_orig v) (i_order v) (i_oanti v).
Definition markDummies (ds : list (nat * nat)) (vs : list vinfo) : list vinfo :=
  fold_left (fun vs d => upd (fun v => setDer v None) (snd d) (upd (fun v => setAnti v None) (fst d) vs)) ds vs.

(** dae_equation_info.hpp *)
Record dinfo := mkD { d_id : nat; d_orig : option nat; d_anti : option nat; d_var : option nat; d_expl : bool }.
Definition setEqAnti (q : dinfo) (a : option nat) := mkD (d_id q) (d_orig q) a (d_var q) (d_expl q).
Definition setVar (q : dinfo) (a : option nat) := mkD (d_id q) (d_orig q) (d_anti q) a (d_expl q).
Definition setExpl (q : dinfo) := mkD (d_id q) (d_orig q) (d_anti q) (d_var q) true.

(** ** reduceEquations: the new indexes (523-543); removed ones are -1 *)
Definition decAfter (i : nat) (l : list Z) : list Z :=
  map (fun p => let '(k, z) := p in if (i <? k) && (0 <=? z)%Z then (z - 1)%Z else z) (combine (seq 0 (List.length l)) l).
Definition shorten (removed : nat -> bool) (n : nat) : list Z :=
  fold_left (fun l i => if (nth i l 0 <? 0)%Z then decAfter i l else l) (seq 0 n)
            (map (fun p => if removed p then (-1)%Z else Z.of_nat p) (seq 0 n)).
(** The variables (550-567): the second component is true if an element past the end of newVarInfo was used (551: the loop runs
    over the size before the erasure). *)
Definition shiftIndex (p : nat) (a : option nat) : option nat :=
  match a with Some a => if p <? a then Some (a - 1) else if a =? p then None else Some a | None => None end.
Definition shiftVar (p : nat) (v : vinfo) : vinfo := setDer (setAnti v (shiftIndex p (i_anti v))) (shiftIndex p (i_der v)).
Definition eraseVars (removed : nat -> bool) (vs : list vinfo) : list vinfo * bool :=
  fold_left (fun (s : list vinfo * bool) p =>
      if removed p then
        let l := removeAt p (fst s) in
        (map (shiftVar p) l, snd s || (List.length l <? List.length vs))
      else s) (rev (seq 0 (List.length vs))) (vs, false).
(** The equations (569-581) *)
Definition short (l : list Z) (a : option nat) : option nat :=
  match a with Some a => let z := nth a l (-1)%Z in if (z <? 0)%Z then None else Some (Z.to_nat z) | None => None end.
Definition eraseEqs (removed : nat -> bool) (varMap eqMap : list Z) (qs : list dinfo) : list dinfo :=
  fold_left (fun l p => if removed p then removeAt p l
                        else upd (fun q => setEqAnti (setVar q (short varMap (d_var q))) (short eqMap (d_anti q))) p l)
            (rev (seq 0 (List.length qs))) qs.
Definition reduceInfo (remV remE : nat -> bool) (vs : list vinfo) (qs : list dinfo) : list vinfo * bool * list dinfo :=
  (eraseVars remV vs, eraseEqs remE (shorten remV (List.length vs)) (shorten remE (List.length qs)) qs).

(** ** generateSemiExplicitDAE: assignedVar2Eq (623-627), the last equation assigned to the variable *)
Definition assignedEq (qs : list dinfo) (j : nat) : option nat :=
  fold_left (fun r p => match nth_error qs p with
                        | Some q => if match d_var q with Some k => k =? j | None => false end then Some p else r
                        | None => r end) (seq 0 (List.length qs)) None.
(** The equations which become explicit (632-669); the equations are assumed to be solved (C35); None: an exception (645-648) *)
Fixpoint solveDers (vs : list vinfo) (eqOf : nat -> option nat) (js : list nat) (qs : list dinfo) : option (list dinfo) :=
  match js with
  | [] => Some qs
  | j :: r =>
      match nth_error vs j with
      | Some v =>
          match i_anti v with
          | None => solveDers vs eqOf r qs
          | Some a => match eqOf j with
                      | None => None
                      | Some i => solveDers vs eqOf r (upd (fun q => setVar (setExpl q) (Some a)) i qs)
                      end
          end
      | None => solveDers vs eqOf r qs
      end
  end.
Definition isState (v : vinfo) : bool := negb (some (i_anti v)).
(** varIndexOld2New (682-689) *)
Definition newIndex (vs : list vinfo) (j : nat) : option nat :=
  match nth_error vs j with
  | Some v => if isState v then Some (List.length (filter isState (firstn j vs))) else None
  | None => None end.
Definition semiExplicit (vs : list vinfo) (qs : list dinfo) : option (list vinfo * list dinfo) :=
  match solveDers vs (assignedEq qs) (seq 0 (List.length vs)) qs with
  | None => None
  | Some qs =>
      Some (map (fun v => setDer v None) (filter isState vs),
            map (fun q => match d_var q with Some j => setVar q (newIndex vs j) | None => q end) qs)
  end.

(** ** reorderModelEqNVars (1106-1255): [vo] and [eo]: the old indexes in their new order *)
Definition reorderVars (vo : list nat) (vs : list vinfo) : list vinfo :=
  map (fun o => match nth_error vs o with
                | Some v => setDer (setAnti v (option_map (fun a => posOf a vo) (i_anti v))) (option_map (fun d => posOf d vo) (i_der v))
                | None => mkI 0 None None false false None 0 None end) vo.
Definition reorderEqs (vo eo : list nat) (qs : list dinfo) : list dinfo :=
  map (fun o => match nth_error qs o with
                | Some q => setVar q (option_map (fun a => posOf a vo) (d_var q))
                | None => mkD 0 None None None false end) eo.
(** What the variables are sorted by (1117-1167); the order of the user's documentation (setReorder 205-214) is in the spec *)
Definition orderKey (vs : list vinfo) (j : nat) : Z :=
  match nth_error vs j with
  | Some v => if i_int v then (-2)%Z else match diffOrder vs j with Some (Some k) => Z.of_nat k | _ => (-1)%Z end
  | None => (-1)%Z end.
(** The variables that have derivatives (1119-1143); None: a loop that does not end *)
Fixpoint rootOf (fuel : nat) (vs : list vinfo) (j : nat) : nat :=
  match fuel with
  | 0 => j
  | S fuel => match nth_error vs j with Some v => match i_anti v with Some a => rootOf fuel vs a | None => j end | None => j end
  end.
Definition withDerivatives (vs : list vinfo) (qs : list dinfo) : list nat :=
  let a := concat (map (fun q => if d_expl q then match d_var q with Some j => [j] | None => [] end else []) qs) in
  match a with
  | [] => concat (map (fun j => match nth_error vs j with
                                | Some v => if some (i_anti v) then [rootOf (List.length vs) vs j] else []
                                | None => [] end) (seq 0 (List.length vs)))
  | _ => a
  end.
(** sortVariablesByOrder (dummy_deriv_util.hpp 100-111) *)
Definition varBefore (vs : list vinfo) (qs : list dinfo) (i j : nat) : bool :=
  let ki := orderKey vs i in let kj := orderKey vs j in
  let hi := existsb (Nat.eqb i) (withDerivatives vs qs) in let hj := existsb (Nat.eqb j) (withDerivatives vs qs) in
  if (kj <? ki)%Z then true else if (ki <? kj)%Z then false
  else if Bool.eqb hi hj then i <? j else hi.

(** What the equations are sorted by (1196-1208), compared by sortEquationByAssignedOrder2 *)
Fixpoint eqRoot (fuel : nat) (qs : list dinfo) (i : nat) : nat :=
  match fuel with
  | 0 => i
  | S fuel => match nth_error qs i with Some q => match d_anti q with Some a => eqRoot fuel qs a | None => i end | None => i end
  end.
Definition eqKey (vo : list nat) (vs : list vinfo) (qs : list dinfo) (i : nat) : eqOrder :=
  match nth_error qs i with
  | Some q =>
      let asg := option_map (fun a => posOf a vo) (d_var q) in
      let dif := d_expl q || match asg with
                             | Some a => match nth_error (reorderVars vo vs) a with Some w => some (i_anti w) | None => false end
                             | None => false end in
      mkEO i (eqRoot (List.length qs) qs i) dif (match asg with Some a => Z.of_nat a | None => (-1)%Z end)
  | None => mkEO i i false (-1)%Z end.
Definition eqBefore (vo : list nat) (vs : list vinfo) (qs : list dinfo) (i j : nat) : bool :=
  equationsByOrder (eqKey vo vs qs i) (eqKey vo vs qs j).

(** ** generateReorderedModel (1257-1318): [f i x] is the residual of the old equation [i] for the values [x] of the independents which the
    handler still has.  Result: the residuals for the values [y] of the new variables; None: a value that is not set. *)
Section Regenerate.
Context {V : Type}.
Definition handlerIds (vs vs' : list vinfo) : list nat :=
  filter (fun id => existsb (fun w => i_id w =? id) vs') (map i_id vs).
Definition handlerOrder (vs vs' : list vinfo) (y : list V) : list (option V) :=
  fold_left (fun arr p => match nth_error vs' p with
                          | Some w => upd (fun _ => nth_error y p) (posOf (i_id w) (handlerIds vs vs')) arr
                          | None => arr end)
            (seq 0 (List.length vs')) (repeat None (List.length (handlerIds vs vs'))).
(** the last equation with this identifier (map) *)
Definition oldEq (qs : list dinfo) (id : nat) : nat :=
  fold_left (fun r p => match nth_error qs p with Some q => if d_id q =? id then p else r | None => r end) (seq 0 (List.length qs)) 0.
Definition regenerateModel (f : nat -> list (option V) -> V) (vs vs' : list vinfo) (qs qs' : list dinfo) (y : list V) : list V :=
  map (fun q => f (oldEq qs (d_id q)) (handlerOrder vs vs' y)) qs'.
End Regenerate.

(** * Solving an expression for a variable (C21, C22, C23, C35)

    Models include/cppad/cg/solver.hpp (solveFor 24-78 and 80-178, isSolvable 180-205 and 207-260),
    collect_variable.hpp (collectVariable 24-97, collectVariableAddSub 99-237, isCollectableVariableAddSub 239-283),
    evaluator/evaluator_solve.hpp (EvaluatorCloneSolve, with paths or with a path graph) and graph_mod.hpp 21-93.

    Simplifications:
    - scalar operations only, as in Graph_model;
    - C++ leaves open which of the two operands [log(...)] of the Pow and Tanh cases (solver.hpp 147, 168) is recorded
      first; here the left one.  The order in which the evaluator visits the operands of
      node [i], which has [n] of them, is the parameter [ord i n];
    - asserts have no effect (release build); reading outside a vector or through a null pointer is [SUndef];
    - the constructor of EvaluatorCloneSolve with clone and replaceArgument (evaluator_solve.hpp 122-132) is not modelled;
    - names of nodes and messages on std::cerr are left out;
    - the loop of solveFor and the searches are on fuel; running out of it is [SFuel].
    The constants Base(-1.0) and Base(0.5) are [bneg b1] and the parameter [half]. *)
From Coq Require Import List Bool Arith.
From Verif Require Import Graph_model CGArith_model Path_model Eval_model.
Import ListNotations.

Inductive sres (A : Type) : Type := SOk (a : A) | SThrow | SUndef | SFuel.
Arguments SOk {A} a.
Arguments SThrow {A}.
Arguments SUndef {A}.
Arguments SFuel {A}.
Definition sbind {A C} (x : sres A) (f : A -> sres C) : sres C :=
  match x with SOk a => f a | SThrow => SThrow | SUndef => SUndef | SFuel => SFuel end.
Definition ofres {A} (x : result A) : sres A := match x with Ok a => SOk a | Throw => SThrow end.
Definition ofpath {A} (x : pout A) : sres A := match x with Got a => SOk a | Undef => SUndef | Fuel => SFuel end.

Section Solve.
Context {B : Type} {O : BaseOps B}.
Variable half : B.

(** CG(const Argument&) and CG(OperationNode&) (default.hpp 30-44) *)
Definition toCG (a : arg B) : cg B := match a with ANode i => Var i None | APar b => Par b end.

(** args[k], then CG(args[k]) *)
Definition argCG (args : list (arg B)) (k : nat) : sres (cg B) :=
  match nth_error args k with Some a => SOk (toCG a) | None => SUndef end.

Definition isFirst (i : option nat) : bool := match i with Some 0 => true | _ => false end.

Definition hc : Type := heap B * cg B.

(** one iteration of solveFor(path) (solver.hpp 85-174): the operation of the node is inverted on the right-hand side *)
Definition invert (g : heap B) (n : node B) (i : option nat) (rhs : cg B) : sres hc :=
  let args := n_args n in
  match n_op n with
  | GMul => sbind (argCG args (if isFirst i then 1 else 0)) (fun o => ofres (casg g BDiv rhs o))
  | GDiv =>
      if isFirst i then sbind (argCG args 1) (fun o => ofres (casg g BMul rhs o))
      else sbind (argCG args 0) (fun o => ofres (cbin g BDiv o rhs))
  | GUnMinus => ofres (casg g BMul rhs (Par (bneg b1)))
  | GAdd => sbind (argCG args (if isFirst i then 1 else 0)) (fun o => ofres (casg g BSub rhs o))
  | GAlias => SOk (g, rhs)
  | GSub =>
      if isFirst i then sbind (argCG args 1) (fun o => ofres (casg g BAdd rhs o))
      else sbind (argCG args 0) (fun o => ofres (cbin g BSub o rhs))
  | GFun Exp => ofres (cfun g Log rhs)
  | GFun Log => ofres (cfun g Exp rhs)
  | GPow =>
      if isFirst i then
        match nth_error args 1 with
        | None => SUndef
        | Some (APar e) => if bcmp CEq e b0 then SThrow else if bcmp CEq e b1 then SOk (g, rhs) else SThrow
        | Some (ANode _) => SThrow
        end
      else
        sbind (argCG args 0) (fun base =>
        sbind (ofres (cfun g Log rhs)) (fun '(g1, a) =>
        sbind (ofres (cfun g1 Log base)) (fun '(g2, b) => ofres (cbin g2 BDiv a b))))
  | GFun Sqrt => ofres (casg g BMul rhs rhs)
  | GFun Cosh =>
      sbind (ofres (cbin g BMul rhs rhs)) (fun '(g1, a) =>
      sbind (ofres (cbin g1 BSub a (Par b1))) (fun '(g2, b) =>
      sbind (ofres (cfun g2 Sqrt b)) (fun '(g3, c) =>
      sbind (ofres (cbin g3 BAdd rhs c)) (fun '(g4, d) => ofres (cfun g4 Log d)))))
  | GFun Sinh =>
      sbind (ofres (cbin g BMul rhs rhs)) (fun '(g1, a) =>
      sbind (ofres (cbin g1 BAdd a (Par b1))) (fun '(g2, b) =>
      sbind (ofres (cfun g2 Sqrt b)) (fun '(g3, c) =>
      sbind (ofres (cbin g3 BAdd rhs c)) (fun '(g4, d) => ofres (cfun g4 Log d)))))
  | GFun Tanh =>
      sbind (ofres (cbin g BAdd (Par b1) rhs)) (fun '(g1, a) =>
      sbind (ofres (cfun g1 Log a)) (fun '(g2, la) =>
      sbind (ofres (cbin g2 BSub (Par b1) rhs)) (fun '(g3, b) =>
      sbind (ofres (cfun g3 Log b)) (fun '(g4, lb) =>
      sbind (ofres (cbin g4 BSub la lb)) (fun '(g5, d) => ofres (cbin g5 BMul (Par half) d))))))
  | _ => SThrow
  end.

(** the loop of solveFor(path); the last element is not used (path.size() - 1).  The nodes of the path were recorded
    before and do not change while nodes are added. *)
Fixpoint solveSteps (g : heap B) (p : spath) (rhs : cg B) : sres hc :=
  match p with
  | [] => SUndef (* path.size() - 1 wraps around *)
  | (n, i) :: p' =>
      match p' with
      | [] => SOk (g, rhs)
      | _ =>
          match nth_error g n with
          | None => SUndef
          | Some d => sbind (invert g d i rhs) (fun '(g1, rhs1) => solveSteps g1 p' rhs1)
          end
      end
  end.
(** solveFor(path) (solver.hpp 80-178) *)
Definition solvePath (g : heap B) (p : spath) : sres hc := solveSteps g p (Par b0).

(** isSolvable(path) (solver.hpp 207-260); None: reading outside a vector *)
Definition invertible (n : node B) (i : option nat) : option bool :=
  match n_op n with
  | GMul | GDiv | GUnMinus | GAdd | GAlias | GSub
  | GFun Exp | GFun Log | GFun Sqrt | GFun Cosh | GFun Sinh | GFun Tanh => Some true
  | GPow =>
      if isFirst i then
        match nth_error (n_args n) 1 with
        | None => None
        | Some (APar e) => if bcmp CEq e b0 then Some false else Some (bcmp CEq e b1)
        | Some (ANode _) => Some false
        end
      else Some true
  | _ => Some false
  end.
Fixpoint isSolvablePath (g : heap B) (p : spath) : sres bool :=
  match p with
  | [] => SUndef
  | (n, i) :: p' =>
      match p' with
      | [] => SOk true
      | _ =>
          match nth_error g n with
          | None => SUndef
          | Some d =>
              match invertible d i with
              | None => SUndef
              | Some false => SOk false
              | Some true => isSolvablePath g p'
              end
          end
      end
  end.

(** ** EvaluatorCloneSolve *)

(** evalOperation (evaluator_solve.hpp 140-189): what to do with a node, given path_ without its last element *)
Inductive decision : Type := DReplace (x : cg B) | DClone | DKeep.

(** isOnPath (evaluator_solve.hpp 192-210) *)
Definition oeqb (a b : option nat) : bool :=
  match a, b with Some x, Some y => Nat.eqb x y | None, None => true | _, _ => false end.
Fixpoint samePath (p q : spath) : bool :=
  match p, q with
  | [], [] => true
  | (n, i) :: p', (m, j) :: q' => Nat.eqb n m && oeqb i j && samePath p' q'
  | _, _ => false
  end.
Definition isOnPath (pre : spath) (n : nat) (p : spath) : bool :=
  match nth_error p (length pre) with
  | None => false
  | Some (m, _) => Nat.eqb n m && samePath pre (firstn (length pre) p)
  end.

(** with paths and replaceOnPath (143-158) *)
Fixpoint decidePaths (ps : list (spath * list (option (cg B)))) (pre : spath) (n : nat) : decision :=
  match ps with
  | [] => DKeep
  | (p, rep) :: ps' =>
      if isOnPath pre n p
      then match nth (length pre) rep None with Some x => DReplace x | None => DClone end
      else decidePaths ps' pre n
  end.
(** with a path graph, one node of which is replaced (160-170; the map is indexed by the address of the edges of the
    node) *)
Definition decideGraph (G : pgraph) (common : nat) (x : cg B) (pre : spath) (n : nat) : decision :=
  match pg_find G n with
  | None => DKeep
  | Some _ => if Nat.eqb n common then DReplace x else DClone
  end.

Record cstate : Type := mkC { c_memo : nat -> option (cg B); c_heap : heap B }.

Section Clone.
Variable decide : spath -> nat -> decision.
Variable ord : nat -> nat -> list nat.
Variable inds : list nat. (* _independentVariables *)

(** evalArg (evaluator.hpp 229-240) for the operands in the order [ps] *)
Fixpoint cloneArgs (f : nat -> nat -> cstate -> sres (cstate * cg B)) (args : list (arg B)) (ps : list nat)
    (acc : nat -> option (cg B)) (s : cstate) : sres (cstate * (nat -> option (cg B))) :=
  match ps with
  | [] => SOk (s, acc)
  | p :: ps' =>
      match nth_error args p with
      | None => SUndef
      | Some a =>
          sbind (match a with APar b => SOk (s, Par b) | ANode j => f p j s end) (fun '(s1, v) =>
            cloneArgs f args ps' (fun q => if Nat.eqb q p then Some v else acc q) s1)
      end
  end.

(** evalOperations (evaluator.hpp 242-282) with the evalOperation of EvaluatorCloneSolve; cloning a node is evaluating it
    with EvaluatorOperations::evalOperation, as in Eval_model *)
Fixpoint cloneOps (fuel : nat) (pre : spath) (i : nat) (s : cstate) : sres (cstate * cg B) :=
  match fuel with
  | 0 => SFuel
  | S fuel' =>
      match c_memo s i with
      | Some v => SOk (s, v)
      | None =>
          let save (sv : cstate * cg B) :=
            SOk (mkC (fun j => if Nat.eqb j i then Some (snd sv) else c_memo (fst sv) j) (c_heap (fst sv)), snd sv) in
          match decide pre i with
          | DReplace x => save (s, x)
          | DKeep => save (s, Var i None)
          | DClone =>
              match nth_error (c_heap s) i with
              | None => SUndef
              | Some n =>
                  if negb (handled (n_op n)) then SThrow
                  else match n_op n with
                  | GInv _ => match indepIndex inds i with None => SThrow | Some _ => save (s, Var i None) end
                  | o =>
                      sbind (cloneArgs (fun p j s' => cloneOps fuel' (pre ++ [(i, Some p)]) j s') (n_args n)
                               (ord i (length (n_args n)))
                               (fun _ => None) s) (fun '(s1, acc) =>
                        match all_some (map acc (seq 0 (length (n_args n)))) with
                        | None => SUndef
                        | Some vs =>
                            match cg_op o vs (c_heap s1) with
                            | Throw => SThrow
                            | Ok (g', v) => save (mkC (c_memo s1) g', v)
                            end
                        end)
                  end
              end
          end
      end
  end.
(** evaluate() for one dependent, which is a node *)
Definition cloneEval (fuel : nat) (g : heap B) (i : nat) : sres hc :=
  sbind (cloneOps fuel [] i (mkC (fun _ => None) g)) (fun '(s, v) => SOk (c_heap s, v)).
End Clone.

(** ** Collecting a variable which occurs twice *)

(** isCollectableVariableAddSub with throwEx = true (collect_variable.hpp 239-283), for one path: all elements but the
    first and the last *)
Fixpoint collectable (g : heap B) (p : spath) : sres unit :=
  match p with
  | [] => SOk tt
  | (n, i) :: p' =>
      match p' with
      | [] => SOk tt
      | _ =>
          match nth_error g n with
          | None => SUndef
          | Some d =>
              match n_op d with
              | GAdd | GSub | GMul | GUnMinus | GAlias => collectable g p'
              | GDiv => if isFirst i then collectable g p' else SThrow
              | _ => SThrow
              end
          end
      end
  end.

(** the coefficient of the variable (collect_variable.hpp 150-192); [prev] is p[i - 1].argIndex *)
Fixpoint coefSteps (g : heap B) (prev : option nat) (p : spath) (c : cg B) : sres hc :=
  match p with
  | [] => SOk (g, c)
  | (n, i) :: p' =>
      match p' with
      | [] => SOk (g, c)
      | _ =>
          match nth_error g n with
          | None => SUndef
          | Some d =>
              sbind (match n_op d with
                     | GSub => if oeqb prev (Some 1) then ofres (cneg g c) else SOk (g, c)
                     | GUnMinus => ofres (cneg g c)
                     | GMul => sbind (argCG (n_args d) (if isFirst i then 1 else 0)) (fun o => ofres (casg g BMul c o))
                     | GDiv => sbind (argCG (n_args d) 1) (fun o => ofres (casg g BDiv c o))
                     | _ => SOk (g, c)
                     end) (fun '(g1, c1) => coefSteps g1 i p' c1)
          end
      end
  end.

(** replace[j] (collect_variable.hpp 144-145, 197-207): the last node and the run of Mul, UnMinus, Div and Alias nodes
    before it *)
Definition scaling (g : heap B) (n : nat) : bool :=
  match nth_error g n with
  | Some d => match n_op d with GMul | GUnMinus | GDiv | GAlias => true | _ => false end
  | None => false
  end.
Fixpoint replaced (g : heap B) (p : spath) : list (option (cg B)) :=
  match p with
  | [] => []
  | (n, _) :: p' =>
      match p' with
      | [] => [Some (Par b0)]
      | _ =>
          let r := replaced g p' in
          (match r with Some _ :: _ => if scaling g n then Some (Par b0) else None | _ => None end) :: r
      end
  end.

Definition hd_node (p : spath) : option nat := match p with (n, _) :: _ => Some n | [] => None end.
Definition last_node (p : spath) : option nat := match rev p with (n, _) :: _ => Some n | [] => None end.

(** collectVariableAddSub (collect_variable.hpp 99-237) *)
Definition collectVariableAddSub (fuel : nat) (ord : nat -> nat -> list nat) (inds : list nat) (g : heap B)
    (left right : spath) : sres hc :=
  match left, right with
  | (nl, il) :: left', (nr, ir) :: right' =>
      if negb (Nat.eqb nl nr) then SThrow
      else match nth_error g nl with
      | None => SUndef
      | Some d =>
          let isSub := match n_op d with GSub => true | _ => false end in
          if negb (match n_op d with GAdd | GSub => true | _ => false end) then SThrow
          else match last_node left, last_node right with
          | Some vl, Some vr =>
              if negb (Nat.eqb vl vr) then SThrow
              else
                sbind (collectable g left') (fun _ =>
                sbind (collectable g right') (fun _ =>
                sbind (coefSteps g il left' (Par b1)) (fun '(g1, cl) =>
                sbind (ofres (casg g1 BAdd (Par b0) cl)) (fun '(g2, s1) =>
                sbind (coefSteps g2 ir right' (if isSub then Par (bneg b1) else Par b1)) (fun '(g3, cr) =>
                sbind (ofres (casg g3 BAdd s1 cr)) (fun '(g4, cSum) =>
                let rl := replaced g left in
                let rr := replaced g right in
                let keepCommon :=
                  match nth 1 rl None, nth 1 rr None with Some _, Some _ => false | _, _ => true end in
                sbind (if keepCommon
                       then cloneEval (decidePaths [(left, rl); (right, rr)]) ord inds fuel g4 nl
                       else SOk (g4, Par b0)) (fun '(g5, rest) =>
                sbind (ofres (cbin g5 BMul cSum (Var vl None))) (fun '(g6, term) =>
                ofres (cbin g6 BAdd term rest)))))))))
          | _, _ => SUndef
          end
      end
  | _, _ => SUndef
  end.

(** collectVariable (collect_variable.hpp 24-97) *)
Definition collectVariable (fuel : nat) (ord : nat -> nat -> list nat) (inds : list nat) (g : heap B) (expression : nat)
    (p1 p2 : spath) (lastCommon : nat) : sres hc :=
  match nth_error p1 lastCommon with
  | None => SUndef
  | Some (common, _) =>
      sbind (collectVariableAddSub fuel ord inds g (skipn lastCommon p1) (skipn lastCommon p2)) (fun '(g1, sub) =>
      sbind (ofpath (findPathGraph g1 fuel expression common 0 None)) (fun '(G, _) =>
      cloneEval (decideGraph G common sub) ord inds fuel g1 expression))
  end.

(** ** solveFor and isSolvable *)

(** the loop of solveFor (solver.hpp 37-74); [max] is the limit of bifurcations, 50000 in the code *)
Fixpoint solveLoop (max : option nat) (loops fuel : nat) (ord : nat -> nat -> list nat) (inds : list nat) (g : heap B)
    (root var : nat) : sres hc :=
  match loops with
  | 0 => SFuel
  | S loops' =>
      sbind (ofpath (findPathGraph g fuel root var 0 max)) (fun '(G, b) =>
      if negb (pg_contains G var) then SThrow
      else sbind (ofpath (findSingleBifurcation g fuel G root var)) (fun '(ps, k) =>
        match ps with
        | [] => SThrow
        | [p] => solvePath g p
        | p1 :: p2 :: _ =>
            match k with
            | None => SUndef
            | Some k =>
                sbind (collectVariable fuel ord inds g root p1 p2 k) (fun '(g1, e) =>
                match e with
                | Par _ => SThrow
                | Var root' _ =>
                    if Nat.eqb b 0 then solvePath g1 p1 (* the loop ends; solver.hpp 76-77 *)
                    else solveLoop max loops' fuel ord inds g1 root' var
                end)
            end
        end))
  end.
(** solveFor(expression, var) (solver.hpp 24-78) *)
Definition solveFor (max : option nat) (loops fuel : nat) (ord : nat -> nat -> list nat) (inds : list nat) (g : heap B)
    (expression var : nat) : sres hc :=
  if Nat.eqb expression var then SOk (g, Var var None) else solveLoop max loops fuel ord inds g expression var.

(** isSolvable(expression, var) (solver.hpp 180-205): the answer and the handler's nodes afterwards *)
Definition isSolvable (max : option nat) (loops fuel : nat) (ord : nat -> nat -> list nat) (inds : list nat) (g : heap B)
    (expression var : nat) : sres bool :=
  sbind (ofpath (findPathGraph g fuel expression var 0 None)) (fun '(G, b) =>
  if Nat.eqb b 0 then
    sbind (ofpath (findSingleBifurcation g fuel G expression var)) (fun '(ps, _) =>
    match ps with
    | [] | [] :: _ => SOk false
    | p :: _ => isSolvablePath g p
    end)
  else
    match solveFor max loops fuel ord inds g expression var with
    | SOk _ => SOk true
    | SThrow => SOk false
    | SUndef => SUndef
    | SFuel => SFuel
    end).
End Solve.

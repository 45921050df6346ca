(** * Evaluating a recorded graph with other values or another type (C25)

    Models include/cppad/cg/evaluator/evaluator.hpp: EvaluatorBase::evaluate (107-185), clear (196-208), evalCG
    (215-222), evalArg (224-240), evalOperations (242-267), saveEvaluation (269-282) and the switch
    EvaluatorOperations::evalOperation (371-478) with the eval... methods it calls (480-700).

    The active type is abstract: a [target] has the conversion from a parameter and, for every operation, what the C++
    operator or function does to values of that type.  The operators may have an effect on a state [St]: for CG<Base>
    ([cg_target], evaluator_cg.hpp) they record nodes in the other handler; for plain numbers ([num_target]) St is unit.

    Simplifications:
    - scalar operations only (no arrays, atomic functions, print operations, as in Graph_model);
    - names of nodes (EvaluatorCG::processActiveOut, evaluator_cg.hpp 95-104) and path_/depth_ (only used by derived
      evaluators) are left out;
    - C++ leaves the order in which the operands of one operation are evaluated open: [ord i] is the order used for node
      i, any list of argument positions;
    - evals_ is indexed by the position of a node in its handler; here by the node.  The two agree as long as all
      nodes belong to the handler, which the documentation of evaluate() asks for (evaluator.hpp 97, 116);
    - recursion is on [fuel]; running out of it is the separate outcome [NoFuel];
    - [e_log] is not in the code: it lists the nodes whose operation was started. *)
From Coq Require Import List Bool Arith.
From Verif Require Import Graph_model CGArith_model.
Import ListNotations.

Inductive out (A : Type) : Type := Done (a : A) | Thrown | NoFuel.
Arguments Done {A} a.
Arguments Thrown {A}.
Arguments NoFuel {A}.

(** The functions with a case in the switch of evalOperation (evaluator.hpp 375-473); the others reach the default,
    evalUnsupportedOperation (475-476), which throws (673-675). *)
Definition evaluable (f : ufun) : bool :=
  match f with
  | Acosh | Asinh | Atanh | Erf | Erfc | Expm1 | Log1p => false
  | _ => true
  end.

Section Eval.
Context {B T St : Type}.

Record target : Type := mkTarget {
  t_par : B -> T;                                             (* ActiveOut(parameter) *)
  t_op : gop -> list T -> St -> result (St * T)               (* the operator, on evaluated arguments *)
}.

(** the memory of one evaluation *)
Record estate : Type := mkE { e_memo : nat -> option T; e_st : St; e_log : list nat }.

Variable tg : target.
Variable g : heap B.            (* the graph *)
Variable inds : list nat.       (* CodeHandler::_independentVariables *)
Variable xs : list T.           (* indepNew *)
Variable ord : nat -> list nat. (* evaluation order of operands *)

(** CodeHandler::getIndependentVariableIndex (code_handler_impl.hpp 141-150): std::find *)
Fixpoint indepIndex (l : list nat) (i : nat) : option nat :=
  match l with
  | [] => None
  | j :: l' => if Nat.eqb j i then Some 0 else option_map S (indepIndex l' i)
  end.

(** evalIndependent (evaluator.hpp 603-608) *)
Definition evalIndependent (i : nat) : out T :=
  match indepIndex inds i with
  | None => Thrown
  | Some k => match nth_error xs k with Some x => Done x | None => Thrown (* excluded by the size test *) end
  end.

(** evalArg (evaluator.hpp 229-240); [f] is evalOperations *)
Definition evalArg (f : nat -> estate -> estate * out T) (a : arg B) (s : estate) : estate * out T :=
  match a with
  | APar b => (s, Done (t_par tg b))
  | ANode j => f j s
  end.

(** the operands of one operation, in the order [ps]; [acc] holds those already evaluated *)
Fixpoint evalArgs (f : nat -> estate -> estate * out T) (args : list (arg B)) (ps : list nat)
    (acc : nat -> option T) (s : estate) : estate * out (nat -> option T) :=
  match ps with
  | [] => (s, Done acc)
  | p :: ps' =>
      match nth_error args p with
      | None => (s, Thrown) (* args[pos] out of range *)
      | Some a =>
          match evalArg f a s with
          | (s1, Done v) => evalArgs f args ps' (fun q => if Nat.eqb q p then Some v else acc q) s1
          | (s1, Thrown) => (s1, Thrown)
          | (s1, NoFuel) => (s1, NoFuel)
          end
      end
  end.

Fixpoint all_some (l : list (option T)) : option (list T) :=
  match l with
  | [] => Some []
  | None :: _ => None
  | Some v :: l' => option_map (cons v) (all_some l')
  end.

(** evalOperation (evaluator.hpp 371-478): the switch decides before any operand is evaluated *)
Definition handled (o : gop) : bool := match o with GFun f => evaluable f | _ => true end.
Definition evalOperation (f : nat -> estate -> estate * out T) (i : nat) (n : node B) (s : estate) : estate * out T :=
  if negb (handled (n_op n)) then (s, Thrown)
  else match n_op n with
  | GInv _ => (s, evalIndependent i)
  | o =>
      match evalArgs f (n_args n) (ord i) (fun _ => None) s with
      | (s1, Done acc) =>
          match all_some (map acc (seq 0 (length (n_args n)))) with
          | None => (s1, Thrown)
          | Some vs =>
              match t_op tg o vs (e_st s1) with
              | Ok (st, v) => (mkE (e_memo s1) st (e_log s1), Done v)
              | Throw => (s1, Thrown)
              end
          end
      | (s1, Thrown) => (s1, Thrown)
      | (s1, NoFuel) => (s1, NoFuel)
      end
  end.

(** evalOperations with saveEvaluation (evaluator.hpp 242-282) *)
Fixpoint evalOperations (fuel : nat) (i : nat) (s : estate) : estate * out T :=
  match fuel with
  | 0 => (s, NoFuel)
  | S fuel' =>
      match e_memo s i with
      | Some v => (s, Done v)
      | None =>
          match nth_error g i with
          | None => (s, Thrown) (* not a node of this handler *)
          | Some n =>
              match evalOperation (evalOperations fuel') i n (mkE (e_memo s) (e_st s) (i :: e_log s)) with
              | (s1, Done v) =>
                  (mkE (fun j => if Nat.eqb j i then Some v else e_memo s1 j) (e_st s1) (e_log s1), Done v)
              | (s1, r) => (s1, r)
              end
          end
      end
  end.

(** evalCG (evaluator.hpp 215-222); a dependent is the node or the value of the CG object *)
Definition evalCG (fuel : nat) (d : arg B) (s : estate) : estate * out T :=
  match d with
  | APar b => (s, Done (t_par tg b))
  | ANode i => evalOperations fuel i s
  end.

(** the loop over the dependents (evaluator.hpp 173-176) *)
Fixpoint evalDeps (fuel : nat) (ds : list (arg B)) (s : estate) : estate * out (list T) :=
  match ds with
  | [] => (s, Done [])
  | d :: ds' =>
      match evalCG fuel d s with
      | (s1, Done v) =>
          match evalDeps fuel ds' s1 with
          | (s2, Done vs) => (s2, Done (v :: vs))
          | (s2, r) => (s2, r)
          end
      | (s1, Thrown) => (s1, Thrown)
      | (s1, NoFuel) => (s1, NoFuel)
      end
  end.

(** An Evaluator object: underEval_ and evals_ (evaluator.hpp 40-75). *)
Record evaluator : Type := mkEv { ev_under : bool; ev_memo : nat -> option T }.
Definition newEvaluator : evaluator := mkEv false (fun _ => None).

(** evaluate (evaluator.hpp 107-185).  The result holds the evaluator afterwards, the state of the operators, the
    log and the new dependents.  [nnew] is depNew.size() (107-114). *)
Definition evaluate (fuel : nat) (E : evaluator) (st : St) (nnew : nat) (ds : list (arg B)) :
    evaluator * St * list nat * out (list T) :=
  if negb (Nat.eqb nnew (length ds)) then (E, st, [], Thrown)
  else if negb (Nat.eqb (length inds) (length xs)) then (E, st, [], Thrown)
  else if ev_under E then (E, st, [], Thrown)
  else
    match evalDeps fuel ds (mkE (fun _ => None) st []) with
    | (s, Done vs) => (mkEv false (fun _ => None), e_st s, e_log s, Done vs)
    | (s, r) => (mkEv false (e_memo s), e_st s, e_log s, r)
    end.
End Eval.
Arguments target : clear implicits.
Arguments estate : clear implicits.
Arguments evaluator : clear implicits.

(** CodeHandler::_independentVariables of handler [h]: the Inv nodes in the order they were made
    (code_handler_impl.hpp 77-93) *)
Definition independents {B} (g : heap B) (h : nat) : list nat :=
  filter (fun i => match nth_error g i with Some n => is_inv_of h n | None => false end) (seq 0 (length g)).

(** ** Plain numbers (double, float, ...): the operators of the type; [conv] is the constructor from the Base type *)
Definition num_op {V} {O : BaseOps V} (o : gop) (a : list V) (_ : unit) : result (unit * V) :=
  match o, a with
  | GAdd, [x; y] => Ok (tt, badd x y)
  | GSub, [x; y] => Ok (tt, bsub x y)
  | GMul, [x; y] => Ok (tt, bmul x y)
  | GDiv, [x; y] => Ok (tt, bdiv x y)
  | GPow, [x; y] => Ok (tt, bpow x y)
  | GUnMinus, [x] => Ok (tt, bneg x)
  (* CppAD::sign of a plain type *)
  | GSign, [x] => Ok (tt, signValue x)
  | GAlias, [x] => Ok (tt, x)
  | GAssign, [x] => Ok (tt, x)
  | GFun f, [x] => Ok (tt, bfun f x)
  | GCom c, [l; r; t; f] => Ok (tt, if bcmp c l r then t else f)
  | _, _ => Throw
  end.
Definition num_target {B V} {O : BaseOps V} (conv : B -> V) : target B V unit := mkTarget conv num_op.

(** ** CG<Base> (evaluator_cg.hpp): the operators of CGArith_model, which record in the handler of their operands *)
Definition cg_op {B} {O : BaseOps B} (o : gop) (a : list (cg B)) (g : heap B) : result (heap B * cg B) :=
  match o, a with
  | GAdd, [x; y] => cbin g BAdd x y
  | GSub, [x; y] => cbin g BSub x y
  | GMul, [x; y] => cbin g BMul x y
  | GDiv, [x; y] => cbin g BDiv x y
  | GPow, [x; y] => cpow g x y
  | GUnMinus, [x] => cneg g x
  | GSign, [x] => csign g x
  | GAlias, [x] => Ok (g, x)
  | GAssign, [x] => Ok (g, x)
  | GFun f, [x] => cfun g f x
  | GCom c, [l; r; t; f] => ccond g c l r t f
  | _, _ => Throw
  end.
Definition cg_target {B} {O : BaseOps B} : target B (cg B) (heap B) := mkTarget Par cg_op.

(** * What generated code must do (specification)

    Written without any of the data the code generator uses (no identifiers, orders or use counts): the meaning of
    an operation graph is the solution of its equations, the meaning of the generated code is its execution on a
    memory. *)
From Coq Require Import List Bool Arith.
From Verif Require Import Graph_model Graph_spec Codegen_model.
Import ListNotations.

Section Spec.
Context {B : Type} {O : BaseOps B}.

(** ** Graphs *)

(** argument [j] of node [i] *)
Definition edge (g : heap B) (i j : nat) : Prop := exists n, nth_error g i = Some n /\ In (ANode j) (n_args n).

(** no cycles (nodes need not be recorded in order: substituteIndependent makes forward references) *)
Definition acyclic (g : heap B) : Prop := exists r : nat -> nat, forall i j, edge g i j -> r j < r i.

(** nodes a vector of dependents needs *)
Inductive reach (g : heap B) (deps : list (arg B)) : nat -> Prop :=
 | reach_dep i : In (ANode i) deps -> reach g deps i
 | reach_arg i j : reach g deps i -> edge g i j -> reach g deps j.

Definition has_op (g : heap B) (i : nat) (o : gop) : Prop := exists n, nth_error g i = Some n /\ n_op n = o.

(** ** Values *)
Definition sval (sol : nat -> option B) (a : arg B) : option B :=
  match a with APar b => Some b | ANode j => sol j end.

(** [sol] gives every node the value of its operation on the values of its arguments *)
Definition solves (env : nat -> nat -> B) (g : heap B) (sol : nat -> option B) : Prop :=
  forall i n, nth_error g i = Some n -> sol i = opval env (n_handler n) (n_op n) (map (sval sol) (n_args n)).

(** ** Execution of generated code.  A memory cell may have no defined value (e.g. after a division by zero);
    nothing is claimed about such a cell. *)
Definition mem : Type := loc -> option B.

Definition loc_eqb (a b : loc) : bool :=
  match a, b with
  | LX i, LX j | LY i, LY j | LV i, LV j => Nat.eqb i j
  | _, _ => false
  end.

Definition setm (m : mem) (l : loc) (v : option B) : mem := fun l' => if loc_eqb l' l then v else m l'.

Fixpoint xval (m : mem) (e : cx B) : option B :=
  match e with
  | XLoc l => m l
  | XPar b => Some b
  | XOp o a => opval (fun _ _ => b0) 0 o (map (xval m) a)
  end.

Definition assign (m : mem) (l : loc) (a : aop) (v : option B) : mem :=
  setm m l (match a with ASet => v | AAdd => lift2 badd (m l) v end).

Definition exec1 (m : mem) (s : stmt B) : mem :=
  match s with
  | SZero n => fun l => match l with LY i => if Nat.ltb i n then Some b0 else m l | _ => m l end
  | SAssign l a e => assign m l a (xval m e)
  | SCond c x y l a e1 e2 =>
      match xval m x, xval m y with
      | Some u, Some v => assign m l a (xval m (if bcmp c u v then e1 else e2))
      | _, _ => setm m l None
      end
  end.
Definition exec (m : mem) (p : list (stmt B)) : mem := fold_left exec1 p m.

(** ** Reads, writes and operations of the generated code *)
Fixpoint xreads (e : cx B) : list loc :=
  match e with
  | XLoc l => [l]
  | XPar _ => []
  | XOp _ a => flat_map xreads a
  end.
(** locations read by the expressions of a statement *)
Definition sreads (s : stmt B) : list loc :=
  match s with
  | SZero _ => []
  | SAssign _ _ e => xreads e
  | SCond _ x y _ _ e1 e2 => xreads x ++ xreads y ++ xreads e1 ++ xreads e2
  end.
(** location assigned by a statement (the loop which clears y is not an assignment) *)
Definition target (s : stmt B) : option loc :=
  match s with SZero _ => None | SAssign l _ _ => Some l | SCond _ _ _ l _ _ _ => Some l end.
Definition targets (p : list (stmt B)) : list loc :=
  flat_map (fun s => match target s with Some l => [l] | None => [] end) p.

(** operations written in the text *)
Fixpoint xopl (e : cx B) : list gop :=
  match e with XLoc _ | XPar _ => [] | XOp o a => o :: flat_map xopl a end.
Definition sopl (s : stmt B) : list gop :=
  match s with
  | SZero _ => []
  | SAssign _ _ e => xopl e
  | SCond c x y _ _ e1 e2 => GCom c :: xopl x ++ xopl y ++ xopl e1 ++ xopl e2
  end.

(** ** Flow of values: [flow prog] is [prog] where the name of a temporary is replaced by the statement which gave
    the value: an assignment to a temporary gets the number of the statement (from 1), a read of a temporary gets the
    number of the last statement which assigned that cell, or 0 when there is none. *)
Fixpoint xmap (f : loc -> loc) (e : cx B) : cx B :=
  match e with
  | XLoc l => XLoc (f l)
  | XPar b => XPar b
  | XOp o a => XOp o (map (xmap f) a)
  end.
Definition smap (f w : loc -> loc) (s : stmt B) : stmt B :=
  match s with
  | SZero n => SZero n
  | SAssign l a e => SAssign (w l) a (xmap f e)
  | SCond c x y l a e1 e2 => SCond c (xmap f x) (xmap f y) (w l) a (xmap f e1) (xmap f e2)
  end.
Definition on_temp (f : nat -> nat) (l : loc) : loc := match l with LV v => LV (f v) | _ => l end.
Fixpoint flow_from (cur : nat -> nat) (k : nat) (p : list (stmt B)) : list (stmt B) :=
  match p with
  | [] => []
  | s :: p' =>
      smap (on_temp cur) (on_temp (fun _ => k)) s ::
      flow_from (match target s with Some (LV v) => (fun u => if Nat.eqb u v then k else cur u) | _ => cur end) (S k) p'
  end.
Definition flow (p : list (stmt B)) : list (stmt B) := flow_from (fun _ => 0) 1 p.

(** ** What is asked of the input

    [gen_input g indeps deps]: [indeps] are the independent variables of the handler, every independent variable
    that [deps] needs is one of them, nodes exist and have the arguments of their operation.
    Every graph recorded by arithmetic on CG objects satisfies it. *)
Record gen_input (g : heap B) (indeps : list nat) (deps : list (arg B)) : Prop := {
  gi_acyclic : acyclic g;
  gi_dom : forall i, reach g deps i -> i < length g;
  gi_arity : forall i n, reach g deps i -> nth_error g i = Some n -> length (n_args n) = arity (n_op n);
  gi_indeps : NoDup indeps;
  gi_indeps_inv : forall i, In i indeps -> exists k, has_op g i (GInv k);
  gi_inv_indeps : forall i k, reach g deps i -> has_op g i (GInv k) -> In i indeps;
  gi_sign : forall i n, reach g deps i -> nth_error g i = Some n -> n_op n = GSign ->
              exists j, n_args n = [ANode j] /\ ~ has_op g j GAlias;
  gi_alias : forall i n, reach g deps i -> nth_error g i = Some n -> n_op n = GAlias ->
              exists j, n_args n = [ANode j];
  gi_alias_dep : forall i, In (ANode i) deps -> ~ has_op g i GAlias
}.

(** cell y[i] starts at zero: it is zero on entry, or the generated code clears y.  The loop which clears y is only
    written when some dependent is computed by an operation (language_c.hpp 792-824). *)
Definition starts_at_zero (g : heap B) (deps : list (arg B)) (o : options) (m : mem) (i : nat) : Prop :=
  m (LY i) = Some b0 \/
  (o_zeroDeps o = true /\ exists j, In (ANode j) deps /\ forall k, ~ has_op g j (GInv k)).

(** conditional expressions whose two constant branches compare equal have the same constant twice (comparison of
    doubles identifies +0 and -0); graphs recorded by arithmetic on CG objects have none *)
Definition branches_ok (g : heap B) (deps : list (arg B)) : Prop :=
  forall i n c x y t f, reach g deps i -> nth_error g i = Some n -> n_op n = GCom c ->
    n_args n = [x; y; APar t; APar f] -> bcmp CEq t f = true -> t = f.
End Spec.

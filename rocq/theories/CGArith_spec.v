(** * Reference semantics of programs over CG objects (C01, C02): plain arithmetic, no graph *)
From Coq Require Import List Bool Arith.
From Verif Require Import Graph_model Graph_spec CGArith_model.
Import ListNotations.

Section Ref.
Context {B : Type} {O : BaseOps B}.

(** an object is a number, or undefined (None) once a division by zero entered its computation *)
Record rstate : Type := mkR { r_reg : nat -> option B; r_count : nat -> nat }.
Definition rinit : rstate := mkR (fun _ => Some b0) (fun _ => 0).
Definition rset (s : rstate) (d : nat) (v : option B) : rstate :=
  mkR (fun k => if Nat.eqb k d then v else r_reg s k) (r_count s).

Definition rbin (o : bop) : option B -> option B -> option B :=
  match o with
  | BAdd => lift2 badd
  | BSub => lift2 bsub
  | BMul => lift2 bmul
  | BDiv => odiv
  end.

(** [env h k]: value of the k-th independent variable of handler h *)
Definition rstep (env : nat -> nat -> B) (s : rstate) (i : instr B) : rstate :=
  let R := r_reg s in
  match i with
  | IConst d b => rset s d (Some b)
  | IIndep d h _ =>
      mkR (fun k => if Nat.eqb k d then Some (env h (r_count s h)) else R k)
          (fun h' => if Nat.eqb h' h then S (r_count s h) else r_count s h')
  | ICopy d a => rset s d (R a)
  | IBin o d a b => rset s d (rbin o (R a) (R b))
  | IAsg o d a => rset s d (rbin o (R d) (R a))
  | INeg d a => rset s d (lift1 bneg (R a))
  | IFun f d a => rset s d (lift1 (bfun f) (R a))
  | ILog10 d a => rset s d (odiv (lift1 (bfun Log) (R a)) (Some (bfun Log b10)))
  | IPow d a b => rset s d (lift2 bpow (R a) (R b))
  | ISign d a => rset s d (lift1 sgn (R a))
  | ICond c d l r t f => rset s d (ocond c (R l) (R r) (R t) (R f))
  end.
Definition rrun (env : nat -> nat -> B) (p : list (instr B)) : rstate := fold_left (rstep env) p rinit.

(** the values given to the independent variables when they are declared: (handler, position, value) *)
Fixpoint declared (cnt : nat -> nat) (p : list (instr B)) : list (nat * nat * B) :=
  match p with
  | [] => []
  | IIndep _ h v :: p' =>
      (match v with Some b => [(h, cnt h, b)] | None => [] end) ++
      declared (fun h' => if Nat.eqb h' h then S (cnt h) else cnt h') p'
  | _ :: p' => declared cnt p'
  end.
Definition env_agrees (env : nat -> nat -> B) (p : list (instr B)) : Prop :=
  forall h k b, In (h, k, b) (declared (fun _ => 0) p) -> env h k = b.

(** the value of a CG object, read from the recorded graph *)
Definition cgval (env : nat -> nat -> B) (g : heap B) (x : cg B) : option B :=
  match x with Par b => Some b | Var i _ => denote env g i end.

(** C04: all arguments of every node belong to the handler of the node *)
Definition one_handler (g : heap B) : Prop :=
  forall i n j m, nth_error g i = Some n -> In (ANode j) (n_args n) -> nth_error g j = Some m ->
    n_handler m = n_handler n.

(** the operations which verify that their operands belong to the same handler *)
Definition checked (i : instr B) : bool :=
  match i with IAsg _ _ _ => false | IPow _ _ _ => false | _ => true end.

(** two CG objects are variables owned by different handlers *)
Definition owner (g : heap B) (x : cg B) : option nat :=
  match x with Par _ => None | Var i _ => match nth_error g i with Some n => Some (n_handler n) | None => None end end.
Definition foreign (g : heap B) (x y : cg B) : Prop :=
  exists h k, owner g x = Some h /\ owner g y = Some k /\ h <> k.
End Ref.

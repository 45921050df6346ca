(** * Expressions which do not depend on the index of a loop: specification *)
From Coq Require Import List Bool Arith.
From Verif Require Import LoopMove_model.
Import ListNotations.

Section Graph.
Variable g : graph.
Definition child (n m : nat) : Prop := exists nd, nth_error g n = Some nd /\ In (Ref m) (nargs nd).
(** there is no cycle, and arguments are nodes of the handler *)
Definition acyclic : Prop := exists rank : nat -> nat, forall n m, child n m -> rank m < rank n.
Definition closed : Prop := forall n m, child n m -> m < length g.
(** an operation depends on another one *)
Inductive reaches : nat -> nat -> Prop :=
 | R_here n : reaches n n
 | R_arg n m l : child n m -> reaches m l -> reaches n l.
End Graph.

(** ** Values *)
Section Values.
Variable W : Type.
Variable cst : nat -> W.                            (* parameters *)
Variable op : nat -> kind -> list W -> W.           (* what the operation of a node makes of its arguments *)
(** with [env] the values of indexes; [kept] says which operations are not computed but have the value [stored] *)
Inductive value (g : graph) (kept : nat -> Prop) (stored env : nat -> W) : nat -> W -> Prop :=
 | V_kept n : kept n -> value g kept stored env n (stored n)
 | V_index n nd : ~ kept n -> nth_error g n = Some nd -> nkind nd = KIndexDcl -> value g kept stored env n (env n)
 | V_op n nd vs : ~ kept n -> nth_error g n = Some nd -> nkind nd <> KIndexDcl -> values g kept stored env (nargs nd) vs -> value g kept stored env n (op n (nkind nd) vs)
with values (g : graph) (kept : nat -> Prop) (stored env : nat -> W) : list arg -> list W -> Prop :=
 | Vs_nil : values g kept stored env [] []
 | Vs_cst c r vs : values g kept stored env r vs -> values g kept stored env (Cst c :: r) (cst c :: vs)
 | Vs_ref n r v vs : value g kept stored env n v -> values g kept stored env r vs -> values g kept stored env (Ref n :: r) (v :: vs).
(** nothing is kept *)
Definition plain (g : graph) (env : nat -> W) (n : nat) (v : W) : Prop := value g (fun _ => False) env env n v.
End Values.

(** ** Graphs of a loop *)
Definition loopGraph (g : graph) (loopIndex : nat) : Prop :=
  acyclic g /\ closed g /\ (exists nd, nth_error g loopIndex = Some nd /\ nkind nd = KIndexDcl /\ nargs nd = []) /\
  (* LoopIndexedTmp: the declaration of the temporary and its value *)
  forall nd, In nd g -> nkind nd = KLoopTmp -> 2 <= length (nargs nd).
(** nothing to be moved: variables and declarations are there already, and a temporary is assigned inside the loop a value computed before *)
Definition available (g : graph) (moved : list nat) (m : nat) : Prop :=
  In m moved \/ exists nd, nth_error g m = Some nd /\
    (nkind nd = KInv \/ nkind nd = KTmpDcl \/ (nkind nd = KLoopTmp /\ ((exists c, nth_error (nargs nd) 1 = Some (Cst c)) \/ exists b, nth_error (nargs nd) 1 = Some (Ref b) /\ In b moved))).

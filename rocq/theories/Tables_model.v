(** * Model of the handler's nodes and of the tables with data for each node *)
From Coq Require Import List Arith Bool.
Import ListNotations.
Local Open Scope nat_scope.

Section Tables.
  Context {T : Type}.
  (** The value of T(), with which std::vector::resize fills. *)
  Variable dflt : T.

  (** code_handler.hpp: _codeBlocks, the position which each node has (OperationNode
      pos_, [None] is the largest size_t), and the data_ of one CodeHandlerVector; the
      vectors of a handler do not share anything.  Nodes are given by numbers which
      are not used again. *)
  Record handler := mkH { h_nodes : list nat; h_pos : nat -> option nat; h_data : list T }.
  Definition newHandler : handler := mkH [] (fun _ => None) [].

  (** [TThrow]: a CGException; [TBad]: an assertion of the debug version, undefined
      behaviour otherwise. *)
  Inductive tres (A : Type) : Type := TOk (a : A) | TThrow | TBad.
  Arguments TOk {A} a. Arguments TThrow {A}. Arguments TBad {A}.

  Definition setPos (f : nat -> option nat) (n p : nat) : nat -> option nat :=
    fun k => if k =? n then Some p else f k.

  (** code_handler_impl.hpp 715-726: manageOperationNode; the reservation is not
      modelled. *)
  Definition manageNode (h : handler) (n : nat) : handler :=
    mkH (h_nodes h ++ [n]) (setPos (h_pos h) n (length (h_nodes h))) (h_data h).

  (** code_handler_impl.hpp 705-713: manageOperationNodeMemory. *)
  Definition manageMemory (h : handler) (n : nat) : handler :=
    match h_pos h n with
    | None => manageNode h n
    | Some p =>
        match nth_error (h_nodes h) p with
        | Some k => if k =? n then h else manageNode h n
        | None => manageNode h n
        end
    end.

  (** std::vector::erase of the range from start until before end. *)
  Definition eraseRange {A} (l : list A) (start stop : nat) : list A := firstn start l ++ skipn stop l.

  (** code_handler_impl.hpp 664-666: the positions after an erasure. *)
  Fixpoint renumber (f : nat -> option nat) (i : nat) (l : list nat) : nat -> option nat :=
    match l with [] => f | n :: r => renumber (setPos f n i) (S i) r end.

  (** code_handler_vector.hpp 214-220: nodesErased. *)
  Definition nodesErased (data : list T) (start stop : nat) : list T :=
    if start <? length data then eraseRange data start (Nat.min stop (length data)) else data.

  (** code_handler_impl.hpp 650-671: deleteManagedNodes. *)
  Definition deleteManagedNodes (h : handler) (start stop : nat) : handler :=
    if stop <=? start then h
    else
      let start := Nat.min start (length (h_nodes h)) in
      let stop := Nat.min stop (length (h_nodes h)) in
      let nodes := eraseRange (h_nodes h) start stop in
      mkH nodes (renumber (h_pos h) start (skipn start nodes)) (nodesErased (h_data h) start stop).

  (** code_handler_impl.hpp 493-507: reset, which deletes the nodes; the tables are
      not told. *)
  Definition reset (h : handler) : handler := mkH [] (h_pos h) (h_data h).

  (** std::vector::resize. *)
  Definition resize (l : list T) (n : nat) : list T :=
    if n <=? length l then firstn n l else l ++ repeat dflt (n - length l).

  (** code_handler_vector.hpp 99-105: adjustSize; the reservation is not modelled. *)
  Definition adjustSize (h : handler) : handler := mkH (h_nodes h) (h_pos h) (resize (h_data h) (length (h_nodes h))).

  (** code_handler_vector.hpp 107-116: adjustSize(node). *)
  Definition adjustSizeFor (h : handler) (n : nat) : tres handler :=
    match h_pos h n with
    | None => TThrow
    | Some p => TOk (if length (h_data h) <=? p then adjustSize h else h)
    end.

  Fixpoint put (l : list T) (i : nat) (v : T) : list T :=
    match l, i with [], _ => [] | _ :: r, 0 => v :: r | x :: r, S j => x :: put r j v end.

  (** code_handler_vector.hpp 118-138: get. *)
  Definition get (h : handler) (n : nat) : tres T :=
    match h_pos h n with
    | None => TThrow
    | Some p => match nth_error (h_data h) p with Some v => TOk v | None => TBad end
    end.

  (** code_handler_vector.hpp 140-150: set. *)
  Definition set (h : handler) (n : nat) (v : T) : tres handler :=
    match h_pos h n with
    | None => TThrow
    | Some p => if p <? length (h_data h) then TOk (mkH (h_nodes h) (h_pos h) (put (h_data h) p v)) else TBad
    end.

  (** code_handler_vector.hpp 160-162 and 95-97: fill and clear. *)
  Definition fill (h : handler) (v : T) : handler := mkH (h_nodes h) (h_pos h) (map (fun _ => v) (h_data h)).
  Definition clear (h : handler) : handler := mkH (h_nodes h) (h_pos h) [].

  (** What a user of the handler and of a table can do. *)
  Inductive op :=
  | Create (n : nat) | Manage (n : nat) | Delete (start stop : nat) | Adjust | AdjustFor (n : nat)
  | Set_ (n : nat) (v : T) | Fill (v : T) | Clear | Reset.

  Definition step (h : handler) (o : op) : tres handler :=
    match o with
    | Create n => TOk (manageNode h n)
    | Manage n => TOk (manageMemory h n)
    | Delete a b => TOk (deleteManagedNodes h a b)
    | Adjust => TOk (adjustSize h)
    | AdjustFor n => adjustSizeFor h n
    | Set_ n v => set h n v
    | Fill v => TOk (fill h v)
    | Clear => TOk (clear h)
    | Reset => TOk (reset h)
    end.

  Fixpoint run (h : handler) (l : list op) : tres handler :=
    match l with
    | [] => TOk h
    | o :: r => match step h o with TOk h' => run h' r | TThrow => TThrow | TBad => TBad end
    end.
End Tables.
Arguments TOk {A} a. Arguments TThrow {A}. Arguments TBad {A}.
Arguments Create {T} n. Arguments Manage {T} n. Arguments Delete {T} start stop. Arguments Adjust {T}. Arguments AdjustFor {T} n.
Arguments Set_ {T} n v. Arguments Fill {T} v. Arguments Clear {T}. Arguments Reset {T}.

(** * How a model uses its atomic functions

    Models atomic_dependency_locator.hpp 24-149 (AtomicUseInfo, AtomicDependencyLocator) and the marks of visited nodes of
    code_handler_impl.hpp 166-175 (the number of the visit is not changed while the locator works, so that a mark is membership).
    A node is named by its position in the code handler; the independent variables are the first nodes which the handler makes
    (69-73). Sets and maps are lists without regard to order, and a map is looked up by key. Nodes other than independent variables,
    calls of atomic functions and arrays are of one kind. The values of the evaluation of the tape are not modelled, only the
    nodes which it makes. *)
From Coq Require Import List Bool Arith.
Import ListNotations.

(** getOperationType, with getInfo()[0] and getInfo()[2] of a call of an atomic function: its identifier and the order *)
Inductive Op := Inv | AtomicForward (id p : nat) | ArrayCreation | Other.
(** an argument is a node or a value *)
Record Node := mkNode { nop : Op; nargs : list (option nat) }.
(** AtomicUseInfo (24-43) *)
Record Use := mkUse { atom : option nat; sizes : list (nat * nat); outerIndeps : list nat }.

(** [Failed]: a debug assertion fails; [Undefined]: a null pointer is dereferenced or a node does not exist; [OutOfRange]: std::map::at throws;
    [Fuel]: the bound of the recursion in the model is reached *)
Inductive result (A : Type) := Ok (a : A) | Failed | Undefined | OutOfRange | Fuel.
Arguments Ok {A} _. Arguments Failed {A}. Arguments Undefined {A}. Arguments OutOfRange {A}. Arguments Fuel {A}.

Record State := mkState { visited : list nat; indeps : list (nat * list nat); info : list (nat * Use) }.

Fixpoint lookup {A} (k : nat) (m : list (nat * A)) : option A :=
  match m with [] => None | (k', a) :: r => if k =? k' then Some a else lookup k r end.
Fixpoint update {A} (k : nat) (a : A) (m : list (nat * A)) : list (nat * A) :=
  match m with [] => [(k, a)] | (k', b) :: r => if k =? k' then (k, a) :: r else (k', b) :: update k a r end.
(** std::set::insert of a range *)
Definition insertAll (l s : list nat) : list nat := fold_left (fun s x => if existsb (Nat.eqb x) s then s else s ++ [x]) l s.
Definition pairEqb (a b : nat * nat) : bool := (fst a =? fst b) && (snd a =? snd b).
Definition insertPair (x : nat * nat) (s : list (nat * nat)) : list (nat * nat) := if existsb (pairEqb x) s then s else s ++ [x].

Definition isArray (n : Node) : bool := match nop n with ArrayCreation => true | _ => false end.

(** 122-141: what is noted of a call of an atomic function; [dbg]: assertions are checked *)
Definition noteAtomic (dbg : bool) (g : list Node) (nd : Node) (id p : nat) (ind : list nat) (st : State) : result State :=
  if dbg && negb (1 <? length (nargs nd)) then Failed
  else if dbg && negb (p =? 0) then Failed
  else match nth_error (nargs nd) 0, nth_error (nargs nd) 1 with
  | Some (Some tx), Some (Some ty) =>
      match nth_error g tx, nth_error g ty with
      | Some ntx, Some nty =>
          if dbg && negb (isArray ntx && isArray nty) then Failed
          else let u := match lookup id (info st) with Some u => u | None => mkUse None [] [] end in
            Ok (mkState (visited st) (indeps st)
                 (update id (mkUse (atom u) (insertPair (length (nargs ntx), length (nargs nty)) (sizes u)) (insertAll ind (outerIndeps u))) (info st)))
      | _, _ => Undefined
      end
  | _, _ => if dbg then Failed else Undefined
  end.

(** 113-118: the loop over the arguments *)
Fixpoint overArgs (f : option nat -> State -> result (list nat * State)) (args : list (option nat)) (ind : list nat) (st : State)
  : result (list nat * State) :=
  match args with
  | [] => Ok (ind, st)
  | a :: r =>
      match f a st with
      | Ok (aind, st') => overArgs f r (insertAll aind ind) st'
      | Failed => Failed | Undefined => Undefined | OutOfRange => OutOfRange | Fuel => Fuel
      end
  end.

(** findAtomicsUsage of a node (94-145) *)
Fixpoint findUsage (dbg : bool) (g : list Node) (fuel : nat) (node : option nat) (st : State) {struct fuel} : result (list nat * State) :=
  match fuel with
  | 0 => Fuel
  | S fuel =>
    match node with
    | None => Ok ([], st)
    | Some i =>
      match nth_error g i with
      | None => Undefined
      | Some nd =>
        match nop nd with
        | Inv => Ok ([i], st)
        | _ =>
          if existsb (Nat.eqb i) (visited st) then
            match lookup i (indeps st) with Some s => Ok (s, st) | None => OutOfRange end
          else
            match overArgs (findUsage dbg g fuel) (nargs nd) [] (mkState (i :: visited st) (indeps st) (info st)) with
            | Ok (ind, st2) =>
                let st3 := mkState (visited st2) (update i ind (indeps st2)) (info st2) in
                match nop nd with
                | AtomicForward id p =>
                    match noteAtomic dbg g nd id p ind st3 with
                    | Ok st4 => Ok (ind, st4)
                    | Failed => Failed | Undefined => Undefined | OutOfRange => OutOfRange | Fuel => Fuel
                    end
                | _ => Ok (ind, st3)
                end
            | Failed => Failed | Undefined => Undefined | OutOfRange => OutOfRange | Fuel => Fuel
            end
        end
      end
    end
  end.

(** 77-80: the loop over the dependent variables *)
Fixpoint overDeps (dbg : bool) (g : list Node) (deps : list (option nat)) (st : State) : result State :=
  match deps with
  | [] => Ok st
  | d :: r =>
      match findUsage dbg g (S (S (length g))) d st with
      | Ok (_, st') => overDeps dbg g r st'
      | Failed => Failed | Undefined => Undefined | OutOfRange => OutOfRange | Fuel => Fuel
      end
  end.

(** 82-87: the atomic functions which the handler knows; [reg] is CodeHandler::getAtomicFunctions *)
Fixpoint setAtoms (reg : list (nat * nat)) (m : list (nat * Use)) : result (list (nat * Use)) :=
  match m with
  | [] => Ok []
  | (id, u) :: r =>
      match lookup id reg with
      | None => OutOfRange
      | Some a =>
          match setAtoms reg r with
          | Ok r' => Ok ((id, mkUse (Some a) (sizes u) (outerIndeps u)) :: r')
          | e => e
          end
      end
  end.

(** the members of the locator: the nodes of its handler and what it noted *)
Record Locator := mkLocator { nodes : list Node; noted : State }.
Definition newLocator : Locator := mkLocator [] (mkState [] [] []).

(** what the tape makes in the handler, when its independent variables are the nodes from position [first] on: the further nodes
    and the dependent variables *)
Record Tape := mkTape { domain : nat; forward : nat -> list Node * list (option nat); registered : list (nat * nat) }.

(** findAtomicsUsage (62-90) *)
Definition findAtomicsUsage (dbg : bool) (t : Tape) (l : Locator) : result (list (nat * Use) * Locator) :=
  match info (noted l) with
  | _ :: _ => Ok (info (noted l), l)
  | [] =>
      let first := length (nodes l) in
      let g0 := nodes l ++ repeat (mkNode Inv []) (domain t) in
      if dbg && negb (domain t =? 0) && negb (first =? 0) then Failed
      else let (more, deps) := forward t first in
        let g := g0 ++ more in
        match overDeps dbg g deps (noted l) with
        | Ok st =>
            match setAtoms (registered t) (info st) with
            | Ok m => Ok (m, mkLocator g (mkState (visited st) (indeps st) m))
            | Failed => Failed | Undefined => Undefined | OutOfRange => OutOfRange | Fuel => Fuel
            end
        | Failed => Failed | Undefined => Undefined | OutOfRange => OutOfRange | Fuel => Fuel
        end
  end.

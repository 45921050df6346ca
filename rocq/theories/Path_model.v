(** * Finding a node inside an expression (C24)

    Models include/cppad/cg/operation_path.hpp (findPathGraph 34-113, findPaths 116-183, findPathsFromNode 185-206),
    bidir_graph.hpp (BidirGraph 34-95, findSingleBifurcation 99-159, findPathUpTo 166-214) and operation_path_node.hpp.

    Simplifications:
    - std::map<Node*, PathNodeEdges> is a list of pairs with distinct keys, looked up by key.  The order of its entries
      (pointer order in C++) is never observed;
    - the visited marks of CodeHandler (startNewOperationTreeVisit, isVisited, markVisited) are the list of marked nodes;
    - an argument index -1 (end of a path, bidir_graph.hpp 120, 211) is [None];
    - dereferencing a null pointer, or reading outside a vector, is the outcome [Undef];
    - size_t does not overflow; the default limit of bifurcations (the largest size_t) is [None];
    - recursion and loops are on fuel; running out of it is the outcome [Fuel]. *)
From Coq Require Import List Bool Arith.
From Verif Require Import Graph_model.
Import ListNotations.

Inductive pout (A : Type) : Type := Got (a : A) | Undef | Fuel.
Arguments Got {A} a.
Arguments Undef {A}.
Arguments Fuel {A}.
Definition pbind {A C} (x : pout A) (f : A -> pout C) : pout C :=
  match x with Got a => f a | Undef => Undef | Fuel => Fuel end.

(** PathNodeEdges (bidir_graph.hpp 23-29) *)
Record edges : Type := mkEdges { ed_args : list nat; ed_usage : list (nat * nat) }.
Definition noEdges : edges := mkEdges [] [].

(** BidirGraph::graph_ (bidir_graph.hpp 40) with find, operator[], erase, contains (66-93) *)
Definition pgraph : Type := list (nat * edges).
Fixpoint pg_find (G : pgraph) (n : nat) : option edges :=
  match G with
  | [] => None
  | (m, e) :: G' => if Nat.eqb m n then Some e else pg_find G' n
  end.
Definition pg_contains (G : pgraph) (n : nat) : bool := match pg_find G n with Some _ => true | None => false end.
Definition pg_get (G : pgraph) (n : nat) : edges := match pg_find G n with Some e => e | None => noEdges end.
Fixpoint pg_set (G : pgraph) (n : nat) (e : edges) : pgraph :=
  match G with
  | [] => [(n, e)]
  | (m, e') :: G' => if Nat.eqb m n then (m, e) :: G' else (m, e') :: pg_set G' n e
  end.
Definition pg_erase (G : pgraph) (n : nat) : pgraph := filter (fun me => negb (Nat.eqb (fst me) n)) G.

(** An element of a SourceCodePath (operation_path_node.hpp): a node and an argument index. *)
Definition pnode : Type := nat * option nat.
Definition spath : Type := list pnode.

Section Paths.
Context {B : Type}.
Variable g : heap B.

Definition nodeArgs (i : nat) : list (arg B) := match nth_error g i with Some n => n_args n | None => [] end.

(** node->getArguments()[i].getOperation(); None: out of range, or a parameter *)
Definition child (n i : nat) : option nat :=
  match nth_error (nodeArgs n) i with Some (ANode j) => Some j | _ => None end.

(** connect (bidir_graph.hpp 53-64); the argument is a node *)
Definition connect (G : pgraph) (n i a : nat) : pgraph :=
  let e := pg_get G n in
  let G1 := pg_set G n (mkEdges (ed_args e ++ [i]) (ed_usage e)) in
  let ea := pg_get G1 a in
  pg_set G1 a (mkEdges (ed_args ea) (ed_usage ea ++ [(n, i)])).

(** what the recursive search changes *)
Record fstate : Type := mkF { f_graph : pgraph; f_marks : list nat; f_bif : nat }.
Definition marked (s : fstate) (n : nat) : bool := existsb (Nat.eqb n) (f_marks s).

Definition limit_reached (max : option nat) (bif : nat) : bool :=
  match max with Some m => m <=? bif | None => false end.

(** the loop over the arguments (operation_path.hpp 65-79); [rec] searches a node *)
Fixpoint fpArgs (rec : nat -> fstate -> pout (fstate * bool)) (root : nat) (l : list (arg B)) (i : nat) (found : bool)
    (s : fstate) : pout (fstate * bool) :=
  match l with
  | [] => Got (s, found)
  | APar _ :: l' => fpArgs rec root l' (S i) found s
  | ANode a :: l' =>
      pbind (rec a s) (fun sb =>
        let s1 := fst sb in
        if snd sb
        then fpArgs rec root l' (S i) true
               (mkF (connect (f_graph s1) root i a) (f_marks s1) (if found then S (f_bif s1) else f_bif s1))
        else fpArgs rec root l' (S i) found s1)
  end.

(** findPathGraph, the recursive function (operation_path.hpp 34-86) *)
Fixpoint findPG (fuel : nat) (target : nat) (max : option nat) (root : nat) (s : fstate) : pout (fstate * bool) :=
  match fuel with
  | 0 => Fuel
  | S fuel' =>
      if limit_reached max (f_bif s) then Got (s, false)
      else if Nat.eqb root target then Got (s, true)
      else if pg_contains (f_graph s) root then Got (s, true)
      else if marked s root then Got (s, false)
      else
        pbind (fpArgs (findPG fuel' target max) root (nodeArgs root) 0 false
                 (mkF (pg_set (f_graph s) root (pg_get (f_graph s) root)) (root :: f_marks s) (f_bif s)))
          (fun sb =>
             if snd sb then Got sb
             else Got (mkF (pg_erase (f_graph (fst sb)) root) (f_marks (fst sb)) (f_bif (fst sb)), false))
  end.

(** CodeHandler::findPathGraph (operation_path.hpp 95-113): the graph and the number of bifurcations, which starts at
    [bif]. *)
Definition findPathGraph (fuel : nat) (root target : nat) (bif : nat) (max : option nat) : pout (pgraph * nat) :=
  if match max with Some m => bif <=? m | None => true end
  then if Nat.eqb root target then Got ([(root, noEdges)], bif)
       else pbind (findPG fuel target max root (mkF [] [] bif)) (fun sb => Got (f_graph (fst sb), f_bif (fst sb)))
  else Got ([], bif).

(** findPathsFromNode (operation_path.hpp 185-206).  In the paths of findPaths, the index of an element is its position
    among the arguments of the element before. *)
Definition fpath : Type := list (nat * nat).
Fixpoint suffixes (p : fpath) (n : nat) (seen : list nat) (acc : list fpath) : list nat * list fpath :=
  match p with
  | [] => (seen, acc)
  | (m, _) :: p' =>
      match p' with
      | [] => (seen, acc)
      | (_, i1) :: _ =>
          if Nat.eqb m n && negb (existsb (Nat.eqb i1) seen)
          then suffixes p' n (i1 :: seen) (acc ++ [p'])
          else suffixes p' n seen acc
      end
  end.
Definition findPathsFromNode (ps : list fpath) (n : nat) : list fpath :=
  snd (fold_left (fun sa p => suffixes p n (fst sa) (snd sa)) ps ([], [])).

(** findPaths, the recursive function (operation_path.hpp 139-183); the state is the marks and [found].  [pre] is
    currPath without its last element, [n] the last node and [k] its index. *)
Fixpoint fpLoop (rec : nat -> nat -> list nat * list fpath -> pout (list nat * list fpath)) (max : nat)
    (l : list (arg B)) (i : nat) (s : list nat * list fpath) : pout (list nat * list fpath) :=
  match l with
  | [] => Got s
  | APar _ :: l' => fpLoop rec max l' (S i) s
  | ANode a :: l' =>
      pbind (rec a i s) (fun s1 => if Nat.eqb (length (snd s1)) max then Got s1 else fpLoop rec max l' (S i) s1)
  end.
Fixpoint findPs (fuel : nat) (target max : nat) (pre : fpath) (n k : nat) (s : list nat * list fpath) :
    pout (list nat * list fpath) :=
  match fuel with
  | 0 => Fuel
  | S fuel' =>
      let cur := pre ++ [(n, k)] in
      if Nat.eqb target n then Got (fst s, snd s ++ [cur])
      else match nodeArgs n with
      | [] => Got s
      | args =>
          if existsb (Nat.eqb n) (fst s)
          then Got (fst s, snd s ++ map (fun p => cur ++ p) (findPathsFromNode (snd s) n))
          else fpLoop (findPs fuel' target max cur) max args 0 (n :: fst s, snd s)
      end
  end.
(** CodeHandler::findPaths (operation_path.hpp 116-137) *)
Definition findPaths (fuel : nat) (root target max : nat) : pout (list fpath) :=
  if Nat.eqb max 0 then Got []
  else if Nat.eqb root target then Got [[(root, 0)]]
  else pbind (findPs fuel target max [] root 0 ([], [])) (fun s => Got (snd s)).

(** findPathUpTo (bidir_graph.hpp 166-214): one path, or two which part at their first node *)
Fixpoint findPathUpTo (fuel : nat) (G : pgraph) (n : nat) (acc : spath) : pout (list spath) :=
  match fuel with
  | 0 => Fuel
  | S fuel' =>
      match pg_find G n with
      | None => Undef
      | Some e =>
          match ed_args e with
          | [] => Got [acc ++ [(n, None)]]
          | [i] =>
              match child n i with
              | None => Undef
              | Some j => findPathUpTo fuel' G j (acc ++ [(n, Some i)])
              end
          | i1 :: i2 :: _ =>
              match child n i1, child n i2 with
              | Some j1, Some j2 =>
                  pbind (findPathUpTo fuel' G j1 []) (fun ps =>
                    if Nat.eqb (length ps) 2 then Got ps
                    else pbind (findPathUpTo fuel' G j2 []) (fun ps2 =>
                      if Nat.eqb (length ps2) 2 then Got ps2
                      else match ps, ps2 with
                        | p :: _, p2 :: _ => Got [(n, Some i1) :: p; (n, Some i2) :: p2]
                        | _, _ => Undef
                        end))
              | _, _ => Undef
              end
          end
      end
  end.

(** the loop following the first usage of each node up to the expression (bidir_graph.hpp 133-153); the elements are
    returned in the order of the expression *)
Fixpoint pathCommon (fuel : nat) (G : pgraph) (expression n : nat) (acc : spath) : pout spath :=
  match fuel with
  | 0 => Fuel
  | S fuel' =>
      match pg_find G n with
      | None => Undef
      | Some e =>
          match ed_usage e with
          | [] => Undef
          | (m, i) :: _ =>
              if Nat.eqb m expression then Got ((m, Some i) :: acc)
              else pathCommon fuel' G expression m ((m, Some i) :: acc)
          end
      end
  end.

(** findSingleBifurcation (bidir_graph.hpp 99-159): the paths and bifIndex (None is -1) *)
Definition findSingleBifurcation (fuel : nat) (G : pgraph) (expression target : nat) : pout (list spath * option nat) :=
  match G with
  | [] => Got ([], None)
  | _ =>
      match pg_find G target with
      | None => Got ([], None)
      | Some tail =>
          match ed_usage tail with
          | [] => Got ([[(target, None)]], None)
          | _ =>
              pbind (findPathUpTo fuel G expression []) (fun ps =>
                let bif := if 1 <? length ps then Some 0 else None in
                match ps with
                | ((n, _) :: _) :: _ =>
                    if Nat.eqb n expression then Got (ps, bif)
                    else pbind (pathCommon fuel G expression n []) (fun c => Got (map (app c) ps, Some (length c)))
                | _ => Undef
                end)
          end
      end
  end.
End Paths.

(** * The structural index reduction of Soares and Secchi.

    Source: /repo/include/cppad/cg/dae_index_reduction/soares_secchi.hpp
    ([detectSubset2Dif], lines 167-236, and the part of [reduceIndex], lines
    131-137, which decides what is removed).  The graph, the two augmenting
    path procedures and the creation of derivatives are those of
    [Match_model].  Messages for the user are not modelled. *)
From Coq Require Import List Arith Bool.
From Verif Require Import Match_model.
Import ListNotations.

(** soares_secchi.hpp 207-208 *)
Definition uncolor_vars (g : graph) : graph :=
  Gr (nv g) (ne g) (fun x => v_uncolor (gv g x)) (ge g).

(** soares_secchi.hpp 211-212 *)
Definition uncolor_eqs (g : graph) : graph :=
  Gr (nv g) (ne g) (gv g) (fun x => e_uncolor (ge g x)).

(** std::set::insert of line 195; the set is a list without repetitions in
    order of insertion (see [soares] for the order of its iteration) *)
Definition insert_set (e : nat) (m : list nat) : list nat :=
  if existsb (Nat.eqb e) m then m else m ++ [e].

(** soares_secchi.hpp 192-200: coloured equations without derivative are
    marked and lose their colour *)
Definition mark_one (gm : graph * list nat) (e : nat) : graph * list nat :=
  let '(g, m) := gm in
  if e_col (ge g e) && is_none (e_der (ge g e))
  then (upde g e e_uncolor, insert_set e m) else (g, m).
Definition mark_coloured (g : graph) (m : list nat) : graph * list nat :=
  fold_left mark_one (seq 0 (ne g)) (g, m).

(** State of a pass.  [VThrow]: "Singular system detected."; [VNull]: a null
    pointer was dereferenced; [VDepth]: the bound on the recursion of an
    augmenting path procedure was reached (excluded by a theorem). *)
Inductive vres := VOk (g : graph) (m : list nat) | VThrow (g : graph) | VNull | VDepth.

(** soares_secchi.hpp 180-213: equation [k] of the loop *)
Definition visit (g : graph) (m : list nat) (k : nat) : vres :=
  match e_asg (ge g k) with
  | Some _ => VOk g m
  | None =>
      match augment DepthA (S (ne g)) k g with
      | Ret g true => VOk (uncolor_eqs g) m
      | Ret g false =>
          let '(g, m) := mark_coloured g m in
          match augment Depth (S (ne g)) k g with
          | Ret g true => VOk (uncolor_vars g) m
          | Ret g false => VThrow g
          | Null => VNull
          | NoFuel => VDepth
          end
      | Null => VNull
      | NoFuel => VDepth
      end
  end.

(** soares_secchi.hpp 179-214: the loop over [enodes], which does not change
    size in it *)
Fixpoint visits (ks : list nat) (g : graph) (m : list nat) : vres :=
  match ks with
  | [] => VOk g m
  | k :: ks =>
      match visit g m k with
      | VOk g m => visits ks g m
      | r => r
      end
  end.

(** soares_secchi.hpp 220-222: the derivative of an equation gets the
    derivatives of its variables only ([addOrigVars] is false) *)
Definition differentiate (l : list nat) (g : graph) : graph :=
  fold_left (create_e false) l g.

(** Outcome.  [SDone g last]: the method returns, [last] being the equations
    differentiated last ([lastMarked]); [SThrow g]: "Singular system
    detected."; [SNull]: undefined behaviour; [SFuel]: the bound of the model
    on the number of passes was reached; [SDepth]: see [VDepth]. *)
Inductive sres := SDone (g : graph) (last : list nat) | SThrow (g : graph) | SNull | SFuel | SDepth.

(** soares_secchi.hpp 177-229: the loop [while(true)].  The iteration of line
    220 goes through the set of pointers in the order of their addresses:
    [ord p] is the order met in pass [p]. *)
Fixpoint soares_from (fuel : nat) (ord : nat -> list nat -> list nat) (p : nat)
    (g : graph) (last : list nat) : sres :=
  match fuel with
  | O => SFuel
  | S f =>
      match visits (seq 0 (ne g)) g [] with
      | VOk g [] => SDone g last
      | VOk g m => soares_from f ord (S p) (differentiate (ord p m) g) m
      | VThrow g => SThrow g
      | VNull => SNull
      | VDepth => SDepth
      end
  end.

(** soares_secchi.hpp 167-236 [detectSubset2Dif] *)
Definition soares (fuel : nat) (ord : nat -> list nat -> list nat) (g : graph) : sres :=
  soares_from fuel ord 0 g [].

(** soares_secchi.hpp 231-234 and 135-137: the equations [lastAddEq_] removed
    by [reduceIndex] ([None] when the derivative is a null pointer). *)
Definition last_added (g : graph) (last : list nat) : list (option nat) :=
  map (fun e => e_der (ge g e)) last.

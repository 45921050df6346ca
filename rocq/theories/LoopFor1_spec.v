(** * First order forward mode of a model with loops: what is asked of a request *)
From Coq Require Import List Arith.
From Verif Require Import LoopJac_model LoopJac_spec.
Import ListNotations.

(** A variable which a loop uses without an index, and by which a derivative of some equation of the loop is requested: among the equations of
    the loop whose derivative by it is requested there is one which uses the variable directly (not only by means of temporaries). *)
Definition direct_somewhere (md : model) (rows cols : list nat) : Prop :=
  forall n l q j p i t it, nth_error (m_loops md) n = Some l -> nth_error (l_non l) q = Some j ->
  nth_error rows p = Some i -> nth_error cols p = Some j -> place_of md i (Some (n, (t, it))) ->
  exists p' i' t' it' row, nth_error rows p' = Some i' /\ nth_error cols p' = Some j /\ place_of md i' (Some (n, (t', it'))) /\
    nth_error (l_row l) t' = Some row /\ In (length (l_indexed l) + q) row.

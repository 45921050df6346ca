(** What a program does with its input, without pipes or schedules, and what a
    caller of [callExecutable] expects. *)

From Coq Require Import List NArith Ascii Bool.
Import ListNotations.
From Verif Require Import Exec_model.
Local Open Scope N_scope.

(** What a program given the input [i] writes on its standard output and error,
    sends as messages, how it ends and what it leaves unread. *)
Record effect : Type := { eOut : bytes; eMsg : bytes; eStatus : status; eUnread : bytes }.

Fixpoint effectOf (p : prog) (i : bytes) : effect :=
  match p with
  | PExit c => {| eOut := []; eMsg := []; eStatus := Exited c; eUnread := i |}
  | PDies g => {| eOut := []; eMsg := []; eStatus := Signaled g; eUnread := i |}
  | POut b k => let e := effectOf k i in
      {| eOut := b :: eOut e; eMsg := eMsg e; eStatus := eStatus e; eUnread := eUnread e |}
  | PMsg b k => let e := effectOf k i in
      {| eOut := eOut e; eMsg := b :: eMsg e; eStatus := eStatus e; eUnread := eUnread e |}
  | PIn k => match i with
             | [] => effectOf (k None) []
             | b :: r => effectOf (k (Some b)) r
             end
  end.

(** The standard input of the program: what the caller gives or, if it gives
    nothing, its own. *)
Definition inputOf (C : call) : bytes :=
  match cStdin C with Some m => m | None => cInherited C end.

Definition effectC (C : call) : effect :=
  effectOf (childProg (cExe C) (cImage C)) (inputOf C).

Definition prefix (a b : bytes) : Prop := exists c, b = a ++ c.

(** What has been received of [all] when at most 10000 bytes are waited for. *)
Definition received (m all : bytes) : Prop :=
  prefix m all /\ (lenN all <= 10000 -> m = all) /\
  (10000 < lenN all -> 10000 < lenN m <= 10128).

(** The outcomes that follow from what the program does. *)
Definition expected (C : call) (o : outcome) : Prop :=
  let e := effectC C in
  match o with
  | Ret None => cCapture C = false /\ eStatus e = Exited 0
  | Ret (Some m) => cCapture C = true /\ eStatus e = Exited 0 /\ received m (eOut e)
  | Thr (ThrCode c x) => eStatus e = Exited c /\ c <> 0 /\
      (x = None -> eMsg e = [] /\ (cCapture C = true -> eOut e = [])) /\
      (forall y, x = Some y -> prefix y (eMsg e) /\
         ((if cCapture C then lenN (eOut e) else 0) + lenN (eMsg e) <= 10000 -> y = eMsg e))
  | Thr (ThrSignal g x) => eStatus e = Signaled g /\
      (x = None -> eMsg e = [] /\ (cCapture C = true -> eOut e = [])) /\
      (forall y, x = Some y -> prefix y (eMsg e) /\
         ((if cCapture C then lenN (eOut e) else 0) + lenN (eMsg e) <= 10000 -> y = eMsg e))
  | _ => False
  end.

(** The outcomes that follow from the surroundings: a pipe or a process that
    cannot be created, a caller that ignores the end of its children, and a
    program that ends before all of its input could be written. *)
Definition excused (C : call) (o : outcome) : Prop :=
  match o with
  | Thr ThrPipe => exists k, cPipeFails C = Some k
  | Thr ThrFork => cForkFails C = true
  | Thr ThrWait => cIgnChld C = true
  | Thr (ThrWrite _) => cIgnPipe C = true /\ inputOf C <> [] /\ cStdin C = Some (eUnread (effectC C))
  | Killed => cIgnPipe C = false /\ given C = true /\ eUnread (effectC C) <> []
  | _ => False
  end.

(** No pipe can get full while nobody empties it. *)
Definition smallEnough (C : call) : Prop :=
  let e := effectC C in
  0 < cCap C /\
  lenN (eMsg e) <= cCap C /\
  (cCapture C = true -> lenN (eOut e) <= 10001 + cCap C) /\
  (given C = true -> cCapture C = true ->
     lenN (inputOf C) <= cCap C \/ lenN (eOut e) <= cCap C).

(** Infinite executions, and those in which both processes go on being given
    turns. *)
Fixpoint after (C : call) (sch : nat -> who) (n : nat) : st :=
  match n with
  | O => init C
  | S m => turn C (after C sch m) (sch m)
  end.

Definition fair (sch : nat -> who) : Prop :=
  forall n w, exists m, (n <= m)%nat /\ sch m = w.

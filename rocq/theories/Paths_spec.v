(** * What a path means

    A path is absolute if it starts with a slash. Its components are what is between slashes, without empty ones and single dots, which name the
    folder they are in (POSIX, pathname resolution). *)
From Coq Require Import List Bool Ascii.
Import ListNotations.

(** pieces between slashes; [cur] the piece which is being read, in reverse *)
Fixpoint pieces (p : list ascii) (cur : list ascii) : list (list ascii) :=
  match p with
  | [] => [rev cur]
  | a :: r => if (a =? "/")%char then rev cur :: pieces r [] else pieces r (a :: cur)
  end.
Definition is_name (c : list ascii) : bool := match c with [] => false | [a] => negb (a =? ".")%char | _ => true end.
Definition components (p : list ascii) : list (list ascii) := filter is_name (pieces p []).
Definition absolute (p : list ascii) : Prop := exists r, p = "/"%char :: r.
(** two paths name the same file, from any working directory *)
Definition same_place (p q : list ascii) : Prop := (absolute p <-> absolute q) /\ components p = components q.

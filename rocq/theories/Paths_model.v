(** * Paths of files

    Models model/system/linux_system.hpp 118-176 (createPath, filenameFromPath, directoryFromPath, isAbsolutePath); the reservation of memory
    in 122-125 is left out. A string is the list of its characters. *)
From Coq Require Import List Bool Arith Ascii.
Import ListNotations.

Definition slash : ascii := "/"%char.
Definition dot : ascii := "."%char.
Definition str : Type := list ascii.

(** std::string::rfind and find_last_of with a character: the last position *)
Fixpoint rfindFrom (k : nat) (c : ascii) (s : str) (found : option nat) : option nat :=
  match s with [] => found | a :: r => rfindFrom (S k) c r (if (a =? c)%char then Some k else found) end.
Definition rfind (c : ascii) (s : str) : option nat := rfindFrom 0 c s None.
Definition back (s : str) : option ascii := match rev s with [] => None | a :: _ => Some a end.
Definition substrFrom (s : str) (pos : nat) : str := skipn pos s.

(** 127-134: a folder followed by a slash, unless it ends with one *)
Definition addFolder (path folder : str) : str :=
  match back folder with
  | Some a => if (a =? slash)%char then path ++ folder else path ++ folder ++ [slash]
  | None => path ++ folder ++ [slash]
  end.
(** createPath (118-139) and with one folder (141-144) *)
Definition createPath (folders : list str) (file : str) : str := fold_left addFolder folders [] ++ file.
(** filenameFromPath (150-161) *)
Definition filenameFromPath (path : str) : str :=
  match rfind slash path with
  | Some pos => if pos =? length path - 1 then [] else substrFrom path (pos + 1)
  | None => path
  end.
(** directoryFromPath (163-169) *)
Definition directoryFromPath (path : str) : str :=
  match rfind slash path with
  | Some found => firstn (found + 1) path
  | None => [dot; slash]
  end.
(** isAbsolutePath (171-176) *)
Definition isAbsolutePath (path : str) : bool := match path with [] => false | a :: _ => (a =? slash)%char end.

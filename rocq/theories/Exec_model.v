(** The call of an external program: [system::callExecutable] of
    include/cppad/cg/model/system/linux_system.hpp:198-392, with which the
    compilers and the archiver are run
    (include/cppad/cg/model/compiler/gcc_compiler.hpp:75,107,125,
    clang_compiler.hpp:50,117,176,194, dynamic_lib/ar_archiver.hpp:72).

    Two processes, the caller and the program it started, take steps in any
    order.  They share up to three pipes of bounded capacity.  What the kernel
    does (pipes, fork, exec, wait, SIGPIPE) is written here from the
    documentation of Linux.  Not modelled: interrupted system calls (EINTR),
    failures of dup2 and of memory allocation, other processes that inherit
    the descriptors, and the text of the exceptions other than what was
    received from the program. *)

From Coq Require Import List NArith Ascii Bool.
Import ListNotations.
Local Open Scope N_scope.

Definition bytes := list ascii.
Definition lenN (l : bytes) : N := N.of_nat (List.length l).

(** ** Programs *)

(** What an executed program does: it ends, is ended by a signal, writes a byte
    on its standard output or error, writes a byte on the pipe for messages,
    which it inherits (linux_system.hpp:205 creates it without O_CLOEXEC and
    linux_system.hpp:228 only closes the other end), or reads a byte of its
    standard input, where [None] is the end of the file.  Trees are well
    founded: these are the programs which end whatever they read. *)
Inductive prog : Type :=
| PExit (code : N)
| PDies (sig : N)
| POut (b : ascii) (k : prog)
| PMsg (b : ascii) (k : prog)
| PIn (k : option ascii -> prog).

Inductive status : Type := Exited (code : N) | Signaled (sig : N).

Fixpoint pouts (l : bytes) (k : prog) : prog :=
  match l with [] => k | b :: l' => POut b (pouts l' k) end.
Fixpoint pmsgs (l : bytes) (k : prog) : prog :=
  match l with [] => k | b :: l' => PMsg b (pmsgs l' k) end.

(** What is behind the path of the executable: a program, or something that
    cannot be executed, with the text of the error. *)
Inductive image : Type := Runs (p : prog) | Fails (err : bytes).

Definition colon : bytes := [":"; " "]%char.
(** linux_system.hpp:296 *)
Definition execFailed : bytes :=
  ["*";"*";"*";" ";"E";"R";"R";"O";"R";":";" ";"e";"x";"e";"c";" ";
   "f";"a";"i";"l";"e";"d";"010"]%char.

(** linux_system.hpp:273-300: [execv], which does not return if it succeeds;
    otherwise the text of the error, with its final NUL, is sent on the pipe for
    messages, a line is written on the standard error and the child ends with
    EXIT_FAILURE. *)
Definition childProg (exe : bytes) (im : image) : prog :=
  match im with
  | Runs p => p
  | Fails err => pmsgs (exe ++ colon ++ err ++ ["000"%char]) (pouts execFailed (PExit 1))
  end.

(** ** Calls *)

(** A call and its surroundings: the arguments of linux_system.hpp:198-201
    ([cCapture] tells if [stdOutErrMessage] is not null), the standard input
    the caller itself has, the capacity of pipes, whether the caller ignores
    SIGPIPE and SIGCHLD, which of the pipes, if any, cannot be created and
    whether fork fails. *)
Record call : Type := {
  cExe : bytes;
  cImage : image;
  cCapture : bool;
  cStdin : option bytes;
  cInherited : bytes;
  cCap : N;
  cIgnPipe : bool;
  cIgnChld : bool;
  cPipeFails : option nat;
  cForkFails : bool }.

Definition given (C : call) : bool := match cStdin C with Some _ => true | None => false end.

(** ** Descriptors *)

(** The ends of the three pipes a process has open
    (linux_system.hpp:204-216). *)
Record fds : Type := {
  msgR : bool; msgW : bool; outR : bool; outW : bool; srcR : bool; srcW : bool }.

Definition noFds : fds := {| msgR := false; msgW := false; outR := false; outW := false;
  srcR := false; srcW := false |}.

(** ** Outcomes *)

(** [Ret m]: the function returns, with [m] stored in *stdOutErrMessage if it
    is not null (linux_system.hpp:389-391).  [Thr e]: it throws.  [Killed]: the
    calling process is ended by SIGPIPE. *)
Inductive exn : Type :=
| ThrPipe                                   (* linux_system.hpp:74 *)
| ThrFork                                   (* linux_system.hpp:221 *)
| ThrWait                                   (* linux_system.hpp:358 *)
| ThrWrite (text : option bytes)            (* linux_system.hpp:367-373 *)
| ThrCode (code : N) (text : option bytes)  (* linux_system.hpp:375-381 *)
| ThrSignal (sig : N) (text : option bytes) (* linux_system.hpp:382-387 *).

Inductive outcome : Type := Ret (m : option bytes) | Thr (e : exn) | Killed.

(** ** States *)

(** Where the caller is: creating the k-th pipe, before fork, before closing the
    ends it does not use, writing (what remains), reading the output, reading
    the messages, waiting, or finished. *)
Inductive ppc : Type :=
| Creating (k : nat) | Forking | Closing | Writing (rest : bytes) | CloseSrc
| ReadOut | ReadMsg | Waiting | Done (o : outcome).

(** Where the child is: not started, before it closes and redirects
    descriptors, running, ended but not waited for, and gone. *)
Inductive cpc : Type :=
| CNone | CSetup | CRun (p : prog) | CZombie (t : status) | CReaped (t : status).

Record st : Type := {
  pc : ppc; pfds : fds; mOut : bytes; mErr : bytes; size : N; werr : bool;
  child : cpc; cfds : fds;
  bSrc : bytes; bOut : bytes; bMsg : bytes;
  screen : bytes; inh : bytes }.

Definition init (C : call) : st :=
  {| pc := Creating 0; pfds := noFds; mOut := []; mErr := []; size := 0; werr := false;
     child := CNone; cfds := noFds; bSrc := []; bOut := []; bMsg := [];
     screen := []; inh := cInherited C |}.

(** Changes of one part of a state. *)
Definition setPc (x : ppc) (s : st) : st :=
  {| pc := x; pfds := pfds s; mOut := mOut s; mErr := mErr s; size := size s; werr := werr s;
     child := child s; cfds := cfds s; bSrc := bSrc s; bOut := bOut s; bMsg := bMsg s;
     screen := screen s; inh := inh s |}.
Definition setPfds (x : fds) (s : st) : st :=
  {| pc := pc s; pfds := x; mOut := mOut s; mErr := mErr s; size := size s; werr := werr s;
     child := child s; cfds := cfds s; bSrc := bSrc s; bOut := bOut s; bMsg := bMsg s;
     screen := screen s; inh := inh s |}.
Definition setWerr (x : bool) (s : st) : st :=
  {| pc := pc s; pfds := pfds s; mOut := mOut s; mErr := mErr s; size := size s; werr := x;
     child := child s; cfds := cfds s; bSrc := bSrc s; bOut := bOut s; bMsg := bMsg s;
     screen := screen s; inh := inh s |}.
Definition setChild (x : cpc) (y : fds) (s : st) : st :=
  {| pc := pc s; pfds := pfds s; mOut := mOut s; mErr := mErr s; size := size s; werr := werr s;
     child := x; cfds := y; bSrc := bSrc s; bOut := bOut s; bMsg := bMsg s;
     screen := screen s; inh := inh s |}.
Definition setBSrc (x : bytes) (s : st) : st :=
  {| pc := pc s; pfds := pfds s; mOut := mOut s; mErr := mErr s; size := size s; werr := werr s;
     child := child s; cfds := cfds s; bSrc := x; bOut := bOut s; bMsg := bMsg s;
     screen := screen s; inh := inh s |}.
Definition setBOut (x : bytes) (s : st) : st :=
  {| pc := pc s; pfds := pfds s; mOut := mOut s; mErr := mErr s; size := size s; werr := werr s;
     child := child s; cfds := cfds s; bSrc := bSrc s; bOut := x; bMsg := bMsg s;
     screen := screen s; inh := inh s |}.
Definition setBMsg (x : bytes) (s : st) : st :=
  {| pc := pc s; pfds := pfds s; mOut := mOut s; mErr := mErr s; size := size s; werr := werr s;
     child := child s; cfds := cfds s; bSrc := bSrc s; bOut := bOut s; bMsg := x;
     screen := screen s; inh := inh s |}.
Definition setScreen (x : bytes) (s : st) : st :=
  {| pc := pc s; pfds := pfds s; mOut := mOut s; mErr := mErr s; size := size s; werr := werr s;
     child := child s; cfds := cfds s; bSrc := bSrc s; bOut := bOut s; bMsg := bMsg s;
     screen := x; inh := inh s |}.
Definition setInh (x : bytes) (s : st) : st :=
  {| pc := pc s; pfds := pfds s; mOut := mOut s; mErr := mErr s; size := size s; werr := werr s;
     child := child s; cfds := cfds s; bSrc := bSrc s; bOut := bOut s; bMsg := bMsg s;
     screen := screen s; inh := x |}.
Definition gotOut (x : bytes) (s : st) : st :=
  {| pc := pc s; pfds := pfds s; mOut := mOut s ++ x; mErr := mErr s; size := size s + lenN x;
     werr := werr s;
     child := child s; cfds := cfds s; bSrc := bSrc s; bOut := bOut s; bMsg := bMsg s;
     screen := screen s; inh := inh s |}.
Definition gotMsg (x : bytes) (s : st) : st :=
  {| pc := pc s; pfds := pfds s; mOut := mOut s; mErr := mErr s ++ x; size := size s + lenN x;
     werr := werr s;
     child := child s; cfds := cfds s; bSrc := bSrc s; bOut := bOut s; bMsg := bMsg s;
     screen := screen s; inh := inh s |}.

(** The function ends: the destructors of the handlers close what is still open
    (linux_system.hpp:57-59). *)
Definition finish (o : outcome) (s : st) : st := setPc (Done o) (setPfds noFds s).

(** ** The caller *)

(** linux_system.hpp:204-216: the pipe for messages, the one for the output and
    the one for the input, of which the last two only if asked for. *)
Definition pipesMade (C : call) : list (fds -> fds) :=
  [fun f => {| msgR := true; msgW := true; outR := outR f; outW := outW f;
               srcR := srcR f; srcW := srcW f |}] ++
  (if cCapture C then
     [fun f => {| msgR := msgR f; msgW := msgW f; outR := true; outW := true;
                  srcR := srcR f; srcW := srcW f |}] else []) ++
  (if given C then
     [fun f => {| msgR := msgR f; msgW := msgW f; outR := outR f; outW := outW f;
                  srcR := true; srcW := true |}] else []).

Definition pipeFails (C : call) (k : nat) : bool :=
  match cPipeFails C with Some j => Nat.eqb j k | None => false end.

(** linux_system.hpp:306-309,326: the ends the caller closes after fork. *)
Definition parentCloses (f : fds) : fds :=
  {| msgR := msgR f; msgW := false; outR := outR f; outW := false; srcR := false; srcW := srcW f |}.

(** linux_system.hpp:331: the end of the pipe for the input. *)
Definition closeSrcW (f : fds) : fds :=
  {| msgR := msgR f; msgW := msgW f; outR := outR f; outW := outW f; srcR := srcR f; srcW := false |}.

(** linux_system.hpp:340: the size of the buffer. *)
Definition chunk : nat := 128.
(** linux_system.hpp:347,354: [size > 1e4]. *)
Definition tooMuch (n : N) : bool := 10000 <? n.

(** linux_system.hpp:370,379,385: the messages received are put in the text of
    the exception if anything at all was received. *)
Definition textOf (s : st) : option bytes := if 0 <? size s then Some (mErr s) else None.

(** linux_system.hpp:367-391 *)
Definition verdict (C : call) (t : status) (s : st) : outcome :=
  if werr s then Thr (ThrWrite (textOf s))
  else match t with
       | Exited c =>
           if c =? 0 then Ret (if cCapture C then Some (mOut s) else None)
           else Thr (ThrCode c (textOf s))
       | Signaled g => Thr (ThrSignal g (textOf s))
       end.

(** A step of the caller; [None]: it waits.  [write] (linux_system.hpp:328) puts
    bytes while there is room and, once no process can read the pipe, SIGPIPE is
    raised; if it is ignored the result is -1 only if no byte had been written.
    A [read] gives what there is, up to the size of the buffer, and waits while
    the pipe is empty and some process can write on it
    (linux_system.hpp:344-348,351-355).  [waitpid] (linux_system.hpp:357) waits
    for the end of the child, so that the loop of linux_system.hpp:341-360 is
    done once; it fails if SIGCHLD is ignored. *)
Definition stepP (C : call) (s : st) : option st :=
  match pc s with
  | Creating k =>
      match nth_error (pipesMade C) k with
      | None => Some (setPc Forking s)
      | Some mk =>
          if pipeFails C k then Some (finish (Thr ThrPipe) s)
          else Some (setPc (Creating (S k)) (setPfds (mk (pfds s)) s))
      end
  | Forking =>
      if cForkFails C then Some (finish (Thr ThrFork) s)
      else Some (setPc Closing (setChild CSetup (pfds s) s))
  | Closing =>
      Some (setPc (match cStdin C with Some m => Writing m | None => ReadOut end)
                  (setPfds (parentCloses (pfds s)) s))
  | Writing [] => Some (setPc CloseSrc s)
  | Writing (b :: r) =>
      if orb (srcR (pfds s)) (srcR (cfds s)) then
        if lenN (bSrc s) <? cCap C
        then Some (setPc (Writing r) (setBSrc (bSrc s ++ [b]) s))
        else None
      else if cIgnPipe C
      then Some (setPc CloseSrc
                   (setWerr (match cStdin C with
                             | Some m => Nat.eqb (List.length m) (List.length (b :: r))
                             | None => false end) s))
      else Some (finish Killed s)
  | CloseSrc => Some (setPc ReadOut (setPfds (closeSrcW (pfds s)) s))
  | ReadOut =>
      if cCapture C then
        match bOut s with
        | [] => if orb (outW (pfds s)) (outW (cfds s)) then None else Some (setPc ReadMsg s)
        | _ :: _ =>
            let x := firstn chunk (bOut s) in
            let s1 := gotOut x (setBOut (skipn chunk (bOut s)) s) in
            Some (if tooMuch (size s1) then setPc ReadMsg s1 else s1)
        end
      else Some (setPc ReadMsg s)
  | ReadMsg =>
      match bMsg s with
      | [] => if orb (msgW (pfds s)) (msgW (cfds s)) then None else Some (setPc Waiting s)
      | _ :: _ =>
          let x := firstn chunk (bMsg s) in
          let s1 := gotMsg x (setBMsg (skipn chunk (bMsg s)) s) in
          Some (if tooMuch (size s1) then setPc Waiting s1 else s1)
      end
  | Waiting =>
      match child s with
      | CZombie t =>
          if cIgnChld C then Some (finish (Thr ThrWait) (setChild (CReaped t) noFds s))
          else Some (finish (verdict C t s) (setChild (CReaped t) noFds s))
      | _ => None
      end
  | Done _ => None
  end.

(** ** The child *)

(** linux_system.hpp:228-254: the ends the child closes; what it keeps also
    stays open in the program it executes. *)
Definition childCloses (C : call) (f : fds) : fds :=
  {| msgR := false; msgW := msgW f;
     outR := if cCapture C then false else outR f; outW := outW f;
     srcR := srcR f; srcW := if given C then false else srcW f |}.

Definition dies (t : status) (s : st) : st := setChild (CZombie t) noFds s.

(** A step of the child; [None]: it waits.  Writing on a pipe nobody can read
    ends the program with SIGPIPE (13), or is lost if the signal is ignored. *)
Definition stepC (C : call) (s : st) : option st :=
  match child s with
  | CSetup => Some (setChild (CRun (childProg (cExe C) (cImage C))) (childCloses C (cfds s)) s)
  | CRun (PExit c) => Some (dies (Exited c) s)
  | CRun (PDies g) => Some (dies (Signaled g) s)
  | CRun (POut b k) =>
      if cCapture C then
        if orb (outR (pfds s)) (outR (cfds s)) then
          if lenN (bOut s) <? cCap C
          then Some (setChild (CRun k) (cfds s) (setBOut (bOut s ++ [b]) s))
          else None
        else Some (if cIgnPipe C then setChild (CRun k) (cfds s) s else dies (Signaled 13) s)
      else Some (setChild (CRun k) (cfds s) (setScreen (screen s ++ [b]) s))
  | CRun (PMsg b k) =>
      if orb (msgR (pfds s)) (msgR (cfds s)) then
        if lenN (bMsg s) <? cCap C
        then Some (setChild (CRun k) (cfds s) (setBMsg (bMsg s ++ [b]) s))
        else None
      else Some (if cIgnPipe C then setChild (CRun k) (cfds s) s else dies (Signaled 13) s)
  | CRun (PIn k) =>
      if given C then
        match bSrc s with
        | b :: r => Some (setChild (CRun (k (Some b))) (cfds s) (setBSrc r s))
        | [] => if orb (srcW (pfds s)) (srcW (cfds s)) then None
                else Some (setChild (CRun (k None)) (cfds s) s)
        end
      else
        match inh s with
        | b :: r => Some (setChild (CRun (k (Some b))) (cfds s) (setInh r s))
        | [] => Some (setChild (CRun (k None)) (cfds s) s)
        end
  | _ => None
  end.

(** ** Executions *)

(** Who is to make the next step; one that has to wait makes none. *)
Inductive who : Type := Caller | Child.

Definition move (C : call) (w : who) (s : st) : option st :=
  match w with Caller => stepP C s | Child => stepC C s end.

Definition turn (C : call) (s : st) (w : who) : st :=
  match move C w s with Some s' => s' | None => s end.

Definition execution (C : call) (sched : list who) : st := fold_left (turn C) sched (init C).

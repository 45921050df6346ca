(** The places of temporary arrays inside the work array of the generated code.

    Models include/cppad/cg/array_id_compresser.hpp (whole class ArrayIdCompresser) and the printing of array creations of
    include/cppad/cg/lang/c/language_c_arrays.hpp (pushArrayCreationOp, markArrayChanged).  Sizes and positions are natural
    numbers: the wrap-around of size_t is not modelled. *)
Require Import List Arith Bool Lia.
Import ListNotations.

(** ** std::map<size_t, size_t>: a list of pairs ordered by key *)
Definition smap := list (nat * nat).

(** std::map::find *)
Fixpoint mget (k : nat) (m : smap) : option nat :=
  match m with
  | [] => None
  | (k', v) :: m' => if k =? k' then Some v else mget k m'
  end.

(** std::map::operator[] followed by an assignment *)
Fixpoint mset (k v : nat) (m : smap) : smap :=
  match m with
  | [] => [(k, v)]
  | (k', v') :: m' => if k <? k' then (k, v) :: m else if k =? k' then (k, v) :: m' else (k', v') :: mset k v m'
  end.

(** std::map::erase *)
Fixpoint mdel (k : nat) (m : smap) : smap :=
  match m with
  | [] => []
  | (k', v) :: m' => if k =? k' then m' else (k', v) :: mdel k m'
  end.

(** ** Arguments of an array: a parameter, or a node.  A node is a number; [ndef] gives the expression of a node: an element of
    an array (CGOpCode::ArrayElement), a variable kept outside of the work array, or an operation on other expressions, which is
    printed in place.  The expression of an argument is a tree: sharing between expressions is not modelled, because a node used
    more than once gets its own variable (language_c.hpp 1093-1096), unless it is an array element. *)
Inductive nexp : Type :=
| NElem (array index : nat)
| NVar (x : nat)
| NPar (v : nat)
| NOp (op : nat) (args : list nexp).

Inductive aarg : Type :=
| Par (v : nat)
| Nod (n : nat).

(** isSameArgument (language_c.hpp 1754-1767) and isSameArrayElement (array_id_compresser.hpp 219-231), which are the same
    function.  Parameters are numbered: equal values of Base have the same number. *)
Definition sameArg (new : aarg) (old : option aarg) : bool :=
  match old with
  | None => false
  | Some (Par v) => match new with Par w => w =? v | Nod _ => false end
  | Some (Nod n) => match new with Par _ => false | Nod k => k =? n end
  end.

(** An ArrayIdCompresser (array_id_compresser.hpp 29-60): _freeArrayStartSpace, _freeArrayEndSpace, _tmpArrayValues and
    _idArrayCount. *)
Record comp : Type := mkComp {
  c_start : smap;
  c_end : smap;
  c_vals : list (option aarg);
  c_count : nat
}.

(** the constructor (lines 55-60) *)
Definition newComp (maxArraySize : nat) : comp := mkComp [] [] (repeat None maxArraySize) 1.

(** Outcomes: a value, an access outside of a vector, the exception of std::map::at, or a subtraction of size_t values which wraps
    around. *)
Inductive aout (A : Type) : Type :=
| AOk (a : A)
| AOut
| AThrow
| AWrap.
Arguments AOk {A} a.
Arguments AOut {A}.
Arguments AThrow {A}.
Arguments AWrap {A}.

Definition abind {A B} (x : aout A) (f : A -> aout B) : aout B :=
  match x with AOk a => f a | AOut => AOut | AThrow => AThrow | AWrap => AWrap end.

(** addFreeArraySpace (lines 66-98); [start] is _varId[released] - 1. *)
Definition addFree (c : comp) (start size : nat) : comp :=
  if size =? 0 then c
  else
    let e := start + size - 1 in
    let '(start, fs, fe) :=
      if 0 <? start then
        match mget (start - 1) (c_end c) with
        | Some s => (s, mdel s (c_start c), mdel (start - 1) (c_end c))
        | None => (start, c_start c, c_end c)
        end
      else (start, c_start c, c_end c) in
    let '(e, fs, fe) :=
      match mget (e + 1) fs with
      | Some e' => (e', mdel (e + 1) fs, mdel e' fe)
      | None => (e, fs, fe)
      end in
    mkComp (mset start e fs) (mset e start fe) (c_vals c) (c_count c).

Section Reserve.
Variable ndef : nat -> nexp.
(** _varId[array] - 1 *)
Variable place : nat -> nat.

(** The positions which must not be overwritten (lines 106-115): those of the arguments which are elements of an array. *)
Fixpoint blackList (args : list aarg) : list nat :=
  match args with
  | [] => []
  | Par _ :: l => blackList l
  | Nod n :: l => match ndef n with
                  | NElem a i => (place a + i) :: blackList l
                  | _ => blackList l
                  end
  end.

(** lower_bound(start) is an element not above [e] (lines 132-135): some element of the set is in the range. *)
Definition blackIn (black : list nat) (s e : nat) : bool := existsb (fun b => (s <=? b) && (b <=? e)) black.
(** lower_bound(start) is not the end of the set (lines 191-192) *)
Definition blackFrom (black : list nat) (s : nat) : bool := existsb (fun b => s <=? b) black.

(** The number of values already at the place (lines 143-148). *)
Fixpoint commonVals (vals : list (option aarg)) (start : nat) (args : list aarg) : option nat :=
  match args with
  | [] => Some 0
  | a :: l =>
      match nth_error vals start with
      | None => None
      | Some old => match commonVals vals (S start) l with
                    | None => None
                    | Some k => Some (if sameArg a old then S k else k)
                    end
      end
  end.

(** The search for the best location (lines 120-159); [spaces] are the free spaces still to visit, from the last one to the first
    one, [best] is the best one until now and [bestCommon] is bestCommonValues. *)
Fixpoint bestFit (vals : list (option aarg)) (args : list aarg) (black : list nat) (spaces : smap) (best : option (nat * nat))
  (bestCommon : nat) : aout (option (nat * nat)) :=
  match spaces with
  | [] => AOk best
  | (s, e) :: l =>
      let space := e - s + 1 in
      if space <? length args then bestFit vals args black l best bestCommon
      else if blackIn black s e then bestFit vals args black l best bestCommon
      else match best with
           | None => bestFit vals args black l (Some (s, e)) bestCommon
           | Some (bs, be) =>
               match commonVals vals s args with
               | None => AOut
               | Some common =>
                   if (space <? be - bs + 1) || (bestCommon <? common)
                   then if common =? length args then AOk (Some (s, e))
                        else bestFit vals args black l (Some (s, e)) common
                   else bestFit vals args black l best bestCommon
               end
           end
  end.

(** The new values of the temporary array (lines 209-211). *)
Fixpoint storeVals (vals : list (option aarg)) (start : nat) (args : list aarg) : option (list (option aarg)) :=
  match args with
  | [] => Some vals
  | a :: l =>
      if start <? length vals
      then storeVals (firstn start vals ++ Some a :: skipn (S start) vals) (S start) l
      else None
  end.

(** Choosing the place and updating the free spaces (lines 161-207): the new maps, _idArrayCount and bestStart. *)
Definition takeSpace (c : comp) (n : nat) (black : list nat) (best : option (nat * nat)) : aout (smap * smap * nat * nat) :=
  match best with
  | Some (bs, be) =>
      (* use available space *)
      if be - bs + 1 =? n
      then AOk (mdel bs (c_start c), mdel be (c_end c), c_count c, bs)
      else match mget be (c_end c) with
           | None => AThrow
           | Some _ => AOk (mset (bs + n) be (mdel bs (c_start c)), mset be (bs + n) (c_end c), c_count c, bs)
           end
  | None =>
      let brandNew := AOk (c_start c, c_end c, c_count c + n, c_count c - 1) in
      (* is there free space at the end?  When _idArrayCount is 1 the subtraction wraps around and nothing is found. *)
      match (if c_count c <=? 1 then None else mget (c_count c - 1 - 1) (c_end c)) with
      | None => brandNew
      | Some s =>
          if blackFrom black s then brandNew
          else
            let lastSize := c_count c - 1 - 1 - s + 1 in
            if n <? lastSize then AWrap
            else AOk (mdel s (c_start c), mdel (c_count c - 1 - 1) (c_end c), c_count c + (n - lastSize), s)
      end
  end.

(** reserveArraySpace (lines 100-217). *)
Definition reserve (c : comp) (args : list aarg) : aout (comp * nat) :=
  if length args =? 0 then AOk (c, 0)
  else
    let black := blackList args in
    abind (bestFit (c_vals c) args black (rev (c_start c)) None 0) (fun best =>
    abind (takeSpace c (length args) black best) (fun r =>
      let '(fs, fe, count, start) := r in
      match storeVals (c_vals c) start args with
      | None => AOut
      | Some vals => AOk (mkComp fs fe vals count, start)
      end)).
End Reserve.

(** ** Histories: what CodeHandler::reduceTemporaryVariables does with the arrays (code_handler_impl.hpp 1672-1712, either dense or
    sparse arrays): spaces are released and reserved, the place of an array is its _varId minus one. *)
Inductive aev : Type :=
| EReserve (a : nat) (args : list aarg)
| EFree (a : nat) (size : nat).

Record ast : Type := mkAst { a_comp : comp; a_place : nat -> nat }.

Definition setPlace (f : nat -> nat) (a p : nat) : nat -> nat := fun b => if b =? a then p else f b.

Definition astep (ndef : nat -> nexp) (s : ast) (e : aev) : aout ast :=
  match e with
  | EReserve a args =>
      abind (reserve ndef (a_place s) (a_comp s) args) (fun r => AOk (mkAst (fst r) (setPlace (a_place s) a (snd r))))
  | EFree a size => AOk (mkAst (addFree (a_comp s) (a_place s a) size) (a_place s))
  end.

Fixpoint arun (ndef : nat -> nexp) (s : ast) (h : list aev) : aout ast :=
  match h with
  | [] => AOk s
  | e :: h' => abind (astep ndef s e) (fun s' => arun ndef s' h')
  end.

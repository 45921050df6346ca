(** * Index patterns

    Models include/cppad/cg/patterns/index/: linear_index_pattern.hpp, sectioned_index_pattern.hpp, plane_2d_index_pattern.hpp,
    random_1d_index_pattern.hpp, index_pattern_impl.hpp; and their C text: lang/c/language_c_index_patterns.hpp.

    Simplifications:
    - long and size_t values are integers of unlimited size (the text is evaluated with 64-bit unsigned arithmetic in Index_spec.v);
      a size_t which the code converts to long (e.g. an offset computed with wrap-around) is its signed value;
    - a std::map is the list of its pairs in ascending order of keys; an iterator is a position in that list;
    - memory management is left out. *)
From Coq Require Import List Bool Arith ZArith.
From Verif Require Import Graph_model Codegen_model CSyntax.
Import ListNotations.
Local Open Scope Z_scope.

(** LinearIndexPattern (linear_index_pattern.hpp 24-41) *)
Record lin : Type := mkLin { l_xo : Z; l_dy : Z; l_dx : Z; l_b : Z }.
(** evaluate (76-78) *)
Definition evalLin (l : lin) (x : Z) : Z := Z.quot (x - l_xo l) (l_dx l) * l_dy l + l_b l.

(** ** std::map with size_t keys *)
Section Map.
Context {A : Type}.
Fixpoint mput (k : Z) (a : A) (l : list (Z * A)) : list (Z * A) :=
  match l with
  | [] => [(k, a)]
  | (k', a') :: l' => if k <? k' then (k, a) :: l else if k =? k' then (k, a) :: l' else (k', a') :: mput k a l'
  end.
Fixpoint mget (k : Z) (l : list (Z * A)) : option A :=
  match l with [] => None | (k', a) :: l' => if k =? k' then Some a else mget k l' end.
End Map.

(** ** Detection of linear sections (sectioned_index_pattern.hpp 60-119 for vectors, 121-205 for maps)

    Both functions have the same main loop; [px i]/[py i] are the i-th point ([px i] = i for a vector), [n] the number of
    points, and [fit i] the pattern fitted from point i on with the position where it ends. *)
Section Sections.
Variable n : nat.
Variables px py : nat -> Z.
Variable fit : nat -> lin * nat.

(** setLinearSlopeDy(0), setLinearConstantTerm(bb) *)
Definition mkConst (p : lin) (bb : Z) : lin := mkLin (l_xo p) 0 (l_dx p) bb.

(** can we take elements out of the previous section? (94-104; 173-191) *)
Fixpoint takeBack (prevStart : nat) (prev : lin) (b : Z) (start : nat) : nat * lin :=
  match start with
  | 0%nat => (start, prev)
  | S k => if evalLin prev (px k) =? b
           then takeBack prevStart (if Nat.eqb (S prevStart) k then mkConst prev (evalLin prev (px prevStart)) else prev) b k
           else (start, prev)
  end.

(** the while loop; [prev] is prevXStart/prevStart and prevPattern (a pointer into [secs]).  [None]: over the limit *)
Fixpoint sectionLoop (fuel : nat) (maxCount : nat) (secs : list (Z * lin)) (prev : option (nat * lin)) (start : nat)
  : outcome (list (Z * lin)) :=
  if Nat.eqb start n then Done secs
  else match fuel with
  | 0%nat => Fuel
  | S fuel =>
    let (p, last) := fit start in
    let '(start', secs') :=
      match prev with
      | Some (ps, pp) =>
          if l_dy p =? 0 then let (s', pp') := takeBack ps pp (l_b p) start in (s', mput (px ps) pp' secs) else (start, secs)
      | None => (start, secs)
      end in
    let secs'' := mput (px start') p secs' in
    if Nat.eqb (length secs'') maxCount && negb (Nat.eqb last n) then Done []
    else sectionLoop fuel maxCount secs'' (Some (start', p)) last
  end.
End Sections.

(** points of a vector *)
Section Vec.
Variable v : list Z.
Definition vx (i : nat) : Z := Z.of_nat i.
Definition vy (i : nat) : Z := nth i v 0.
(** for loop (81-86) *)
Fixpoint vbreak (dy b : Z) (x k : nat) : nat :=
  match k with
  | 0%nat => length v
  | S k => if negb (vy x =? dy * vx x + b) then x else vbreak dy b (S x) k
  end.
(** (72-91) *)
Definition vfit (i : nat) : lin * nat :=
  if Nat.eqb (S i) (length v) then (mkLin 0 0 1 (vy i), S i)
  else let dy := vy (S i) - vy i in let b := vy i - dy * vx i in
       (mkLin 0 dy 1 b, vbreak dy b (S (S i)) (length v - S (S i))).
Definition detectSectionsVec (fuel maxCount : nat) : outcome (list (Z * lin)) :=
  sectionLoop (length v) vx vfit fuel maxCount [] None 0.
End Vec.

(** points of a map *)
Section FromMap.
Variable m : list (Z * Z).
Definition mx (i : nat) : Z := fst (nth i m (0, 0)).
Definition my (i : nat) : Z := snd (nth i m (0, 0)).
(** for loop (159-166) *)
Fixpoint mbreak (p : lin) (i k : nat) : nat :=
  match k with
  | 0%nat => length m
  | S k => if negb (my i =? evalLin p (mx i)) then i else mbreak p (S i) k
  end.
(** (133-168) *)
Definition mfit (i : nat) : lin * nat :=
  if Nat.eqb (S i) (length m) then (mkLin 0 0 1 (my i), S i)
  else let dy := my (S i) - my i in
       let p := if negb (dy =? 0)
                then let dx := mx (S i) - mx i in let xo := Z.rem (mx i) dx in
                     mkLin xo dy dx (my i - Z.quot (mx i - xo) dx * dy)
                else mkLin 0 dy 1 (my i) in
       (p, mbreak p (S i) (length m - S i)).
Definition detectSectionsMap (fuel maxCount : nat) : outcome (list (Z * lin)) :=
  sectionLoop (length m) mx mfit fuel maxCount [] None 0.
End FromMap.

(** ** Patterns *)
Inductive ipat : Type :=
 | PLin (l : lin)
 | PSec (s : list (Z * lin))                     (* SectionedIndexPattern; only linear sections are ever made *)
 | PRand1 (m : list (Z * Z)).                    (* Random1DIndexPattern *)

Definition maxSections (n : nat) : nat := Nat.min (Nat.max 3 (Nat.div n 4)) 8.
(** size 1: the section itself; otherwise a sectioned pattern *)
Definition ofSections (s : list (Z * lin)) : ipat := match s with [(_, l)] => PLin l | _ => PSec s end.

(** IndexPattern::detect (index_pattern_impl.hpp 21-35, 37-51); [Bad]: an assertion fails (no points) *)
Definition detectVec (fuel : nat) (v : list Z) : outcome ipat :=
  match v with
  | [] => Bad
  | _ => obind (detectSectionsVec v fuel (maxSections (length v))) (fun s =>
         Done (match s with [] => PRand1 (combine (map vx (seq 0 (length v))) v) | _ => ofSections s end))
  end.
Definition detectMap (fuel : nat) (m : list (Z * Z)) : outcome ipat :=
  match m with
  | [] => Bad
  | _ => obind (detectSectionsMap m fuel (maxSections (length m))) (fun s =>
         Done (match s with [] => PRand1 m | _ => ofSections s end))
  end.

(** Plane2DIndexPattern: z = f1(x) + f2(y), a null pointer stands for 0 *)
Definition plane : Type := (option ipat * option ipat)%type.

(** the loop which looks for a single y (91-106): the map x -> z, or [] when there is none *)
Fixpoint singleY (y : Z) (l : list (Z * list (Z * Z))) (acc : list (Z * Z)) : outcome (list (Z * Z)) :=
  match l with
  | [] => Done acc
  | (x, [(y', z)]) :: l' => if y =? y' then singleY y l' (mput x z acc) else Done []
  | _ => Done []
  end.
(** offsets of one x (126-136); [None]: does not fit *)
Fixpoint offsetsOf (z0 : Z) (l : list (Z * Z)) (off : list (Z * Z)) : option (list (Z * Z)) :=
  match l with
  | [] => Some off
  | (y, z) :: l' =>
      match mget y off with
      | None => offsetsOf z0 l' (mput y (z - z0) off)
      | Some o => if o =? z - z0 then offsetsOf z0 l' off else None
      end
  end.
(** (114-139) *)
Fixpoint startsOffsets (l : list (Z * list (Z * Z))) (st off : list (Z * Z)) : outcome (option (list (Z * Z) * list (Z * Z))) :=
  match l with
  | [] => Done (Some (st, off))
  | (x, yz) :: l' =>
      match yz with
      | [] => Bad                                                    (* y2z.begin()->second of an empty map *)
      | (_, z0) :: _ =>
          match offsetsOf z0 yz off with
          | None => Done None
          | Some off' => startsOffsets l' (mput x z0 st) off'
          end
      end
  end.
(** detectPlane2D (78-190) *)
Definition detectPlane2D (fuel : nat) (l : list (Z * list (Z * Z))) : outcome (option plane) :=
  match l with
  | [] => Bad
  | [(_, y2z)] => obind (detectMap fuel y2z) (fun p => Done (Some (None, Some p)))
  | (_, []) :: _ => Bad
  | (_, (y, _) :: _) :: _ =>
    obind (singleY y l []) (fun x2z =>
    match x2z with
    | _ :: _ => obind (detectMap fuel x2z) (fun p => Done (Some (Some p, None)))
    | [] =>
      obind (startsOffsets l [] []) (fun so =>
      match so with
      | None => Done None
      | Some (st, off) =>
        obind (detectSectionsMap st fuel 2) (fun ss =>
        match ss with
        | [] => Done None
        | _ =>
          obind (detectSectionsMap off fuel 2) (fun so =>
          match so with
          | [] => Done None
          | _ =>
            Done (Some (match ofSections ss, ofSections so with
                        | PLin fx, PLin fy =>
                            if (l_dy fx =? 0) && (l_dy fy =? 0)
                            then (Some (PLin (mkLin (l_xo fx) 0 (l_dx fx) (l_b fx + l_b fy))), None)
                            else (Some (PLin fx), Some (PLin fy))
                        | fx, fy => (Some fx, Some fy)
                        end))
          end)
        end)
      end)
    end)
  end.

(** ** The C text (language_c_index_patterns.hpp 203-319): tokens; [AIdx k] is the name of the k-th index, [ATab t k] is
    "name[index]" with the static array [t] declared for the pattern (56-83, 114-126). *)
Inductive iatom : Type := AIdx (k : nat) | ANum (z : Z) | ATab (t : list Z) (k : nat).
Notation itok := (tok iatom).
(** operator<< of a long *)
Definition num (z : Z) : list itok := if z <? 0 then [TOp Minus; TAtom (ANum (- z))] else [TAtom (ANum z)].

(** linearIndexPattern2String (283-319) *)
Definition linText (l : lin) (k : nat) : list itok :=
  (if negb (l_dy l =? 0)
   then (if negb (l_xo l =? 0) then [TLP; TAtom (AIdx k); TOp Minus] ++ num (l_xo l) ++ [TRP] else [TAtom (AIdx k)])
        ++ (if negb (l_dx l =? 1) then TOp Slash :: num (l_dx l) else [])
        ++ (if negb (l_dy l =? 1) then TOp Star :: num (l_dy l) else [])
   else if l_b l =? 0 then [TAtom (ANum 0)] else [])
  ++ (if negb (l_b l =? 0) then (if negb (l_dy l =? 0) then [TOp Plus] else []) ++ num (l_b l) else []).

(** sectioned (213-233): (i<x1)? f0: (i<x2)? f1: f2 *)
Fixpoint secText (l : lin) (rest : list (Z * lin)) (k : nat) : list itok :=
  match rest with
  | [] => linText l k
  | (x, l') :: r => [TLP; TAtom (AIdx k); TOp Lt] ++ num x ++ [TRP; TQuest] ++ linText l k ++ TColon :: secText l' r k
  end.

(** the array declared for a Random1D pattern (66-73) *)
Definition randTable (m : list (Z * Z)) : list Z :=
  match rev m with
  | [] => []
  | (x, _) :: _ => map (fun i => match mget (Z.of_nat i) m with Some y => y | None => 0 end) (seq 0 (Z.to_nat (x + 1)))
  end.

Definition patText (p : ipat) (k : nat) : outcome (list itok) :=
  match p with
  | PLin l => Done (linText l k)
  | PSec ((_, l) :: r) => Done (secText l r k)
  | PSec [] => Bad
  | PRand1 m => Done [TAtom (ATab (randTable m) k)]
  end.
(** plane (235-254); index 0 and the last index *)
Definition planeText (p : plane) : outcome (list itok) :=
  match p with
  | (Some p1, Some p2) => obind (patText p1 0) (fun t1 => obind (patText p2 1) (fun t2 =>
                          Done (TLP :: t1 ++ [TRP; TOp Plus; TLP] ++ t2 ++ [TRP])))
  | (Some p1, None) => patText p1 0
  | (None, Some p2) => patText p2 1
  | (None, None) => Bad
  end.

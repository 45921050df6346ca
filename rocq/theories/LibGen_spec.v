(** * What a library created from models must contain

    Only names and settings are used here; nothing refers to how the sources are generated or compiled. *)
From Coq Require Import List Bool Arith String Ascii.
From Verif Require Import LibGen_model.
Import ListNotations.
Local Open Scope string_scope.
Local Open Scope nat_scope.

(** The name of the first function is "sparse_" and the name of the second. *)
Inductive sparseOf : fn -> fn -> Prop :=
 | SoJac : sparseOf FSJac FJac
 | SoHes : sparseOf FSHes FHes
 | SoFor1 : sparseOf FSFor1 FFor1
 | SoRev1 : sparseOf FSRev1 FRev1
 | SoRev2 : sparseOf FSRev2 FRev2.

(** The functions a model has in the library, according to its settings. *)
Definition creates (s : cfg) (f : fn) : bool :=
  match f with
  | FZero => zero s | FJac => jac s | FHes => hes s
  | FFor1 | FSFor1 | FFor1Sp => for1 s
  | FRev1 | FSRev1 | FRev1Sp => rev1 s
  | FRev2 | FSRev2 | FRev2Sp => rev2 s
  | FSJac => sjac s | FSHes => shes s
  | FJacSp => sjac s || for1 s || rev1 s
  | FHesSp => shes s || rev2 s
  | FHesSp2 => (shes s || rev2 s) && (byEq s || rev2 s)
  | FInfo | FAtomics => true
  | FFor1J j => for1 s && isIn (jcols s) j
  | FRev1I i => rev1 s && isIn (jrows s) i
  | FRev2J j => rev2 s && isIn (hrows s) j
  end.
(** The functions written from operation graphs, which are divided when they have too many assignments. *)
Definition divided (s : cfg) (f : fn) : bool :=
  match f with
  | FZero | FJac | FHes | FFor1J _ | FRev1I _ | FRev2J _ => true
  | FSJac => negb (jacReuses s) | FSHes => negb (hesReuses s)
  | _ => false
  end.
(** A function or one of its parts is in a source of its own. *)
Definition hasSource (s : cfg) (f : fn) (p : part) : Prop :=
  creates s f = true /\
  match p with PWhole => True | PPart k => divided s f = true /\ 1 <= k <= parts s f | PWrap => False end.

(** Two models of one library whose functions have the same names: the name of one is the name of the other followed by
    "_sparse", and they create a pair of functions such as sparse_jacobian and jacobian. *)
Definition clash (n1 : string) (s1 : cfg) (n2 : string) (s2 : cfg) : Prop :=
  n2 = n1 ++ "_sparse" /\ exists f g, sparseOf f g /\ creates s1 f = true /\ creates s2 g = true.

(** The settings of the models of a library. *)
Definition settings (w : world) : list (string * cfg) := map (fun nm => (fst nm, m_cfg (snd nm))) (w_models w).
(** The threads of a library: those asked for, if a model uses them. *)
Definition threadsUsed (w : world) : mt :=
  if existsb (fun ns => multi (snd ns) && ((sjac (snd ns) && reuse1 (snd ns) && (for1 (snd ns) || rev1 (snd ns)))
                                           || (shes (snd ns) && reuse2 (snd ns) && rev2 (snd ns)))) (settings w)
  then w_mt w else MtNone.

(** The sources of a library. *)
Inductive wanted (w : world) : string -> content -> Prop :=
 | WModel n s f p : In (n, s) (settings w) -> hasSource s f p -> wanted w (cfile n f p) (CModel n f p s (w_mt w))
 | WLib l : (l = LPool -> threadsUsed w <> MtNone) ->
            wanted w (libFileName l) (CLib l (map fst (settings w)) (threadsUsed w))
 | WCustom n c : In (n, c) (w_custom w) -> wanted w n c.

(** No two models clash, the elements which have a function are a set, and the custom sources have names and symbols of
    their own. *)
Definition settingsOk (s : cfg) : Prop := NoDup (jcols s) /\ NoDup (jrows s) /\ NoDup (hrows s).
Record namesOk (w : world) : Prop := mkNamesOk {
  ok_clash : forall n1 s1 n2 s2, In (n1, s1) (settings w) -> In (n2, s2) (settings w) -> ~ clash n1 s1 n2 s2;
  ok_settings : forall n s, In (n, s) (settings w) -> settingsOk s;
  ok_files : forall n, In n (map fst (w_custom w)) ->
    (forall m s f p, In (m, s) (settings w) -> hasSource s f p -> n <> cfile m f p) /\ (forall l, n <> libFileName l)
}.
(** The symbols of the sources which were not added by the user. *)
Definition ownSymbol (w : world) (x : string) : Prop :=
  (exists n s f p, In (n, s) (settings w) /\ x = cname n f p) \/
  (exists l, In x (defs (CLib l [] (threadsUsed w)))).
Record symbolsOk (w : world) : Prop := mkSymbolsOk {
  ok_custom : NoDup (flat_map (fun nc => defs (snd nc)) (w_custom w));
  ok_own : forall n c x, In (n, c) (w_custom w) -> In x (defs c) -> ~ ownSymbol w x
}.

(** ** Histories *)

(** Settings and threads are chosen before the first sources are generated, the models are not shared with a library with
    other threads, and no exception is thrown while sources are generated.  Models may be added at any time. *)
Fixpoint orderly (generated : bool) (t : mt) (ops : list op) : Prop :=
  match ops with
  | [] => True
  | OpSet _ _ :: r => generated = false /\ orderly generated t r
  | OpAddModel _ _ :: r | OpCustom _ _ _ :: r => orderly generated t r
  | OpThreads t' :: r => generated = false /\ orderly generated t' r
  | OpSources _ t' :: r => t' = t /\ orderly true t r
  | OpCreate _ crash _ :: r => (forall n, crash n = None) /\ orderly true t r
  end.
(** The temporary folders of a history. *)
Fixpoint folders (ops : list op) : list string :=
  match ops with [] => [] | OpCreate tmp _ _ :: r => tmp :: folders r | _ :: r => folders r end.

(** What FunctorGenericModel reports for a model with these settings. *)
Definition reported (s : cfg) : avail :=
  mkAvail (zero s) (jac s) (hes s) (for1 s) (for1 s) (rev1 s) (rev1 s) (rev2 s) (rev2 s) (sjac s) (shes s)
          (sjac s || for1 s || rev1 s) (shes s || rev2 s) ((shes s || rev2 s) && (byEq s || rev2 s)).

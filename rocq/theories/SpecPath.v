(** Specification of navigation: a path is a list of steps; locations, divergence, path texts. *)
From Verif Require Import Base F64 Json Path SpecGrammar.

(** The steps of a path, in order. *)
Fixpoint steps (p : path) : list finder :=
  match p with PEnd f => [f] | PNext f q => f :: steps q end.

(** One step down: the member with a key (of several, the last in the document), the element at an index. *)
Definition step (f : finder) (j : json) : option json :=
  match f, j with
  | Key k, JObj o => option_map (fun e => fst (snd e)) (find (fun e => str_eqb k (fst e)) o)
  | Index i, JArr v => if i <? N.of_nat (List.length v) then nth_error v (N.to_nat i) else None
  | _, _ => None
  end.
(** All values of one key, in document order (none if absent or not an object). *)
Definition values_at (k : str) (j : json) : list json :=
  match j with
  | JObj o => match find (fun e => str_eqb k (fst e)) o with Some (_, (v, l)) => rev l ++ [v] | None => [] end
  | _ => []
  end.
Fixpoint walk (p : list finder) (j : json) : option json :=
  match p with
  | [] => Some j
  | f :: q => match step f j with Some y => walk q y | None => None end
  end.

(** The kind of error the first impossible step gives. *)
Definition step_error (f : finder) (j : json) : error_kind :=
  match f, j with
  | Key _, JObj _ => MissingKey
  | Index _, JArr _ => IndexOutOfRange
  | _, _ => InvalidValueKind
  end.

Definition same_sort (f g : finder) : bool :=
  match f, g with Key _, Key _ | Index _, Index _ => true | _, _ => false end.

(** [q] leaves [p] at a different step of the same sort (another member, another element). *)
Definition diverges (p q : list finder) : Prop :=
  exists c a b p' q', p = c ++ a :: p' /\ q = c ++ b :: q' /\ a <> b /\ same_sort a b = true.

(** Setting at [p] would have to create an array element at an index of at least [vmax], the largest length of a [Vec]. *)
Definition overflows (vmax : N) (p : list finder) (j : json) : Prop :=
  exists c i d, p = c ++ Index i :: d /\ vmax <= i /\ walk (c ++ [Index i]) j = None.

(** The elements of an array (none if it is not one). *)
Definition elements_of (j : json) : list json := match j with JArr v => v | _ => [] end.
(** What is at a location, null if nothing is. *)
Definition found (p : list finder) (j : json) : json := match walk p j with Some y => y | None => JNull end.

(** ** Path texts.  [Seg raw c]: the raw segment [raw] writes the content [c]; a backslash before a
    dot makes the dot literal. *)
Inductive Seg : str -> str -> Prop :=
| seg_nil : Seg [] []
| seg_dot raw c : Seg raw c -> Seg (92 :: 46 :: raw) (46 :: c)
| seg_char x raw c : x <> 46 -> Seg raw c -> Seg (x :: raw) (x :: c).
Definition ends_in_backslash (c : str) : Prop := exists r, c = r ++ [92].
(** Segments joined by dots; a segment before a dot cannot end in a backslash (it would escape the dot). *)
Inductive PathText : str -> list str -> Prop :=
| pt_last raw c : Seg raw c -> PathText raw [c]
| pt_cons raw c s cs : Seg raw c -> ~ ends_in_backslash c -> PathText s cs -> PathText (raw ++ [46] ++ s) (c :: cs).

(** A decimal [usize] (64 bit), optionally signed plus. *)
Definition usize_text (s : str) (n : N) : Prop :=
  exists ds, ds <> [] /\ Forall digit ds /\ (s = ds \/ s = 43 :: ds) /\ n = decimal ds /\ n < 2 ^ 64.
(** The step a content denotes: # and a number an index, otherwise a key, without its leading backslash if any. *)
Inductive StepText : str -> finder -> Prop :=
| st_index s n : usize_text s n -> StepText (35 :: s) (Index n)
| st_escaped k : StepText (92 :: k) (Key k)
| st_plain k : (forall r, k <> 35 :: r) -> (forall r, k <> 92 :: r) -> StepText k (Key k).

(** The step lists some path text denotes. *)
Fixpoint expressible (l : list finder) : Prop :=
  match l with
  | [] => False
  | [f] => match f with Key _ => True | Index n => n < 2 ^ 64 end
  | f :: r => match f with Key k => ~ ends_in_backslash k | Index n => n < 2 ^ 64 end /\ expressible r
  end.
(** Some segment of the path text starts with # but is not followed by a number. *)
Definition bad_segment (s : str) : Prop := exists cs t, PathText s cs /\ In (35 :: t) cs /\ ~ exists n, usize_text t n.

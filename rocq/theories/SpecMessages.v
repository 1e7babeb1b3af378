(** The error texts of lookups and edits, written out. *)
From Verif Require Import Base F64 Json Path SpecGrammar SpecValue SpecPath.

(** [ds] is [i] written in decimal without superfluous zeros. *)
Definition written (i : N) (ds : str) : Prop := Int ds /\ decimal ds = i.

(** The value is of another kind than the operation needs. *)
Definition wrong_value (want : string) (j : json) (e : error) : Prop :=
  kind e = InvalidValueKind /\ msg e = lit "invalid value kind, expect " ++ lit want ++ lit ", got " ++ lit (kind_word j) ++ lit ".".
Definition no_such_key (k : str) (e : error) : Prop := kind e = MissingKey /\ msg e = lit "missing key """ ++ k ++ lit """.".
Definition no_such_index (i : N) (e : error) : Prop :=
  kind e = IndexOutOfRange /\ exists ds, written i ds /\ msg e = lit "index " ++ ds ++ lit " out of range.".
(** The error of a step that is impossible at a value. *)
Definition step_fault (f : finder) (j : json) (e : error) : Prop :=
  match f, j with
  | Key k, JObj _ => no_such_key k e
  | Index i, JArr _ => no_such_index i e
  | Key k, _ => kind e = InvalidValueKind /\
      msg e = lit "find value by key """ ++ k ++ lit """ error: invalid value kind, expect object, got " ++ lit (kind_word j) ++ lit "."
  | Index i, _ => kind e = InvalidValueKind /\ exists ds, written i ds /\
      msg e = lit "find value by index " ++ ds ++ lit " error: invalid value kind, expect array, got " ++ lit (kind_word j) ++ lit "."
  end.
(** A lookup of the steps [p] in [j] fails with [e]: the error is that of the first impossible step. *)
Definition lookup_fault (p : list finder) (j : json) (e : error) : Prop :=
  exists c f d y, p = c ++ f :: d /\ walk c j = Some y /\ step f y = None /\ step_fault f y e.
(** The path text is faulty: empty, or its first faulty segment is # without a number. *)
Definition path_fault (s : str) (e : error) : Prop :=
  kind e = PathSyntaxError /\
  ((s = [] /\ msg e = lit "invalid syntax: empty path.") \/
   (s <> [] /\ exists cs t ds, PathText s (cs ++ (35 :: t) :: ds) /\ (forall n, ~ usize_text t n) /\
      (forall u, In (35 :: u) cs -> exists n, usize_text u n) /\ msg e = lit "error parsing """ ++ t ++ lit """ to usize.")).

(** When two in-memory values are the same value: a hash map has no order, so two objects are the same
    if their entries agree up to a permutation, at every level. *)
From Verif Require Import Base F64 Json.
From Coq Require Import Permutation.

Inductive same : json -> json -> Prop :=
| same_obj o p o' : Permutation o p ->
    Forall2 (fun e e' => fst e = fst e' /\ same (fst (snd e)) (fst (snd e')) /\ Forall2 same (snd (snd e)) (snd (snd e'))) p o' ->
    same (JObj o) (JObj o')
| same_arr v v' : Forall2 same v v' -> same (JArr v) (JArr v')
| same_str s : same (JStr s) (JStr s)
| same_num f : same (JNum f) (JNum f)
| same_bool b : same (JBool b) (JBool b)
| same_null : same JNull JNull.

(** What a hash map guarantees: no key occurs twice in one object. *)
Inductive unique_keys : json -> Prop :=
| uk_obj o : NoDup (map fst o) ->
    Forall (fun e => unique_keys (fst (snd e)) /\ Forall unique_keys (snd (snd e))) o -> unique_keys (JObj o)
| uk_arr v : Forall unique_keys v -> unique_keys (JArr v)
| uk_str s : unique_keys (JStr s)
| uk_num f : unique_keys (JNum f)
| uk_bool b : unique_keys (JBool b)
| uk_null : unique_keys JNull.

(** An equal string in ascending order: byte-wise comparison of the UTF-8 encodings is comparison of code points
    (proved in [Utf8Proofs.utf8_order]). *)
Definition ascending (ks : list str) : Prop :=
  forall i j a b, (i < j)%nat -> nth_error ks i = Some a -> nth_error ks j = Some b -> str_cmp a b = Lt.

(** What a [Json] in memory can be, its maps in any order: no key twice in an object, strings of Unicode scalar values,
    numbers that are doubles. *)
Inductive legal : json -> Prop :=
| legal_obj o : NoDup (map fst o) ->
    Forall (fun e => scalar_str (fst e) = true /\ legal (fst (snd e)) /\ Forall legal (snd (snd e))) o -> legal (JObj o)
| legal_arr v : Forall legal v -> legal (JArr v)
| legal_str s : scalar_str s = true -> legal (JStr s)
| legal_num f : valid_f64 f = true -> legal (JNum f)
| legal_bool b : legal (JBool b)
| legal_null : legal JNull.

(** The word for each kind of value. *)
Definition kind_word (j : json) : string :=
  match j with
  | JNull => "null" | JBool _ => "boolean" | JNum _ => "number" | JStr _ => "string" | JArr _ => "array" | JObj _ => "object"
  end.

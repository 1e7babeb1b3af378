(** Object and array operations, src/lib.rs 157-262 and 992-1009.  A function on [&mut self] returns
    the new value beside its result.  Values of type [V: ToJson] are passed as the [Json] they convert to, keys of type
    [K: ToString] as the string. *)
From Verif Require Import Base F64 Json.

(** The errors of src/lib.rs 177, 188, 199, 214, 225, 244. *)
Definition wrong_kind {A} (want : str) (j : json) : res A :=
  fail InvalidValueKind (lit "invalid value kind, expect " ++ want ++ lit ", got " ++ kind_name j ++ lit ".").

(** src/lib.rs 166-179 [add_option] *)
Definition add_option (j : json) (k : str) (v : json) (append : bool) : json * res unit :=
  match j with
  | JObj o => (JObj (if append then object_insert o k v else hm_insert k (v, []) o), Ok tt)
  | _ => (j, wrong_kind (lit "object") j)
  end.
(** src/lib.rs 158-160 [insert], 162-164 [append] *)
Definition insert (j : json) (k : str) (v : json) := add_option j k v false.
(** src/lib.rs 162-164 [append] *)
Definition append (j : json) (k : str) (v : json) := add_option j k v true.
(** src/lib.rs 181-190 [delete] *)
Definition delete (j : json) (k : str) : json * res unit :=
  match j with
  | JObj o => (JObj (hm_remove k o), Ok tt)
  | _ => (j, wrong_kind (lit "object") j)
  end.
(** src/lib.rs 192-201 [push] *)
Definition push (j : json) (e : json) : json * res unit :=
  match j with
  | JArr v => (JArr (v ++ [e]), Ok tt)
  | _ => (j, wrong_kind (lit "array") j)
  end.

(** std: [vec[i] = x], used at src/lib.rs 203-216 *)
Fixpoint vec_set (i : nat) (x : json) (v : list json) : list json :=
  match v, i with
  | [], _ => []
  | _ :: r, O => x :: r
  | y :: r, S i' => y :: vec_set i' x r
  end.
(** [Vec::remove] on an index in range, used at src/lib.rs 218-227 *)
Fixpoint vec_remove (i : nat) (v : list json) : list json :=
  match v, i with
  | [], _ => []
  | _ :: r, O => r
  | y :: r, S i' => y :: vec_remove i' r
  end.
(** A [usize] index against a [Vec]: [vec.get(i)] without turning a huge index into a [nat]. Used at src/lib.rs 203-227, 1183-1323. *)
Definition vlen (v : list json) : N := N.of_nat (List.length v).
(** std: [Vec::get], used at src/lib.rs 203-216, 1183-1323 *)
Definition vec_get (i : N) (v : list json) : option json :=
  if i <? vlen v then nth_error v (N.to_nat i) else None.

(** src/lib.rs 203-216 [replace] *)
Definition replace (j : json) (i : N) (x : json) : json * res unit :=
  match j with
  | JArr v =>
      match vec_get i v with
      | Some _ => (JArr (vec_set (N.to_nat i) x v), Ok tt)
      | None => (j, fail IndexOutOfRange (lit "index " ++ show_N i ++ lit " out of range."))
      end
  | _ => (j, wrong_kind (lit "array") j)
  end.
(** src/lib.rs 218-227 [remove]; [Vec::remove] panics when out of range *)
Definition remove (j : json) (i : N) : json * res unit :=
  match j with
  | JArr v => if i <? vlen v then (JArr (vec_remove (N.to_nat i) v), Ok tt) else (j, Panic)
  | _ => (j, wrong_kind (lit "array") j)
  end.
(** src/lib.rs 229-245 [index_and_merge] *)
Definition missing_key {A} (k : str) : res A :=
  fail MissingKey (lit "missing key """ ++ k ++ lit """.").
(** src/lib.rs 229-246 [index_and_merge] *)
Definition index_and_merge (j : json) (k : str) : res (list json) :=
  match j with
  | JObj o => match hm_get k o with
              | Some (js, l) => Ok (rev l ++ [js])
              | None => missing_key k
              end
  | _ => wrong_kind (lit "object") j
  end.

(** src/lib.rs 992-1009: the [object!] and [array!] macros *)
Definition object_macro (l : list (str * json)) : json :=
  fold_left (fun j kv => fst (append j (fst kv) (snd kv))) l (JObj []).
(** src/lib.rs 1002-1009 [array!] *)
Definition array_macro (l : list json) : json :=
  JArr (fold_left (fun v x => v ++ [x]) l []).

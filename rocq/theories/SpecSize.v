(** How much a text, a value and a path hold. *)
From Verif Require Import Base F64 Json Path.
Local Open Scope nat_scope.

(** The length of a text in bytes, [str::len]: UTF-8 takes one to four bytes for a character. *)
Definition char_bytes (c : N) : nat :=
  if (c <? 0x80)%N then 1 else if (c <? 0x800)%N then 2 else if (c <? 0x10000)%N then 3 else 4.
Definition bytes (s : str) : nat := list_sum (map char_bytes s).

(** How much a value holds: one for every value in it and for every member, and the bytes of all strings and of the key of every member.  (A key with
    several values counts with each.) *)
Fixpoint weight (j : json) : nat :=
  match j with
  | JObj o => S (list_sum (map (fun e =>
      (1 + bytes (fst e) + weight (fst (snd e))) + list_sum (map (fun v => 1 + bytes (fst e) + weight v) (snd (snd e)))) o))
  | JArr v => S (list_sum (map weight v))
  | JStr s => S (bytes s)
  | _ => 1
  end.
(** How many numbers there are in a value. *)
Fixpoint numbers (j : json) : nat :=
  match j with
  | JObj o => list_sum (map (fun e => numbers (fst (snd e)) + list_sum (map numbers (snd (snd e)))) o)
  | JArr v => list_sum (map numbers v)
  | JNum _ => 1
  | _ => 0
  end.

(** What following a path can add: a member with its key, or an array filled up to the index. *)
Definition step_weight (f : finder) : nat := match f with Key k => 2 + bytes k | Index i => 1 + N.to_nat i end.
Fixpoint path_weight (p : path) : nat := match p with PEnd f => step_weight f | PNext f q => step_weight f + path_weight q end.

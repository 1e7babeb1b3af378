(** What texts put side by side denote (C84). *)
From Verif Require Import Base F64 Json Parse SpecGrammar.

(** A text between brackets, and two texts with a comma in between. *)
Definition in_brackets (t : str) : str := [91] ++ t ++ [93].
Definition in_braces (t : str) : str := [123] ++ t ++ [125].
Definition beside (t t' : str) : str := t ++ [44] ++ t'.

(** Several texts separated by commas. *)
Fixpoint separated (t : str) (ts : list str) : str :=
  match ts with
  | [] => t
  | t' :: ts' => beside t (separated t' ts')
  end.

(** [r] holds under each key the values [o] has there, in order, and then those of [o']. *)
Definition merges (o o' r : hmap) : Prop :=
  keys_sorted r = true /\ forall k, entry_values (hm_get k r) = entry_values (hm_get k o) ++ entry_values (hm_get k o').

(** The text of one member. *)
Definition key_and_value (k v : str) : str := k ++ [58; 32] ++ v.

(** The text of exactly one element, of exactly one member. *)
Definition one_element (t : str) (v : json) : Prop := parse (in_brackets t) = Ok (JArr [v]).
Definition one_member (t : str) (m : str * json) : Prop := parse (in_braces t) = Ok (JObj [(fst m, (snd m, []))]).

(** Values of a document and the stretches of its text (C85). *)
From Verif Require Import Base F64 Json Parse Ops Path SpecGrammar.

(** [Part t w]: [t] may stand inside a container and denotes [w]: a JSON value without white space around it, whose
    strings have as many opening as closing brackets. *)
Definition Part (t : str) (w : json) : Prop := Value no_space balanced_raw true t w.

(** The value at a place, with the effect on the whole document of writing there: the document itself, or what
    [find_mut] returns. *)
Definition reach (at_ : option path) (j : json) : res (json * (json -> json)) :=
  match at_ with
  | None => Ok (j, fun y => y)
  | Some p => p_find_mut p j
  end.

(** The comma needed before a further element or member. *)
Definition comma_unless {A} (l : list A) : str := match l with [] => [] | _ => [44] end.
(** A member: raw key text, and the text of the value. *)
Definition member (raw t : str) : str := [34] ++ raw ++ [34; 58] ++ t.

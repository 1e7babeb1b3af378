(** How deep the parser recurses. *)
From Verif Require Import Base F64 Json Parse.

(** The highest level reached when the text is read from left to right: opening brackets and braces go one level up, closing ones go one
    level down, a backslash hides the character after it.  (Brackets in strings count.) *)
Fixpoint height (s : str) : Z :=
  match s with
  | [] => 0%Z
  | c :: r =>
      if c =? BSLASH then match r with _ :: r' => height r' | [] => 0%Z end
      else if (c =? LBRACK) || (c =? LBRACE) then (1 + height r)%Z
      else if (c =? RBRACK) || (c =? RBRACE) then Z.max 0 (height r - 1)%Z
      else height r
  end.
(** How deeply a value is nested: 1 for a scalar or an empty container. *)
Fixpoint nesting (j : json) : nat :=
  match j with
  | JArr v => S (fold_right (fun x n => Nat.max (nesting x) n) 0%nat v)
  | JObj o => S (fold_right (fun e n => Nat.max (Nat.max (nesting (fst (snd e))) (fold_right (fun x n => Nat.max (nesting x) n) 0%nat (snd (snd e)))) n) 0%nat o)
  | _ => 1%nat
  end.
(** [needs s n]: while [Json::parse] reads [s], at most [n] calls of the recursive parser are active at the same time, and at some point [n] are.
    ([Parse.parse_ n] is the parser in which the call number [n+1] is cut off with the result [Fuel].) *)
Definition needs (s : str) (n : nat) : Prop :=
  parse_ n (trim_ws s) <> Fuel /\ forall m, (m < n)%nat -> parse_ m (trim_ws s) = Fuel.
(** The number of opening brackets and braces in a text. *)
Definition openings (s : str) : nat := List.length (filter (fun c => (c =? LBRACK) || (c =? LBRACE)) s).

(** [==] on values: the [PartialEq] that src/lib.rs 106 derives for [Json]. *)
From Verif Require Import Base F64 Json.
From Coq Require Import Floats.SpecFloat.

(** Equality of [Vec] and of [LinkedList]: as long and equal element by element. std, for the derived [PartialEq] of src/lib.rs 107. *)
Definition list_eqb {A} (eqb : A -> A -> bool) : list A -> list A -> bool :=
  fix go l l' :=
    match l, l' with
    | [], [] => true
    | x :: r, y :: r' => eqb x y && go r r'
    | _, _ => false
    end.
(** src/lib.rs 106-114: the same variant and equal contents.  [HashMap]: as many entries, and each key of the first is one of the second
    with an equal value; the value is a pair.  [f64]: IEEE comparison. *)
Fixpoint json_eqb (j j' : json) {struct j} : bool :=
  match j, j' with
  | JObj o, JObj o' => Nat.eqb (List.length o) (List.length o') &&
      forallb (fun e => match hm_get (fst e) o' with
                        | Some (v', l') => json_eqb (fst (snd e)) v' && list_eqb json_eqb (snd (snd e)) l'
                        | None => false
                        end) o
  | JArr v, JArr v' => list_eqb json_eqb v v'
  | JStr s, JStr s' => str_eqb s s'
  | JNum f, JNum g => SFeqb f g
  | JBool b, JBool c => Bool.eqb b c
  | JNull, JNull => true
  | _, _ => false
  end.

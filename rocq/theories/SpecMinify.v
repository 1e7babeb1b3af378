(** Texts without white space between the tokens (C86). *)
From Verif Require Import Base F64 Json SpecGrammar.

Definition space (c : N) : bool := (c =? 32) || (c =? 9) || (c =? 10) || (c =? 13).
(** [squeeze q s]: [s] without the white space outside strings; [q] tells whether [s] begins inside a string. *)
Fixpoint squeeze (q : bool) (s : str) : str :=
  match s with
  | [] => []
  | c :: r =>
      if q then
        if c =? 92 then c :: match r with [] => [] | e :: r' => e :: squeeze true r' end
        else c :: squeeze (negb (c =? 34)) r
      else if space c then squeeze false r
      else c :: squeeze (c =? 34) r
  end.
Definition minified (s : str) : str := squeeze false s.

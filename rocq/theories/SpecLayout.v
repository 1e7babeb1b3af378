(** Specification: the exact text of a value, written as rules and without reference to the printer. *)
From Verif Require Import Base F64 Json SpecValue SpecNumber SpecShortest.
From Coq Require Import Permutation.
Local Open Scope N_scope.

(** A hexadecimal digit, in capitals. *)
Definition hex_capital (d c : N) : Prop := (d < 10 /\ c = 48 + d) \/ (10 <= d < 16 /\ c = 55 + d).
(** Backslash, u and the four digits of [u]. *)
Inductive unit_text (u : N) : str -> Prop :=
| unit x y z w a b c d : u = ((x * 16 + y) * 16 + z) * 16 + w ->
    hex_capital x a -> hex_capital y b -> hex_capital z c -> hex_capital w d -> unit_text u [92; 117; a; b; c; d].

(** Characters with an escape of their own: the quote, the backslash, the slash, backspace, form feed, line feed,
    carriage return and tab. *)
Definition short_escapes : list (N * N) :=
  [(34, 34); (92, 92); (47, 47); (8, 98); (12, 102); (10, 110); (13, 114); (9, 116)].

Inductive char_text : N -> str -> Prop :=
| ct_short c e : In (c, e) short_escapes -> char_text c [92; e]
| ct_plain c : ~ In c (map fst short_escapes) -> 32 <= c <= 126 -> char_text c [c]
| ct_unit c t : ~ In c (map fst short_escapes) -> c < 32 \/ 127 <= c <= 0xFFFF -> unit_text c t -> char_text c t
| ct_pair hi lo t t' : 0xD800 <= hi < 0xDC00 -> 0xDC00 <= lo < 0xE000 -> unit_text hi t -> unit_text lo t' ->
    char_text (0x10000 + (hi - 0xD800) * 0x400 + (lo - 0xDC00)) (t ++ t').

Inductive chars_text : str -> str -> Prop :=
| cs_nil : chars_text [] []
| cs_cons c s t ts : char_text c t -> chars_text s ts -> chars_text (c :: s) (t ++ ts).
Inductive string_text (s : str) : str -> Prop :=
| string_quoted t : chars_text s t -> string_text s ([34] ++ t ++ [34]).

(** Comma and space between. *)
Fixpoint listed (l : list str) : str :=
  match l with [] => [] | [t] => t | t :: r => t ++ [44; 32] ++ listed r end.

(** The members of an entry: its values oldest first, the current one last. *)
Definition entry_list (e : entry) : list (str * json) := map (pair (fst e)) (rev (snd (snd e)) ++ [fst (snd e)]).

Inductive prints : json -> str -> Prop :=
| p_null : prints JNull (lit "null")
| p_true : prints (JBool true) (lit "true")
| p_false : prints (JBool false) (lit "false")
| p_num f t : number_text f t -> prints (JNum f) t
| p_str s t : string_text s t -> prints (JStr s) t
| p_arr v ts : Forall2 prints v ts -> prints (JArr v) ([91] ++ listed ts ++ [93])
| p_obj o o' ts : Permutation o o' -> ascending (map fst o') ->
    Forall2 (fun m t => exists kt vt, string_text (fst m) kt /\ prints (snd m) vt /\ t = kt ++ [58; 32] ++ vt)
      (flat_map entry_list o') ts ->
    prints (JObj o) ([123] ++ listed ts ++ [125]).

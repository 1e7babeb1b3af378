(** The error with which each rejected text is rejected, as a declarative relation.  Texts are read left to right; the first fault decides. *)
From Verif Require Import Base F64 Json SpecGrammar SpecLenient.

Definition error_at (k : error_kind) (m : string) : error := mkError k (lit m).
(** A message around the offending character. *)
Definition error_char (k : error_kind) (m : string) (c : N) : error := mkError k (lit m ++ [c] ++ lit ".").
Definition starts_with (c : N) (s : str) : Prop := exists r, s = c :: r.

(** ** Strings.  Four hex digits were expected: the text ends or another character comes too early. *)
Inductive NoHex : str -> error -> Prop :=
| nohex_end h : (List.length h < 4)%nat -> Forall (fun c => exists d, hexdig c d) h ->
    NoHex h (error_at ParseStringError "parse unicode error: missing hex digit.")
| nohex_char h c r : (List.length h < 4)%nat -> Forall (fun c => exists d, hexdig c d) h -> (forall d, ~ hexdig c d) ->
    NoHex (h ++ c :: r) (error_char ParseStringError "parse unicode error: invalid hex digit " c).
(** A fault at the start of the text. *)
Inductive StringFault : str -> error -> Prop :=
| sf_end : StringFault [] (mkError ParseStringError [109; 105; 115; 115; 105; 110; 103; 32; 34; 46])     (* missing, a space, a quote, a dot *)
| sf_control c r : c <= 0x1F -> StringFault (c :: r) (error_at ParseStringError "invalid character.")
| sf_after w c r : ws w -> ~ ws_char c -> StringFault (34 :: w ++ c :: r) (error_char ParseStringError "invalid trailing character: " c)
| sf_backslash : StringFault [92] (error_at ParseStringError "missing escaped character.")
| sf_escape x r : x <> 117 -> (forall c, ~ simple_escape x c) -> StringFault (92 :: x :: r) (error_at ParseStringError "missing escaped character.")
| sf_hex r e : NoHex r e -> StringFault (92 :: 117 :: r) e
| sf_low h u r : four_hex h u -> 0xDC00 <= u <= 0xDFFF -> StringFault (92 :: 117 :: h ++ r) (error_at ParseStringError "invalid utf-8 encoding.")
| sf_high h u r : four_hex h u -> 0xD800 <= u <= 0xDBFF -> (forall r', r <> 92 :: 117 :: r') ->
    StringFault (92 :: 117 :: h ++ r) (error_at ParseStringError "missing low surrogate.")
| sf_high_hex h u r e : four_hex h u -> 0xD800 <= u <= 0xDBFF -> NoHex r e -> StringFault (92 :: 117 :: h ++ 92 :: 117 :: r) e
| sf_pair h u l v r : four_hex h u -> 0xD800 <= u <= 0xDBFF -> four_hex l v -> ~ (0xDC00 <= v <= 0xDFFF) ->
    StringFault (92 :: 117 :: h ++ 92 :: 117 :: l ++ r) (error_at ParseStringError "invalid low surrogate.").
(** The text after an opening quote: some faultless characters, then a fault. *)
Definition BadString (s : str) (e : error) : Prop := exists pre c rest, s = pre ++ rest /\ Chars pre c /\ StringFault rest e.

(** ** Numbers.  The text starts with an optional minus and an integer; a dot right after it is followed by a digit. *)
Definition number_start (s : str) : Prop :=
  exists (neg : bool) i r, s = (if neg then [45] else []) ++ i ++ r /\ Int i /\
    (i = [48] \/ match r with c :: _ => ~ digit c | [] => True end) /\
    (forall r', r = 46 :: r' -> exists c r'', r' = c :: r'' /\ digit c).
Inductive BadNumber : str -> error -> Prop :=
| bn_start s : ~ number_start s -> BadNumber s (error_at ParseNumberError "invalid number.")
| bn_rest s : number_start s -> (forall neg m e, ~ LaxNumber s neg m e) -> BadNumber s (error_at ParseNumberError "error parsing number value.")
| bn_large s neg m e : LaxNumber s neg m e -> is_finite (dec_to_f64 neg m e) = false -> BadNumber s (error_at ParseNumberError "error number too large.").

(** ** Values *)
Inductive Blame : str -> error -> Prop :=
| b_empty : Blame [] (error_at InvalidJson "invalid json.")
| b_other c r : ~ In c (lit "ntf-0123456789[{" ++ [34]) -> Blame (c :: r) (error_at InvalidJson "invalid json.")
| b_null r : 110 :: r <> lit "null" -> Blame (110 :: r) (error_at ParseNullError "error parsing null value.")
| b_bool c r : c = 116 \/ c = 102 -> c :: r <> lit "true" -> c :: r <> lit "false" ->
    Blame (c :: r) (error_at ParseBooleanError "error parsing boolean value.")
| b_num c r e : c = 45 \/ digit c -> BadNumber (c :: r) e -> Blame (c :: r) e
| b_str r e : BadString r e -> Blame (34 :: r) e
| b_arr r e : ~ starts_with 93 r -> BadElements r e -> Blame (91 :: r) e
| b_obj r e : ~ starts_with 125 r -> BadMembers r e -> Blame (123 :: r) e
(** What follows an opening bracket or a comma. *)
with BadElements : str -> error -> Prop :=
| be_open t p d q : Skim array_stop ws_char 0 false t p d q -> BadElements t (error_at ParseArrayError "missing ].")
| be_escape t p d q : Skim array_stop ws_char 0 false t p d q -> BadElements (t ++ [92]) (error_at ParseArrayError "missing escaped character.")
| be_last t p e r : Piece array_stop ws_char t p -> Blame p e -> BadElements (t ++ 93 :: r) e
| be_after t p v w c r : Piece array_stop ws_char t p -> LValue p v -> ws w -> ~ ws_char c ->
    BadElements (t ++ 93 :: w ++ c :: r) (error_char ParseArrayError "invalid trailing character: " c)
| be_empty t r : Piece array_stop ws_char t [] -> BadElements (t ++ 44 :: r) (error_at ParseArrayError "invalid empty element.")
| be_comma t p r : Piece array_stop ws_char t p -> p <> [] -> starts_with 93 r -> BadElements (t ++ 44 :: r) (error_at ParseArrayError "invalid trailing comma.")
| be_elem t p e r : Piece array_stop ws_char t p -> p <> [] -> ~ starts_with 93 r -> Blame p e -> BadElements (t ++ 44 :: r) e
| be_next t p v r e : Piece array_stop ws_char t p -> LValue p v -> ~ starts_with 93 r -> BadElements r e -> BadElements (t ++ 44 :: r) e
with BadMembers : str -> error -> Prop :=
| bm_key_open t p d q : Skim key_stop ws_char 0 false t p d q -> BadMembers t (error_at ParseObjectError "missing }.")
| bm_key_escape t p d q : Skim key_stop ws_char 0 false t p d q -> BadMembers (t ++ [92]) (error_at ParseObjectError "missing escaped character.")
| bm_rest tk pk s e : Piece key_stop ws_char tk pk -> BadMember pk s e -> BadMembers (tk ++ 58 :: s) e
(** What follows the colon, given the key text. *)
with BadMember : str -> str -> error -> Prop :=
| bm_open pk t p d q : Skim value_stop value_drop 0 false t p d q -> BadMember pk t (error_at ParseObjectError "missing }.")
| bm_escape pk t p d q : Skim value_stop value_drop 0 false t p d q -> BadMember pk (t ++ [92]) (error_at ParseObjectError "missing escaped character.")
| bm_last_key pk t p r : Piece value_stop value_drop t p -> (forall k, ~ LValue pk (JStr k)) ->
    BadMember pk (t ++ 125 :: r) (error_at ParseObjectError "error parsing key string.")
| bm_last pk k t p e r : Piece value_stop value_drop t p -> LValue pk (JStr k) -> Blame p e -> BadMember pk (t ++ 125 :: r) e
| bm_after pk k t p v w c r : Piece value_stop value_drop t p -> LValue pk (JStr k) -> LValue p v -> ws w -> ~ ws_char c ->
    BadMember pk (t ++ 125 :: w ++ c :: r) (error_char ParseObjectError "invalid trailing character: " c)
| bm_empty pk t p r : Piece value_stop value_drop t p -> pk = [] \/ p = [] -> BadMember pk (t ++ 44 :: r) (error_at ParseObjectError "invalid empty member.")
| bm_comma pk t p r : Piece value_stop value_drop t p -> pk <> [] -> p <> [] -> starts_with 125 r ->
    BadMember pk (t ++ 44 :: r) (error_at ParseObjectError "invalid trailing comma.")
| bm_key pk t p r : Piece value_stop value_drop t p -> pk <> [] -> p <> [] -> ~ starts_with 125 r -> (forall k, ~ LValue pk (JStr k)) ->
    BadMember pk (t ++ 44 :: r) (error_at ParseObjectError "error parsing key string.")
| bm_value pk k t p e r : Piece value_stop value_drop t p -> p <> [] -> ~ starts_with 125 r -> LValue pk (JStr k) -> Blame p e ->
    BadMember pk (t ++ 44 :: r) e
| bm_next pk k t p v r e : Piece value_stop value_drop t p -> LValue pk (JStr k) -> LValue p v -> ~ starts_with 125 r -> BadMembers r e ->
    BadMember pk (t ++ 44 :: r) e.

Definition BlameText (s : str) (e : error) : Prop :=
  exists w1 t w2, ws w1 /\ ws w2 /\ s = w1 ++ t ++ w2 /\
    match t with [] => True | c :: _ => ~ ws_char c end /\
    match rev t with [] => True | c :: _ => ~ ws_char c end /\ Blame t e.

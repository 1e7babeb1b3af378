(** The texts the parser accepts, beyond JSON, as a declarative relation: a superset of RFC 8259's
    supported part.  [Skim] is how an element is read off the text of its container. *)
From Verif Require Import Base F64 Json SpecGrammar.

(** The number texts the code accepts: RFC numbers, and numbers with superfluous leading zeros (then
    also with an empty fraction). *)
Inductive LaxFrac : str -> str -> Prop :=
| lax_frac_none : LaxFrac [] []
| lax_frac_some ds : Forall digit ds -> LaxFrac (46 :: ds) ds.
Inductive LaxNumber : str -> bool -> N -> Z -> Prop :=
| lax_rfc s neg m e : Number s neg m e -> LaxNumber s neg m e
| lax_zeros (neg : bool) d ds f fd x xe : digit d -> Forall digit ds -> LaxFrac f fd -> Exp x xe ->
    LaxNumber ((if neg then [45] else []) ++ 48 :: d :: ds ++ f ++ x) neg
              (decimal (d :: ds ++ fd)) (xe - Z.of_nat (List.length fd)).

(** [Skim stop drop d q t p d' q']: reading [t] with [d] open brackets and [q] telling whether inside
    quotes leaves [d'] and [q'], and [p] is [t] without the dropped characters.  Brackets count inside quotes
    too; a backslash protects the next character.  Outside brackets and quotes, characters in [stop] do not occur and those in [drop]
    are left out. *)
Inductive Skim (stop drop : N -> Prop) : Z -> bool -> str -> str -> Z -> bool -> Prop :=
| sk_nil d q : Skim stop drop d q [] [] d q
| sk_drop c t p d' q' : drop c -> Skim stop drop 0 false t p d' q' -> Skim stop drop 0 false (c :: t) p d' q'
| sk_keep d q c t p d' q' : c <> 92 -> ~ (d = 0%Z /\ q = false /\ (stop c \/ drop c)) ->
    Skim stop drop (d + net [c]) (if c =? 34 then negb q else q) t p d' q' ->
    Skim stop drop d q (c :: t) (c :: p) d' q'
| sk_escape d q e t p d' q' : Skim stop drop d q t p d' q' -> Skim stop drop d q (92 :: e :: t) (92 :: e :: p) d' q'.

(** A whole piece: brackets and quotes closed. *)
Definition Piece (stop drop : N -> Prop) (t p : str) : Prop := Skim stop drop 0 false t p 0 false.
Definition array_stop (c : N) : Prop := c = 93 \/ c = 44.
Definition value_stop (c : N) : Prop := c = 125 \/ c = 44.
Definition key_stop (c : N) : Prop := c = 58.
Definition value_drop (c : N) : Prop := ws_char c \/ c = 58.

Inductive LValue : str -> json -> Prop :=
| l_null : LValue (lit "null") JNull
| l_true : LValue (lit "true") (JBool true)
| l_false : LValue (lit "false") (JBool false)
| l_num s neg m e : LaxNumber s neg m e -> is_finite (dec_to_f64 neg m e) = true ->
    LValue s (JNum (dec_to_f64 neg m e))
| l_str raw c w : Chars raw c -> ws w -> LValue ([34] ++ raw ++ [34] ++ w) (JStr c)
| l_arr0 x : LValue ([91; 93] ++ x) (JArr [])                    (* anything may follow [] *)
| l_arr t vs w : LElements t vs -> ws w -> LValue ([91] ++ t ++ [93] ++ w) (JArr vs)
| l_obj0 x : LValue ([123; 125] ++ x) (JObj [])
| l_obj t ms o w : LMembers t ms -> Groups ms o -> ws w -> LValue ([123] ++ t ++ [125] ++ w) (JObj o)
with LElements : str -> list json -> Prop :=
| l_elem t p v : Piece array_stop ws_char t p -> LValue p v -> LElements t [v]
| l_elems t p v t' vs : Piece array_stop ws_char t p -> LValue p v -> LElements t' vs ->
    LElements (t ++ [44] ++ t') (v :: vs)
with LMembers : str -> list (str * json) -> Prop :=
| l_member tk pk k t p v : Piece key_stop ws_char tk pk -> LValue pk (JStr k) ->
    Piece value_stop value_drop t p -> LValue p v -> LMembers (tk ++ [58] ++ t) [(k, v)]
| l_members tk pk k t p v t' ms : Piece key_stop ws_char tk pk -> LValue pk (JStr k) ->
    Piece value_stop value_drop t p -> LValue p v -> LMembers t' ms ->
    LMembers (tk ++ [58] ++ t ++ [44] ++ t') ((k, v) :: ms).

(** Surrounding white space is trimmed. *)
Definition LenientText (s : str) (v : json) : Prop :=
  exists w1 t w2, ws w1 /\ ws w2 /\ s = w1 ++ t ++ w2 /\
    match t with [] => True | c :: _ => ~ ws_char c end /\
    match rev t with [] => True | c :: _ => ~ ws_char c end /\ LValue t v.

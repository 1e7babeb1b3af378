(** Specification: the JSON grammar of RFC 8259 with the value a text denotes.  Written from the
    RFC, not from the code.  Only [json], [hm_get], [keys_sorted] (what a value is) and [dec_to_f64] (the correctly
    rounded double of a decimal, characterised over the reals in [SpecNumber.v]) are shared with the model. *)
From Verif Require Import Base F64 Json.

(** RFC 8259 section 2: ws = *( space / tab / LF / CR ) *)
Definition ws_char (c : N) : Prop := In c [32; 9; 10; 13].
Definition ws (s : str) : Prop := Forall ws_char s.

(** section 6: number = [ minus ] int [ frac ] [ exp ] *)
Definition digit (c : N) : Prop := 48 <= c <= 57.
(** The number a digit string writes in base ten. *)
Fixpoint decimal (ds : str) : N :=
  match ds with
  | [] => 0
  | d :: r => (d - 48) * 10 ^ N.of_nat (List.length r) + decimal r
  end.

Inductive Int : str -> Prop :=
| int_zero : Int [48]
| int_pos d ds : 49 <= d <= 57 -> Forall digit ds -> Int (d :: ds).
(** text of the fraction, its digits *)
Inductive Frac : str -> str -> Prop :=
| frac_none : Frac [] []
| frac_some ds : ds <> [] -> Forall digit ds -> Frac (46 :: ds) ds.
(** text of the exponent, its value *)
Inductive Exp : str -> Z -> Prop :=
| exp_none : Exp [] 0
| exp_plain e ds : (e = 101 \/ e = 69) -> ds <> [] -> Forall digit ds ->
    Exp (e :: ds) (Z.of_N (decimal ds))
| exp_plus e ds : (e = 101 \/ e = 69) -> ds <> [] -> Forall digit ds ->
    Exp (e :: 43 :: ds) (Z.of_N (decimal ds))
| exp_minus e ds : (e = 101 \/ e = 69) -> ds <> [] -> Forall digit ds ->
    Exp (e :: 45 :: ds) (- Z.of_N (decimal ds)).
(** [Number s neg m e]: [s] is a number text and writes (-1)^neg * m * 10^e. *)
Inductive Number : str -> bool -> N -> Z -> Prop :=
| number (neg : bool) i f fd x xe :
    Int i -> Frac f fd -> Exp x xe ->
    Number ((if neg then [45] else []) ++ i ++ f ++ x) neg
           (decimal (i ++ fd)) (xe - Z.of_nat (List.length fd)).

(** section 7: strings.  [Chars raw c]: the text [raw] between the quotes denotes the string [c]
    of Unicode scalar values.  A lone surrogate escape denotes none. *)
Definition unescaped (c : N) : Prop :=
  0x20 <= c <= 0x21 \/ 0x23 <= c <= 0x5B \/ 0x5D <= c <= 0x10FFFF.
Definition simple_escape (e c : N) : Prop :=
  In (e, c) [(34, 34); (92, 92); (47, 47); (98, 8); (102, 12); (110, 10); (114, 13); (116, 9)].
Definition hexdig (c d : N) : Prop :=
  (48 <= c <= 57 /\ d = c - 48) \/ (65 <= c <= 70 /\ d = c - 55) \/ (97 <= c <= 102 /\ d = c - 87).
Definition four_hex (h : str) (u : N) : Prop :=
  exists a b c d x y z w, h = [a; b; c; d] /\ hexdig a x /\ hexdig b y /\ hexdig c z /\ hexdig d w
    /\ u = ((x * 16 + y) * 16 + z) * 16 + w.
Inductive Chars : str -> str -> Prop :=
| ch_nil : Chars [] []
| ch_plain c raw s : unescaped c -> Chars raw s -> Chars (c :: raw) (c :: s)
| ch_simple e c raw s : simple_escape e c -> Chars raw s -> Chars (92 :: e :: raw) (c :: s)
| ch_unicode h u raw s : four_hex h u -> ~ (0xD800 <= u <= 0xDFFF) -> Chars raw s ->
    Chars (92 :: 117 :: h ++ raw) (u :: s)
| ch_pair h hi l lo raw s : four_hex h hi -> four_hex l lo ->
    0xD800 <= hi <= 0xDBFF -> 0xDC00 <= lo <= 0xDFFF -> Chars raw s ->
    Chars (92 :: 117 :: h ++ 92 :: 117 :: l ++ raw) (0x10000 + (hi - 0xD800) * 0x400 + (lo - 0xDC00) :: s).

(** section 4: objects.  [Groups ms o]: the object [o] holds for each key exactly the values of the
    members [ms] with that key, in order (main value = the last, before it the earlier ones). *)
Definition values_of (k : str) (ms : list (str * json)) : list json :=
  map snd (filter (fun m => str_eqb k (fst m)) ms).
Definition entry_values (e : option (json * list json)) : list json :=
  match e with None => [] | Some (v, l) => rev l ++ [v] end.
Definition Groups (ms : list (str * json)) (o : hmap) : Prop :=
  keys_sorted o = true /\ forall k, entry_values (hm_get k o) = values_of k ms.

(** sections 3-5.  [Value nested s v]: the text [s] (no surrounding white space) is a JSON value
    denoting [v]; [nested] says whether it lies inside a container.  Two parameters restrict the grammar: the white space allowed
    between the brackets of an empty container, and the raw text of strings inside containers. *)
Section Grammar.
Variable empty_ok : str -> Prop.
Variable string_ok : str -> Prop.

Inductive Value : bool -> str -> json -> Prop :=
| v_null n : Value n (lit "null") JNull
| v_true n : Value n (lit "true") (JBool true)
| v_false n : Value n (lit "false") (JBool false)
| v_num n s neg m e : Number s neg m e -> is_finite (dec_to_f64 neg m e) = true ->
    Value n s (JNum (dec_to_f64 neg m e))
| v_str (n : bool) raw c : Chars raw c -> (n = true -> string_ok raw) ->
    Value n ([34] ++ raw ++ [34]) (JStr c)
| v_arr0 n w : ws w -> empty_ok w -> Value n ([91] ++ w ++ [93]) (JArr [])
| v_arr n s vs : Elements s vs -> Value n ([91] ++ s ++ [93]) (JArr vs)
| v_obj0 n w : ws w -> empty_ok w -> Value n ([123] ++ w ++ [125]) (JObj [])
| v_obj n s ms o : Members s ms -> Groups ms o -> Value n ([123] ++ s ++ [125]) (JObj o)
with Elements : str -> list json -> Prop :=
| e_one w1 s w2 v : ws w1 -> Value true s v -> ws w2 -> Elements (w1 ++ s ++ w2) [v]
| e_cons w1 s w2 v s' vs : ws w1 -> Value true s v -> ws w2 -> Elements s' vs ->
    Elements (w1 ++ s ++ w2 ++ [44] ++ s') (v :: vs)
with Members : str -> list (str * json) -> Prop :=
| m_one w1 raw k w2 w3 s w4 v : ws w1 -> Chars raw k -> string_ok raw -> ws w2 -> ws w3 ->
    Value true s v -> ws w4 ->
    Members (w1 ++ ([34] ++ raw ++ [34]) ++ w2 ++ [58] ++ w3 ++ s ++ w4) [(k, v)]
| m_cons w1 raw k w2 w3 s w4 v s' ms : ws w1 -> Chars raw k -> string_ok raw -> ws w2 -> ws w3 ->
    Value true s v -> ws w4 -> Members s' ms ->
    Members (w1 ++ ([34] ++ raw ++ [34]) ++ w2 ++ [58] ++ w3 ++ s ++ w4 ++ [44] ++ s') ((k, v) :: ms).

Definition Text (s : str) (v : json) : Prop :=
  exists w1 t w2, ws w1 /\ ws w2 /\ Value false t v /\ s = w1 ++ t ++ w2.
End Grammar.

(** JSON-text = ws value ws, unrestricted: [JsonText s v] says that [s] is an RFC 8259 text denoting [v]. *)
Definition anything (_ : str) : Prop := True.
Definition JsonText : str -> json -> Prop := Text anything anything.

(** Opening minus closing brackets of a text. *)
Fixpoint net (s : str) : Z :=
  match s with
  | [] => 0%Z
  | c :: r => ((if ((c =? 91) || (c =? 123))%N then 1 else if ((c =? 93) || (c =? 125))%N then -1 else 0) + net r)%Z
  end.
(** The part of the grammar the parser supports: no white space in empty containers, and as many
    opening as closing brackets in each string inside a container. *)
Definition no_space (w : str) : Prop := w = [].
Definition balanced_raw (raw : str) : Prop := net raw = 0%Z.
Definition SupportedText : str -> json -> Prop := Text no_space balanced_raw.

(** The same condition on values: strings and keys below the root. *)
Definition balanced_str (s : str) : bool := Z.eqb (net s) 0.
Fixpoint balanced_in (j : json) : bool :=
  match j with
  | JObj o => forallb (fun e => balanced_str (fst e) && (balanced_in (fst (snd e)) && forallb balanced_in (snd (snd e)))) o
  | JArr v => forallb balanced_in v
  | JStr s => balanced_str s
  | _ => true
  end.
Definition balanced (j : json) : bool :=
  match j with JStr _ => true | _ => balanced_in j end.

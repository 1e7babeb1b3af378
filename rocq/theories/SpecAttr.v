(** Attributes as Rust programmers write them: every form of literal, words, pairs and groups; and what should be read for them. *)
From Verif Require Import Base F64 SpecGrammar SpecLenient SpecNumber Tokens.
From Coq Require Import Reals Floats.SpecFloat.
Local Open Scope N_scope.

(** Between the parts of a sequence. *)
Fixpoint sep_by (c : N) (l : list (list token)) : list token :=
  match l with [] => [] | [a] => a | a :: r => a ++ Punct c :: sep_by c r end.

(** ** Literals: chapter "Tokens" of the Rust reference *)
Inductive rliteral :=
| KBool (b : bool)                                      (* true *)
| KText (bytes : bool) (raw : option nat) (body : str)  (* "..", r"..", r#".."#; with bytes: b"..", br"..", br#".."# *)
| KByte (body : str)                                    (* b'x' *)
| KChar (body : str)                                    (* 'x' *)
| KNum (i frac exp suffix : str)                        (* 12, 1_000u8, 3.14, 1e-5f32 *)
| KRadix (letter : N) (ds suffix : str).                (* 0xFF, 0o17, 0b101u8 *)

Definition int_suffixes : list str := map lit ["u8"; "u16"; "u32"; "u64"; "u128"; "usize"; "i8"; "i16"; "i32"; "i64"; "i128"; "isize"]%string.
Definition float_suffixes : list str := map lit ["f32"; "f64"]%string.
Definition opening (bytes : bool) (raw : option nat) : str :=
  (if bytes then [98] else []) ++ match raw with Some n => 114 :: repeat 35 n | None => [] end ++ [34].
Definition closing (raw : option nat) : str := 34 :: match raw with Some n => repeat 35 n | None => [] end.
Definition written (l : rliteral) : str :=
  match l with
  | KBool b => lit (if b then "true" else "false")
  | KText bytes raw body => opening bytes raw ++ body ++ closing raw
  | KByte body => [98; 39] ++ body ++ [39]
  | KChar body => [39] ++ body ++ [39]
  | KNum i frac exp suffix => i ++ frac ++ exp ++ suffix
  | KRadix letter ds suffix => 48 :: letter :: ds ++ suffix
  end.
(** The compiler presents [true] and [false] as identifiers. *)
Definition literal_tok (l : rliteral) : token := match l with KBool _ => Ident (written l) | _ => Literal (written l) end.

(** No quote [q] without a backslash before it. *)
Inductive Body (q : N) : str -> Prop :=
| body_nil : Body q []
| body_char c r : c <> q -> c <> 92 -> Body q r -> Body q (c :: r)
| body_escape c r : Body q r -> Body q (92 :: c :: r).
Definition digit_or_line (c : N) : Prop := digit c \/ c = 95.
Definition hex_or_line (c : N) : Prop := digit c \/ 65 <= c <= 70 \/ 97 <= c <= 102 \/ c = 95.
Definition lexical (l : rliteral) : Prop :=
  match l with
  | KBool _ => True
  | KText _ None body => Body 34 body
  | KText _ (Some n) body => ~ (exists a b, body = a ++ 34 :: repeat 35 n ++ b)
  | KByte body | KChar body => Body 39 body /\ body <> []
  | KNum i frac exp suffix =>
      (exists d r, i = d :: r /\ digit d /\ Forall digit_or_line r) /\
      (frac = [] \/ (frac = [46] /\ exp = [] /\ suffix = []) \/ exists d r, frac = 46 :: d :: r /\ digit d /\ Forall digit_or_line r) /\
      (exp = [] \/ exists e sg ds, exp = e :: sg ++ ds /\ (e = 101 \/ e = 69) /\ In sg [[]; [43]; [45]] /\ Forall digit_or_line ds /\ ds <> []) /\
      In suffix ([] :: int_suffixes ++ float_suffixes)
  | KRadix letter ds suffix => In letter [98; 111; 120] /\ Forall hex_or_line ds /\ In suffix ([] :: int_suffixes)
  end.
(** Text that is not mistaken for quotes: what follows the opening quote does not begin with the opening once more, and what is before the
    closing quote does not end with the closing. *)
Definition clear_text (open body close : str) : Prop :=
  body = [] \/ (~ (exists r, body ++ close = open ++ r) /\ ~ (exists r, body = r ++ close)).
Definition clear (l : rliteral) : Prop :=
  match l with
  | KText bytes raw body => clear_text (opening bytes raw) body (closing raw)
  | KByte body => clear_text [98; 39] body [39]
  | _ => True
  end.
(** What a literal should be read as, with the text it was written as.  Text is taken as it is between the quotes, of raw strings with at most
    two hashes; integers are those of [i32]; whole numbers beyond that are read as floats if they have no suffix. *)
Inductive literal_is : rliteral -> lit_value -> Prop :=
| li_bool b : literal_is (KBool b) (LBoolean b (written (KBool b)))
| li_string raw body : match raw with Some n => (n <= 2)%nat | None => True end ->
    literal_is (KText false raw body) (LString body (written (KText false raw body)))
| li_bytes raw body : match raw with Some n => (n <= 2)%nat | None => True end ->
    literal_is (KText true raw body) (LBytes body (written (KText true raw body)))
| li_byte body : literal_is (KByte body) (LBytes body (written (KByte body)))
| li_int ds suffix : Forall digit ds -> In suffix ([] :: int_suffixes) -> decimal ds <= 2147483647 ->
    literal_is (KNum ds [] [] suffix) (LInteger (Z.of_N (decimal ds)) (written (KNum ds [] [] suffix)))
| li_float i fr fd x xe suffix f : Forall digit i -> LaxFrac fr fd -> Exp x xe -> In suffix ([] :: float_suffixes) ->
    ~ (fr = [] /\ x = [] /\ suffix = [] /\ decimal i <= 2147483647) ->
    rounds_to 53 1024 false (decimal_real false (decimal (i ++ fd)) (xe - Z.of_nat (List.length fd))) f ->
    literal_is (KNum i fr x suffix) (LFloat f (written (KNum i fr x suffix))).

(** ** Attributes *)
(** A value: a literal, perhaps with a minus sign before it. *)
Inductive rvalue := Plain (l : rliteral) | Minus (l : rliteral).
Definition value_toks (v : rvalue) : list token := match v with Plain l => [literal_tok l] | Minus l => [Punct 45; literal_tok l] end.
Inductive value_is : rvalue -> lit_value -> Prop :=
| vi_plain l v : literal_is l v -> value_is (Plain l) v
| vi_minus_int l n raw : literal_is l (LInteger n raw) -> value_is (Minus l) (LInteger (- n) raw)
| vi_minus_float l f raw : literal_is l (LFloat f raw) -> value_is (Minus l) (LFloat (SFopp f) raw).
(** A word, a value, a pair with [=] or [:], or a word before brackets of any kind; nothing may stand between two commas. *)
Inductive rmeta :=
| WWord (w : str)
| WValue (v : rvalue)
| WPair (key : str) (colon : bool) (v : rvalue)
| WGroup (w : str) (d : delim) (parts : list (option rmeta)).
Fixpoint meta_toks (m : rmeta) : list token :=
  match m with
  | WWord w => [Ident w]
  | WValue v => value_toks v
  | WPair key colon v => Ident key :: Punct (if colon then 58 else 61) :: value_toks v
  | WGroup w d parts => [Ident w; Group d (sep_by 44 (map (fun p => match p with Some m => meta_toks m | None => [] end) parts))]
  end.
(** The parts that are there. *)
Definition somes {A} (l : list (option A)) : list A := flat_map (fun p => match p with Some a => [a] | None => [] end) l.
(** Written properly: every literal is one of Rust's and is not mistaken; the words [true] and [false] are values. *)
Definition value_good (v : rvalue) : Prop := match v with Plain l | Minus l => lexical l /\ clear l end.
Inductive meta_good : rmeta -> Prop :=
| good_word w : ~ In w (map lit ["true"; "false"]%string) -> meta_good (WWord w)
| good_value v : value_good v -> meta_good (WValue v)
| good_pair k c v : value_good v -> meta_good (WPair k c v)
| good_group w d parts : Forall meta_good (somes parts) -> meta_good (WGroup w d parts).
(** The brackets of a group may not be empty. *)
Inductive item_is : rmeta -> meta_item -> Prop :=
| ii_word w : ~ In w (map lit ["true"; "false"]%string) -> item_is (WWord w) (MIdent w)
| ii_value v l : value_is v l -> item_is (WValue v) (MLiteral l)
| ii_pair key (colon : bool) v l : value_is v l -> item_is (WPair key colon v) (MPair key l (if colon then 58 else 61))
| ii_group w d parts l : parts <> [] -> parts <> [None] -> Forall2 item_is (somes parts) l -> item_is (WGroup w d parts) (MGroup w l).
(** A sequence of attributes in front of a declaration. *)
Definition attr_toks (m : rmeta) : list token := [Punct 35; Group Bracket (meta_toks m)].
Definition ms_toks (ms : list rmeta) : list token := flat_map attr_toks ms.

(** What has no minus sign and no group without items comes back from its own text. *)
Fixpoint steady (m : rmeta) : bool :=
  match m with
  | WWord _ | WValue (Plain _) | WPair _ _ (Plain _) => true
  | WValue (Minus _) | WPair _ _ (Minus _) => false
  | WGroup _ _ parts => existsb (fun p => match p with Some _ => true | None => false end) parts &&
      forallb (fun p => match p with Some m => steady m | None => true end) parts
  end.
(** The text of an attribute that was read: groups with round brackets, nothing between commas is left, minus signs are lost. *)
Definition unsigned (v : rvalue) : rvalue := match v with Plain l | Minus l => Plain l end.
Fixpoint meta_out (m : rmeta) : rmeta :=
  match m with
  | WWord w => WWord w
  | WValue v => WValue (unsigned v)
  | WPair key colon v => WPair key colon (unsigned v)
  | WGroup w _ parts => WGroup w Paren (map Some (flat_map (fun p => match p with Some m => [meta_out m] | None => [] end) parts))
  end.

(** ** The attributes of declarations, whether their texts are mistaken or not *)
(** A mistaken text, such as one that ends with an escaped quote, is still read as a text, with the right token. *)
Definition literal_reads (l : rliteral) (v : lit_value) : Prop :=
  (clear l -> literal_is l v) /\
  match l with
  | KText false _ _ => exists s, v = LString s (written l)
  | KText true _ _ | KByte _ => exists s, v = LBytes s (written l)
  | _ => True
  end.
Inductive value_reads : rvalue -> lit_value -> Prop :=
| vr_plain l v : literal_reads l v -> value_reads (Plain l) v
| vr_minus l v : value_is (Minus l) v -> value_reads (Minus l) v.
Inductive attr_is : rmeta -> meta_item -> Prop :=
| ai_word w : attr_is (WWord w) (MIdent w)
| ai_value v l : value_reads v l -> attr_is (WValue v) (MLiteral l)
| ai_pair key (colon : bool) v l : value_reads v l -> attr_is (WPair key colon v) (MPair key l (if colon then 58 else 61))
| ai_group w d parts l : Forall2 attr_is (somes parts) l -> attr_is (WGroup w d parts) (MGroup w l).
(** Those that can be read at all: every value is one of Rust's literals and has a meaning here, and no brackets are empty. *)
Definition value_fine (v : rvalue) : Prop := match v with Plain l | Minus l => lexical l end /\ exists x, value_is v x.
Inductive attr_ok : rmeta -> Prop :=
| ok_word w : ~ In w (map lit ["true"; "false"]%string) -> attr_ok (WWord w)
| ok_value v : value_fine v -> attr_ok (WValue v)
| ok_pair k c v : value_fine v -> attr_ok (WPair k c v)
| ok_group w d parts : parts <> [] -> parts <> [None] -> Forall attr_ok (somes parts) -> attr_ok (WGroup w d parts).

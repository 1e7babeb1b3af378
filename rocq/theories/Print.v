(** [Json::to_string] and its helpers, src/lib.rs 116-148 and 604-656. *)
From Verif Require Import Base F64 Json.

(** src/lib.rs 636 [HEX_TABLE] *)
Definition HEX_TABLE : list N := lit "0123456789ABCDEF".

(** src/lib.rs 643-646: the digits of [u], least significant first. *)
Fixpoint hex_rev (fuel : nat) (u : N) : str :=
  match fuel with
  | O => []
  | S f => if 0 <? u then nth (N.to_nat (N.land u 15)) HEX_TABLE 0 :: hex_rev f (N.shiftr u 4) else []
  end.
(** src/lib.rs 638-656 [hex]; a usize has at most 16 hex digits. *)
Definition hex (u : N) : str :=
  if u =? 0 then lit "\u0000"
  else
    let v := hex_rev 16 u in
    let v := v ++ repeat 48 (4 - List.length v) in
    rev (v ++ [117; BSLASH]).

(** src/lib.rs 608-630 [escape], one character *)
Definition escape_char (c : N) : str :=
  if c =? QUOTE then [BSLASH; QUOTE]
  else if c =? BSLASH then [BSLASH; BSLASH]
  else if c =? SLASH then [BSLASH; SLASH]
  else if c =? BS then [BSLASH; 98]
  else if c =? FF then [BSLASH; 102]
  else if c =? LF then [BSLASH; 110]
  else if c =? CR then [BSLASH; 114]
  else if c =? TAB then [BSLASH; 116]
  else if c <=? 0x1F then hex c
  else if c <=? 0x7E then [c]
  else if c <=? 0xFFFF then hex c
  else
    let surrogate := c - 0x10000 in
    hex (N.shiftr surrogate 10 + 0xD800) ++ hex (N.land surrogate 1023 + 0xDC00).

(** src/lib.rs 604-634 [escape] *)
Definition escape (s : str) : str := [QUOTE] ++ flat_map escape_char s ++ [QUOTE].

(** [sort_by] on the key (src/lib.rs 121): a stable sort. *)
Fixpoint insert_by_key {V} (x : str * V) (l : list (str * V)) : list (str * V) :=
  match l with
  | [] => [x]
  | y :: r => match str_cmp (fst x) (fst y) with Gt => y :: insert_by_key x r | _ => x :: l end
  end.
(** std: [sort_by], stable, on the keys, src/lib.rs 116-148 *)
Definition sort_by_key {V} (l : list (str * V)) : list (str * V) := fold_right insert_by_key [] l.

(** The separator of src/lib.rs 116-148. *)
Definition comma_sp : str := [COMMA; SP].
(** The separator of src/lib.rs 116-148. *)
Definition colon_sp : str := [COLON; SP].

(** src/lib.rs 124-131: the text of one entry, from the texts of its values: first the [list] in reverse, each
    followed by a comma, then the main value. *)
Definition entry_text (k : str) (main : str) (dups : list str) : str :=
  flat_map (fun t => escape k ++ colon_sp ++ t ++ comma_sp) (rev dups)
  ++ escape k ++ colon_sp ++ main.

(** src/lib.rs 116-148.  Rust collects the entries in iteration order, sorts them by key and renders them in
    that order; here they are rendered before being sorted, which gives the same texts. *)
Fixpoint to_string (j : json) : str :=
  match j with
  | JObj o =>
      [LBRACE] ++
      join comma_sp (map snd (sort_by_key
        (map (fun e => (fst e, entry_text (fst e) (to_string (fst (snd e)))
                                 (map to_string (snd (snd e))))) o)))
      ++ [RBRACE]
  | JArr v => [LBRACK] ++ join comma_sp (map to_string v) ++ [RBRACK]
  | JStr s => escape s
  | JNum f => f64_to_string f
  | JBool true => lit "true"
  | JBool false => lit "false"
  | JNull => lit "null"
  end.

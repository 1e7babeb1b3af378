(** The [quote!] macro, json_derive/quote/src/lib.rs: how a template of tokens and the values of local variables become the tokens of the
    generated code.  Left out are the forms that start with an at sign (quote/src/lib.rs 73-101, 326-378: [@options], [@span] given by the user,
    [@literal], [@params], [@scope]); no derive macro uses them.  A template that uses them, or does not compile, or panics, is [None]. *)
From Verif Require Import Base Tokens.

(** * Tokens *)
(** A token of a template, as [macro_rules!] sees it: there an operator of several characters is one token.  [TId] is any word but the lone
    underscore, keywords included; [TLit] a literal as written; [TLife] a lifetime without its mark. Matched at json_derive/quote/src/lib.rs 319-1029. *)
Inductive ttok := TId (s : str) | TUnder | TOp (op : str) | TLit (raw : str) | TLife (a : str) | TGrp (d : delim) (ts : list ttok).
(** A token of the generated code, as in [proc_macro]: single characters, with the mark [joint] if the next character belongs to the same
    operator ([Spacing::Joint]).  Spans are not modelled. *)
Inductive ptok := PId (s : str) | PPunct (c : N) (joint : bool) | PLit (raw : str) | PGrp (d : delim) (ts : list ptok).
(** The same without spacing, as the [parse] crate looks at it. For the texts that json_derive/quote/src/lib.rs 1103-1115 reads and json_derive/parse/src parses. *)
Fixpoint unspaced (t : ptok) : token :=
  match t with PId s => Ident s | PPunct c _ => Punct c | PLit r => Literal r | PGrp d ts => Group d (map unspaced ts) end.
(** quote/src/lib.rs 1045-1074 [__gen_punct], [__gen_punct2], [__gen_punct3] *)
Fixpoint gen_punct (op : str) : list ptok :=
  match op with [] => [] | [c] => [PPunct c false] | c :: r => PPunct c true :: gen_punct r end.
(** The rules 796-1011: the operators that have a rule of their own, each with the characters it is turned into.  (Tokens without a rule go to
    the compiler's reader as text, 1019-1022.) (json_derive/quote/src/lib.rs) *)
Definition op_rules : list (string * string) :=
  [("->", "->"); ("=>", "=>"); ("<=", "<="); (">=", ">="); ("!=", "!="); ("&&", "&&"); ("||", "||"); ("==", "=="); ("+=", "+="); ("-=", "-=");
   ("*=", "*="); ("/=", "/="); ("%=", "%="); ("&=", "&="); ("^=", "^="); ("|=", "|="); (">>", ">>"); ("<<", "<<"); (">>=", ">>="); ("<<=", "<<=");
   ("..", ".."); ("...", "..."); ("..=", "..="); ("::", "::"); ("&", "&"); (":", ":"); ("+", "+"); ("-", "-"); ("*", "*"); ("/", "/"); ("=", "=");
   (">", ">"); ("<", "<"); (".", "."); (",", ","); ("!", "!"); ("?", "?"); ("@", "@"); ("^", "^"); ("|", "|"); ("%", "%"); (";", ";"); ("#", "#")]%string.
(** The operator tokens in the patterns of json_derive/quote/src/lib.rs 319-1029. *)
Definition op_is (w : string) (t : ttok) : bool := match t with TOp o => str_eqb o (lit w) | _ => false end.
(** json_derive/quote/src/lib.rs 796-1011: the first rule for the operator *)
Fixpoint op_rule (rules : list (string * string)) (t : ttok) : option (list ptok) :=
  match rules with (w, out) :: r => if op_is w t then Some (gen_punct (lit out)) else op_rule r t | [] => None end.
(** 1103-1115 [__parse] on the text of one token of the template: the token itself, read back by the compiler (the test for an identifier only
    avoids that).  Groups never get here, except those without delimiter, which templates do not contain. (json_derive/quote/src/lib.rs) *)
Definition plain (t : ttok) : option (list ptok) :=
  match t with
  | TId s => Some [PId s]
  | TUnder => Some [PId (lit "_")]
  | TOp o => Some (gen_punct o)
  | TLit r => Some [PLit r]
  | TLife a => Some [PPunct 39 true; PId a]
  | TGrp _ _ => None
  end.

(** * Values of expressions *)
(** A value, by what a template can do with it: [VObj] has a text ([ToString], given as the tokens that [__parse] makes of it; [None] if they
    do not exist) and fields, tuple elements and methods without arguments ([()] is part of their name). (json_derive/quote/src/lib.rs 383-606.) *)
Inductive value := VObj (text : option (list ptok)) (members : list (str * value)) | VBool (b : bool) | VOpt (o : option value) | VList (l : list value).
(** The variables in scope where json_derive/quote/src/lib.rs 70-107 is expanded. *)
Definition env := list (str * value).
(** The lookup of a variable by the compiler, for json_derive/quote/src/lib.rs 593-606. *)
Fixpoint assoc (x : str) (e : list (str * value)) : option value :=
  match e with [] => None | (y, v) :: r => if str_eqb x y then Some v else assoc x r end.
(** std: [ToString] of an integer in a template, json_derive/quote/src/lib.rs 593-606 *)
Fixpoint digits (fuel n : nat) : str :=
  match fuel with O => [] | S f => if Nat.ltb n 10 then [48 + N.of_nat n] else digits f (n / 10) ++ [48 + N.of_nat (n mod 10)] end.
(** [ToString] of std, for json_derive/quote/src/lib.rs 593-606 *)
Definition text_of (v : value) : option (list ptok) :=
  match v with
  | VObj t _ => t
  | VBool b => Some [PId (lit (if b then "true" else "false"))]
  | _ => None
  end.
(** A field or method of a value in [$expr] of json_derive/quote/src/lib.rs 383-606. *)
Definition get_member (x : str) (v : value) : option value :=
  match v with
  | VObj _ ms => assoc x ms
  | VList l => if str_eqb x (lit "len()") then Some (VObj (Some [PLit (digits (S (List.length l)) (List.length l))]) []) else None
  | _ => None
  end.
(** [IntoIterator] of std, for json_derive/quote/src/lib.rs 468-588 *)
Definition items (v : value) : option (list value) :=
  match v with VList l => Some l | VOpt (Some w) => Some [w] | VOpt None => Some [] | _ => None end.
(** Rust expressions, as far as templates use them: [x], [&e], [e.field], [e.0], [e.method()]. Used at json_derive/quote/src/lib.rs 383-606. *)
Fixpoint eval_suffix (v : value) (ts : list ttok) : option value :=
  match ts with
  | [] => Some v
  | dot :: r =>
      if op_is "." dot then
        match r with
        | TId f :: r1 =>
            match r1 with
            | TGrp Paren [] :: r2 => let! w := get_member (f ++ lit "()") v in eval_suffix w r2
            | _ => let! w := get_member f v in eval_suffix w r1
            end
        | TLit n :: r1 => let! w := get_member n v in eval_suffix w r1
        | _ => None
        end
      else None
  end.
(** The compiler's evaluation of [$expr], json_derive/quote/src/lib.rs 383-606; see [eval_suffix]. *)
Fixpoint eval (e : env) (ts : list ttok) : option value :=
  match ts with
  | TId x :: r => let! v := assoc x e in eval_suffix v r
  | t :: r => if op_is "&" t then eval e r else None
  | [] => None
  end.
(** The tokens an expression can begin with ([$expr:expr] in the rules does not try to match otherwise).  Simplification: any word can. (json_derive/quote/src/lib.rs 383-597.) *)
Definition begins_expr (ts : list ttok) : bool :=
  match ts with
  | TOp o :: _ => existsb (fun w => str_eqb o (lit w)) ["!"; "-"; "*"; "|"; "||"; "&"; "&&"; ".."; "..."; "..="; "<"; "<<"; "::"; "#"]%string
  | TUnder :: _ => false
  | _ :: _ => true
  | [] => false
  end.

(** * The rules of [__append_to_token!], 319-1029, in their order (json_derive/quote/src/lib.rs) *)
Inductive sep := NoSep | Between (t : ttok) | After (t : ttok).
(** What a rule does: [src] is the expression after the inner hash. (json_derive/quote/src/lib.rs 319-1029.) *)
Inductive action :=
| ABool (want : bool) (src : list ttok) (body : list ttok)
| AOpt (src : list ttok)
| AOptAs (src : list ttok) (x : option str) (body : list ttok)
| AEach (src : list ttok) (s : sep)
| AEachAs (src : list ttok) (x : option str) (body : list ttok) (s : sep)
| AText (e : list ttok)
| ATokens (ts : list ptok)
| AGroup (before : list ptok) (d : delim) (body : list ttok) (after : list ptok).
(** A rule of json_derive/quote/src/lib.rs 319-1029 that matched: what it does, and the rest. *)
Definition rule := (action * list ttok)%type.
(** The first rule that matches. (json_derive/quote/src/lib.rs 319-1029.) *)
Fixpoint first_rule (rs : list (list ttok -> option rule)) (ts : list ttok) : option rule :=
  match rs with [] => None | r :: rest => match r ts with Some x => Some x | None => first_rule rest ts end end.
(** [# ( # tag ...) ...] and [# ( # (expr) ...) ...]: the expression, what follows it in the parentheses, and what follows them.  Each of
    the rules 383-588 comes in these two variants, one after the other. (json_derive/quote/src/lib.rs 383-588.) *)
Definition pounded (ts : list ttok) : option (list ttok * list ttok * list ttok) :=
  match ts with
  | h :: TGrp Paren (h' :: inner) :: rest =>
      if op_is "#" h && op_is "#" h' then
        match inner with
        | TId tag :: more => Some ([TId tag], more, rest)
        | TGrp Paren e :: more => if begins_expr e then Some (e, more, rest) else None
        | _ => None
        end
      else None
  | _ => None
  end.
(** The colon and body in the patterns of json_derive/quote/src/lib.rs 383-588. *)
Definition colon_body (more : list ttok) : option (list ttok) :=
  match more with c :: (_ :: _) as b => if op_is ":" c then Some b else None | _ => None end.
(** [: x ...] and [: _ ...] with at least one token after the name (json_derive/quote/src/lib.rs 432-588.) *)
Definition binder_body (more : list ttok) : option (option str * list ttok) :=
  match colon_body more with
  | Some (TId x :: (_ :: _) as b) => Some (Some x, b)
  | Some (TUnder :: (_ :: _) as b) => Some (None, b)
  | _ => None
  end.
(** What follows the parentheses in the patterns of json_derive/quote/src/lib.rs 383-588. *)
Definition ends_op (w : string) (rest : list ttok) : option (list ttok) :=
  match rest with t :: r => if op_is w t then Some r else None | [] => None end.
(** 383-410 (json_derive/quote/src/lib.rs) *)
Definition rule_bool (want : bool) (ts : list ttok) : option rule :=
  let! p := pounded ts in let '(e, more, rest) := p in
  let! b := colon_body more in let! r := ends_op (if want then "+" else "-") rest in Some (ABool want e b, r).
(** 415-430 (json_derive/quote/src/lib.rs) *)
Definition rule_opt (ts : list ttok) : option rule :=
  let! p := pounded ts in let '(e, more, rest) := p in
  match more with [] => let! r := ends_op "?" rest in Some (AOpt e, r) | _ => None end.
(** 432-463 (json_derive/quote/src/lib.rs) *)
Definition rule_opt_as (ts : list ttok) : option rule :=
  let! p := pounded ts in let '(e, more, rest) := p in
  let! b := binder_body more in let! r := ends_op "?" rest in Some (AOptAs e (fst b) (snd b), r).
(** 468-483 (json_derive/quote/src/lib.rs) *)
Definition rule_each (ts : list ttok) : option rule :=
  let! p := pounded ts in let '(e, more, rest) := p in
  match more with [] => let! r := ends_op "*" rest in Some (AEach e NoSep, r) | _ => None end.
(** 485-504 (json_derive/quote/src/lib.rs) *)
Definition rule_each_between (ts : list ttok) : option rule :=
  let! p := pounded ts in let '(e, more, rest) := p in
  match more, rest with [], s :: rest' => let! r := ends_op "*" rest' in Some (AEach e (Between s), r) | _, _ => None end.
(** 506-521 (json_derive/quote/src/lib.rs) *)
Definition rule_each_after (ts : list ttok) : option rule :=
  let! p := pounded ts in let '(e, more, rest) := p in
  match more with [s] => let! r := ends_op "*" rest in Some (AEach e (After s), r) | _ => None end.
(** 523-534 and 556-567 (json_derive/quote/src/lib.rs) *)
Definition rule_each_as (ts : list ttok) : option rule :=
  let! p := pounded ts in let '(e, more, rest) := p in
  let! b := binder_body more in let! r := ends_op "*" rest in Some (AEachAs e (fst b) (snd b) NoSep, r).
(** 536-555 and 569-588 (json_derive/quote/src/lib.rs) *)
Definition rule_each_as_between (ts : list ttok) : option rule :=
  let! p := pounded ts in let '(e, more, rest) := p in
  let! b := binder_body more in
  match rest with s :: rest' => let! r := ends_op "*" rest' in Some (AEachAs e (fst b) (snd b) (Between s), r) | [] => None end.
(** 593-597 [#(expr)] (json_derive/quote/src/lib.rs) *)
Definition rule_expr (ts : list ttok) : option rule :=
  match ts with
  | h :: TGrp Paren e :: rest => if op_is "#" h && begins_expr e then Some (AText e, rest) else None
  | _ => None
  end.
(** 602-606 [#tag] (json_derive/quote/src/lib.rs) *)
Definition rule_var (ts : list ttok) : option rule :=
  match ts with h :: TId x :: rest => if op_is "#" h then Some (AText [TId x], rest) else None | _ => None end.
(** 611-615 [##] (json_derive/quote/src/lib.rs) *)
Definition rule_hash (ts : list ttok) : option rule :=
  match ts with h :: h' :: rest => if op_is "#" h && op_is "#" h' then Some (ATokens (gen_punct (lit "#")), rest) else None | _ => None end.
(** 622-646 [#![...]] and [#[...]] (json_derive/quote/src/lib.rs) *)
Definition rule_inner_attr (ts : list ttok) : option rule :=
  match ts with
  | h :: b :: TGrp Bracket body :: rest =>
      if op_is "#" h && op_is "!" b then Some (AGroup (gen_punct (lit "#") ++ gen_punct (lit "!")) Bracket body [], rest) else None
  | _ => None
  end.
(** json_derive/quote/src/lib.rs 635-646 [#[...]] *)
Definition rule_attr (ts : list ttok) : option rule :=
  match ts with
  | h :: TGrp Bracket body :: rest => if op_is "#" h then Some (AGroup (gen_punct (lit "#")) Bracket body [], rest) else None
  | _ => None
  end.
(** 648-723: an exclamation mark before a group, with and without semicolon after it; 725-791: a group, with and without semicolon (json_derive/quote/src/lib.rs) *)
Definition group_of (t : ttok) : option (delim * list ttok) :=
  match t with TGrp NoDelim _ => None | TGrp d b => Some (d, b) | _ => None end.
(** json_derive/quote/src/lib.rs 648-686 *)
Definition rule_bang_semi (ts : list ttok) : option rule :=
  match ts with
  | b :: g :: rest => if op_is "!" b then let! db := group_of g in let! r := ends_op ";" rest in
                        Some (AGroup (gen_punct (lit "!")) (fst db) (snd db) (gen_punct (lit ";")), r) else None
  | _ => None
  end.
(** json_derive/quote/src/lib.rs 688-723 *)
Definition rule_bang (ts : list ttok) : option rule :=
  match ts with
  | b :: g :: rest => if op_is "!" b then let! db := group_of g in Some (AGroup (gen_punct (lit "!")) (fst db) (snd db) [], rest) else None
  | _ => None
  end.
(** json_derive/quote/src/lib.rs 725-760 *)
Definition rule_group_semi (ts : list ttok) : option rule :=
  match ts with
  | g :: rest => let! db := group_of g in let! r := ends_op ";" rest in Some (AGroup [] (fst db) (snd db) (gen_punct (lit ";")), r)
  | _ => None
  end.
(** json_derive/quote/src/lib.rs 762-791 *)
Definition rule_group (ts : list ttok) : option rule :=
  match ts with g :: rest => let! db := group_of g in Some (AGroup [] (fst db) (snd db) [], rest) | _ => None end.
(** 796-1011 (json_derive/quote/src/lib.rs) *)
Definition rule_op (ts : list ttok) : option rule :=
  match ts with t :: rest => let! out := op_rule op_rules t in Some (ATokens out, rest) | [] => None end.
(** json_derive/quote/src/lib.rs 383-1011: the rules in their order *)
Definition rules : list (list ttok -> option rule) :=
  [rule_bool true; rule_bool false; rule_opt; rule_opt_as; rule_each; rule_each_between; rule_each_after; rule_each_as; rule_each_as_between;
   rule_expr; rule_var; rule_hash; rule_inner_attr; rule_attr; rule_bang_semi; rule_bang; rule_group_semi; rule_group; rule_op].
(** [#( @ ... )], 326-378: not a template here; [QuoteAt] models these rules. (json_derive/quote/src/lib.rs) *)
Definition modified (ts : list ttok) : bool :=
  match ts with h :: TGrp Paren (a :: _) :: _ => op_is "#" h && op_is "@" a | _ => false end.

(** * Expansion *)
(** The variable of json_derive/quote/src/lib.rs 432-588. *)
Definition bind_var (x : option str) (v : value) (e : env) : env := match x with Some x => (x, v) :: e | None => e end.
(** The loops of 468-588; [body] is [None] if the elements themselves are inserted. (json_derive/quote/src/lib.rs) *)
Fixpoint each (f : env -> list ttok -> option (list ptok)) (e : env) (x : option str) (body : option (list ttok)) (s : sep) (first : bool)
  (vs : list value) : option (list ptok) :=
  match vs with
  | [] => Some []
  | v :: r =>
      let e' := bind_var x v e in
      let! a := match s with Between t => if first then Some [] else f e' [t] | _ => Some [] end in
      let! b := match body with Some ts => f e' ts | None => text_of v end in
      let! c := match s with After t => f e' [t] | _ => Some [] end in
      let! d := each f e x body s false r in
      Some (a ++ b ++ c ++ d)
  end.
(** json_derive/quote/src/lib.rs 383-1011: the right-hand sides of the rules *)
Definition act (f : env -> list ttok -> option (list ptok)) (e : env) (a : action) : option (list ptok) :=
  match a with
  | ABool want src body => let! v := eval e src in match v with VBool b => if Bool.eqb b want then f e body else Some [] | _ => None end
  | AOpt src => let! v := eval e src in match v with VOpt (Some w) => text_of w | VOpt None => Some [] | _ => None end
  | AOptAs src x body => let! v := eval e src in match v with VOpt (Some w) => f (bind_var x w e) body | VOpt None => Some [] | _ => None end
  | AEach src s => let! v := eval e src in let! vs := items v in each f e None None s true vs
  | AEachAs src x body s => let! v := eval e src in let! vs := items v in each f e x (Some body) s true vs
  | AText src => let! v := eval e src in text_of v
  | ATokens ts => Some ts
  | AGroup before d body after => let! ts := f e body in Some (before ++ [PGrp d ts] ++ after)
  end.
(** [$($ident:ident)*], with which every rule begins (json_derive/quote/src/lib.rs 383-1011.) *)
Fixpoint leading (ts : list ttok) : list str * list ttok :=
  match ts with TId s :: r => (s :: fst (leading r), snd (leading r)) | _ => ([], ts) end.
(** One step of [__append_to_token!]: the rules above, 1016-1022 [common case] twice, and 1026-1028 [final case]. (json_derive/quote/src/lib.rs) *)
Definition step (f : env -> list ttok -> option (list ptok)) (e : env) (ts : list ttok) : option (list ptok) :=
  let '(ids, r) := leading ts in
  if modified r then None else
  match first_rule rules r with
  | Some (a, rest) => let! out := act f e a in let! more := f e rest in Some (map PId ids ++ out ++ more)
  | None =>
      match r with
      | [] => Some (map PId ids)
      | _ => match ts with
             | t :: rest => let! out := plain t in let! more := f e rest in Some (out ++ more)
             | [] => Some []
             end
      end
  end.
(** json_derive/quote/src/lib.rs 319-1029 [__append_to_token!] *)
Fixpoint expand (fuel : nat) (e : env) (ts : list ttok) : option (list ptok) :=
  match fuel with O => None | S n => step (expand n) e ts end.
(** Not code: the fuel for json_derive/quote/src/lib.rs 319-1029. *)
Fixpoint size (t : ttok) : nat :=
  match t with TGrp _ ts => S (fold_right (fun t n => (size t + n)%nat) O ts) | _ => 1%nat end.
(** Not code: the fuel for json_derive/quote/src/lib.rs 319-1029. *)
Definition sizes (ts : list ttok) : nat := fold_right (fun t n => (size t + n)%nat) O ts.
(** 102-107 [quote!]: the last of its rules.  The recursion is as deep as the template has tokens; the compiler's recursion limit is not
    modelled. (json_derive/quote/src/lib.rs) *)
Definition quote (e : env) (ts : list ttok) : option (list ptok) := expand (S (sizes ts)) e ts.

(** * Reading templates *)
(** The compiler's reader of tokens, for the texts of templates: words, decimal numbers, plain string literals, lifetimes, operators and groups.
    It is only used to write templates as they stand in the source. (json_derive/quote/src/lib.rs 1076-1101, json_derive/src/lib.rs 35-118.) *)
Definition alpha (c : N) : bool := ((97 <=? c) && (c <=? 122)) || ((65 <=? c) && (c <=? 90)) || (c =? 95).
(** The compiler's reader of tokens; see [alpha], and json_derive/quote/src/lib.rs 1076-1101. *)
Definition word_char (c : N) : bool := alpha c || is_digit c.
(** The body of a string literal: up to the first quote without backslash. (json_derive/src/lib.rs 35-118.) *)
Fixpoint string_body (s : str) : str * str :=
  match s with
  | 92 :: c :: r => let '(a, b) := string_body r in (92 :: c :: a, b)
  | c :: r => if c =? 34 then ([], r) else let '(a, b) := string_body r in (c :: a, b)
  | [] => ([], [])
  end.
(** The compiler's reader of tokens, for the templates of json_derive/src/lib.rs 35-118. *)
Definition opening (c : N) : option delim := if c =? 40 then Some Paren else if c =? 123 then Some Brace else if c =? 91 then Some Bracket else None.
(** The compiler's reader of tokens, for the templates of json_derive/src/lib.rs 35-118. *)
Definition closing (c : N) : option delim := if c =? 41 then Some Paren else if c =? 125 then Some Brace else if c =? 93 then Some Bracket else None.
(** The operators of json_derive/quote/src/lib.rs 796-1011. *)
Definition is_op (o : str) : bool := existsb (fun p => str_eqb o (lit (fst p))) op_rules.
(** The compiler's reader of tokens, for the templates of json_derive/src/lib.rs 35-118. *)
Fixpoint scan (fuel : nat) (stack : list (delim * list ttok)) (cur : list ttok) (s : str) : option (list ttok) :=
  match fuel with
  | O => None
  | S f =>
      match s with
      | [] => match stack with [] => Some (rev cur) | _ => None end
      | c :: r =>
          if (c =? 32) || (c =? 10) then scan f stack cur r
          else if c =? 34 then let '(a, b) := string_body r in scan f stack (TLit (34 :: a ++ [34]) :: cur) b
          else if c =? 39 then scan f stack (TLife (take_while word_char r) :: cur) (skip_while word_char r)
          else if is_digit c then scan f stack (TLit (take_while word_char s) :: cur) (skip_while word_char s)
          else if alpha c then
            let w := take_while word_char s in
            scan f stack ((if str_eqb w (lit "_") then TUnder else TId w) :: cur) (skip_while word_char s)
          else
            match opening c, closing c, stack with
            | Some d, _, _ => scan f ((d, cur) :: stack) [] r
            | None, Some d, (d', outer) :: st => if delim_eqb d d' then scan f st (TGrp d (rev cur) :: outer) r else None
            | None, Some _, [] => None
            | None, None, _ =>
                match s with
                | a :: b :: x :: r3 => if is_op [a; b; x] then scan f stack (TOp [a; b; x] :: cur) r3
                                       else if is_op [a; b] then scan f stack (TOp [a; b] :: cur) (x :: r3)
                                       else if is_op [a] then scan f stack (TOp [a] :: cur) (b :: x :: r3) else None
                | a :: b :: r2 => if is_op [a; b] then scan f stack (TOp [a; b] :: cur) r2
                                  else if is_op [a] then scan f stack (TOp [a] :: cur) (b :: r2) else None
                | [a] => if is_op [a] then scan f stack (TOp [a] :: cur) [] else None
                | [] => None
                end
            end
      end
  end.
(** The compiler's reader of tokens, for the templates of json_derive/src/lib.rs 35-118. *)
Definition lex (text : string) : list ttok :=
  match scan (S (List.length (lit text))) [] [] (lit text) with Some ts => ts | None => [TUnder] end.
Example reads_tokens : lex "a::b<'x>(_) ->..= #(#v:x ""q\""r"" 12,)*;" =
  [TId (lit "a"); TOp (lit "::"); TId (lit "b"); TOp (lit "<"); TLife (lit "x"); TOp (lit ">"); TGrp Paren [TUnder]; TOp (lit "->"); TOp (lit "..=");
   TOp (lit "#"); TGrp Paren [TOp (lit "#"); TId (lit "v"); TOp (lit ":"); TId (lit "x"); TLit (34 :: lit "q\" ++ [34; 114; 34]); TLit (lit "12"); TOp (lit ",")];
   TOp (lit "*"); TOp (lit ";")].
Proof. vm_compute. reflexivity. Qed.

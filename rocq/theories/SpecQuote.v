(** What templates mean, after the documentation of [quote!] (quote/src/lib.rs 28-46): the forms a template is made of, how each is written,
    and what it stands for. *)
From Verif Require Import Base Tokens Quote.

(** The variable or expression of a form: [#x] or [#(e)]. *)
Inductive source := SVar (x : str) | SExpr (e : list ttok).
Inductive tmpl :=
| Token (t : ttok)                                             (* any token but a hash or a group: stands for itself *)
| Grouped (d : delim) (body : list tmpl)
| Hash                                                         (* ## : a single hash *)
| Attribute (inner : bool) (body : list tmpl)                  (* #[...] or #![...] *)
| Var (x : str)                                                (* #x : the text of x *)
| Expr (e : list ttok)                                         (* #(e) : the text of e *)
| When (want : bool) (s : source) (body : list tmpl)           (* #(#s: body)+ or #(#s: body)- *)
| Opt (s : source)                                             (* #(#s)? *)
| OptAs (s : source) (x : option str) (body : list tmpl)       (* #(#s:x body)? or #(#s:_ body)? *)
| Each (s : source) (p : sep)                                  (* #(#s)* or #(#s),* or #(#s,)* *)
| EachAs (s : source) (x : option str) (body : list tmpl) (p : option ttok).   (* #(#s:x body)* or #(#s:x body),* *)

(** How they are written. *)
Definition op (w : string) : ttok := TOp (lit w).
Definition source_toks (s : source) : list ttok := op "#" :: match s with SVar x => [TId x] | SExpr e => [TGrp Paren e] end.
Definition binder_toks (x : option str) : list ttok := op ":" :: [match x with Some x => TId x | None => TUnder end].
Fixpoint written (t : tmpl) : list ttok :=
  match t with
  | Token t => [t]
  | Grouped d body => [TGrp d (flat_map written body)]
  | Hash => [op "#"; op "#"]
  | Attribute inner body => op "#" :: (if inner then [op "!"] else []) ++ [TGrp Bracket (flat_map written body)]
  | Var x => [op "#"; TId x]
  | Expr e => [op "#"; TGrp Paren e]
  | When want s body => [op "#"; TGrp Paren (source_toks s ++ op ":" :: flat_map written body); op (if want then "+" else "-")]
  | Opt s => [op "#"; TGrp Paren (source_toks s); op "?"]
  | OptAs s x body => [op "#"; TGrp Paren (source_toks s ++ binder_toks x ++ flat_map written body); op "?"]
  | Each s NoSep => [op "#"; TGrp Paren (source_toks s); op "*"]
  | Each s (Between t) => [op "#"; TGrp Paren (source_toks s); t; op "*"]
  | Each s (After t) => [op "#"; TGrp Paren (source_toks s ++ [t]); op "*"]
  | EachAs s x body p => [op "#"; TGrp Paren (source_toks s ++ binder_toks x ++ flat_map written body)] ++ match p with Some t => [t] | None => [] end ++ [op "*"]
  end.

(** * Values *)
(** The innermost variable with the name. *)
Inductive finds (x : str) : list (str * value) -> value -> Prop :=
| find_here v e : finds x ((x, v) :: e) v
| find_later y w e v : x <> y -> finds x e v -> finds x ((y, w) :: e) v.
(** Decimal digits without leading zeros. *)
Inductive decimal : str -> nat -> Prop :=
| dec_one k : (k < 10)%nat -> decimal [48 + N.of_nat k] k
| dec_more s n k : decimal s n -> (0 < n)%nat -> (k < 10)%nat -> decimal (s ++ [48 + N.of_nat k]) (10 * n + k).
(** What a value is written as. *)
Inductive shows : value -> list ptok -> Prop :=
| shows_text ts ms : shows (VObj (Some ts) ms) ts
| shows_true : shows (VBool true) [PId (lit "true")]
| shows_false : shows (VBool false) [PId (lit "false")].
(** Fields, tuple elements and methods. *)
Inductive member : value -> str -> value -> Prop :=
| member_of t ms f v : finds f ms v -> member (VObj t ms) f v
| member_len l d : decimal d (List.length l) -> member (VList l) (lit "len()") (VObj (Some [PLit d]) []).
(** What can be iterated over. *)
Inductive elements : value -> list value -> Prop :=
| elements_list l : elements (VList l) l
| elements_some v : elements (VOpt (Some v)) [v]
| elements_none : elements (VOpt None) [].
(** The value of an expression: a variable, and behind it fields, elements and calls of methods; a reference is what it refers to. *)
Inductive value_of (e : env) : list ttok -> value -> Prop :=
| v_var x v : finds x e v -> value_of e [TId x] v
| v_ref ts v : value_of e ts v -> value_of e (op "&" :: ts) v
| v_field ts v f w : value_of e ts v -> member v f w -> value_of e (ts ++ [op "."; TId f]) w
| v_element ts v n w : value_of e ts v -> member v n w -> value_of e (ts ++ [op "."; TLit n]) w
| v_call ts v f w : value_of e ts v -> member v (f ++ lit "()") w -> value_of e (ts ++ [op "."; TId f; TGrp Paren []]) w.
Definition source_value (e : env) (s : source) (v : value) : Prop :=
  match s with SVar x => finds x e v | SExpr toks => value_of e toks v end.
(** With one more variable, if it has a name. *)
Definition with_var (x : option str) (v : value) (e : env) : env := match x with Some x => (x, v) :: e | None => e end.

(** * Meaning *)
(** What the forms stand for.  [means e ts out]: with the variables [e], the template [ts] stands for the tokens [out]. *)
(** A token in the generated code: the operators keep their characters together. *)
Inductive itself : ttok -> list ptok -> Prop :=
| self_word s : itself (TId s) [PId s]
| self_under : itself TUnder [PId (lit "_")]
| self_op1 a : itself (TOp [a]) [PPunct a false]
| self_op2 a b : itself (TOp [a; b]) [PPunct a true; PPunct b false]
| self_op3 a b c : itself (TOp [a; b; c]) [PPunct a true; PPunct b true; PPunct c false]
| self_lit r : itself (TLit r) [PLit r]
| self_life a : itself (TLife a) [PPunct 39 true; PId a].
Definition hash : ptok := PPunct 35 false.
Definition bang : ptok := PPunct 33 false.
(** The elements one after the other, with [s] between them. *)
Fixpoint interleave (s : list ptok) (l : list (list ptok)) : list ptok :=
  match l with [] => [] | [a] => a | a :: r => a ++ s ++ interleave s r end.
Inductive joined : sep -> list (list ptok) -> list ptok -> Prop :=
| join_none l : joined NoSep l (List.concat l)
| join_between t s l : itself t s -> joined (Between t) l (interleave s l)
| join_after t s l : itself t s -> joined (After t) l (flat_map (fun a => a ++ s) l).
Inductive means : env -> tmpl -> list ptok -> Prop :=
| m_token e t out : itself t out -> means e (Token t) out
| m_group e d body out : all_mean e body out -> means e (Grouped d body) [PGrp d out]
| m_hash e : means e Hash [hash]
| m_attr e body out : all_mean e body out -> means e (Attribute false body) [hash; PGrp Bracket out]
| m_inner_attr e body out : all_mean e body out -> means e (Attribute true body) [hash; bang; PGrp Bracket out]
| m_var e x v out : finds x e v -> shows v out -> means e (Var x) out
| m_expr e toks v out : value_of e toks v -> shows v out -> means e (Expr toks) out
| m_when e b s body out : source_value e s (VBool b) -> all_mean e body out -> means e (When b s body) out
| m_unless e b s body : source_value e s (VBool (negb b)) -> means e (When b s body) []
| m_opt e s v out : source_value e s (VOpt (Some v)) -> shows v out -> means e (Opt s) out
| m_opt_none e s : source_value e s (VOpt None) -> means e (Opt s) []
| m_opt_as e s x v body out : source_value e s (VOpt (Some v)) -> all_mean (with_var x v e) body out -> means e (OptAs s x body) out
| m_opt_as_none e s x body : source_value e s (VOpt None) -> means e (OptAs s x body) []
| m_each e s p v vs outs out : source_value e s v -> elements v vs -> Forall2 shows vs outs -> joined p outs out ->
    means e (Each s p) out
| m_each_as e s x body p v vs outs out : source_value e s v -> elements v vs ->
    each_means e x body vs outs -> joined (match p with Some t => Between t | None => NoSep end) outs out -> means e (EachAs s x body p) out
with all_mean : env -> list tmpl -> list ptok -> Prop :=
| all_nil e : all_mean e [] []
| all_cons e t ts a b : means e t a -> all_mean e ts b -> all_mean e (t :: ts) (a ++ b)
with each_means : env -> option str -> list tmpl -> list value -> list (list ptok) -> Prop :=
| each_nil e x body : each_means e x body [] []
| each_cons e x body v vs o os : all_mean (with_var x v e) body o -> each_means e x body vs os -> each_means e x body (v :: vs) (o :: os).

(** The templates that say what they mean.  Tokens: no lone hash, no operator but Rust's.  Expressions are not empty and do not start with a hash.  A separator can be
    any token that stands for itself except those that end another form: the question mark and the star, and where there is a body also plus and
    minus (which would be taken as the mark of a boolean form). *)
Definition plain_tok (t : ttok) : bool := match t with TGrp _ _ => false | TOp o => is_op o && negb (str_eqb o (lit "#")) | _ => true end.
Definition expr_ok (e : list ttok) : bool :=
  match e with TId _ :: _ => true | TOp o :: _ => str_eqb o (lit "&") | _ => false end.
Definition source_ok (s : source) : bool := match s with SVar _ => true | SExpr e => expr_ok e end.
Definition sep_ok (bad : list string) (t : ttok) : bool := plain_tok t && negb (existsb (fun w => op_is w t) bad).
Definition nonempty_body (l : list tmpl) : bool := match l with [] => false | _ => true end.
Fixpoint tmpl_ok (t : tmpl) : bool :=
  match t with
  | Token t => plain_tok t
  | Grouped d body => negb (delim_eqb d NoDelim) && forallb tmpl_ok body
  | Hash => true
  | Attribute _ body => forallb tmpl_ok body
  | Var _ => true
  | Expr e => expr_ok e
  | When _ s body => source_ok s && nonempty_body body && forallb tmpl_ok body
  | Opt s => source_ok s
  | OptAs s _ body => source_ok s && nonempty_body body && forallb tmpl_ok body
  | Each s NoSep => source_ok s
  | Each s (Between t) => source_ok s && sep_ok ["?"; "*"]%string t
  | Each s (After t) => source_ok s && plain_tok t
  | EachAs s _ body p => source_ok s && nonempty_body body && forallb tmpl_ok body &&
                         match p with Some t => sep_ok ["?"; "*"; "+"; "-"]%string t | None => true end
  end.

(** Tokens without a hash, and how they look in the generated code. *)
Fixpoint no_hash (t : ttok) : bool :=
  match t with TGrp d ts => negb (delim_eqb d NoDelim) && forallb no_hash ts | t => plain_tok t end.
Definition split_op (o : str) : list ptok :=
  match o with [a] => [PPunct a false] | [a; b] => [PPunct a true; PPunct b false] | [a; b; c] => [PPunct a true; PPunct b true; PPunct c false] | _ => [] end.
Fixpoint copied (t : ttok) : list ptok :=
  match t with
  | TId s => [PId s]
  | TUnder => [PId (lit "_")]
  | TOp o => split_op o
  | TLit r => [PLit r]
  | TLife a => [PPunct 39 true; PId a]
  | TGrp d ts => [PGrp d (flat_map copied ts)]
  end.
(** The code with the text [text]. *)
Definition code (text : string) : list ptok := flat_map copied (lex text).

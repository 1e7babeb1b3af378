(** Struct declarations as Rust programmers write them, their tokens, and what the derive macros should make of them. *)
From Verif Require Import Base Tokens SpecAttr.

(** ** Types *)
(** A path [a::b::C<..>], a tuple or array (its inside is opaque), a function type or closure trait, or (as an argument or bound) a lifetime. *)
Inductive rname :=
| RLife (a : str)
| RPath (prefix : list str) (id : str) (args : list rarg)
| RGroup (round : bool) (inside : list token)
| RFn (word : str) (params : list token) (ret : option rname)
(** A generic argument, perhaps with the name of an associated type: [Item = T]. *)
with rarg := RArg (binding : option str) (t : rtype)
(** A name, [&'a mut name], or [dyn A + B]. *)
with rtype :=
| RName (n : rname)
| RRef (lifetime : option str) (mutable : bool) (n : rname)
| RDyn (ns : list rname).

Definition life (a : str) : list token := [Punct 39; Ident a].
Fixpoint name_toks (n : rname) : list token :=
  match n with
  | RLife a => life a
  | RPath pre id args =>
      flat_map (fun s => [Ident s; Punct 58; Punct 58]) pre ++ Ident id ::
      match args with [] => [] | _ => Punct 60 :: sep_by 44 (map arg_toks args) ++ [Punct 62] end
  | RGroup round inside => [Group (if round then Paren else Bracket) inside]
  | RFn w ps ret => [Ident w; Group Paren ps] ++ match ret with Some n => Punct 45 :: Punct 62 :: name_toks n | None => [] end
  end
with arg_toks (a : rarg) : list token :=
  match a with
  | RArg (Some x) t => Ident x :: Punct 61 :: type_toks t
  | RArg None t => type_toks t
  end
with type_toks (t : rtype) : list token :=
  match t with
  | RName n => name_toks n
  | RRef lt m n => Punct 38 :: match lt with Some a => life a | None => [] end ++ (if m then [Ident (lit "mut")] else []) ++ name_toks n
  | RDyn ns => Ident (lit "dyn") :: sep_by 43 (map name_toks ns)
  end.

(** The words of the language that the macros look for. *)
Definition reserved (s : str) : bool :=
  existsb (fun w => str_eqb s (lit w)) ["mut"; "dyn"; "impl"; "struct"; "where"; "pub"; "async"; "const"; "unsafe"; "extern"; "fn"; "true"; "false"]%string.
Definition fn_words : list string := ["Fn"; "FnMut"; "FnOnce"; "fn"]%string.
(** Written as Rust demands: identifiers are not reserved words, only arguments and bounds can be lifetimes, a function's result is not a
    path with a prefix (this last is a restriction of the model of what programmers write). *)
Fixpoint name_ok (n : rname) : bool :=
  match n with
  | RLife a => true
  | RPath pre id args => forallb (fun s => negb (reserved s)) pre && negb (reserved id) && forallb arg_ok args
  | RGroup _ _ => true
  | RFn w _ ret => existsb (fun x => str_eqb w (lit x)) fn_words &&
      match ret with Some (RPath [] id args as n) => name_ok n | Some (RGroup _ _) | None => true | _ => false end
  end
with arg_ok (a : rarg) : bool := let '(RArg b t) := a in match b with Some x => negb (reserved x) | None => true end && type_ok t
with type_ok (t : rtype) : bool :=
  match t with
  | RName n => name_ok n
  | RRef _ _ n => name_ok n && match n with RLife _ => false | _ => true end
  | RDyn ns => forallb name_ok ns && match ns with [] => false | _ => true end
  end.
Definition field_type_ok (t : rtype) : bool := type_ok t && match t with RName (RLife _) => false | _ => true end.

(** The types that come out of the macro as they went in, as an argument of another type: an immutable reference with a lifetime must be to a
    tuple, array or slice, and a named argument must be a plain name. *)
Fixpoint name_kept (n : rname) : bool :=
  match n with RPath _ _ args => forallb arg_kept args | _ => true end
with arg_kept (a : rarg) : bool :=
  let '(RArg b t) := a in type_kept t && match b, t with Some _, RName _ => true | Some _, _ => false | None, _ => true end
with type_kept (t : rtype) : bool :=
  match t with
  | RName n => name_kept n
  | RRef (Some _) false n => name_kept n && match n with RGroup _ _ => true | _ => false end
  | RRef _ _ n => name_kept n
  | RDyn ns => forallb name_kept ns
  end.
(** As the type of a field: no lifetime and no [mut] on an outermost reference. *)
Definition field_type_kept (t : rtype) : bool := match t with RRef (Some _) _ _ | RRef _ true _ => false | _ => type_kept t end.

(** ** String literals *)
(** The text between the quotes of a string literal, and the string it stands for. *)
Definition hex_digit_value (c : N) : option N :=
  if (48 <=? c) && (c <=? 57) then Some (c - 48) else if (65 <=? c) && (c <=? 70) then Some (c - 55)
  else if (97 <=? c) && (c <=? 102) then Some (c - 87) else None.
Definition blank (c : N) : Prop := In c [32; 9; 10; 13].
Inductive Unescape : str -> str -> Prop :=
| un_nil : Unescape [] []
| un_char c r v : c <> 34 -> c <> 92 -> Unescape r v -> Unescape (c :: r) (c :: v)
| un_simple e c r v : In (e, c) [(110, 10); (114, 13); (116, 9); (92, 92); (48, 0); (39, 39); (34, 34)] -> Unescape r v -> Unescape (92 :: e :: r) (c :: v)
| un_byte a b x y r v : hex_digit_value a = Some x -> hex_digit_value b = Some y -> x < 8 -> Unescape r v ->
    Unescape (92 :: 120 :: a :: b :: r) (16 * x + y :: v)
| un_unicode ds xs r v : Forall2 (fun d x => hex_digit_value d = Some x) ds xs -> (1 <= List.length ds <= 6)%nat ->
    is_scalar (fold_left (fun n x => 16 * n + x) xs 0) = true -> Unescape r v ->
    Unescape (92 :: 117 :: 123 :: ds ++ 125 :: r) (fold_left (fun n x => 16 * n + x) xs 0 :: v)
| un_line ws r v : Forall blank ws -> match r with c :: _ => ~ blank c | [] => True end -> Unescape r v -> Unescape (92 :: 10 :: ws ++ r) v.
Definition quoted (body : str) : str := 34 :: body ++ [34].
Definition raw_quoted (hashes : nat) (body : str) : str := 114 :: repeat 35 hashes ++ quoted body ++ repeat 35 hashes.
(** The literal token [raw] stands for the string [v]. *)
Inductive StringLit : str -> str -> Prop :=
| sl_plain body v : Unescape body v -> StringLit (quoted body) v
| sl_raw n body : ~ (exists a b, body = a ++ 34 :: repeat 35 n ++ b) -> StringLit (raw_quoted n body) body.
(** The literals the macros can handle: quoted ones that do not end with an escaped quote; raw ones with at most two hashes, neither quotes
    nor backslashes inside, and not just the text of their own opening inside. *)
Definition plain_lit (raw : str) : Prop :=
  (exists body v, raw = quoted body /\ Unescape body v /\ ~ (exists b, body = b ++ [34])) \/
  (exists n body, raw = raw_quoted n body /\ (n <= 2)%nat /\ ~ In 34 body /\ ~ In 92 body /\ body <> 114 :: repeat 35 n).

(** ** Fields and structs *)
Inductive rvis := Private | Public | PublicIn (ts : list token).
Definition vis_toks (v : rvis) : list token :=
  match v with Private => [] | Public => [Ident (lit "pub")] | PublicIn ts => [Ident (lit "pub"); Group Paren ts] end.
(** What is read for it. *)
Definition vis_value (v : rvis) : visibility := match v with Private => None | Public => Some None | PublicIn ts => Some (Some ts) end.
Record rfield := RField { rf_attrs : list rmeta; rf_vis : rvis; rf_name : str; rf_type : rtype }.
Definition field_toks (f : rfield) : list token :=
  flat_map attr_toks (rf_attrs f) ++ vis_toks (rf_vis f) ++ Ident (rf_name f) :: Punct 58 :: type_toks (rf_type f).
(** It can be read. *)
Definition field_readable (f : rfield) : Prop := Forall attr_ok (rf_attrs f) /\ reserved (rf_name f) = false /\ field_type_ok (rf_type f) = true.
(** The field has the attribute [ignore]. *)
Definition is_ignored (f : rfield) : bool :=
  existsb (fun a => match a with WWord w => str_eqb w (lit "ignore") | _ => false end) (rf_attrs f).
(** The values of its attributes [key = ..]. *)
Definition key_values (f : rfield) : list rvalue :=
  flat_map (fun a => match a with WPair k _ v => if str_eqb k (lit "key") then [v] else [] | _ => [] end) (rf_attrs f).
(** [v] is the key of the field: what its first [key] attribute says, else its name. *)
Definition key_is (f : rfield) (v : str) : Prop :=
  match key_values f with Plain l :: _ => StringLit (written l) v | Minus _ :: _ => False | [] => v = rf_name f end.
(** Its key can be taken, if it needs one: the first [key] attribute is a string that the macros can handle, or the name is plain. *)
Definition key_fine (f : rfield) : Prop :=
  match key_values f with Plain l :: _ => plain_lit (written l) | Minus _ :: _ => False | [] => ~ In 34 (rf_name f) /\ ~ In 92 (rf_name f) end.
Definition field_ok (f : rfield) : Prop := field_readable f /\ (is_ignored f = false -> key_fine f).

(** Bounds, with [?Sized] and [Sized]; generic parameters and where clauses ['a: bounds], [T: bounds], [const N: type], perhaps with a
    default type. *)
Inductive rbound := BName (n : rname) | BMaybe | BSized.
Definition bound_toks (b : rbound) : list token :=
  match b with BName n => name_toks n | BMaybe => [Punct 63; Ident (lit "Sized")] | BSized => [Ident (lit "Sized")] end.
Inductive rkind := KLife | KType | KConst.
Record rparam := RParam { rp_kind : rkind; rp_name : str; rp_bounds : list rbound; rp_default : option rtype }.
(** How it is declared, and how it is used as an argument. *)
Definition param_arg (p : rparam) : list token := match rp_kind p with KLife => life (rp_name p) | _ => [Ident (rp_name p)] end.
Definition param_name (p : rparam) : list token := match rp_kind p with KConst => [Ident (lit "const"); Ident (rp_name p)] | _ => param_arg p end.
Definition param_toks (p : rparam) : list token :=
  param_name p ++ match rp_bounds p with [] => [] | bs => Punct 58 :: sep_by 43 (map bound_toks bs) end ++
  match rp_default p with Some t => Punct 61 :: type_toks t | None => [] end.
Definition bound_ok (b : rbound) : bool :=
  match b with
  | BName (RPath _ id args as n) => name_ok n && negb (str_eqb id (lit "Sized"))
  | BName n => name_ok n
  | BMaybe | BSized => true
  end.
Definition bound_kept (b : rbound) : bool := match b with BName n => name_kept n | BMaybe | BSized => true end.
Definition param_ok (p : rparam) : bool :=
  negb (reserved (rp_name p)) && forallb bound_ok (rp_bounds p) && match rp_default p with Some t => field_type_ok t | None => true end.
Definition param_kept (p : rparam) : bool := forallb bound_kept (rp_bounds p) && match rp_default p with Some t => type_kept t | None => true end.
(** Of [?Sized] and [Sized] the last one counts. *)
Definition unsized (bs : list rbound) : bool := fold_left (fun u b => match b with BMaybe => true | BSized => false | BName _ => u end) bs false.
(** The order the bounds come out in: traits, lifetimes, [?Sized] (once). *)
Definition is_trait (b : rbound) : bool := match b with BName (RLife _) | BMaybe | BSized => false | BName _ => true end.
Definition is_life (b : rbound) : bool := match b with BName (RLife _) => true | _ => false end.
Definition sorted_bounds (bs : list rbound) : list rbound := filter is_trait bs ++ filter is_life bs ++ if unsized bs then [BMaybe] else [].
(** What an implementation has to declare for it: no default. *)
Definition param_meant (p : rparam) : rparam := RParam (rp_kind p) (rp_name p) (sorted_bounds (rp_bounds p)) None.
(** What comes out of the macro: a constant becomes a lifetime, and the default stays. *)
Definition param_out (p : rparam) : rparam :=
  RParam match rp_kind p with KConst => KLife | k => k end (rp_name p) (sorted_bounds (rp_bounds p)) (rp_default p).
(** Neither a constant nor with a default. *)
Definition param_plain (p : rparam) : bool := match rp_kind p, rp_default p with KConst, _ | _, Some _ => false | _, None => true end.

Record rstruct := RStruct {
  rs_attrs : list rmeta; rs_vis : rvis; rs_name : str; rs_params : option (list rparam * bool); rs_where : option (list rparam * bool);
  rs_fields : list rfield; rs_comma : bool (* the booleans: a comma after the last one *)
}.
Definition comma (b : bool) : list token := if b then [Punct 44] else [].
Definition angles (l : list (list token)) : list token := Punct 60 :: sep_by 44 l ++ [Punct 62].
Definition struct_toks (s : rstruct) : list token :=
  flat_map attr_toks (rs_attrs s) ++ vis_toks (rs_vis s) ++ [Ident (lit "struct"); Ident (rs_name s)] ++
  match rs_params s with Some (ps, c) => Punct 60 :: sep_by 44 (map param_toks ps) ++ comma c ++ [Punct 62] | None => [] end ++
  match rs_where s with Some (ps, c) => Ident (lit "where") :: sep_by 44 (map param_toks ps) ++ comma c | None => [] end ++
  [Group Brace (sep_by 44 (map field_toks (rs_fields s)) ++ comma (rs_comma s))].
Definition struct_ok (s : rstruct) : Prop :=
  Forall attr_ok (rs_attrs s) /\
  match rs_params s with Some (ps, _) => forallb param_ok ps = true | None => True end /\
  match rs_where s with Some (ps, _) => forallb param_ok ps = true | None => True end /\
  rs_fields s <> [] /\ Forall field_ok (rs_fields s).
Definition struct_kept (s : rstruct) : bool :=
  match rs_params s with Some (ps, _) => forallb param_kept ps | None => true end &&
  match rs_where s with Some (ps, _) => forallb param_kept ps | None => true end.
Definition struct_plain (s : rstruct) : bool :=
  match rs_params s with Some (ps, _) => forallb param_plain ps | None => true end &&
  match rs_where s with Some (ps, _) => forallb param_plain ps | None => true end.
(** The texts of the implementation's header, for any way of declaring parameters. *)
Definition header_with (out : rparam -> rparam) (s : rstruct) (h : header) : Prop :=
  h_generics h = match rs_params s with Some ((_ :: _) as ps, _) => angles (map (fun p => param_toks (out p)) ps) | _ => [] end /\
  h_self h = Ident (rs_name s) :: match rs_params s with Some ((_ :: _) as ps, _) => angles (map (fun p => param_arg (out p)) ps) | _ => [] end /\
  h_where h = match rs_where s with Some ((_ :: _) as ps, _) => Ident (lit "where") :: sep_by 44 (map (fun p => param_toks (out p)) ps) | _ => [] end.
(** The header it should be. *)
Definition header_is : rstruct -> header -> Prop := header_with param_meant.
(** The type that the code generated for a field mentions: the declared one, but without the lifetime and [mut] of an outermost reference. *)
Definition type_used (t : rtype) : rtype := match t with RRef _ _ n => RRef None false n | _ => t end.
Definition type_used_kept (t : rtype) : bool := match t with RRef _ _ n => name_kept n | _ => type_kept t end.
(** The fields that take part, and those that do not. *)
Definition active (s : rstruct) : list rfield := filter (fun f => negb (is_ignored f)) (rs_fields s).
Definition inactive (s : rstruct) : list rfield := filter is_ignored (rs_fields s).

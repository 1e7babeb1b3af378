(** Structs, enums and functions as Rust programmers write them, and what the parse crate should read for them. *)
From Verif Require Import Base F64 Convert SpecGrammar SpecNumber SpecConvert Tokens SpecAttr SpecTokens Items.
Local Open Scope N_scope.

(** ** What is read for types, attributes and generic parameters *)
(** A path is split at its last double colon; tuples, arrays and function types are kept whole. *)
Fixpoint name_read (n : rname) : name :=
  match n with
  | RLife a => mkName [] [Punct 39; Ident a] []
  | RPath pre id args => mkName (map (fun s => [Ident s]) pre) [Ident id] (map arg_read args)
  | RGroup round inside => mkName [] [Group (if round then Paren else Bracket) inside] []
  | RFn w ps ret => mkName [] (Ident w :: Group Paren ps :: match ret with Some n => Punct 45 :: Punct 62 :: name_toks n | None => [] end) []
  end
with arg_read (a : rarg) : type :=
  let '(RArg b t) := a in
  let b' := option_map (fun x => [Ident x]) b in
  match t with
  | RName n => mkType b' [name_read n] false None false false false
  | RRef lt m n => mkType b' [name_read n] true (option_map (fun a => mkName [] [Punct 39; Ident a] []) lt) m false false
  | RDyn ns => mkType b' (map name_read ns) false None false true false
  end.
Definition type_read (t : rtype) : type := arg_read (RArg None t).
Definition meta_is (attrs : list rmeta) (m : option (list meta_item)) : Prop :=
  match attrs with [] => m = None | _ => exists l, m = Some l /\ Forall2 attr_is attrs l end.
(** The bounds are sorted into traits and lifetimes; a constant is taken for a lifetime. *)
Definition generic_read (p : rparam) : generic :=
  mkGeneric (match rp_kind p with KType => [Ident (rp_name p)] | KLife | KConst => [Punct 39; Ident (rp_name p)] end)
    (flat_map (fun b => match b with BName (RLife _) | BMaybe | BSized => [] | BName n => [name_read n] end) (rp_bounds p))
    (flat_map (fun b => match b with BName (RLife a) => [name_read (RLife a)] | _ => [] end) (rp_bounds p))
    (negb (unsized (rp_bounds p))) (option_map type_read (rp_default p)).
Definition generics_read (ps : option (list rparam * bool)) : option (list generic) := option_map (fun x => map generic_read (fst x)) ps.
Definition generics_toks (ps : option (list rparam * bool)) : list token :=
  match ps with Some (ps, c) => Punct 60 :: sep_by 44 (map param_toks ps) ++ comma c ++ [Punct 62] | None => [] end.
Definition where_toks (ps : option (list rparam * bool)) : list token :=
  match ps with Some (ps, c) => Ident (lit "where") :: sep_by 44 (map param_toks ps) ++ comma c | None => [] end.
Definition params_ok (ps : option (list rparam * bool)) : Prop := match ps with Some (ps, _) => forallb param_ok ps = true | None => True end.

(** ** Bodies of structs and variants *)
Record rtuple := RTuple { rt_attrs : list rmeta; rt_vis : rvis; rt_type : rtype }.
(** The booleans: a comma after the last one. *)
Inductive rbody := BUnit | BTuple (l : list rtuple) (c : bool) | BNamed (l : list rfield) (c : bool).
Definition tuple_toks (t : rtuple) : list token := flat_map attr_toks (rt_attrs t) ++ vis_toks (rt_vis t) ++ type_toks (rt_type t).
Definition body_toks (b : rbody) : list token :=
  match b with
  | BUnit => []
  | BTuple l c => [Group Paren (sep_by 44 (map tuple_toks l) ++ comma c)]
  | BNamed l c => [Group Brace (sep_by 44 (map field_toks l) ++ comma c)]
  end.
(** Not read: a public field whose type is a tuple, [pub (A, B)]. *)
Definition tuple_ok (t : rtuple) : Prop :=
  Forall attr_ok (rt_attrs t) /\ field_type_ok (rt_type t) = true /\
  match rt_vis t, rt_type t with Public, RName (RGroup true _) => False | _, _ => True end.
(** Not read: [()] and [{}]. *)
Definition body_ok (b : rbody) : Prop :=
  match b with BUnit => True | BTuple l _ => l <> [] /\ Forall tuple_ok l | BNamed l _ => l <> [] /\ Forall field_readable l end.
Definition tuple_is (t : rtuple) (i : tuple_item) : Prop :=
  meta_is (rt_attrs t) (t_meta i) /\ t_vis i = vis_value (rt_vis t) /\ t_ty i = type_read (rt_type t).
Definition field_is (f : rfield) (i : field_item) : Prop :=
  meta_is (rf_attrs f) (i_meta i) /\ i_vis i = vis_value (rf_vis f) /\ i_ident i = rf_name f /\ i_ty i = type_read (rf_type f).
Definition body_is (b : rbody) (f : fields) : Prop :=
  match b, f with
  | BUnit, NoFields => True
  | BTuple l _, TupleFields l' => Forall2 tuple_is l l'
  | BNamed l _, StructFields l' => Forall2 field_is l l'
  | _, _ => False
  end.

(** ** Structs *)
Record rdecl := RDecl {
  rd_attrs : list rmeta; rd_vis : rvis; rd_name : str; rd_params : option (list rparam * bool); rd_where : option (list rparam * bool); rd_body : rbody }.
Definition decl_toks (d : rdecl) : list token :=
  flat_map attr_toks (rd_attrs d) ++ vis_toks (rd_vis d) ++ [Ident (lit "struct"); Ident (rd_name d)] ++ generics_toks (rd_params d) ++
  match rd_body d with
  | BUnit => where_toks (rd_where d) ++ [Punct 59]
  | BTuple _ _ => body_toks (rd_body d) ++ where_toks (rd_where d) ++ [Punct 59]
  | BNamed _ _ => where_toks (rd_where d) ++ body_toks (rd_body d)
  end.
Definition decl_ok (d : rdecl) : Prop := Forall attr_ok (rd_attrs d) /\ params_ok (rd_params d) /\ params_ok (rd_where d) /\ body_ok (rd_body d).
Definition decl_is (d : rdecl) (i : struct_item) : Prop :=
  meta_is (rd_attrs d) (st_meta i) /\ st_vis i = vis_value (rd_vis d) /\ st_ident i = rd_name d /\ st_generics i = generics_read (rd_params d) /\
  st_where i = generics_read (rd_where d) /\ body_is (rd_body d) (st_fields i).

(** ** Enums *)
(** A variant may have a value: a minus sign or not, and decimal digits. *)
Record rvariant := RVariant { rv_attrs : list rmeta; rv_name : str; rv_body : rbody; rv_value : option (bool * str) }.
Definition discriminant_toks (v : option (bool * str)) : list token :=
  match v with Some (neg, ds) => Punct 61 :: (if neg then [Punct 45] else []) ++ [Literal ds] | None => [] end.
Definition variant_toks (v : rvariant) : list token :=
  flat_map attr_toks (rv_attrs v) ++ Ident (rv_name v) :: body_toks (rv_body v) ++ discriminant_toks (rv_value v).
Definition value_of_variant (v : bool * str) : Z := (if fst v then - Z.of_N (decimal (snd v)) else Z.of_N (decimal (snd v)))%Z.
Definition value_ok (v : bool * str) : Prop := snd v <> [] /\ Forall digit (snd v) /\ (- 2 ^ 63 <= value_of_variant v < 2 ^ 63)%Z.
Definition variant_ok (v : rvariant) : Prop :=
  Forall attr_ok (rv_attrs v) /\ body_ok (rv_body v) /\ match rv_value v with Some x => value_ok x | None => True end.
Definition variant_is (v : rvariant) (i : variant_item) : Prop :=
  meta_is (rv_attrs v) (v_meta i) /\ v_ident i = rv_name v /\ body_is (rv_body v) (v_fields i) /\ v_disc i = option_map value_of_variant (rv_value v).
Record renum := REnum {
  re_attrs : list rmeta; re_vis : rvis; re_name : str; re_params : option (list rparam * bool); re_where : option (list rparam * bool);
  re_variants : list rvariant; re_comma : bool }.
Definition renum_toks (e : renum) : list token :=
  flat_map attr_toks (re_attrs e) ++ vis_toks (re_vis e) ++ [Ident (lit "enum"); Ident (re_name e)] ++ generics_toks (re_params e) ++
  where_toks (re_where e) ++ [Group Brace (sep_by 44 (map variant_toks (re_variants e)) ++ comma (re_comma e))].
Definition renum_ok (e : renum) : Prop :=
  Forall attr_ok (re_attrs e) /\ params_ok (re_params e) /\ params_ok (re_where e) /\ re_variants e <> [] /\ Forall variant_ok (re_variants e).
Definition renum_is (e : renum) (i : enum_item) : Prop :=
  meta_is (re_attrs e) (e_meta i) /\ e_vis i = vis_value (re_vis e) /\ e_ident i = re_name e /\ e_generics i = generics_read (re_params e) /\
  e_where i = generics_read (re_where e) /\ Forall2 variant_is (re_variants e) (e_values i).
Definition has_negative (e : renum) : bool := existsb (fun v => match rv_value v with Some (true, _) => true | _ => false end) (re_variants e).

(** ** Functions *)
(** The type of a parameter or result: a type, or [impl A + B]. *)
Inductive rsig := SType (t : rtype) | SImpl (ns : list rname).
Definition sig_toks (s : rsig) : list token := match s with SType t => type_toks t | SImpl ns => Ident (lit "impl") :: sep_by 43 (map name_toks ns) end.
Definition sig_ok (s : rsig) : bool := match s with SType t => field_type_ok t | SImpl ns => forallb name_ok ns && nonempty ns end.
Definition sig_read (s : rsig) : type := match s with SType t => type_read t | SImpl ns => mkType None (map name_read ns) false None false false true end.
(** Its outermost names. *)
Definition sig_names (s : rsig) : list rname := match s with SType (RName n) | SType (RRef _ _ n) => [n] | SType (RDyn ns) | SImpl ns => ns end.
Definition has_prefix (n : rname) : bool := match n with RPath (_ :: _) _ _ => true | _ => false end.
(** A parameter [x: T], or the receiver: [self], [&'a mut self]. *)
Inductive rinput := INamed (x : str) (s : rsig) | ISelf (by_ref : option (option str * bool)).
Definition self_type (by_ref : option (option str * bool)) : rtype :=
  let me := RPath [] (lit "self") [] in match by_ref with Some (lt, m) => RRef lt m me | None => RName me end.
Definition input_toks (i : rinput) : list token :=
  match i with INamed x s => Ident x :: Punct 58 :: sig_toks s | ISelf r => type_toks (self_type r) end.
(** Not read: paths such as [std::string::String] outside angle brackets. *)
Definition input_ok (i : rinput) : bool :=
  match i with INamed _ s => sig_ok s && forallb (fun n => negb (has_prefix n)) (sig_names s) | ISelf _ => true end.
Definition input_is (i : rinput) (p : param_item) : Prop :=
  match i with INamed x s => p = mkParam (Some x) (sig_read s) | ISelf r => p = mkParam None (type_read (self_type r)) end.
(** The types [Fn(..) -> T] and [fn(..) -> T] in a type. *)
Fixpoint name_calls (n : rname) : bool := match n with RFn _ _ _ => true | RPath _ _ args => existsb arg_calls args | _ => false end
with arg_calls (a : rarg) : bool :=
  let '(RArg _ t) := a in match t with RName n | RRef _ _ n => name_calls n | RDyn ns => existsb name_calls ns end.
Definition sig_calls (s : rsig) : bool := existsb name_calls (sig_names s).
Record rfn := RFun {
  rn_attrs : list rmeta; rn_vis : rvis; rn_async : bool; rn_const : bool; rn_unsafe : bool; rn_abi : option str; rn_name : str;
  rn_params : option (list rparam * bool); rn_inputs : list rinput; rn_comma : bool; rn_ret : option rsig; rn_where : option (list rparam * bool);
  rn_body : list token }.
Definition word_if (b : bool) (w : string) : list token := if b then [Ident (lit w)] else [].
Definition fun_toks (f : rfn) : list token :=
  flat_map attr_toks (rn_attrs f) ++ vis_toks (rn_vis f) ++ word_if (rn_async f) "async" ++ word_if (rn_const f) "const" ++ word_if (rn_unsafe f) "unsafe" ++
  match rn_abi f with Some raw => [Ident (lit "extern"); Literal raw] | None => [] end ++ [Ident (lit "fn"); Ident (rn_name f)] ++
  generics_toks (rn_params f) ++ [Group Paren (sep_by 44 (map input_toks (rn_inputs f)) ++ comma (rn_comma f))] ++
  match rn_ret f with Some s => Punct 45 :: Punct 62 :: sig_toks s | None => [] end ++ where_toks (rn_where f) ++ [Group Brace (rn_body f)].
(** Not read: functions without parameters. *)
Definition fun_ok (f : rfn) : Prop :=
  Forall attr_ok (rn_attrs f) /\ params_ok (rn_params f) /\ params_ok (rn_where f) /\ rn_inputs f <> [] /\ forallb input_ok (rn_inputs f) = true /\
  match rn_ret f with Some s => sig_ok s = true /\ ~ In (Ident (lit "where")) (sig_toks s) | None => True end.
Definition fun_is (f : rfn) (i : fn_item) : Prop :=
  meta_is (rn_attrs f) (f_meta i) /\ f_vis i = vis_value (rn_vis f) /\ f_async i = rn_async f /\ f_const i = rn_const f /\ f_unsafe i = rn_unsafe f /\
  f_abi i = rn_abi f /\ f_ident i = rn_name f /\ f_generics i = generics_read (rn_params f) /\ Forall2 input_is (rn_inputs f) (f_params i) /\
  f_ret i = option_map sig_read (rn_ret f) /\ f_where i = generics_read (rn_where f) /\ f_body i = rn_body f.

(** ** The compiler's way of writing tokens *)
(** A text such as [Fn (u8) -> u8], with the space. *)
Definition call_text (s : str) : Prop := exists w rest, In w fn_words /\ s = lit w ++ 32 :: 40 :: rest.
(** Identifiers contain no spaces, and the texts of tuples and arrays begin with a bracket. *)
Record compiler (render : list token -> str) : Prop := {
  writes_literals : forall raw, render [Literal raw] = raw;
  writes_idents : forall s, ~ call_text (render [Ident s]);
  writes_groups : forall d g, d = Paren \/ d = Bracket -> ~ call_text (render [Group d g])
}.
(** Compilers differ in these. *)
Definition joins_minus (render : list token -> str) : Prop := forall ds, render [Punct 45; Literal ds] = 45 :: ds.
Definition spaces_minus (render : list token -> str) : Prop := forall ds, render [Punct 45; Literal ds] = 45 :: 32 :: ds.
Definition spaces_calls (render : list token -> str) : Prop := forall w ps r, In w fn_words -> call_text (render (Ident (lit w) :: Group Paren ps :: r)).
Definition joins_calls (render : list token -> str) : Prop := forall w ps r, In w fn_words -> ~ call_text (render (Ident (lit w) :: Group Paren ps :: r)).

(** ** Items as the parse crate writes them *)
(** Bounds are sorted; there is no comma at the end of generic parameters, where clauses, tuples and function parameters, and one after every
    named field and variant; the values of variants are in plain decimal; attributes are as [meta_out] says. *)
Definition params_out (ps : option (list rparam * bool)) : option (list rparam * bool) := option_map (fun x => (map param_out (fst x), false)) ps.
Definition attrs_out (attrs : list rmeta) : list rmeta := map meta_out attrs.
Definition body_out (b : rbody) : rbody :=
  match b with
  | BUnit => BUnit
  | BTuple l _ => BTuple (map (fun t => RTuple (attrs_out (rt_attrs t)) (rt_vis t) (rt_type t)) l) false
  | BNamed l _ => BNamed (map (fun f => RField (attrs_out (rf_attrs f)) (rf_vis f) (rf_name f) (rf_type f)) l) true
  end.
Definition decl_out (d : rdecl) : rdecl := RDecl (attrs_out (rd_attrs d)) (rd_vis d) (rd_name d) (params_out (rd_params d)) (params_out (rd_where d)) (body_out (rd_body d)).
Definition value_out (v v' : option (bool * str)) : Prop :=
  match v, v' with
  | Some x, Some (neg, ds) => Int ds /\ value_of_variant (neg, ds) = value_of_variant x /\ (neg = true -> (value_of_variant x < 0)%Z)
  | None, None => True
  | _, _ => False
  end.
Definition variant_out (v v' : rvariant) : Prop :=
  rv_attrs v' = attrs_out (rv_attrs v) /\ rv_name v' = rv_name v /\ rv_body v' = body_out (rv_body v) /\ value_out (rv_value v) (rv_value v').
Definition enum_out (e e' : renum) : Prop :=
  re_attrs e' = attrs_out (re_attrs e) /\ re_vis e' = re_vis e /\ re_name e' = re_name e /\ re_params e' = params_out (re_params e) /\
  re_where e' = params_out (re_where e) /\ Forall2 variant_out (re_variants e) (re_variants e') /\ re_comma e' = true.
Definition fun_out (f : rfn) : rfn :=
  RFun (attrs_out (rn_attrs f)) (rn_vis f) (rn_async f) (rn_const f) (rn_unsafe f) (rn_abi f) (rn_name f) (params_out (rn_params f)) (rn_inputs f) false (rn_ret f)
    (params_out (rn_where f)) (rn_body f).
(** Lost when written: lists of parameters without members, the where clause of a unit struct, and the types that are not kept. *)
Definition params_kept (ps : option (list rparam * bool)) : bool :=
  match ps with Some ([], _) => false | Some (ps, _) => forallb param_kept ps | None => true end.
Definition body_kept (b : rbody) : bool :=
  match b with
  | BUnit => true
  | BTuple l _ => forallb (fun t => type_kept (rt_type t)) l
  | BNamed l _ => forallb (fun f => type_kept (rf_type f)) l
  end.
Definition decl_kept (d : rdecl) : bool :=
  params_kept (rd_params d) && params_kept (rd_where d) && body_kept (rd_body d) &&
  match rd_body d, rd_where d with BUnit, Some _ => false | _, _ => true end.
Definition enum_kept (e : renum) : bool :=
  params_kept (re_params e) && params_kept (re_where e) &&
  forallb (fun v => body_kept (rv_body v)) (re_variants e).
Definition sig_kept (s : rsig) : bool := match s with SType t => type_kept t | SImpl ns => forallb name_kept ns end.
Definition input_kept (i : rinput) : bool := match i with INamed _ s => sig_kept s | ISelf r => type_kept (self_type r) end.
Definition fun_kept (f : rfn) : bool :=
  params_kept (rn_params f) && params_kept (rn_where f) && forallb input_kept (rn_inputs f) &&
  match rn_ret f with Some s => sig_kept s | None => true end.
(** All attributes of a declaration, and whether they come back from their own text: no minus signs, no empty groups. *)
Definition body_attrs (b : rbody) : list rmeta := match b with BUnit => [] | BTuple l _ => flat_map rt_attrs l | BNamed l _ => flat_map rf_attrs l end.
Definition decl_attrs (d : rdecl) : list rmeta := rd_attrs d ++ body_attrs (rd_body d).
Definition enum_attrs (e : renum) : list rmeta := re_attrs e ++ flat_map (fun v => rv_attrs v ++ body_attrs (rv_body v)) (re_variants e).
Definition attrs_kept (attrs : list rmeta) : bool := forallb steady attrs.

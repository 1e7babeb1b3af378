(** The rest of json_derive/parse/src: enums, functions, all forms of structs, and the texts of items ([to_string]).
    [render] is [TokenStream::to_string], which belongs to the compiler and whose spacing has changed between versions of it; the code depends
    on it in two places, the value of a variant and the number of tokens of a type.
    As in Tokens.v, errors are [None], and a text is the list of tokens it is read back as. *)
From Verif Require Import Base F64 Convert Tokens.

(** * Enums: parse/src/enum_value.rs *)
(** enum_value.rs 55-70 [EnumValueItem] *)
Record variant_item := mkVariant { v_meta : option (list meta_item); v_ident : str; v_fields : fields; v_disc : option Z }.
(** enum_value.rs 93-160 [EnumValueItem::parse].  An [isize] has 64 bits. *)
Definition parse_variant (render : list token -> str) (ts : list token) : option variant_item :=
  match ts with
  | [] => None
  | _ =>
      match split_by 61 None ts with
      | [] => None
      | first :: more =>
          let! disc := match more with
                       | d :: _ => let! n := read_int Isize (render d) in Some (Some n)
                       | [] => Some None
                       end in
          let! mr := eat_meta first in
          match snd mr with
          | Ident id :: rest =>
              let! fs := match rest with [] => Some NoFields | _ => parse_fields rest end in
              Some (mkVariant (fst mr) id fs disc)
          | _ => None
          end
      end
  end.
(** enum_value.rs 26-53 [EnumValues::parse] *)
Definition parse_variants (render : list token -> str) (ts : list token) : option (list variant_item) :=
  match ts with
  | Group Brace g :: _ => all_some (parse_variant render) (split_by 44 None g)
  | _ => None
  end.
(** lib.rs 333-352 [EnumItem] *)
Record enum_item := mkEnum {
  e_meta : option (list meta_item); e_vis : visibility; e_ident : str; e_generics : option (list generic); e_where : option (list generic);
  e_values : list variant_item }.
(** lib.rs 391-483 [EnumItem::parse] *)
Definition parse_enum (render : list token -> str) (ts : list token) : option enum_item :=
  match ts with
  | [] => None
  | _ =>
      let! mr := eat_meta ts in
      match eat_vis (snd mr) with
      | kw :: Ident id :: r =>
          if is_ident "enum" kw then
            let! gr := parse_generics r in
            let rest := snd gr in
            match rest with
            | t :: _ =>
                if is_ident "where" t then
                  let! w := parse_where rest in
                  let! vs := parse_variants render (skipn (snd w) rest) in
                  Some (mkEnum (fst mr) (vis_of (snd mr)) id (fst gr) (Some (fst w)) vs)
                else if is_group Brace t then
                  let! vs := parse_variants render rest in
                  Some (mkEnum (fst mr) (vis_of (snd mr)) id (fst gr) None vs)
                else None
            | [] => None
            end
          else None
      | _ => None
      end
  end.

(** * Functions: parse/src/param.rs *)
(** param.rs 54-60 [ParamItem] *)
Record param_item := mkParam { p_ident : option str; p_ty : type }.
(** param.rs 77-111 [ParamItem::parse] *)
Definition parse_param (ts : list token) : option param_item :=
  match ts with
  | [] => None
  | _ =>
      match split_by 58 None ts with
      | [t] => let! ty := parse_type t in Some (mkParam None ty)
      | [a; t] =>
          let! ty := parse_type t in
          match a with
          | Ident s :: _ => Some (mkParam (Some s) ty)
          | [] => Some (mkParam None ty)
          | _ => None
          end
      | _ => None
      end
  end.
(** param.rs 25-52 [Params::parse] *)
Definition parse_params (ts : list token) : option (list param_item) :=
  match ts with
  | Group Paren g :: _ => all_some parse_param (split_by 44 None g)
  | _ => None
  end.
(** name.rs 29-67 and 230-265 [__token_num]: how many tokens a type has.  The text of a function type is counted as tokens (44-47): they are
    the tokens it was made of. *)
Definition fn_spaced (text : str) : bool :=
  starts_with (lit "Fn (") text || starts_with (lit "FnMut (") text || starts_with (lit "FnOnce (") text || starts_with (lit "fn (") text.
(** std: [Iterator::sum], as in json_derive/parse/src/name.rs 30-69, 231-265 *)
Definition total_of (l : list nat) : nat := fold_right Nat.add O l.
(** json_derive/parse/src/name.rs 30-69 [Name::__token_num] *)
Fixpoint name_num (render : list token -> str) (n : name) : nat :=
  match n with
  | mkName pre id gs =>
      if is_lifetime n then 2
      else if fn_spaced (render id) then 3 * List.length pre + List.length id
      else match gs with
           | [] => 3 * List.length pre + 1
           | _ => 3 * List.length pre + (total_of (map (fun g => type_num render g + 1) gs) - 1 + 3)
           end
  end%nat
with type_num (render : list token -> str) (t : type) : nat :=
  match t with
  | mkType b ns r l m d i =>
      total_of (map (fun n => name_num render n + 1) ns) - 1 +
      (if b then 2 else 0) + (if r then 1 else 0) + (if l then 2 else 0) + (if m then 1 else 0) + (if d then 1 else 0) + (if i then 1 else 0)
  end%nat.
(** lib.rs 489-512 [FnItem]; the body is kept as its tokens. *)
Record fn_item := mkFn {
  f_meta : option (list meta_item); f_vis : visibility; f_async : bool; f_const : bool; f_unsafe : bool; f_abi : option str; f_ident : str;
  f_generics : option (list generic); f_params : list param_item; f_ret : option type; f_where : option (list generic); f_body : list token }.
(** lib.rs 641-655 *)
Definition eat_extern (ts : list token) : option str * list token :=
  match eat (is_ident "extern") ts with
  | (true, Literal raw :: r) => (Some raw, r)
  | (_, r) => (None, r)
  end.
(** lib.rs 702-727; the input begins after the parameters. *)
Definition parse_ret (render : list token -> str) (ts : list token) : option (option type * list token) :=
  match ts with
  | t :: r =>
      if is_punct 45 t then
        match r with
        | g :: r' =>
            if is_punct 62 g then
              let! ty := parse_type (take_while (fun x => negb (is_group Brace x) && negb (is_ident "where" x)) r') in
              Some (Some ty, skipn (type_num render ty) r')
            else None
        | [] => None
        end
      else Some (None, ts)
  | [] => Some (None, ts)
  end.
(** lib.rs 729-738 *)
Definition eat_where (ts : list token) : option (option (list generic) * list token) :=
  match ts with
  | t :: _ => if is_ident "where" t then let! w := parse_where ts in Some (Some (fst w), skipn (snd w) ts) else Some (None, ts)
  | [] => Some (None, ts)
  end.
(** lib.rs 574-766 [FnItem::parse] *)
Definition parse_fn (render : list token -> str) (ts : list token) : option fn_item :=
  match ts with
  | [] => None
  | _ =>
      let! mr := eat_meta ts in
      let '(is_async, t1) := eat (is_ident "async") (eat_vis (snd mr)) in
      let '(is_const, t2) := eat (is_ident "const") t1 in
      let '(is_unsafe, t3) := eat (is_ident "unsafe") t2 in
      let '(abi, t4) := eat_extern t3 in
      match t4 with
      | kw :: Ident id :: r =>
          if is_ident "fn" kw then
            let! gr := parse_generics r in
            match snd gr with
            | Group Paren g :: r1 =>
                let! ps := parse_params [Group Paren g] in
                let! rr := parse_ret render r1 in
                let! wr := eat_where (snd rr) in
                match snd wr with
                | Group Brace body :: _ =>
                    Some (mkFn (fst mr) (vis_of (snd mr)) is_async is_const is_unsafe abi id (fst gr) ps (fst rr) (fst wr) body)
                | _ => None
                end
            | _ => None
            end
          else None
      | _ => None
      end
  end.

(** * Items: parse/src/lib.rs *)
(** lib.rs 52-63 [Item] *)
Inductive item := IStruct (s : struct_item) | IEnum (e : enum_item) | IFn (f : fn_item).
(** lib.rs 99-142 [Item::parse] *)
Definition parse_whole (render : list token -> str) (ts : list token) : option item :=
  match skip_while before_keyword ts with
  | kw :: _ =>
      if is_ident "struct" kw then option_map IStruct (parse_struct ts)
      else if is_ident "enum" kw then option_map IEnum (parse_enum render ts)
      else if is_ident "fn" kw then option_map IFn (parse_fn render ts)
      else None
  | [] => None
  end.
(** json_derive/src/lib.rs 10-16, 62-68: the structs with named fields the macros go on with; the other items end in a panic (53, 56, 120, 123). *)
Definition macro_struct (render : list token -> str) (ts : list token) : option (struct_item * list field_item) :=
  match parse_whole render ts with
  | Some (IStruct s) => match st_fields s with StructFields v => Some (s, v) | _ => None end
  | _ => None
  end.

(** * Texts *)
(** meta.rs 212-222 [Lit]: the raw text. *)
Definition lit_text (l : lit_value) : list token :=
  match l with
  | LBytes _ raw | LString _ raw | LInteger _ raw | LFloat _ raw => [Literal raw]
  | LBoolean _ raw => [Ident raw]
  end.
(** meta.rs 458-467 [MetaItem], 397-405 [NestedMeta] *)
Fixpoint meta_item_text (i : meta_item) : list token :=
  match i with
  | MIdent s => [Ident s]
  | MLiteral l => lit_text l
  | MPair k l eq => Ident k :: Punct eq :: lit_text l
  | MGroup s inner => [Ident s; Group Paren (join_toks [Punct 44] (map meta_item_text inner))]
  end.
(** meta.rs 29-38 [Meta] *)
Definition meta_text (m : option (list meta_item)) : list token :=
  match m with Some l => flat_map (fun i => [Punct 35; Group Bracket (meta_item_text i)]) l | None => [] end.
(** field.rs 158-164, 240-246; lib.rs 179-185, 363-369, 523-529 *)
Definition vis_text (v : visibility) : list token :=
  match v with Some p => Ident (lit "pub") :: match p with Some g => [Group Paren g] | None => [] end | None => [] end.
(** field.rs 149-170, 231-252 *)
Definition tuple_text (t : tuple_item) : list token := meta_text (t_meta t) ++ vis_text (t_vis t) ++ type_text (t_ty t).
(** json_derive/parse/src/field.rs 149-170, 231-252 [to_string] *)
Definition field_text (f : field_item) : list token := meta_text (i_meta f) ++ vis_text (i_vis f) ++ Ident (i_ident f) :: Punct 58 :: type_text (i_ty f).
(** field.rs 41-71 [Fields]; sorting by position changes nothing. *)
Definition fields_text (f : fields) : list token :=
  match f with
  | TupleFields l => [Group Paren (join_toks [Punct 44] (map tuple_text l))]
  | StructFields l => [Group Brace (flat_map (fun x => field_text x ++ [Punct 44]) l)]
  | NoFields => []
  end.
(** lib.rs 170-217 [StructItem] *)
Definition opt_text {A} (f : A -> list token) (o : option A) : list token := match o with Some a => f a | None => [] end.
(** json_derive/parse/src/lib.rs 170-217 [StructItem::to_string] *)
Definition struct_text (s : struct_item) : list token :=
  meta_text (st_meta s) ++ vis_text (st_vis s) ++ [Ident (lit "struct"); Ident (st_ident s)] ++ opt_text generics_text (st_generics s) ++
  match st_fields s with
  | NoFields => [Punct 59]
  | TupleFields l => fields_text (TupleFields l) ++ opt_text where_text (st_where s) ++ [Punct 59]
  | StructFields l => opt_text where_text (st_where s) ++ fields_text (StructFields l)
  end.
(** enum_value.rs 72-91; [isize::to_string] gives a sign and digits. *)
Definition disc_text (n : Z) : list token := if (n <? 0)%Z then [Punct 45; Literal (show_N (Z.to_N (- n)))] else [Literal (show_N (Z.to_N n))].
(** json_derive/parse/src/enum_value.rs 72-91 [EnumValueItem::to_string] *)
Definition variant_text (v : variant_item) : list token :=
  meta_text (v_meta v) ++ Ident (v_ident v) :: fields_text (v_fields v) ++ opt_text (fun n => Punct 61 :: disc_text n) (v_disc v).
(** enum_value.rs 14-24, lib.rs 354-389 *)
Definition enum_text (e : enum_item) : list token :=
  meta_text (e_meta e) ++ vis_text (e_vis e) ++ [Ident (lit "enum"); Ident (e_ident e)] ++ opt_text generics_text (e_generics e) ++
  opt_text where_text (e_where e) ++ [Group Brace (flat_map (fun v => variant_text v ++ [Punct 44]) (e_values e))].
(** param.rs 62-75 and 14-23 *)
Definition param_text (p : param_item) : list token := opt_text (fun s => [Ident s; Punct 58]) (p_ident p) ++ type_text (p_ty p).
(** lib.rs 514-572 [FnItem] *)
Definition fn_text (f : fn_item) : list token :=
  meta_text (f_meta f) ++ vis_text (f_vis f) ++
  (if f_async f then [Ident (lit "async")] else []) ++ (if f_const f then [Ident (lit "const")] else []) ++
  (if f_unsafe f then [Ident (lit "unsafe")] else []) ++ opt_text (fun raw => [Ident (lit "extern"); Literal raw]) (f_abi f) ++
  [Ident (lit "fn"); Ident (f_ident f)] ++ opt_text generics_text (f_generics f) ++
  [Group Paren (join_toks [Punct 44] (map param_text (f_params f)))] ++
  opt_text (fun t => Punct 45 :: Punct 62 :: type_text t) (f_ret f) ++ opt_text where_text (f_where f) ++ [Group Brace (f_body f)].
(** lib.rs 89-97 [Item] *)
Definition item_text (i : item) : list token := match i with IStruct s => struct_text s | IEnum e => enum_text e | IFn f => fn_text f end.

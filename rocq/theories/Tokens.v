(** How the derive macros read a declaration: json_derive/parse/src and json_derive/src/lib.rs.
    A Rust token as [proc_macro] presents it; a lifetime is the mark 39 followed by an identifier.  Spacing is not looked at by the code.
    Errors and panics of the macros, which end the compilation, are [None]; their texts are not modelled. *)
From Verif Require Import Base F64 Json Convert.
From Coq Require Import Floats.SpecFloat.

(** proc_macro: [Delimiter], as used in json_derive/parse/src *)
Inductive delim := Paren | Brace | Bracket | NoDelim.
(** proc_macro: [TokenTree], as used in json_derive/parse/src; spans are left out *)
Inductive token := Ident (s : str) | Punct (c : N) | Literal (raw : str) | Group (d : delim) (ts : list token).

(** json_derive/parse/src/utils.rs 6-11 [punct_eq] *)
Definition is_punct (c : N) (t : token) : bool := match t with Punct d => d =? c | _ => false end.
(** The patterns of json_derive/parse/src on identifiers, as lib.rs 99-141. *)
Definition is_ident (w : string) (t : token) : bool := match t with Ident s => str_eqb s (lit w) | _ => false end.
(** proc_macro: [Delimiter]'s [==], json_derive/parse/src *)
Definition delim_eqb (a b : delim) : bool :=
  match a, b with Paren, Paren | Brace, Brace | Bracket, Bracket | NoDelim, NoDelim => true | _, _ => false end.
(** The patterns of json_derive/parse/src on groups, as meta.rs 105-170. *)
Definition is_group (d : delim) (t : token) : bool := match t with Group d' _ => delim_eqb d d' | _ => false end.
(** [Option]'s [?], [collect] into an [Option], [skip_while], [take_while] of std, as used in json_derive/parse/src *)
Definition obind {A B} (x : option A) (k : A -> option B) : option B := match x with Some a => k a | None => None end.
Notation "'let!' x ':=' r 'in' k" := (obind r (fun x => k)) (at level 200, x name, r at level 100, k at level 200).
(** std: [collect] into a [Result], as in json_derive/parse/src/meta.rs 105-170 *)
Fixpoint all_some {A B} (f : A -> option B) (l : list A) : option (list B) :=
  match l with [] => Some [] | a :: r => let! b := f a in let! bs := all_some f r in Some (b :: bs) end.
(** std, as in json_derive/parse/src/lib.rs 219-330 *)
Fixpoint skip_while {A} (p : A -> bool) (l : list A) : list A := match l with a :: r => if p a then skip_while p r else l | [] => [] end.
(** std, as in json_derive/parse/src/lib.rs 219-330 *)
Fixpoint take_while {A} (p : A -> bool) (l : list A) : list A := match l with a :: r => if p a then a :: take_while p r else [] | [] => [] end.

(** parse/src/utils.rs 21-120 [split_tokens_by] for the separators the code uses: one character, or [s1] followed by [s2].  [n] is the
    number of open angle brackets, [inner] the segment collected so far. *)
Fixpoint split_loop (s1 : N) (s2 : option N) (n : Z) (inner : list token) (ts : list token) : list (list token) :=
  match ts with
  | [] => [inner]
  | t :: r =>
      if is_punct 45 t then
        match r with
        | g :: r' => if is_punct 62 g then split_loop s1 s2 n (inner ++ [t; g]) r' else split_loop s1 s2 n (inner ++ [t]) r
        | [] => split_loop s1 s2 n (inner ++ [t]) r
        end
      else if is_punct 60 t then split_loop s1 s2 (n + 1) (inner ++ [t]) r
      else if is_punct 62 t then split_loop s1 s2 (n - 1) (inner ++ [t]) r
      else if (n =? 0)%Z && is_punct s1 t then
        match s2 with
        | None => inner :: match r with [] => [] | _ :: _ => split_loop s1 s2 n [] r end
        | Some c =>
            match r with
            | [] => [inner]
            | u :: r' =>
                if is_punct c u then inner :: match r' with [] => [] | _ :: _ => split_loop s1 s2 n [] r' end
                else split_loop s1 s2 n (inner ++ [t]) r
            end
        end
      else split_loop s1 s2 n (inner ++ [t]) r
  end.
(** json_derive/parse/src/utils.rs 21-119 [split_tokens_by] *)
Definition split_by (s1 : N) (s2 : option N) (ts : list token) : list (list token) := split_loop s1 s2 0 [] ts.

(** * Attributes: parse/src/meta.rs *)
(** meta.rs 176-210 [Lit]: the value, and [raw], the text of the token.  The bytes of a byte string are kept as the text they encode. *)
Inductive lit_value :=
| LBytes (s raw : str) | LString (s raw : str) | LInteger (n : Z) (raw : str) | LFloat (f : f64) (raw : str) | LBoolean (b : bool) (raw : str).
(** std, used at json_derive/parse/src/meta.rs 266-380 *)
Fixpoint starts_with (p s : str) : bool :=
  match p, s with [] , _ => true | a :: p', b :: s' => (a =? b) && starts_with p' s' | _ :: _, [] => false end.
(** std, used at json_derive/parse/src/meta.rs 266-380 *)
Definition ends_with (p s : str) : bool := starts_with (rev p) (rev s).
(** [trim_start_matches] with a string: removes it repeatedly.  [fuel] is the length. Used at json_derive/parse/src/meta.rs 266-310. *)
Fixpoint trim_start (fuel : nat) (p s : str) : str :=
  match fuel with
  | O => s
  | S f => if starts_with p s then trim_start f p (skipn (List.length p) s) else s
  end.
(** std, used at json_derive/parse/src/meta.rs 266-310 *)
Definition trim_start_matches (p s : str) : str := trim_start (List.length s) p s.
(** std, used at json_derive/parse/src/meta.rs 266-310 *)
Definition trim_end_matches (p s : str) : str := rev (trim_start_matches (rev p) (rev s)).
(** meta.rs 266-309 the macros [fix_suffix], [fix_bytes], [fix_string]. *)
Fixpoint fix_suffix (sufs : list string) (s : str) : str :=
  match sufs with
  | [] => s
  | x :: r => if ends_with (lit x) s then trim_end_matches (lit x) s else fix_suffix r s
  end.
(** json_derive/parse/src/meta.rs 278-310 [fix_bytes!], [fix_string!] *)
Fixpoint fix_quotes (ps : list (str * str)) (s : str) : option str :=
  match ps with
  | [] => None
  | (p, q) :: r => if starts_with p s && ends_with q s then Some (trim_end_matches q (trim_start_matches p s)) else fix_quotes r s
  end.
(** The arguments of json_derive/parse/src/meta.rs 278-293. *)
Definition byte_quotes : list (str * str) :=
  [([98; 39], [39]); ([98; 34], [34]); ([98; 114; 34], [34]); ([98; 114; 35; 34], [34; 35]); ([98; 114; 35; 35; 34], [34; 35; 35])].
(** The arguments of json_derive/parse/src/meta.rs 295-310. *)
Definition string_quotes : list (str * str) :=
  [([34], [34]); ([114; 34], [34]); ([114; 35; 34], [34; 35]); ([114; 35; 35; 34], [34; 35; 35])].
(** meta.rs 311-375 [Lit::parse] on one token. *)
Definition parse_lit (t : token) : option lit_value :=
  match t with
  | Ident s => if str_eqb s (lit "true") then Some (LBoolean true s) else if str_eqb s (lit "false") then Some (LBoolean false s) else None
  | Literal raw =>
      match fix_quotes byte_quotes raw with
      | Some s => Some (LBytes s raw)
      | None =>
          match fix_quotes string_quotes raw with
          | Some s => Some (LString s raw)
          | None =>
              match read_int I32 (fix_suffix ["u8"; "u16"; "u32"; "u64"; "u128"; "usize"; "i8"; "i16"; "i32"; "i64"; "i128"; "isize"]%string raw) with
              | Some n => Some (LInteger n raw)
              | None => option_map (fun f => LFloat f raw) (f64_from_str (fix_suffix ["f32"; "f64"]%string raw))
              end
          end
      end
  | _ => None
  end.
(** meta.rs 545-552, 617-626: a literal after a minus sign. *)
Definition parse_negative (t : token) : option lit_value :=
  match parse_lit t with
  | Some (LInteger n raw) => Some (LInteger (- n) raw)
  | Some (LFloat f raw) => Some (LFloat (SFopp f) raw)
  | _ => None
  end.

(** meta.rs 442-456 [MetaItem]; [eq] is the character between a key and its value. *)
Inductive meta_item := MIdent (s : str) | MLiteral (l : lit_value) | MPair (key : str) (l : lit_value) (eq : N) | MGroup (ident : str) (inner : list meta_item).
(** [slice::split] by a comma, without the empty parts (meta.rs 414-431). *)
Fixpoint comma_parts (cur : list token) (ts : list token) : list (list token) :=
  match ts with
  | [] => [cur]
  | t :: r => if is_punct 44 t then cur :: comma_parts [] r else comma_parts (cur ++ [t]) r
  end.
(** std: [!is_empty()], json_derive/parse/src *)
Definition nonempty {A} (l : list A) : bool := match l with [] => false | _ => true end.
(** The depth of groups in tokens. Not code: the fuel for json_derive/parse/src/meta.rs 503-640. *)
Fixpoint depth (t : token) : nat :=
  match t with Group _ ts => S (fold_right (fun t n => Nat.max (depth t) n) O ts) | _ => O end.
(** Not code: the fuel for json_derive/parse/src/meta.rs 503-640. *)
Definition depths (ts : list token) : nat := fold_right (fun t n => Nat.max (depth t) n) O ts.
(** meta.rs 577-582, 604-609 *)
Definition pair_mark (t : token) : option N := if is_punct 61 t then Some 61 else if is_punct 58 t then Some 58 else None.
(** meta.rs 503-638 [MetaItem::parse], and 407-436 [NestedMeta::parse] for the group; [fuel] bounds the nesting of groups. *)
Fixpoint parse_item (fuel : nat) (ts : list token) : option meta_item :=
  match fuel with
  | O => None
  | S f =>
      match ts with
      | [Ident s] => match parse_lit (Ident s) with Some b => Some (MLiteral b) | None => Some (MIdent s) end
      | [Literal r] => option_map MLiteral (parse_lit (Literal r))
      | [a; b] =>
          if is_punct 45 a then option_map MLiteral (parse_negative b)
          else match a, b with
               | Ident s, Group _ inner =>
                   if nonempty inner then
                     option_map (MGroup s) (all_some (parse_item f) (filter nonempty (comma_parts [] inner)))
                   else None
               | _, _ => None
               end
      | [k; e; v] =>
          let! eq := pair_mark e in
          match k with Ident s => option_map (fun l => MPair s l eq) (parse_lit v) | _ => None end
      | [k; e; m; v] =>
          let! eq := pair_mark e in
          match k with Ident s => if is_punct 45 m then option_map (fun l => MPair s l eq) (parse_negative v) else None | _ => None end
      | _ => None
      end
  end.
(** json_derive/parse/src/meta.rs 503-640 [MetaItem::parse], with enough fuel *)
Definition parse_meta_item (ts : list token) : option meta_item := parse_item (S (depths ts)) ts.
(** meta.rs 139-157, the loop; a bracket group without a mark before it ends it. *)
Fixpoint meta_loop (ts : list token) : option (list meta_item) :=
  match ts with
  | t :: r =>
      if is_punct 35 t then
        match r with
        | Group _ inner :: r' => let! i := parse_meta_item inner in let! is := meta_loop r' in Some (i :: is)
        | _ => None
        end
      else Some []
  | [] => Some []
  end.
(** The tokens that json_derive/parse/src/lib.rs 219-240 hands to [Meta::parse]. *)
Definition meta_token (t : token) : bool := is_punct 35 t || is_group Bracket t.
(** meta.rs 105-166 [Meta::parse]; the [debug_assert] of 162 is on. *)
Definition parse_meta (ts : list token) : option (list meta_item) :=
  let m := take_while meta_token (skip_while (fun t => negb (meta_token t)) ts) in
  match ts with
  | [] => None
  | _ => let! items := meta_loop m in
         if Nat.eqb (List.length items) (List.length (filter (is_punct 35) m)) then Some items else None
  end.
(** meta.rs 54-64 [idents] and 682-701 [get] with a string. *)
Definition has_ident (w : string) (m : list meta_item) : bool :=
  existsb (fun i => match i with MIdent s => str_eqb s (lit w) | _ => false end) m.
(** json_derive/parse/src/meta.rs 682-704 [MetaIndex for &str] *)
Definition get_pair (w : string) (m : list meta_item) : option lit_value :=
  match find (fun i => match i with MPair k _ _ => str_eqb k (lit w) | _ => false end) m with
  | Some (MPair _ l _) => Some l
  | _ => None
  end.

(** * Types: parse/src/name.rs *)
(** name.rs 18-24 [Name], 208-228 [Type].  The texts of identifiers, prefixes and bindings are kept as tokens. *)
Inductive name := mkName (prefixes : list (list token)) (ident : list token) (generics : list type)
with type := mkType (binding : option (list token)) (names : list name) (is_ref : bool) (lifetime : option name) (is_mut is_dyn is_imp : bool).

(** The words of json_derive/parse/src/name.rs 100-205. *)
Definition fn_word (t : token) : bool := is_ident "Fn" t || is_ident "FnMut" t || is_ident "FnOnce" t || is_ident "fn" t.
(** std: [last], json_derive/parse/src/name.rs 328-433 *)
Fixpoint last_of {A} (d : A) (l : list A) : A := match l with [] => d | [a] => a | _ :: r => last_of d r end.
(** name.rs 100-205 [Name::parse]; [ty] parses the generic arguments. *)
Definition parse_name_with (ty : list token -> option type) (ts : list token) : option name :=
  match ts with
  | [] => None
  | _ =>
      let splits := split_by 58 (Some 58) ts in
      let prefixes := removelast splits in
      let stream := last_of [] splits in
      match stream with
      | f :: Group Paren _ :: _ => if fn_word f then Some (mkName prefixes stream []) else None
      | [Ident s] => Some (mkName prefixes [Ident s] [])
      | [Group Paren g] => Some (mkName prefixes [Group Paren g] [])
      | [Group Bracket g] => Some (mkName prefixes [Group Bracket g] [])
      | [a; b] => if is_punct 39 a then match b with Ident s => Some (mkName prefixes [Punct 39; Ident s] []) | _ => None end else None
      | Ident s :: l :: a :: b :: r =>
          if is_punct 60 l && is_punct 62 (last_of a (b :: r)) then
            option_map (mkName prefixes [Ident s]) (all_some ty (split_by 44 None (removelast (a :: b :: r))))
          else None
      | _ => None
      end
  end.
(** The first token, if it satisfies [p], and the rest: [peek] and [next]. Of std, as used in json_derive/parse/src. *)
Definition eat (p : token -> bool) (ts : list token) : bool * list token :=
  match ts with t :: r => if p t then (true, r) else (false, ts) | [] => (false, []) end.
(** name.rs 328-434 [Type::parse]; [fuel] bounds the nesting of generic arguments. *)
Fixpoint parse_ty (fuel : nat) (ts : list token) : option type :=
  match fuel with
  | O => None
  | S f =>
      match ts with
      | [] => None
      | _ =>
          let tokens := split_by 61 None ts in
          let! bp := match tokens with [b; t] => Some (Some b, t) | [t] => Some (None, t) | _ => None end in
          let '(is_ref, t1) := eat (is_punct 38) (snd bp) in
          let! lp := (if is_ref then
                        match t1 with
                        | a :: r => if is_punct 39 a then let! l := parse_name_with (parse_ty f) (firstn 2 t1) in Some (Some l, skipn 2 t1) else Some (None, t1)
                        | [] => Some (None, t1)
                        end
                      else Some (None, t1)) in
          let '(is_mut, t3) := if is_ref then eat (is_ident "mut") (snd lp) else (false, snd lp) in
          let '(is_dyn, t4) := eat (is_ident "dyn") t3 in
          let '(is_imp, t5) := eat (is_ident "impl") t4 in
          if negb (nonempty t5) || (is_ref && (is_dyn || is_imp)) || (is_dyn && (is_ref || is_imp)) || (is_imp && (is_ref || is_dyn)) then None
          else let! names := all_some (parse_name_with (parse_ty f)) (split_by 43 None t5) in
               Some (mkType (fst bp) names is_ref (fst lp) is_mut is_dyn is_imp)
      end
  end.
(** json_derive/parse/src/name.rs 328-433 [Type::parse], with enough fuel *)
Definition parse_type (ts : list token) : option type := parse_ty (S (List.length ts)) ts.
(** json_derive/parse/src/name.rs 100-205 [Name::parse], with enough fuel *)
Definition parse_name (ts : list token) : option name := parse_name_with (parse_ty (List.length ts)) ts.
(** name.rs 69-73 [is_lifetime] *)
Definition is_lifetime (n : name) : bool := let '(mkName _ id _) := n in match id with t :: _ => is_punct 39 t | [] => false end.

(** ** Texts, as the tokens they are read back as *)
(** The texts of json_derive/parse/src; std: [join]. *)
Fixpoint join_toks (sep : list token) (l : list (list token)) : list token :=
  match l with [] => [] | [a] => a | a :: r => a ++ sep ++ join_toks sep r end.
(** Two texts written next to each other without a space: an identifier at the end of one and one at the beginning of the other become one. The texts of json_derive/parse/src. *)
Fixpoint glue (a b : list token) : list token :=
  match a with
  | [] => b
  | [Ident x] => match b with Ident y :: r => Ident (x ++ y) :: r | _ => Ident x :: b end
  | t :: r => t :: glue r b
  end.
(** name.rs 76-98 and 289-326 [to_string] *)
Fixpoint name_text (n : name) : list token :=
  match n with
  | mkName pre id gs =>
      let core := if nonempty gs then id ++ [Punct 60] ++ join_toks [Punct 44] (map type_text gs) ++ [Punct 62] else id in
      if nonempty pre then join_toks [Punct 58; Punct 58] pre ++ [Punct 58; Punct 58] ++ core else core
  end
with type_text (t : type) : list token :=
  match t with
  | mkType b ns r l m d i =>
      let names := join_toks [Punct 43] (map name_text ns) in
      let bound := match b with Some x => x ++ [Punct 61] ++ names | None => names end in
      let marked := (if d then [Ident (lit "dyn")] else []) ++ (if i then [Ident (lit "impl")] else []) ++ bound in
      if r then
        [Punct 38] ++
        (let lt := match l with Some n => name_text n | None => [] end in
         if m then lt ++ [Ident (lit "mut")] ++ marked else glue lt marked)
      else marked
  end.
(** name.rs 271-286 [used_ty] *)
Definition used_ty (t : type) : list token :=
  match t with
  | mkType _ ns r _ _ d _ =>
      (if r then [Punct 38] else []) ++ (if d then [Ident (lit "dyn")] else []) ++ join_toks [Punct 43] (map name_text ns)
  end.

(** * Generics: parse/src/generic.rs *)
(** generic.rs 160-167 [GenericItem] *)
Record generic := mkGeneric { g_ident : list token; g_traits : list name; g_lifetimes : list name; g_sized : bool; g_default : option type }.
(** Up to the first colon, and after it: generic.rs 248-268, field.rs 294-314. *)
Fixpoint at_colon (ts : list token) : list token * option (list token) :=
  match ts with
  | [] => ([], None)
  | t :: r => if is_punct 58 t then ([], Some r) else let '(a, b) := at_colon r in (t :: a, b)
  end.
(** generic.rs 275-325 *)
Definition generic_ident (ts : list token) : option (list token) :=
  match ts with
  | [Ident s] => Some [Ident s]
  | [a; Ident s] => if is_punct 39 a || is_ident "const" a then Some [Punct 39; Ident s] else None
  | _ => None
  end.
(** generic.rs 327-358 the loop over the bounds. *)
Fixpoint bounds_loop (g : generic) (bs : list (list token)) : option generic :=
  match bs with
  | [] => Some g
  | b :: r =>
      let t0 := match b with t :: _ => t | [] => Punct 0 end in
      let tn := last_of t0 b in
      if is_punct 63 t0 && is_ident "Sized" tn then bounds_loop (mkGeneric (g_ident g) (g_traits g) (g_lifetimes g) false (g_default g)) r
      else if is_ident "Sized" t0 && is_ident "Sized" tn then bounds_loop (mkGeneric (g_ident g) (g_traits g) (g_lifetimes g) true (g_default g)) r
      else let! n := parse_name b in
           if is_lifetime n then bounds_loop (mkGeneric (g_ident g) (g_traits g) (g_lifetimes g ++ [n]) (g_sized g) (g_default g)) r
           else bounds_loop (mkGeneric (g_ident g) (g_traits g ++ [n]) (g_lifetimes g) (g_sized g) (g_default g)) r
  end.
(** generic.rs 211-363 [GenericItem::parse] *)
Definition parse_generic (ts : list token) : option generic :=
  match ts with
  | [] => None
  | _ =>
      let! p := match split_by 61 None ts with
                | [a] => Some (a, None)
                | [a; d] => let! t := parse_type d in Some (a, Some t)
                | _ => None
                end in
      let '(idt, bounds) := at_colon (fst p) in
      let! id := generic_ident idt in
      let g := mkGeneric id [] [] true (snd p) in
      match bounds with
      | None => Some g
      | Some b => bounds_loop g (split_by 43 None b)
      end
  end.
(** generic.rs 181-209 [to_string] *)
Definition generic_text (g : generic) : list token :=
  let buf := map name_text (g_traits g) ++ map name_text (g_lifetimes g) ++ (if g_sized g then [] else [[Punct 63; Ident (lit "Sized")]]) in
  g_ident g ++ (if nonempty buf then [Punct 58] ++ join_toks [Punct 43] buf else []) ++
  match g_default g with Some t => [Punct 61] ++ type_text t | None => [] end.
(** generic.rs 77-136: the tokens between the angle brackets; [None] if they are not closed. *)
Fixpoint generics_loop (prev : token) (i : Z) (acc : list token) (ts : list token) : option (list token) :=
  match ts with
  | [] => if (0 <? i)%Z then None else Some acc
  | t :: r =>
      let i' := if is_punct 45 prev && is_punct 62 t then i else if is_punct 60 t then (i + 1)%Z else if is_punct 62 t then (i - 1)%Z else i in
      if (i' =? 0)%Z then Some acc else generics_loop t i' (acc ++ [t]) r
  end.
(** The items between commas, the empty ones removed: generic.rs 138-146, 441-449. *)
Definition parse_items (ts : list token) : option (list generic) := all_some parse_generic (filter nonempty (split_by 44 None ts)).
(** generic.rs 58-150 [Generics::parse] and the skipping of its tokens, lib.rs 281-290; the input begins with the angle bracket. *)
Definition parse_generics (ts : list token) : option (option (list generic) * list token) :=
  match ts with
  | t :: r =>
      if is_punct 60 t then
        let! inner := generics_loop t 1 [] r in
        let! items := parse_items inner in
        Some (Some items, skipn (List.length inner + 2) ts)
      else Some (None, ts)
  | [] => Some (None, ts)
  end.
(** generic.rs 31-56 [only_idents], [to_string]; 389-401 for the where clause. *)
Definition angle (l : list (list token)) : list token := if nonempty l then [Punct 60] ++ join_toks [Punct 44] l ++ [Punct 62] else [].
(** json_derive/parse/src/generic.rs 44-56 [Generics::to_string] *)
Definition generics_text (g : list generic) : list token := angle (map generic_text g).
(** json_derive/parse/src/generic.rs 31-42 [only_idents] *)
Definition only_idents (g : list generic) : list token := angle (map g_ident g).
(** json_derive/parse/src/generic.rs 389-401 [WhereClause::to_string] *)
Definition where_text (g : list generic) : list token := if nonempty g then [Ident (lit "where")] ++ join_toks [Punct 44] (map generic_text g) else [].

(** * Fields: parse/src/field.rs *)
(** A visibility, [Option<Option<String>>]: the text inside the parentheses is kept as tokens. The field of json_derive/parse/src/lib.rs 148-168. *)
Definition visibility := option (option (list token)).
(** field.rs 223-229 [StructFieldItem] *)
Record field_item := mkItem { i_meta : option (list meta_item); i_vis : visibility; i_ident : str; i_ty : type }.
(** The attributes, field.rs 267-276, and lib.rs 232-241 (the same). *)
Definition eat_meta (ts : list token) : option (option (list meta_item) * list token) :=
  match ts with
  | t :: _ => if is_punct 35 t then let! m := parse_meta ts in Some (Some m, skipn (2 * List.length m) ts) else Some (None, ts)
  | [] => Some (None, ts)
  end.
(** The visibility, field.rs 278-292, and lib.rs 243-257 (the same): its value, and the tokens after it. *)
Definition vis_of (ts : list token) : visibility :=
  match ts with
  | t :: r => if is_ident "pub" t then Some match r with Group Paren g :: _ => Some g | _ => None end else None
  | [] => None
  end.
(** json_derive/parse/src/lib.rs 243-257: skips the visibility *)
Definition eat_vis (ts : list token) : list token :=
  match ts with
  | t :: r => if is_ident "pub" t then match r with g :: r' => if is_group Paren g then r' else r | [] => r end else ts
  | [] => ts
  end.
(** field.rs 254-340 [StructFieldItem::parse] *)
Definition parse_field (ts : list token) : option field_item :=
  match ts with
  | [] => None
  | _ =>
      let! mr := eat_meta ts in
      match at_colon (eat_vis (snd mr)) with
      | (a, Some b) =>
          let! ty := parse_type b in
          match a with Ident s :: _ => Some (mkItem (fst mr) (vis_of (snd mr)) s ty) | _ => None end
      | (_, None) => None
      end
  end.
(** field.rs 139-147 [TupleFieldItem]; [pos] is the index of the item in its list (102-116), so it is not kept. *)
Record tuple_item := mkTuple { t_meta : option (list meta_item); t_vis : visibility; t_ty : type }.
(** field.rs 172-218 [TupleFieldItem::parse] *)
Definition parse_tuple_field (ts : list token) : option tuple_item :=
  match ts with
  | [] => None
  | _ => let! mr := eat_meta ts in let! ty := parse_type (eat_vis (snd mr)) in Some (mkTuple (fst mr) (vis_of (snd mr)) ty)
  end.
(** field.rs 9-22 [Fields] *)
Inductive fields := TupleFields (l : list tuple_item) | StructFields (l : list field_item) | NoFields.
(** field.rs 73-137 [Fields::parse] *)
Definition parse_fields (ts : list token) : option fields :=
  match ts with
  | [] => None
  | _ =>
      match skip_while (fun t => negb (is_group Paren t || is_group Brace t || is_punct 59 t)) ts with
      | Punct _ :: _ => Some NoFields
      | Group Paren g :: _ => option_map TupleFields (all_some parse_tuple_field (split_by 44 None g))
      | Group Brace g :: _ => option_map StructFields (all_some parse_field (split_by 44 None g))
      | _ => None
      end
  end.

(** * Items: parse/src/lib.rs *)
(** lib.rs 147-168 [StructItem] *)
Record struct_item := mkStruct { st_meta : option (list meta_item); st_vis : visibility; st_ident : str; st_generics : option (list generic); st_where : option (list generic); st_fields : fields }.
(** generic.rs 403-453 [WhereClause::parse]: the tokens after [where] up to the body, and their number. *)
Definition where_tokens (ts : list token) : list token :=
  take_while (fun t => negb (is_punct 59 t) && negb (is_group Brace t)) (skipn 1 (skip_while (fun t => negb (is_ident "where" t)) ts)).
(** json_derive/parse/src/generic.rs 403-453 [WhereClause::parse] *)
Definition parse_where (ts : list token) : option (list generic * nat) :=
  let! items := parse_items (where_tokens ts) in Some (items, S (List.length (where_tokens ts))).
(** lib.rs 219-330 [StructItem::parse] *)
Definition parse_struct (ts : list token) : option struct_item :=
  match ts with
  | [] => None
  | _ =>
      let! mr := eat_meta ts in
      match eat_vis (snd mr) with
      | kw :: Ident id :: r =>
          if is_ident "struct" kw then
            let! gr := parse_generics r in
            let rest := snd gr in
            match rest with
            | t :: r' =>
                if is_ident "where" t then
                  let! w := parse_where rest in
                  let! fs := parse_fields (skipn (snd w) rest) in
                  Some (mkStruct (fst mr) (vis_of (snd mr)) id (fst gr) (Some (fst w)) fs)
                else if is_punct 59 t then Some (mkStruct (fst mr) (vis_of (snd mr)) id (fst gr) None NoFields)
                else if is_group Brace t then
                  let! fs := parse_fields rest in Some (mkStruct (fst mr) (vis_of (snd mr)) id (fst gr) None fs)
                else if is_group Paren t then
                  let! fs := parse_fields [t] in
                  match r' with
                  | u :: _ =>
                      if is_ident "where" u then let! w := parse_where r' in Some (mkStruct (fst mr) (vis_of (snd mr)) id (fst gr) (Some (fst w)) fs)
                      else if is_punct 59 u then Some (mkStruct (fst mr) (vis_of (snd mr)) id (fst gr) None fs)
                      else None
                  | [] => None
                  end
                else None
            | [] => None
            end
          else None
      | _ => None
      end
  end.
(** lib.rs 99-142 [Item::parse]: the keyword decides.  Enums and functions are parsed too, but both macros then panic
    (json_derive/src/lib.rs 56, 123), so they are [None] here. *)
Definition before_keyword (t : token) : bool :=
  is_punct 35 t || is_group Bracket t || is_group Paren t ||
  is_ident "async" t || is_ident "const" t || is_ident "unsafe" t || is_ident "extern" t || is_ident "pub" t ||
  match t with Literal _ => true | _ => false end.
(** json_derive/parse/src/lib.rs 219-330 [StructItem::parse] *)
Definition parse_struct_item (ts : list token) : option struct_item :=
  match skip_while before_keyword ts with
  | kw :: _ => if is_ident "struct" kw then parse_struct ts else None
  | [] => None
  end.

(** * The macros: json_derive/src/lib.rs *)
(** json_derive/src/lib.rs 15-20, 66-71 *)
Definition ignored (x : field_item) : bool := match i_meta x with Some m => has_ident "ignore" m | None => false end.
(** json_derive/src/lib.rs 22-30, 73-81: what is put between quotes as the key. *)
Definition key_of (x : field_item) : option str :=
  match i_meta x with
  | Some m => match get_pair "key" m with
              | Some (LString s _) => Some s
              | Some _ => None
              | None => Some (i_ident x)
              end
  | None => Some (i_ident x)
  end.
(** What the generated implementation is made of: the texts before the body, and one line per field. Of json_derive/src/lib.rs 35-52, 85-118. *)
Record header := mkHeader { h_generics : list token; h_self : list token; h_where : list token }.
(** The first lines of the templates of json_derive/src/lib.rs 35-38, 85-88. *)
Definition header_of (s : struct_item) : header :=
  mkHeader (match st_generics s with Some g => generics_text g | None => [] end)
           (Ident (st_ident s) :: match st_generics s with Some g => only_idents g | None => [] end)
           (match st_where s with Some g => where_text g | None => [] end).
(** json_derive/src/lib.rs 8-58 [json_encode]: (key literal, field) of the fields written. *)
Definition derive_encode (ts : list token) : option (header * list (str * str)) :=
  let! s := parse_struct_item ts in
  match st_fields s with
  | StructFields v =>
      let! ks := all_some (fun x => let! k := key_of x in Some (34 :: k ++ [34], i_ident x)) (filter (fun x => negb (ignored x)) v) in
      Some (header_of s, ks)
  | _ => None
  end.
(** json_derive/src/lib.rs 60-124 [json_decode]: (key literal, field, type) of the fields read, the fields given their default, and the name
    in the error message. *)
Definition derive_decode (ts : list token) : option (header * list (str * str * list token) * list str * str) :=
  let! s := parse_struct_item ts in
  match st_fields s with
  | StructFields v =>
      let! ks := all_some (fun x => let! k := key_of x in Some (34 :: k ++ [34], i_ident x, used_ty (i_ty x))) (filter (fun x => negb (ignored x)) v) in
      Some (header_of s, ks, map i_ident (filter ignored v), st_ident s)
  | _ => None
  end.

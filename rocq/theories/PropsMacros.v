(** Theorems about the tokens the derive macros generate. *)
From Verif Require Import Base Tokens SpecAttr SpecTokens DeclProofs PropsTokens Quote SpecQuote QuoteProofs PropsQuote Macros SpecMacros.

(** * Expanding a template with holes *)
Lemma copy (s : string) rest e : forallb no_hash (lex s) = true -> quote e (lex s ++ rest) = oapp (Some (code s)) (quote e rest).
Proof. intros H. now apply code_without_hashes_is_copied. Qed.
Lemma copy_end (s : string) e : forallb no_hash (lex s) = true -> quote e (lex s) = Some (code s).
Proof. intros H. rewrite <- (app_nil_r (lex s)), copy, quote_nil by auto. apply oapp_nil_r. Qed.
Definition e_opt (x : list ttok) : list ttok := [op "#"; TGrp Paren [op "#"; TGrp Paren x]; op "?"].
Definition e_text (x : list ttok) : list ttok := [op "#"; TGrp Paren x].
Definition e_each (v x : string) (b : list ttok) : list ttok := [op "#"; TGrp Paren ([op "#"; TId (lit v); op ":"; TId (lit x)] ++ b); op "*"].
Lemma e_text_ok e x r v ts : expr_ok x = true -> eval e x = Some v -> text_of v = Some ts -> quote e (e_text x ++ r) = oapp (Some ts) (quote e r).
Proof. intros H E T. cbn [e_text app]. rewrite quote_expr by auto. cbn [act]. rewrite E. cbn [obind]. now rewrite T. Qed.
Lemma e_opt_ok e x r o : expr_ok x = true -> eval e x = Some (VOpt o) ->
  quote e (e_opt x ++ r) = oapp (match o with Some v => text_of v | None => Some [] end) (quote e r).
Proof.
  intros H E. cbn [e_opt app]. pose proof (quote_opt e (SExpr x) r H) as Q. unfold source_toks in Q. rewrite Q. cbn [act source_expr]. rewrite E. cbn [obind]. now destruct o.
Qed.
Lemma e_each_ok e v x b r l (out : value -> list ptok) : b <> [] -> assoc (lit v) e = Some (VList l) ->
  (forall w, In w l -> quote ((lit x, w) :: e) b = Some (out w)) -> quote e (e_each v x b ++ r) = oapp (Some (flat_map out l)) (quote e r).
Proof.
  intros Hb Hv H. cbn [e_each app]. pose proof (quote_each_as e (SVar (lit v)) (Some (lit x)) b r eq_refl Hb) as Q. unfold source_toks, binder_toks in Q. cbn [app] in Q. rewrite Q. cbn [act source_expr eval]. rewrite Hv. cbn [obind eval_suffix items].
  assert (L : each quote e (Some (lit x)) (Some b) NoSep true l = Some (flat_map out l)); [|now rewrite L].
  generalize true. clear Hv. induction l as [|w l IH]; intros first; [reflexivity|]. cbn [each bind_var]. rewrite H by (left; reflexivity). cbn [obind app].
  rewrite IH by (intros; apply H; now right). reflexivity.
Qed.
Lemma brace_ok e b ts r : quote e b = Some ts -> quote e (TGrp Brace b :: r) = oapp (Some (braces ts)) (quote e r).
Proof. intros H. rewrite quote_group by discriminate. unfold group_out. now rewrite H. Qed.
Lemma paren_ok e b ts r : quote e b = Some ts -> quote e (TGrp Paren b :: r) = oapp (Some (parens ts)) (quote e r).
Proof. intros H. rewrite quote_group by discriminate. unfold group_out. now rewrite H. Qed.
Ltac ex := repeat (rewrite oapp_some || rewrite <- !app_assoc).

(** * The templates *)
Definition header_toks (trait : string) (body : list ttok) : list ttok :=
  lex "impl" ++ e_opt (lex "&s.generics") ++ lex trait ++ lex "for" ++ e_text (lex "s.ident") ++
  [op "#"; TGrp Paren (op "#" :: TGrp Paren (lex "&s.generics") :: op ":" :: TId (lit "x") :: e_text (lex "x.only_idents()")); op "?"] ++
  e_opt (lex "&s.where_clause") ++ [TGrp Brace body].
Definition write_toks : list ttok :=
  lex "match js.add_option" ++ [TGrp Paren (e_text (lex "x.0") ++ lex ", json::ToJson::to_json" ++ [TGrp Paren (lex "&self." ++ e_text (lex "x.1"))] ++ lex ", true")] ++
  lex "{ Ok(_) => (), Err(_) => unreachable!() };".
Lemma encode_template_eq : encode_template = header_toks "json::ToJson"
  (lex "fn to_json(&self) -> json::Json" ++ [TGrp Brace (
     lex "let map = std::collections::HashMap::with_capacity" ++ [TGrp Paren (e_text (lex "v.len()"))] ++ lex ";" ++
     lex "let mut js = json::Json::Object(map);" ++ e_each "v" "x" write_toks ++ lex "js")]).
Proof. vm_compute. reflexivity. Qed.
Definition read_toks : list ttok :=
  e_text (lex "x.1") ++ lex ":" ++ [TGrp Brace (
    lex "if let Some((v, _)) = obj.get" ++ [TGrp Paren (e_text (lex "x.0"))] ++
    [TGrp Brace (lex "<" ++ e_text (lex "x.2") ++ lex "as json::FromJson>::from_json(v)?")] ++
    lex "else" ++
    [TGrp Brace (lex "return Err" ++ [TGrp Paren (lex "json::Error::new" ++ [TGrp Paren (lex "json::ErrorKind::MissingKey, format!" ++
       [TGrp Paren (lex """missing key \""{}\""."", " ++ e_text (lex "x.0"))])])] ++ lex ";")])] ++
  lex ",".
Lemma decode_template_eq : decode_template = header_toks "json::FromJson"
  (lex "fn from_json(json: &json::Json) -> Result<Self, json::Error>" ++ [TGrp Brace (
     lex "match json" ++ [TGrp Brace (
       lex "json::Json::Object(obj) =>" ++ [TGrp Brace (lex "Ok" ++ [TGrp Paren (e_text (lex "s.ident") ++ [TGrp Brace (
          e_each "v" "x" read_toks ++ e_each "ig" "x" (e_text (lex "x.ident") ++ lex ": std::default::Default::default(),"))])])] ++
       lex "other => Err" ++ [TGrp Paren (lex "json::Error::new" ++ [TGrp Paren (
          lex "json::ErrorKind::ConvertError, format!" ++ [TGrp Paren (
            lex """cannot convert {} to {}."", other._kind(), stringify!" ++ [TGrp Paren (e_text (lex "s.ident"))])])])] ++ lex ",")])]).
Proof. vm_compute. reflexivity. Qed.

(** * What they expand to *)
Definition params_of (read : reader) (s : struct_item) : list ptok := match st_generics s with Some g => read (generics_text g) | None => [] end.
Definition self_of (read : reader) (s : struct_item) : list ptok := PId (st_ident s) :: match st_generics s with Some g => read (only_idents g) | None => [] end.
Definition where_of (read : reader) (s : struct_item) : list ptok := match st_where s with Some g => read (where_text g) | None => [] end.
Lemma header_expands read s e trait body out : assoc (lit "s") e = Some (item_value read s) -> forallb no_hash (lex trait) = true -> quote e body = Some out ->
  quote e (header_toks trait body) = Some (header_code trait (params_of read s) (self_of read s) (where_of read s) out).
Proof.
  intros Hs Ht Hb. unfold header_toks. rewrite copy by reflexivity.
  rewrite (e_opt_ok e (lex "&s.generics") _ (option_map (generics_value read) (st_generics s))); [|reflexivity|].
  2:{ change (lex "&s.generics") with [op "&"; TId (lit "s"); op "."; TId (lit "generics")]. cbn [eval op_is]. rewrite Hs. reflexivity. }
  rewrite (copy trait) by exact Ht. rewrite (copy "for") by reflexivity.
  rewrite (e_text_ok e (lex "s.ident") _ (text [PId (st_ident s)]) [PId (st_ident s)]); [|reflexivity| |reflexivity].
  2:{ change (lex "s.ident") with [TId (lit "s"); op "."; TId (lit "ident")]. cbn [eval]. rewrite Hs. reflexivity. }
  cbn [app].
  pose proof (quote_opt_as e (SExpr (lex "&s.generics")) (Some (lit "x")) (e_text (lex "x.only_idents()")) (e_opt (lex "&s.where_clause") ++ [TGrp Brace body])
    eq_refl ltac:(discriminate)) as Q.
  unfold source_toks, binder_toks in Q. cbn [app] in Q. rewrite Q. clear Q. cbn [act source_expr].
  assert (G : eval e (lex "&s.generics") = Some (VOpt (option_map (generics_value read) (st_generics s)))).
  { change (lex "&s.generics") with [op "&"; TId (lit "s"); op "."; TId (lit "generics")]. cbn [eval op_is]. rewrite Hs. reflexivity. }
  rewrite G. cbn [obind].
  rewrite (e_opt_ok e (lex "&s.where_clause") _ (option_map (fun g => text (read (where_text g))) (st_where s))); [|reflexivity|].
  2:{ change (lex "&s.where_clause") with [op "&"; TId (lit "s"); op "."; TId (lit "where_clause")]. cbn [eval op_is]. rewrite Hs. reflexivity. }
  rewrite (brace_ok e body out) by exact Hb. rewrite quote_nil.
  assert (A : match option_map (generics_value read) (st_generics s) with Some v => text_of v | None => Some [] end = Some (params_of read s)).
  { unfold params_of. destruct (st_generics s); reflexivity. }
  assert (B : match option_map (fun g => text (read (where_text g))) (st_where s) with Some v => text_of v | None => Some [] end = Some (where_of read s)).
  { unfold where_of. destruct (st_where s); reflexivity. }
  assert (C : match option_map (generics_value read) (st_generics s) with
              | Some w => quote (bind_var (Some (lit "x")) w e) (e_text (lex "x.only_idents()"))
              | None => Some [] end = Some (match st_generics s with Some g => read (only_idents g) | None => [] end)).
  { destruct (st_generics s) as [g|]; cbn [option_map]; [|reflexivity]. rewrite <- (app_nil_r (e_text _)).
    rewrite (e_text_ok _ (lex "x.only_idents()") [] (text (read (only_idents g))) (read (only_idents g))); [|reflexivity|reflexivity|reflexivity].
    rewrite quote_nil. apply oapp_nil_r. }
  rewrite A, B, C. ex. unfold header_code, self_of. cbn [app]. reflexivity.
Qed.
Lemma write_expands k e : quote ((lit "x", encode_row k) :: e) write_toks = Some (write_code (fst k) (snd k)).
Proof.
  set (e' := (lit "x", encode_row k) :: e). unfold write_toks. rewrite copy by reflexivity.
  assert (P : quote e' (e_text (lex "x.0") ++ lex ", json::ToJson::to_json" ++ [TGrp Paren (lex "&self." ++ e_text (lex "x.1"))] ++ lex ", true") =
    Some (literal (fst k) ++ code ".to_string(), json::ToJson::to_json" ++ parens (code "&self." ++ ident (snd k)) ++ code ", true")).
  { rewrite (e_text_ok e' (lex "x.0") _ (text [PLit (fst k); PPunct 46 false; PId (lit "to_string"); PGrp Paren []]) [PLit (fst k); PPunct 46 false; PId (lit "to_string"); PGrp Paren []]);
      [|reflexivity|reflexivity|reflexivity].
    rewrite copy by reflexivity. cbn [app].
    rewrite (paren_ok e' _ (code "&self." ++ ident (snd k))).
    2:{ rewrite copy by reflexivity. rewrite <- (app_nil_r (e_text _)). rewrite (e_text_ok e' (lex "x.1") _ (text [PId (snd k)]) [PId (snd k)]); [|reflexivity|reflexivity|reflexivity].
        rewrite quote_nil, oapp_nil_r. reflexivity. }
    rewrite copy_end by reflexivity. reflexivity. }
  cbn [app]. rewrite (paren_ok e' _ _ _ P), copy_end by reflexivity. reflexivity.
Qed.
Lemma encode_expands read s ks :
  quote [(lit "s", item_value read s); (lit "v", VList (map encode_row ks))] encode_template =
  Some (encode_code (params_of read s) (self_of read s) (where_of read s) (digits (S (List.length ks)) (List.length ks)) ks).
Proof.
  rewrite encode_template_eq. set (e := [(lit "s", item_value read s); (lit "v", VList (map encode_row ks))]).
  unfold encode_code. apply header_expands; [reflexivity|reflexivity|].
  rewrite copy by reflexivity. match goal with |- context [TGrp Brace ?b] => set (body := b) end.
  assert (B : quote e body = Some (code "let map = std::collections::HashMap::with_capacity" ++ parens (literal (digits (S (List.length ks)) (List.length ks))) ++ code ";" ++
       code "let mut js = json::Json::Object(map);" ++ flat_map (fun row => write_code (fst row) (snd row)) ks ++ code "js")).
  { subst body. rewrite copy by reflexivity. cbn [app].
    rewrite (paren_ok e _ (literal (digits (S (List.length ks)) (List.length ks)))).
    2:{ rewrite <- (app_nil_r (e_text _)). rewrite (e_text_ok e (lex "v.len()") _ (VObj (Some [PLit (digits (S (List.length ks)) (List.length ks))]) []) [PLit (digits (S (List.length ks)) (List.length ks))]).
        - rewrite quote_nil, oapp_nil_r. reflexivity.
        - reflexivity.
        - change (lex "v.len()") with [TId (lit "v"); op "."; TId (lit "len"); TGrp Paren []]. subst e. cbn -[digits List.length]. rewrite map_length. reflexivity.
        - reflexivity. }
    rewrite copy by reflexivity. rewrite copy by reflexivity.
    rewrite (e_each_ok e "v" "x" write_toks (lex "js") (map encode_row ks)
      (fun w => match quote ((lit "x", w) :: e) write_toks with Some ts => ts | None => [] end)); [|discriminate|reflexivity|].
    2:{ intros w Hw. apply in_map_iff in Hw as (k & <- & _). rewrite write_expands. reflexivity. }
    rewrite copy_end by reflexivity. ex. do 6 f_equal. clearbody e. clear. induction ks as [|k ks IH]; [reflexivity|]. cbn [map flat_map]. rewrite write_expands. ex. now rewrite IH. }
  rewrite (brace_ok e _ _ [] B), quote_nil. reflexivity.
Qed.
Definition row_of (read : reader) (k : str * str * list token) : str * str * list ptok := (fst k, read (snd k)).
Lemma text_end e x v ts : expr_ok x = true -> eval e x = Some v -> text_of v = Some ts -> quote e (e_text x) = Some ts.
Proof. intros H E T. rewrite <- (app_nil_r (e_text x)), (e_text_ok e x [] v ts), quote_nil by auto. apply oapp_nil_r. Qed.
Lemma read_expands read k e : quote ((lit "x", decode_row read k) :: e) read_toks = Some (read_code (fst (fst k)) (snd (fst k)) (read (snd k))).
Proof.
  set (e' := (lit "x", decode_row read k) :: e). unfold read_toks.
  rewrite (e_text_ok e' (lex "x.1") _ (text [PId (snd (fst k))]) [PId (snd (fst k))]); [|reflexivity|reflexivity|reflexivity].
  rewrite copy by reflexivity. cbn [app].
  assert (K : quote e' (e_text (lex "x.0")) = Some (literal (fst (fst k)))) by (eapply text_end; reflexivity).
  match goal with |- context [TGrp Brace ?b :: lex ","] => set (body := b) end.
  assert (B : quote e' body = Some (
    code "if let Some((v, _)) = obj.get" ++ parens (literal (fst (fst k))) ++
    braces (code "<" ++ read (snd k) ++ code "as json::FromJson>::from_json(v)?") ++
    code "else" ++
    braces (code "return Err" ++ parens (code "json::Error::new" ++ parens (code "json::ErrorKind::MissingKey, format!" ++
              parens (code """missing key \""{}\""."", " ++ literal (fst (fst k))))) ++ code ";"))).
  { subst body. rewrite copy by reflexivity. cbn [app]. rewrite (paren_ok e' _ _ _ K).
    rewrite (brace_ok e' _ (code "<" ++ read (snd k) ++ code "as json::FromJson>::from_json(v)?")).
    2:{ rewrite copy by reflexivity. rewrite (e_text_ok e' (lex "x.2") _ (text (read (snd k))) (read (snd k))); [|reflexivity|reflexivity|reflexivity].
        rewrite copy_end by reflexivity. reflexivity. }
    rewrite copy by reflexivity.
    match goal with |- context [TGrp Brace ?b] => rewrite (brace_ok e' b (code "return Err" ++ parens (code "json::Error::new" ++ parens (code "json::ErrorKind::MissingKey, format!" ++
              parens (code """missing key \""{}\""."", " ++ literal (fst (fst k))))) ++ code ";")) end.
    2:{ rewrite copy by reflexivity. cbn [app].
        match goal with |- context [TGrp Paren ?b] => rewrite (paren_ok e' b (code "json::Error::new" ++ parens (code "json::ErrorKind::MissingKey, format!" ++
              parens (code """missing key \""{}\""."", " ++ literal (fst (fst k)))))) end.
        2:{ rewrite copy by reflexivity. match goal with |- context [TGrp Paren ?b] => rewrite (paren_ok e' b (code "json::ErrorKind::MissingKey, format!" ++
              parens (code """missing key \""{}\""."", " ++ literal (fst (fst k))))) end.
            2:{ rewrite copy by reflexivity. match goal with |- context [TGrp Paren ?b] => rewrite (paren_ok e' b (code """missing key \""{}\""."", " ++ literal (fst (fst k)))) end.
                2:{ rewrite copy by reflexivity. rewrite K. reflexivity. }
                rewrite quote_nil. reflexivity. }
            rewrite quote_nil. reflexivity. }
        rewrite copy_end by reflexivity. reflexivity. }
    rewrite quote_nil. ex. rewrite ?app_nil_r. reflexivity. }
  rewrite (brace_ok e' _ _ _ B), copy_end by reflexivity. reflexivity.
Qed.
Definition skip_row (x : field_item) : value := VObj None [(lit "ident", text [PId (i_ident x)])].
Lemma default_expands x e : quote ((lit "x", skip_row x) :: e) (e_text (lex "x.ident") ++ lex ": std::default::Default::default(),") = Some (default_code (i_ident x)).
Proof.
  rewrite (e_text_ok _ (lex "x.ident") _ (text [PId (i_ident x)]) [PId (i_ident x)]); [|reflexivity|reflexivity|reflexivity]. rewrite copy_end by reflexivity. reflexivity.
Qed.
Lemma decode_expands read s ks ig :
  quote [(lit "s", item_value read s); (lit "v", VList (map (decode_row read) ks)); (lit "ig", VList (map skip_row ig))] decode_template =
  Some (decode_code (params_of read s) (self_of read s) (where_of read s) (st_ident s) (map (row_of read) ks) (map i_ident ig)).
Proof.
  rewrite decode_template_eq. set (e := [(lit "s", item_value read s); (lit "v", VList (map (decode_row read) ks)); (lit "ig", VList (map skip_row ig))]).
  unfold decode_code. apply header_expands; [reflexivity|reflexivity|].
  assert (I : quote e (e_text (lex "s.ident")) = Some (ident (st_ident s))) by (eapply text_end; reflexivity).
  assert (F : quote e (e_each "v" "x" read_toks ++ e_each "ig" "x" (e_text (lex "x.ident") ++ lex ": std::default::Default::default(),")) =
    Some (flat_map (fun row => read_code (fst (fst row)) (snd (fst row)) (snd row)) (map (row_of read) ks) ++ flat_map default_code (map i_ident ig))).
  { rewrite (e_each_ok e "v" "x" read_toks _ (map (decode_row read) ks)
      (fun w => match quote ((lit "x", w) :: e) read_toks with Some ts => ts | None => [] end)); [|discriminate|reflexivity|].
    2:{ intros w Hw. apply in_map_iff in Hw as (k & <- & _). rewrite read_expands. reflexivity. }
    set (dt := e_text (lex "x.ident") ++ lex ": std::default::Default::default(),"). rewrite <- (app_nil_r (e_each "ig" "x" dt)).
    rewrite (e_each_ok e "ig" "x" dt _ (map skip_row ig)
      (fun w => match quote ((lit "x", w) :: e) dt with Some ts => ts | None => [] end)); [|discriminate|reflexivity|].
    2:{ intros w Hw. apply in_map_iff in Hw as (k & <- & _). subst dt. rewrite default_expands. reflexivity. }
    rewrite quote_nil. ex. rewrite app_nil_r. do 2 f_equal.
    - clearbody e. clear. induction ks as [|k ks IH]; [reflexivity|]. cbn [map flat_map]. rewrite read_expands. now rewrite IH.
    - clearbody e. clear. induction ig as [|k ig IH]; [reflexivity|]. cbn [map flat_map]. subst dt. rewrite default_expands. now rewrite IH. }
  rewrite copy by reflexivity. cbn [app].
  match goal with |- context [TGrp Brace ?b] => rewrite (brace_ok e b (code "match json" ++ braces (
         code "json::Json::Object(obj) =>" ++ braces (code "Ok" ++ parens (ident (st_ident s) ++ braces (
            flat_map (fun row => read_code (fst (fst row)) (snd (fst row)) (snd row)) (map (row_of read) ks) ++
            flat_map default_code (map i_ident ig)))) ++
         code "other => Err" ++ parens (code "json::Error::new" ++ parens (
            code "json::ErrorKind::ConvertError, format!" ++ parens (
              code """cannot convert {} to {}."", other._kind(), stringify!" ++ parens (ident (st_ident s))))) ++ code ","))) end.
  2:{ rewrite copy by reflexivity.
    match goal with |- context [TGrp Brace ?b] => rewrite (brace_ok e b (code "json::Json::Object(obj) =>" ++ braces (code "Ok" ++ parens (ident (st_ident s) ++ braces (
            flat_map (fun row => read_code (fst (fst row)) (snd (fst row)) (snd row)) (map (row_of read) ks) ++
            flat_map default_code (map i_ident ig)))) ++
         code "other => Err" ++ parens (code "json::Error::new" ++ parens (
            code "json::ErrorKind::ConvertError, format!" ++ parens (
              code """cannot convert {} to {}."", other._kind(), stringify!" ++ parens (ident (st_ident s))))) ++ code ",")) end.
    2:{ rewrite copy by reflexivity.
      match goal with |- context [TGrp Brace ?b :: lex "other => Err" ++ _] => rewrite (brace_ok e b (code "Ok" ++ parens (ident (st_ident s) ++ braces (
            flat_map (fun row => read_code (fst (fst row)) (snd (fst row)) (snd row)) (map (row_of read) ks) ++
            flat_map default_code (map i_ident ig))))) end.
      2:{ rewrite copy by reflexivity. match goal with |- context [TGrp Paren ?b] => rewrite (paren_ok e b (ident (st_ident s) ++ braces (
            flat_map (fun row => read_code (fst (fst row)) (snd (fst row)) (snd row)) (map (row_of read) ks) ++
            flat_map default_code (map i_ident ig)))) end; [rewrite quote_nil; reflexivity|].
          rewrite (e_text_ok e (lex "s.ident") _ (text [PId (st_ident s)]) [PId (st_ident s)]); [|reflexivity|reflexivity|reflexivity].
          rewrite (brace_ok e _ _ _ F), quote_nil. reflexivity. }
      rewrite copy by reflexivity.
      match goal with |- context [TGrp Paren ?b] => rewrite (paren_ok e b (code "json::Error::new" ++ parens (
            code "json::ErrorKind::ConvertError, format!" ++ parens (
              code """cannot convert {} to {}."", other._kind(), stringify!" ++ parens (ident (st_ident s)))))) end.
      2:{ rewrite copy by reflexivity. match goal with |- context [TGrp Paren ?b] => rewrite (paren_ok e b (
            code "json::ErrorKind::ConvertError, format!" ++ parens (
              code """cannot convert {} to {}."", other._kind(), stringify!" ++ parens (ident (st_ident s))))) end; [rewrite quote_nil; reflexivity|].
          rewrite copy by reflexivity. match goal with |- context [TGrp Paren ?b] => rewrite (paren_ok e b (
              code """cannot convert {} to {}."", other._kind(), stringify!" ++ parens (ident (st_ident s)))) end; [rewrite quote_nil; reflexivity|].
          rewrite copy by reflexivity. rewrite (paren_ok e _ _ _ I), quote_nil. reflexivity. }
      rewrite copy_end by reflexivity. reflexivity. }
    rewrite quote_nil. reflexivity. }
  rewrite quote_nil. reflexivity.
Qed.

(** * The macros *)
Definition faithful (read : reader) : Prop := forall ts, reads_as (read ts) ts.
(** Whatever tokens it is given, JsonEncode generates exactly [encode_code] for the pieces that [derive_encode] finds, or fails with it. *)
Theorem writer_code_for_any_tokens read ts : faithful read ->
  match derive_encode ts with
  | Some (h, ks) => exists params self conditions,
      json_encode read ts = Some (encode_code params self conditions (digits (S (List.length ks)) (List.length ks)) ks) /\
      reads_as params (h_generics h) /\ reads_as self (h_self h) /\ reads_as conditions (h_where h)
  | None => json_encode read ts = None
  end.
Proof.
  intros R. unfold json_encode, derive_encode. destruct (parse_struct_item ts) as [s|]; cbn [obind]; [|reflexivity].
  destruct (st_fields s) as [l|v|]; try reflexivity. destruct (all_some _ _) as [ks|]; cbn [obind]; [|reflexivity].
  exists (params_of read s), (self_of read s), (where_of read s). split; [apply encode_expands|].
  unfold header_of, params_of, self_of, where_of, reads_as. cbn [h_generics h_self h_where map unspaced].
  destruct (st_generics s), (st_where s); rewrite ?R; auto.
Qed.
Theorem reader_code_for_any_tokens read ts : faithful read ->
  match derive_decode ts with
  | Some (h, ks, ig, name) => exists params self conditions rows,
      json_decode read ts = Some (decode_code params self conditions name rows ig) /\
      reads_as params (h_generics h) /\ reads_as self (h_self h) /\ reads_as conditions (h_where h) /\
      Forall2 (fun k row => fst row = fst k /\ reads_as (snd row) (snd k)) ks rows
  | None => json_decode read ts = None
  end.
Proof.
  intros R. unfold json_decode, derive_decode. destruct (parse_struct_item ts) as [s|]; cbn [obind]; [|reflexivity].
  destruct (st_fields s) as [l|v|]; try reflexivity. destruct (all_some _ _) as [ks|]; cbn [obind]; [|reflexivity].
  exists (params_of read s), (self_of read s), (where_of read s), (map (row_of read) ks). split; [apply (decode_expands read s ks (filter ignored v))|].
  unfold header_of, params_of, self_of, where_of, reads_as. cbn [h_generics h_self h_where map unspaced].
  split; [destruct (st_generics s); rewrite ?R; auto|]. split; [destruct (st_generics s); rewrite ?R; auto|]. split; [destruct (st_where s); rewrite ?R; auto|].
  clear - R. induction ks as [|k ks IH]; constructor; auto. split; [reflexivity|]. apply R.
Qed.
(** The implementation generated by JsonEncode for a declaration: its header has the parameters, name and conditions of the declaration, and its
    body writes exactly the fields without [ignore], in their order, each under its key. *)
Theorem json_encode_generates read s : faithful read -> struct_ok s -> struct_kept s = true ->
  exists params self conditions rows,
    json_encode read (struct_toks s) = Some (encode_code params self conditions (digits (S (List.length rows)) (List.length rows)) rows) /\
    header_with param_out s (mkHeader (map unspaced params) (map unspaced self) (map unspaced conditions)) /\
    (struct_plain s = true -> header_is s (mkHeader (map unspaced params) (map unspaced self) (map unspaced conditions))) /\
    Forall2 (fun f row => snd row = rf_name f /\ forall v, key_is f v <-> StringLit (fst row) v) (active s) rows.
Proof.
  intros R H K. destruct (derived_writer_covers_the_declared_fields s H) as (h & ks & E & F).
  destruct (derived_header_in_general s H K) as (h' & ks' & ks2 & ig & name & E' & _ & HH). rewrite E in E'. injection E' as <- <-.
  pose proof (writer_code_for_any_tokens read (struct_toks s) R) as G. rewrite E in G. destruct G as (p & sf & c & G & A & B & C).
  exists p, sf, c, ks. split; [exact G|]. unfold reads_as in *. rewrite A, B, C. destruct h. split; [exact HH|]. split; [now apply header_plain|exact F].
Qed.
(** The implementation generated by JsonDecode: it reads exactly those fields, in their order, each from its key and with its type (where the macro keeps the type, see
    C48), gives the others their default, and its error names the struct. *)
Theorem json_decode_generates read s : faithful read -> struct_ok s -> struct_kept s = true ->
  exists params self conditions rows,
    json_decode read (struct_toks s) = Some (decode_code params self conditions (rs_name s) rows (map rf_name (inactive s))) /\
    header_with param_out s (mkHeader (map unspaced params) (map unspaced self) (map unspaced conditions)) /\
    (struct_plain s = true -> header_is s (mkHeader (map unspaced params) (map unspaced self) (map unspaced conditions))) /\
    Forall2 (fun f row => snd (fst row) = rf_name f /\ (forall v, key_is f v <-> StringLit (fst (fst row)) v) /\
                          (type_used_kept (rf_type f) = true -> reads_as (snd row) (type_toks (type_used (rf_type f))))) (active s) rows.
Proof.
  intros R H K. destruct (derived_reader_covers_the_declared_fields s H) as (h & ks & ig & name & E & F & -> & ->).
  destruct (derived_header_in_general s H K) as (h' & ks1 & ks2 & ig & name & _ & E' & HH). rewrite E in E'. injection E' as <- <- <- <-.
  pose proof (reader_code_for_any_tokens read (struct_toks s) R) as G. rewrite E in G. destruct G as (p & sf & c & rows & G & A & B & C & D).
  exists p, sf, c, rows. split; [exact G|]. unfold reads_as in *. rewrite A, B, C. destruct h. split; [exact HH|]. split; [now apply header_plain|].
  clear - F D. revert rows D. induction F as [|f k fs ks (F1 & F2 & F3) _ IH]; intros rows D; inversion D as [|? row ? rows' [D1 D2] D']; subst; constructor; auto.
  rewrite D1. split; [exact F1|]. split; [exact F2|]. intros T. rewrite D2. auto.
Qed.
(** The number literal in the generated code denotes the number of fields. *)
Lemma digits_value fuel n : (n < fuel)%nat -> fold_left (fun a c => (10 * a + N.to_nat (c - 48))%nat) (digits fuel n) O = n.
Proof.
  revert n. induction fuel as [|f IH]; intros n H; [lia|]. cbn [digits]. destruct (Nat.ltb_spec n 10) as [L|L].
  - cbn [fold_left]. lia.
  - rewrite fold_left_app. cbn [fold_left]. rewrite IH by (pose proof (Nat.div_lt n 10); lia). pose proof (Nat.div_mod n 10). pose proof (Nat.mod_upper_bound n 10). lia.
Qed.

(** * Examples *)
(** A reader that gives every character its own token. *)
Fixpoint alone (t : token) : ptok :=
  match t with Ident s => PId s | Punct c => PPunct c false | Literal r => PLit r | Group d ts => PGrp d (map alone ts) end.
Lemma alone_unspaced : forall t, unspaced (alone t) = t.
Proof.
  fix F 1. intros [s|c|r|d ts]; try reflexivity. cbn [alone unspaced]. f_equal. induction ts as [|t ts IH]; [reflexivity|]. cbn [map]. now rewrite F, IH.
Qed.
Example alone_faithful : faithful (map alone).
Proof. intros ts. unfold reads_as. rewrite map_map. induction ts as [|t ts IH]; [reflexivity|]. cbn [map]. now rewrite alone_unspaced, IH. Qed.
Example small_writer : json_encode (map alone) (struct_toks small) = Some (code
"impl json::ToJson for P {
    fn to_json(&self) -> json::Json {
        let map = std::collections::HashMap::with_capacity(1);
        let mut js = json::Json::Object(map);
        match js.add_option(""k"".to_string(), json::ToJson::to_json(&self.x), true) {
            Ok(_) => (),
            Err(_) => unreachable!()
        };
        js
    }
}").
Proof. vm_compute. reflexivity. Qed.
Example small_reader : json_decode (map alone) (struct_toks small) = Some (code
"impl json::FromJson for P {
    fn from_json(json: &json::Json) -> Result<Self, json::Error> {
        match json {
            json::Json::Object(obj) => {
                Ok(P {
                    x: {
                        if let Some((v, _)) = obj.get(""k"") {
                            <bool as json::FromJson>::from_json(v)?
                        } else {
                            return Err(json::Error::new(json::ErrorKind::MissingKey, format!(""missing key \""{}\""."", ""k"")));
                        }
                    },
                    y: std::default::Default::default(),
                })
            }
            other => Err(json::Error::new(json::ErrorKind::ConvertError, format!(""cannot convert {} to {}."", other._kind(), stringify!(P)))),
        }
    }
}").
Proof. vm_compute. reflexivity. Qed.
Example item_generates : exists params self conditions,
  json_encode (map alone) (struct_toks item) =
    Some (encode_code params self conditions (lit "3") [(quoted [105; 100; 92; 110], lit "_id"); (quoted (lit "f"), lit "f"); (quoted (lit "r"), lit "r")]) /\
  params <> [] /\ conditions <> [].
Proof.
  generalize (writer_code_for_any_tokens (map alone) (struct_toks item) alone_faithful). rewrite item_encode.
  generalize (json_encode (map alone) (struct_toks item)). intros o (p & s & c & -> & A & _ & C). exists p, s, c. split; [reflexivity|].
  cbn [h_generics h_where] in A, C. unfold reads_as in *. clear - A C. split; intros E; subst.
  - discriminate A.
  - discriminate C.
Qed.
Example item_meets_conditions : struct_ok item /\ struct_kept item = true. Proof. exact (conj item_ok (proj1 item_kept)). Qed.

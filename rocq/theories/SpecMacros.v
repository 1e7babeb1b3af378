(** The code the derive macros generate, as text with holes. *)
From Verif Require Import Base Tokens Quote SpecQuote.

Definition parens (ts : list ptok) : list ptok := [PGrp Paren ts].
Definition braces (ts : list ptok) : list ptok := [PGrp Brace ts].
Definition ident (s : str) : list ptok := [PId s].
Definition literal (raw : str) : list ptok := [PLit raw].
Definition header_code (trait : string) (params self conditions body : list ptok) : list ptok :=
  code "impl" ++ params ++ code trait ++ code "for" ++ self ++ conditions ++ braces body.
(** The statement that writes the field [field] under the key literal [key]. *)
Definition write_code (key field : str) : list ptok :=
  code "match js.add_option" ++
    parens (literal key ++ code ".to_string(), json::ToJson::to_json" ++ parens (code "&self." ++ ident field) ++ code ", true") ++
    code "{ Ok(_) => (), Err(_) => unreachable!() };".
(** [rows]: key literal and name of each field; [n]: the literal of their number. *)
Definition encode_code (params self conditions : list ptok) (n : str) (rows : list (str * str)) : list ptok :=
  header_code "json::ToJson" params self conditions
    (code "fn to_json(&self) -> json::Json" ++ braces (
       code "let map = std::collections::HashMap::with_capacity" ++ parens (literal n) ++ code ";" ++
       code "let mut js = json::Json::Object(map);" ++
       flat_map (fun row => write_code (fst row) (snd row)) rows ++
       code "js")).
(** The initializer that reads the field [field] of type [ty] from the key literal [key]. *)
Definition read_code (key field : str) (ty : list ptok) : list ptok :=
  ident field ++ code ":" ++ braces (
    code "if let Some((v, _)) = obj.get" ++ parens (literal key) ++
    braces (code "<" ++ ty ++ code "as json::FromJson>::from_json(v)?") ++
    code "else" ++
    braces (code "return Err" ++ parens (code "json::Error::new" ++ parens (code "json::ErrorKind::MissingKey, format!" ++
              parens (code """missing key \""{}\""."", " ++ literal key))) ++ code ";")) ++
  code ",".
Definition default_code (field : str) : list ptok := ident field ++ code ": std::default::Default::default(),".
(** [rows]: key literal, name and type of each field that is read; [skipped]: the names of the others. *)
Definition decode_code (params self conditions : list ptok) (name : str) (rows : list (str * str * list ptok)) (skipped : list str) : list ptok :=
  header_code "json::FromJson" params self conditions
    (code "fn from_json(json: &json::Json) -> Result<Self, json::Error>" ++ braces (
       code "match json" ++ braces (
         code "json::Json::Object(obj) =>" ++ braces (code "Ok" ++ parens (ident name ++ braces (
            flat_map (fun row => read_code (fst (fst row)) (snd (fst row)) (snd row)) rows ++
            flat_map default_code skipped))) ++
         code "other => Err" ++ parens (code "json::Error::new" ++ parens (
            code "json::ErrorKind::ConvertError, format!" ++ parens (
              code """cannot convert {} to {}."", other._kind(), stringify!" ++ parens (ident name)))) ++ code ","))).
(** The tokens of a text without their spacing. *)
Definition reads_as (ts : list ptok) (toks : list token) : Prop := map unspaced ts = toks.

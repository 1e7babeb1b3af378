(** The derive macros as a whole, json_derive/src/lib.rs: from the tokens of a declaration to the tokens of the implementation. *)
From Verif Require Import Base Tokens Quote.

(** [read ts] is the text that stands for the tokens [ts], as the compiler reads it back, with some spacing ([Tokens] gives the texts of types,
    parameters and conditions as the tokens they are read back as). Used at json_derive/src/lib.rs 31, 81 and in the templates 35-52, 85-118. *)
Definition reader := list token -> list ptok.
(** A value of json_derive/src/lib.rs 8-124 with nothing but a text. *)
Definition text (ts : list ptok) : value := VObj (Some ts) [].
(** parse/src/lib.rs 139-160: the members of [StructItem] that the templates use. *)
Definition generics_value (read : reader) (g : list generic) : value :=
  VObj (Some (read (generics_text g))) [(lit "only_idents()", text (read (only_idents g)))].
(** The struct as the templates of json_derive/src/lib.rs 35-52, 85-118 use it. *)
Definition item_value (read : reader) (s : struct_item) : value :=
  VObj None [(lit "generics", VOpt (option_map (generics_value read) (st_generics s)));
             (lit "ident", text [PId (st_ident s)]);
             (lit "where_clause", VOpt (option_map (fun g => text (read (where_text g))) (st_where s)))].

(** json_derive/src/lib.rs 34-52 *)
Definition encode_template : list ttok := lex
"                       impl#(#(&s.generics))? json::ToJson for #(s.ident)#(#(&s.generics):x #(x.only_idents()))?
                        #(#(&s.where_clause))?
                        {
                            fn to_json(&self) -> json::Json {
                                let map = std::collections::HashMap::with_capacity(#(v.len()));
                                let mut js = json::Json::Object(map);
                                #(#v:x
                                    match js.add_option(#(x.0), json::ToJson::to_json(&self.#(x.1)), true) {
                                        Ok(_) => (),
                                        Err(_) => unreachable!()
                                    };
                                )*
                                js
                            }
                        }
".
(** json_derive/src/lib.rs 83-118 *)
Definition decode_template : list ttok := lex
"                       impl#(#(&s.generics))? json::FromJson for #(s.ident)#(#(&s.generics):x #(x.only_idents()))?
                        #(#(&s.where_clause))?
                        {
                            fn from_json(json: &json::Json) -> Result<Self, json::Error> {
                                match json {
                                    json::Json::Object(obj) => {
                                        Ok(
                                            #(s.ident) {
                                                #(#v:x
                                                    #(x.1): {
                                                        if let Some((v, _)) = obj.get(#(x.0)) {
                                                            <#(x.2) as json::FromJson>::from_json(v)?
                                                        } else {
                                                            return Err(json::Error::new(json::ErrorKind::MissingKey,
                                                                                        format!(""missing key \""{}\""."", #(x.0))));
                                                        }
                                                    },
                                                )*
                                                #(#ig:x
                                                    #(x.ident): std::default::Default::default(),
                                                )*
                                            }
                                        )
                                    }
                                    other => Err(json::Error::new(json::ErrorKind::ConvertError,
                                                                  format!(""cannot convert {} to {}."",
                                                                          other._kind(), stringify!(#(s.ident))))),
                                }
                            }
                        }
".
(** 31: the pair of a field; its first text is the key literal followed by [.to_string()] (json_derive/src/lib.rs) *)
Definition encode_row (k : str * str) : value :=
  VObj None [(lit "0", text [PLit (fst k); PPunct 46 false; PId (lit "to_string"); PGrp Paren []]); (lit "1", text [PId (snd k)])].
(** 81: the triple of a field (json_derive/src/lib.rs) *)
Definition decode_row (read : reader) (k : str * str * list token) : value :=
  VObj None [(lit "0", text [PLit (fst (fst k))]); (lit "1", text [PId (snd (fst k))]); (lit "2", text (read (snd k)))].
(** 8-58 [json_encode] (json_derive/src/lib.rs) *)
Definition json_encode (read : reader) (ts : list token) : option (list ptok) :=
  let! s := parse_struct_item ts in
  match st_fields s with
  | StructFields v =>
      let! ks := all_some (fun x => let! k := key_of x in Some (34 :: k ++ [34], i_ident x)) (filter (fun x => negb (ignored x)) v) in
      quote [(lit "s", item_value read s); (lit "v", VList (map encode_row ks))] encode_template
  | _ => None
  end.
(** 60-124 [json_decode] (json_derive/src/lib.rs) *)
Definition json_decode (read : reader) (ts : list token) : option (list ptok) :=
  let! s := parse_struct_item ts in
  match st_fields s with
  | StructFields v =>
      let! ks := all_some (fun x => let! k := key_of x in Some (34 :: k ++ [34], i_ident x, used_ty (i_ty x))) (filter (fun x => negb (ignored x)) v) in
      quote [(lit "s", item_value read s); (lit "v", VList (map (decode_row read) ks));
             (lit "ig", VList (map (fun x => VObj None [(lit "ident", text [PId (i_ident x)])]) (filter ignored v)))] decode_template
  | _ => None
  end.

(** The code that the derive macros generate for a struct with named fields, json_derive/src/lib.rs.
    A struct is given by its list of fields, as the macros see it; how they get that list from the tokens is in [Tokens]. *)
From Verif Require Import Base F64 Json Ops Convert.

(** One field: its name, the key it has in JSON (the [key] attribute, json_derive/src/lib.rs 22-30 and 73-81, else the name), whether it has
    the [ignore] attribute (15-20, 66-71), its type's conversions, and its [Default] value (used only if it is ignored; assumed to be a
    constant). *)
Record field := mkField {
  f_ident : str; f_key : str; f_ignored : bool;
  f_type : Type; f_codec : codec f_type; f_default : f_type
}.
(** A value of the struct: one value per field. The type of json_derive/src/lib.rs 8-124 for its user. *)
Fixpoint struct_value (fs : list field) : Type :=
  match fs with [] => unit | f :: r => (f_type f * struct_value r)%type end.

(** json_derive/src/lib.rs 41-46: the statements generated for the fields that are not ignored; [unreachable!] panics. *)
Fixpoint add_fields (fs : list field) : struct_value fs -> json -> res json :=
  match fs with
  | [] => fun _ js => Ok js
  | f :: r => fun x js =>
      if f_ignored f then add_fields r (snd x) js
      else match add_option js (f_key f) (to_json (f_codec f) (fst x)) true with
           | (js', Ok _) => add_fields r (snd x) js'
           | (_, Err _) => Panic
           | (_, Panic) => Panic
           | (_, Fuel) => Fuel
           end
  end.
(** json_derive/src/lib.rs 94-106: the field initializers of the struct literal, in order.  The ignored fields come after the others there;
    as they cannot fail the order among the two does not matter.  [obj.get] is [hm_get]. *)
Fixpoint read_fields (fs : list field) (o : hmap) : res (struct_value fs) :=
  match fs with
  | [] => Ok tt
  | f :: r =>
      if f_ignored f then
        let? rest := read_fields r o in Ok (f_default f, rest)
      else match hm_get (f_key f) o with
           | Some (v, _) =>
               let? x := from_json (f_codec f) v in
               let? rest := read_fields r o in Ok (x, rest)
           | None => missing_key (f_key f)
           end
  end.
(** json_derive/src/lib.rs 34-51 [to_json] (a panic would appear as null here; [PropsDerive] proves there is none) and 84-118 [from_json]. *)
Definition derived (name : str) (fs : list field) : codec (struct_value fs) :=
  mkCodec
    (fun x => match add_fields fs x (JObj []) with Ok js => js | _ => JNull end)
    (fun j => match j with
              | JObj o => read_fields fs o
              | _ => cannot_convert j (name ++ lit ".")
              end).

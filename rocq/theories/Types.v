(** Types that contain themselves.  [Derive] has the code that the macros generate for one struct, given the conversions of its fields' types;
    here those are found by the name of the type, as the compiler does, and may be those of the struct itself: [Vec<Node>] in a field of [Node],
    or a map to a struct that has a [Vec] of the first.  (json_derive/src/lib.rs 43, 97: [json::ToJson::to_json(..)] and
    [<#ty as json::FromJson>::from_json(v)].)  Rust types of any shape are described by [rty], their values by [val].
    Simplification: types with parameters stand here with their arguments filled in. *)
From Verif Require Import Base F64 Json Ops Convert Derive SpecConvert.

(** A type of a field, json_derive/parse/src/name.rs 209-228, among those that src/lib.rs 766-990 implements the traits for, or a struct by name. *)
Inductive rty :=
| RJson | RString | RBool | RInt (t : int_ty) | RF64 | RF32
| RVec (a : rty) | ROption (a : rty) | RPairs (k : key_ty) (a : rty) | RMap (k : key_ty) (a : rty)
| RStruct (name : str).

(** A key of a map or a pair, for the bounds [ToString] and [FromStr] of src/lib.rs 891-972. *)
Inductive kval := KvStr (s : str) | KvBool (b : bool) | KvChar (c : N) | KvInt (z : Z) | KvF64 (f : f64).
(** Not code: a key as a [kval] (src/lib.rs 891-972). *)
Definition kval_of (k : key_ty) : key k -> kval :=
  match k with KString => KvStr | KBool => KvBool | KChar => KvChar | KInt _ => KvInt | KF64 => KvF64 end.
(** std: [ToString] of a key, src/lib.rs 891-972 *)
Definition kval_show (v : kval) : str :=
  match v with KvStr s => show k_string s | KvBool b => show k_bool b | KvChar c => show k_char c | KvInt z => show_Z z | KvF64 f => show k_f64 f end.
(** std: [ToString] and [FromStr] of a key type, src/lib.rs 891-972 *)
Definition kval_codec (k : key_ty) : key_codec kval := mkKey kval_show (fun s => option_map (kval_of k) (read (key_codec_of k) s)).
(** std: [Eq] of a key type, src/lib.rs 942-972 *)
Definition kval_eqb (a b : kval) : bool :=
  match a, b with
  | KvStr x, KvStr y => str_eqb x y | KvBool x, KvBool y => Bool.eqb x y | KvChar x, KvChar y => N.eqb x y
  | KvInt x, KvInt y => Z.eqb x y | KvF64 x, KvF64 y => sf_eqb x y | _, _ => false
  end.

(** A value of such a type (src/lib.rs 766-990): [VMap] is a [Vec<(K, V)>] or the entries of a [HashMap<K, V>] in iteration order, [VStruct] has
    one value per field. *)
Inductive val :=
| VJson (j : json) | VStr (s : str) | VBool (b : bool) | VInt (z : Z) | VF64 (f : f64) | VF32 (f : f64)
| VVec (l : list val) | VOpt (x : option val) | VMap (l : list (kval * val)) | VStruct (l : list val).

(** Not code: conversions (src/lib.rs 758-764) of a type whose values are [val]s of one form. *)
Definition as_val {T} (inj : T -> val) (proj : val -> option T) (c : codec T) : codec val :=
  mkCodec (fun v => match proj v with Some x => to_json c x | None => JNull end) (fun j => rmap inj (from_json c j)).

Section Env.
Variable env : str -> codec val.
(** The conversions of a type, src/lib.rs 766-990; those of structs are given by [env]. *)
Fixpoint codec_in (t : rty) : codec val :=
  match t with
  | RJson => as_val VJson (fun v => match v with VJson j => Some j | _ => None end) c_json
  | RString => as_val VStr (fun v => match v with VStr s => Some s | _ => None end) c_string
  | RBool => as_val VBool (fun v => match v with VBool b => Some b | _ => None end) c_bool
  | RInt t => as_val VInt (fun v => match v with VInt z => Some z | _ => None end) (c_int t)
  | RF64 => as_val VF64 (fun v => match v with VF64 f => Some f | _ => None end) c_f64
  | RF32 => as_val VF32 (fun v => match v with VF32 f => Some f | _ => None end) c_f32
  | RVec a => as_val VVec (fun v => match v with VVec l => Some l | _ => None end) (c_vec (codec_in a))
  | ROption a => as_val VOpt (fun v => match v with VOpt x => Some x | _ => None end) (c_option (codec_in a))
  | RPairs k a => as_val VMap (fun v => match v with VMap l => Some l | _ => None end) (c_pairs (kval_codec k) (codec_in a))
  | RMap k a => as_val VMap (fun v => match v with VMap l => Some l | _ => None end) (c_map kval_eqb (kval_codec k) (codec_in a))
  | RStruct n => env n
  end.
End Env.

(** A field of a struct: json_derive/parse/src/field.rs 224-229, and its attributes as json_derive/src/lib.rs 15-31, 66-81 read them; see [Derive.field]. *)
Record rfield := mkRField { r_ident : str; r_key : str; r_ignored : bool; r_type : rty; r_default : val }.
(** A struct with the two derives, json_derive/parse/src/lib.rs 148-168 *)
Record decl := mkDecl { d_name : str; d_fields : list rfield }.
(** Not code: the structs of a program that uses json_derive/src/lib.rs. *)
Definition prog := list decl.
(** Name resolution by the compiler, for the types in the code of json_derive/src/lib.rs 97. *)
Definition declared (p : prog) (n : str) : option decl := find (fun d => str_eqb n (d_name d)) p.

Section Struct.
Variable env : str -> codec val.
(** The field as [Derive] has it (json_derive/src/lib.rs 8-124). *)
Definition field_in (f : rfield) : field := mkField (r_ident f) (r_key f) (r_ignored f) val (codec_in env (r_type f)) (r_default f).
(** Not code: the fields of a struct as a list and as [Derive.struct_value] (json_derive/src/lib.rs 8-124). *)
Fixpoint to_tuple (fs : list rfield) (l : list val) : option (struct_value (map field_in fs)) :=
  match fs, l with
  | [], [] => Some tt
  | f :: fs, x :: l => option_map (fun y => (x, y)) (to_tuple fs l)
  | _, _ => None
  end.
(** Not code: the way back (json_derive/src/lib.rs 8-124). *)
Fixpoint of_tuple (fs : list rfield) : struct_value (map field_in fs) -> list val :=
  match fs with [] => fun _ => [] | f :: fs => fun x => fst x :: of_tuple fs (snd x) end.
(** json_derive/src/lib.rs 34-51, 84-118: the implementations generated for a struct. *)
Definition struct_codec (d : decl) : codec val :=
  as_val (fun x => VStruct (of_tuple (d_fields d) x)) (fun v => match v with VStruct l => to_tuple (d_fields d) l | _ => None end)
    (derived (d_name d) (map field_in (d_fields d))).
End Struct.

(** The implementation of the struct [n], json_derive/src/lib.rs 34-51, 84-118, where calls nested deeper than [fuel] are cut off: [from_json] gives
    [Fuel] then.  Without a struct of that name the program does not compile. *)
Fixpoint unfolded (p : prog) (fuel : nat) (n : str) : codec val :=
  match fuel with
  | O => mkCodec (fun _ => JNull) (fun _ => Fuel)
  | S m => match declared p n with Some d => struct_codec (unfolded p m) d | None => mkCodec (fun _ => JNull) (fun _ => Panic) end
  end.

(** Not code: how deep a value is nested, the fuel for json_derive/src/lib.rs 34-51. *)
Fixpoint vdepth (v : val) : nat :=
  match v with
  | VVec l | VStruct l => S (fold_right (fun x n => Nat.max (vdepth x) n) O l)
  | VOpt (Some x) => S (vdepth x)
  | VMap l => S (fold_right (fun kv n => Nat.max (vdepth (snd kv)) n) O l)
  | _ => O
  end.
(** Not code: how deep a JSON value is nested, the fuel for json_derive/src/lib.rs 84-118. *)
Fixpoint jdepth (j : json) : nat :=
  match j with
  | JArr v => S (fold_right (fun x n => Nat.max (jdepth x) n) O v)
  | JObj o => S (fold_right (fun e n => Nat.max (Nat.max (jdepth (fst (snd e))) (fold_right (fun x n => Nat.max (jdepth x) n) O (snd (snd e)))) n) O o)
  | _ => O
  end.
(** The implementation of the struct [n], json_derive/src/lib.rs 34-51, 84-118.  [PropsTypes] proves that the fuel is enough, and that this is the
    only solution of the equations that the generated code amounts to. *)
Definition struct_conversions (p : prog) (n : str) : codec val :=
  mkCodec (fun v => to_json (unfolded p (S (vdepth v)) n) v) (fun j => from_json (unfolded p (S (jdepth j)) n) j).
(** The conversions of any type of the program, src/lib.rs 766-990, json_derive/src/lib.rs 8-124. *)
Definition conversions (p : prog) (t : rty) : codec val := codec_in (struct_conversions p) t.

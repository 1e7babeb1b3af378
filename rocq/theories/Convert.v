(** [ToJson] and [FromJson] and their implementations, src/lib.rs 758-990, and the text-level functions, 13-40.
    The implementations for [&str], [str], [&T], [&[T]], [&[(K, V)]] (794-804, 824-828, 862-866, 885-889, 932-940)
    have the same bodies as those for the owned type and are not repeated. *)
From Verif Require Import Base F64 Json Parse Print Ops Path.
From Coq Require Import Floats.SpecFloat.

(** src/lib.rs 758-764 the two traits, as one record of two functions. *)
Record codec (T : Type) := mkCodec { to_json : T -> json; from_json : json -> res T }.
Arguments mkCodec {T}. Arguments to_json {T}. Arguments from_json {T}.

(** The error of a value of the wrong kind: [format!("cannot convert {} to <ty><dot>", other._kind())] src/lib.rs 784-990 *)
Definition cannot_convert {A} (j : json) (ty : str) : res A :=
  fail ConvertError (lit "cannot convert " ++ kind_name j ++ lit " to " ++ ty).

(** src/lib.rs 766-776 *)
Definition c_json : codec json := mkCodec (fun j => j) (fun j => Ok j).
(** src/lib.rs 778-792 *)
Definition c_string : codec str :=
  mkCodec JStr (fun j => match j with JStr s => Ok s | _ => cannot_convert j (lit "String.") end).
(** src/lib.rs 847-860 *)
Definition c_bool : codec bool :=
  mkCodec JBool (fun j => match j with JBool b => Ok b | _ => cannot_convert j (lit "bool.") end).

(** The integer types of src/lib.rs 832-843; [usize] and [isize] are those of a 64-bit platform. *)
Inductive int_ty := U8 | U16 | U32 | U64 | U128 | Usize | I8 | I16 | I32 | I64 | I128 | Isize.
(** The name of the type in the error of src/lib.rs 806-845. *)
Definition int_name (t : int_ty) : str :=
  match t with
  | U8 => lit "u8" | U16 => lit "u16" | U32 => lit "u32" | U64 => lit "u64" | U128 => lit "u128" | Usize => lit "usize"
  | I8 => lit "i8" | I16 => lit "i16" | I32 => lit "i32" | I64 => lit "i64" | I128 => lit "i128" | Isize => lit "isize"
  end.
(** std: the integer types of src/lib.rs 832-843 *)
Definition int_bits (t : int_ty) : Z :=
  match t with
  | U8 | I8 => 8 | U16 | I16 => 16 | U32 | I32 => 32 | U64 | I64 | Usize | Isize => 64 | U128 | I128 => 128
  end%Z.
(** std: the integer types of src/lib.rs 832-843 *)
Definition int_signed (t : int_ty) : bool :=
  match t with U8 | U16 | U32 | U64 | U128 | Usize => false | _ => true end.
(** std: [MIN] of the integer types of src/lib.rs 832-843 *)
Definition int_min (t : int_ty) : Z := if int_signed t then (- 2 ^ (int_bits t - 1))%Z else 0%Z.
(** std: [MAX] of the integer types of src/lib.rs 832-843 *)
Definition int_max (t : int_ty) : Z := if int_signed t then (2 ^ (int_bits t - 1) - 1)%Z else (2 ^ int_bits t - 1)%Z.
(** src/lib.rs 806-830 [number_imp!] at an integer type: [as f64] and [as $ty]. *)
Definition c_int (t : int_ty) : codec Z :=
  mkCodec (fun z => JNum (f64_of_Z z))
    (fun j => match j with JNum f => Ok (Z_of_f64_sat (int_min t) (int_max t) f) | _ => cannot_convert j (int_name t ++ lit ".") end).
(** src/lib.rs 806-830 at [f64] (845) and [f32] (844). *)
Definition c_f64 : codec f64 :=
  mkCodec JNum (fun j => match j with JNum f => Ok f | _ => cannot_convert j (lit "f64.") end).
(** src/lib.rs 806-845 for [f32] *)
Definition c_f32 : codec spec_float :=
  mkCodec (fun g => JNum (f64_of_f32 g)) (fun j => match j with JNum f => Ok (f32_of_f64 f) | _ => cannot_convert j (lit "f32.") end).

(** [Iterator::collect] into a [Result<Vec<_>, _>]: stops at the first error. Used at src/lib.rs 874-883. *)
Fixpoint collect {A B} (f : A -> res B) (l : list A) : res (list B) :=
  match l with
  | [] => Ok []
  | a :: r => let? b := f a in let? bs := collect f r in Ok (b :: bs)
  end.
(** src/lib.rs 868-883 *)
Definition c_vec {T} (c : codec T) : codec (list T) :=
  mkCodec (fun l => JArr (map (to_json c) l))
    (fun j => match j with JArr v => collect (from_json c) v | _ => cannot_convert j (lit "Vec") end).

(** A key type: its [ToString] and its [FromStr] ([Err] is [None]). The bounds of src/lib.rs 891-972. *)
Record key_codec (K : Type) := mkKey { show : K -> str; read : str -> option K }.
Arguments mkKey {K}. Arguments show {K}. Arguments read {K}.
(** The match on [K::from_str] at src/lib.rs 908-912, 917-921, 958-962. *)
Definition read_key {K} (kc : key_codec K) (k : str) : res K :=
  match read kc k with Some x => Ok x | None => fail ConvertError (lit "error converting " ++ k ++ lit " to key.") end.

(** The [ToString]/[FromStr] pairs of the standard library's key types, by their documented contracts. Used as keys at src/lib.rs 891-972. *)
Definition k_string : key_codec str := mkKey (fun s => s) (fun s => Some s).
(** std: [ToString] and [FromStr] of [bool], as a key at src/lib.rs 891-972 *)
Definition k_bool : key_codec bool :=
  mkKey (fun b : bool => if b then lit "true" else lit "false")
    (fun s => if str_eqb s (lit "true") then Some true else if str_eqb s (lit "false") then Some false else None).
(** std: [ToString] and [FromStr] of [char], as a key at src/lib.rs 891-972 *)
Definition k_char : key_codec N := mkKey (fun c => [c]) (fun s => match s with [c] => Some c | _ => None end).
(** std: [ToString] of the integer types, as keys at src/lib.rs 891-972 *)
Definition show_Z (z : Z) : str := if (z <? 0)%Z then MINUS :: show_N (Z.to_N (- z)) else show_N (Z.to_N z).
(** An optional '+', or '-' for a signed type, then decimal digits, at least one, the value in range. std: [FromStr] of the integer types, as keys at src/lib.rs 891-972. *)
Definition read_int (t : int_ty) (s : str) : option Z :=
  let '(neg, ds) :=
    match s with
    | c :: r => if c =? PLUS then (false, r) else if (c =? MINUS) && int_signed t then (true, r) else (false, s)
    | [] => (false, [])
    end in
  match ds with
  | [] => None
  | _ => if forallb is_digit ds then
           let n := if neg : bool then (- Z.of_N (digits_val ds))%Z else Z.of_N (digits_val ds) in
           if ((int_min t <=? n) && (n <=? int_max t))%Z then Some n else None
         else None
  end.
(** std: the integer types as keys at src/lib.rs 891-972 *)
Definition k_int (t : int_ty) : key_codec Z := mkKey show_Z (read_int t).
(** std: [f64] as a key at src/lib.rs 891-930 *)
Definition k_f64 : key_codec f64 := mkKey f64_to_string f64_from_str.

(** src/lib.rs 891-930.  [for (mk, (mj, mv)) in obj] visits the entries in the map's iteration order, which is the
    order of the list; one entry yields its [list] in reverse and then its main value. *)
Definition pairs_of_entry {K V} (kc : key_codec K) (c : codec V) (e : entry) : res (list (K * V)) :=
  collect (fun js => let? k := read_key kc (fst e) in let? v := from_json c js in Ok (k, v))
    (rev (snd (snd e)) ++ [fst (snd e)]).
(** src/lib.rs 891-930 [Vec<(K, V)>] *)
Definition c_pairs {K V} (kc : key_codec K) (c : codec V) : codec (list (K * V)) :=
  mkCodec (fun l => JObj (fold_left (fun o kv => object_insert o (show kc (fst kv)) (to_json c (snd kv))) l []))
    (fun j => match j with
              | JObj o => let? ls := collect (pairs_of_entry kc c) o in Ok (List.concat ls)
              | _ => cannot_convert j (lit "Vec<(K, V)>")
              end).

(** A [HashMap<K, V>] of the user: its entries in iteration order.  [insert] overwrites or adds (the position of a new
    entry is not specified by Rust; here the end). Used at src/lib.rs 952-972. *)
Fixpoint map_insert {K V} (eqb : K -> K -> bool) (k : K) (v : V) (m : list (K * V)) : list (K * V) :=
  match m with
  | [] => [(k, v)]
  | (k', v') :: r => if eqb k k' then (k', v) :: r else (k', v') :: map_insert eqb k v r
  end.
(** The loop of src/lib.rs 957-965. *)
Fixpoint map_of_entries {K V} (eqb : K -> K -> bool) (kc : key_codec K) (c : codec V) (o : hmap) (m : list (K * V)) : res (list (K * V)) :=
  match o with
  | [] => Ok m
  | (mk, (mj, _)) :: r =>
      let? k := read_key kc mk in
      let? v := from_json c mj in
      map_of_entries eqb kc c r (map_insert eqb k v m)
  end.
(** src/lib.rs 942-972 *)
Definition c_map {K V} (eqb : K -> K -> bool) (kc : key_codec K) (c : codec V) : codec (list (K * V)) :=
  mkCodec (fun m => JObj (fold_left (fun o kv => hm_insert (show kc (fst kv)) (to_json c (snd kv), []) o) m []))
    (fun j => match j with
              | JObj o => map_of_entries eqb kc c o []
              | _ => cannot_convert j (lit "HashMap")
              end).

(** src/lib.rs 974-990 *)
Definition c_option {T} (c : codec T) : codec (option T) :=
  mkCodec (fun x => match x with Some y => to_json c y | None => JNull end)
    (fun j => match j with JNull => Ok None | _ => let? y := from_json c j in Ok (Some y) end).

(** src/lib.rs 248-250 *)
Definition convert {T} (c : codec T) (j : json) : res T := from_json c j.

(** ** The text-level functions.  [order] rearranges the entries of every hash map of a value: hash maps iterate in an
    arbitrary order, and conversions from maps see that order.  (Lookup by key does not, and printing sorts.) *)
Section Text.
  Variable order : json -> json.
  (** src/lib.rs 14-16 *)
  Definition encode {T} (c : codec T) (x : T) : str := to_string (order (to_json c x)).
  (** src/lib.rs 19-21 *)
  Definition decode {T} (c : codec T) (t : str) : res T := let? j := parse t in convert c (order j).
  (** src/lib.rs 24-26 *)
  Definition text_get {T} (c : codec T) (t p : str) : res T :=
    let? j := parse t in let? x := get j p in convert c (order x).
  (** src/lib.rs 29-33 *)
  Definition text_set (vmax : N) {T} (c : codec T) (t p : str) (x : T) : res str :=
    let? j := parse t in
    let '(j', r) := set vmax j p (to_json c x) in let? _ := r in Ok (to_string (order j')).
  (** src/lib.rs 36-40 *)
  Definition text_del (t p : str) : res str :=
    let? j := parse t in
    let '(j', r) := del j p in let? _ := r in Ok (to_string (order j')).
End Text.

(** What users of the parse crate ask of the attributes they get: json_derive/parse/src/meta.rs. *)
From Verif Require Import Base F64 Json Convert Tokens.

(** meta.rs 224-264 [Lit::bytes], [string], [integer], [float], [boolean] *)
Definition lit_bytes (l : lit_value) : option str := match l with LBytes s _ => Some s | _ => None end.
(** json_derive/parse/src/meta.rs 234-240 *)
Definition lit_string (l : lit_value) : option str := match l with LString s _ => Some s | _ => None end.
(** json_derive/parse/src/meta.rs 242-248 *)
Definition lit_integer (l : lit_value) : option Z := match l with LInteger n _ => Some n | _ => None end.
(** json_derive/parse/src/meta.rs 250-256 *)
Definition lit_float (l : lit_value) : option f64 := match l with LFloat f _ => Some f | _ => None end.
(** json_derive/parse/src/meta.rs 258-264 *)
Definition lit_boolean (l : lit_value) : option bool := match l with LBoolean b _ => Some b | _ => None end.
(** meta.rs 469-501 [MetaItem::ident], [literal], [pair], [group] *)
Definition item_ident (i : meta_item) : option str := match i with MIdent s => Some s | _ => None end.
(** json_derive/parse/src/meta.rs 479-485 *)
Definition item_literal (i : meta_item) : option lit_value := match i with MLiteral l => Some l | _ => None end.
(** json_derive/parse/src/meta.rs 487-493 *)
Definition item_pair (i : meta_item) : option (str * lit_value) := match i with MPair k l _ => Some (k, l) | _ => None end.
(** json_derive/parse/src/meta.rs 495-501 *)
Definition item_group (i : meta_item) : option (str * list meta_item) := match i with MGroup s inner => Some (s, inner) | _ => None end.
(** [filter_map] of std, as in json_derive/parse/src/meta.rs 53-103 *)
Definition filter_map {A B} (f : A -> option B) (l : list A) : list B := flat_map (fun a => match f a with Some b => [b] | None => [] end) l.
(** [collect] into a [HashMap] with string keys: [insert], in order; the entries in the order of first insertion (a simplification: the
    real order is arbitrary). As in json_derive/parse/src/meta.rs 79-103. *)
Definition collect_map {V} (l : list (str * V)) : list (str * V) := fold_left (fun m kv => map_insert str_eqb (fst kv) (snd kv) m) l [].
(** [HashMap::get] of std, for the maps of json_derive/parse/src/meta.rs 79-103 *)
Fixpoint map_find {V} (k : str) (m : list (str * V)) : option V :=
  match m with [] => None | (k', v) :: r => if str_eqb k k' then Some v else map_find k r end.
(** meta.rs 53-103 [Meta::idents], [literals], [pairs], [groups] *)
Definition meta_idents (m : list meta_item) : list str := filter_map (fun x => match x with MIdent s => Some s | _ => None end) m.
(** json_derive/parse/src/meta.rs 66-77 *)
Definition meta_literals (m : list meta_item) : list lit_value := filter_map (fun x => match x with MLiteral l => Some l | _ => None end) m.
(** json_derive/parse/src/meta.rs 79-90 *)
Definition meta_pairs (m : list meta_item) : list (str * lit_value) :=
  collect_map (filter_map (fun x => match x with MPair k l _ => Some (k, l) | _ => None end) m).
(** json_derive/parse/src/meta.rs 92-103 *)
Definition meta_groups (m : list meta_item) : list (str * list meta_item) :=
  collect_map (filter_map (fun x => match x with MGroup s inner => Some (s, inner) | _ => None end) m).

(** meta.rs 640-751 [MetaIndex]: a number ([usize] or [&usize]), a key, a group's name with an index for its inside, a group's name with [()]. *)
Inductive meta_index := IxNth (n : nat) | IxKey (k : str) | IxIn (g : str) (i : meta_index) | IxGroup (g : str).
(** The associated type [Output] of json_derive/parse/src/meta.rs 642-750 *)
Inductive meta_found := FItem (i : meta_item) | FLit (l : lit_value) | FMeta (m : list meta_item).
(** The patterns of json_derive/parse/src/meta.rs 648-680. *)
Definition simple_item (x : meta_item) : bool := match x with MIdent _ => true | MLiteral _ => true | _ => false end.
(** The patterns of json_derive/parse/src/meta.rs 682-704. *)
Definition has_key (k : str) (x : meta_item) : bool := match x with MPair key _ _ => str_eqb key k | _ => false end.
(** The patterns of json_derive/parse/src/meta.rs 706-750. *)
Definition has_name (g : str) (x : meta_item) : bool := match x with MGroup ident _ => str_eqb ident g | _ => false end.
(** meta.rs 49-51 [Meta::get] *)
Fixpoint meta_get (ix : meta_index) (m : list meta_item) : option meta_found :=
  match ix with
  | IxNth n => option_map FItem (nth_error (filter simple_item m) n)
  | IxKey k => match find (has_key k) m with Some (MPair _ l _) => Some (FLit l) | _ => None end
  | IxIn g i => match find (has_name g) m with Some (MGroup _ inner) => meta_get i inner | _ => None end
  | IxGroup g => match find (has_name g) m with Some (MGroup _ inner) => Some (FMeta inner) | _ => None end
  end.
(** meta.rs 23-27 [__token_num] *)
Definition meta_token_num (m : list meta_item) : nat := List.length m * 2.

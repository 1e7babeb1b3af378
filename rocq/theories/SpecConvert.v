(** What the conversions between Rust values and JSON values promise. *)
From Verif Require Import Base F64 Json Convert SpecGrammar SpecLenient SpecNumber SpecValue.
From Coq Require Import Reals Floats.SpecFloat.

(** ** Numbers *)
(** The least and the greatest value of each integer type. *)
Definition least (t : int_ty) : Z :=
  match t with
  | U8 | U16 | U32 | U64 | U128 | Usize => 0
  | I8 => -128 | I16 => -32768 | I32 => -2147483648 | I64 | Isize => -9223372036854775808
  | I128 => -170141183460469231731687303715884105728
  end%Z.
Definition greatest (t : int_ty) : Z :=
  match t with
  | U8 => 255 | U16 => 65535 | U32 => 4294967295 | U64 | Usize => 18446744073709551615
  | U128 => 340282366920938463463374607431768211455
  | I8 => 127 | I16 => 32767 | I32 => 2147483647 | I64 | Isize => 9223372036854775807
  | I128 => 170141183460469231731687303715884105727
  end%Z.
(** [n] is a value of the integer type. *)
Definition in_range (t : int_ty) (n : Z) : Prop := (least t <= n <= greatest t)%Z.
(** The types of at most 32 bits. *)
Definition narrow (t : int_ty) : Prop :=
  match t with U8 | U16 | U32 | I8 | I16 | I32 => True | _ => False end.
(** [k] is [x] truncated toward zero. *)
Definition truncates (x : R) (k : Z) : Prop :=
  ((0 <= x -> IZR k <= x < IZR k + 1) /\ (x <= 0 -> IZR k - 1 < x <= IZR k))%R.
(** [n] is the member of lo..hi closest to [k]. *)
Definition clamped (lo hi k n : Z) : Prop :=
  ((k < lo -> n = lo) /\ (hi < k -> n = hi) /\ (lo <= k <= hi -> n = k))%Z.
(** The nearest double is the integer itself, or lies beyond the bound that the integer is. *)
Definition int_survives (t : int_ty) (n : Z) : Prop :=
  exists f, nearest_even 53 1024 (IZR n) f /\
    (sf_real f = IZR n \/ (n = greatest t /\ IZR n < sf_real f) \/ (n = least t /\ sf_real f < IZR n))%R.

(** ** Round trips *)
(** From what [c] produced for [x], whatever the order its hash maps iterate in, [c] gives back a value equivalent to [x]. *)
Definition round_trips {T} (c : codec T) (eqv : T -> T -> Prop) (x : T) : Prop :=
  forall j, same (to_json c x) j -> exists y, from_json c j = Ok y /\ eqv x y.

Definition option_eqv {T} (eqv : T -> T -> Prop) (x y : option T) : Prop :=
  match x, y with Some a, Some b => eqv a b | None, None => True | _, _ => False end.

(** Values paired with one key, in order; the value a map holds for a key. *)
Definition at_key {K V} (eqb : K -> K -> bool) (k : K) (l : list (K * V)) : list V :=
  map snd (filter (fun kv => eqb k (fst kv)) l).
Definition lookup {K V} (eqb : K -> K -> bool) (k : K) (m : list (K * V)) : option V :=
  match at_key eqb k m with v :: _ => Some v | [] => None end.
(** The same pairs up to the order of different keys. *)
Definition pairs_eqv {K V} (eqb : K -> K -> bool) (eqv : V -> V -> Prop) (l l' : list (K * V)) : Prop :=
  forall k, Forall2 eqv (at_key eqb k l) (at_key eqb k l').
(** A map has at most one value for a key; two maps are equal if they hold the same for every key. *)
Definition is_map {K V} (m : list (K * V)) : Prop := NoDup (map fst m).
Definition map_eqv {K V} (eqb : K -> K -> bool) (eqv : V -> V -> Prop) (m m' : list (K * V)) : Prop :=
  is_map m' /\ forall k, option_eqv eqv (lookup eqb k m) (lookup eqb k m').
Definition decides {K} (eqb : K -> K -> bool) : Prop := forall a b, eqb a b = true <-> a = b.
(** Reading the key's text gives the key. *)
Definition reads_back {K} (kc : key_codec K) (k : K) : Prop := read kc (show kc k) = Some k.

(** ** Errors *)
(** The conversion neither panics nor diverges. *)
Definition total {T} (c : codec T) : Prop := forall j, (exists x, from_json c j = Ok x) \/ (exists e, from_json c j = Err e).
(** [f] fails with [e] on an element of [l] and succeeds on all before it. *)
Definition first_failure {A B} (f : A -> res B) (l : list A) (e : error) : Prop :=
  exists l1 a l2, l = l1 ++ a :: l2 /\ f a = Err e /\ Forall (fun b => exists y, f b = Ok y) l1.
(** The error message for a value of some kind. *)
Definition kind_error (j : json) (ty : string) : error :=
  mkError ConvertError (lit "cannot convert " ++ lit (kind_word j) ++ lit " to " ++ lit ty).
Definition key_error (k : str) : error := mkError ConvertError (lit "error converting " ++ k ++ lit " to key.").

(** ** Types: a universe of the Rust types the crate implements its traits for. *)
Inductive key_ty := KString | KBool | KChar | KInt (t : int_ty) | KF64.
Definition key (k : key_ty) : Type :=
  match k with KString => str | KBool => bool | KChar => N | KInt _ => Z | KF64 => f64 end.
Definition key_codec_of (k : key_ty) : key_codec (key k) :=
  match k with KString => k_string | KBool => k_bool | KChar => k_char | KInt t => k_int t | KF64 => k_f64 end.
Definition key_eqb (k : key_ty) : key k -> key k -> bool :=
  match k with KString => str_eqb | KBool => Bool.eqb | KChar => N.eqb | KInt _ => Z.eqb | KF64 => sf_eqb end.
Definition legal_key (k : key_ty) : key k -> Prop :=
  match k with
  | KString => fun s => scalar_str s = true
  | KBool => fun _ => True
  | KChar => fun c => is_scalar c = true
  | KInt t => in_range t
  | KF64 => fun f => valid_f64 f = true
  end.

(** Which texts are read as which key: Rust's [FromStr]. *)
Local Open Scope N_scope.
Definition int_text (t : int_ty) (s : str) (n : Z) : Prop :=
  exists ds, ds <> [] /\ Forall digit ds /\ in_range t n /\
    (((s = ds \/ s = 43 :: ds) /\ n = Z.of_N (decimal ds)) \/ (s = 45 :: ds /\ (least t < 0)%Z /\ n = (- Z.of_N (decimal ds))%Z)).
(** [s] is [w] in any mixture of upper and lower case. *)
Definition spells (s : str) (w : string) : Prop := Forall2 (fun c d => c = d \/ c + 32 = d) s (lit w).
Definition float_text (s : str) (f : f64) : Prop :=
  exists sg (neg : bool) r, s = sg ++ r /\ ((sg = [] /\ neg = false) \/ (sg = [43] /\ neg = false) \/ (sg = [45] /\ neg = true)) /\
    (((spells r "inf" \/ spells r "infinity") /\ f = S754_infinity neg) \/
     (spells r "nan" /\ f = S754_nan) \/
     exists i fr fd x xe, r = i ++ fr ++ x /\ Forall digit i /\ LaxFrac fr fd /\ i ++ fd <> [] /\ Exp x xe /\
       rounds_to 53 1024 neg (decimal_real neg (decimal (i ++ fd)) (xe - Z.of_nat (List.length fd))) f).
Definition key_text (k : key_ty) : str -> key k -> Prop :=
  match k with
  | KString => fun s x => x = s
  | KBool => fun s b => s = lit (if b then "true" else "false")
  | KChar => fun s c => s = [c]
  | KInt t => int_text t
  | KF64 => float_text
  end.
(** The text a key is written as: Rust's [Display]. *)
Definition key_written (k : key_ty) : key k -> str -> Prop :=
  match k with
  | KString => fun x s => s = x
  | KBool => fun b s => s = lit (if b then "true" else "false")
  | KChar => fun c s => s = [c]
  | KInt _ => fun n s => exists ds, Int ds /\ Z.of_N (decimal ds) = Z.abs n /\ s = (if (n <? 0)%Z then [45] else []) ++ ds
  | KF64 => fun f s =>
      match f with
      | S754_nan => s = lit "NaN" | S754_infinity neg => s = lit (if neg then "-inf" else "inf")
      | _ => exists m e, Number s (sign_of f) m e /\ rounds_to 53 1024 (sign_of f) (decimal_real (sign_of f) m e) f
      end
  end.

Inductive ty :=
| TJson | TString | TBool | TInt (t : int_ty) | TF64 | TF32          (* Json, String, bool, u8 .. isize, f64, f32 *)
| TVec (a : ty) | TOption (a : ty)                                 (* Vec<A>, Option<A> *)
| TPairs (k : key_ty) (a : ty) | TMap (k : key_ty) (a : ty).       (* Vec<(K, A)>, HashMap<K, A> *)
Fixpoint denote (t : ty) : Type :=
  match t with
  | TJson => json | TString => str | TBool => bool | TInt _ => Z | TF64 | TF32 => spec_float
  | TVec a => list (denote a) | TOption a => option (denote a)
  | TPairs k a | TMap k a => list (key k * denote a)
  end.
Fixpoint codec_of (t : ty) : codec (denote t) :=
  match t with
  | TJson => c_json | TString => c_string | TBool => c_bool | TInt t => c_int t | TF64 => c_f64 | TF32 => c_f32
  | TVec a => c_vec (codec_of a) | TOption a => c_option (codec_of a)
  | TPairs k a => c_pairs (key_codec_of k) (codec_of a)
  | TMap k a => c_map (key_eqb k) (key_codec_of k) (codec_of a)
  end.
(** What a value of the type can be in memory. *)
Fixpoint legal_value (t : ty) : denote t -> Prop :=
  match t with
  | TJson => legal
  | TString => fun s => scalar_str s = true
  | TBool => fun _ => True
  | TInt t => in_range t
  | TF64 => fun f => valid_f64 f = true
  | TF32 => fun f => valid_f32 f = true
  | TVec a => Forall (legal_value a)
  | TOption a => fun x => match x with Some y => legal_value a y | None => True end
  | TPairs k a => Forall (fun kv => legal_key k (fst kv) /\ legal_value a (snd kv))
  | TMap k a => fun m => is_map m /\ Forall (fun kv => legal_key k (fst kv) /\ legal_value a (snd kv)) m
  end.
(** The values that JSON can hold: integers as described above, and no [Some] of a value that is null in JSON. *)
Fixpoint survives (t : ty) : denote t -> Prop :=
  match t with
  | TInt t => int_survives t
  | TVec a => Forall (survives a)
  | TOption a => fun x => match x with Some y => survives a y /\ to_json (codec_of a) y <> JNull | None => True end
  | TPairs k a | TMap k a => Forall (fun kv => survives a (snd kv))
  | _ => fun _ => True
  end.
(** Equality of values of the type: that of Rust, but floats are compared by their bits (-0 is not 0, NaN is NaN), and
    the order of different keys in a list of pairs does not matter. *)
Fixpoint equal (t : ty) : denote t -> denote t -> Prop :=
  match t with
  | TJson => same
  | TVec a => Forall2 (equal a)
  | TOption a => option_eqv (equal a)
  | TPairs k a => pairs_eqv (key_eqb k) (equal a)
  | TMap k a => map_eqv (key_eqb k) (equal a)
  | _ => eq
  end.
(** A rearrangement of hash maps. *)
Definition reorders (order : json -> json) : Prop := forall j, same j (order j).

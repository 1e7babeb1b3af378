(** What a value written at one type gives when it is read at another. *)
From Verif Require Import Base F64 Json Convert Derive SpecNumber SpecValue SpecConvert SpecErrors SpecDerive SpecEvolve SpecOrder.
From Coq Require Import Reals Floats.SpecFloat.
Local Close Scope R_scope.

(** A key is written with [to_string]; the text may be one of a key of the other type. *)
Definition key_becomes (k k' : key_ty) (x : key k) (x' : key k') : Prop := key_text k' (show (key_codec_of k) x) x'.
(** [l'] has the pairs of [l]; those with the same key are in the same order. *)
Definition reordered {K V} (eqb : K -> K -> bool) (l l' : list (K * V)) : Prop := forall q, at_key eqb q l' = at_key eqb q l.
(** [m] is a map that holds for each key the last value which [l] has for it. *)
Definition last_of {V} (l : list V) : option V := match rev l with v :: _ => Some v | [] => None end.
Definition latest {K V} (eqb : K -> K -> bool) (l m : list (K * V)) : Prop := is_map m /\ forall q, lookup eqb q m = last_of (at_key eqb q l).

(** The double that a number of a type is written as: the nearest one for an integer, the same number for an f32. *)
Definition as_double (t : ty) : denote t -> f64 -> Prop :=
  match t return denote t -> f64 -> Prop with
  | TInt _ => fun n f => nearest_even 53 1024 (IZR n) f /\ sign_of f = (n <? 0)%Z
  | TF64 => fun x f => f = x
  | TF32 => fun x f => (is_finite x = true -> valid_f64 f = true /\ is_finite f = true /\ sf_real f = sf_real x /\ sign_of f = sign_of x) /\
      (is_finite x = false -> f = x)
  | _ => fun _ _ => False
  end.
(** Something that is not null in JSON is read at an option type as [Some] of what it is read as without the option, and at [Json] as the JSON it
    is written as (up to the order of hash maps). *)
Fixpoint not_null (written : json) (plainly : forall u, denote u -> Prop) (u : ty) : denote u -> Prop :=
  match u return denote u -> Prop with
  | TJson => fun y => same written y
  | TOption b => fun y => match y with Some z => not_null written plainly b z | None => False end
  | v => plainly v
  end.
(** Pairs read as a list of pairs; as a map. *)
Definition pairs_become {k k' : key_ty} {A B} (R : A -> B -> Prop) (l : list (key k * A)) (y : list (key k' * B)) : Prop :=
  exists l0, reordered (key_eqb k) l l0 /\ Forall2 (fun a b => key_becomes k k' (fst a) (fst b) /\ R (snd a) (snd b)) l0 y.
Definition pairs_become_map {k k' : key_ty} {A B} (R : A -> B -> Prop) (l : list (key k * A)) (y : list (key k' * B)) : Prop :=
  exists l0 l1, latest (key_eqb k) l l0 /\ Forall2 (fun a b => key_becomes k k' (fst a) (fst b) /\ R (snd a) (snd b)) l0 l1 /\ latest (key_eqb k') l1 y.
(** A value [x] of type [t], written and then read at type [u], may give [y]. *)
Fixpoint becomes (t : ty) : forall u, denote t -> denote u -> Prop :=
  match t return forall u, denote t -> denote u -> Prop with
  | TJson => fun u x y => exists j, same x j /\ fits u j /\ reads u j y
  | TString => fun u s => reads u (JStr s)
  | TBool => fun u b => reads u (JBool b)
  | TInt w => fun u n y => exists f, as_double (TInt w) n f /\ reads u (JNum f) y
  | TF64 => fun u x y => exists f, as_double TF64 x f /\ reads u (JNum f) y
  | TF32 => fun u x y => exists f, as_double TF32 x f /\ reads u (JNum f) y
  | TOption a => fun u x => match x with Some z => becomes a u z | None => reads u JNull end
  | TVec a => fun u x => not_null (to_json (codec_of (TVec a)) x)
      (fun u => match u return denote u -> Prop with TVec b => Forall2 (becomes a b) x | _ => fun _ => False end) u
  | TPairs k a => fun u x => not_null (to_json (codec_of (TPairs k a)) x)
      (fun u => match u return denote u -> Prop with
                | TPairs k' b => pairs_become (becomes a b) x | TMap k' b => pairs_become_map (becomes a b) x | _ => fun _ => False end) u
  | TMap k a => fun u x => not_null (to_json (codec_of (TMap k a)) x)
      (fun u => match u return denote u -> Prop with
                | TPairs k' b => pairs_become (becomes a b) x | TMap k' b => pairs_become_map (becomes a b) x | _ => fun _ => False end) u
  end.

(** Different keys of the value stay different: their texts are not read as one key.  (01 and 1 are read as the same number.) *)
Definition apart_as {k k' : key_ty} {A} (l : list (key k * A)) : Prop :=
  forall a b z, In a l -> In b l -> key_becomes k k' (fst a) z -> key_becomes k k' (fst b) z -> fst a = fst b.
Fixpoint under_options (u : ty) : ty := match u with TOption b => under_options b | _ => u end.
Fixpoint clear (t : ty) (u : ty) : denote t -> Prop :=
  match t return denote t -> Prop with
  | TJson => unambiguous u
  | TOption a => fun x => match x with Some z => clear a u z | None => True end
  | TVec a => fun x => match under_options u with TVec b => Forall (clear a b) x | _ => True end
  | TPairs k a | TMap k a => fun x => match under_options u with
      | TPairs k' b | TMap k' b => @apart_as k k' _ x /\ Forall (fun kv => clear a b (snd kv)) x | _ => True end
  | _ => fun _ => True
  end.

(** A conversion [c'] reads what [c] writes for [v], whatever the order of hash maps, and every value it reads is [fine]. *)
Definition read_at {A B} (c : codec A) (c' : codec B) (v : A) (fine : B -> Prop) : Prop :=
  forall j, same (to_json c v) j -> exists w, from_json c' j = Ok w /\ fine w.
(** Every field that the new struct reads has in [x] a field with the same key, whose value the conversions of the new field read as something [fine]. *)
Definition fields_read (fs : list field) (x : struct_value fs) (fs' : list field) (fine : forall f, f_type f -> Prop) : Prop :=
  forall f', In f' fs' -> f_ignored f' = false ->
    exists f v, has fs x f v /\ f_ignored f = false /\ f_key f = f_key f' /\ read_at (f_codec f) (f_codec f') v (fine f').

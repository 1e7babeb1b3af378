(** What changing the declaration of a struct does to documents written before, and what older readers see of newer documents. *)
From Verif Require Import Base F64 Json Ops Convert Derive SpecValue SpecConvert SpecDerive.

(** In the struct value [x] with the fields [fs], the field [f] has the value [v]. *)
Inductive has : forall (fs : list field), struct_value fs -> forall f : field, f_type f -> Prop :=
  | has_here f r (v : f_type f) (x : struct_value r) : has (f :: r) (v, x) f v
  | has_later g r (w : f_type g) (x : struct_value r) f (v : f_type f) : has r x f v -> has (g :: r) (w, x) f v.
(** In [x] a field that is not ignored, with the key [k], of type [T] with the conversions [c], has the value [v]; its name does not
    matter. *)
Definition gives (fs : list field) (x : struct_value fs) (k : str) {T} (c : codec T) (v : T) : Prop :=
  exists i d, has fs x (mkField i k false T c d) v.
(** There is such a field. *)
Definition declares (fs : list field) (k : str) {T} (c : codec T) : Prop :=
  exists i d, In (mkField i k false T c d) fs.
(** Every field that [small] reads is also in [big]; names, ignored fields and order may be different. *)
Definition covers (big small : list field) : Prop :=
  forall k T (c : codec T), declares small k c -> declares big k c.
(** Two objects have the same value for every key the struct uses. *)
Definition agree (fs : list field) (o o' : hmap) : Prop :=
  forall k, In k (used_keys fs) -> member k o = member k o'.
(** What a struct value puts into its JSON. *)
Definition shows (fs : list field) (x : struct_value fs) (k : str) (v : json) : Prop :=
  exists T (c : codec T) y, gives fs x k c y /\ to_json c y = v.

(** What the conversions of types promise that contain themselves. *)
From Verif Require Import Base F64 Json Convert SpecValue SpecConvert Types.

(** The keys a struct uses: those of the fields that are not ignored. *)
Definition keys_used (d : decl) : list str := map r_key (filter (fun f => negb (r_ignored f)) (d_fields d)).
(** The names of structs in a type. *)
Fixpoint mentions (t : rty) : list str :=
  match t with RVec a | ROption a | RPairs _ a | RMap _ a => mentions a | RStruct n => [n] | _ => [] end.
(** All structs that the type uses exist. *)
Definition closed (p : prog) (t : rty) : Prop := forall n, In n (mentions t) -> exists d, declared p n = Some d.
(** Every struct of the program that has a name uses only structs that exist (otherwise the program does not compile). *)
Definition compiles (p : prog) : Prop := forall n d f, declared p n = Some d -> In f (d_fields d) -> closed p (r_type f).
(** Different fields of a struct have different keys, and the keys are strings. *)
Definition distinct_keys (p : prog) : Prop :=
  forall n d, declared p n = Some d -> NoDup (keys_used d) /\ Forall (fun k => scalar_str k = true) (keys_used d).

Section Spec.
Variable p : prog.
(** A key of the key type. *)
Definition key_of (k : key_ty) (x : kval) : Prop := exists y, legal_key k y /\ x = kval_of k y.
(** What a value of the type can be in memory. *)
Inductive belongs : rty -> val -> Prop :=
| b_json j : legal j -> belongs RJson (VJson j)
| b_string s : scalar_str s = true -> belongs RString (VStr s)
| b_bool b : belongs RBool (VBool b)
| b_int t z : in_range t z -> belongs (RInt t) (VInt z)
| b_f64 f : valid_f64 f = true -> belongs RF64 (VF64 f)
| b_f32 f : valid_f32 f = true -> belongs RF32 (VF32 f)
| b_vec a l : Forall (belongs a) l -> belongs (RVec a) (VVec l)
| b_none a : belongs (ROption a) (VOpt None)
| b_some a x : belongs a x -> belongs (ROption a) (VOpt (Some x))
| b_pairs k a l : Forall (fun kv => key_of k (fst kv) /\ belongs a (snd kv)) l -> belongs (RPairs k a) (VMap l)
| b_map k a l : is_map l -> Forall (fun kv => key_of k (fst kv) /\ belongs a (snd kv)) l -> belongs (RMap k a) (VMap l)
| b_struct n d l : declared p n = Some d -> Forall2 (fun f x => belongs (r_type f) x) (d_fields d) l -> belongs (RStruct n) (VStruct l).

(** The value is null in JSON. *)
Fixpoint is_null (v : val) : Prop :=
  match v with VJson j => j = JNull | VOpt None => True | VOpt (Some x) => is_null x | _ => False end.
(** The value can be kept in JSON: integers that doubles can hold, and no [Some] of something that is null in JSON.  Ignored fields are not kept. *)
Inductive kept : rty -> val -> Prop :=
| k_int t z : int_survives t z -> kept (RInt t) (VInt z)
| k_vec a l : Forall (kept a) l -> kept (RVec a) (VVec l)
| k_none a : kept (ROption a) (VOpt None)
| k_some a x : kept a x -> ~ is_null x -> kept (ROption a) (VOpt (Some x))
| k_pairs k a l : Forall (fun kv => kept a (snd kv)) l -> kept (RPairs k a) (VMap l)
| k_map k a l : Forall (fun kv => kept a (snd kv)) l -> kept (RMap k a) (VMap l)
| k_struct n d l : declared p n = Some d -> Forall2 (fun f x => r_ignored f = false -> kept (r_type f) x) (d_fields d) l -> kept (RStruct n) (VStruct l)
| k_scalar t v : t = RJson \/ t = RString \/ t = RBool \/ t = RF64 \/ t = RF32 -> kept t v.

(** Equality of values of a type: that of Rust, but floats are compared by their bits, the order of different keys in a list of pairs does not
    matter, and an ignored field has its default on the right. *)
Inductive alike : rty -> val -> val -> Prop :=
| a_json j j' : same j j' -> alike RJson (VJson j) (VJson j')
| a_string s : alike RString (VStr s) (VStr s)
| a_bool b : alike RBool (VBool b) (VBool b)
| a_int t z : alike (RInt t) (VInt z) (VInt z)
| a_f64 f : alike RF64 (VF64 f) (VF64 f)
| a_f32 f : alike RF32 (VF32 f) (VF32 f)
| a_vec a l l' : Forall2 (alike a) l l' -> alike (RVec a) (VVec l) (VVec l')
| a_none a : alike (ROption a) (VOpt None) (VOpt None)
| a_some a x x' : alike a x x' -> alike (ROption a) (VOpt (Some x)) (VOpt (Some x'))
| a_pairs k a l l' : (forall x, Forall2 (alike a) (at_key kval_eqb x l) (at_key kval_eqb x l')) -> alike (RPairs k a) (VMap l) (VMap l')
| a_map k a l l' : is_map l' ->
    (forall x v, lookup kval_eqb x l = Some v -> exists v', lookup kval_eqb x l' = Some v' /\ alike a v v') ->
    (forall x, lookup kval_eqb x l = None -> lookup kval_eqb x l' = None) ->
    alike (RMap k a) (VMap l) (VMap l')
| a_struct n d l l' : declared p n = Some d -> fields_alike (d_fields d) l l' -> alike (RStruct n) (VStruct l) (VStruct l')
with fields_alike : list rfield -> list val -> list val -> Prop :=
| fa_nil : fields_alike [] [] []
| fa_kept f fs x l x' l' : r_ignored f = false -> alike (r_type f) x x' -> fields_alike fs l l' -> fields_alike (f :: fs) (x :: l) (x' :: l')
| fa_ignored f fs x l l' : r_ignored f = true -> fields_alike fs l l' -> fields_alike (f :: fs) (x :: l) (r_default f :: l').
End Spec.

(** The implementations [env] of the structs are those that the derives generate: each is the generated code, and the conversions which that code
    calls are again those of [env]. *)
Definition generated (p : prog) (env : str -> codec val) : Prop :=
  forall n d, declared p n = Some d ->
    (forall v, to_json (env n) v = to_json (struct_codec env d) v) /\ (forall j, from_json (env n) j = from_json (struct_codec env d) j).

(** Which values convert to a type, to what, and with which error the others fail. *)
From Verif Require Import Base F64 Json Convert SpecNumber SpecValue SpecConvert.
From Coq Require Import Reals Floats.SpecFloat.

(** The members of an object in iteration order, every value of a key (oldest first); and only the newest of each key. *)
Definition members (o : hmap) : list (str * json) :=
  flat_map (fun e => map (pair (fst e)) (rev (snd (snd e)) ++ [fst (snd e)])) o.
Definition newest (o : hmap) : list (str * json) := map (fun e => (fst e, fst (snd e))) o.

(** [j] has the kind that the type converts from; options and [Json] convert from every kind. *)
Definition right_kind (t : ty) (j : json) : Prop :=
  match t, j with
  | TJson, _ | TOption _, _ | TString, JStr _ | TBool, JBool _ | (TInt _ | TF64 | TF32), JNum _ | TVec _, JArr _ | (TPairs _ _ | TMap _ _), JObj _ => True
  | _, _ => False
  end.
(** The type as the error message names it. *)
Definition type_text (t : ty) : string :=
  match t with
  | TJson | TOption _ => "" | TString => "String." | TBool => "bool." | TF64 => "f64." | TF32 => "f32."
  | TInt U8 => "u8." | TInt U16 => "u16." | TInt U32 => "u32." | TInt U64 => "u64." | TInt U128 => "u128." | TInt Usize => "usize."
  | TInt I8 => "i8." | TInt I16 => "i16." | TInt I32 => "i32." | TInt I64 => "i64." | TInt I128 => "i128." | TInt Isize => "isize."
  | TVec _ => "Vec" | TPairs _ _ => "Vec<(K, V)>" | TMap _ _ => "HashMap"
  end.
Definition readable (k : key_ty) (s : str) : Prop := exists x, key_text k s x.

(** [j] converts to the type. *)
Fixpoint fits (t : ty) (j : json) : Prop :=
  right_kind t j /\
  match t, j with
  | TVec a, JArr v => Forall (fits a) v
  | TOption a, _ => j = JNull \/ fits a j
  | TPairs k a, JObj o => Forall (fun m => readable k (fst m) /\ fits a (snd m)) (members o)
  | TMap k a, JObj o => Forall (fun m => readable k (fst m) /\ fits a (snd m)) (newest o)
  | _, _ => True
  end.
(** In a sequence the first element that is not [good] is [bad] with [e]. *)
Definition first_bad {A} (good : A -> Prop) (bad : A -> error -> Prop) (l : list A) (e : error) : Prop :=
  exists l1 a l2, l = l1 ++ a :: l2 /\ Forall good l1 /\ bad a e.
(** Converting [j] to the type fails with [e]: the kind is wrong; or the first failing element fails with [e]; a member fails on its key
    before its value. *)
Fixpoint fails (t : ty) (j : json) (e : error) : Prop :=
  let bad k a m e := (~ readable k (fst m) /\ e = key_error (fst m)) \/ (readable k (fst m) /\ fails a (snd m) e) in
  (~ right_kind t j /\ e = kind_error j (type_text t)) \/
  match t, j with
  | TVec a, JArr v => first_bad (fits a) (fails a) v e
  | TOption a, _ => j <> JNull /\ fails a j e
  | TPairs k a, JObj o => first_bad (fun m => readable k (fst m) /\ fits a (snd m)) (bad k a) (members o) e
  | TMap k a, JObj o => first_bad (fun m => readable k (fst m) /\ fits a (snd m)) (bad k a) (newest o) e
  | _, _ => False
  end.

(** The value a member list gives to a key: that of the last member whose text reads as the key. *)
Definition last_for {V} (k : key_ty) (R : json -> V -> Prop) (ms : list (str * json)) (x : key k) (v : option V) : Prop :=
  match v with
  | Some y => exists l1 s j l2, ms = l1 ++ (s, j) :: l2 /\ key_text k s x /\ R j y /\
                Forall (fun m => ~ key_text k (fst m) x) l2
  | None => Forall (fun m => ~ key_text k (fst m) x) ms
  end.
(** [j] converts to [x]. *)
Fixpoint reads (t : ty) (j : json) : denote t -> Prop :=
  match t with
  | TJson => fun x => x = j
  | TString => fun s => j = JStr s
  | TBool => fun b => j = JBool b
  | TF64 => fun f => j = JNum f
  | TF32 => fun g => exists f, j = JNum f /\
      (valid_f64 f = true -> is_finite f = true -> rounds_to 24 128 (sign_of f) (sf_real f) g) /\ (is_finite f = false -> g = f)
  | TInt w => fun n => exists f, j = JNum f /\ in_range w n /\
      (f = S754_nan -> n = 0%Z) /\ (f = S754_infinity true -> n = least w) /\ (f = S754_infinity false -> n = greatest w) /\
      (is_finite f = true -> exists k, truncates (sf_real f) k /\ clamped (least w) (greatest w) k n)
  | TVec a => fun l => exists v, j = JArr v /\ Forall2 (reads a) v l
  | TOption a => fun x => match x with Some y => j <> JNull /\ reads a j y | None => j = JNull end
  | TPairs k a => fun l => exists o, j = JObj o /\
      Forall2 (fun m x => key_text k (fst m) (fst x) /\ reads a (snd m) (snd x)) (members o) l
  | TMap k a => fun l => exists o, j = JObj o /\ is_map l /\ forall x, last_for k (reads a) (newest o) x (lookup (key_eqb k) x l)
  end.

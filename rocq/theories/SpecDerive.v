(** What deriving the conversions of a struct promises. *)
From Verif Require Import Base F64 Json Ops Convert Derive SpecValue SpecConvert.

(** A condition on every field that is not ignored, and its value. *)
Fixpoint each_field (P : forall f, f_type f -> Prop) (fs : list field) : struct_value fs -> Prop :=
  match fs with
  | [] => fun _ => True
  | f :: r => fun x => (f_ignored f = false -> P f (fst x)) /\ each_field P r (snd x)
  end.
(** Equal up to [eqv] on the fields that are not ignored; [y] has the default in the ignored fields. *)
Fixpoint struct_eqv (eqv : forall f, f_type f -> f_type f -> Prop) (fs : list field) : struct_value fs -> struct_value fs -> Prop :=
  match fs with
  | [] => fun _ _ => True
  | f :: r => fun x y => (if f_ignored f then fst y = f_default f else eqv f (fst x) (fst y)) /\ struct_eqv eqv r (snd x) (snd y)
  end.
(** The keys a struct uses. *)
Definition used_keys (fs : list field) : list str := map f_key (filter (fun f => negb (f_ignored f)) fs).

(** The newest value of a key in an object. *)
Definition member (k : str) (o : hmap) : option json := option_map (fun e => fst (snd e)) (find (fun e => str_eqb k (fst e)) o).
(** The object gives the field a value: it is ignored, or the key is there with a value that converts. *)
Definition field_reads (o : hmap) (f : field) : Prop :=
  f_ignored f = true \/ exists v x, member (f_key f) o = Some v /\ from_json (f_codec f) v = Ok x.
(** The field makes the conversion fail with [e]. *)
Definition field_fails (o : hmap) (f : field) (e : error) : Prop :=
  f_ignored f = false /\
  ((member (f_key f) o = None /\ e = mkError MissingKey (lit "missing key """ ++ f_key f ++ lit """.")) \/
   exists v, member (f_key f) o = Some v /\ from_json (f_codec f) v = Err e).
(** The struct [x] that the object stands for. *)
Fixpoint struct_reads (o : hmap) (fs : list field) : struct_value fs -> Prop :=
  match fs with
  | [] => fun _ => True
  | f :: r => fun x =>
      (if f_ignored f then fst x = f_default f else exists v, member (f_key f) o = Some v /\ from_json (f_codec f) v = Ok (fst x)) /\
      struct_reads o r (snd x)
  end.

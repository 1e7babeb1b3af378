(** The JSON form of a Rust value. *)
From Verif Require Import Base F64 Json Convert SpecNumber SpecValue SpecConvert SpecErrors.
From Coq Require Import Reals Floats.SpecFloat.

(** [j] is what [x] converts to.  Maps and lists of pairs become objects without repeated keys, in which each text has the
    values that the keys written as that text have, in order. *)
Fixpoint writes (t : ty) : denote t -> json -> Prop :=
  match t with
  | TJson => fun x j => j = x
  | TString => fun s j => j = JStr s
  | TBool => fun b j => j = JBool b
  | TInt _ => fun n j => exists f, j = JNum f /\ nearest_even 53 1024 (IZR n) f /\ sign_of f = (n <? 0)%Z
  | TF64 => fun f j => j = JNum f
  | TF32 => fun g j => exists f, j = JNum f /\ valid_f64 f = true /\ (is_finite g = false -> f = g) /\
      (is_finite g = true -> is_finite f = true /\ sf_real f = sf_real g /\ sign_of f = sign_of g)
  | TVec a => fun l j => exists v, j = JArr v /\ Forall2 (writes a) l v
  | TOption a => fun x j => match x with Some y => writes a y j | None => j = JNull end
  | TPairs k a | TMap k a => fun l j => exists o ks, j = JObj o /\ NoDup (map fst o) /\ Forall2 (key_written k) (map fst l) ks /\
      forall s, Forall2 (writes a) (at_key str_eqb s (combine ks (map snd l))) (at_key str_eqb s (members o))
  end.

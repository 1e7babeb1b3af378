(** When the iteration order of hash maps can be seen. *)
From Verif Require Import Base F64 Json Convert SpecValue SpecConvert.

(** The two results agree: both succeed with related values, or both fail with the same error. *)
Inductive agree {A B} (R : A -> B -> Prop) : res A -> res B -> Prop :=
| agree_ok x y : R x y -> agree R (Ok x) (Ok y)
| agree_err e : agree R (Err e) (Err e).

(** Types without maps and without lists of pairs in them. *)
Fixpoint mapless (t : ty) : Prop :=
  match t with TVec a | TOption a => mapless a | TPairs _ _ | TMap _ _ => False | _ => True end.

(** No object that is read as a map has two different keys whose texts are read as the same key (such as 1 and +1, read as numbers). *)
Fixpoint unambiguous (t : ty) (j : json) : Prop :=
  match t with
  | TVec a => match j with JArr v => Forall (unambiguous a) v | _ => True end
  | TOption a => unambiguous a j
  | TPairs k a | TMap k a =>
      match j with
      | JObj o =>
          (forall x s s', In s (map fst o) -> In s' (map fst o) -> key_text k s x -> key_text k s' x -> s = s') /\
          Forall (fun e => unambiguous a (fst (snd e)) /\ Forall (unambiguous a) (snd (snd e))) o
      | _ => True
      end
  | _ => True
  end.
(** Key types for which that cannot happen. *)
Fixpoint exact_keys (t : ty) : Prop :=
  match t with
  | TVec a | TOption a => exact_keys a
  | TPairs k a | TMap k a => match k with KString | KBool | KChar => True | _ => False end /\ exact_keys a
  | _ => True
  end.

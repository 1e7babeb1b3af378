(** Operations on values do not look at the scalars in them. *)
From Verif Require Import Base F64 Json Ops Path Equality SpecConvert.

(** Another scalar of the same kind for every scalar; null stays. *)
Definition keeps_kinds (h : json -> json) : Prop :=
  (forall s, exists s', h (JStr s) = JStr s') /\ (forall f, exists f', h (JNum f) = JNum f') /\ (forall b, exists b', h (JBool b) = JBool b') /\ h JNull = JNull.
(** [h] applied to every scalar of a value, at every depth, in the earlier values of duplicated keys too. *)
Fixpoint recode (h : json -> json) (j : json) : json :=
  match j with
  | JObj o => JObj (map (fun e => (fst e, (recode h (fst (snd e)), map (recode h) (snd (snd e))))) o)
  | JArr v => JArr (map (recode h) v)
  | _ => h j
  end.
(** The same outcome, up to what [f] does to the value. *)
Definition outcome {A B} (f : A -> B) (r : res A) : res B :=
  match r with Ok a => Ok (f a) | Err e => Err e | Panic => Panic | Fuel => Fuel end.
(** A change of a value and its outcome. *)
Definition changes {A B} (h : json -> json) (f : A -> B) (p : json * res A) : json * res B := (recode h (fst p), outcome f (snd p)).
(** Both succeed with related values, or both fail with the same error, or both panic. *)
Inductive outcomes {A B} (R : A -> B -> Prop) : res A -> res B -> Prop :=
| outcomes_ok a b : R a b -> outcomes R (Ok a) (Ok b)
| outcomes_err e : outcomes R (Err e) (Err e)
| outcomes_panic : outcomes R Panic Panic.
(** Equal by [==]. *)
Definition jeq (a b : json) : Prop := json_eqb a b = true.
(** Equal results and equally changed documents. *)
Definition alike {A} (R : A -> A -> Prop) (p q : json * res A) : Prop := jeq (fst p) (fst q) /\ outcomes R (snd p) (snd q).
(** The types whose values hold no float and no value taken over as it is. *)
Fixpoint floatless (t : ty) : Prop :=
  match t with
  | TJson | TF64 | TF32 => False
  | TString | TBool | TInt _ => True
  | TVec a | TOption a | TPairs _ a | TMap _ a => floatless a
  end.

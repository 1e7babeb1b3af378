(** When two values are equal to a user who compares them with [==]. *)
From Verif Require Import Base F64 Json SpecNumber.
From Coq Require Import Reals Floats.SpecFloat.
Local Open Scope N_scope.

(** Equal numbers: the same real number (so [0] and [-0] are equal), or the same infinity; a NaN equals nothing. *)
Definition equal_numbers (f g : f64) : Prop :=
  (is_finite f = true /\ is_finite g = true /\ sf_real f = sf_real g) \/ (exists s, f = S754_infinity s /\ g = S754_infinity s).

(** Equal values: of the same kind; arrays element by element; objects with the same keys, and for each key equal values (the current one and,
    if the key is duplicated, the earlier ones in order). *)
Inductive equal : json -> json -> Prop :=
| equal_obj o o' : (forall k, In k (map fst o) <-> In k (map fst o')) ->
    (forall k v l v' l', In (k, (v, l)) o -> In (k, (v', l')) o' -> equal v v' /\ Forall2 equal l l') -> equal (JObj o) (JObj o')
| equal_arr v v' : Forall2 equal v v' -> equal (JArr v) (JArr v')
| equal_str s : equal (JStr s) (JStr s)
| equal_num f g : equal_numbers f g -> equal (JNum f) (JNum g)
| equal_bool b : equal (JBool b) (JBool b)
| equal_null : equal JNull JNull.

(** No NaN anywhere in the value. *)
Inductive no_nan : json -> Prop :=
| nn_obj o : Forall (fun e => no_nan (fst (snd e)) /\ Forall no_nan (snd (snd e))) o -> no_nan (JObj o)
| nn_arr v : Forall no_nan v -> no_nan (JArr v)
| nn_str s : no_nan (JStr s)
| nn_num f : f <> S754_nan -> no_nan (JNum f)
| nn_bool b : no_nan (JBool b)
| nn_null : no_nan JNull.

(** The value with the sign of every zero dropped. *)
Definition unsigned_num (f : f64) : f64 := match f with S754_zero _ => S754_zero false | _ => f end.
Fixpoint unsigned (j : json) : json :=
  match j with
  | JObj o => JObj (map (fun e => (fst e, (unsigned (fst (snd e)), map unsigned (snd (snd e))))) o)
  | JArr v => JArr (map unsigned v)
  | JNum f => JNum (unsigned_num f)
  | _ => j
  end.

(** Real-number specification of binary floating point: what "the nearest double" means. *)
From Verif Require Import Base F64.
From Coq Require Import Reals Floats.SpecFloat.
Open Scope R_scope.

(** The real number a finite float stands for. *)
Definition sf_real (f : spec_float) : R :=
  match f with
  | S754_finite s m e => (if s then -1 else 1) * IZR (Zpos m) * powerRZ 2 e
  | _ => 0
  end.

(** (-1)^s * m * 10^e *)
Definition decimal_real (s : bool) (m : N) (e : Z) : R :=
  (if s then -1 else 1) * IZR (Z.of_N m) * powerRZ 10 e.

Definition even_mantissa (f : spec_float) : Prop :=
  match f with S754_finite _ m _ => Z.even (Zpos m) = true | _ => True end.

Definition sign_of (f : spec_float) : bool :=
  match f with S754_zero s | S754_infinity s | S754_finite s _ _ => s | S754_nan => false end.

(** [f] is a finite float of the given format, no other is closer to [x], and if another one is as
    close then [f] has the even mantissa. *)
Definition nearest_even (prec emax : Z) (x : R) (f : spec_float) : Prop :=
  valid_binary prec emax f = true /\ is_finite f = true /\
  (forall g, valid_binary prec emax g = true -> is_finite g = true ->
     Rabs (sf_real f - x) <= Rabs (sf_real g - x)) /\
  (forall g, valid_binary prec emax g = true -> is_finite g = true -> sf_real g <> sf_real f ->
     Rabs (sf_real f - x) = Rabs (sf_real g - x) -> even_mantissa f).

(** The magnitude from which on rounding goes to infinity: half a unit in the last place above the
    largest finite float, 2^emax - 2^(emax-prec-1). *)
Definition overflow_bound (prec emax : Z) : R := powerRZ 2 emax - powerRZ 2 (emax - prec - 1).

(** [f] is the result of rounding [x] in the format; [s] is the sign given to zero and infinity. *)
Definition rounds_to (prec emax : Z) (s : bool) (x : R) (f : spec_float) : Prop :=
  (Rabs x < overflow_bound prec emax -> nearest_even prec emax x f /\ sign_of f = s) /\
  (overflow_bound prec emax <= Rabs x -> f = S754_infinity s).

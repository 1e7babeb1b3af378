(** The order of floating-point numbers, infinities included. *)
From Verif Require Import Base F64 SpecNumber.
From Coq Require Import Reals Floats.SpecFloat.

(** [f] is at most [g]: neither is NaN, and [f] is minus infinity, or [g] is infinity, or both are finite and the number [f] stands for is at most
    the one [g] stands for. *)
Definition at_most (f g : spec_float) : Prop :=
  f <> S754_nan /\ g <> S754_nan /\
  (f = S754_infinity true \/ g = S754_infinity false \/
   (is_finite f = true /\ is_finite g = true /\ (sf_real f <= sf_real g)%R)).

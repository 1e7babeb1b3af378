(** Specification: which decimal the text of a number shows, and how it is laid out.  Written from the documentation
    of [f64]'s [Display], not from the model's digit generation. *)
From Verif Require Import Base F64 SpecGrammar SpecNumber.
From Coq Require Import Reals Floats.SpecFloat.
Local Open Scope N_scope.

(** The decimal d * 10^k reads back as the positive double [f]. *)
Definition reads_as (d : N) (k : Z) (f : spec_float) : Prop := rounds_to 53 1024 false (decimal_real false d k) f.

(** [d] has at most as many digits as [d']. *)
Definition no_longer (d d' : N) : Prop := forall n, d' < 10 ^ n -> d < 10 ^ n.

Definition distance (d : N) (k : Z) (f : spec_float) : R := Rabs (decimal_real false d k - sf_real f).

(** d * 10^k is the shortest decimal reading back as the positive double [f]: [d] does not end in zero, no decimal
    that reads back as [f] has fewer digits, and among those with as few digits no other is closer to [f] (of two equally
    close ones it is the larger). *)
Record shortest_decimal (f : spec_float) (d : N) (k : Z) : Prop := {
  sd_reads : reads_as d k f;
  sd_stripped : d mod 10 <> 0;
  sd_minimal : forall d' k', reads_as d' k' f -> no_longer d d';
  sd_closest : forall d' k', reads_as d' k' f -> no_longer d' d -> (distance d k f <= distance d' k' f)%R;
  sd_tie : forall d' k', reads_as d' k' f -> no_longer d' d -> distance d k f = distance d' k' f ->
    (decimal_real false d' k' <= decimal_real false d k)%R }.

(** [t] is the plain positional notation of d * 10^k: an integer part without superfluous leading zeros and, if needed,
    a point and a fraction without trailing zeros. *)
Definition plain_text (t : str) (d : N) (k : Z) : Prop :=
  exists ip fp, t = ip ++ (match fp with [] => [] | _ => 46 :: fp end) /\ Int ip /\ Forall digit fp /\ last fp 0 <> 48 /\
    decimal_real false (decimal (ip ++ fp)) (- Z.of_nat (List.length fp)) = decimal_real false d k.

Definition minus_if (s : bool) : str := if s then [45] else [].

(** The text of a double. *)
Inductive number_text : spec_float -> str -> Prop :=
| nt_nan : number_text S754_nan (lit "NaN")
| nt_inf s : number_text (S754_infinity s) (minus_if s ++ lit "inf")
| nt_zero s : number_text (S754_zero s) (minus_if s ++ lit "0")
| nt_finite s m e d k t : shortest_decimal (S754_finite false m e) d k -> plain_text t d k ->
    number_text (S754_finite s m e) (minus_if s ++ t).

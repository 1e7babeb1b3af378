(** [f64] and what the code uses of the Rust standard library on it.  The standard library's own
    algorithms are not modelled: each function below is the contract documented for it. *)
From Verif Require Import Base.
From Coq Require Import Floats.SpecFloat.

Notation f64 := spec_float.
Notation prec64 := 53%Z (only parsing).
Notation emax64 := 1024%Z (only parsing).

(** A [spec_float] that is the (unique) representation of a double. std: the type [f64] of src/lib.rs 107-114 *)
Definition valid_f64 (f : f64) : bool := valid_binary 53 1024 f.
(** std: the type [f32], src/lib.rs 844 *)
Definition valid_f32 (f : spec_float) : bool := valid_binary 24 128 f.

(** [f64::is_finite], used at src/lib.rs 305 *)
Definition is_finite (f : f64) : bool :=
  match f with S754_zero _ | S754_finite _ _ _ => true | _ => false end.

(** The double nearest to (-1)^s * m * 10^e, ties to even, overflow to infinity. std: [f64::from_str], src/lib.rs 304 *)
Definition dec_to_f64 (s : bool) (m : N) (e : Z) : f64 :=
  match m with
  | N0 => S754_zero s
  | Npos p =>
      match e with
      | Zneg q => SFdiv 53 1024 (S754_finite s p 0) (S754_finite false (Pos.pow 10 q) 0)
      | Z0 => binary_round 53 1024 s p 0
      | Zpos q => binary_round 53 1024 s (p * Pos.pow 10 q) 0
      end
  end.

(** [<f64 as FromStr>::from_str] (used at src/lib.rs 304), by the grammar documented there:
    [Float ::= Sign? ( 'inf' | 'infinity' | 'nan' | Number )],
    [Number ::= ( Digit+ | Digit+ '.' Digit* | Digit* '.' Digit+ ) Exp?],
    [Exp ::= ('e'|'E') Sign? Digit+]; the letters are case-insensitive. *)
Fixpoint span_digits (s : str) : str * str :=
  match s with
  | c :: r => if is_digit c then let '(d, t) := span_digits r in (c :: d, t) else ([], s)
  | [] => ([], [])
  end.

(** std: [f64::from_str], src/lib.rs 304: the value of decimal digits *)
Definition digits_val (ds : str) : N := fold_left (fun acc c => 10 * acc + (c - 48)) ds 0.

(** std: [f64::from_str], src/lib.rs 304: its letters are case-insensitive *)
Definition lower (c : N) : N := if (65 <=? c) && (c <=? 90) then c + 32 else c.

(** std: [f64::from_str], src/lib.rs 304: the sign *)
Definition split_sign (s : str) : bool * str :=
  match s with
  | c :: r => if c =? MINUS then (true, r) else if c =? PLUS then (false, r) else (false, s)
  | [] => (false, [])
  end.

(** The optional exponent; [None] when malformed. std: [f64::from_str], src/lib.rs 304 *)
Definition read_exp (s : str) : option Z :=
  match s with
  | [] => Some 0%Z
  | c :: r =>
      if (c =? 101) || (c =? 69) then
        let '(neg, r') := split_sign r in
        match span_digits r' with
        | ([], _) => None
        | (ds, []) => Some (if neg then (- Z.of_N (digits_val ds))%Z else Z.of_N (digits_val ds))
        | _ => None
        end
      else None
  end.

(** std: [f64::from_str], used at src/lib.rs 304 *)
Definition f64_from_str (s : str) : option f64 :=
  let '(neg, r) := split_sign s in
  let low := map lower r in
  if str_eqb low (lit "inf") || str_eqb low (lit "infinity") then Some (S754_infinity neg)
  else if str_eqb low (lit "nan") then Some S754_nan
  else
    let '(ip, r1) := span_digits r in
    let '(fp, r2) :=
      match r1 with
      | c :: r1' => if c =? DOT then span_digits r1' else ([], r1)
      | [] => ([], [])
      end in
    match ip ++ fp with
    | [] => None
    | ds =>
        match read_exp r2 with
        | Some e => Some (dec_to_f64 neg (digits_val ds) (e - Z.of_nat (List.length fp)))
        | None => None
        end
    end.

(** [<f64 as Display>::fmt] / [f64::to_string] (src/lib.rs 143): the shortest decimal digits that
    read back as the same double, the closest to it among the shortest, written positionally. *)

(** floor and remainder of m*2^e / 10^k as (quotient, remainder, scale). Part of std: [f64] [Display], src/lib.rs 143. *)
Definition scaled (m : positive) (e k : Z) : N * N * N :=
  let num := (Npos m * 2 ^ Z.to_N e * 10 ^ Z.to_N (- k))%N in
  let den := (2 ^ Z.to_N (- e) * 10 ^ Z.to_N k)%N in
  (num / den, num mod den, den).

(** std: [f64]'s [==]; part of the model of its [Display], src/lib.rs 143 *)
Definition sf_eqb (a b : f64) : bool :=
  match a, b with
  | S754_zero s, S754_zero s' => Bool.eqb s s'
  | S754_infinity s, S754_infinity s' => Bool.eqb s s'
  | S754_nan, S754_nan => true
  | S754_finite s m e, S754_finite s' m' e' => Bool.eqb s s' && Pos.eqb m m' && Z.eqb e e'
  | _, _ => false
  end.

(** Candidate decimals d*10^k with at most n digits around the positive double m*2^e. Part of std: [f64] [Display], src/lib.rs 143. *)
Definition candidate (m : positive) (e k : Z) : option (N * Z) :=
  let '(q, r, den) := scaled m e k in
  let ok d := sf_eqb (dec_to_f64 false d k) (S754_finite false m e) in
  let dn := ok q && negb (q =? 0) in
  let up := ok (q + 1) in
  if up && (negb dn || (den <=? 2 * r)) then Some (q + 1, k)
  else if dn then Some (q, k)
  else None.

(** Position of the leading digit: the largest p with 10^p <= m*2^e, given a first guess. Part of std: [f64] [Display], src/lib.rs 143. *)
Fixpoint adjust (fuel : nat) (m : positive) (e p : Z) : Z :=
  match fuel with
  | O => p
  | S f => let '(q, _, _) := scaled m e p in if q =? 0 then adjust f m e (p - 1) else p
  end.
(** Part of std: [f64] [Display], src/lib.rs 143: the position of the leading digit *)
Definition magnitude (m : positive) (e : Z) : Z :=
  let b := (Z.log2 (Zpos m) + e)%Z in          (* floor(log2 value) *)
  adjust 3 m e (((b + 1) * 30103) / 100000 + 1).

(** Part of std: [f64] [Display], src/lib.rs 143: the fewest digits that read back as the same double *)
Fixpoint search (fuel : nat) (m : positive) (e k : Z) : option (N * Z) :=
  match fuel with
  | O => None
  | S f => match candidate m e k with Some c => Some c | None => search f m e (k - 1) end
  end.

(** Part of std: [f64] [Display], src/lib.rs 143: no trailing zeros *)
Fixpoint strip_zeros (fuel : nat) (d : N) (k : Z) : N * Z :=
  match fuel with
  | O => (d, k)
  | S f => if (0 <? d) && (d mod 10 =? 0) then strip_zeros f (d / 10) (k + 1) else (d, k)
  end.

(** m*2^e as an exact decimal (used only should 17 digits not suffice). Part of std: [f64] [Display], src/lib.rs 143. *)
Definition exact_dec (m : positive) (e : Z) : N * Z :=
  match e with
  | Zneg q => (Npos (m * Pos.pow 5 q), e)
  | Z0 => (Npos m, 0%Z)
  | Zpos q => (Npos (m * Pos.pow 2 q), 0%Z)
  end.

(** Part of std: [f64] [Display], src/lib.rs 143: the shortest decimal *)
Definition shortest (m : positive) (e : Z) : N * Z :=
  let p := magnitude m e in
  match search 17 m e p with
  | Some (d, k) =>
      (* a rounded-up 9..9 has trailing zeros *)
      let '(d', k') := strip_zeros 20 d k in
      if sf_eqb (dec_to_f64 false d' k') (S754_finite false m e) then (d', k') else (d, k)
  | None => exact_dec m e
  end.

(** d * 10^k written positionally. Part of std: [f64] [Display], src/lib.rs 143. *)
Definition positional (d : N) (k : Z) : str :=
  let ds := show_N d in
  match k with
  | Zneg q =>
      let n := Pos.to_nat q in
      let l := List.length ds in
      if Nat.leb l n then 48 :: DOT :: repeat 48 (n - l) ++ ds
      else firstn (l - n) ds ++ DOT :: skipn (l - n) ds
  | _ => ds ++ repeat 48 (Z.to_nat k)
  end.

(** std: [f64] [Display], used at src/lib.rs 143 *)
Definition f64_to_string (f : f64) : str :=
  match f with
  | S754_nan => lit "NaN"
  | S754_infinity s => (if s then [MINUS] else []) ++ lit "inf"
  | S754_zero s => (if s then [MINUS] else []) ++ [48]
  | S754_finite s m e => (if s then [MINUS] else []) ++ let '(d, k) := shortest m e in positional d k
  end.

(** [n as f64] for an integer: nearest double, ties to even (i128/u128 included; all fit). Used at src/lib.rs 806-845. *)
Definition f64_of_Z (z : Z) : f64 := binary_normalize 53 1024 z 0 false.

(** The integer part of a finite double. Used at src/lib.rs 806-845. *)
Definition trunc_Z (f : f64) : Z :=
  match f with
  | S754_finite s m e =>
      let a := (if (0 <=? e)%Z then Zpos m * 2 ^ e else Zpos m / 2 ^ (- e))%Z in
      if s then (- a)%Z else a
  | _ => 0%Z
  end.

(** [f as int]: truncation, saturation at the type's bounds [lo..hi], NaN to 0. Used at src/lib.rs 806-845. *)
Definition Z_of_f64_sat (lo hi : Z) (f : f64) : Z :=
  match f with
  | S754_nan => 0%Z
  | S754_infinity s => if s then lo else hi
  | _ => Z.max lo (Z.min hi (trunc_Z f))
  end.

(** [f as f32] and [g as f64]. Used at src/lib.rs 806-845. *)
Definition f32_of_f64 (f : f64) : spec_float :=
  match f with S754_finite s m e => binary_round 24 128 s m e | x => x end.
(** [g as f64] for an [f32], src/lib.rs 806-845 *)
Definition f64_of_f32 (f : spec_float) : f64 :=
  match f with S754_finite s m e => binary_round 53 1024 s m e | x => x end.

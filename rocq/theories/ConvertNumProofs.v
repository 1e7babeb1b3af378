(** Number conversions (C15 partly, C29 - C31). *)
From Verif Require Import Base F64 Json Convert SpecNumber SpecValue SpecConvert FloatProofs NumberProofs DecProofs.
From Coq Require Import Reals Lra Lia ZArith Floats.SpecFloat ZifyBool.
From Flocq Require Import Core IEEE754.BinarySingleNaN.
Open Scope Z_scope.
Notation is_finite := F64.is_finite.

Lemma of_Z_rounds z : valid_f64 (f64_of_Z z) = true /\ rounds_to 53 1024 (z <? 0) (IZR z) (f64_of_Z z).
Proof.
  unfold f64_of_Z. destruct z as [|p|p]; cbn [binary_normalize].
  - split; auto. apply zero_rounds; auto with typeclass_instances. reflexivity.
  - destruct (binary_round_rounds 53 1024 one53 _ _ false p 0) as [V R]. split; auto.
    replace (IZR (Z.pos p)) with (1 * IZR (Z.pos p) * powerRZ 2 0)%R by (cbn [powerRZ]; ring). exact R.
  - destruct (binary_round_rounds 53 1024 one53 _ _ true p 0) as [V R]. split; auto.
    replace (IZR (Z.neg p)) with (-1 * IZR (Z.pos p) * powerRZ 2 0)%R
      by (cbn [powerRZ]; change (Z.neg p) with (- Z.pos p); rewrite opp_IZR; ring). exact R.
Qed.
Lemma bound_128 : (IZR (2 ^ 129) < overflow_bound 53 1024)%R.
Proof.
  rewrite (mid_bound 53 1024). apply Rlt_le_trans with (bpow radix2 1023).
  - change (2 ^ 129) with (Zpower radix2 129). rewrite IZR_Zpower by lia. apply bpow_lt. lia.
  - apply (mid_range 53 1024 one53 _).
Qed.
Lemma min_least t : int_min t = least t.
Proof. now destruct t. Qed.
Lemma max_greatest t : int_max t = greatest t.
Proof. now destruct t. Qed.
Lemma range_128 t n : in_range t n -> Z.abs n <= 2 ^ 128.
Proof. unfold in_range. destruct t; cbn [least greatest]; lia. Qed.
Lemma of_Z_nearest n : Z.abs n <= 2 ^ 128 -> nearest_even 53 1024 (IZR n) (f64_of_Z n) /\ sign_of (f64_of_Z n) = (n <? 0).
Proof.
  intros H. destruct (of_Z_rounds n) as [V [R _]]. apply R. rewrite <- abs_IZR. eapply Rle_lt_trans; [|apply bound_128].
  apply IZR_le. lia.
Qed.
(** An integer up to 2^53 is a double. *)
Lemma small_int_double n : Z.abs n <= 2 ^ 53 -> exists g, valid_f64 g = true /\ is_finite g = true /\ sf_real g = IZR n.
Proof.
  intros H. destruct (generic_below 53 1024 _ _ (IZR n)) as (g & V & F & E).
  - destruct (Z.eq_dec n (2 ^ 53)) as [->|N1]; [|destruct (Z.eq_dec n (- 2 ^ 53)) as [->|N2]].
    + change (2 ^ 53) with (Zpower radix2 53). rewrite IZR_Zpower by lia. apply generic_format_bpow. vm_compute. discriminate.
    + change (- 2 ^ 53) with (- Zpower radix2 53). rewrite opp_IZR, IZR_Zpower by lia. apply generic_format_opp, generic_format_bpow. vm_compute. discriminate.
    + apply generic_format_FLT. exists (Float radix2 n 0).
      * unfold F2R. cbn. ring.
      * cbn [Fnum]. change (Zpower radix2 53) with (2 ^ 53). lia.
      * cbn. unfold SpecFloat.emin. lia.
  - rewrite <- abs_IZR. apply Rle_lt_trans with (IZR (2 ^ 53)); [apply IZR_le; lia|].
    change (2 ^ 53) with (Zpower radix2 53). rewrite IZR_Zpower by lia. apply bpow_lt. lia.
  - exists g. rewrite sf_real_SF2R. auto.
Qed.
Lemma of_Z_exact n : Z.abs n <= 2 ^ 53 -> sf_real (f64_of_Z n) = IZR n.
Proof.
  intros H. destruct (small_int_double n H) as (g & V & F & E).
  destruct (of_Z_nearest n ltac:(lia)) as [(_ & _ & N & _) _].
  specialize (N g V F). rewrite E in N. rewrite Rminus_eq_0, Rabs_R0 in N.
  pose proof (Rabs_pos (sf_real (f64_of_Z n) - IZR n)) as P. apply Rminus_diag_uniq.
  destruct (Req_dec (sf_real (f64_of_Z n) - IZR n) 0) as [Z0|Z0]; [auto|]. apply Rabs_no_R0 in Z0. lra.
Qed.

(** * Truncation *)
Lemma pos_trunc m e : let a := if 0 <=? e then Z.pos m * 2 ^ e else Z.pos m / 2 ^ (- e) in
  0 <= a /\ (IZR a <= IZR (Z.pos m) * bpow radix2 e < IZR a + 1)%R /\ (0 <= e -> IZR a = (IZR (Z.pos m) * bpow radix2 e)%R).
Proof.
  destruct (Z.leb_spec 0 e) as [H|H]; cbn zeta.
  - assert (E : (IZR (Z.pos m * 2 ^ e) = IZR (Z.pos m) * bpow radix2 e)%R).
    { rewrite mult_IZR. change (2 ^ e) with (Zpower radix2 e). now rewrite IZR_Zpower. }
    split; [pose proof (Z.pow_nonneg 2 e); nia|]. rewrite E. split; auto. lra.
  - set (d := 2 ^ (- e)). assert (Hd : 0 < d) by (apply Z.pow_pos_nonneg; lia).
    split; [apply Z.div_pos; lia|]. split; [|lia].
    assert (Ed : (bpow radix2 e = / IZR d)%R).
    { replace e with (- - e) by lia. rewrite bpow_opp. f_equal. unfold d. change (2 ^ (- e)) with (Zpower radix2 (- e)). now rewrite IZR_Zpower by lia. }
    rewrite Ed. assert (Hd' : (0 < IZR d)%R) by (now apply IZR_lt).
    pose proof (Z.div_mod (Z.pos m) d ltac:(lia)) as Q. pose proof (Z.mod_pos_bound (Z.pos m) d Hd) as B.
    set (q := Z.pos m / d) in *. set (r := Z.pos m mod d) in *.
    assert (Er : (IZR (Z.pos m) * / IZR d = IZR q + IZR r / IZR d)%R).
    { rewrite Q, plus_IZR, mult_IZR. field. lra. }
    rewrite Er. assert (0 <= IZR r)%R by (apply IZR_le; lia). assert (IZR r < IZR d)%R by (apply IZR_lt; lia).
    assert (0 <= IZR r / IZR d)%R by (apply Rmult_le_pos; auto; apply Rlt_le, Rinv_0_lt_compat; auto).
    assert (IZR r / IZR d < 1)%R by (apply Rmult_lt_reg_r with (IZR d); auto; unfold Rdiv; rewrite Rmult_assoc, Rinv_l by lra; lra).
    lra.
Qed.
Lemma trunc_truncates f : truncates (sf_real f) (trunc_Z f).
Proof.
  destruct f as [| | |s m e]; cbn [sf_real trunc_Z]; try (split; intros; lra).
  rewrite (bpow_pow). destruct (pos_trunc m e) as (H0 & H1 & _). cbn zeta in *.
  set (a := if 0 <=? e then Z.pos m * 2 ^ e else Z.pos m / 2 ^ (- e)) in *.
  assert (P : (0 < IZR (Z.pos m) * bpow radix2 e)%R) by (apply Rmult_lt_0_compat; [now apply IZR_lt|apply bpow_gt_0]).
  set (x := (IZR (Z.pos m) * bpow radix2 e)%R) in *. 
  replace ((if s then -1 else 1) * IZR (Z.pos m) * bpow radix2 e)%R with (if s then - x else x)%R
    by (unfold x; destruct s; ring).
  destruct s; split; intros; try lra. rewrite opp_IZR. lra.
Qed.
Lemma truncates_unique x k k' : truncates x k -> truncates x k' -> k = k'.
Proof.
  intros [A B] [A' B']. destruct (Rle_dec 0 x) as [H|H].
  - destruct (A H), (A' H). assert (IZR k < IZR (k' + 1))%R by (rewrite plus_IZR; lra). assert (IZR k' < IZR (k + 1))%R by (rewrite plus_IZR; lra).
    apply lt_IZR in H4, H5. lia.
  - assert (Hx : (x <= 0)%R) by lra. destruct (B Hx), (B' Hx). 
    assert (IZR k < IZR (k' + 1))%R by (rewrite plus_IZR; lra). assert (IZR k' < IZR (k + 1))%R by (rewrite plus_IZR; lra).
    apply lt_IZR in H4, H5. lia.
Qed.
Lemma truncates_IZR n : truncates (IZR n) n.
Proof. split; intros; lra. Qed.
Lemma clamp_clamped lo hi k : lo <= hi -> clamped lo hi k (Z.max lo (Z.min hi k)).
Proof. unfold clamped. lia. Qed.
Lemma range_nonempty t : least t <= 0 <= greatest t.
Proof. destruct t; vm_compute; split; discriminate. Qed.

(** * C31 *)
Theorem number_to_integer t f : exists n, from_json (c_int t) (JNum f) = Ok n /\ in_range t n /\
  (f = S754_nan -> n = 0) /\
  (f = S754_infinity true -> n = least t) /\ (f = S754_infinity false -> n = greatest t) /\
  (is_finite f = true -> exists k, truncates (sf_real f) k /\ clamped (least t) (greatest t) k n).
Proof.
  pose proof (range_nonempty t) as R. exists (Z_of_f64_sat (least t) (greatest t) f). cbn [from_json c_int]. rewrite min_least, max_greatest. split; [reflexivity|].
  split; [unfold in_range; destruct f as [|[]| |]; cbn [Z_of_f64_sat]; lia|]. split; [now intros ->|]. split; [now intros ->|]. split; [now intros ->|].
  intros F. exists (trunc_Z f). split; [apply trunc_truncates|].
  destruct f; try discriminate; apply clamp_clamped; lia.
Qed.
Example number_to_integer_examples :
  from_json (c_int U8) (JNum (dec_to_f64 false 2569 (-1))) = Ok 255 /\
  from_json (c_int I16) (JNum (dec_to_f64 true 2569 (-1))) = Ok (-256) /\
  from_json (c_int I64) (JNum (dec_to_f64 true 1 300)) = Ok (- 2 ^ 63) /\
  from_json (c_int U8) (JNum S754_nan) = Ok 0.
Proof. vm_compute. auto. Qed.

(** * C30 *)
Theorem integer_to_nearest_double t n : in_range t n ->
  exists f, to_json (c_int t) n = JNum f /\ nearest_even 53 1024 (IZR n) f /\ sign_of f = (n <? 0).
Proof. intros H. exists (f64_of_Z n). split; [reflexivity|]. apply of_Z_nearest. now apply range_128 in H. Qed.


(** Doubles of magnitude 2^53 and more are integers. *)
Lemma big_integer f : valid_f64 f = true -> (IZR (2 ^ 53) <= Rabs (sf_real f))%R -> sf_real f = IZR (trunc_Z f).
Proof.
  intros V H. destruct f as [| | |s m e]; try reflexivity. cbn [sf_real trunc_Z] in *. rewrite bpow_pow in *.
  unfold valid_f64 in V. cbn in V. unfold bounded in V. apply andb_prop in V as [V _].
  assert (Hm : (IZR (Z.pos m) < bpow radix2 53)%R).
  { assert (C := canonical_canonical_mantissa 53 1024 false m e V). cbn [cond_Zopp] in C.
    change (bpow radix2 53) with (IZR (Zpower radix2 53)). apply IZR_lt.
    unfold canonical_mantissa in V. apply Zeq_bool_eq in V. pose proof (Zpos_digits2_pos m) as D.
    unfold SpecFloat.fexp, SpecFloat.emin in V. assert (D53 : Z.pos (digits2_pos m) <= 53) by lia. rewrite D in D53.
    pose proof (Zdigits_correct radix2 (Z.pos m)) as [_ U]. rewrite Z.abs_eq in U by lia. eapply Z.lt_le_trans; [exact U|].
    apply Zpower_le; auto. }
  destruct (pos_trunc m e) as (P0 & P1 & P2). cbn zeta in *.
  assert (He : 0 <= e).
  { destruct (Z_lt_le_dec e 0) as [L|]; auto. exfalso.
    assert (B : (bpow radix2 e <= 1)%R) by (change 1%R with (bpow radix2 0); apply bpow_le; lia).
    assert (M : (0 < IZR (Z.pos m))%R) by (apply IZR_lt; lia). pose proof (bpow_gt_0 radix2 e) as Pe.
    assert (Q : Rabs ((if s then -1 else 1) * IZR (Z.pos m) * bpow radix2 e) = (IZR (Z.pos m) * bpow radix2 e)%R).
    { rewrite !Rabs_mult, (Rabs_pos_eq (IZR _)), (Rabs_pos_eq (bpow _ _)) by lra. destruct s; [rewrite Rabs_left by lra|rewrite Rabs_pos_eq by lra]; ring. }
    rewrite Q in H. change (2 ^ 53) with (Zpower radix2 53) in H. rewrite IZR_Zpower in H by lia. nra. }
  specialize (P2 He). set (a := if 0 <=? e then Z.pos m * 2 ^ e else Z.pos m / 2 ^ (- e)) in *. destruct s.
  - rewrite opp_IZR, P2. ring.
  - rewrite P2. ring.
Qed.
Lemma of_Z_trunc n : Z.abs n <= 2 ^ 128 -> sf_real (f64_of_Z n) = IZR (trunc_Z (f64_of_Z n)).
Proof.
  intros Hn. destruct (of_Z_nearest n Hn) as [(V & F & N & _) _].
  destruct (Z_le_gt_dec (Z.abs n) (2 ^ 53)) as [H|H].
  - rewrite (of_Z_exact n H). f_equal. apply (truncates_unique (IZR n)); [apply truncates_IZR|].
    rewrite <- (of_Z_exact n H). apply trunc_truncates.
  - apply big_integer; auto.
    assert (G : forall z, Z.abs z <= 2 ^ 53 -> (Rabs (sf_real (f64_of_Z n) - IZR n) <= Rabs (IZR z - IZR n))%R).
    { intros z Hz. destruct (small_int_double z Hz) as (g & Vg & Fg & Eg). rewrite <- Eg. now apply N. }
    set (x := sf_real (f64_of_Z n)) in *.
    destruct (Z_lt_le_dec n 0) as [L|L].
    + specialize (G (- 2 ^ 53) ltac:(lia)). assert (B : (IZR n < IZR (- 2 ^ 53))%R) by (apply IZR_lt; lia).
      rewrite (Rabs_pos_eq (IZR (- 2 ^ 53) - IZR n)) in G by lra. rewrite opp_IZR in *. 
      assert (x <= - IZR (2 ^ 53))%R. { pose proof (Rle_abs (x - IZR n)). lra. }
      rewrite Rabs_left1; [lra|]. assert (0 < IZR (2 ^ 53))%R by (apply IZR_lt; lia). lra.
    + specialize (G (2 ^ 53) ltac:(lia)). assert (B : (IZR (2 ^ 53) < IZR n)%R) by (apply IZR_lt; lia).
      rewrite (Rabs_left (IZR (2 ^ 53) - IZR n)) in G by lra.
      assert (IZR (2 ^ 53) <= x)%R. { pose proof (Rle_abs (- (x - IZR n))) as P. rewrite Rabs_Ropp in P. lra. }
      eapply Rle_trans; [eassumption|apply Rle_abs].
Qed.
Lemma of_Z_finite n : Z.abs n <= 2 ^ 128 -> is_finite (f64_of_Z n) = true.
Proof. intros H. now destruct (of_Z_nearest n H) as [(_ & F & _) _]. Qed.
Lemma sat_finite lo hi f : is_finite f = true -> Z_of_f64_sat lo hi f = Z.max lo (Z.min hi (trunc_Z f)).
Proof. now destruct f. Qed.
(** An integer survives the conversion to a number and back exactly when [int_survives] it. *)
Theorem integer_round_trip_iff t n : in_range t n -> (round_trips (c_int t) eq n <-> int_survives t n).
Proof.
  intros H. pose proof (range_128 t n H) as Hn. destruct (of_Z_nearest n Hn) as [Nr _]. pose proof (of_Z_trunc n Hn) as Tr.
  assert (E : round_trips (c_int t) eq n <-> Z.max (least t) (Z.min (greatest t) (trunc_Z (f64_of_Z n))) = n).
  { rewrite <- sat_finite by now apply of_Z_finite. rewrite <- min_least, <- max_greatest. split.
    - intros R. destruct (R _ (same_num _)) as (y & Ey & <-). cbn in Ey. congruence.
    - intros R j Hj. cbn in Hj. inversion Hj; subst. exists n. cbn. now rewrite R. }
  rewrite E. unfold int_survives, in_range in *. clear E. set (k := trunc_Z (f64_of_Z n)) in *. split.
  - intros C. exists (f64_of_Z n). split; auto. rewrite Tr.
    destruct (Z.lt_trichotomy k n) as [L|[->|L]]; auto; right; [right|left]; (split; [lia|now apply IZR_lt]).
  - intros (f & Nf & C). rewrite (nearest_unique 53 1024 one53 _ _ (IZR n) f (f64_of_Z n) Nf Nr), Tr in C.
    destruct C as [C|[[-> C]|[-> C]]]; [apply eq_IZR in C|apply lt_IZR in C|apply lt_IZR in C]; lia.
Qed.
Theorem small_integers_round_trip t n : in_range t n -> Z.abs n <= 2 ^ 53 -> round_trips (c_int t) eq n.
Proof.
  intros H Hn. apply integer_round_trip_iff; auto. exists (f64_of_Z n). split; [apply of_Z_nearest; lia|]. left. now apply of_Z_exact.
Qed.
(** The types whose values all survive are those of at most 32 bits. *)
Theorem narrow_integers_round_trip t n : narrow t -> in_range t n -> round_trips (c_int t) eq n.
Proof.
  intros B H. apply small_integers_round_trip; auto. unfold in_range in H. destruct t; try destruct B; cbn [least greatest] in *; lia.
Qed.
Theorem wide_integers_do_not t : ~ narrow t -> exists n, in_range t n /\ from_json (c_int t) (to_json (c_int t) n) = Ok (n - 1).
Proof.
  intros B. exists (2 ^ 53 + 1). destruct t; cbn in B; try tauto; (split; [split; vm_compute; discriminate|vm_compute; reflexivity]).
Qed.
Example integer_examples : (in_range I64 (- (2 ^ 53)) /\ in_range U128 (2 ^ 128 - 1)) /\
  round_trips (c_int U64) eq (2 ^ 64 - 1) /\ ~ round_trips (c_int U64) eq (2 ^ 64 - 2).
Proof.
  repeat split; try (vm_compute; discriminate).
  - intros j Hj. inversion Hj; subst. vm_compute. eauto.
  - intros R. destruct (R _ (same_num _)) as (y & Ey & <-). vm_compute in Ey. discriminate.
Qed.

(** * f32 *)
Lemma f32_as_f64 g : valid_f32 g = true -> is_finite g = true -> exists f, valid_f64 f = true /\ is_finite f = true /\ sf_real f = sf_real g /\ sign_of f = sign_of g.
Proof.
  intros V F. destruct g as [s| | |s m e]; try discriminate; [now exists (S754_zero s)|].
  destruct (generic_below 53 1024 _ _ (SF2R radix2 (S754_finite s m e))) as (f & Vf & Ff & Ef).
  - apply (generic_inclusion_mag radix2 (SpecFloat.fexp 24 128)); [|now apply (generic_SF 24 128)].
    intros _. unfold SpecFloat.fexp, SpecFloat.emin. lia.
  - eapply Rlt_trans; [rewrite <- (B2R_SF2B _ _ _ V); apply abs_B2R_lt_emax|]. apply bpow_lt. lia.
  - exists f. split; auto. split; auto. split; [now rewrite !sf_real_SF2R|].
    assert (Q : sf_real f = sf_real (S754_finite s m e)) by now rewrite !sf_real_SF2R.
    cbn [sf_real] in Q. rewrite bpow_pow in Q.
    assert (P : (0 < IZR (Z.pos m) * bpow radix2 e)%R) by (apply Rmult_lt_0_compat; [now apply IZR_lt|apply bpow_gt_0]).
    destruct f as [| | |s' m' e']; try discriminate; cbn [sf_real] in Q; [destruct s; lra|]. cbn [sign_of]. rewrite bpow_pow in Q.
    assert (P' : (0 < IZR (Z.pos m') * bpow radix2 e')%R) by (apply Rmult_lt_0_compat; [now apply IZR_lt|apply bpow_gt_0]).
    destruct s, s'; auto; lra.
Qed.
Lemma f64_of_f32_exact g : valid_f32 g = true -> valid_f64 (f64_of_f32 g) = true /\ is_finite (f64_of_f32 g) = is_finite g /\ sf_real (f64_of_f32 g) = sf_real g /\ sign_of (f64_of_f32 g) = sign_of g.
Proof.
  intros V. destruct g as [s|s| |s m e]; try (cbn; auto; fail).
  destruct (f32_as_f64 _ V eq_refl) as (f & Vf & Ff & Rf & Sf). cbn [f64_of_f32].
  destruct (binary_round_rounds 53 1024 one53 _ _ s m e) as [_ R].
  rewrite (rounds_exact 53 1024 one53 _ _ s _ _ f R); auto.
Qed.
Theorem f32_round_trip g : valid_f32 g = true -> round_trips c_f32 eq g.
Proof.
  intros V j Hj. cbn in Hj. inversion Hj; subst. exists g. split; auto. cbn. f_equal.
  destruct (f64_of_f32_exact g V) as (Vf & Ff & Rf & Sf).
  destruct g as [s|s| |s m e]; auto. destruct (f64_of_f32 (S754_finite s m e)) as [s'|s'| |s' m' e'] eqn:Ef; try discriminate.
  - exfalso. cbn [sf_real] in Rf. rewrite bpow_pow in Rf.
    assert (P : (0 < IZR (Z.pos m) * bpow radix2 e)%R) by (apply Rmult_lt_0_compat; [now apply IZR_lt|apply bpow_gt_0]). destruct s; lra.
  - cbn [f32_of_f64]. destruct (binary_round_rounds 24 128 one24 _ _ s' m' e') as [_ R].
    apply (rounds_exact 24 128 one24 _ _ s' _ _ (S754_finite s m e) R); auto.
Qed.
(** A number becomes the nearest [f32]. *)
Theorem number_to_nearest_f32 f : valid_f64 f = true -> is_finite f = true ->
  exists g, from_json c_f32 (JNum f) = Ok g /\ valid_f32 g = true /\ rounds_to 24 128 (sign_of f) (sf_real f) g.
Proof.
  intros V F. destruct f as [s| | |s m e]; try discriminate; cbn [from_json c_f32 f32_of_f64].
  - exists (S754_zero s). split; auto. split; auto. apply zero_rounds; auto with typeclass_instances. reflexivity.
  - exists (SpecFloat.binary_round 24 128 s m e). split; auto. apply (binary_round_rounds 24 128 one24 _ _ s m e).
Qed.
(** An [f32] becomes the number of the same value. *)
Theorem f32_to_same_number g : valid_f32 g = true -> is_finite g = true ->
  exists f, to_json c_f32 g = JNum f /\ valid_f64 f = true /\ is_finite f = true /\ sf_real f = sf_real g /\ sign_of f = sign_of g.
Proof. intros V F. exists (f64_of_f32 g). destruct (f64_of_f32_exact g V) as (A & B & C & D). rewrite B. auto. Qed.
Example f32_example : valid_f32 (S754_finite true 13421773 (-27)) = true /\ valid_f32 (S754_finite false 1 (-149)) = true.
Proof. vm_compute. auto. Qed.

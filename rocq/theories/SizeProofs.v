(** The text of a double has at most 327 characters. *)
From Verif Require Import Base F64 SpecNumber SpecGrammar FloatProofs NumberProofs DecProofs SpecShortest ShortestProofs.
From Coq Require Import Reals Lra Lia ZArith Floats.SpecFloat ZifyBool ZifyNat ZifyN.
From Flocq Require Import Core IEEE754.BinarySingleNaN.
Open Scope R_scope.

Lemma p10_p2 : p10 (-324) < bpow radix2 (-1074).
Proof.
  change (-324)%Z with (- (324))%Z. change (-1074)%Z with (- (1074))%Z. rewrite (bpow_opp radix10 324), (bpow_opp radix2 1074). apply Rinv_lt.
  - apply bpow_gt_0.
  - rewrite <- IZR_pow10, <- IZR_pow2 by lia. apply IZR_lt. vm_compute. reflexivity.
Qed.
(** Doubles are at least 2^-1074 apart. *)
Lemma smallest_gap x y : generic_format radix2 fexp64 x -> 0 < x -> Rabs (y - x) <= p10 (-324) / 2 -> rnd64 y = x.
Proof.
  intros Gx X H. pose proof p10_p2 as P. pose proof (p10_pos (-324)) as P0.
  destruct (mag radix2 x) as [M HM] eqn:EM. assert (Hmag : mag radix2 x = M :> Z) by (now rewrite EM).
  clear EM. specialize (HM ltac:(lra)). rewrite Rabs_pos_eq in HM by lra.
  assert (U : ulp radix2 fexp64 x = bpow radix2 (fexp64 M)).
  { rewrite ulp_neq_0 by lra. unfold cexp. now rewrite Hmag. }
  assert (G : forall n, bpow radix2 (-1074) <= bpow radix2 (fexp64 n)).
  { intros n. apply bpow_le. unfold SpecFloat.fexp, SpecFloat.emin. lia. }
  apply Rabs_le_inv in H. apply Rle_antisym.
  - apply round_N_le_midp; auto with typeclass_instances. rewrite succ_eq_pos, U by lra. pose proof (G M). lra.
  - apply round_N_ge_midp; auto with typeclass_instances. rewrite pred_eq_pos by lra. unfold pred_pos. rewrite Hmag.
    case Req_bool_spec; intros E; [pose proof (G (M - 1)%Z)|rewrite U; pose proof (G M)]; lra.
Qed.
(** Rounding to a multiple of 10^-324 keeps the double. *)
Lemma multiple_reads m e : valid_f64 (S754_finite false m e) = true -> exists d, reads_as d (-324) (S754_finite false m e).
Proof.
  intros V. pose proof (sf_gt0 m e) as X. pose proof (p10_pos (-324)) as P. set (x := sf_real (S754_finite false m e)) in *.
  set (z := ZnearestE (x / p10 (-324))).
  assert (N := Znearest_half (fun n => negb (Z.even n)) (x / p10 (-324))). fold z in N.
  assert (Zn : (0 <= z)%Z).
  { assert (0 < x / p10 (-324)) by (apply Rdiv_lt_0_compat; auto). apply Rabs_le_inv in N. assert (-1 < IZR z) by lra. apply lt_IZR in H0. lia. }
  exists (Z.to_N z). apply reads_rnd; auto. rewrite dec_real, Z2N.id by auto. apply smallest_gap; auto using sf_generic.
  fold x. replace (IZR z * p10 (-324) - x) with (- ((x / p10 (-324) - IZR z) * p10 (-324))) by (field; lra).
  rewrite Rabs_Ropp, Rabs_mult, (Rabs_pos_eq (p10 (-324))) by lra. apply Rmult_le_compat_r with (r := p10 (-324)) in N; lra.
Qed.
Lemma sf_low m e : valid_f64 (S754_finite false m e) = true -> bpow radix2 (-1074) <= sf_real (S754_finite false m e).
Proof.
  intros V. destruct (valid_bounds m e V) as (E & _ & _). rewrite sf_pos. pose proof (bpow_gt_0 radix2 e). assert (1 <= IZR (Z.pos m)) by (apply IZR_le; lia).
  apply Rle_trans with (bpow radix2 e). { apply bpow_le. lia. } replace (bpow radix2 e) with (1 * bpow radix2 e) at 1 by ring. apply Rmult_le_compat_r; lra.
Qed.
(** A decimal below 10^-324 reads as zero. *)
Lemma reads_low m e y : valid_f64 (S754_finite false m e) = true -> 0 <= y -> y <= p10 (-324) -> rnd64 y <> sf_real (S754_finite false m e).
Proof.
  intros V Y0 Y E. pose proof (sf_low m e V) as L. pose proof p10_p2 as P.
  assert (P2 : p10 (-324) < bpow radix2 (-1074) / 2).
  { change (-324)%Z with (- (324))%Z. change (-1074)%Z with (- (1074))%Z. rewrite (bpow_opp radix10 324), (bpow_opp radix2 1074).
    apply Rmult_lt_reg_r with (p10 324 * bpow radix2 1074); [apply Rmult_lt_0_compat; apply bpow_gt_0|]. pose proof (bpow_gt_0 radix10 324). pose proof (bpow_gt_0 radix2 1074).
    replace (/ p10 324 * (p10 324 * bpow radix2 1074)) with (bpow radix2 1074) by (field; lra).
    replace (/ bpow radix2 1074 / 2 * (p10 324 * bpow radix2 1074)) with (p10 324 / 2) by (field; lra).
    rewrite <- IZR_pow10, <- IZR_pow2 by lia. assert (IZR (2 * 2 ^ 1074) < IZR (10 ^ 324)) by (apply IZR_lt; vm_compute; reflexivity). rewrite mult_IZR in H1. lra. }
  assert (rnd64 y <= 0).
  { apply round_N_le_midp; auto with typeclass_instances. { apply generic_format_0. }
    rewrite succ_0. unfold ulp. rewrite Req_bool_true by auto. destruct (negligible_exp_spec fexp64) as [Hn|n Hn].
    - exfalso. specialize (Hn (-1075)%Z). unfold SpecFloat.fexp, SpecFloat.emin in Hn. lia.
    - assert (bpow radix2 (-1074) <= bpow radix2 (fexp64 n)) by (apply bpow_le; unfold SpecFloat.fexp, SpecFloat.emin; lia). lra. }
  pose proof (bpow_gt_0 radix2 (-1074)). lra.
Qed.
(** The last digit is not behind the 324th place. *)
Lemma shortest_place m e d k : valid_f64 (S754_finite false m e) = true -> shortest_decimal (S754_finite false m e) d k -> (-324 <= k)%Z.
Proof.
  intros V H. destruct (Z.le_gt_cases (-324) k) as [|G]; auto. exfalso.
  destruct (multiple_reads m e V) as [d' R']. pose proof (sd_minimal _ _ _ H d' _ R') as M. pose proof (sd_reads _ _ _ H) as R.
  pose proof (reads_nonzero m e d' _ V R') as D'. pose proof (reads_nonzero m e d _ V R) as D. apply reads_rnd in R, R'; auto. rewrite dec_real in R, R'.
  (* the number of digits of d' *)
  assert (exists n, 10 ^ n <= d' < 10 ^ (n + 1))%N as (n & Dn).
  { clear - D'. exists (Z.to_N (Digits.Zdigits radix10 (Z.of_N d') - 1)). pose proof (Digits.Zdigits_correct radix10 (Z.of_N d')) as C. rewrite Z.abs_eq in C by lia.
    assert (0 < Digits.Zdigits radix10 (Z.of_N d'))%Z by (apply Digits.Zdigits_gt_0; lia). change (Z.pow radix10) with (Z.pow 10) in C.
    set (q := Digits.Zdigits radix10 (Z.of_N d')) in *. split; apply N2Z.inj_le || apply N2Z.inj_lt; rewrite N2Z.inj_pow, ?N2Z.inj_add, Z2N.id by lia; [apply C|].
    change (Z.of_N 1) with 1%Z. replace (q - 1 + 1)%Z with q by lia. apply C. }
  assert (L : (d < 10 ^ (n + 1))%N) by (apply M; lia). clear M.
  assert (Ld : IZR (Z.of_N d) * p10 k <= p10 (Z.of_N n - 324)).
  { apply Rle_trans with (p10 (Z.of_N (n + 1)) * p10 (-325)).
    - apply Rmult_le_compat; [apply IZR_le; lia|apply Rlt_le, p10_pos|rewrite <- pow10N; apply N_le_IZR; lia|apply bpow_le; lia].
    - rewrite <- bpow_plus. apply bpow_le. lia. }
  assert (Ld' : p10 (Z.of_N n - 324) <= IZR (Z.of_N d') * p10 (-324)).
  { replace (Z.of_N n - 324)%Z with (Z.of_N n + -324)%Z by lia. rewrite bpow_plus. apply Rmult_le_compat_r; [apply Rlt_le, p10_pos|]. rewrite <- pow10N. apply N_le_IZR. lia. }
  pose proof (reads_between m e _ _ _ R R' (conj Ld Ld')) as B.
  assert (R1 : reads_as 1 (Z.of_N n - 324) (S754_finite false m e)) by (apply reads_rnd; auto; rewrite dec_real; change (Z.of_N 1) with 1%Z; now rewrite Rmult_1_l).
  pose proof (sd_minimal _ _ _ H 1%N _ R1 1%N) as D10. change (10 ^ 1)%N with 10%N in D10. specialize (D10 ltac:(lia)).
  apply (reads_low m e (IZR (Z.of_N d) * p10 k) V); auto.
  - apply Rmult_le_pos; [apply IZR_le; lia|apply Rlt_le, p10_pos].
  - apply Rle_trans with (p10 1 * p10 (-325)); [|rewrite <- bpow_plus; apply bpow_le; lia].
    apply Rmult_le_compat; [apply IZR_le; lia|apply Rlt_le, p10_pos| |apply bpow_le; lia]. change (p10 1) with 10. change 10 with (IZR 10). apply IZR_le. lia.
Qed.
Lemma shortest_high m e d k : valid_f64 (S754_finite false m e) = true -> shortest_decimal (S754_finite false m e) d k -> IZR (Z.of_N d) * p10 k < p10 309.
Proof.
  intros V H. pose proof (sd_reads _ _ _ H) as R. apply reads_rnd in R; auto. rewrite dec_real in R. destruct (Rlt_le_dec (IZR (Z.of_N d) * p10 k) (p10 309)) as [|G]; auto. exfalso.
  assert (T : bpow radix2 1024 <= p10 309) by (rewrite <- IZR_pow10, <- IZR_pow2 by lia; apply IZR_le; vm_compute; discriminate).
  assert (X : sf_real (S754_finite false m e) < bpow radix2 1024).
  { rewrite sf_real_SF2R, <- (B2R_SF2B 53 1024 _ V). eapply Rle_lt_trans; [apply Rle_abs|]. apply abs_B2R_lt_emax. }
  assert (G1 : rnd64 (bpow radix2 1024) <= rnd64 (IZR (Z.of_N d) * p10 k)) by (apply round_le; auto with typeclass_instances; lra).
  rewrite R, round_generic in G1; [lra|auto with typeclass_instances|]. apply generic_format_bpow. unfold SpecFloat.fexp, SpecFloat.emin. lia.
Qed.
Local Close Scope R_scope.
Lemma show_length d : d <> 0%N -> exists n, List.length (show_N d) = S n /\ (10 ^ N.of_nat n <= d)%N.
Proof.
  intros D. pose proof (show_digits d D) as I. destruct (show_N_ok d) as (D1 & _). destruct (int_low _ I) as [E|(n & L & H)]; [|rewrite D1 in H; eauto].
  exfalso. rewrite E in D1. cbn in D1. lia.
Qed.
Theorem number_length f t : valid_f64 f = true -> number_text f t -> (List.length t <= 327)%nat.
Proof.
  intros V H. rewrite (number_text_unique f t (f64_to_string f) H (f64_to_string_text f V)). clear H t. destruct f as [[]|[]| |s m e]; try (cbn; lia).
  cbn [f64_to_string]. destruct (shortest m e) as [d k] eqn:E. assert (V' : valid_f64 (S754_finite false m e) = true) by exact V.
  pose proof (shortest_is_shortest m e d k V' E) as H. pose proof (shortest_place m e d k V' H) as K. pose proof (shortest_high m e d k V' H) as Hi. pose proof (shortest_17 m e d k V' H) as D17.
  assert (D : d <> 0%N) by (intros ->; apply (sd_stripped _ _ _ H); reflexivity).
  destruct (show_length d D) as (n & L & Ln).
  assert (N17 : (n < 17)%nat).
  { destruct (Nat.lt_ge_cases n 17) as [|G]; auto. exfalso. assert (10 ^ 17 <= 10 ^ N.of_nat n)%N by (apply N.pow_le_mono_r; lia). lia. }
  assert (P : (List.length (positional d k) <= 326)%nat).
  { unfold positional. destruct k as [|q|q].
    - rewrite app_length, repeat_length, L. cbn [Z.to_nat]. lia.
    - rewrite app_length, repeat_length, L.
      assert (Z.of_nat n + Z.pos q < 309)%Z; [|lia]. apply (lt_bpow radix10). eapply Rle_lt_trans; [|exact Hi]. rewrite bpow_plus. apply Rmult_le_compat_r; [apply Rlt_le, p10_pos|].
      replace (Z.of_nat n) with (Z.of_N (N.of_nat n)) by lia. rewrite <- pow10N. now apply N_le_IZR.
    - destruct (Nat.leb_spec (List.length (show_N d)) (Pos.to_nat q)) as [G|G].
      + cbn [List.length]. rewrite app_length, repeat_length. lia.
      + rewrite app_length. cbn [List.length]. rewrite firstn_length, skipn_length. lia. }
  rewrite app_length. destruct s; cbn [List.length]; lia.
Qed.
Example number_length_reached : List.length (f64_to_string (dec_to_f64 true 22250738585072014 (-324))) = 327%nat.
Proof. vm_compute. reflexivity. Qed.

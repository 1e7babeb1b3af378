(** The digits printed for a double are the shortest that read back, and the closest among them. *)
From Verif Require Import Base F64 SpecNumber SpecGrammar FloatProofs NumberProofs DecProofs SpecShortest.
From Coq Require Import Reals Lra Lia ZArith Floats.SpecFloat ZifyBool ZifyNat ZifyN.
From Flocq Require Import Core IEEE754.BinarySingleNaN.
Open Scope R_scope.
Notation is_finite := F64.is_finite.

Notation fexp64 := (SpecFloat.fexp 53 1024).
Notation rnd64 := (round radix2 fexp64 ZnearestE).
#[global] Instance vexp64 : Valid_exp fexp64 := FLT_exp_valid (SpecFloat.emin 53 1024) 53.
#[global] Instance mexp64 : Monotone_exp fexp64 := FLT_exp_monotone (SpecFloat.emin 53 1024) 53.

(** ** Rounding as a function on the reals *)
Lemma rounds_is_rnd s x f : rounds_to 53 1024 s x f -> is_finite f = true -> rnd64 x = sf_real f.
Proof.
  intros [A B] F. destruct (Rlt_le_dec (Rabs x) (overflow_bound 53 1024)) as [L|L].
  - destruct (A L) as [N _]. assert (L' := proj2 (rnd_overflow 53 1024 one53 _ _ x) L).
    destruct (generic_below 53 1024 _ _ (rnd64 x)) as (g & Vg & Fg & Eg); auto.
    { apply generic_format_round; auto with typeclass_instances. }
    assert (Ng := nearest_rnd 53 1024 one53 _ x g Vg Fg Eg).
    rewrite <- Eg, <- sf_real_SF2R. symmetry. exact (nearest_unique 53 1024 one53 _ _ x f g N Ng).
  - rewrite (B L) in F. discriminate.
Qed.
Lemma rnd_is_rounds m e y : valid_f64 (S754_finite false m e) = true -> rnd64 y = sf_real (S754_finite false m e) ->
  rounds_to 53 1024 false y (S754_finite false m e).
Proof.
  intros V E. apply rounds_rnd; auto with typeclass_instances. reflexivity.
  rewrite E, sf_real_SF2R.
  rewrite Rlt_bool_true; auto.
  rewrite <- (B2R_SF2B 53 1024 _ V). apply abs_B2R_lt_emax.
Qed.
Lemma reads_rnd m e d k : valid_f64 (S754_finite false m e) = true ->
  reads_as d k (S754_finite false m e) <-> rnd64 (decimal_real false d k) = sf_real (S754_finite false m e).
Proof.
  intros V. unfold reads_as. split; [intros H; now apply (rounds_is_rnd false)|now apply rnd_is_rounds].
Qed.
Lemma ok_reads m e d k : valid_f64 (S754_finite false m e) = true ->
  sf_eqb (dec_to_f64 false d k) (S754_finite false m e) = true <-> reads_as d k (S754_finite false m e).
Proof.
  intros V. destruct (dec_to_f64_rounds false d k) as [_ R]. split.
  - intros H. apply sf_eqb_eq in H. unfold reads_as. now rewrite <- H.
  - intros H. rewrite (rounds_unique 53 1024 one53 _ _ _ _ _ _ R H). cbn.
    now rewrite Pos.eqb_refl, Z.eqb_refl.
Qed.
(** A number between two that round to [x] rounds to [x]. *)
Lemma reads_between m e a b c : rnd64 a = sf_real (S754_finite false m e) -> rnd64 c = sf_real (S754_finite false m e) ->
  a <= b <= c -> rnd64 b = sf_real (S754_finite false m e).
Proof.
  intros A C [H1 H2]. apply Rle_antisym.
  - rewrite <- C. apply round_le; auto with typeclass_instances.
  - rewrite <- A. apply round_le; auto with typeclass_instances.
Qed.
Lemma rnd_self m e : valid_f64 (S754_finite false m e) = true ->
  rnd64 (sf_real (S754_finite false m e)) = sf_real (S754_finite false m e).
Proof.
  intros V. rewrite sf_real_SF2R. apply round_generic; auto with typeclass_instances. now apply generic_SF.
Qed.

(** ** Powers of ten *)
Definition radix10 : radix := Build_radix 10 eq_refl.
Notation p10 := (bpow radix10).
Lemma dec_real d k : decimal_real false d k = IZR (Z.of_N d) * p10 k.
Proof. unfold decimal_real. rewrite bpow_powerRZ. change (IZR radix10) with 10. ring. Qed.
Lemma p10_pos k : 0 < p10 k. Proof. apply bpow_gt_0. Qed.
Lemma IZR_pow10 n : (0 <= n)%Z -> IZR (10 ^ n) = p10 n.
Proof. intros H. now rewrite <- IZR_Zpower by auto. Qed.
Lemma IZR_pow2 n : (0 <= n)%Z -> IZR (2 ^ n) = bpow radix2 n.
Proof. intros H. now rewrite <- IZR_Zpower by auto. Qed.
Lemma sf_pos m e : sf_real (S754_finite false m e) = IZR (Zpos m) * bpow radix2 e.
Proof. unfold sf_real. rewrite bpow_powerRZ. change (IZR radix2) with 2. ring. Qed.

(** ** [scaled]: the quotient and remainder of the division by 10^k *)
Lemma scaled_ok m e k q r den : scaled m e k = (q, r, den) -> (0 < den)%N /\ (r < den)%N /\
  sf_real (S754_finite false m e) = (IZR (Z.of_N q) + IZR (Z.of_N r) / IZR (Z.of_N den)) * p10 k.
Proof.
  unfold scaled.
  set (num := (Npos m * 2 ^ Z.to_N e * 10 ^ Z.to_N (- k))%N).
  set (dn := (2 ^ Z.to_N (- e) * 10 ^ Z.to_N k)%N). intros [= <- <- <-].
  assert (Hd : (0 < dn)%N).
  { unfold dn. assert (2 ^ Z.to_N (- e) <> 0)%N by (apply N.pow_nonzero; lia).
    assert (10 ^ Z.to_N k <> 0)%N by (apply N.pow_nonzero; lia). nia. }
  split; [auto|]. split; [apply N.mod_lt; lia|].
  assert (Hq : IZR (Z.of_N num) = IZR (Z.of_N dn) * IZR (Z.of_N (num / dn)) + IZR (Z.of_N (num mod dn))).
  { rewrite <- mult_IZR, <- plus_IZR. f_equal. rewrite <- N2Z.inj_mul, <- N2Z.inj_add. f_equal. apply N.div_mod. lia. }
  assert (Hdr : 0 < IZR (Z.of_N dn)) by (apply IZR_lt; lia).
  replace (IZR (Z.of_N (num / dn)) + IZR (Z.of_N (num mod dn)) / IZR (Z.of_N dn)) with (IZR (Z.of_N num) / IZR (Z.of_N dn)).
  2:{ rewrite Hq. field. lra. }
  rewrite sf_pos.
  assert (En : IZR (Z.of_N num) = IZR (Zpos m) * bpow radix2 (Z.max e 0) * p10 (Z.max (- k) 0)).
  { unfold num. rewrite !N2Z.inj_mul, !mult_IZR, !N2Z.inj_pow. cbn [Z.of_N].
    rewrite IZR_pow2, IZR_pow10 by lia. now rewrite !ZifyInst.of_nat_to_nat_eq || (repeat f_equal; lia). }
  assert (Ed : IZR (Z.of_N dn) = bpow radix2 (Z.max (- e) 0) * p10 (Z.max k 0)).
  { unfold dn. rewrite !N2Z.inj_mul, !mult_IZR, !N2Z.inj_pow. cbn [Z.of_N].
    rewrite IZR_pow2, IZR_pow10 by lia. repeat f_equal; lia. }
  rewrite En, Ed.
  replace (bpow radix2 (Z.max e 0)) with (bpow radix2 e * bpow radix2 (Z.max (- e) 0)) by (rewrite <- bpow_plus; f_equal; lia).
  replace (p10 (Z.max k 0)) with (p10 k * p10 (Z.max (- k) 0)) by (rewrite <- bpow_plus; f_equal; lia).
  field. repeat split; apply Rgt_not_eq, bpow_gt_0.
Qed.
Lemma scaled_floor m e k q r den : scaled m e k = (q, r, den) ->
  IZR (Z.of_N q) * p10 k <= sf_real (S754_finite false m e) < IZR (Z.of_N (q + 1)) * p10 k.
Proof.
  intros E. destruct (scaled_ok m e k q r den E) as (D & L & ->). pose proof (p10_pos k).
  rewrite N2Z.inj_add, plus_IZR. cbn [Z.of_N].
  assert (0 < IZR (Z.of_N den)) by (apply IZR_lt; lia).
  assert (0 <= IZR (Z.of_N r)) by (apply IZR_le; lia).
  assert (IZR (Z.of_N r) < IZR (Z.of_N den)) by (apply IZR_lt; lia).
  assert (0 <= IZR (Z.of_N r) / IZR (Z.of_N den)) by (apply Rmult_le_pos; auto; left; now apply Rinv_0_lt_compat).
  assert (IZR (Z.of_N r) / IZR (Z.of_N den) < 1) by (apply Rmult_lt_reg_r with (IZR (Z.of_N den)); auto; unfold Rdiv; rewrite Rmult_assoc, Rinv_l, Rmult_1_r, Rmult_1_l; lra).
  split; nra.
Qed.

(** ** The position of the leading digit *)
Definition guess (b : Z) : Z := ((b + 1) * 30103 / 100000 + 1)%Z.
Lemma ln_bounds : 93 * ln 2 <= 28 * ln 10 /\ 59 * ln 10 <= 196 * ln 2.
Proof.
  assert (L : forall x n, 0 < x -> INR n * ln x = ln (x ^ n)) by (intros; now rewrite ln_pow).
  replace 93 with (INR 93) by (rewrite INR_IZR_INZ; reflexivity). replace 28 with (INR 28) by (rewrite INR_IZR_INZ; reflexivity).
  replace 59 with (INR 59) by (rewrite INR_IZR_INZ; reflexivity). replace 196 with (INR 196) by (rewrite INR_IZR_INZ; reflexivity).
  rewrite !L by lra. split; left; apply ln_increasing; try (apply pow_lt; lra); rewrite !pow_IZR; apply IZR_lt; vm_compute; reflexivity.
Qed.
Lemma bpow_ln r e : bpow r e = exp (IZR e * ln (IZR r)).
Proof. apply bpow_exp. Qed.
Lemma exp_mono x y : x <= y -> exp x <= exp y.
Proof. intros [L|L]; [left; now apply exp_increasing|right; now rewrite L]. Qed.
Lemma guess_good b : (-1080 <= b < 1030)%Z -> bpow radix2 (b + 1) <= p10 (guess b + 1) /\ p10 (guess b - 3) <= bpow radix2 b.
Proof.
  intros Hb. rewrite !bpow_ln. change (IZR radix2) with 2. change (IZR radix10) with 10.
  destruct ln_bounds as [L1 L2]. assert (H2 : 0 < ln 2) by (rewrite <- ln_1; apply ln_increasing; lra).
  assert (H10 : 0 < ln 10) by (rewrite <- ln_1; apply ln_increasing; lra).
  assert (Hg : (100000 * (guess b - 1) <= 30103 * (b + 1) < 100000 * guess b)%Z).
  { unfold guess. pose proof (Z.div_mod ((b + 1) * 30103) 100000 ltac:(lia)).
    pose proof (Z.mod_pos_bound ((b + 1) * 30103) 100000 ltac:(lia)). lia. }
  set (g := guess b) in *. clearbody g.
  assert (K : forall B P : Z, (28 * B <= 93 * P)%Z -> (59 * B <= 196 * P)%Z -> IZR B * ln 2 <= IZR P * ln 10).
  { intros B P K1 K2. apply IZR_le in K1, K2. rewrite !mult_IZR in K1, K2.
    destruct (Z_le_gt_dec 0 B) as [HB|HB].
    - apply IZR_le in HB. apply Rle_trans with (IZR B * (28 / 93 * ln 10)). { apply Rmult_le_compat_l; lra. }
      replace (IZR B * (28 / 93 * ln 10)) with (28 / 93 * IZR B * ln 10) by ring. apply Rmult_le_compat_r; lra.
    - apply Z.gt_lt, IZR_lt in HB. apply Rle_trans with (IZR B * (59 / 196 * ln 10)).
      { apply Rmult_le_compat_neg_l; lra. }
      replace (IZR B * (59 / 196 * ln 10)) with (59 / 196 * IZR B * ln 10) by ring. apply Rmult_le_compat_r; lra. }
  assert (K' : forall B P : Z, (93 * P <= 28 * B)%Z -> (196 * P <= 59 * B)%Z -> IZR P * ln 10 <= IZR B * ln 2).
  { intros B P K1 K2. specialize (K (- B)%Z (- P)%Z ltac:(lia) ltac:(lia)). rewrite !opp_IZR in K. lra. }
  split; apply exp_mono; [apply K|apply K']; lia.
Qed.
Lemma adjust_ok n m e : forall p, p10 (p - Z.of_nat n) <= sf_real (S754_finite false m e) < p10 (p + 1) ->
  p10 (adjust n m e p) <= sf_real (S754_finite false m e) < p10 (adjust n m e p + 1).
Proof.
  induction n as [|n IH]; intros p H. { cbn [adjust]. now replace (p - Z.of_nat 0)%Z with p in H by lia. }
  cbn [adjust]. destruct (scaled m e p) as [[q r] den] eqn:E. apply scaled_floor in E. destruct (N.eqb_spec q 0) as [->|Hq].
  - apply IH. replace (p - 1 - Z.of_nat n)%Z with (p - Z.of_nat (S n))%Z by lia. split; [tauto|].
    replace (p - 1 + 1)%Z with p by lia. change (IZR (Z.of_N (0 + 1))) with 1 in E. lra.
  - split; [|tauto]. apply Rle_trans with (2 := proj1 E). pose proof (p10_pos p).
    assert (1 <= IZR (Z.of_N q)) by (apply IZR_le; lia). nra.
Qed.
Lemma valid_bounds m e : valid_f64 (S754_finite false m e) = true -> (e >= -1074 /\ e <= 971 /\ Z.log2 (Zpos m) < 53)%Z.
Proof.
  unfold valid_f64, valid_binary, bounded, canonical_mantissa. rewrite andb_true_iff. intros [H1 H2].
  apply Z.leb_le in H2. apply Zeq_bool_eq in H1. unfold SpecFloat.fexp, SpecFloat.emin in H1.
  assert (Z.log2 (Zpos m) + 1 = Zpos (digits2_pos m))%Z.
  { rewrite Zpos_digits2_pos. rewrite Zdigits_mag by discriminate.
    pose proof (Z.log2_spec (Z.pos m) ltac:(lia)) as L. pose proof (Z.log2_nonneg (Z.pos m)).
    symmetry. apply mag_unique. rewrite Rabs_pos_eq by (apply IZR_le; lia).
    replace (Z.log2 (Zpos m) + 1 - 1)%Z with (Z.log2 (Zpos m)) by lia.
    rewrite <- !IZR_pow2 by lia. split; [apply IZR_le|apply IZR_lt]; lia. }
  lia.
Qed.
Lemma sf_log2 m e : let b := (Z.log2 (Zpos m) + e)%Z in
  bpow radix2 b <= sf_real (S754_finite false m e) < bpow radix2 (b + 1).
Proof.
  intros b. rewrite sf_pos. pose proof (Z.log2_spec (Z.pos m) ltac:(lia)) as L. pose proof (Z.log2_nonneg (Z.pos m)).
  unfold b. replace (Z.log2 (Z.pos m) + e + 1)%Z with (Z.log2 (Z.pos m) + 1 + e)%Z by lia. rewrite !bpow_plus.
  rewrite <- !IZR_pow2 by lia. pose proof (bpow_gt_0 radix2 e). split.
  - apply Rmult_le_compat_r; [lra|]. apply IZR_le; lia.
  - change (bpow radix2 1) with 2. rewrite <- mult_IZR. apply Rmult_lt_compat_r; auto. apply IZR_lt.
    rewrite Z.pow_succ_r in L by lia. lia.
Qed.
Lemma magnitude_ok m e : valid_f64 (S754_finite false m e) = true ->
  p10 (magnitude m e) <= sf_real (S754_finite false m e) < p10 (magnitude m e + 1).
Proof.
  intros V. destruct (valid_bounds m e V) as (B1 & B2 & B3). pose proof (Z.log2_nonneg (Z.pos m)).
  unfold magnitude. apply adjust_ok. pose proof (sf_log2 m e) as L. cbv zeta in L.
  destruct (guess_good (Z.log2 (Z.pos m) + e)) as [G1 G2]; [lia|]. unfold guess in *.
  change (Z.of_nat 3) with 3%Z. lra.
Qed.

(** ** Seventeen digits suffice *)
Lemma p10_16 : p10 (-16) < bpow radix2 (-53).
Proof.
  change (-16)%Z with (- (16))%Z. change (-53)%Z with (- (53))%Z. rewrite (bpow_opp radix10 16), (bpow_opp radix2 53). apply Rinv_lt.
  - apply bpow_gt_0.
  - rewrite <- IZR_pow10, <- IZR_pow2 by lia. apply IZR_lt. reflexivity.
Qed.
Lemma half_gap x y : generic_format radix2 fexp64 x -> 0 < x -> Rabs (y - x) <= x * p10 (-16) / 2 -> rnd64 y = x.
Proof.
  intros Gx X H. pose proof p10_16 as P. pose proof (p10_pos (-16)) as P0.
  destruct (mag radix2 x) as [M HM] eqn:EM. assert (Hmag : mag radix2 x = M :> Z) by (now rewrite EM).
  clear EM. specialize (HM ltac:(lra)). rewrite Rabs_pos_eq in HM by lra.
  assert (U : ulp radix2 fexp64 x = bpow radix2 (fexp64 M)).
  { rewrite ulp_neq_0 by lra. unfold cexp. now rewrite Hmag. }
  assert (G : forall n, bpow radix2 (n - 53) <= bpow radix2 (fexp64 n)).
  { intros n. apply bpow_le. unfold SpecFloat.fexp, SpecFloat.emin. lia. }
  assert (S53 : forall n, bpow radix2 (n - 53) = bpow radix2 n * bpow radix2 (-53)) by (intros; now rewrite <- bpow_plus).
  assert (B : x * p10 (-16) < bpow radix2 M * bpow radix2 (-53)).
  { pose proof (bpow_gt_0 radix2 M). apply Rlt_le_trans with (bpow radix2 M * p10 (-16)); [apply Rmult_lt_compat_r; lra|apply Rmult_le_compat_l; lra]. }
  apply Rabs_le_inv in H. apply Rle_antisym.
  - apply round_N_le_midp; auto with typeclass_instances. rewrite succ_eq_pos, U by lra. pose proof (G M). rewrite S53 in *. lra.
  - apply round_N_ge_midp; auto with typeclass_instances. rewrite pred_eq_pos by lra. unfold pred_pos. rewrite Hmag.
    case Req_bool_spec; intros E.
    + pose proof (G (M - 1)%Z). rewrite S53 in *. rewrite <- E in *.
      assert (x * p10 (-16) < x * bpow radix2 (-53)) by (apply Rmult_lt_compat_l; auto). lra.
    + rewrite U. pose proof (G M). rewrite S53 in *. lra.
Qed.

(** ** The candidates of one length *)
Lemma sf_gt0 m e : 0 < sf_real (S754_finite false m e).
Proof. rewrite sf_pos. apply Rmult_lt_0_compat; [apply IZR_lt; lia|apply bpow_gt_0]. Qed.
Lemma sf_generic m e : valid_f64 (S754_finite false m e) = true -> generic_format radix2 fexp64 (sf_real (S754_finite false m e)).
Proof. intros V. rewrite sf_real_SF2R. now apply generic_SF. Qed.
Lemma reads_nonzero m e d k : valid_f64 (S754_finite false m e) = true -> reads_as d k (S754_finite false m e) -> d <> 0%N.
Proof.
  intros V H ->. apply reads_rnd in H; auto. unfold decimal_real in H. cbn [Z.of_N] in H. rewrite Rmult_0_r, Rmult_0_l, round_0 in H by auto with typeclass_instances.
  pose proof (sf_gt0 m e). lra.
Qed.
Lemma pow10N n : IZR (Z.of_N (10 ^ n)) = p10 (Z.of_N n).
Proof. rewrite N2Z.inj_pow, <- IZR_pow10 by lia. reflexivity. Qed.
Lemma IZR_N_lt a b : IZR (Z.of_N a) < IZR (Z.of_N b) -> (a < b)%N.
Proof. intros H. apply lt_IZR in H. lia. Qed.
Lemma N_lt_IZR a b : (a < b)%N -> IZR (Z.of_N a) < IZR (Z.of_N b).
Proof. intros H. apply IZR_lt. lia. Qed.
Lemma N_le_IZR a b : (a <= b)%N -> IZR (Z.of_N a) <= IZR (Z.of_N b).
Proof. intros H. apply IZR_le. lia. Qed.

(** A decimal of at most i+1 digits reading as [x] is not between q*10^(p-i) and (q+1)*10^(p-i). *)
Lemma outside m e i q r den d' k' : let p := magnitude m e in
  valid_f64 (S754_finite false m e) = true -> scaled m e (p - Z.of_N i) = (q, r, den) ->
  (d' < 10 ^ (i + 1))%N -> reads_as d' k' (S754_finite false m e) ->
  (decimal_real false d' k' <= decimal_real false q (p - Z.of_N i) /\ reads_as q (p - Z.of_N i) (S754_finite false m e) /\ q <> 0%N) \/
  (decimal_real false (q + 1) (p - Z.of_N i) <= decimal_real false d' k' /\ reads_as (q + 1) (p - Z.of_N i) (S754_finite false m e)).
Proof.
  intros p V E Hd R. destruct (magnitude_ok m e V) as [M1 M2]. fold p in M1, M2.
  assert (F := scaled_floor _ _ _ _ _ _ E). pose proof (rnd_self m e V) as Hs.
  apply reads_rnd in R; auto. rewrite !reads_rnd by auto.
  set (x := sf_real (S754_finite false m e)) in *. set (k := (p - Z.of_N i)%Z) in *.
  assert (Hq : p10 p <= IZR (Z.of_N q) * p10 k).
  { replace (p10 p) with (p10 (Z.of_N i) * p10 k) in * by (rewrite <- bpow_plus; f_equal; unfold k; lia).
    apply Rmult_le_compat_r; [apply bpow_ge_0|]. rewrite <- pow10N. apply N_le_IZR.
    assert (10 ^ i < q + 1)%N; [|lia]. apply IZR_N_lt. rewrite pow10N. apply Rmult_lt_reg_r with (p10 k); [apply p10_pos|]. lra. }
  assert (S : (k' < k)%Z -> decimal_real false d' k' < p10 p).
  { intros L. rewrite dec_real. apply Rlt_le_trans with (p10 (Z.of_N (i + 1)) * p10 k').
    - apply Rmult_lt_compat_r; [apply p10_pos|]. rewrite <- pow10N. now apply N_lt_IZR.
    - rewrite <- bpow_plus. apply bpow_le. unfold k in L. lia. }
  assert (Mu : (k <= k')%Z -> exists z, decimal_real false d' k' = IZR (Z.of_N z) * p10 k).
  { intros L. exists (d' * 10 ^ Z.to_N (k' - k))%N. rewrite dec_real, N2Z.inj_mul, mult_IZR, pow10N, Rmult_assoc, <- bpow_plus.
    repeat f_equal. lia. }
  destruct (Rle_or_lt (decimal_real false d' k') x) as [L|L].
  - left. assert (Y : decimal_real false d' k' <= decimal_real false q k).
    { rewrite (dec_real q). destruct (Z_lt_le_dec k' k) as [K|K].
      - specialize (S K). lra.
      - destruct (Mu K) as [z Ez]. rewrite Ez in L |- *. apply Rmult_le_compat_r; [apply bpow_ge_0|]. apply N_le_IZR.
        assert (z < q + 1)%N; [|lia]. apply IZR_N_lt. apply Rmult_lt_reg_r with (p10 k); [apply p10_pos|]. lra. }
    split; [auto|]. split.
    + apply (reads_between m e _ _ x R); auto. rewrite (dec_real q) in *. fold x. lra.
    + intros ->. cbn [Z.of_N] in Hq. pose proof (p10_pos p). lra.
  - right. assert (K : (k <= k')%Z).
    { destruct (Z_lt_le_dec k' k) as [K|K]; auto. specialize (S K). lra. }
    destruct (Mu K) as [z Ez].
    assert (Y : decimal_real false (q + 1) k <= decimal_real false d' k').
    { rewrite Ez in *. rewrite dec_real. apply Rmult_le_compat_r; [apply bpow_ge_0|]. apply N_le_IZR.
      assert (q < z)%N; [|lia]. apply IZR_N_lt. apply Rmult_lt_reg_r with (p10 k); [apply p10_pos|]. lra. }
    split; auto. apply (reads_between m e x _ (decimal_real false d' k')); auto. rewrite (dec_real (q + 1)) in *. lra.
Qed.
Lemma candidate_none m e i d' k' : valid_f64 (S754_finite false m e) = true ->
  candidate m e (magnitude m e - Z.of_N i) = None -> (d' < 10 ^ (i + 1))%N -> reads_as d' k' (S754_finite false m e) -> False.
Proof.
  intros V C L R. unfold candidate in C. destruct (scaled m e (magnitude m e - Z.of_N i)) as [[q r] den] eqn:E.
  destruct (outside m e i q r den d' k' V E L R) as [(_ & O & Q)|(_ & O)]; apply ok_reads in O; auto; rewrite O in C.
  - apply N.eqb_neq in Q. rewrite Q in C. cbn [andb negb] in C. destruct (_ && _); discriminate.
  - destruct (sf_eqb (dec_to_f64 false q _) _ && _); cbn in C; [destruct (_ <=? _)%N|]; discriminate.
Qed.
Lemma frac_cmp r den : (0 < den)%N -> let a := IZR (Z.of_N r) / IZR (Z.of_N den) in
  ((den <=? 2 * r)%N = true -> / 2 <= a) /\ ((den <=? 2 * r)%N = false -> a < / 2).
Proof.
  intros D a. assert (P : 0 < IZR (Z.of_N den)) by (apply IZR_lt; lia).
  assert (Ha : a * IZR (Z.of_N den) = IZR (Z.of_N r)) by (unfold a; field; lra). split; intros H.
  - apply N.leb_le in H. apply N_le_IZR in H. rewrite N2Z.inj_mul, mult_IZR in H. cbn [Z.of_N] in H. nra.
  - apply N.leb_gt in H. apply N_lt_IZR in H. rewrite N2Z.inj_mul, mult_IZR in H. cbn [Z.of_N] in H. nra.
Qed.
Lemma candidate_best m e i d k : valid_f64 (S754_finite false m e) = true ->
  candidate m e (magnitude m e - Z.of_N i) = Some (d, k) ->
  k = (magnitude m e - Z.of_N i)%Z /\ reads_as d k (S754_finite false m e) /\ (d <= 10 ^ (i + 1))%N /\
  forall d' k', (d' < 10 ^ (i + 1))%N -> reads_as d' k' (S754_finite false m e) ->
    distance d k (S754_finite false m e) <= distance d' k' (S754_finite false m e) /\
    (distance d k (S754_finite false m e) = distance d' k' (S754_finite false m e) -> decimal_real false d' k' <= decimal_real false d k).
Proof.
  intros V C. assert (C' := C). apply candidate_ok in C' as (-> & D0 & Eq). split; auto.
  assert (Rd : reads_as d (magnitude m e - Z.of_N i) (S754_finite false m e)).
  { unfold reads_as. rewrite <- Eq. apply dec_to_f64_rounds. }
  split; auto. unfold candidate in C. destruct (scaled m e (magnitude m e - Z.of_N i)) as [[q r] den] eqn:E.
  assert (F := scaled_floor _ _ _ _ _ _ E). destruct (scaled_ok _ _ _ _ _ _ E) as (Dp & Dr & X).
  destruct (frac_cmp r den Dp) as [F1 F2].
  assert (Out := fun d' k' => outside m e i q r den d' k' V E).
  set (k := (magnitude m e - Z.of_N i)%Z) in *.
  assert (Hq : (q < 10 ^ (i + 1))%N).
  { apply IZR_N_lt. rewrite pow10N. apply Rmult_lt_reg_r with (p10 k); [apply p10_pos|]. rewrite <- bpow_plus.
    replace (Z.of_N (i + 1) + k)%Z with (magnitude m e + 1)%Z by (unfold k; lia). destruct (magnitude_ok m e V). lra. }
  assert (Hd : d = q \/ d = (q + 1)%N).
  { destruct (sf_eqb (dec_to_f64 false (q + 1) k) _ && _) in C; [|destruct (_ && _) in C; [|discriminate]]; injection C as <-; auto. }
  split. { destruct Hd; lia. }
  intros d' k' L R. specialize (Out d' k' L R).
  unfold distance. set (x := sf_real (S754_finite false m e)) in *.
  set (a := IZR (Z.of_N r) / IZR (Z.of_N den)) in *.
  assert (Y0 : decimal_real false q k = IZR (Z.of_N q) * p10 k) by apply dec_real.
  assert (Y1 : decimal_real false (q + 1) k = IZR (Z.of_N q) * p10 k + p10 k).
  { rewrite dec_real, N2Z.inj_add, plus_IZR. cbn [Z.of_N]. ring. }
  rewrite (N2Z.inj_add q 1), plus_IZR in F. cbn [Z.of_N] in F.
  pose proof (p10_pos k) as Pk.
  rewrite <- !(ok_reads m e) in Out by auto.
  set (y := decimal_real false d' k') in *.
  destruct (sf_eqb (dec_to_f64 false (q + 1) k) _) eqn:Eu; cbn [andb] in C.
  - destruct (sf_eqb (dec_to_f64 false q k) _ && negb (q =? 0)%N) eqn:Ed; cbn [negb orb] in C.
    + destruct (den <=? 2 * r)%N eqn:Eh; injection C as <-.
      * specialize (F1 eq_refl). rewrite Y1. destruct Out as [(O & _)|(O & _)].
        -- rewrite Y0 in O. rewrite Rabs_pos_eq, Rabs_left1 by nra. split; [nra|]. intros _. nra.
        -- rewrite Y1 in O. rewrite !Rabs_pos_eq by nra. split; nra.
      * specialize (F2 eq_refl). rewrite Y0. destruct Out as [(O & _)|(O & _)].
        -- rewrite Y0 in O. rewrite !Rabs_left1 by nra. split; nra.
        -- rewrite Y1 in O. rewrite Rabs_left1, Rabs_pos_eq by nra. split; [nra|]. intros. exfalso. nra.
    + injection C as <-. rewrite Y1. destruct Out as [(_ & O & Q)|(O & _)].
      * apply N.eqb_neq in Q. rewrite O, Q in Ed. discriminate.
      * rewrite Y1 in O. rewrite !Rabs_pos_eq by nra. split; nra.
  - destruct (sf_eqb (dec_to_f64 false q k) _ && negb (q =? 0)%N) eqn:Ed; [|discriminate]. injection C as <-.
    rewrite Y0. destruct Out as [(O & _)|(_ & O)]; [|congruence].
    rewrite Y0 in O. rewrite !Rabs_left1 by nra. split; nra.
Qed.
Lemma candidate_17 m e : valid_f64 (S754_finite false m e) = true -> candidate m e (magnitude m e - 16) <> None.
Proof.
  intros V C. unfold candidate in C. destruct (scaled m e (magnitude m e - 16)) as [[q r] den] eqn:E.
  assert (F := scaled_floor _ _ _ _ _ _ E). destruct (scaled_ok _ _ _ _ _ _ E) as (Dp & Dr & X).
  destruct (magnitude_ok m e V) as [M _]. pose proof (sf_generic m e V) as Gx. pose proof (sf_gt0 m e) as X0.
  assert (K : p10 (magnitude m e - 16) <= sf_real (S754_finite false m e) * p10 (-16)).
  { unfold Z.sub. rewrite bpow_plus. apply Rmult_le_compat_r; [apply bpow_ge_0|auto]. }
  assert (K1 : p10 (-16) < 1) by (apply (bpow_lt radix10 (-16) 0); lia).
  set (k := (magnitude m e - 16)%Z) in *. pose proof (p10_pos k).
  destruct (frac_cmp r den Dp) as [F1 F2]. rewrite (N2Z.inj_add q 1), plus_IZR in F. cbn [Z.of_N] in F.
  destruct (den <=? 2 * r)%N.
  - specialize (F1 eq_refl). assert (O : sf_eqb (dec_to_f64 false (q + 1) k) (S754_finite false m e) = true).
    { apply ok_reads, reads_rnd; auto. apply half_gap; auto. rewrite dec_real, N2Z.inj_add, plus_IZR. cbn [Z.of_N].
      rewrite Rabs_pos_eq by nra. nra. }
    rewrite O in C. rewrite orb_true_r in C. discriminate.
  - specialize (F2 eq_refl). assert (O : sf_eqb (dec_to_f64 false q k) (S754_finite false m e) = true).
    { apply ok_reads, reads_rnd; auto. apply half_gap; auto. rewrite dec_real.
      rewrite Rabs_left1 by nra. nra. }
    assert (Q : (q =? 0)%N = false).
    { apply N.eqb_neq. intros ->. cbn [Z.of_N] in F. nra. }
    rewrite O, Q in C. cbn [andb negb] in C. destruct (_ && _) in C; discriminate.
Qed.

(** ** The search *)
Lemma search_first n : forall m e k d k', search n m e k = Some (d, k') -> exists i, (i < n)%nat /\
  candidate m e (k - Z.of_nat i) = Some (d, k') /\ forall j, (j < i)%nat -> candidate m e (k - Z.of_nat j) = None.
Proof.
  induction n as [|n IH]; intros m e k d k' H; [discriminate|]. cbn [search] in H. destruct (candidate m e k) as [c|] eqn:E.
  - injection H as ->. exists 0%nat. split; [lia|]. replace (k - Z.of_nat 0)%Z with k by lia. split; auto. intros; lia.
  - apply IH in H as (i & Hi & C & N). exists (S i). split; [lia|]. split.
    + rewrite <- C. f_equal. lia.
    + intros [|j] Hj; [now replace (k - Z.of_nat 0)%Z with k by lia|]. rewrite <- (N j) by lia. f_equal. lia.
Qed.
Lemma search_none n : forall m e k, search n m e k = None -> forall j, (j < n)%nat -> candidate m e (k - Z.of_nat j) = None.
Proof.
  induction n as [|n IH]; intros m e k H j Hj; [lia|]. cbn [search] in H. destruct (candidate m e k) as [c|] eqn:E; [discriminate|].
  destruct j as [|j]; [now replace (k - Z.of_nat 0)%Z with k by lia|]. rewrite <- (IH m e _ H j) by lia. f_equal. lia.
Qed.
Lemma strip_ok n : forall d k d' k', d <> 0%N -> (d < 10 ^ N.of_nat n)%N -> strip_zeros n d k = (d', k') ->
  decimal_real false d' k' = decimal_real false d k /\ (d' mod 10 <> 0)%N /\ (d' <= d)%N /\ (d mod 10 = 0 -> 10 * d' <= d)%N.
Proof.
  induction n as [|n IH]; intros d k d' k' D0 L H. { cbn in L. lia. }
  cbn [strip_zeros] in H. destruct ((0 <? d)%N && (d mod 10 =? 0)%N) eqn:E.
  - apply andb_true_iff in E as [_ E]. apply N.eqb_eq in E. pose proof (N.div_mod d 10 ltac:(lia)) as Dm.
    rewrite Nat2N.inj_succ, N.pow_succ_r' in L.
    destruct (IH (d / 10)%N (k + 1)%Z d' k' ltac:(lia) ltac:(lia) H) as (I1 & I2 & I3 & I4).
    split; [|split; [auto|split; lia]]. rewrite I1, !dec_real, bpow_plus. change (p10 1) with 10.
    replace (Z.of_N d) with (10 * Z.of_N (d / 10))%Z by lia. rewrite mult_IZR. ring.
  - injection H as <- <-. apply andb_false_iff in E. assert (d mod 10 <> 0)%N by (destruct E; lia). repeat split; auto; lia.
Qed.

Theorem shortest_is_shortest m e d k : valid_f64 (S754_finite false m e) = true -> shortest m e = (d, k) ->
  shortest_decimal (S754_finite false m e) d k.
Proof.
  intros V. unfold shortest. destruct (search 17 m e (magnitude m e)) as [[d0 k0]|] eqn:E.
  2:{ exfalso. apply (candidate_17 m e V). apply (search_none 17 m e _ E 16). lia. }
  apply search_first in E as (i & Hi & C & N). replace (Z.of_nat i) with (Z.of_N (N.of_nat i)) in C by lia.
  destruct (candidate_best m e _ d0 k0 V C) as (Ek & R & L & Best).
  assert (D0 : d0 <> 0%N) by (eapply reads_nonzero; eauto).
  assert (P17 : (10 ^ (N.of_nat i + 1) <= 10 ^ 17)%N) by (apply N.pow_le_mono_r; lia).
  destruct (strip_zeros 20 d0 k0) as [d1 k1] eqn:Es.
  destruct (strip_ok 20 d0 k0 d1 k1 D0) as (S1 & S2 & S3 & S4); auto.
  { change (N.of_nat 20) with 20%N. apply N.le_lt_trans with (1 := L). apply N.le_lt_trans with (1 := P17). reflexivity. }
  assert (R1 : reads_as d1 k1 (S754_finite false m e)) by (unfold reads_as; now rewrite S1).
  rewrite (proj2 (ok_reads m e d1 k1 V) R1). intros [= <- <-].
  assert (L1 : (d1 < 10 ^ (N.of_nat i + 1))%N).
  { destruct (N.eq_dec d0 (10 ^ (N.of_nat i + 1))) as [->|Ne]; [|lia].
    rewrite N.add_1_r, N.pow_succ_r' in *. assert (10 ^ N.of_nat i <> 0)%N by (apply N.pow_nonzero; lia).
    rewrite N.mul_comm, N.mod_mul in S4 by lia. specialize (S4 eq_refl). lia. }
  assert (Dist : distance d1 k1 (S754_finite false m e) = distance d0 k0 (S754_finite false m e)) by (unfold distance; now rewrite S1).
  constructor; auto.
  - intros d' k' R' n Hn. assert (Nz := reads_nonzero m e d' k' V R').
    destruct (N.le_gt_cases (N.of_nat i + 1) n) as [G|G].
    { apply N.lt_le_trans with (1 := L1). apply N.pow_le_mono_r; lia. }
    exfalso. destruct (N.eq_dec n 0) as [->|Hn0]. { cbn in Hn. lia. }
    apply (candidate_none m e (n - 1) d' k' V); auto.
    + replace (Z.of_N (n - 1)) with (Z.of_nat (N.to_nat (n - 1))) by lia. apply N. lia.
    + now replace (n - 1 + 1)%N with n by lia.
  - intros d' k' R' Lg. rewrite Dist. apply Best; auto.
  - intros d' k' R' Lg. rewrite Dist, S1. apply Best; auto.
Qed.

Lemma shortest_17 m e d k : valid_f64 (S754_finite false m e) = true -> shortest_decimal (S754_finite false m e) d k -> (d < 10 ^ 17)%N.
Proof.
  intros V H. destruct (candidate m e (magnitude m e - 16)) as [[d0 k0]|] eqn:C; [|now apply candidate_17 in C].
  change 16%Z with (Z.of_N 16) in C. destruct (candidate_best m e 16 d0 k0 V C) as (Ek & R & L & _). change (16 + 1)%N with 17%N in L.
  assert (D0 : d0 <> 0%N) by (eapply reads_nonzero; eauto).
  destruct (strip_zeros 20 d0 k0) as [d1 k1] eqn:Es.
  destruct (strip_ok 20 d0 k0 d1 k1 D0) as (S1 & S2 & S3 & S4); auto.
  { change (N.of_nat 20) with 20%N. apply N.le_lt_trans with (1 := L). reflexivity. }
  apply (sd_minimal _ _ _ H d1 k1). { unfold reads_as. now rewrite S1. }
  destruct (N.eq_dec d0 (10 ^ 17)) as [->|Ne]; [|lia]. specialize (S4 eq_refl). lia.
Qed.

(** ** The text of a decimal *)
Lemma show_digits d : (d <> 0)%N -> Int (show_N d).
Proof.
  intros H. destruct (show_N_ok d) as (D1 & D2 & D3). destruct D3 as (c & r & E & Hc); [lia|]. rewrite E in *. inversion D2; subst. now constructor.
Qed.
Lemma decimal_last a c : decimal (a ++ [c]) = (decimal a * 10 + (c - 48))%N.
Proof. rewrite decimal_app. cbn [decimal List.length]. change (10 ^ N.of_nat 1)%N with 10%N. change (10 ^ N.of_nat 0)%N with 1%N. lia. Qed.
Lemma last_app_ne (a b : str) x : b <> [] -> last (a ++ b) x = last b x.
Proof.
  intros H. induction a as [|c a IH]; auto. cbn [app last]. destruct (a ++ b) eqn:E; auto. apply app_eq_nil in E. tauto.
Qed.
Lemma last_zero s : Forall digit s -> (decimal s mod 10 <> 0)%N -> last s 0%N <> 48%N.
Proof.
  intros D H E. destruct (exists_last (l := s)) as (a & c & ->). { intros ->. now cbn in H. }
  rewrite last_last in E. subst c. rewrite decimal_last in H. change (48 - 48)%N with 0%N in H.
  rewrite N.add_0_r, N.mod_mul in H by lia. auto.
Qed.
Lemma positional_plain d k : (d mod 10 <> 0)%N -> plain_text (positional d k) d k.
Proof.
  intros H. assert (Hd : d <> 0%N) by (intros ->; now cbn in H).
  destruct (show_N_ok d) as (D1 & D2 & _). pose proof (show_digits d Hd) as Di.
  assert (Hl : last (show_N d) 0%N <> 48%N) by (apply last_zero; auto; now rewrite D1).
  assert (Hne : show_N d <> []) by (inversion Di; discriminate).
  assert (P : forall n, plain_text (show_N d ++ repeat 48%N n) d (Z.of_nat n)).
  { intros n. exists (show_N d ++ repeat 48%N n), []. rewrite !app_nil_r. split; auto. split.
    { inversion Di as [E0|c r Hc Hr E0]; [exfalso; rewrite <- E0 in Hl; now apply Hl|]. cbn [app]. constructor; auto. apply Forall_app; split; auto. apply digits_zeros. }
    split; [constructor|]. split; [now cbn|]. rewrite !dec_real, decimal_app, D1, decimal_zeros, repeat_length, N.add_0_r.
    rewrite N2Z.inj_mul, mult_IZR, pow10N. cbn [List.length]. rewrite nat_N_Z. change (p10 (- Z.of_nat 0)) with 1. ring. }
  unfold positional. destruct k as [|q|q].
  - apply (P 0%nat).
  - cbn [Z.to_nat]. replace (Z.pos q) with (Z.of_nat (Pos.to_nat q)) by lia. apply P.
  - destruct (Nat.leb_spec (List.length (show_N d)) (Pos.to_nat q)) as [L|L].
    + set (n := (Pos.to_nat q - List.length (show_N d))%nat). exists [48%N], (repeat 48%N n ++ show_N d). split.
      { destruct (repeat 48%N n ++ show_N d) eqn:E; auto. apply app_eq_nil in E. tauto. }
      split; [constructor|]. split; [apply Forall_app; split; auto; apply digits_zeros|]. split; [now rewrite last_app_ne|].
      rewrite app_assoc, decimal_app. cbn [app decimal]. rewrite decimal_zeros, D1, app_length, repeat_length.
      replace (- Z.of_nat (n + List.length (show_N d)))%Z with (Z.neg q) by (unfold n; lia). f_equal.
    + set (l := (List.length (show_N d) - Pos.to_nat q)%nat).
      assert (Hfd : List.length (skipn l (show_N d)) = Pos.to_nat q) by (rewrite skipn_length; unfold l; lia).
      assert (Hl0 : (0 < l)%nat) by (unfold l; lia).
      assert (Hs : show_N d = firstn l (show_N d) ++ skipn l (show_N d)) by now rewrite firstn_skipn.
      assert (Hn : skipn l (show_N d) <> []) by (intros E; rewrite E in Hfd; cbn in Hfd; lia).
      rewrite Hs in D2, Hl. apply Forall_app in D2 as [Da Db]. rewrite last_app_ne in Hl by auto.
      exists (firstn l (show_N d)), (skipn l (show_N d)). split. { now destruct (skipn l (show_N d)). }
      split.
      { clearbody l. clear P Hs Hfd Hl Hn Db L. inversion Di as [E0|c r Hc Hr E0]; rewrite <- E0 in *; (destruct l as [|l']; [lia|]); cbn [firstn] in *;
          inversion Da; subst. { destruct l'; cbn [firstn]; constructor. } constructor; auto. }
      repeat split; auto. rewrite firstn_skipn, D1, Hfd. f_equal. lia.
Qed.

(** ** The text is determined *)
Lemma decimal_bound s : Forall digit s -> (decimal s < 10 ^ N.of_nat (List.length s))%N.
Proof.
  induction s as [|c s IH]; intros H; [reflexivity|]. inversion H; subst. cbn [decimal List.length]. rewrite Nat2N.inj_succ, N.pow_succ_r'.
  specialize (IH H3). unfold digit in H2. nia.
Qed.
Lemma decimal_inj a : forall b, Forall digit a -> Forall digit b -> List.length a = List.length b -> decimal a = decimal b -> a = b.
Proof.
  induction a as [|c a IH]; intros [|c' b] Ha Hb L E; try discriminate; auto. inversion Ha; inversion Hb; subst. injection L as L.
  cbn [decimal] in E. rewrite L in E. pose proof (decimal_bound a H2) as Ba. pose proof (decimal_bound b H6) as Bb. rewrite L in Ba.
  unfold digit in H1, H5. set (z := (10 ^ N.of_nat (List.length b))%N) in *.
  assert (c - 48 = c' - 48)%N.
  { rewrite (N.div_unique ((c - 48) * z + decimal a) z (c - 48) (decimal a)) by (auto; lia).
    rewrite E. symmetry. apply N.div_unique with (decimal b); auto; lia. }
  f_equal; [lia|]. apply IH; auto. lia.
Qed.
Lemma int_digits i : Int i -> Forall digit i.
Proof. intros [|d ds H D]; [repeat constructor; unfold digit; lia|]. constructor; auto. unfold digit. lia. Qed.
Lemma int_low i : Int i -> i = [48%N] \/ (exists n, List.length i = S n /\ 10 ^ N.of_nat n <= decimal i)%N.
Proof.
  intros [|d ds H D]; auto. right. exists (List.length ds). split; auto. cbn [decimal].
  set (z := (10 ^ N.of_nat (List.length ds))%N). nia.
Qed.
Lemma int_inj a b : Int a -> Int b -> decimal a = decimal b -> a = b.
Proof.
  intros A B E. pose proof (decimal_bound a (int_digits a A)) as Ba. pose proof (decimal_bound b (int_digits b B)) as Bb.
  assert (P : forall n, (0 < 10 ^ N.of_nat n)%N) by (intros n; assert (10 ^ N.of_nat n <> 0)%N by (apply N.pow_nonzero; lia); lia).
  destruct (int_low a A) as [->|(n & La & Ga)]; destruct (int_low b B) as [->|(n' & Lb & Gb)]; auto.
  - change (decimal [48%N]) with 0%N in E. specialize (P n'). lia.
  - change (decimal [48%N]) with 0%N in E. specialize (P n). lia.
  - apply decimal_inj; auto using int_digits. rewrite La, Lb in *. f_equal.
    destruct (Nat.lt_trichotomy n n') as [L|[L|L]]; auto; exfalso.
    + assert (10 ^ N.of_nat (S n) <= 10 ^ N.of_nat n')%N by (apply N.pow_le_mono_r; lia). lia.
    + assert (10 ^ N.of_nat (S n') <= 10 ^ N.of_nat n)%N by (apply N.pow_le_mono_r; lia). lia.
Qed.
Lemma plain_len ip fp ip' fp' : Forall digit fp' -> last fp' 0%N <> 48%N ->
  decimal_real false (decimal (ip ++ fp)) (- Z.of_nat (List.length fp)) = decimal_real false (decimal (ip' ++ fp')) (- Z.of_nat (List.length fp')) ->
  (List.length fp' <= List.length fp)%nat.
Proof.
  intros D H E. destruct (Nat.le_gt_cases (List.length fp') (List.length fp)) as [L|L]; auto. exfalso.
  assert (Eq : decimal (ip' ++ fp') = (decimal (ip ++ fp) * 10 ^ N.of_nat (List.length fp' - List.length fp))%N).
  { rewrite !dec_real in E. apply N2Z.inj, eq_IZR. rewrite N2Z.inj_mul, mult_IZR, pow10N.
    apply Rmult_eq_reg_r with (p10 (- Z.of_nat (List.length fp'))); [|apply Rgt_not_eq, bpow_gt_0].
    rewrite <- E, Rmult_assoc, <- bpow_plus. repeat f_equal. lia. }
  destruct (exists_last (l := fp')) as (a & c & ->). { intros ->. cbn in L. lia. }
  rewrite last_last in H. apply Forall_app in D as [_ D]. inversion D; subst. unfold digit in *.
  rewrite app_assoc, decimal_last in Eq.
  replace (N.of_nat (List.length (a ++ [c]) - List.length fp)) with (N.succ (N.of_nat (List.length (a ++ [c]) - List.length fp - 1))) in Eq by lia.
  rewrite N.pow_succ_r' in Eq. set (z := (10 ^ _)%N) in Eq. set (w := decimal (ip ++ fp)) in Eq.
  assert (W : (w * (10 * z) = 10 * (w * z))%N) by ring. rewrite W in Eq. lia.
Qed.
Lemma plain_unique t t' d k d' k' : plain_text t d k -> plain_text t' d' k' -> decimal_real false d k = decimal_real false d' k' -> t = t'.
Proof.
  intros (ip & fp & -> & Ip & D & L & E) (ip' & fp' & -> & Ip' & D' & L' & E') H. rewrite <- E, <- E' in H.
  assert (Ln : List.length fp = List.length fp').
  { apply Nat.le_antisymm; eapply plain_len; eauto. }
  rewrite Ln, !dec_real in H. apply Rmult_eq_reg_r in H; [|apply Rgt_not_eq, bpow_gt_0]. apply eq_IZR, N2Z.inj in H.
  rewrite !decimal_app, Ln in H. pose proof (decimal_bound fp D) as B. pose proof (decimal_bound fp' D') as B'. rewrite Ln in B.
  set (z := (10 ^ N.of_nat (List.length fp'))%N) in *.
  assert (Hi : decimal ip = decimal ip').
  { rewrite (N.div_unique (decimal ip * z + decimal fp) z (decimal ip) (decimal fp)) by (auto; lia).
    rewrite H. symmetry. apply N.div_unique with (decimal fp'); auto; lia. }
  rewrite (int_inj ip ip') by auto. rewrite (decimal_inj fp fp'); auto. lia.
Qed.
Lemma shortest_unique f d k d' k' : shortest_decimal f d k -> shortest_decimal f d' k' -> decimal_real false d k = decimal_real false d' k'.
Proof.
  intros H H'. assert (N1 := sd_minimal _ _ _ H d' k' (sd_reads _ _ _ H')). assert (N2 := sd_minimal _ _ _ H' d k (sd_reads _ _ _ H)).
  assert (C1 := sd_closest _ _ _ H d' k' (sd_reads _ _ _ H') N2). assert (C2 := sd_closest _ _ _ H' d k (sd_reads _ _ _ H) N1).
  assert (E : distance d k f = distance d' k' f) by lra.
  apply Rle_antisym; [apply (sd_tie _ _ _ H')|apply (sd_tie _ _ _ H)]; auto; apply sd_reads; auto.
Qed.
Lemma number_text_unique f t t' : number_text f t -> number_text f t' -> t = t'.
Proof.
  intros H H'. inversion H; subst; inversion H'; subst; auto. f_equal. eapply plain_unique; eauto. eapply shortest_unique; eauto.
Qed.
Lemma f64_to_string_text f : valid_f64 f = true -> number_text f (f64_to_string f).
Proof.
  intros V. destruct f as [s|s| |s m e]; cbn [f64_to_string]; [apply (nt_zero s)|apply (nt_inf s)|constructor|].
  assert (V' : valid_f64 (S754_finite false m e) = true) by exact V.
  destruct (shortest m e) as [d k] eqn:E. apply shortest_is_shortest in E; auto.
  apply (nt_finite s m e d k); auto. apply positional_plain, E.
Qed.

(** Correctness of the float functions, on Flocq. *)
From Verif Require Import Base F64 SpecNumber.
From Coq Require Import Reals Lra Lia ZArith Floats.SpecFloat Psatz.
From Flocq Require Import Core IEEE754.BinarySingleNaN.
Open Scope Z_scope.

Lemma sf_real_SF2R f : sf_real f = SF2R radix2 f.
Proof.
  destruct f as [| | |s m e]; cbn; auto. unfold F2R, Defs.Fnum, Defs.Fexp.
  replace (powerRZ 2 e) with (bpow radix2 e) by (rewrite bpow_powerRZ; reflexivity).
  destruct s; cbn [cond_Zopp]; [change (Z.neg m) with (- Z.pos m); rewrite opp_IZR|]; ring.
Qed.
Lemma finite_SF f : F64.is_finite f = is_finite_SF f.
Proof. now destruct f. Qed.

Section Format.
Variables prec emax : Z.
Hypothesis Hprec1 : 1 < prec.
Context (Hprec : Prec_gt_0 prec) (Hmax : Prec_lt_emax prec emax).
Notation fexp := (SpecFloat.fexp prec emax).
Notation rnd := (round radix2 fexp ZnearestE).
Notation valid := (valid_binary prec emax).

Instance vexp : Valid_exp fexp := FLT_exp_valid (SpecFloat.emin prec emax) prec.
Instance mexp : Monotone_exp fexp := FLT_exp_monotone (SpecFloat.emin prec emax) prec.
Instance nexp : Exists_NE radix2 fexp := exists_NE_FLT radix2 (SpecFloat.emin prec emax) prec (or_intror Hprec1).

Lemma round_nearest_even_equiv s m l :
  round_nearest_even m l = choice_mode mode_NE s m l.
Proof. destruct l as [|[]]; try reflexivity. cbn; unfold Round.cond_incr; now destruct Z.even. Qed.
Lemma binary_round_aux_equiv sx mx ex lx :
  SpecFloat.binary_round_aux prec emax sx mx ex lx
  = binary_round_aux prec emax mode_NE sx mx ex lx.
Proof.
  unfold SpecFloat.binary_round_aux, binary_round_aux.
  destruct (shr_fexp prec emax mx ex lx) as [mrs' e']; cbn. now rewrite (round_nearest_even_equiv sx).
Qed.
Lemma binary_round_equiv s m e :
  SpecFloat.binary_round prec emax s m e = binary_round prec emax mode_NE s m e.
Proof.
  unfold SpecFloat.binary_round, binary_round, shl_align_fexp.
  destruct (shl_align _ _ _) as [mz ez]. apply binary_round_aux_equiv.
Qed.

(** Two valid finite floats with the same value and sign are equal. *)
Lemma sf_unique f g : valid f = true -> valid g = true -> F64.is_finite f = true -> F64.is_finite g = true ->
  sf_real f = sf_real g -> sign_of f = sign_of g -> f = g.
Proof.
  intros Hf Hg Ff Fg Hr Hs. rewrite !sf_real_SF2R in Hr.
  assert (E : SF2B f Hf = SF2B g Hg).
  { apply B2R_Bsign_inj.
    - now rewrite is_finite_SF2B, <- finite_SF.
    - now rewrite is_finite_SF2B, <- finite_SF.
    - now rewrite !B2R_SF2B.
    - rewrite !Bsign_SF2B. destruct f, g; cbn in *; try congruence. }
  apply (f_equal B2SF) in E. now rewrite !B2SF_SF2B in E.
Qed.

Lemma generic_SF f : valid f = true -> generic_format radix2 fexp (SF2R radix2 f).
Proof. intros H. rewrite <- (B2R_SF2B _ _ f H). apply generic_format_B2R. Qed.

(** A number of the format below 2^emax is a valid finite float. *)
Lemma generic_below x : generic_format radix2 fexp x -> (Rabs x < bpow radix2 emax)%R ->
  exists g, valid g = true /\ F64.is_finite g = true /\ SF2R radix2 g = x.
Proof.
  intros H Hx. destruct (Req_dec x 0) as [->|Hx0].
  - exists (S754_zero false). auto.
  - set (m := Ztrunc (scaled_mantissa radix2 fexp x)). set (e := cexp radix2 fexp x).
    assert (E : x = F2R (Float radix2 m e)) by exact H.
    assert (Hm : m <> 0). { intros E0. rewrite E0, F2R_0 in E. auto. }
    pose (s := Rlt_bool x 0).
    destruct (binary_round_correct prec emax _ _ mode_NE (m <? 0) (Z.to_pos (Z.abs m)) e) as [V C].
    cbn zeta in C. cbn [round_mode] in C.
    replace (cond_Zopp (m <? 0) (Z.pos (Z.to_pos (Z.abs m)))) with m in C
      by (rewrite Z2Pos.id by lia; destruct (Z.ltb_spec m 0); cbn; lia).
    rewrite <- E in C. rewrite round_generic in C; auto with typeclass_instances.
    rewrite Rlt_bool_true in C by auto. destruct C as (C1 & C2 & _).
    eexists; split; [exact V|]. rewrite finite_SF. auto.
Qed.

Lemma bpow_pow e : powerRZ 2 e = bpow radix2 e.
Proof. rewrite bpow_powerRZ. reflexivity. Qed.
Lemma prec_pos : 0 < prec. Proof. exact Hprec. Qed.
Lemma prec_emax : prec < emax. Proof. exact Hmax. Qed.

(** The largest finite float of the format. *)
Definition top : R := (bpow radix2 emax - bpow radix2 (emax - prec))%R.
Lemma top_F2R : top = F2R (Float radix2 (2 ^ prec - 1) (emax - prec)).
Proof.
  unfold top, F2R, Defs.Fnum, Defs.Fexp. rewrite minus_IZR.
  change 2 with (radix_val radix2) at 1. rewrite IZR_Zpower by (pose proof prec_pos; lia).
  rewrite Rmult_minus_distr_r, <- bpow_plus. replace (prec + (emax - prec)) with emax by lia. now rewrite Rmult_1_l.
Qed.
Lemma mag_top x : (bpow radix2 (emax - 1) <= x < bpow radix2 emax)%R -> mag radix2 x = emax :> Z.
Proof.
  intros H. apply mag_unique. rewrite Rabs_pos_eq; auto. pose proof (bpow_gt_0 radix2 (emax - 1)). lra.
Qed.
Lemma fexp_emax' : fexp emax = emax - prec.
Proof. apply fexp_emax; auto. Qed.
Lemma bpow_S e : bpow radix2 e = (2 * bpow radix2 (e - 1))%R.
Proof. replace e with (1 + (e - 1)) at 1 by lia. now rewrite bpow_plus. Qed.
Lemma top_range : (bpow radix2 (emax - 1) <= top < bpow radix2 emax)%R.
Proof.
  unfold top. pose proof prec_pos. pose proof (bpow_gt_0 radix2 (emax - prec)).
  assert (bpow radix2 (emax - prec) <= bpow radix2 (emax - 1))%R by (apply bpow_le; lia).
  rewrite (bpow_S emax). lra.
Qed.
Lemma top_format : generic_format radix2 fexp top.
Proof.
  rewrite top_F2R. apply generic_format_F2R. intros _. rewrite <- top_F2R. unfold cexp.
  rewrite (mag_top _ top_range), fexp_emax'. lia.
Qed.
Lemma emax_format : generic_format radix2 fexp (bpow radix2 emax).
Proof.
  apply generic_format_bpow. unfold SpecFloat.fexp, SpecFloat.emin. pose proof prec_pos. pose proof prec_emax. lia.
Qed.

(** Rounding the overflow bound gives 2^emax. *)
Definition mid : R := (bpow radix2 emax - bpow radix2 (emax - prec - 1))%R.
Lemma mid_bound : overflow_bound prec emax = mid.
Proof. unfold overflow_bound, mid. now rewrite !bpow_pow. Qed.
Lemma mid_range : (bpow radix2 (emax - 1) <= mid < bpow radix2 emax)%R.
Proof.
  unfold mid. pose proof prec_pos. pose proof (bpow_gt_0 radix2 (emax - prec - 1)).
  assert (bpow radix2 (emax - prec - 1) <= bpow radix2 (emax - 1))%R by (apply bpow_le; lia).
  rewrite (bpow_S emax). lra.
Qed.
Lemma rnd_mid : rnd mid = bpow radix2 emax.
Proof.
  pose proof prec_pos as Hp. unfold round.
  assert (Ec : cexp radix2 fexp mid = emax - prec).
  { unfold cexp. now rewrite (mag_top _ mid_range), fexp_emax'. }
  assert (Em : scaled_mantissa radix2 fexp mid = (IZR (2 ^ prec) - / 2)%R).
  { unfold scaled_mantissa. rewrite Ec. unfold mid. rewrite Rmult_minus_distr_r, <- !bpow_plus.
    replace (emax + - (emax - prec)) with prec by lia. replace (emax - prec - 1 + - (emax - prec)) with (-1) by lia.
    rewrite <- IZR_Zpower by lia. reflexivity. }
  rewrite Em, Ec.
  assert (Ez : ZnearestE (IZR (2 ^ prec) - / 2) = 2 ^ prec).
  { unfold Znearest.
    assert (Ef : Zfloor (IZR (2 ^ prec) - / 2) = 2 ^ prec - 1).
    { apply Zfloor_imp. rewrite plus_IZR, minus_IZR. lra. }
    assert (Eu : Zceil (IZR (2 ^ prec) - / 2) = 2 ^ prec).
    { apply Zceil_imp. rewrite minus_IZR. lra. }
    rewrite Ef, Eu. rewrite Rcompare_Eq by (rewrite minus_IZR; lra).
    replace (Z.even (2 ^ prec - 1)) with false; auto.
    rewrite Z.even_sub, Z.even_pow by lia. reflexivity. }
  rewrite Ez. unfold F2R, Defs.Fnum, Defs.Fexp.
  change (IZR (2 ^ prec)) with (IZR (Zpower radix2 prec)). rewrite IZR_Zpower by lia. rewrite <- bpow_plus. f_equal. lia.
Qed.

Lemma rnd_overflow x : (Rabs (rnd x) < bpow radix2 emax)%R <-> (Rabs x < overflow_bound prec emax)%R.
Proof.
  rewrite mid_bound. rewrite <- round_NE_abs by auto with typeclass_instances.
  set (y := Rabs x). assert (Hy : (0 <= y)%R) by apply Rabs_pos. clearbody y. clear x. split.
  - intros H. destruct (Rlt_or_le y mid) as [L|L]; auto. exfalso.
    assert (rnd mid <= rnd y)%R by (apply round_le; auto with typeclass_instances). rewrite rnd_mid in *. lra.
  - intros H. destruct (Rle_or_lt y top) as [L|L].
    + assert (rnd y <= rnd top)%R by (apply round_le; auto with typeclass_instances).
      rewrite (round_generic radix2 fexp ZnearestE top top_format) in *. pose proof top_range. lra.
    + destruct (Rlt_or_le (rnd y) (bpow radix2 emax)) as [L'|L']; auto. exfalso.
      destruct (round_N_pt radix2 fexp (fun x => negb (Z.even x)) y) as [_ N].
      specialize (N top top_format). unfold mid, top in *. pose proof prec_pos.
      rewrite (bpow_S (emax - prec)) in *.
      rewrite (Rabs_pos_eq (rnd y - y)) in N by lra.
      rewrite Rabs_left in N by lra. lra.
Qed.

(** A valid float equal to the Flocq rounding of [x] is the nearest one, ties to even. *)
Lemma nearest_rnd x f : valid f = true -> F64.is_finite f = true -> SF2R radix2 f = rnd x -> nearest_even prec emax x f.
Proof.
  intros V F E.
  pose proof (round_NE_pt radix2 fexp x) as [HN HE].
  assert (A : forall g, valid g = true -> F64.is_finite g = true -> (Rabs (sf_real f - x) <= Rabs (sf_real g - x))%R).
  { intros g Vg Fg. rewrite !sf_real_SF2R, E. apply HN. now apply generic_SF. }
  split; [|split; [|split]]; auto.
  intros g Vg Fg Hne Heq. destruct HE as [(c & Ec & Cc & Hc)|Hu].
  - destruct f as [| | |s m e]; cbn; auto.
    assert (Cf : canonical radix2 fexp (Float radix2 (cond_Zopp s (Zpos m)) e)).
    { apply canonical_canonical_mantissa; auto. unfold valid_binary, bounded in V. now apply andb_true_iff in V. }
    assert (Ecf : c = Float radix2 (cond_Zopp s (Zpos m)) e).
    { apply (canonical_unique radix2 fexp); auto. rewrite <- Ec, <- E. reflexivity. }
    rewrite Ecf in Hc. cbn [Defs.Fnum] in Hc. destruct s; cbn [cond_Zopp] in Hc; auto.
  - exfalso. apply Hne. rewrite !sf_real_SF2R, E. apply Hu. split.
    + now apply generic_SF.
    + intros h Hh. rewrite !sf_real_SF2R, E in Heq. rewrite <- Heq. now apply HN.
Qed.

Lemma rounds_rnd s x f : valid f = true ->
  (if Rlt_bool (Rabs (rnd x)) (bpow radix2 emax)
   then SF2R radix2 f = rnd x /\ is_finite_SF f = true /\ sign_SF f = s
   else f = binary_overflow prec emax mode_NE s) -> rounds_to prec emax s x f.
Proof.
  intros V H. split; intros Hx.
  - apply rnd_overflow in Hx. rewrite Rlt_bool_true in H by auto. destruct H as (H1 & H2 & H3).
    rewrite <- finite_SF in H2. split; [now apply nearest_rnd|]. now destruct f.
  - rewrite Rlt_bool_false in H. { rewrite H. reflexivity. }
    apply Rnot_lt_le. intros C. apply rnd_overflow in C. lra.
Qed.

Lemma binary_round_rounds s m e : valid (SpecFloat.binary_round prec emax s m e) = true /\
  rounds_to prec emax s ((if s then -1 else 1) * IZR (Zpos m) * powerRZ 2 e) (SpecFloat.binary_round prec emax s m e).
Proof.
  destruct (binary_round_correct prec emax _ _ mode_NE s m e) as [V C]. rewrite <- binary_round_equiv in *.
  split; auto. apply rounds_rnd; auto. cbn zeta in C. cbn [round_mode] in C.
  replace ((if s then -1 else 1) * IZR (Z.pos m) * powerRZ 2 e)%R with (F2R (Float radix2 (cond_Zopp s (Z.pos m)) e)); auto.
  change (F2R (Float radix2 (cond_Zopp s (Z.pos m)) e)) with (SF2R radix2 (S754_finite s m e)).
  now rewrite <- sf_real_SF2R.
Qed.
Lemma SFdiv_rounds s m1 m2 :
  valid (SFdiv prec emax (S754_finite s m1 0) (S754_finite false m2 0)) = true /\
  rounds_to prec emax s ((if s then -1 else 1) * IZR (Zpos m1) / IZR (Zpos m2)) (SFdiv prec emax (S754_finite s m1 0) (S754_finite false m2 0)).
Proof.
  destruct (Bdiv_correct_aux prec emax _ _ mode_NE s m1 0 false m2 0) as [V C].
  assert (E : SFdiv prec emax (S754_finite s m1 0) (S754_finite false m2 0) =
    let '(mz, ez, lz) := SFdiv_core_binary prec emax (Z.pos m1) 0 (Z.pos m2) 0 in
        binary_round_aux prec emax mode_NE (xorb s false) mz ez lz).
  { cbn [SFdiv]. destruct SFdiv_core_binary as [[mz ez] lz]. apply binary_round_aux_equiv. }
  rewrite E. split; auto. apply rounds_rnd; auto. cbn zeta in C. rewrite xorb_false_r in C |- *.
  cbn [round_mode] in C.
  replace ((if s then -1 else 1) * IZR (Z.pos m1) / IZR (Z.pos m2))%R with
    (F2R (Float radix2 (cond_Zopp s (Z.pos m1)) 0) / F2R (Float radix2 (cond_Zopp false (Z.pos m2)) 0))%R.
  - auto.
  - unfold F2R, Defs.Fnum, Defs.Fexp. cbn [bpow cond_Zopp].
    destruct s; cbn [cond_Zopp]; [change (Z.neg m1) with (- Z.pos m1); rewrite opp_IZR|]; field; apply IZR_neq; lia.
Qed.

(** A representable number rounds to itself. *)
Lemma rounds_exact s x f g : rounds_to prec emax s x f -> valid g = true -> F64.is_finite g = true ->
  sf_real g = x -> sign_of g = s -> f = g.
Proof.
  intros [H1 H2] V F E S. 
  assert (Hx : (Rabs x < overflow_bound prec emax)%R).
  { apply rnd_overflow. rewrite <- E, sf_real_SF2R. rewrite round_generic by (auto using generic_SF with typeclass_instances).
    rewrite <- (B2R_SF2B _ _ g V). apply abs_B2R_lt_emax. }
  destruct (H1 Hx) as [(V' & F' & N & _) S']. apply sf_unique; auto; try congruence.
  specialize (N g V F). rewrite E in N |- *. replace (x - x)%R with 0%R in N by ring. rewrite Rabs_R0 in N.
  pose proof (Rabs_pos (sf_real f - x)). assert (Hz : Rabs (sf_real f - x) = 0%R) by lra.
  destruct (Req_dec (sf_real f - x) 0) as [Z0|Z0]; [lra|]. apply Rabs_no_R0 in Z0. lra.
Qed.
(** There is only one nearest float of even mantissa. *)
Lemma canonical_SF f : valid f = true -> F64.is_finite f = true -> exists d, canonical radix2 fexp d /\ F2R d = SF2R radix2 f /\
  (even_mantissa f -> Z.even (Fnum d) = true).
Proof.
  intros V F. destruct f as [s| | |s m e]; try discriminate.
  - exists (Float radix2 0 (fexp (mag radix2 0))). split; [apply canonical_0|]. split; [apply F2R_0|]. auto.
  - exists (Float radix2 (cond_Zopp s (Z.pos m)) e). split; [|split].
    + apply (canonical_canonical_mantissa prec emax s m e). cbn in V. unfold bounded in V. now apply andb_prop in V as [V _].
    + reflexivity.
    + cbn [Fnum even_mantissa]. intros H. destruct s; cbn; auto.
Qed.
Lemma nearest_between x f h : nearest_even prec emax x f -> nearest_even prec emax x h -> (SF2R radix2 f < SF2R radix2 h)%R -> False.
Proof.
  intros (Vf & Ff & Nf & Ef) (Vh & Fh & Nh & Eh) L.
  assert (Nf' := Nf h Vh Fh). assert (Nh' := Nh f Vf Ff). assert (Ef' := Ef h Vh Fh). assert (Eh' := Eh f Vf Ff).
  rewrite !sf_real_SF2R in *. set (a := SF2R radix2 f) in *. set (b := SF2R radix2 h) in *.
  assert (D : Rabs (a - x) = Rabs (b - x)) by lra. specialize (Ef' ltac:(lra) D). specialize (Eh' ltac:(lra) ltac:(auto)).
  assert (Hx : (x = (a + b) / 2)%R). { destruct (Rcase_abs (a - x)) as [P|P], (Rcase_abs (b - x)) as [Q|Q];
    try (rewrite (Rabs_left _ P) in D); try (rewrite (Rabs_right _ P) in D); try (rewrite (Rabs_left _ Q) in D); try (rewrite (Rabs_right _ Q) in D); lra. }
  assert (Da : Rabs (a - x) = (x - a)%R) by (rewrite Rabs_left; lra).
  assert (Ba : (Rabs a < bpow radix2 emax)%R) by (unfold a; rewrite <- (B2R_SF2B _ _ f Vf); apply abs_B2R_lt_emax).
  assert (Bb : (Rabs b < bpow radix2 emax)%R) by (unfold b; rewrite <- (B2R_SF2B _ _ h Vh); apply abs_B2R_lt_emax).
  apply Rabs_def2 in Ba, Bb.
  assert (NB : forall y, generic_format radix2 fexp y -> (a < y < b)%R -> False).
  { intros y Gy By. destruct (generic_below y Gy) as (g & Vg & Fg & Eg).
    { apply Rabs_def1; lra. }
    specialize (Nf g Vg Fg). rewrite sf_real_SF2R, Eg, Da in Nf.
    assert (Rabs (y - x) < x - a)%R by (apply Rabs_def1; lra). lra. }
  assert (NX : ~ generic_format radix2 fexp x) by (intros G; apply (NB x G); lra).
  destruct (canonical_SF f Vf Ff) as (d & Cd & Rd & Pd). destruct (canonical_SF h Vh Fh) as (u & Cu & Ru & Pu).
  fold a in Rd. fold b in Ru.
  assert (DN : F2R d = round radix2 fexp Zfloor x).
  { rewrite Rd. assert (R1 : (round radix2 fexp Zfloor x <= x)%R) by (apply round_DN_pt; auto with typeclass_instances).
    assert (R2 : (a <= round radix2 fexp Zfloor x)%R).
    { apply round_DN_pt; auto with typeclass_instances; [|lra]. unfold a. now apply generic_SF. }
    destruct (Rle_lt_or_eq_dec _ _ R2) as [C|]; auto. exfalso. apply (NB (round radix2 fexp Zfloor x)); [apply generic_format_round; auto with typeclass_instances|lra]. }
  assert (UP : F2R u = round radix2 fexp Zceil x).
  { rewrite Ru. assert (R1 : (x <= round radix2 fexp Zceil x)%R) by (apply round_UP_pt; auto with typeclass_instances).
    assert (R2 : (round radix2 fexp Zceil x <= b)%R).
    { apply round_UP_pt; auto with typeclass_instances; [|lra]. unfold b. now apply generic_SF. }
    destruct (Rle_lt_or_eq_dec _ _ R2) as [C|]; auto. exfalso. apply (NB (round radix2 fexp Zceil x)); [apply generic_format_round; auto with typeclass_instances|lra]. }
  pose proof (DN_UP_parity_generic radix2 fexp x d u NX Cd Cu DN UP) as P. rewrite (Pd Ef'), (Pu Eh') in P. discriminate.
Qed.
Lemma nearest_unique x f h : nearest_even prec emax x f -> nearest_even prec emax x h -> sf_real f = sf_real h.
Proof.
  intros Hf Hh. rewrite !sf_real_SF2R. destruct (Rtotal_order (SF2R radix2 f) (SF2R radix2 h)) as [L|[E|L]]; auto; exfalso.
  - exact (nearest_between x f h Hf Hh L).
  - exact (nearest_between x h f Hh Hf L).
Qed.
Lemma rounds_unique s x f h : rounds_to prec emax s x f -> rounds_to prec emax s x h -> f = h.
Proof.
  intros [A B] [A' B']. destruct (Rlt_le_dec (Rabs x) (overflow_bound prec emax)) as [C|C].
  - destruct (A C) as [N S], (A' C) as [N' S']. pose proof (nearest_unique x f h N N') as E.
    destruct N as (V & F & _), N' as (V' & F' & _). apply sf_unique; auto. congruence.
  - rewrite (B C), (B' C). reflexivity.
Qed.
End Format.

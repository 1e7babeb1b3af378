(** Decimal numbers: reading is correctly rounded, printing reads back. *)
From Verif Require Import Base F64 SpecNumber SpecGrammar FloatProofs NumberProofs.
From Coq Require Import Reals Lra Lia ZArith Floats.SpecFloat ZifyBool ZifyNat ZifyN.
From Flocq Require Import Core IEEE754.BinarySingleNaN.
Open Scope N_scope.
Notation is_finite := F64.is_finite.

#[global] Instance Hprec53 : Prec_gt_0 53. Proof. reflexivity. Qed.
#[global] Instance Hmax1024 : Prec_lt_emax 53 1024. Proof. reflexivity. Qed.
#[global] Instance Hprec24 : Prec_gt_0 24. Proof. reflexivity. Qed.
#[global] Instance Hmax128 : Prec_lt_emax 24 128. Proof. reflexivity. Qed.
Lemma one53 : (1 < 53)%Z. Proof. reflexivity. Qed.
Lemma one24 : (1 < 24)%Z. Proof. reflexivity. Qed.

Lemma pow10_pos q : IZR (Z.pos (Pos.pow 10 q)) = powerRZ 10 (Z.pos q).
Proof.
  rewrite Pos2Z.inj_pow. cbn [powerRZ]. rewrite <- (positive_nat_Z q) at 1. rewrite <- pow_IZR. reflexivity.
Qed.
Lemma zero_rounds prec emax s (Hp : Prec_gt_0 prec) (Hm : Prec_lt_emax prec emax) : (1 < prec)%Z ->
  rounds_to prec emax s 0 (S754_zero s).
Proof.
  intros H1. apply rounds_rnd; auto. rewrite round_0 by auto with typeclass_instances.
  rewrite Rabs_R0, Rlt_bool_true by apply bpow_gt_0. auto.
Qed.

Theorem dec_to_f64_rounds s m e : valid_f64 (dec_to_f64 s m e) = true /\
  rounds_to 53 1024 s (decimal_real s m e) (dec_to_f64 s m e).
Proof.
  unfold decimal_real, dec_to_f64. destruct m as [|p].
  { split; auto. replace (_ * _ * _)%R with 0%R by (cbn [Z.of_N]; ring). apply zero_rounds; auto with typeclass_instances. reflexivity. }
  destruct e as [|q|q].
  - destruct (binary_round_rounds 53 1024 one53 _ _ s p 0) as [V R]. split; auto.
  - destruct (binary_round_rounds 53 1024 one53 _ _ s (p * Pos.pow 10 q) 0) as [V R]. split; auto.
    replace (_ * IZR (Z.of_N (N.pos p)) * _)%R with ((if s then -1 else 1) * IZR (Z.pos (p * 10 ^ q)) * powerRZ 2 0)%R; auto.
    rewrite <- pow10_pos, Pos2Z.inj_mul, mult_IZR. cbn [powerRZ Z.of_N]. ring.
  - destruct (SFdiv_rounds 53 1024 one53 _ _ s p (Pos.pow 10 q)) as [V R]. split; auto.
    replace (_ * IZR (Z.of_N (N.pos p)) * _)%R with ((if s then -1 else 1) * IZR (Z.pos p) / IZR (Z.pos (10 ^ q)))%R; auto.
    change (Z.neg q) with (- Z.pos q)%Z. rewrite powerRZ_neg' by lra. rewrite <- pow10_pos. cbn [Z.of_N]. reflexivity.
Qed.

(** The sign is just copied. *)
Definition set_sign (s : bool) (f : spec_float) : spec_float :=
  match f with
  | S754_zero _ => S754_zero s | S754_infinity _ => S754_infinity s
  | S754_finite _ m e => S754_finite s m e | S754_nan => S754_nan
  end.
Lemma round_aux_sign prec emax s m e l :
  SpecFloat.binary_round_aux prec emax s m e l = set_sign s (SpecFloat.binary_round_aux prec emax false m e l).
Proof.
  unfold SpecFloat.binary_round_aux. destruct (shr_fexp _ _ _ _ _) as [mrs e']. destruct (shr_fexp _ _ _ _ _) as [mrs' e''].
  destruct (shr_m mrs'); cbn; auto. now destruct (e'' <=? _)%Z.
Qed.
Lemma dec_sign s m e : dec_to_f64 s m e = set_sign s (dec_to_f64 false m e).
Proof.
  unfold dec_to_f64. destruct m as [|p]; auto. destruct e as [|q|q].
  - unfold SpecFloat.binary_round. destruct (shl_align _ _ _). apply round_aux_sign.
  - unfold SpecFloat.binary_round. destruct (shl_align _ _ _). apply round_aux_sign.
  - cbn [SFdiv]. destruct (SFdiv_core_binary _ _ _ _ _ _) as [[a b] c]. rewrite xorb_false_r. apply round_aux_sign.
Qed.

(** Moving zeros between the digits and the exponent. *)
Lemma dec_shift s d k : dec_to_f64 s (d * 10 ^ k) 0 = dec_to_f64 s d (Z.of_N k).
Proof.
  destruct k as [|q]; [now rewrite N.mul_1_r|]. destruct d as [|p]; [reflexivity|].
  cbn [Z.of_N dec_to_f64]. change (N.pos p * 10 ^ N.pos q) with (N.pos (p * 10 ^ q)). reflexivity.
Qed.

(** ** [sf_eqb] *)
Lemma sf_eqb_eq a b : sf_eqb a b = true -> a = b.
Proof.
  destruct a, b; cbn; try discriminate; auto; rewrite ?andb_true_iff;
    intros; repeat match goal with H : _ /\ _ |- _ => destruct H end;
    repeat match goal with H : Bool.eqb _ _ = true |- _ => apply Bool.eqb_prop in H; subst
                         | H : Pos.eqb _ _ = true |- _ => apply Pos.eqb_eq in H; subst
                         | H : Z.eqb _ _ = true |- _ => apply Z.eqb_eq in H; subst end; auto.
Qed.

(** ** The digits chosen by [shortest] read back. *)
Lemma candidate_ok m e k d k' : candidate m e k = Some (d, k') ->
  k' = k /\ d <> 0 /\ dec_to_f64 false d k' = S754_finite false m e.
Proof.
  unfold candidate. destruct (scaled m e k) as [[q r] den].
  destruct (sf_eqb (dec_to_f64 false (q + 1) k) _) eqn:Eu; cbn [andb].
  - destruct (negb _ || _).
    + intros [= <- <-]. split; auto. split; [lia|]. now apply sf_eqb_eq.
    + destruct (sf_eqb (dec_to_f64 false q k) _ && _) eqn:Ed; [|discriminate].
      intros [= <- <-]. apply andb_true_iff in Ed as [Ed Ez]. split; auto. split; [lia|]. now apply sf_eqb_eq.
  - destruct (sf_eqb (dec_to_f64 false q k) _ && _) eqn:Ed; [|discriminate].
    intros [= <- <-]. apply andb_true_iff in Ed as [Ed Ez]. split; auto. split; [lia|]. now apply sf_eqb_eq.
Qed.
Lemma search_ok n : forall m e k d k', search n m e k = Some (d, k') ->
  d <> 0 /\ dec_to_f64 false d k' = S754_finite false m e.
Proof.
  induction n as [|n IH]; intros m e k d k'; [discriminate|]. cbn [search].
  destruct (candidate m e k) as [[d0 k0]|] eqn:E; [|apply IH].
  intros [= <- <-]. apply candidate_ok in E. tauto.
Qed.
Lemma strip_nonzero n : forall d k d' k', d <> 0 -> strip_zeros n d k = (d', k') -> d' <> 0.
Proof.
  induction n as [|n IH]; intros d k d' k' Hd; cbn. { now intros [= <- _]. }
  destruct ((0 <? d) && (d mod 10 =? 0)) eqn:E; [|now intros [= <- _]].
  apply IH. apply andb_true_iff in E as [_ E]. apply N.eqb_eq in E. intros E'.
  pose proof (N.div_mod d 10 ltac:(lia)). lia.
Qed.
Lemma pow2_pos q : IZR (Z.pos (Pos.pow 2 q)) = powerRZ 2 (Z.pos q).
Proof. rewrite Pos2Z.inj_pow. cbn [powerRZ]. rewrite <- (positive_nat_Z q) at 1. now rewrite <- pow_IZR. Qed.
Lemma pow5_pos q : IZR (Z.pos (Pos.pow 5 q)) = powerRZ 5 (Z.pos q).
Proof. rewrite Pos2Z.inj_pow. cbn [powerRZ]. rewrite <- (positive_nat_Z q) at 1. now rewrite <- pow_IZR. Qed.
Lemma exact_real m e d k : exact_dec m e = (d, k) -> d <> 0 /\ decimal_real false d k = sf_real (S754_finite false m e).
Proof.
  unfold exact_dec, decimal_real, sf_real. destruct e as [|q|q]; intros [= <- <-]; (split; [discriminate|]); cbn [Z.of_N].
  - cbn. reflexivity.
  - rewrite Pos2Z.inj_mul, mult_IZR, pow2_pos. cbn [powerRZ]. ring.
  - rewrite Pos2Z.inj_mul, mult_IZR, pow5_pos. change (Z.neg q) with (- Z.pos q)%Z. rewrite !powerRZ_neg' by lra.
    replace 10%R with (2 * 5)%R by lra. rewrite powerRZ_mult by lia.
    field. split; apply powerRZ_NOR; lra.
Qed.
Lemma shortest_ok m e d k : valid_f64 (S754_finite false m e) = true -> shortest m e = (d, k) ->
  d <> 0 /\ dec_to_f64 false d k = S754_finite false m e.
Proof.
  intros V. unfold shortest. destruct (search 17 m e (magnitude m e)) as [[d0 k0]|] eqn:E.
  - apply search_ok in E as [E1 E2]. destruct (strip_zeros 20 d0 k0) as [d1 k1] eqn:Es.
    destruct (sf_eqb _ _) eqn:Eq; intros [= <- <-]; auto.
    split; [eapply strip_nonzero; eauto|]. now apply sf_eqb_eq.
  - intros Ex. apply exact_real in Ex as [Ex1 Ex2]. split; auto.
    destruct (dec_to_f64_rounds false d k) as [_ R].
    apply (rounds_exact 53 1024 one53 _ _ _ _ _ _ R); auto.
Qed.

(** ** Digit strings *)
Lemma decimal_app a b : decimal (a ++ b) = decimal a * 10 ^ N.of_nat (List.length b) + decimal b.
Proof.
  induction a as [|c a IH]; cbn [app decimal]; [lia|]. rewrite IH, app_length, Nat2N.inj_add, N.pow_add_r. lia.
Qed.
Lemma decimal_zeros n : decimal (repeat 48 n) = 0.
Proof. induction n as [|n IH]; cbn [repeat decimal]; [reflexivity|]. rewrite IH. lia. Qed.
Lemma digits_zeros n : Forall digit (repeat 48 n).
Proof. induction n; cbn; constructor; auto. unfold digit; lia. Qed.
Lemma dec_digits_ok fuel : forall n, N.log2 n < N.of_nat fuel ->
  decimal (dec_digits fuel n) = n /\ Forall digit (dec_digits fuel n) /\
  (0 < n -> exists c r, dec_digits fuel n = c :: r /\ 49 <= c <= 57).
Proof.
  induction fuel as [|f IH]; intros n Hn; [lia|]. cbn [dec_digits]. destruct (N.ltb_spec n 10) as [L|L].
  - split; [|split].
    + cbn [decimal List.length]. change (10 ^ N.of_nat 0) with 1. lia.
    + constructor; [unfold digit; lia|constructor].
    + intros H0. eexists _, _. split; [reflexivity|]. lia.
  - assert (Hd : N.log2 (n / 10) < N.of_nat f).
    { assert (n / 10 <= n / 2) by (apply N.div_le_compat_l; lia).
      assert (N.log2 (n / 10) <= N.log2 (n / 2)) by (apply N.log2_le_mono; auto).
      assert (N.log2 (n / 2) = N.log2 n - 1).
      { rewrite <- N.div2_div, N.div2_spec, N.log2_shiftr. reflexivity. }
      assert (0 < N.log2 n) by (apply N.log2_pos; lia). lia. }
    destruct (IH _ Hd) as (I1 & I2 & I3).
    pose proof (N.div_mod n 10 ltac:(lia)) as Hm. pose proof (N.mod_lt n 10 ltac:(lia)) as Hl.
    split; [|split].
    + rewrite decimal_app, I1. cbn [decimal List.length]. change (N.of_nat 1) with 1. change (10 ^ N.of_nat 0) with 1. lia.
    + apply Forall_app; split; auto. constructor; [unfold digit; lia|constructor].
    + intros _. destruct I3 as (c & r & -> & Hc). { apply N.div_str_pos. lia. }
      exists c. eexists. split; [reflexivity|auto].
Qed.
Lemma show_N_ok n : decimal (show_N n) = n /\ Forall digit (show_N n) /\
  (0 < n -> exists c r, show_N n = c :: r /\ 49 <= c <= 57).
Proof. apply dec_digits_ok. lia. Qed.

(** ** Positional notation *)
Lemma positional_number (s : bool) d k : d <> 0 -> exists m e,
  Number ((if s then [45] else []) ++ positional d k) s m e /\ dec_to_f64 s m e = dec_to_f64 s d k.
Proof.
  intros Hd. destruct (show_N_ok d) as (D1 & D2 & D3). destruct D3 as (c & r & E & Hc); [lia|].
  assert (Hint : forall t, Forall digit t -> Int (show_N d ++ t)).
  { intros t Ht. rewrite E. cbn. apply int_pos; auto. rewrite E in D2. inversion D2; subst. apply Forall_app; auto. }
  assert (P : forall k', exists m e, Number ((if s then [45] else []) ++ show_N d ++ repeat 48 (N.to_nat k')) s m e
     /\ dec_to_f64 s m e = dec_to_f64 s d (Z.of_N k')).
  { intros k'. exists (decimal ((show_N d ++ repeat 48 (N.to_nat k')) ++ [])), (0 - Z.of_nat (List.length (@nil N)))%Z. split.
    - replace (show_N d ++ repeat 48 (N.to_nat k')) with ((show_N d ++ repeat 48 (N.to_nat k')) ++ [] ++ []) at 1 by now rewrite !app_nil_r.
      apply number; [|constructor|constructor]. apply Hint, digits_zeros.
    - rewrite app_nil_r, decimal_app, D1, decimal_zeros, repeat_length, N2Nat.id, N.add_0_r. cbn [List.length Z.of_nat Z.sub Z.add Z.opp].
      apply dec_shift. }
  unfold positional. destruct k as [|q|q].
  - apply (P 0).
  - apply (P (N.pos q)).
  - destruct (Nat.leb_spec (List.length (show_N d)) (Pos.to_nat q)) as [L|L].
    + set (fd := repeat 48 (Pos.to_nat q - List.length (show_N d)) ++ show_N d).
      exists (decimal ([48] ++ fd)), (0 - Z.of_nat (List.length fd))%Z. split.
      * replace (48 :: 46 :: fd) with ([48] ++ (46 :: fd) ++ []) by now rewrite app_nil_r.
        apply number; [constructor| |constructor]. apply frac_some.
        -- unfold fd. intros H. apply app_eq_nil in H as [_ H]. rewrite E in H. discriminate.
        -- apply Forall_app; split; auto. apply digits_zeros.
      * f_equal.
        -- unfold fd. rewrite !decimal_app, decimal_zeros, D1. cbn [decimal]. lia.
        -- unfold fd. rewrite app_length, repeat_length. lia.
    + set (l := (List.length (show_N d) - Pos.to_nat q)%nat).
      assert (Hl : (0 < l)%nat) by (unfold l; lia).
      assert (Hfd : List.length (skipn l (show_N d)) = Pos.to_nat q) by (rewrite skipn_length; unfold l; lia).
      assert (Hdd := D2). rewrite <- (firstn_skipn l (show_N d)) in Hdd. apply Forall_app in Hdd as [Ha Hb].
      exists (decimal (firstn l (show_N d) ++ skipn l (show_N d))), (0 - Z.of_nat (List.length (skipn l (show_N d))))%Z. split.
      * replace (firstn l (show_N d) ++ DOT :: skipn l (show_N d)) with (firstn l (show_N d) ++ (46 :: skipn l (show_N d)) ++ []) by now rewrite app_nil_r.
        apply number; [|apply frac_some; auto|constructor].
        -- rewrite E in Ha |- *. destruct l; [lia|]. cbn [firstn] in *. inversion Ha; subst. apply int_pos; auto.
        -- intros E0. rewrite E0 in Hfd. cbn in Hfd. lia.
      * rewrite firstn_skipn, D1, Hfd. f_equal. lia.
Qed.

Theorem f64_to_string_number f : valid_f64 f = true -> is_finite f = true ->
  exists s m e, Number (f64_to_string f) s m e /\ dec_to_f64 s m e = f.
Proof.
  intros V F. destruct f as [s|s| |s m e]; try discriminate.
  - exists s, 0, 0%Z. split; auto. cbn [f64_to_string].
    apply (number s [48] [] [] [] 0); constructor.
  - cbn [f64_to_string]. destruct (shortest m e) as [d k] eqn:E.
    destruct (shortest_ok m e d k) as [Hd Hr]; auto.
    destruct (positional_number s d k Hd) as (m' & e' & Hn & He).
    exists s, m', e'. split; auto. rewrite He, dec_sign, Hr. reflexivity.
Qed.

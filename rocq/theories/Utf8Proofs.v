(** The crate's UTF-8 encoder is correct; byte order is code-point order. *)
From Verif Require Import Base Utf8 MapProofs.
From Coq Require Import ZifyBool ZifyNat ZifyN.

Lemma lor_add a n x : x < 2 ^ n -> N.lor (a * 2 ^ n) x = a * 2 ^ n + x.
Proof.
  intros H. rewrite <- N.lxor_lor, <- N.add_nocarry_lxor; auto;
  apply N.bits_inj; intros i; rewrite N.land_spec, N.bits_0;
  (destruct (N.lt_ge_cases i n) as [Hi|Hi];
   [ rewrite N.mul_pow2_bits_low by auto; auto
   | rewrite (N.testbit_eqb x), N.div_small; [rewrite andb_comm; reflexivity|];
     eapply N.lt_le_trans; [exact H|]; apply N.pow_le_mono_r; lia ]).
Qed.

Lemma u8_small x : x < 256 -> u8 x = x.
Proof. intros H. unfold u8. now apply N.mod_small. Qed.

(** Arithmetic form of the encoder. *)
Definition enc (u : N) : list N :=
  if u <=? 0x7F then [u]
  else if u <=? 0x7FF then [0xC0 + u / 64; 0x80 + u mod 64]
  else if u <=? 0xFFFF then [0xE0 + u / 4096; 0x80 + (u / 64) mod 64; 0x80 + u mod 64]
  else [0xF0 + u / 262144; 0x80 + (u / 4096) mod 64; 0x80 + (u / 64) mod 64; 0x80 + u mod 64].

Lemma land63 x : N.land x 0x3F = x mod 64.
Proof. apply (N.land_ones x 6). Qed.

Lemma encode_utf8_enc u : u < 0x110000 -> encode_utf8 u = enc u.
Proof.
  intros Hu. unfold encode_utf8, enc. rewrite !land63, !N.shiftr_div_pow2.
  assert (M : forall x, x mod 64 < 64) by (intros; apply N.mod_lt; lia).
  assert (E : forall x, N.lor 0x80 (x mod 64) = 0x80 + x mod 64)
    by (intros x; apply (lor_add 2 6); apply M).
  rewrite !E.
  destruct (N.leb_spec u 0x7F); [now rewrite u8_small by lia|].
  destruct (N.leb_spec u 0x7FF).
  { change (2 ^ 6) with 64.
    assert (u / 64 < 32) by (apply N.div_lt_upper_bound; lia).
    replace (N.lor 0xC0 (u / 64)) with (0xC0 + u / 64) by (symmetry; apply (lor_add 6 5); exact H1).
    pose proof (M u). rewrite !u8_small by lia. reflexivity. }
  destruct (N.leb_spec u 0xFFFF).
  { change (2 ^ 12) with 4096. change (2 ^ 6) with 64.
    assert (u / 4096 < 16) by (apply N.div_lt_upper_bound; lia).
    replace (N.lor 0xE0 (u / 4096)) with (0xE0 + u / 4096) by (symmetry; apply (lor_add 14 4); exact H2).
    pose proof (M u); pose proof (M (u / 64)). rewrite !u8_small by lia. reflexivity. }
  change (2 ^ 18) with 262144. change (2 ^ 12) with 4096. change (2 ^ 6) with 64.
  assert (u / 262144 < 8) by (apply N.div_lt_upper_bound; lia).
  replace (N.lor 0xF0 (u / 262144)) with (0xF0 + u / 262144) by (symmetry; apply (lor_add 30 3); exact H2).
  pose proof (M u); pose proof (M (u / 64)); pose proof (M (u / 4096)). rewrite !u8_small by lia. reflexivity.
Qed.

#[local] Ltac Zify.zify_post_hook ::= Z.div_mod_to_equations.

Lemma if_true {A} (b : bool) (x y : A) : b = true -> (if b then x else y) = x.
Proof. now intros ->. Qed.
Lemma if_false {A} (b : bool) (x y : A) : b = false -> (if b then x else y) = y.
Proof. now intros ->. Qed.

Lemma from_utf8_enc u r : is_scalar u = true -> from_utf8 (enc u ++ r) = option_map (cons u) (from_utf8 r).
Proof.
  unfold is_scalar; intros Hs. unfold enc, cont.
  destruct (N.leb_spec u 0x7F).
  { cbn [app from_utf8]. now rewrite if_true by lia. }
  destruct (N.leb_spec u 0x7FF).
  { cbn [app from_utf8]. unfold cont. rewrite if_false by lia. rewrite if_true by lia. rewrite if_true by lia.
    repeat f_equal. lia. }
  destruct (N.leb_spec u 0xFFFF).
  { cbn [app from_utf8]. unfold cont. rewrite if_false by lia. rewrite if_false by lia.
    rewrite if_true by lia. rewrite if_true by lia. repeat f_equal. lia. }
  cbn [app from_utf8]. unfold cont. rewrite if_false by lia. rewrite if_false by lia. rewrite if_false by lia.
  rewrite if_true by lia. rewrite if_true by lia. repeat f_equal. lia.
Qed.

Lemma utf8_decode_encode u : is_scalar u = true -> from_utf8 (encode_utf8 u) = Some [u].
Proof.
  intros Hs. rewrite encode_utf8_enc by (unfold is_scalar in Hs; lia).
  rewrite <- (app_nil_r (enc u)), from_utf8_enc; auto.
Qed.

Lemma decode_encode_surrogate u : 0xD800 <= u <= 0xDFFF -> from_utf8 (encode_utf8 u) = None.
Proof.
  intros Hu. rewrite encode_utf8_enc by lia. unfold enc.
  rewrite if_false by lia. rewrite if_false by lia. rewrite if_true by lia.
  cbn [app from_utf8]. unfold cont. rewrite if_false by lia. rewrite if_false by lia.
  rewrite if_true by lia. now rewrite if_false by lia.
Qed.

(** Whole strings. *)
Definition utf8 (s : str) : list N := flat_map encode_utf8 s.

Lemma from_utf8_utf8 s : forallb is_scalar s = true -> from_utf8 (utf8 s) = Some s.
Proof.
  unfold utf8. induction s as [|c s IH]; auto. cbn [forallb flat_map]. intros H. apply andb_true_iff in H as [H1 H2].
  rewrite encode_utf8_enc by (unfold is_scalar in H1; lia). rewrite from_utf8_enc, IH by auto. reflexivity.
Qed.

(** The two orders agree: comparing UTF-8 bytes (what Rust does) is comparing code points. *)
Lemma enc_cmp x y a b : is_scalar x = true -> is_scalar y = true -> x < y ->
  str_cmp (enc x ++ a) (enc y ++ b) = Lt.
Proof.
  unfold is_scalar; intros Hx Hy Hxy.
  assert (C : forall p q, p < q -> (p ?= q) = Lt) by (intros; now apply N.compare_lt_iff).
  assert (D : forall p q l l', p < q \/ (p = q /\ str_cmp l l' = Lt) -> str_cmp (p :: l) (q :: l') = Lt).
  { intros p q l l' [H|[-> H]]; cbn [str_cmp].
    - now rewrite C.
    - now rewrite N.compare_refl. }
  unfold enc.
  destruct (N.leb_spec x 0x7F), (N.leb_spec y 0x7F); cbn [app]; try (apply D; left; lia);
  destruct (N.leb_spec y 0x7FF); try lia; cbn [app]; try (apply D; left; lia);
  destruct (N.leb_spec y 0xFFFF); try lia; cbn [app]; try (apply D; left; lia);
  destruct (N.leb_spec x 0x7FF); try lia; cbn [app]; try (apply D; left; lia);
  destruct (N.leb_spec x 0xFFFF); try lia; cbn [app]; try (apply D; left; lia).
  - apply D. destruct (N.lt_ge_cases (x / 64) (y / 64)); [left; lia|right; split; [lia|]].
    apply D; left; lia.
  - apply D. destruct (N.lt_ge_cases (x / 4096) (y / 4096)); [left; lia|right; split; [lia|]].
    apply D. destruct (N.lt_ge_cases (x / 64) (y / 64)); [left; lia|right; split; [lia|]].
    apply D; left; lia.
  - apply D. destruct (N.lt_ge_cases (x / 262144) (y / 262144)); [left; lia|right; split; [lia|]].
    apply D. destruct (N.lt_ge_cases (x / 4096) (y / 4096)); [left; lia|right; split; [lia|]].
    apply D. destruct (N.lt_ge_cases (x / 64) (y / 64)); [left; lia|right; split; [lia|]].
    apply D; left; lia.
Qed.

Lemma str_cmp_app_same p a b : str_cmp (p ++ a) (p ++ b) = str_cmp a b.
Proof. induction p as [|x p IH]; cbn; auto. now rewrite N.compare_refl. Qed.

Lemma enc_nonempty c : exists b l, enc c = b :: l.
Proof. unfold enc. destruct (c <=? 0x7F), (c <=? 0x7FF), (c <=? 0xFFFF); eauto. Qed.

Lemma utf8_order a b : forallb is_scalar a = true -> forallb is_scalar b = true ->
  str_cmp (utf8 a) (utf8 b) = str_cmp a b.
Proof.
  unfold utf8. revert b; induction a as [|x a IH]; intros [|y b]; cbn [forallb flat_map]; auto.
  - rewrite andb_true_iff. intros _ [Hy _]. rewrite encode_utf8_enc by (unfold is_scalar in Hy; lia).
    destruct (enc_nonempty y) as (q & l & ->). reflexivity.
  - rewrite andb_true_iff. intros [Hx _] _. rewrite encode_utf8_enc by (unfold is_scalar in Hx; lia).
    destruct (enc_nonempty x) as (q & l & ->). reflexivity.
  - rewrite !andb_true_iff. intros [Hx Ha] [Hy Hb].
    rewrite !encode_utf8_enc by (unfold is_scalar in Hx, Hy; lia).
    cbn [str_cmp]. destruct (N.compare_spec x y) as [->|H|H].
    + rewrite str_cmp_app_same. auto.
    + now apply enc_cmp.
    + rewrite str_cmp_antisym, enc_cmp by auto. reflexivity.
Qed.

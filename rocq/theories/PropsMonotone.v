(** C81: numbers keep their order. *)
From Verif Require Import Base F64 Utf8 Json Parse Print SpecGrammar SpecNumber FloatProofs DecProofs SpecValue PropsParse PropsPrint Convert SpecConvert
  ConvertNumProofs NumberProofs SpecMonotone.
Require Verif.AttrProofs.
From Coq Require Import ZArith Reals Lra Lia Floats.SpecFloat.
From Flocq Require Import Core IEEE754.BinarySingleNaN.
Local Open Scope Z_scope.
Notation is_finite := F64.is_finite.

(** [at_most] is what Rust's [<=] computes. *)
Theorem at_most_is_le f g : valid_f64 f = true -> valid_f64 g = true -> (SFleb f g = true <-> at_most f g).
Proof.
  intros Vf Vg. unfold at_most.
  destruct (is_finite f && is_finite g) eqn:F.
  - apply andb_true_iff in F as [Ff Fg].
    pose proof (Bcompare_correct 53 1024 (SF2B f Vf) (SF2B g Vg)) as C. unfold Bcompare in C.
    rewrite !is_finite_SF2B, !B2SF_SF2B, !B2R_SF2B, <- !finite_SF, <- !sf_real_SF2R in C. specialize (C Ff Fg).
    unfold SFleb. rewrite C.
    assert (N : forall h, is_finite h = true -> h <> S754_nan /\ h <> S754_infinity true /\ h <> S754_infinity false)
      by (intros h Hh; repeat split; intros ->; discriminate).
    destruct (N f Ff) as (? & ? & ?), (N g Fg) as (? & ? & ?). destruct (Rcompare_spec (sf_real f) (sf_real g)); split; intros X; auto;
      try (repeat split; auto; right; right; repeat split; auto; lra).
    destruct X as (_ & _ & [X|[X|(_ & _ & X)]]); try congruence. lra.
  - destruct f as [s|[]| |s m e], g as [s'|[]| |s' m' e']; try discriminate F; cbn; split; intros X; try discriminate; auto;
      try (repeat split; auto; discriminate); try (destruct X as (X1 & X2 & [X3|[X3|(X3 & X4 & X5)]]); congruence).
Qed.

(** ** Rounding keeps the order *)
Lemma nearest_monotone prec emax (P1 : 1 < prec) (P2 : Prec_gt_0 prec) (P3 : Prec_lt_emax prec emax) x y f g :
  (x <= y)%R -> nearest_even prec emax x f -> nearest_even prec emax y g -> (sf_real f <= sf_real g)%R.
Proof.
  intros L Hf Hg. destruct (Rle_lt_dec (sf_real f) (sf_real g)) as [|Lt]; auto. exfalso.
  destruct (Req_dec x y) as [->|Nxy]. { pose proof (nearest_unique prec emax P1 P2 P3 y f g Hf Hg). lra. }
  destruct Hf as (Vf & Ff & Nf & _), Hg as (Vg & Fg & Ng & _).
  specialize (Nf g Vg Fg). specialize (Ng f Vf Ff). revert Nf Ng. unfold Rabs. repeat destruct (Rcase_abs _); lra.
Qed.
Lemma rounds_monotone prec emax (P1 : 1 < prec) (P2 : Prec_gt_0 prec) (P3 : Prec_lt_emax prec emax) s t x y f g :
  (x <= y)%R -> (x < 0 -> s = true)%R -> (0 < x -> s = false)%R -> (y < 0 -> t = true)%R -> (0 < y -> t = false)%R ->
  (0 < overflow_bound prec emax)%R -> rounds_to prec emax s x f -> rounds_to prec emax t y g -> at_most f g.
Proof.
  intros L S1 S2 T1 T2 B [F1 F2] [G1 G2].
  destruct (Rle_lt_dec (overflow_bound prec emax) (Rabs x)) as [Ox|Ox]; destruct (Rle_lt_dec (overflow_bound prec emax) (Rabs y)) as [Oy|Oy].
  - rewrite (F2 Ox), (G2 Oy). split; [discriminate|]. split; [discriminate|]. destruct s; [now left|]. right; left. f_equal.
    assert (0 < x)%R. { destruct (Rtotal_order x 0) as [H|[H|H]]; auto; [specialize (S1 H); discriminate|]. subst x. rewrite Rabs_R0 in Ox. lra. }
    apply T2. lra.
  - destruct (G1 Oy) as [(V & F & _) _]. rewrite (F2 Ox). split; [discriminate|]. split; [intros ->; discriminate|].
    left. f_equal. apply S1. revert Ox Oy. unfold Rabs. repeat destruct (Rcase_abs _); lra.
  - destruct (F1 Ox) as [(V & F & _) _]. rewrite (G2 Oy). split; [intros ->; discriminate|]. split; [discriminate|].
    right; left. f_equal. apply T2. revert Ox Oy. unfold Rabs. repeat destruct (Rcase_abs _); lra.
  - destruct (F1 Ox) as [Nf _], (G1 Oy) as [Ng _]. pose proof (nearest_monotone prec emax P1 P2 P3 x y f g L Nf Ng) as M.
    destruct Nf as (Vf & Ff & _), Ng as (Vg & Fg & _). split; [intros ->; discriminate|]. split; [intros ->; discriminate|]. auto.
Qed.

(** ** Reading *)
Lemma number_read s neg m e f : Number s neg m e -> parse s = Ok (JNum f) ->
  (Rabs (decimal_real neg m e) < overflow_bound 53 1024)%R /\ nearest_even 53 1024 (decimal_real neg m e) f.
Proof.
  intros H Hp. destruct (number_text_correctly_rounded s neg m e H) as [A B].
  destruct (Rle_lt_dec (overflow_bound 53 1024) (Rabs (decimal_real neg m e))) as [O|O].
  - destruct (B O). congruence.
  - split; auto. destruct (A O) as (f' & E & N & _). congruence.
Qed.
#[local] Instance p53 : Prec_gt_0 53. Proof. reflexivity. Qed.
#[local] Instance l53 : Prec_lt_emax 53 1024. Proof. reflexivity. Qed.
Theorem number_texts_keep_order s neg m e s' neg' m' e' f g : Number s neg m e -> Number s' neg' m' e' ->
  parse s = Ok (JNum f) -> parse s' = Ok (JNum g) ->
  (decimal_real neg m e <= decimal_real neg' m' e')%R -> at_most f g.
Proof.
  intros H H' Hf Hg L. destruct (number_read _ _ _ _ _ H Hf) as [_ Nf], (number_read _ _ _ _ _ H' Hg) as [_ Ng].
  pose proof (nearest_monotone 53 1024 eq_refl _ _ _ _ f g L Nf Ng) as M.
  destruct Nf as (Vf & Ff & _), Ng as (Vg & Fg & _). split; [intros ->; discriminate|]. split; [intros ->; discriminate|]. auto.
Qed.
(** So numbers of which one is read as less were written as less, and two texts of the same number are read as the same number. *)
Theorem number_texts_reflect_order s neg m e s' neg' m' e' f g : Number s neg m e -> Number s' neg' m' e' ->
  parse s = Ok (JNum f) -> parse s' = Ok (JNum g) ->
  (sf_real f < sf_real g)%R -> (decimal_real neg m e < decimal_real neg' m' e')%R.
Proof.
  intros H H' Hf Hg L. destruct (Rle_lt_dec (decimal_real neg' m' e') (decimal_real neg m e)) as [C|C]; auto. exfalso.
  destruct (number_read _ _ _ _ _ H Hf) as [_ Nf], (number_read _ _ _ _ _ H' Hg) as [_ Ng].
  pose proof (nearest_monotone 53 1024 eq_refl _ _ _ _ g f C Ng Nf). lra.
Qed.
Theorem same_number_same_value s neg m e s' neg' m' e' f g : Number s neg m e -> Number s' neg' m' e' ->
  parse s = Ok (JNum f) -> parse s' = Ok (JNum g) -> decimal_real neg m e = decimal_real neg' m' e' -> sf_real f = sf_real g.
Proof.
  intros H H' Hf Hg E. destruct (number_read _ _ _ _ _ H Hf) as [_ Nf], (number_read _ _ _ _ _ H' Hg) as [_ Ng].
  rewrite E in Nf. exact (nearest_unique 53 1024 eq_refl _ _ _ _ _ Nf Ng).
Qed.
(** What is accepted: with a number, every number of at most its magnitude. *)
Theorem smaller_numbers_accepted s neg m e s' neg' m' e' v : Number s neg m e -> Number s' neg' m' e' ->
  parse s' = Ok v -> (Rabs (decimal_real neg m e) <= Rabs (decimal_real neg' m' e'))%R -> exists f, parse s = Ok (JNum f).
Proof.
  intros H H' Hv L. destruct (number_text_correctly_rounded s neg m e H) as [A _], (number_text_correctly_rounded s' neg' m' e' H') as [_ B'].
  destruct (Rle_lt_dec (overflow_bound 53 1024) (Rabs (decimal_real neg' m' e'))) as [O|O].
  - destruct (B' O). congruence.
  - destruct A as (f & Hf & _); [lra|eauto].
Qed.

(** ** Printing: of two numbers the lesser is printed as the lesser decimal. *)
Lemma printed_number f : valid_f64 f = true -> is_finite f = true -> parse (to_string (JNum f)) = Ok (JNum f).
Proof. intros V F. apply print_parse_round_trip; auto. Qed.
Lemma Exp_fun x a b : Exp x a -> Exp x b -> a = b.
Proof.
  destruct 1; intros H'; inversion H'; subst; auto;
    repeat match goal with H : Forall digit (_ :: _) |- _ => inversion H; clear H; subst end; unfold digit in *; try lia; congruence.
Qed.
Lemma Number_fun s neg m e neg' m' e' : Number s neg m e -> Number s neg' m' e' -> neg = neg' /\ m = m' /\ e = e'.
Proof.
  intros [n i f fd x xe Hi Hf Hx] H'. remember ((if n then [45%N] else []) ++ i ++ f ++ x) as s1 eqn:E.
  destruct H' as [n' i' f' fd' x' xe' Hi' Hf' Hx'].
  assert (D : forall i, Int i -> Forall digit i /\ exists c r, i = c :: r /\ digit c).
  { intros j [|d ds Hd Hds]; (split; [|eexists _, _; split; [reflexivity|]]); unfold digit; try lia.
    - constructor; [unfold digit; lia|constructor].
    - constructor; auto. unfold digit; lia. }
  destruct (D _ Hi) as (Di & c & r & Ei & Hc), (D _ Hi') as (Di' & c' & r' & Ei' & Hc').
  assert (n = n').
  { destruct n, n'; auto; exfalso; subst i i'; cbn in E; injection E as E _; unfold digit in *; lia. }
  subst n'. apply app_inv_head in E.
  destruct (AttrProofs.parts_unique i' f' x' i f fd x xe) as (-> & -> & ->); auto.
  - destruct Hf'; eauto.
  - destruct Hx'; eauto 10.
  - now apply Frac_Lax.
  - assert (fd = fd') as -> by (inversion Hf; inversion Hf'; congruence).
    rewrite (Exp_fun _ _ _ Hx Hx'). auto.
Qed.
Lemma zero_decimal s neg m e : Number (to_string (JNum (S754_zero s))) neg m e -> decimal_real neg m e = 0%R.
Proof.
  intros H. assert (H0 : Number (to_string (JNum (S754_zero s))) s 0 0).
  { destruct s; [apply (number true [48%N] [] [] [] 0)|apply (number false [48%N] [] [] [] 0)]; constructor. }
  destruct (Number_fun _ _ _ _ _ _ _ H H0) as (-> & -> & ->). unfold decimal_real. cbn. ring.
Qed.
Lemma real_sign f : (sf_real f < 0 -> sign_of f = true)%R /\ (0 < sf_real f -> sign_of f = false)%R.
Proof.
  destruct f as [s|s| |s m e]; cbn [sf_real]; try (split; intros; lra).
  assert (0 < IZR (Zpos m) * powerRZ 2 e)%R by (apply Rmult_lt_0_compat; [now apply IZR_lt|apply powerRZ_lt; lra]).
  rewrite Rmult_assoc. destruct s; cbn; split; intros; auto; lra.
Qed.
Lemma zero_real f : is_finite f = true -> sf_real f = 0%R -> exists s, f = S754_zero s.
Proof.
  destruct f as [s|s| |s m e]; try discriminate; eauto. intros _ E. exfalso. cbn [sf_real] in E.
  assert (0 < IZR (Zpos m) * powerRZ 2 e)%R by (apply Rmult_lt_0_compat; [now apply IZR_lt|apply powerRZ_lt; lra]).
  rewrite Rmult_assoc in E. destruct s; lra.
Qed.
Theorem printed_numbers_keep_order f g neg m e neg' m' e' : valid_f64 f = true -> is_finite f = true -> valid_f64 g = true -> is_finite g = true ->
  Number (to_string (JNum f)) neg m e -> Number (to_string (JNum g)) neg' m' e' ->
  ((sf_real f < sf_real g)%R <-> (decimal_real neg m e < decimal_real neg' m' e')%R).
Proof.
  intros Vf Ff Vg Fg H H'. pose proof (printed_number f Vf Ff) as Pf. pose proof (printed_number g Vg Fg) as Pg. split.
  - intros L. exact (number_texts_reflect_order _ _ _ _ _ _ _ _ _ _ H H' Pf Pg L).
  - intros L. assert (A : at_most f g) by (apply (number_texts_keep_order _ _ _ _ _ _ _ _ _ _ H H' Pf Pg); lra).
    destruct A as (_ & _ & [->|[->|(_ & _ & A)]]); try discriminate. destruct (Req_dec (sf_real f) (sf_real g)) as [E|E]; [|lra]. exfalso.
    destruct (Req_dec (sf_real f) 0) as [Z|Z].
    + destruct (zero_real f Ff Z) as [s ->]. rewrite Z in E. destruct (zero_real g Fg (eq_sym E)) as [s' ->].
      rewrite (zero_decimal _ _ _ _ H), (zero_decimal _ _ _ _ H') in L. lra.
    + assert (f = g) as <-.
      { apply (sf_unique 53 1024); auto. destruct (real_sign f), (real_sign g).
        destruct (Rlt_or_le (sf_real f) 0) as [C|C]; [rewrite H0, H2 by lra; reflexivity|rewrite H1, H3 by lra; reflexivity]. }
      destruct (Number_fun _ _ _ _ _ _ _ H H') as (-> & -> & ->). lra.
Qed.

(** ** Integers *)
Theorem number_to_integer_keeps_order t f g n k : at_most f g -> from_json (c_int t) (JNum f) = Ok n -> from_json (c_int t) (JNum g) = Ok k -> n <= k.
Proof.
  intros (Nf & Ng & H) Hn Hk.
  destruct (number_to_integer t f) as (n' & En & Rn & _ & In & Jn & Tn), (number_to_integer t g) as (k' & Ek & Rk & _ & Ik & Jk & Tk).
  assert (n' = n) as -> by congruence. assert (k' = k) as -> by congruence. unfold in_range in *.
  destruct H as [H|[H|(Ff & Fg & L)]].
  - rewrite (In H). lia.
  - rewrite (Jk H). lia.
  - destruct (Tn Ff) as (a & Ta & Ca), (Tk Fg) as (b & Tb & Cb).
    assert (a <= b).
    { destruct Ta as [A1 A2], Tb as [B1 B2]. apply Z.nlt_ge. intros C. assert (HC : (IZR b + 1 <= IZR a)%R) by (rewrite <- plus_IZR; apply IZR_le; lia).
      destruct (Rle_lt_dec 0 (sf_real f)) as [P|P].
      - specialize (A1 P). assert (Q : (0 <= sf_real g)%R) by lra. specialize (B1 Q). lra.
      - assert (P' : (sf_real f <= 0)%R) by lra. specialize (A2 P'). destruct (Rle_lt_dec 0 (sf_real g)) as [Q|Q].
        + specialize (B1 Q). assert (X : (IZR a < 1)%R) by lra. assert (Y : (-1 < IZR b)%R) by lra.
          apply (lt_IZR a 1) in X. apply (lt_IZR (-1) b) in Y. lia.
        + assert (Q' : (sf_real g <= 0)%R) by lra. specialize (B2 Q'). lra. }
    unfold clamped in *. pose proof (range_nonempty t). lia.
Qed.
Theorem integer_to_number_keeps_order t n k : in_range t n -> in_range t k -> n <= k ->
  exists f g, to_json (c_int t) n = JNum f /\ to_json (c_int t) k = JNum g /\ at_most f g.
Proof.
  intros Rn Rk L. destruct (integer_to_nearest_double t n Rn) as (f & Ef & Nf & _), (integer_to_nearest_double t k Rk) as (g & Eg & Ng & _).
  exists f, g. split; auto. split; auto. pose proof (nearest_monotone 53 1024 eq_refl _ _ _ _ f g (IZR_le _ _ L) Nf Ng) as M.
  destruct Nf as (Vf & Ff & _), Ng as (Vg & Fg & _). split; [intros ->; discriminate|]. split; [intros ->; discriminate|]. auto.
Qed.
(** Through the JSON form from one integer type into another: never out of order. *)
Theorem integer_to_integer_keeps_order t u n k n' k' : in_range t n -> in_range t k -> n <= k ->
  from_json (c_int u) (to_json (c_int t) n) = Ok n' -> from_json (c_int u) (to_json (c_int t) k) = Ok k' -> n' <= k'.
Proof.
  intros Rn Rk L. destruct (integer_to_number_keeps_order t n k Rn Rk L) as (f & g & -> & -> & H). now apply number_to_integer_keeps_order.
Qed.

(** ** [f32] *)
#[local] Instance p24 : Prec_gt_0 24. Proof. reflexivity. Qed.
#[local] Instance l24 : Prec_lt_emax 24 128. Proof. reflexivity. Qed.
Theorem number_to_f32_keeps_order f g f' g' : valid_f64 f = true -> valid_f64 g = true -> at_most f g ->
  from_json c_f32 (JNum f) = Ok f' -> from_json c_f32 (JNum g) = Ok g' -> at_most f' g'.
Proof.
  intros Vf Vg H Hf Hg. destruct H as (Nf & Ng & H).
  assert (A : forall h h', h <> S754_nan -> from_json c_f32 (JNum h) = Ok h' -> h' <> S754_nan).
  { intros h h' Hh E. cbn in E. injection E as <-. destruct h as [s|s| |s m e]; cbn; try discriminate; try congruence.
    destruct (binary_round_rounds 24 128 eq_refl _ _ s m e) as [_ [R1 R2]].
    destruct (Rle_lt_dec (overflow_bound 24 128) (Rabs ((if s then -1 else 1) * IZR (Zpos m) * powerRZ 2 e))) as [O|O].
    - rewrite (R2 O). discriminate.
    - destruct (R1 O) as [(V & F & _) _]. intros E. rewrite E in F. discriminate. }
  destruct H as [->|[->|(Ff & Fg & L)]].
  - split; [eauto|]. split; [eauto|]. left. cbn in Hf. now injection Hf as <-.
  - split; [eauto|]. split; [eauto|]. right; left. cbn in Hg. now injection Hg as <-.
  - destruct (number_to_nearest_f32 f Vf Ff) as (f1 & E1 & _ & R1), (number_to_nearest_f32 g Vg Fg) as (g1 & E2 & _ & R2).
    assert (f1 = f') as -> by congruence. assert (g1 = g') as -> by congruence.
    destruct (real_sign f), (real_sign g). eapply (rounds_monotone 24 128 eq_refl _ _ (sign_of f) (sign_of g) (sf_real f) (sf_real g)); eauto.
    rewrite (mid_bound 24 128). pose proof (mid_range 24 128 eq_refl _) as M. pose proof (bpow_gt_0 radix2 (128 - 1)). lra.
Qed.
Theorem f32_to_number_keeps_order f g : valid_f32 f = true -> valid_f32 g = true ->
  forall f' g', to_json c_f32 f = JNum f' -> to_json c_f32 g = JNum g' -> (at_most f g <-> at_most f' g').
Proof.
  intros Vf Vg f' g' Ef Eg. cbn in Ef, Eg. injection Ef as <-. injection Eg as <-.
  destruct (f64_of_f32_exact f Vf) as (_ & A & B & _), (f64_of_f32_exact g Vg) as (_ & C & D & _).
  unfold at_most. rewrite A, B, C, D.
  assert (K : forall h x, valid_f32 h = true -> is_finite x = false -> (h = x <-> f64_of_f32 h = x)).
  { intros h x Vh Hx. destruct (f64_of_f32_exact h Vh) as (_ & Fh & _). destruct h as [s|s| |s m e]; cbn in *; try tauto.
    split; intros E; exfalso; [subst x; discriminate|]. rewrite E in Fh. congruence. }
  rewrite (K f S754_nan Vf eq_refl), (K g S754_nan Vg eq_refl), (K f (S754_infinity true) Vf eq_refl), (K g (S754_infinity false) Vg eq_refl).
  tauto.
Qed.

(** ** Concrete cases: neighbours that meet, and numbers that stay apart. *)
Example order_collapses : let a := lit "9007199254740992" in let b := lit "9007199254740993" in
  parse a = parse b /\ parse a <> parse (lit "9007199254740994").
Proof. vm_compute. split; [reflexivity|discriminate]. Qed.
Example order_in_integers : from_json (c_int U8) (JNum (dec_to_f64 false 2569 (-1))) = Ok 255 /\
  from_json (c_int U8) (JNum (dec_to_f64 false 257 0)) = Ok 255 /\ at_most (dec_to_f64 false 2569 (-1)) (dec_to_f64 false 257 0) /\
  at_most (S754_infinity true) (dec_to_f64 true 1 300) /\ ~ at_most S754_nan S754_nan.
Proof.
  split; [vm_compute; reflexivity|]. split; [vm_compute; reflexivity|].
  split; [apply at_most_is_le; vm_compute; reflexivity|]. split; [apply at_most_is_le; vm_compute; reflexivity|].
  intros (H & _). now apply H.
Qed.
Example order_through_types : in_range I64 9007199254740993 /\
  from_json (c_int U8) (to_json (c_int I64) 9007199254740993) = Ok 255 /\ from_json (c_int U8) (to_json (c_int I64) (-5)) = Ok 0.
Proof. vm_compute. repeat split; discriminate. Qed.

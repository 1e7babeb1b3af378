(** Properties of the conversions (C14, C15, C29, C32 - C35); integers and floats (C30, C31) are in [ConvertNumProofs]. *)
From Verif Require Import Base F64 Json Parse Print Convert SpecGrammar SpecLenient SpecNumber SpecValue SpecConvert MapProofs NumberProofs FloatProofs DecProofs CanonProofs PrintProofs
  PropsPrint ConvertNumProofs ConvertProofs.
From Coq Require Import Permutation Floats.SpecFloat ZifyBool ZifyNat ZifyN Lia.
Open Scope N_scope.
Notation is_finite := F64.is_finite.

(** * Keys *)
Lemma sf_eqb_refl f : sf_eqb f f = true.
Proof. destruct f as [[]|[]| |[] m e]; cbn; auto; now rewrite Pos.eqb_refl, Z.eqb_refl. Qed.
Lemma key_eqb_decides k : decides (key_eqb k).
Proof.
  destruct k; intros a b; cbn in *.
  - apply str_eqb_eq.
  - apply Bool.eqb_true_iff.
  - apply N.eqb_eq.
  - apply Z.eqb_eq.
  - split; [apply sf_eqb_eq|intros ->; apply sf_eqb_refl].
Qed.
Lemma digit_is_digit ds : Forall digit ds -> forallb is_digit ds = true.
Proof. intros H. apply forallb_forall. rewrite Forall_forall in H. intros c Hc. specialize (H c Hc). unfold digit, is_digit in *. lia. Qed.
Lemma show_N_nonempty n : exists c r, show_N n = c :: r /\ digit c.
Proof.
  destruct (show_N_ok n) as (_ & F & G). destruct (N.eq_dec n 0) as [->|H]; [exists 48, []; split; [reflexivity|unfold digit; lia]|].
  destruct G as (c & r & E & _); [lia|]. exists c, r. split; auto. rewrite E in F. now inversion F.
Qed.
Lemma int_reads_back t n : in_range t n -> reads_back (k_int t) n.
Proof.
  intros R. unfold reads_back, k_int, read, show, read_int, show_Z.
  destruct (Z.ltb_spec n 0) as [L|L].
  - destruct (show_N_ok (Z.to_N (- n))) as (D & F & _). destruct (show_N_nonempty (Z.to_N (- n))) as (c & r & E & _).
    replace (MINUS =? PLUS) with false by reflexivity. replace (MINUS =? MINUS) with true by reflexivity.
    assert (S : int_signed t = true). { unfold in_range in R. destruct t; cbn in *; auto; lia. }
    rewrite S. cbn [andb]. rewrite E. rewrite <- E. rewrite (digit_is_digit _ F), digits_val_decimal, D. unfold in_range in R.
    replace (- Z.of_N (Z.to_N (- n)))%Z with n by lia. rewrite min_least, max_greatest. now replace ((least t <=? n)%Z && (n <=? greatest t)%Z) with true by lia.
  - destruct (show_N_ok (Z.to_N n)) as (D & F & _). destruct (show_N_nonempty (Z.to_N n)) as (c & r & E & Hc).
    rewrite E. unfold digit in Hc. replace (c =? PLUS) with false by lia. replace (c =? MINUS) with false by lia. cbn [andb]. rewrite <- E.
    rewrite (digit_is_digit _ F), digits_val_decimal, D. unfold in_range in R.
    replace (Z.of_N (Z.to_N n)) with n by lia. rewrite min_least, max_greatest. now replace ((least t <=? n)%Z && (n <=? greatest t)%Z) with true by lia.
Qed.
Lemma f64_reads_back f : valid_f64 f = true -> reads_back k_f64 f.
Proof.
  intros V. unfold reads_back. cbn. destruct (is_finite f) eqn:F.
  - destruct (f64_to_string_number f V F) as (s & m & e & H & E). apply lax_rfc in H. apply lax_number_ok in H as [_ H]. now rewrite H, E.
  - destruct f as [|[]| |]; try discriminate; reflexivity.
Qed.
Lemma key_reads_back k x : legal_key k x -> reads_back (key_codec_of k) x.
Proof.
  destruct k; cbn; intros H.
  - reflexivity.
  - destruct x; reflexivity.
  - reflexivity.
  - now apply int_reads_back.
  - now apply f64_reads_back.
Qed.

(** * C29 *)
Theorem json_round_trip j : round_trips c_json same j.
Proof. intros k H. exists k. auto. Qed.
Theorem string_round_trip s : round_trips c_string eq s.
Proof. intros k H. cbn in H. inversion H; subst. exists s. auto. Qed.
Theorem bool_round_trip b : round_trips c_bool eq b.
Proof. intros k H. cbn in H. inversion H; subst. exists b. auto. Qed.
Theorem f64_round_trip f : round_trips c_f64 eq f.
Proof. intros k H. cbn in H. inversion H; subst. exists f. auto. Qed.

(** * C32 *)
Theorem vec_round_trips {T} (c : codec T) eqv l : Forall (round_trips c eqv) l -> round_trips (c_vec c) (Forall2 eqv) l.
Proof. apply vec_round_trip. Qed.
Theorem option_round_trips {T} (c : codec T) eqv (x : option T) :
  match x with Some y => round_trips c eqv y /\ to_json c y <> JNull | None => True end -> round_trips (c_option c) (option_eqv eqv) x.
Proof.
  destruct x as [y|]; intros H.
  - destruct H. now apply option_round_trip.
  - intros j Hj. cbn in Hj. inversion Hj; subst. exists None. cbn. auto.
Qed.
(** [Some] of a value whose JSON is null comes back as [None]. *)
Theorem some_null_is_lost {T} (c : codec T) y : to_json c y = JNull -> from_json (c_option c) (to_json (c_option c) (Some y)) = Ok None.
Proof. intros E. cbn. now rewrite E. Qed.
Example option_option_lost : let c := c_option (c_option c_bool) in from_json c (to_json c (Some None)) = Ok None.
Proof. reflexivity. Qed.

(** * C33 *)
Theorem map_round_trips {K V} (eqb : K -> K -> bool) kc (c : codec V) eqv m : decides eqb -> is_map m ->
  Forall (fun kv => reads_back kc (fst kv) /\ round_trips c eqv (snd kv)) m -> round_trips (c_map eqb kc c) (map_eqv eqb eqv) m.
Proof. apply map_round_trip. Qed.
Theorem pairs_round_trips {K V} (eqb : K -> K -> bool) kc (c : codec V) eqv l : decides eqb ->
  Forall (fun kv => reads_back kc (fst kv) /\ round_trips c eqv (snd kv)) l -> round_trips (c_pairs kc c) (pairs_eqv eqb eqv) l.
Proof. apply pairs_round_trip. Qed.
Theorem keys_read_back k x : legal_key k x -> reads_back (key_codec_of k) x.
Proof. apply key_reads_back. Qed.

(** * C35: all types *)
Theorem values_round_trip t : forall x, legal_value t x -> survives t x -> round_trips (codec_of t) (equal t) x.
Proof.
  induction t as [| | |w| | |a IH|a IH|k a IH|k a IH]; intros x L S; cbn [codec_of equal legal_value survives] in *.
  - apply json_round_trip.
  - apply string_round_trip.
  - apply bool_round_trip.
  - now apply integer_round_trip_iff.
  - apply f64_round_trip.
  - now apply f32_round_trip.
  - apply vec_round_trip. rewrite Forall_forall in *. auto.
  - apply option_round_trips. destruct x as [y|]; auto. destruct S. auto.
  - apply pairs_round_trip; [apply key_eqb_decides|]. rewrite Forall_forall in *. intros kv H. destruct (L kv H). split; auto using key_reads_back.
  - destruct L as [M L]. apply map_round_trip; auto; [apply key_eqb_decides|]. rewrite Forall_forall in *. intros kv H. destruct (L kv H). split; auto using key_reads_back.
Qed.
(** ** The JSON of a legal value is legal *)
Lemma printable_scalar s : Forall printable s -> scalar_str s = true.
Proof. intros H. apply forallb_forall. rewrite Forall_forall in H. intros c Hc. specialize (H c Hc). unfold printable, is_scalar in *. lia. Qed.
Lemma show_N_scalar n : scalar_str (show_N n) = true.
Proof. destruct (show_N_ok n) as (_ & F & _). apply printable_scalar. revert F. apply Forall_impl. unfold digit, printable. lia. Qed.
Lemma key_scalar k x : legal_key k x -> scalar_str (show (key_codec_of k) x) = true.
Proof.
  destruct k; cbn; intros H; auto.
  - now destruct x.
  - now rewrite H.
  - unfold show_Z. destruct (x <? 0)%Z; cbn; apply show_N_scalar.
  - apply printable_scalar. now apply f64_printable.
Qed.
Definition legal_entry (e : entry) : Prop := scalar_str (fst e) = true /\ legal (fst (snd e)) /\ Forall legal (snd (snd e)).
Lemma legal_obj_sorted o : keys_sorted o = true -> Forall legal_entry o -> legal (JObj o).
Proof. intros S F. constructor; auto. now apply keys_sorted_NoDup. Qed.
Lemma insert_legal k v o : legal_entry (k, v) -> keys_sorted o = true /\ Forall legal_entry o -> keys_sorted (hm_insert k v o) = true /\ Forall legal_entry (hm_insert k v o).
Proof.
  intros H [S F]. split; [now apply hm_insert_sorted|]. rewrite Forall_forall in *. intros e He. apply hm_insert_In in He as [->|He]; auto.
Qed.
Lemma object_insert_legal k v o : scalar_str k = true -> legal v -> keys_sorted o = true /\ Forall legal_entry o ->
  keys_sorted (object_insert o k v) = true /\ Forall legal_entry (object_insert o k v).
Proof.
  intros Hk Hv H. unfold object_insert. destruct (hm_get k o) as [[w l]|] eqn:E; apply insert_legal; auto.
  - destruct H as [S F]. apply hm_get_In in E. rewrite Forall_forall in F. destruct (F _ E) as (_ & A & B). cbn in *. repeat split; cbn; auto.
  - repeat split; cbn; auto.
Qed.
Lemma fold_legal {A} (f : hmap -> A -> hmap) (P : A -> Prop) :
  (forall o a, P a -> keys_sorted o = true /\ Forall legal_entry o -> keys_sorted (f o a) = true /\ Forall legal_entry (f o a)) ->
  forall l, Forall P l -> forall o, keys_sorted o = true /\ Forall legal_entry o -> keys_sorted (fold_left f l o) = true /\ Forall legal_entry (fold_left f l o).
Proof. intros H l. induction 1 as [|a l Ha Hl IH]; intros o Ho; auto. cbn. auto. Qed.
Theorem to_json_legal t : forall x, legal_value t x -> legal (to_json (codec_of t) x).
Proof.
  induction t as [| | |w| | |a IH|a IH|k a IH|k a IH]; intros x L; cbn [codec_of legal_value to_json c_json c_string c_bool c_int c_f64 c_f32 c_vec c_option c_pairs c_map] in *; auto.
  - now constructor.
  - constructor.
  - constructor. exact (proj1 (of_Z_rounds x)).
  - now constructor.
  - constructor. now apply f64_of_f32_exact.
  - constructor. rewrite Forall_forall in *. intros y Hy. apply in_map_iff in Hy as (z & <- & Hz). auto.
  - destruct x; auto. constructor.
  - assert (H := fold_legal (fun o kv => object_insert o (show (key_codec_of k) (fst kv)) (to_json (codec_of a) (snd kv))) (fun kv => legal_key k (fst kv) /\ legal_value a (snd kv))).
    destruct (H (fun o kv Hkv Ho => object_insert_legal _ _ _ (key_scalar _ _ (proj1 Hkv)) (IH _ (proj2 Hkv)) Ho) x L []); [split; auto; constructor|].
    now apply legal_obj_sorted.
  - destruct L as [_ L].
    assert (H := fold_legal (fun o kv => hm_insert (show (key_codec_of k) (fst kv)) (to_json (codec_of a) (snd kv), []) o) (fun kv => legal_key k (fst kv) /\ legal_value a (snd kv))).
    assert (Q : forall (o : hmap) kv, legal_key k (fst kv) /\ legal_value a (snd kv) -> keys_sorted o = true /\ Forall legal_entry o ->
      keys_sorted (hm_insert (show (key_codec_of k) (fst kv)) (to_json (codec_of a) (snd kv), []) o) = true /\
      Forall legal_entry (hm_insert (show (key_codec_of k) (fst kv)) (to_json (codec_of a) (snd kv), []) o)).
    { intros o kv [Hk Hv] Ho. apply insert_legal; auto. split; [now apply key_scalar|]. split; cbn; auto. }
    destruct (H Q x L []); [split; auto; constructor|]. now apply legal_obj_sorted.
Qed.

(** * C14, C15, C35 *)
Lemma encode_reorders order {T} (c : codec T) x : reorders order -> legal (to_json c x) -> encode order c x = to_string (to_json c x).
Proof.
  intros R L. unfold encode. symmetry. apply printing_ignores_iteration_order; [now apply legal_iff in L|apply R].
Qed.
Lemma decode_encode_any order order' {T} (c : codec T) eqv x : reorders order -> reorders order' ->
  legal (to_json c x) -> finite (to_json c x) = true -> round_trips c eqv x ->
  if balanced (to_json c x) then exists y, decode order' c (encode order c x) = Ok y /\ eqv x y
  else exists e, decode order' c (encode order c x) = Err e.
Proof.
  intros R R' L F H. rewrite encode_reorders by auto. pose proof (print_parse_legal _ L F) as P. unfold decode, convert.
  destruct (balanced (to_json c x)).
  - rewrite P. cbn [bind]. apply H. eapply same_trans; [apply canon_same|apply R'].
  - destruct P as [e ->]. cbn. eauto.
Qed.
Theorem string_text_round_trip order order' s : reorders order -> reorders order' -> scalar_str s = true ->
  decode order' c_string (encode order c_string s) = Ok s.
Proof.
  intros R R' H. pose proof (decode_encode_any order order' c_string eq s R R' (legal_str s H) eq_refl (string_round_trip s)) as P.
  cbn [balanced to_json c_string] in P. destruct P as (y & E & <-). exact E.
Qed.
Theorem number_text_round_trip order order' f : reorders order -> reorders order' -> valid_f64 f = true -> is_finite f = true ->
  decode order' c_f64 (encode order c_f64 f) = Ok f.
Proof.
  intros R R' H F. pose proof (decode_encode_any order order' c_f64 eq f R R' (legal_num f H) F (f64_round_trip f)) as P.
  cbn [balanced balanced_in to_json c_f64] in P. destruct P as (y & E & <-). exact E.
Qed.
(** NaN and the infinities do not survive. *)
Theorem nonfinite_numbers_do_not_decode order order' f : reorders order -> reorders order' -> is_finite f = false ->
  exists e, decode order' c_f64 (encode order c_f64 f) = Err e.
Proof.
  intros R R' F. unfold encode, decode. pose proof (R (JNum f)) as S. cbn [to_json c_f64].
  assert (E : order (JNum f) = JNum f) by (inversion S; auto). rewrite E.
  assert (P : exists e, parse (to_string (JNum f)) = Err e) by (destruct f as [|[]| |]; try discriminate; vm_compute; eauto).
  destruct P as [e ->]. cbn. eauto.
Qed.
Theorem decode_encode order order' t x : reorders order -> reorders order' -> legal_value t x -> survives t x ->
  finite (to_json (codec_of t) x) = true -> balanced (to_json (codec_of t) x) = true ->
  exists y, decode order' (codec_of t) (encode order (codec_of t) x) = Ok y /\ equal t x y.
Proof.
  intros R R' L S F B. pose proof (decode_encode_any order order' (codec_of t) (equal t) x R R' (to_json_legal t x L) F (values_round_trip t x L S)) as P.
  now rewrite B in P.
Qed.
(** If the encoding is not bracket balanced, decoding fails; it never gives another value. *)
Theorem unbalanced_encoding_fails order order' t x : reorders order -> reorders order' -> legal_value t x ->
  finite (to_json (codec_of t) x) = true -> balanced (to_json (codec_of t) x) = false ->
  exists e, decode order' (codec_of t) (encode order (codec_of t) x) = Err e.
Proof.
  intros R R' L F B. rewrite encode_reorders by auto using to_json_legal. pose proof (print_parse_legal _ (to_json_legal t x L) F) as P.
  rewrite B in P. destruct P as [e P]. unfold decode. rewrite P. cbn. eauto.
Qed.
(** Encoding does not depend on the order in which maps iterate: equal values have equal encodings. *)
Example reorders_id : reorders (fun j => j). Proof. intros j. apply same_refl. Qed.
Example reorders_canon : reorders canon. Proof. intros j. apply canon_same. Qed.
Definition sample_ty : ty := TMap (KInt I32) (TVec (TOption (TPairs KString TF64))).
Definition sample_value : denote sample_ty :=
  [((-7)%Z, [None; Some [(lit "b", dec_to_f64 false 1 (-1)); (lit "a", S754_zero true); (lit "b", dec_to_f64 true 25 2)]]); (3%Z, [])].
Example sample_value_ok : legal_value sample_ty sample_value /\ survives sample_ty sample_value /\
  finite (to_json (codec_of sample_ty) sample_value) = true /\ balanced (to_json (codec_of sample_ty) sample_value) = true.
Proof.
  split; [|split].
  - cbn. unfold in_range. repeat split; repeat constructor; cbn; try (vm_compute; discriminate); try reflexivity; try (intros [|[]]; discriminate); auto.
  - cbn. repeat constructor; discriminate.
  - vm_compute. auto.
Qed.

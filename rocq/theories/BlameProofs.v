(** The parser rejects with exactly the errors of [SpecBlame]. *)
From Verif Require Import Base F64 Utf8 Json Parse Print SpecGrammar SpecLenient MapProofs Utf8Proofs StringProofs NumberProofs ScanProofs GrammarProofs LenientProofs SpecBlame.
From Coq Require Import ZifyBool ZifyNat ZifyN.
Open Scope N_scope.

(** ** Trailing characters *)
Lemma trailing_err k s e : trailing k s = Err e <-> exists w c r, s = w ++ c :: r /\ ws w /\ ~ ws_char c /\ e = error_char k "invalid trailing character: " c.
Proof.
  split.
  - induction s as [|c s IH]; cbn [trailing]; [discriminate|]. destruct (is_whitespace c) eqn:Ec.
    + intros H. destruct (IH H) as (w & c' & r & -> & Hw & Hc & ->). exists (c :: w), c', r. repeat split; auto. constructor; auto. now apply is_whitespace_ws.
    + intros [= <-]. exists [], c, s. repeat split; auto; [constructor|]. rewrite <- is_whitespace_ws. congruence.
  - intros (w & c & r & -> & Hw & Hc & ->). induction Hw as [|x w Hx Hw IH]; cbn [app trailing].
    + rewrite <- is_whitespace_ws in Hc. destruct (is_whitespace c); [congruence|reflexivity].
    + apply is_whitespace_ws in Hx. now rewrite Hx.
Qed.

(** ** Hex digits *)
Lemma hexdig_dec c : (exists d, hexdig c d) \/ (forall d, ~ hexdig c d).
Proof.
  destruct (parse_hex_digit c) as [d|e| |] eqn:E.
  - left. exists d. now apply parse_hex_digit_ok.
  - right. intros d H. apply parse_hex_digit_ok in H. congruence.
  - right. intros d H. apply parse_hex_digit_ok in H. congruence.
  - right. intros d H. apply parse_hex_digit_ok in H. congruence.
Qed.
Lemma parse_hex_digit_err c : (forall d, ~ hexdig c d) -> parse_hex_digit c = Err (error_char ParseStringError "parse unicode error: invalid hex digit " c).
Proof.
  intros H. unfold parse_hex_digit.
  destruct ((48 <=? c) && (c <=? 57)) eqn:E1. { exfalso. apply (H (c - 48)). unfold hexdig. lia. }
  destruct ((65 <=? c) && (c <=? 70)) eqn:E2. { exfalso. apply (H (c - 55)). unfold hexdig. lia. }
  destruct ((97 <=? c) && (c <=? 102)) eqn:E3. { exfalso. apply (H (c - 87)). unfold hexdig. lia. }
  reflexivity.
Qed.
Lemma hex4_nohex {A} s e (k : N -> str -> res A) : NoHex s e -> hex4 s k = Err e.
Proof.
  assert (A1 : forall c u r (k' : N -> str -> res A), (exists d, hexdig c d) -> exists u', hex_step u (c :: r) k' = k' u' r)
    by (intros c u r k' [d H]; rewrite (hex_step_ok _ _ _ _ _ H); eauto).
  assert (A2 : forall c u r (k' : N -> str -> res A), (forall d, ~ hexdig c d) -> hex_step u (c :: r) k' = Err (error_char ParseStringError "parse unicode error: invalid hex digit " c))
    by (intros c u r k' H; unfold hex_step; now rewrite parse_hex_digit_err).
  unfold hex4. destruct 1 as [h Hl Hh|h c r Hl Hh Hc]; cbn [app];
    repeat (destruct Hh as [|? ? ? Hh]; [cbn [app]; first [reflexivity|apply A2; assumption]|];
      cbn [app List.length] in *; match goal with |- hex_step ?u (?x :: ?y) ?k' = _ => destruct (A1 x u y k') as [? ->]; [assumption|] end); lia.
Qed.
Lemma hex_split s : NoHex s (error_at ParseStringError "parse unicode error: missing hex digit.") \/
  (exists c, NoHex s (error_char ParseStringError "parse unicode error: invalid hex digit " c)) \/ exists h u r, s = h ++ r /\ four_hex h u.
Proof.
  destruct s as [|a s]. { left. apply nohex_end; [cbn; lia|auto]. }
  destruct (hexdig_dec a) as [Ha|Ha]; [|right; left; exists a; apply (nohex_char []); [cbn; lia|auto|auto]].
  destruct s as [|b s]. { left. apply nohex_end; [cbn; lia|auto]. }
  destruct (hexdig_dec b) as [Hb|Hb]; [|right; left; exists b; apply (nohex_char [a]); [cbn; lia|auto|auto]].
  destruct s as [|c s]. { left. apply nohex_end; [cbn; lia|auto]. }
  destruct (hexdig_dec c) as [Hc|Hc]; [|right; left; exists c; apply (nohex_char [a; b]); [cbn; lia|auto|auto]].
  destruct s as [|d s]. { left. apply nohex_end; [cbn; lia|auto]. }
  destruct (hexdig_dec d) as [Hd|Hd]; [|right; left; exists d; apply (nohex_char [a; b; c]); [cbn; lia|auto|auto]].
  right; right. destruct Ha as [x Ha], Hb as [y Hb], Hc as [z Hc], Hd as [w Hd].
  eexists [a; b; c; d], _, s. split; [reflexivity|]. exists a, b, c, d, x, y, z, w. repeat split; auto.
Qed.

(** ** Strings *)
Lemma simple_escape_dec x : (exists c, simple_escape x c) \/ (forall c, ~ simple_escape x c).
Proof.
  unfold simple_escape. destruct (in_dec N.eq_dec x [34; 92; 47; 98; 102; 110; 114; 116]) as [H|H].
  - left. cbn in H. repeat (destruct H as [<-|H]; [eexists; cbn; eauto 12|]). destruct H.
  - right. intros c Hc. apply H. cbn in *. repeat (destruct Hc as [Hc|Hc]; [inversion Hc; subst; auto 12|]). destruct Hc.
Qed.
Lemma string_fault_err s e : StringFault s e -> forall acc, string_loop acc s = Err e.
Proof.
  destruct 1 as [|c r Hc|w c r Hw Hc| |x r Hx Hs|r e H|h u r Hh Hu|h u r Hh Hu Hr|h u r e Hh Hu H|h u l v r Hh Hu Hl Hv]; intros acc.
  - reflexivity.
  - cbn [string_loop]. do 2 (rewrite if_false by lia). now rewrite if_true by lia.
  - cbn [string_loop N.eqb Pos.eqb]. rewrite (proj2 (trailing_err ParseStringError (w ++ c :: r) (error_char ParseStringError "invalid trailing character: " c))); eauto 10.
  - reflexivity.
  - cbn [string_loop N.eqb Pos.eqb]. unfold simple_escape in Hs.
    do 8 (rewrite if_false by (apply N.eqb_neq; intros ->; eapply Hs; cbn; eauto 12)). now rewrite if_false by lia.
  - rewrite string_loop_u. now apply hex4_nohex.
  - rewrite string_loop_u, (hex4_ok _ u) by auto. rewrite if_false by lia. unfold push_code. now rewrite decode_encode_surrogate by lia.
  - rewrite string_loop_u, (hex4_ok _ u) by auto. rewrite if_true by lia. destruct r as [|b [|x r]]; auto.
    rewrite if_false; auto. destruct (N.eqb_spec b 92) as [->|]; auto. destruct (N.eqb_spec x 117) as [->|]; auto. exfalso. eapply Hr; eauto.
  - rewrite string_loop_u, (hex4_ok _ u) by auto. rewrite if_true by lia. cbn [N.eqb Pos.eqb andb]. now apply hex4_nohex.
  - rewrite string_loop_u, (hex4_ok _ u) by auto. rewrite if_true by lia. cbn [N.eqb Pos.eqb andb]. rewrite (hex4_ok _ v) by auto.
    now rewrite if_true by lia.
Qed.
Lemma bad_string_err s e : BadString s e -> forall acc, string_loop acc s = Err e.
Proof. intros (pre & c & rest & -> & HC & HF) acc. rewrite (string_loop_chars _ _ HC). now apply string_fault_err. Qed.

(** Every text is either faulty somewhere or reaches a closing quote followed by white space. *)
Lemma string_split s : scalar_str s = true ->
  (exists e, BadString s e) \/ exists raw c w, s = raw ++ 34 :: w /\ Chars raw c /\ ws w.
Proof.
  remember (List.length s) as n eqn:Hn. revert s Hn. induction n as [n IH0] using lt_wf_ind. intros s -> Hs.
  assert (Go : forall pre c s', s = pre ++ s' -> pre <> [] -> (forall raw t, Chars raw t -> Chars (pre ++ raw) (c ++ t)) ->
     (exists e, BadString s e) \/ exists raw c w, s = raw ++ 34 :: w /\ Chars raw c /\ ws w).
  { intros pre c s' -> Hp HC. unfold scalar_str in Hs. rewrite forallb_app in Hs. apply andb_true_iff in Hs as [_ Hs].
    destruct (IH0 (List.length s')) with (s := s') as [(e & p & t & rest & -> & H1 & H2)|(raw & t & w & -> & H1 & H2)]; auto.
    - rewrite app_length. destruct pre; cbn; [congruence|lia].
    - left. exists e, (pre ++ p), (c ++ t), rest. rewrite <- app_assoc. auto.
    - right. exists (pre ++ raw), (c ++ t), w. rewrite <- app_assoc. auto. }
  assert (F : forall e, StringFault s e -> exists e, BadString s e) by (intros e He; exists e, [], [], s; split; auto; split; [constructor|auto]).
  destruct s as [|c r]. { left. eapply F. constructor. }
  unfold scalar_str in Hs. cbn [forallb] in Hs. apply andb_true_iff in Hs as [Hc Hs].
  destruct (N.eqb_spec c 34) as [->|Hq].
  { destruct (trailing ParseStringError r) as [u|e| |] eqn:E.
    - right. exists [], [], r. split; auto. split; [constructor|]. eapply trailing_inv; eauto.
    - apply trailing_err in E as (w & x & r' & -> & Hw & Hx & ->). left. eapply F. now apply sf_after.
    - exfalso. pose proof (trailing_total ParseStringError r). rewrite E in H. exact H.
    - exfalso. pose proof (trailing_total ParseStringError r). rewrite E in H. exact H. }
  destruct (N.leb_spec c 0x1F) as [Hl|Hl]. { left. eapply F. now apply sf_control. }
  destruct (N.eqb_spec c 92) as [->|Hb].
  2:{ apply (Go [c] [c] r); auto; [discriminate|]. intros raw t H. apply (ch_plain c raw t); auto. unfold unescaped. unfold is_scalar in Hc. lia. }
  destruct r as [|x r]. { left. eapply F. apply sf_backslash. }
  destruct (simple_escape_dec x) as [[y Hx]|Hx].
  { apply (Go [92; x] [y] r); auto; [discriminate|]. intros raw t H. now apply (ch_simple x y raw t). }
  destruct (N.eqb_spec x 117) as [->|Hu]; [|left; eapply F; now apply sf_escape].
  destruct (hex_split r) as [H|[[a H]|(h & u & r2 & -> & Hh)]]; [left; eapply F; eapply sf_hex; eauto|left; eapply F; eapply sf_hex; eauto|].
  pose proof (four_hex_bound _ _ Hh) as Hub.
  destruct (N.leb_spec 0xD800 u) as [Hlo|Hlo].
  2:{ apply (Go (92 :: 117 :: h) [u] r2); auto; [discriminate|]. intros raw t H. apply (ch_unicode h u raw t); auto. lia. }
  destruct (N.leb_spec u 0xDFFF) as [Hhi|Hhi].
  2:{ apply (Go (92 :: 117 :: h) [u] r2); auto; [discriminate|]. intros raw t H. apply (ch_unicode h u raw t); auto. lia. }
  destruct (N.leb_spec u 0xDBFF) as [Hhs|Hhs]; [|left; eapply F; eapply sf_low; eauto; lia].
  assert (D : (exists r3, r2 = 92 :: 117 :: r3) \/ (forall r3, r2 <> 92 :: 117 :: r3)).
  { destruct r2 as [|a [|b r3]]; try (right; intros; discriminate). destruct (N.eq_dec a 92) as [->|]; [|right; congruence].
    destruct (N.eq_dec b 117) as [->|]; [left; eauto|right; congruence]. }
  destruct D as [[r3 ->]|D]; [|left; eapply F; eapply sf_high; eauto; lia].
  destruct (hex_split r3) as [H|[[a H]|(l & v & r4 & -> & Hl4)]];
    [left; eapply F; eapply sf_high_hex; eauto; lia|left; eapply F; eapply sf_high_hex; eauto; lia|].
  destruct ((0xDC00 <=? v) && (v <=? 0xDFFF)) eqn:Ev; [|left; eapply F; eapply sf_pair; eauto; lia].
  apply (Go (92 :: 117 :: h ++ 92 :: 117 :: l) [0x10000 + (u - 0xD800) * 0x400 + (v - 0xDC00)] r4); [|discriminate|].
  - cbn. rewrite <- app_assoc. reflexivity.
  - intros raw t H. cbn. rewrite <- app_assoc. apply (ch_pair h u l v raw t); auto; lia.
Qed.
Lemma string_err_bad s acc e : scalar_str s = true -> string_loop acc s = Err e -> BadString s e.
Proof.
  intros Hs H. destruct (string_split s Hs) as [[e' He]|(raw & c & w & -> & HC & Hw)].
  - rewrite (bad_string_err _ _ He) in H. now injection H as <-.
  - rewrite (string_loop_chars _ _ HC), string_loop_end in H by auto. discriminate.
Qed.

(** ** Numbers *)
Lemma number_start_valid s : number_start s <-> valid_number s = true.
Proof.
  split.
  - intros (neg & i & r & -> & Hi & Hr & Hd). assert (A : forall d i' r', digit d -> i ++ r = d :: i' ++ r' -> valid_number ((if neg then [45] else []) ++ i ++ r) = valid_number (i ++ r)).
    { intros d i' r' Hd0 E. rewrite E. now apply valid_number_sign. }
    assert (B : match r with
        | c :: r0 => if c =? DOT then match r0 with d :: r' => if is_digit d then Some (skip_digits r') else None | [] => None end else Some r
        | [] => Some r end <> None).
    { destruct r as [|c r0]; [discriminate|]. destruct (N.eqb_spec c 46) as [->|]; [|discriminate].
      destruct (Hd r0 eq_refl) as (d & r'' & -> & Hdd). apply is_digit_digit in Hdd. rewrite Hdd. discriminate. }
    destruct Hi as [|d ds Hd1 Hds].
    + rewrite (A 48 [] r) by (auto; unfold digit; lia). unfold valid_number. cbn [app N.eqb Pos.eqb]. destruct (match r with [] => _ | _ => _ end); congruence.
    + rewrite (A d ds r) by (auto; unfold digit; lia). unfold valid_number. cbn [app]. rewrite (if_false (d =? 45)) by lia. rewrite (if_false (d =? 48)) by lia.
      assert (Ed : is_digit d = true) by (apply is_digit_digit; unfold digit; lia). rewrite Ed. cbn [skip_digits]. rewrite Ed.
      rewrite skip_digits_app; auto.
      * destruct (match r with [] => _ | _ => _ end); congruence.
      * destruct Hr as [Hr|Hr]; [inversion Hr; subst; lia|exact Hr].
  - intros H. destruct (valid_number_head _ H) as (neg & d & r & -> & Hd). rewrite valid_number_sign in H by auto.
    unfold valid_number in H. unfold digit in Hd. rewrite (if_false (d =? 45)) in H by lia.
    assert (B : forall r2, match match r2 with
        | c :: r0 => if c =? DOT then match r0 with d :: r' => if is_digit d then Some (skip_digits r') else None | [] => None end else Some r2
        | [] => Some r2 end with None => false | Some _ => true end = true -> forall r', r2 = 46 :: r' -> exists c r'', r' = c :: r'' /\ digit c).
    { intros r2 H2 r' ->. cbn in H2. destruct r' as [|c r'']; [discriminate|]. destruct (is_digit c) eqn:Ec; [|discriminate]. apply is_digit_digit in Ec. eauto. }
    destruct (N.eqb_spec d 48) as [->|Hz].
    + exists neg, [48], r. repeat split; auto; [constructor|]. apply B. exact H.
    + assert (Ed : is_digit d = true) by (apply is_digit_digit; unfold digit; lia). rewrite Ed in H. cbn [skip_digits] in H. rewrite Ed in H.
      destruct (span_digits r) as [ds r2] eqn:Es. apply span_digits_inv in Es as (-> & Hds & Hr2). rewrite skip_digits_app in H by auto.
      exists neg, (d :: ds), r2. repeat split; auto. { constructor; auto; lia. } apply B. exact H.
Qed.
Lemma bad_number_iff s e : parse_number s = Err e <-> BadNumber s e.
Proof.
  split.
  - unfold parse_number. destruct (valid_number s) eqn:Ev.
    + destruct (f64_from_str s) as [f|] eqn:Ef.
      * destruct (is_finite f) eqn:Ei; [discriminate|]. intros [= <-]. destruct (lax_number_inv _ _ Ev Ef) as (neg & m & x & HL & ->).
        eapply bn_large; eauto.
      * intros [= <-]. apply bn_rest; [now apply number_start_valid|]. intros neg m x HL. apply lax_number_ok in HL as [_ HL]. congruence.
    + intros [= <-]. apply bn_start. rewrite number_start_valid. congruence.
  - unfold parse_number. destruct 1 as [s H|s H HL|s neg m x HL Hf].
    + rewrite number_start_valid in H. destruct (valid_number s); [congruence|reflexivity].
    + apply number_start_valid in H. rewrite H. destruct (f64_from_str s) as [f|] eqn:Ef; [|reflexivity].
      destruct (lax_number_inv _ _ H Ef) as (neg & m & x & HL' & _). exfalso. eapply HL; eauto.
    + apply lax_number_ok in HL as [-> ->]. now rewrite Hf.
Qed.

(** ** Scanning *)
Lemma scan_split stop drop : (forall c, stop c \/ ~ stop c) -> (forall c, drop c \/ ~ drop c) -> (forall c, stop c -> c <> 92) -> (forall c, drop c -> c <> 92) ->
  forall s d q, exists t p d' q', Skim stop drop d q t p d' q' /\
    (s = t \/ s = t ++ [92] \/ exists c r, s = t ++ c :: r /\ d' = 0%Z /\ q' = false /\ stop c).
Proof.
  intros Sd Dd S92 D92 s. remember (List.length s) as n eqn:Hn. revert s Hn. induction n as [n IH] using lt_wf_ind. intros s -> d q.
  destruct s as [|c r]. { exists [], [], d, q. split; [constructor|auto]. }
  destruct (N.eq_dec c 92) as [->|H92].
  { destruct r as [|e r]. { exists [], [], d, q. split; [constructor|auto]. }
    destruct (IH (List.length r)) with (s := r) (d := d) (q := q) as (t & p & d' & q' & HS & HE); [cbn; lia|auto|].
    exists (92 :: e :: t), (92 :: e :: p), d', q'. split; [now constructor|].
    destruct HE as [->|[->|(c & r' & -> & HE)]]; auto. right. right. exists c, r'. auto. }
  assert (Keep : ~ (d = 0%Z /\ q = false /\ (stop c \/ drop c)) -> exists t p d' q', Skim stop drop d q t p d' q' /\
    (c :: r = t \/ c :: r = t ++ [92] \/ exists c0 r0, c :: r = t ++ c0 :: r0 /\ d' = 0%Z /\ q' = false /\ stop c0)).
  { intros Hk. destruct (IH (List.length r)) with (s := r) (d := (d + net [c])%Z) (q := if c =? 34 then negb q else q) as (t & p & d' & q' & HS & HE); [cbn; lia|auto|].
    exists (c :: t), (c :: p), d', q'. split; [now constructor|].
    destruct HE as [->|[->|(c' & r' & -> & HE)]]; auto. right. right. exists c', r'. auto. }
  destruct (Z.eq_dec d 0) as [->|Hd]; [|apply Keep; tauto]. destruct q; [apply Keep; intros (_ & H & _); discriminate|].
  destruct (Sd c) as [Hs|Hs]. { exists [], [], 0%Z, false. split; [constructor|]. right. right. exists c, r. auto. }
  destruct (Dd c) as [Hp|Hp]; [|apply Keep; tauto].
  destruct (IH (List.length r)) with (s := r) (d := 0%Z) (q := false) as (t & p & d' & q' & HS & HE); [cbn; lia|auto|].
  exists (c :: t), p, d', q'. split; [now constructor|].
  destruct HE as [->|[->|(c' & r' & -> & HE)]]; auto. right. right. exists c', r'. auto.
Qed.
Lemma ws_dec c : ws_char c \/ ~ ws_char c.
Proof. unfold ws_char. cbn. lia. Qed.
Lemma scan_array s : exists t p d' q', Skim array_stop ws_char 0 false t p d' q' /\
    (s = t \/ s = t ++ [92] \/ exists c r, s = t ++ c :: r /\ d' = 0%Z /\ q' = false /\ array_stop c).
Proof. apply scan_split; intros c; unfold array_stop, ws_char; cbn; lia. Qed.
Lemma scan_key s : exists t p d' q', Skim key_stop ws_char 0 false t p d' q' /\
    (s = t \/ s = t ++ [92] \/ exists c r, s = t ++ c :: r /\ d' = 0%Z /\ q' = false /\ key_stop c).
Proof. apply scan_split; intros c; unfold key_stop, ws_char; cbn; lia. Qed.
Lemma scan_value s : exists t p d' q', Skim value_stop value_drop 0 false t p d' q' /\
    (s = t \/ s = t ++ [92] \/ exists c r, s = t ++ c :: r /\ d' = 0%Z /\ q' = false /\ value_stop c).
Proof. apply scan_split; intros c; unfold value_stop, value_drop, ws_char; cbn; lia. Qed.
Lemma starts_dec c r : match r with p :: _ => p =? c | [] => false end = true <-> starts_with c r.
Proof.
  unfold starts_with. destruct r as [|p r]; [split; [discriminate|intros [? ?]; discriminate]|]. rewrite N.eqb_eq. split; [intros ->; eauto|intros [? H]; congruence].
Qed.

(** ** Containers: from errors to faults *)
Section Containers.
Variables (rec : str -> res json) (L : nat).
Hypothesis Rok : forall t v, scalar_str t = true -> (List.length t <= L)%nat -> (rec t = Ok v <-> LValue t v).
Hypothesis Rerr : forall t e, scalar_str t = true -> (List.length t <= L)%nat -> rec t = Err e -> Blame t e.

Lemma not_starts c r : match r with p :: _ => p =? c | [] => false end = false <-> ~ starts_with c r.
Proof. rewrite <- starts_dec. destruct (match r with [] => _ | _ => _ end); split; congruence. Qed.
Lemma arr_err s : scalar_str s = true -> (List.length s <= L)%nat -> forall acc e, arr_loop rec 0 0 [] acc s = Err e -> BadElements s e.
Proof.
  remember (List.length s) as n eqn:Hn. revert s Hn.
  induction n as [n IH] using lt_wf_ind. intros s -> Hs HL acc e H.
  destruct (scan_array s) as (t & p & d & q & HS & HE). pose proof (Skim_length _ _ _ _ _ _ _ _ HS) as Hlen.
  destruct HE as [->|[->|(c & r & -> & -> & -> & Hc)]].
  - rewrite <- (app_nil_r t) in H. change 0%Z with (bz false) in H at 2. rewrite (arr_skim _ _ _ _ _ _ _ HS) in H. injection H as <-. eapply be_open; eauto.
  - change 0%Z with (bz false) in H at 2. rewrite (arr_skim _ _ _ _ _ _ _ HS) in H. cbn [arr_loop N.eqb Pos.eqb andb orb] in H. injection H as <-. eapply be_escape; eauto.
  - change 0%Z with (bz false) in H at 2. rewrite (arr_skim _ _ _ _ _ _ _ HS) in H. rewrite app_length in HL. cbn [List.length] in HL.
    apply scalar_app in Hs as [Hst Hsr]. apply scalar_tail in Hsr. pose proof (Skim_scalar _ _ _ _ _ _ _ _ HS Hst) as Hsp.
    destruct Hc as [->| ->]; cbn [app bz arr_loop N.eqb Pos.eqb Z.eqb andb] in H.
    + destruct (rec p) as [v|e'| |] eqn:Er; try discriminate.
      * destruct (trailing ParseArrayError r) eqn:Et; try discriminate. injection H as ->.
        apply trailing_err in Et as (w & c & r' & -> & Hw & Hc & ->). apply Rok in Er; auto; [|lia]. eapply be_after; eauto.
      * injection H as ->. eapply be_last; eauto. apply Rerr; auto. lia.
    + destruct p as [|p0 p']. { injection H as <-. now apply be_empty. }
      remember (p0 :: p') as p eqn:Ep. assert (Hp : p <> []) by (subst; discriminate).
      destruct (match r with [] => _ | _ => _ end) eqn:E93. { injection H as <-. apply starts_dec in E93. eapply be_comma; eauto. }
      apply not_starts in E93. destruct (rec p) as [v|e'| |] eqn:Er; try discriminate.
      * apply Rok in Er; auto; [|lia]. eapply be_next; eauto. eapply IH with (m := List.length r); eauto; try lia. rewrite app_length. cbn. lia.
      * injection H as ->. eapply be_elem; eauto. apply Rerr; auto. lia.
Qed.
Lemma key_bad (pk : str) : scalar_str pk = true -> (List.length pk <= L)%nat -> (forall k, rec pk <> Ok (JStr k)) -> forall k, ~ LValue pk (JStr k).
Proof. intros H1 H2 H k Hk. apply Rok in Hk; auto. eapply H; eauto. Qed.
Lemma obj_err s : scalar_str s = true -> (List.length s <= L)%nat -> forall m e, obj_loop rec 0 0 [] [] true m s = Err e -> BadMembers s e.
Proof.
  remember (List.length s) as n eqn:Hn. revert s Hn.
  induction n as [n IH] using lt_wf_ind. intros s -> Hs HL m e H.
  destruct (scan_key s) as (tk & pk & d & q & HK & HE). pose proof (Skim_length _ _ _ _ _ _ _ _ HK) as Hklen.
  destruct HE as [->|[->|(c & s' & -> & -> & -> & Hc)]].
  - rewrite <- (app_nil_r tk) in H. change 0%Z with (bz false) in H at 2. rewrite (obj_skim_k _ _ _ _ _ _ _ HK) in H. injection H as <-. eapply bm_key_open; eauto.
  - change 0%Z with (bz false) in H at 2. rewrite (obj_skim_k _ _ _ _ _ _ _ HK) in H. cbn [obj_loop N.eqb Pos.eqb andb orb] in H. injection H as <-. eapply bm_key_escape; eauto.
  - rewrite app_length in HL. cbn [List.length] in HL. unfold key_stop in Hc. subst c.
    change 0%Z with (bz false) in H at 2. rewrite (obj_skim_k _ _ _ _ _ _ _ HK) in H. cbn [app bz] in H. rewrite obj_colon in H. eapply bm_rest; eauto.
    apply scalar_app in Hs as [Hsk Hs]. apply scalar_tail in Hs. pose proof (Skim_scalar _ _ _ _ _ _ _ _ HK Hsk) as Hspk.
    assert (Hkl : (List.length pk <= L)%nat) by lia.
    destruct (scan_value s') as (t & p & d & q & HS & HE). pose proof (Skim_length _ _ _ _ _ _ _ _ HS) as Hlen.
    destruct HE as [->|[->|(c & r & -> & -> & -> & Hc)]].
    + rewrite <- (app_nil_r t) in H. change 0%Z with (bz false) in H at 2. rewrite (obj_skim_v _ _ _ _ _ _ _ HS) in H. injection H as <-. eapply bm_open; eauto.
    + change 0%Z with (bz false) in H at 2. rewrite (obj_skim_v _ _ _ _ _ _ _ HS) in H. cbn [obj_loop N.eqb Pos.eqb andb orb negb] in H. injection H as <-. eapply bm_escape; eauto.
    + change 0%Z with (bz false) in H at 2. rewrite (obj_skim_v _ _ _ _ _ _ _ HS) in H. rewrite app_length in HL. cbn [List.length] in HL.
      apply scalar_app in Hs as [Hst Hsr]. apply scalar_tail in Hsr. pose proof (Skim_scalar _ _ _ _ _ _ _ _ HS Hst) as Hsp.
      assert (KB : (forall k, rec pk <> Ok (JStr k)) -> forall k, ~ LValue pk (JStr k)) by (apply key_bad; auto).
      destruct Hc as [->| ->]; cbn [app bz obj_loop N.eqb Pos.eqb Z.eqb andb negb] in H.
      * destruct (rec pk) as [j|e'| |] eqn:Ek; try discriminate.
        2:{ injection H as <-. eapply bm_last_key; eauto. apply KB. congruence. }
        destruct j as [| |key| | |]; try (injection H as <-; eapply bm_last_key; eauto; apply KB; congruence).
        apply Rok in Ek; auto. destruct (rec p) as [v|e'| |] eqn:Er; try discriminate.
        -- destruct (trailing ParseObjectError r) eqn:Et; try discriminate. injection H as ->.
           apply trailing_err in Et as (w & c & r' & -> & Hw & Hc & ->). apply Rok in Er; auto; [|lia]. eapply bm_after; eauto.
        -- injection H as ->. eapply bm_last; eauto. apply Rerr; auto. lia.
      * destruct pk as [|a pk']. { injection H as <-. eapply bm_empty; eauto. }
        destruct p as [|b p']. { injection H as <-. eapply bm_empty; eauto. }
        remember (a :: pk') as pk eqn:E1. remember (b :: p') as p eqn:E2.
        assert (N1 : pk <> []) by (subst; discriminate). assert (N2 : p <> []) by (subst; discriminate).
        destruct (match r with [] => _ | _ => _ end) eqn:E93. { injection H as <-. apply starts_dec in E93. eapply bm_comma; eauto. }
        apply not_starts in E93. destruct (rec pk) as [j|e'| |] eqn:Ek; try discriminate.
        2:{ injection H as <-. eapply bm_key; eauto. apply KB. congruence. }
        destruct j as [| |key| | |]; try (injection H as <-; eapply bm_key; eauto; apply KB; congruence).
        apply Rok in Ek; auto. destruct (rec p) as [v|e'| |] eqn:Er; try discriminate.
        -- apply Rok in Er; auto; [|lia]. eapply bm_next; eauto. eapply IH with (m := List.length r); eauto; try lia. rewrite !app_length. cbn. rewrite app_length. cbn. lia.
        -- injection H as ->. eapply bm_value; eauto. apply Rerr; auto. lia.
Qed.
End Containers.

Lemma parse_ok_iff n t v : scalar_str t = true -> (List.length t < n)%nat -> (parse_ n t = Ok v <-> LValue t v).
Proof. intros Hs Hn. split; [now apply parse_lenient|]. intros H. now apply (proj1 lenient_parse). Qed.
Lemma parse_blame n : forall s e, scalar_str s = true -> (List.length s < n)%nat -> parse_ n s = Err e -> Blame s e.
Proof.
  induction n as [|n IH]; intros s e Hs Hn; [lia|]. cbn [parse_].
  destruct s as [|c r]; [intros [= <-]; constructor|]. cbn [List.length] in Hn. pose proof (scalar_tail _ _ Hs) as Hr.
  destruct (N.eqb_spec c 110) as [->|N0].
  { unfold parse_null. destruct (str_eqb _ _) eqn:E; [discriminate|]. intros [= <-]. apply b_null. intros E'. rewrite E' in E. discriminate. }
  destruct ((c =? 116) || (c =? 102)) eqn:Eb.
  { unfold parse_boolean. destruct (str_eqb _ (lit "true")) eqn:E; [discriminate|]. destruct (str_eqb _ (lit "false")) eqn:E'; [discriminate|].
    intros [= <-]. apply b_bool; [lia| |]; intros X; rewrite X in *; discriminate. }
  destruct ((c =? 45) || is_digit c) eqn:En.
  { intros H. apply bad_number_iff in H. apply b_num; auto. apply orb_true_iff in En as [En|En]; [left; lia|right; now apply is_digit_digit]. }
  destruct (N.eqb_spec c 34) as [->|N3].
  { unfold parse_string. cbn [tl]. intros H. apply b_str. eapply string_err_bad; eauto. }
  assert (A1 : forall t v, scalar_str t = true -> (List.length t <= List.length r)%nat -> (parse_ n t = Ok v <-> LValue t v)) by (intros; apply parse_ok_iff; auto; lia).
  assert (A2 : forall t e, scalar_str t = true -> (List.length t <= List.length r)%nat -> parse_ n t = Err e -> Blame t e) by (intros; apply IH; auto; lia).
  destruct (N.eqb_spec c 91) as [->|N4].
  { unfold parse_array. cbn [tl]. destruct (match r with [] => _ | _ => _ end) eqn:E; [discriminate|]. apply not_starts in E.
    intros H. apply b_arr; auto. eapply arr_err; eauto. }
  destruct (N.eqb_spec c 123) as [->|N5].
  { unfold parse_object. cbn [tl]. destruct (match r with [] => _ | _ => _ end) eqn:E; [discriminate|]. apply not_starts in E.
    intros H. apply b_obj; auto. eapply obj_err; eauto. }
  intros [= <-]. apply b_other. unfold is_digit in En. intros HI. vm_compute in HI. lia.
Qed.

(** ** From faults to errors *)
Scheme Blame_mind := Minimality for Blame Sort Prop
  with BadElements_mind := Minimality for BadElements Sort Prop
  with BadMembers_mind := Minimality for BadMembers Sort Prop
  with BadMember_mind := Minimality for BadMember Sort Prop.
Combined Scheme blame_mind from Blame_mind, BadElements_mind, BadMembers_mind, BadMember_mind.

Lemma key_nope N pk : scalar_str pk = true -> (List.length pk < N)%nat -> (forall k, ~ LValue pk (JStr k)) ->
  forall (X : str -> res json), match parse_ N pk with Ok (JStr key) => X key | Panic => Panic | Fuel => Fuel | _ => fail ParseObjectError (lit "error parsing key string.") end
   = Err (error_at ParseObjectError "error parsing key string.").
Proof.
  intros Hs Hl H X. pose proof (parse_total_ N pk Hl) as T. destruct (parse_ N pk) as [j|e| |] eqn:E; try destruct T; auto.
  destruct j; auto. exfalso. eapply H, parse_lenient; eauto.
Qed.
Ltac scal H := repeat match type of H with scalar_str (_ ++ _) = true => let a := fresh "Hs" in apply scalar_app in H as [a H] | scalar_str (_ :: _) = true => apply scalar_tail in H end.
Lemma blame_err :
  (forall s e, Blame s e -> forall N, scalar_str s = true -> (List.length s < N)%nat -> parse_ N s = Err e) /\
  (forall t e, BadElements t e -> forall N acc, scalar_str t = true -> (List.length t < N)%nat -> arr_loop (parse_ N) 0 (bz false) [] acc t = Err e) /\
  (forall t e, BadMembers t e -> forall N m, scalar_str t = true -> (List.length t < N)%nat -> obj_loop (parse_ N) 0 (bz false) [] [] true m t = Err e) /\
  (forall pk t e, BadMember pk t e -> forall N m, scalar_str pk = true -> (List.length pk < N)%nat -> scalar_str t = true -> (List.length t < N)%nat ->
     obj_loop (parse_ N) 0 (bz false) pk [] false m t = Err e).
Proof.
  apply blame_mind.
  - intros [|N] _ HN; [lia|]. reflexivity.
  - intros c r Hc [|N] _ HN; [lia|]. cbn [parse_]. vm_compute in Hc. unfold is_digit. do 6 (rewrite if_false by lia). reflexivity.
  - intros r H [|N] _ HN; [lia|]. cbn [parse_ N.eqb Pos.eqb]. unfold parse_null. destruct (str_eqb _ _) eqn:E; auto. apply str_eqb_eq in E. congruence.
  - intros c r Hc H1 H2 [|N] _ HN; [lia|]. cbn [parse_]. rewrite if_false by lia. rewrite if_true by lia. unfold parse_boolean.
    destruct (str_eqb _ (lit "true")) eqn:E. { apply str_eqb_eq in E. congruence. }
    destruct (str_eqb _ (lit "false")) eqn:E'; auto. { apply str_eqb_eq in E'. congruence. }
  - intros c r e Hc H [|N] _ HN; [lia|]. cbn [parse_]. do 2 (rewrite if_false by (unfold digit in Hc; lia)). rewrite if_true. { now apply bad_number_iff. }
    apply orb_true_iff. destruct Hc as [->|Hc]; [left; lia|right; now apply is_digit_digit].
  - intros r e H [|N] _ HN; [lia|]. cbn [parse_ N.eqb Pos.eqb orb]. unfold parse_string. cbn [tl]. now apply bad_string_err.
  - intros r e Hn H IH [|N] Hs HN; [lia|]. scal Hs. cbn [List.length] in HN. cbn [parse_ N.eqb Pos.eqb orb is_digit N.leb N.compare Pos.compare Pos.compare_cont andb].
    unfold parse_array. cbn [tl]. apply not_starts in Hn. rewrite Hn. apply (IH N []); auto. lia.
  - intros r e Hn H IH [|N] Hs HN; [lia|]. scal Hs. cbn [List.length] in HN. cbn [parse_ N.eqb Pos.eqb orb is_digit N.leb N.compare Pos.compare Pos.compare_cont andb].
    unfold parse_object. cbn [tl]. apply not_starts in Hn. rewrite Hn. apply (IH N []); auto. lia.
  (* elements *)
  - intros t p d q HS N acc Hs HN. rewrite <- (app_nil_r t), (arr_skim _ _ _ _ _ _ _ HS). reflexivity.
  - intros t p d q HS N acc Hs HN. rewrite (arr_skim _ _ _ _ _ _ _ HS). reflexivity.
  - intros t p e r HP H IH N acc Hs HN. scal Hs. rewrite app_length in HN. pose proof (Skim_length _ _ _ _ _ _ _ _ HP).
    rewrite (arr_skim _ _ _ _ _ _ _ HP). cbn [bz app arr_loop N.eqb Pos.eqb Z.eqb andb]. rewrite IH; auto; [|lia]. eapply Skim_scalar; eauto.
  - intros t p v w c r HP HV Hw Hc N acc Hs HN. scal Hs. rewrite app_length in HN. pose proof (Skim_length _ _ _ _ _ _ _ _ HP).
    rewrite (arr_skim _ _ _ _ _ _ _ HP). cbn [bz app arr_loop N.eqb Pos.eqb Z.eqb andb]. rewrite (proj1 lenient_parse _ _ HV) by lia.
    rewrite (proj2 (trailing_err ParseArrayError _ (error_char ParseArrayError "invalid trailing character: " c))); eauto 10.
  - intros t r HP N acc Hs HN. rewrite (arr_skim _ _ _ _ _ _ _ HP). reflexivity.
  - intros t p r HP Hp Hr N acc Hs HN. rewrite (arr_skim _ _ _ _ _ _ _ HP). cbn [bz app arr_loop N.eqb Pos.eqb Z.eqb andb]. destruct p; [congruence|].
    apply starts_dec in Hr. now rewrite Hr.
  - intros t p e r HP Hp Hr H IH N acc Hs HN. scal Hs. rewrite app_length in HN. pose proof (Skim_length _ _ _ _ _ _ _ _ HP).
    rewrite (arr_skim _ _ _ _ _ _ _ HP). cbn [bz app arr_loop N.eqb Pos.eqb Z.eqb andb]. apply not_starts in Hr. rewrite Hr. rewrite IH; auto; [|eapply Skim_scalar; eauto|lia].
    destruct p; [congruence|auto].
  - intros t p v r e HP HV Hr H IH N acc Hs HN. scal Hs. rewrite app_length in HN. cbn [List.length] in HN. pose proof (Skim_length _ _ _ _ _ _ _ _ HP).
    rewrite (arr_skim _ _ _ _ _ _ _ HP). cbn [bz app]. rewrite (arr_comma _ _ _ _ v).
    + apply IH; auto. lia.
    + apply (proj1 lenient_parse); auto. lia.
    + eapply LValue_nonempty; eauto.
    + destruct r as [|c r]; auto. intros ->. apply Hr. unfold starts_with; eauto.
  (* members *)
  - intros t p d q HS N m Hs HN. rewrite <- (app_nil_r t), (obj_skim_k _ _ _ _ _ _ _ HS). reflexivity.
  - intros t p d q HS N m Hs HN. rewrite (obj_skim_k _ _ _ _ _ _ _ HS). reflexivity.
  - intros tk pk s e HK H IH N m Hs HN. scal Hs. rewrite app_length in HN. cbn [List.length] in HN. pose proof (Skim_length _ _ _ _ _ _ _ _ HK).
    rewrite (obj_skim_k _ _ _ _ _ _ _ HK). cbn [bz app]. rewrite obj_colon. apply (IH N m); auto; [eapply Skim_scalar; eauto|lia|lia].
  - intros pk t p d q HS N m _ _ Hs HN. rewrite <- (app_nil_r t), (obj_skim_v _ _ _ _ _ _ _ HS). reflexivity.
  - intros pk t p d q HS N m _ _ Hs HN. rewrite (obj_skim_v _ _ _ _ _ _ _ HS). reflexivity.
  - intros pk t p r HP Hk N m Hsk HNk Hs HN. rewrite (obj_skim_v _ _ _ _ _ _ _ HP). cbn [bz app obj_loop N.eqb Pos.eqb Z.eqb andb negb].
    now apply key_nope.
  - intros pk k t p e r HP Hk H IH N m Hsk HNk Hs HN. scal Hs. rewrite app_length in HN. pose proof (Skim_length _ _ _ _ _ _ _ _ HP).
    rewrite (obj_skim_v _ _ _ _ _ _ _ HP). cbn [bz app obj_loop N.eqb Pos.eqb Z.eqb andb negb]. rewrite (proj1 lenient_parse _ _ Hk) by lia.
    rewrite IH; auto; [|lia]. eapply Skim_scalar; eauto.
  - intros pk k t p v w c r HP Hk HV Hw Hc N m Hsk HNk Hs HN. scal Hs. rewrite app_length in HN. pose proof (Skim_length _ _ _ _ _ _ _ _ HP).
    rewrite (obj_skim_v _ _ _ _ _ _ _ HP). cbn [bz app obj_loop N.eqb Pos.eqb Z.eqb andb negb]. rewrite (proj1 lenient_parse _ _ Hk) by lia.
    rewrite (proj1 lenient_parse _ _ HV) by lia.
    rewrite (proj2 (trailing_err ParseObjectError _ (error_char ParseObjectError "invalid trailing character: " c))); eauto 10.
  - intros pk t p r HP Hp N m Hsk HNk Hs HN. rewrite (obj_skim_v _ _ _ _ _ _ _ HP). cbn [bz app obj_loop N.eqb Pos.eqb Z.eqb andb negb].
    destruct Hp as [->| ->]; auto. destruct pk; auto.
  - intros pk t p r HP Hk Hp Hr N m Hsk HNk Hs HN. rewrite (obj_skim_v _ _ _ _ _ _ _ HP). cbn [bz app obj_loop N.eqb Pos.eqb Z.eqb andb negb].
    destruct pk; [congruence|]. destruct p; [congruence|]. apply starts_dec in Hr. now rewrite Hr.
  - intros pk t p r HP Hk Hp Hr Hkk N m Hsk HNk Hs HN. rewrite (obj_skim_v _ _ _ _ _ _ _ HP). cbn [bz app obj_loop N.eqb Pos.eqb Z.eqb andb negb].
    apply not_starts in Hr. rewrite Hr. destruct pk as [|a pk]; [congruence|]. destruct p as [|b p]; [congruence|]. now apply key_nope.
  - intros pk k t p e r HP Hp Hr Hk H IH N m Hsk HNk Hs HN. scal Hs. rewrite app_length in HN. pose proof (Skim_length _ _ _ _ _ _ _ _ HP).
    rewrite (obj_skim_v _ _ _ _ _ _ _ HP). cbn [bz app obj_loop N.eqb Pos.eqb Z.eqb andb negb]. apply not_starts in Hr. rewrite Hr.
    rewrite (proj1 lenient_parse _ _ Hk) by lia. rewrite IH; auto; [|eapply Skim_scalar; eauto|lia]. pose proof (LValue_nonempty _ _ Hk).
    destruct pk as [|a pk]; [congruence|]. destruct p as [|b p]; [congruence|]. reflexivity.
  - intros pk k t p v r e HP Hk HV Hr H IH N m Hsk HNk Hs HN. scal Hs. rewrite app_length in HN. cbn [List.length] in HN. pose proof (Skim_length _ _ _ _ _ _ _ _ HP).
    rewrite (obj_skim_v _ _ _ _ _ _ _ HP). cbn [bz app]. rewrite (obj_comma _ _ _ _ _ k v).
    + apply IH; auto. lia.
    + apply (proj1 lenient_parse); auto.
    + apply (proj1 lenient_parse); auto. lia.
    + eapply LValue_nonempty; eauto.
    + eapply LValue_nonempty; eauto.
    + destruct r as [|c r]; auto. intros ->. apply Hr. unfold starts_with; eauto.
Qed.

Theorem parse_err_iff_blame s e : scalar_str s = true -> (parse s = Err e <-> BlameText s e).
Proof.
  intros Hs. split.
  - intros H. destruct (trim_ws_spec s) as (w1 & w2 & H1 & H2 & E & N1 & N2).
    exists w1, (trim_ws s), w2. repeat split; auto. unfold parse in H. eapply parse_blame; eauto.
    rewrite E in Hs. apply scalar_app in Hs as [_ Hs]. now apply scalar_app in Hs as [Hs _].
  - intros (w1 & t & w2 & H1 & H2 & -> & N1 & N2 & HL). rewrite parse_ws by auto. unfold parse.
    apply scalar_app in Hs as [_ Hs]. apply scalar_app in Hs as [Hs _].
    assert (Et : trim_ws t = t).
    { destruct t as [|c0 t0]; [reflexivity|]. apply trim_ws_id. split; [eauto|].
      destruct (rev (c0 :: t0)) as [|c r] eqn:Er. { apply (f_equal (@rev _)) in Er. rewrite rev_involutive in Er. cbn in Er. congruence. }
      exists (rev r), c. split; auto. rewrite <- (rev_involutive (c0 :: t0)), Er. reflexivity. }
    rewrite Et. apply (proj1 blame_err); auto.
Qed.

(** Properties of the printed text: the digits of numbers (C52) and the exact layout (C53). *)
From Verif Require Import Base F64 Utf8 Json Parse Print SpecGrammar SpecNumber SpecValue SpecShortest SpecLayout
  MapProofs Utf8Proofs StringProofs NumberProofs DecProofs ShortestProofs PrintProofs PropsPrint.
From Coq Require Import ZifyBool ZifyNat ZifyN Permutation Floats.SpecFloat.
Local Open Scope N_scope.
Notation is_finite := F64.is_finite.

(** * C52: a number is printed as the shortest decimal that reads back, the closest of those, in plain notation. *)
Theorem printed_number_is_shortest f t : valid_f64 f = true -> (to_string (JNum f) = t <-> number_text f t).
Proof.
  intros V. cbn [to_string]. split; [intros <-; now apply f64_to_string_text|]. intros H. eapply number_text_unique; eauto. now apply f64_to_string_text.
Qed.
(** It has at most seventeen significant digits. *)
Theorem printed_number_digits s m e : valid_f64 (S754_finite s m e) = true ->
  exists d k t, to_string (JNum (S754_finite s m e)) = minus_if s ++ t /\ plain_text t d k /\ 0 < d < 10 ^ 17 /\
    shortest_decimal (S754_finite false m e) d k.
Proof.
  intros V. pose proof (f64_to_string_text _ V) as H. inversion H as [| | |s' m' e' d k t Sd Pt]; subst. exists d, k, t. split; auto. split; auto. split; auto.
  split; [|eapply shortest_17; eauto]. pose proof (sd_stripped _ _ _ Sd). destruct (N.eq_dec d 0) as [->|]; [now cbn in *|lia].
Qed.
(** The least positive double, two with many decimals or zeros, and a power of two between wider gaps. *)
Example number_texts :
  map (fun f => to_string (JNum f)) [dec_to_f64 false 1 (-1); dec_to_f64 true 25 20; S754_finite false 1 (-2); binary_round 53 1024 false 1 60]
  = [lit "0.1"; lit "-2500000000000000000000"; lit "0.25"; lit "1152921504606847000"]
  /\ f64_to_string (S754_finite false 1 (-1074)) = lit "0." ++ repeat 48 323 ++ lit "5".
Proof. vm_compute. auto. Qed.

(** * C53: the exact text. *)
Lemma hex_cap_table d : d < 16 -> hex_capital d (nth (N.to_nat d) HEX_TABLE 0).
Proof.
  intros H. assert (C : In d (map N.of_nat (seq 0 16))).
  { apply in_map_iff. exists (N.to_nat d). rewrite in_seq. split; lia. }
  unfold hex_capital. cbn [map seq] in C. cbn [In] in C.
  repeat (destruct C as [<-|C]; [first [left; split; reflexivity|right; split; [split; [vm_compute; discriminate|reflexivity]|reflexivity]]|]). contradiction.
Qed.
Lemma hex_unit u : u <= 0xFFFF -> unit_text u (hex u).
Proof.
  intros Hu.
  set (d0 := N.land u 15). set (d1 := N.land (N.shiftr u 4) 15). set (d2 := N.land (N.shiftr (N.shiftr u 4) 4) 15).
  set (d3 := N.land (N.shiftr (N.shiftr (N.shiftr u 4) 4) 4) 15).
  assert (L : forall x, N.land x 15 < 16).
  { intros x. change 15 with (N.ones 4). rewrite N.land_ones. apply N.mod_lt. discriminate. }
  set (g d := nth (N.to_nat d) HEX_TABLE 0).
  assert (E : hex u = [92; 117; g d3; g d2; g d1; g d0]).
  { unfold hex. destruct (N.eqb_spec u 0) as [->|Hz]; [reflexivity|].
    destruct (hex_rev_nibbles 4 16 u) as [H1 H2]; [lia| |]. { change (16 ^ N.of_nat 4) with 65536. lia. }
    cbn zeta. rewrite H2. reflexivity. }
  rewrite E. apply unit with d3 d2 d1 d0; try apply hex_cap_table, L.
  unfold d0, d1, d2, d3. change 15 with (N.ones 4). rewrite !N.land_ones, !N.shiftr_div_pow2.
  change (2 ^ 4) with 16.
  pose proof (N.div_mod u 16 ltac:(lia)). pose proof (N.div_mod (u / 16) 16 ltac:(lia)).
  pose proof (N.div_mod (u / 16 / 16) 16 ltac:(lia)).
  assert (u / 16 / 16 / 16 < 16).
  { apply N.div_lt_upper_bound; [lia|]. apply N.div_lt_upper_bound; [lia|]. apply N.div_lt_upper_bound; lia. }
  rewrite (N.mod_small (u / 16 / 16 / 16) 16) by auto. lia.
Qed.
Lemma escape_char_text c : is_scalar c = true -> char_text c (escape_char c).
Proof.
  intros Hc. unfold is_scalar in Hc. unfold escape_char.
  repeat match goal with |- context [if ?a =? ?b then _ else _] =>
    destruct (N.eqb_spec a b) as [->|?N]; [apply ct_short; cbn; auto 20|] end.
  assert (Nin : ~ In c (map fst short_escapes)).
  { cbn. intuition congruence. }
  destruct (N.leb_spec c 0x1F). { apply ct_unit; auto; [lia|]. apply hex_unit. lia. }
  destruct (N.leb_spec c 0x7E). { apply ct_plain; auto. lia. }
  destruct (N.leb_spec c 0xFFFF). { apply ct_unit; auto; [lia|]. now apply hex_unit. }
  set (u := c - 0x10000). rewrite N.shiftr_div_pow2. change 1023 with (N.ones 10). rewrite N.land_ones. change (2 ^ 10) with 1024.
  pose proof (N.div_mod u 1024 ltac:(lia)). pose proof (N.mod_lt u 1024 ltac:(lia)).
  assert (u / 1024 < 1024) by (apply N.div_lt_upper_bound; unfold u; lia).
  replace c with (0x10000 + (u / 1024 + 0xD800 - 0xD800) * 0x400 + (u mod 1024 + 0xDC00 - 0xDC00)) by (unfold u in *; lia).
  apply ct_pair; try lia; apply hex_unit; lia.
Qed.
Lemma escape_text s : scalar_str s = true -> string_text s (escape s).
Proof.
  intros H. unfold escape. constructor. induction s as [|c s IH]; [constructor|]. cbn [scalar_str forallb] in H. apply andb_true_iff in H as [Hc H].
  cbn [flat_map]. constructor; [now apply escape_char_text|now apply IH].
Qed.
Lemma capital_fun d c c' : hex_capital d c -> hex_capital d c' -> c = c'.
Proof. unfold hex_capital. lia. Qed.
Lemma capital_lt d c : hex_capital d c -> d < 16. Proof. unfold hex_capital. lia. Qed.
Lemma split16 a w a' w' : w < 16 -> w' < 16 -> a * 16 + w = a' * 16 + w' -> a = a' /\ w = w'.
Proof. lia. Qed.
Lemma unit_fun u t t' : unit_text u t -> unit_text u t' -> t = t'.
Proof.
  intros [x y z w a b c d E A B C D] [x' y' z' w' a' b' c' d' E' A' B' C' D'].
  pose proof (capital_lt _ _ A). pose proof (capital_lt _ _ B). pose proof (capital_lt _ _ C). pose proof (capital_lt _ _ D).
  pose proof (capital_lt _ _ A'). pose proof (capital_lt _ _ B'). pose proof (capital_lt _ _ C'). pose proof (capital_lt _ _ D').
  rewrite E in E'. apply split16 in E' as [E' ->]; auto. apply split16 in E' as [E' ->]; auto. apply split16 in E' as [-> ->]; auto.
  repeat f_equal; eapply capital_fun; eauto.
Qed.
Lemma short_fun c e e' : In (c, e) short_escapes -> In (c, e') short_escapes -> e = e'.
Proof.
  intros H H'. cbn in H, H'. repeat (destruct H as [[= <- <-]|H]; [intuition congruence|]). contradiction.
Qed.
Lemma short_low c e : In (c, e) short_escapes -> c < 127 /\ In c (map fst short_escapes).
Proof.
  intros H. split; [|apply in_map_iff; exists (c, e); auto]. cbn in H. repeat (destruct H as [[= <- <-]|H]; [lia|]). contradiction.
Qed.
Lemma pair_inj hi lo hi' lo' : 0xD800 <= hi < 0xDC00 -> 0xDC00 <= lo < 0xE000 -> 0xD800 <= hi' < 0xDC00 -> 0xDC00 <= lo' < 0xE000 ->
  0x10000 + (hi - 0xD800) * 0x400 + (lo - 0xDC00) = 0x10000 + (hi' - 0xD800) * 0x400 + (lo' - 0xDC00) -> hi = hi' /\ lo = lo'.
Proof.
  intros A B A' B' E. rewrite <- !N.add_assoc in E. apply N.add_cancel_l in E.
  assert (S : forall a w a' w', w < 0x400 -> w' < 0x400 -> a * 0x400 + w = a' * 0x400 + w' -> a = a' /\ w = w') by (clear; intros; lia).
  apply S in E as [E1 E2]; lia.
Qed.
Lemma pair_high hi lo : 0x10000 <= 0x10000 + (hi - 0xD800) * 0x400 + (lo - 0xDC00).
Proof. lia. Qed.
Lemma char_fun' c t c' t' : char_text c t -> char_text c' t' -> c = c' -> t = t'.
Proof.
  intros H H' Eq. assert (P := pair_high).
  destruct H as [c e I|c I L|c t I L U|hi lo t u L1 L2 U V]; destruct H' as [c' e' I'|c' I' L'|c' t1 I' L' U'|hi' lo' t1 u1 L1' L2' U' V'].
  - subst. now rewrite (short_fun _ _ _ I I').
  - exfalso. subst. apply I', (short_low _ _ I).
  - exfalso. subst. apply I', (short_low _ _ I).
  - exfalso. specialize (P hi' lo'). rewrite <- Eq in P. pose proof (proj1 (short_low _ _ I)). lia.
  - exfalso. subst. apply I, (short_low _ _ I').
  - now subst.
  - lia.
  - exfalso. specialize (P hi' lo'). rewrite <- Eq in P. lia.
  - exfalso. subst. apply I, (short_low _ _ I').
  - lia.
  - subst. eapply unit_fun; eauto.
  - exfalso. specialize (P hi' lo'). rewrite <- Eq in P. lia.
  - exfalso. specialize (P hi lo). rewrite Eq in P. pose proof (proj1 (short_low _ _ I')). lia.
  - exfalso. specialize (P hi lo). rewrite Eq in P. lia.
  - exfalso. specialize (P hi lo). rewrite Eq in P. lia.
  - apply pair_inj in Eq as [-> ->]; auto. f_equal; eapply unit_fun; eauto.
Qed.
Lemma char_fun c t t' : char_text c t -> char_text c t' -> t = t'.
Proof. intros H H'. exact (char_fun' c t c t' H H' eq_refl). Qed.
Lemma chars_fun s : forall t t', chars_text s t -> chars_text s t' -> t = t'.
Proof.
  induction s as [|c s IH]; intros t t' H H'; inversion H; inversion H'; subst; auto. f_equal; eauto using char_fun.
Qed.
Lemma string_fun s t t' : string_text s t -> string_text s t' -> t = t'.
Proof. intros [t1 H] [t2 H']. now rewrite (chars_fun s t1 t2). Qed.
Lemma listed_join l : listed l = join [44; 32] l.
Proof. induction l as [|t l IH]; auto. cbn [listed join]. destruct l; auto. now rewrite IH. Qed.

Theorem printed_layout j : legal j -> prints j (to_string j).
Proof.
  induction j as [o IH|v IH|s|f|[]|] using json_ind; intros L; inversion L as [? Hn Hf|? Hv|? Hs|? Hfl| |]; subst; try constructor.
  - destruct (printed_members_ascending o Hn) as (o' & Pm & As & ->).
    rewrite <- listed_join. eapply p_obj; eauto.
    assert (IH' : Forall (fun e => scalar_str (fst e) = true /\ prints (fst (snd e)) (to_string (fst (snd e))) /\
       Forall (fun v => prints v (to_string v)) (snd (snd e))) o').
    { eapply Permutation_Forall; eauto. rewrite Forall_forall in *. intros e He. destruct (IH e He) as [I1 I2], (Hf e He) as (F1 & F2 & F3).
      repeat split; auto. rewrite Forall_forall in *. auto. }
    clear - IH'. induction IH' as [|e o' (S & P1 & P2) _ IH2]; cbn [flat_map]; [constructor|]. apply Forall2_app; auto.
    unfold entry_list. assert (A : Forall (fun v => prints v (to_string v)) (rev (snd (snd e)) ++ [fst (snd e)])).
    { apply Forall_app. split; [|repeat constructor; auto]. rewrite Forall_forall in *. intros v Hv. apply P2. now apply in_rev. }
    induction A as [|v vs Hv A IHA]; cbn [map]; constructor; auto. cbn [fst snd]. exists (escape (fst e)), (to_string v).
    split; [now apply escape_text|]. split; auto.
  - cbn [to_string]. change comma_sp with [44; 32]. rewrite <- listed_join. constructor.
    induction IH as [|x v Hx IH IHv]; cbn [map]; constructor; inversion Hv; subst; auto. apply IHv; auto. now constructor.
  - now apply escape_text.
  - now apply f64_to_string_text.
Qed.
Lemma ascending_sorted {V} (o : list (str * V)) : ascending (map fst o) -> keys_sorted o = true.
Proof.
  induction o as [|[k v] o IH]; intros H; auto. apply keys_sorted_cons. split.
  - apply Forall_forall. intros e He. apply (in_map fst) in He. apply In_nth_error in He as [j Hj]. apply (H 0%nat (S j)); auto. lia.
  - apply IH. intros i j a b L A B. apply (H (S i) (S j)); auto. lia.
Qed.
Theorem layout_is_unique j : forall t t', prints j t -> prints j t' -> t = t'.
Proof.
  assert (A : forall v, Forall (fun j => forall t t', prints j t -> prints j t' -> t = t') v -> forall ts ts', Forall2 prints v ts -> Forall2 prints v ts' -> ts = ts').
  { induction 1 as [|x v Hx H IH]; intros ts ts' F F'; inversion F; inversion F'; subst; auto. f_equal; auto. }
  induction j as [o IH|v IH|s|f|[]|] using json_ind; intros t t' H H'; inversion H as [| | | | |? ts F|? o1 ts Pm As F]; inversion H' as [| | | | |? ts' F'|? o2 ts' Pm' As' F']; subst; auto.
  - f_equal. f_equal. assert (o2 = o1) as ->.
    { apply sorted_perm_eq; auto using ascending_sorted. now rewrite <- Pm, <- Pm'. }
    f_equal.
    assert (I : Forall (fun m : str * json => forall t t', prints (snd m) t -> prints (snd m) t' -> t = t') (flat_map entry_list o1)).
    { assert (I1 : Forall (Pentry (fun j => forall t t', prints j t -> prints j t' -> t = t')) o1) by (eapply Permutation_Forall; eauto).
      apply Forall_flat_map. revert I1. apply Forall_impl. intros e [E1 E2]. unfold entry_list. apply Forall_map. cbn [snd].
      apply Forall_app. split; [|repeat constructor; auto]. rewrite Forall_forall in *. intros x Hx. apply E2. now apply in_rev. }
    clear - I F F'. revert ts' F'. induction F as [|m t l ts (kt & vt & K & P & ->) F IHF]; intros ts' F'; inversion F' as [|? t' ? ts2 (kt' & vt' & K' & P' & ->) F2]; subst; auto.
    inversion I; subst. f_equal; auto. f_equal; [eapply string_fun; eauto|]. f_equal. auto.
  - f_equal. f_equal. f_equal. eapply A; eauto.
  - eapply string_fun; eauto.
  - eapply number_text_unique; eauto.
Qed.
(** The printed text is the one the rules give, and no other. *)
Theorem printed_text_is_determined j t : legal j -> (to_string j = t <-> prints j t).
Proof. intros L. split; [intros <-; now apply printed_layout|]. intros H. eapply layout_is_unique; eauto. now apply printed_layout. Qed.
Example layout_example : to_string (JObj [(lit "b/", (JArr [JNull; JBool true; JStr [34; 1; 233; 0x1F600]], []));
    (lit "a", (JNum (dec_to_f64 false 15 (-1)), [JObj []; JArr []]))])
  = lit "{""a"": [], ""a"": {}, ""a"": 1.5, ""b\/"": [null, true, ""\""\u0001\u00E9\uD83D\uDE00""]}"
  /\ legal (JObj [(lit "b/", (JArr [JNull; JBool true; JStr [34; 1; 233; 0x1F600]], [])); (lit "a", (JNum (dec_to_f64 false 15 (-1)), [JObj []; JArr []]))]).
Proof.
  split; [vm_compute; reflexivity|]. constructor; [repeat constructor; cbn; intuition discriminate|].
  repeat constructor; vm_compute; reflexivity.
Qed.

(** The string reader against the RFC grammar. *)
From Verif Require Import Base F64 Utf8 Json Parse SpecGrammar Utf8Proofs.
From Coq Require Import ZifyBool ZifyNat ZifyN.

Definition total {A} (r : res A) : Prop := match r with Ok _ | Err _ => True | Panic | Fuel => False end.
Definition not_ok {A} (r : res A) : Prop := match r with Ok _ => False | _ => True end.

(** ** White space *)
Lemma is_whitespace_ws c : is_whitespace c = true <-> ws_char c.
Proof. unfold is_whitespace, ws_char. cbn. lia. Qed.

Lemma trailing_ws k s : ws s -> trailing k s = Ok tt.
Proof. induction 1 as [|c s H _ IH]; cbn; auto. apply is_whitespace_ws in H. now rewrite H. Qed.
Lemma trailing_inv k s u : trailing k s = Ok u -> ws s.
Proof.
  induction s as [|c s IH]; cbn; [intros; constructor|].
  destruct (is_whitespace c) eqn:E; [|discriminate].
  intros H. constructor; [now apply is_whitespace_ws|exact (IH H)].
Qed.
Lemma trailing_total k s : total (trailing k s).
Proof. induction s as [|c s IH]; cbn; auto. destruct (is_whitespace c); cbn; auto. Qed.
Lemma trailing_nonws k s c t : ~ ws_char c -> not_ok (trailing k (s ++ c :: t)).
Proof.
  intros H. destruct (trailing k (s ++ c :: t)) eqn:E; cbn; auto.
  apply trailing_inv in E. unfold ws in E. apply Forall_app in E as [_ E]. inversion E; auto.
Qed.

(** ** Hex digits *)
Lemma parse_hex_digit_ok c d : parse_hex_digit c = Ok d <-> hexdig c d.
Proof.
  unfold parse_hex_digit, hexdig.
  destruct ((48 <=? c) && (c <=? 57)) eqn:E1.
  { split; [intros [= <-]; lia|]. intros H; f_equal; lia. }
  destruct ((65 <=? c) && (c <=? 70)) eqn:E2.
  { split; [intros [= <-]; lia|]. intros H; f_equal; lia. }
  destruct ((97 <=? c) && (c <=? 102)) eqn:E3.
  { split; [intros [= <-]; lia|]. intros H; f_equal; lia. }
  unfold fail. split; [discriminate|]. lia.
Qed.
Lemma parse_hex_digit_total c : total (parse_hex_digit c).
Proof. unfold parse_hex_digit. repeat destruct (_ && _); cbn; auto. Qed.

Lemma hexdig_bound c d : hexdig c d -> d < 16.
Proof. unfold hexdig; lia. Qed.
Lemma hexdig_fun c d d' : hexdig c d -> hexdig c d' -> d = d'.
Proof. unfold hexdig; lia. Qed.

Lemma hex_acc u d : d < 16 -> N.lor (N.shiftl u 4) d = u * 16 + d.
Proof. intros H. rewrite N.shiftl_mul_pow2. now apply (lor_add u 4). Qed.

Lemma four_hex_bound h u : four_hex h u -> u < 0x10000.
Proof.
  intros (a & b & c & d & x & y & z & w & -> & H1 & H2 & H3 & H4 & ->).
  apply hexdig_bound in H1, H2, H3, H4. lia.
Qed.
Lemma four_hex_fun h u u' : four_hex h u -> four_hex h u' -> u = u'.
Proof.
  intros (a & b & c & d & x & y & z & w & -> & H1 & H2 & H3 & H4 & ->).
  intros (a' & b' & c' & d' & x' & y' & z' & w' & [= <- <- <- <-] & H1' & H2' & H3' & H4' & ->).
  pose proof (hexdig_fun _ _ _ H1 H1'); pose proof (hexdig_fun _ _ _ H2 H2');
  pose proof (hexdig_fun _ _ _ H3 H3'); pose proof (hexdig_fun _ _ _ H4 H4'). lia.
Qed.
Lemma four_hex_length h u : four_hex h u -> List.length h = 4%nat.
Proof. intros (a & b & c & d & x & y & z & w & -> & _). reflexivity. Qed.

Lemma hex_step_ok {A} u c r d (k : N -> str -> res A) : hexdig c d ->
  hex_step u (c :: r) k = k (u * 16 + d) r.
Proof.
  intros H. unfold hex_step. rewrite (proj2 (parse_hex_digit_ok c d) H).
  now rewrite hex_acc by (eapply hexdig_bound; eauto).
Qed.
Lemma hex4_ok {A} h u r (k : N -> str -> res A) : four_hex h u -> hex4 (h ++ r) k = k u r.
Proof.
  intros (a & b & c & d & x & y & z & w & -> & H1 & H2 & H3 & H4 & ->).
  unfold hex4. cbn [app].
  rewrite (hex_step_ok _ _ _ _ _ H1), (hex_step_ok _ _ _ _ _ H2), (hex_step_ok _ _ _ _ _ H3), (hex_step_ok _ _ _ _ _ H4).
  reflexivity.
Qed.
Lemma hex_step_inv {A} u s (k : N -> str -> res A) v : hex_step u s k = Ok v ->
  exists c r d, s = c :: r /\ hexdig c d /\ k (u * 16 + d) r = Ok v.
Proof.
  unfold hex_step. destruct s as [|c r]; [discriminate|].
  destruct (parse_hex_digit c) as [d| | |] eqn:E; try discriminate.
  intros H. exists c, r, d. apply parse_hex_digit_ok in E. split; auto. split; auto.
  rewrite hex_acc in H; auto. eapply hexdig_bound; eauto.
Qed.
Lemma hex4_inv {A} s (k : N -> str -> res A) v : hex4 s k = Ok v ->
  exists h u r, s = h ++ r /\ four_hex h u /\ k u r = Ok v.
Proof.
  unfold hex4. intros H.
  apply hex_step_inv in H as (a & r1 & x & -> & H1 & H).
  apply hex_step_inv in H as (b & r2 & y & -> & H2 & H).
  apply hex_step_inv in H as (c & r3 & z & -> & H3 & H).
  apply hex_step_inv in H as (d & r4 & w & -> & H4 & H).
  exists [a; b; c; d], ((((0 * 16 + x) * 16 + y) * 16 + z) * 16 + w), r4.
  repeat split; auto. exists a, b, c, d, x, y, z, w. repeat split; auto.
Qed.
Lemma hex_step_total {A} u s (k : N -> str -> res A) :
  (forall u' r, (List.length r < List.length s)%nat -> total (k u' r)) -> total (hex_step u s k).
Proof.
  intros H. unfold hex_step. destruct s as [|c r]; cbn; auto.
  pose proof (parse_hex_digit_total c). destruct (parse_hex_digit c); cbn in *; auto.
Qed.
Lemma hex4_total {A} s (k : N -> str -> res A) :
  (forall u' r, (List.length r < List.length s)%nat -> total (k u' r)) -> total (hex4 s k).
Proof.
  intros H. unfold hex4. apply hex_step_total; intros u1 r1 H1. apply hex_step_total; intros u2 r2 H2.
  apply hex_step_total; intros u3 r3 H3. apply hex_step_total; intros u4 r4 H4. apply H. lia.
Qed.

(** ** One step of the string loop *)
Lemma string_loop_plain acc c r : unescaped c -> string_loop acc (c :: r) = string_loop (acc ++ [c]) r.
Proof.
  unfold unescaped; intros H. cbn [string_loop].
  rewrite if_false by lia. rewrite if_false by lia. now rewrite if_false by lia.
Qed.
Lemma string_loop_simple acc e c r : simple_escape e c ->
  string_loop acc (92 :: e :: r) = string_loop (acc ++ [c]) r.
Proof.
  unfold simple_escape. intros H. cbn in H.
  repeat (destruct H as [[= <- <-]|H]; [reflexivity|]). destruct H.
Qed.
Lemma string_loop_u acc r : string_loop acc (92 :: 117 :: r) =
  hex4 r (fun u r2 =>
    if (0xD800 <=? u) && (u <=? 0xDBFF) then
      match r2 with
      | b :: u' :: r3 =>
          if (b =? BSLASH) && (u' =? 117) then
            hex4 r3 (fun u2 r4 =>
              if (u2 <? 0xDC00) || (0xDFFF <? u2) then
                fail ParseStringError (lit "invalid low surrogate.")
              else push_code (N.lor (N.shiftl (u - 0xD800) 10) (u2 - 0xDC00) + 0x10000) acc
                     (fun acc' => string_loop acc' r4))
          else fail ParseStringError (lit "missing low surrogate.")
      | _ => fail ParseStringError (lit "missing low surrogate.")
      end
    else push_code u acc (fun acc' => string_loop acc' r2)).
Proof. reflexivity. Qed.

Lemma push_code_ok {A} u acc (k : str -> res A) : is_scalar u = true -> push_code u acc k = k (acc ++ [u]).
Proof. intros H. unfold push_code. now rewrite utf8_decode_encode. Qed.

Lemma pair_code hi lo : 0xD800 <= hi <= 0xDBFF -> 0xDC00 <= lo <= 0xDFFF ->
  N.lor (N.shiftl (hi - 0xD800) 10) (lo - 0xDC00) + 0x10000 = 0x10000 + (hi - 0xD800) * 0x400 + (lo - 0xDC00).
Proof.
  intros H1 H2. rewrite N.shiftl_mul_pow2, (lor_add _ 10) by (change (2 ^ 10) with 1024; lia).
  change (2 ^ 10) with 0x400. lia.
Qed.

(** The loop decodes exactly the characters of the grammar. *)
Lemma string_loop_chars raw c : Chars raw c ->
  forall acc r, string_loop acc (raw ++ r) = string_loop (acc ++ c) r.
Proof.
  induction 1 as [|c raw s Hc H IH|e c raw s He H IH|h u raw s Hh Hu H IH|h hi l lo raw s Hh Hl Hhi Hlo H IH];
    intros acc r; cbn [app].
  - now rewrite app_nil_r.
  - rewrite string_loop_plain, IH by auto. now rewrite <- app_assoc.
  - rewrite (string_loop_simple _ _ c), IH by auto. now rewrite <- app_assoc.
  - rewrite string_loop_u. rewrite <- app_assoc, (hex4_ok _ u) by auto.
    pose proof (four_hex_bound _ _ Hh).
    rewrite if_false by lia. rewrite push_code_ok by (unfold is_scalar; lia).
    rewrite IH. now rewrite <- app_assoc.
  - rewrite string_loop_u. rewrite <- app_assoc, (hex4_ok _ hi) by auto. cbn [app].
    rewrite if_true by lia. cbn [N.eqb andb Pos.eqb]. rewrite <- app_assoc, (hex4_ok _ lo) by auto.
    rewrite if_false by lia. rewrite pair_code by auto. rewrite push_code_ok by (unfold is_scalar; lia).
    rewrite IH. now rewrite <- app_assoc.
Qed.

Lemma string_loop_end acc w : ws w -> string_loop acc (34 :: w) = Ok (JStr acc).
Proof. intros H. cbn. now rewrite trailing_ws. Qed.

Lemma parse_string_ok raw c w : Chars raw c -> ws w ->
  parse_string ([34] ++ raw ++ [34] ++ w) = Ok (JStr c).
Proof.
  intros H Hw. unfold parse_string. cbn [app tl].
  rewrite (string_loop_chars _ _ H). now apply string_loop_end.
Qed.

(** Conversely. *)
Lemma string_loop_inv s : scalar_str s = true -> forall acc v, string_loop acc s = Ok v ->
  exists raw c w, s = raw ++ [34] ++ w /\ Chars raw c /\ ws w /\ v = JStr (acc ++ c).
Proof.
  remember (List.length s) as n eqn:Hn. revert s Hn.
  induction n as [n IH0] using lt_wf_ind. intros s -> Hs acc v.
  assert (IH : forall s' acc v, string_loop acc s' = Ok v -> (List.length s' < List.length s)%nat -> scalar_str s' = true ->
    exists raw c w, s' = raw ++ [34] ++ w /\ Chars raw c /\ ws w /\ v = JStr (acc ++ c))
    by (intros s' acc' v' H1 H2 H3; exact (IH0 _ H2 s' eq_refl H3 acc' v' H1)).
  clear IH0.
  destruct s as [|c r]; [discriminate|].
  unfold scalar_str in *. cbn [forallb] in Hs. apply andb_true_iff in Hs as [Hc Hs].
  assert (Hcb : c < 0x110000) by (unfold is_scalar in Hc; lia).
  destruct (N.eqb_spec c 34) as [->|Hq].
  { cbn [string_loop N.eqb Pos.eqb]. destruct (trailing ParseStringError r) eqn:E; try discriminate.
    intros [= <-]. exists [], [], r. rewrite app_nil_r. repeat split; auto; [constructor|].
    eapply trailing_inv; eauto. }
  destruct (N.eqb_spec c 92) as [->|Hb].
  { destruct r as [|e r1]; [discriminate|].
    cbn [forallb] in Hs. apply andb_true_iff in Hs as [_ Hs].
    assert (S1 : forall c', simple_escape e c' -> string_loop acc (92 :: e :: r1) = Ok v ->
       exists raw c w, 92 :: e :: r1 = raw ++ [34] ++ w /\ Chars raw c /\ ws w /\ v = JStr (acc ++ c)).
    { intros c' He H. rewrite (string_loop_simple _ _ c') in H by auto.
      apply IH in H as (raw & c & w & E & H1 & H2 & H3); [|cbn; lia|auto].
      exists (92 :: e :: raw), (c' :: c), w. rewrite E. repeat split; auto.
      - now constructor.
      - now rewrite H3, <- app_assoc. }
    unfold simple_escape in S1.
    destruct (N.eqb_spec e 34) as [->|]; [apply (S1 34); cbn; auto 10|].
    destruct (N.eqb_spec e 92) as [->|]; [apply (S1 92); cbn; auto 10|].
    destruct (N.eqb_spec e 47) as [->|]; [apply (S1 47); cbn; auto 10|].
    destruct (N.eqb_spec e 98) as [->|]; [apply (S1 8); cbn; auto 10|].
    destruct (N.eqb_spec e 102) as [->|]; [apply (S1 12); cbn; auto 10|].
    destruct (N.eqb_spec e 110) as [->|]; [apply (S1 10); cbn; auto 10|].
    destruct (N.eqb_spec e 114) as [->|]; [apply (S1 13); cbn; auto 10|].
    destruct (N.eqb_spec e 116) as [->|]; [apply (S1 9); cbn; auto 10|].
    destruct (N.eqb_spec e 117) as [->|].
    - rewrite string_loop_u. intros H. apply hex4_inv in H as (h & u & r2 & -> & Hh & H).
      rewrite forallb_app in Hs. apply andb_true_iff in Hs as [_ Hs].
      pose proof (four_hex_bound _ _ Hh) as Hub. pose proof (four_hex_length _ _ Hh) as Hlen.
      destruct ((0xD800 <=? u) && (u <=? 0xDBFF)) eqn:Eu.
      + destruct r2 as [|b [|u' r3]]; try discriminate.
        destruct ((b =? 92) && (u' =? 117)) eqn:Eb; [|discriminate].
        apply andb_true_iff in Eb as [E1 E2]. apply N.eqb_eq in E1 as ->. apply N.eqb_eq in E2 as ->.
        apply hex4_inv in H as (l & lo & r4 & -> & Hl & H).
        pose proof (four_hex_length _ _ Hl) as Hlen2.
        destruct ((lo <? 0xDC00) || (0xDFFF <? lo)) eqn:El; [discriminate|].
        rewrite pair_code in H by lia. rewrite push_code_ok in H by (unfold is_scalar; lia).
        cbn [forallb] in Hs. apply andb_true_iff in Hs as [_ Hs]. apply andb_true_iff in Hs as [_ Hs].
        rewrite forallb_app in Hs. apply andb_true_iff in Hs as [_ Hs].
        apply IH in H as (raw & c & w & E & H1 & H2 & H3); [|cbn; rewrite app_length; cbn; rewrite app_length; lia|auto].
        exists (92 :: 117 :: h ++ 92 :: 117 :: l ++ raw), ((0x10000 + (u - 0xD800) * 0x400 + (lo - 0xDC00)) :: c), w.
        rewrite E. split; [cbn; rewrite <- app_assoc; cbn; now rewrite <- app_assoc|].
        split; [|split]; auto.
        * constructor; auto; lia.
        * now rewrite H3, <- app_assoc.
      + destruct (N.le_gt_cases 0xD800 u) as [Hge|Hlt];
        [destruct (N.le_gt_cases u 0xDFFF) as [Hle|Hgt]|].
        * unfold push_code in H. rewrite decode_encode_surrogate in H by lia. discriminate.
        * rewrite push_code_ok in H by (unfold is_scalar; lia).
          apply IH in H as (raw & c & w & E & H1 & H2 & H3); [|cbn; rewrite app_length; lia|auto].
          exists (92 :: 117 :: h ++ raw), (u :: c), w. rewrite E. split; [cbn; now rewrite <- app_assoc|].
          split; [|split]; auto. { constructor; auto; lia. } now rewrite H3, <- app_assoc.
        * rewrite push_code_ok in H by (unfold is_scalar; lia).
          apply IH in H as (raw & c & w & E & H1 & H2 & H3); [|cbn; rewrite app_length; lia|auto].
          exists (92 :: 117 :: h ++ raw), (u :: c), w. rewrite E. split; [cbn; now rewrite <- app_assoc|].
          split; [|split]; auto. { constructor; auto; lia. } now rewrite H3, <- app_assoc.
    - cbn [string_loop N.eqb Pos.eqb].
      do 9 (rewrite if_false by lia). discriminate. }
  destruct (N.leb_spec c 0x1F) as [Hlow|Hlow].
  { cbn [string_loop]. rewrite if_false by lia. rewrite if_false by lia. rewrite if_true by lia. discriminate. }
  assert (Hu : unescaped c) by (unfold unescaped; lia).
  rewrite string_loop_plain by auto. intros H.
  apply IH in H as (raw & c' & w & E & H1 & H2 & H3); [|cbn; lia|auto].
  exists (c :: raw), (c :: c'), w. rewrite E. repeat split; auto.
  - now constructor.
  - now rewrite H3, <- app_assoc.
Qed.

Lemma parse_string_inv s v : scalar_str s = true -> parse_string s = Ok v ->
  exists raw c w, tl s = raw ++ [34] ++ w /\ Chars raw c /\ ws w /\ v = JStr c.
Proof.
  intros Hs H. unfold parse_string in H. destruct s as [|q s]; [discriminate|].
  cbn [tl] in *. unfold scalar_str in Hs; cbn [forallb] in Hs. apply andb_true_iff in Hs as [_ Hs].
  apply string_loop_inv in H; auto.
Qed.

(** No panic, whatever the text. *)
Lemma string_loop_total s : forall acc, total (string_loop acc s).
Proof.
  remember (List.length s) as n eqn:Hn. revert s Hn.
  induction n as [n IH] using lt_wf_ind. intros s -> acc.
  destruct s as [|c r]; cbn; auto.
  destruct (c =? 34). { pose proof (trailing_total ParseStringError r). destruct (trailing _ _); auto. }
  destruct (c =? 92).
  - destruct r as [|e r1]; cbn; auto.
    repeat (match goal with |- total (if ?b then _ else _) => destruct b end;
            [try (eapply IH; [|reflexivity]; cbn; lia)|]); [|exact I].
    apply hex4_total. intros u r2 Hr2.
    assert (P : forall u' r', (List.length r' <= List.length r2)%nat -> total (push_code u' acc (fun acc' => string_loop acc' r'))).
    { intros u' r' Hr'. unfold push_code. destruct (from_utf8 _); cbn; auto.
      eapply IH; [|reflexivity]; cbn; lia. }
    destruct (_ && _); [|apply P; lia].
    destruct r2 as [|b [|u' r3]]; cbn; auto.
    destruct (_ && _); cbn; auto.
    apply hex4_total. intros u2 r4 Hr4. destruct (_ || _); cbn; auto. apply P. cbn; lia.
  - destruct (c <=? 31); cbn; auto. eapply IH; [|reflexivity]; cbn; lia.
Qed.

(** Decoded strings are strings. *)
Lemma Chars_scalar raw c : Chars raw c -> scalar_str raw = true -> scalar_str c = true.
Proof.
  unfold scalar_str.
  induction 1 as [|c raw s Hc H IH|e c raw s He H IH|h u raw s Hh Hu H IH|h hi l lo raw s Hh Hl Hhi Hlo H IH];
    cbn [forallb]; rewrite ?andb_true_iff; auto.
  - intros [H1 H2]; auto.
  - intros (_ & _ & H2); split; auto. unfold simple_escape in He; cbn in He.
    repeat (destruct He as [[= <- <-]|He]; [reflexivity|]); destruct He.
  - intros (_ & _ & H2). rewrite forallb_app in H2. apply andb_true_iff in H2 as [_ H2]; split; auto.
    pose proof (four_hex_bound _ _ Hh). unfold is_scalar; lia.
  - intros (_ & _ & H2). rewrite forallb_app in H2. apply andb_true_iff in H2 as [_ H2].
    cbn [forallb] in H2. rewrite !andb_true_iff in H2. destruct H2 as (_ & _ & H2).
    rewrite forallb_app in H2. apply andb_true_iff in H2 as [_ H2]; split; auto.
    unfold is_scalar; lia.
Qed.

(** A string token followed by anything but white space is rejected. *)
Lemma parse_string_trailing raw c x : Chars raw c -> ~ ws x -> not_ok (parse_string ([34] ++ raw ++ [34] ++ x)).
Proof.
  intros H Hx. unfold parse_string. cbn [app tl]. rewrite (string_loop_chars _ _ H). cbn [app string_loop N.eqb Pos.eqb].
  destruct (trailing ParseStringError x) eqn:E; cbn; auto. apply Hx. eapply trailing_inv; eauto.
Qed.

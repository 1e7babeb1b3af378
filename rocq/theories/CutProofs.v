(** Texts cut short and texts with something after them. *)
From Verif Require Import Base F64 Utf8 Json Parse SpecGrammar SpecLenient MapProofs Utf8Proofs StringProofs NumberProofs
  ScanProofs GrammarProofs LenientProofs.
From Coq Require Import ZifyBool ZifyNat ZifyN.

(** ** Prefixes of what the scanners copy *)
Lemma Verb_prefix i j s i' j' : Verb i j s i' j' -> forall p q, s = p ++ q ->
  exists p' i'' j'', Verb i j p' i'' j'' /\ (p = p' \/ p = p' ++ [92]).
Proof.
  induction 1 as [i j|i j s i' j' H IH|i j c s i' j' Hc H IH|i j c s i' j' Hc Hn H IH|i j e s i' j' H IH
                 |i j c s i' j' H1 H2 H3 H4 H5 H6 Hn H IH]; intros p q E;
    (destruct p as [|d p]; [exists [], i, j; split; [apply vb_nil|now left]|]); cbn [app] in E; try discriminate.
  - injection E as <- E. destruct (IH p q E) as (p' & a & b & V & [->| ->]);
      exists (34 :: p'), a, b; split; auto using vb_quote.
  - injection E as <- E. destruct (IH p q E) as (p' & a & b & V & [->| ->]);
      exists (c :: p'), a, b; split; auto using vb_open.
  - injection E as <- E. destruct (IH p q E) as (p' & a & b & V & [->| ->]);
      exists (c :: p'), a, b; split; auto using vb_close.
  - injection E as <- E. destruct p as [|d p].
    + exists [], i, j. split; [apply vb_nil|now right].
    + cbn [app] in E. injection E as <- E. destruct (IH p q E) as (p' & a & b & V & [->| ->]);
        exists (92 :: e :: p'), a, b; split; auto using vb_esc.
  - injection E as <- E. destruct (IH p q E) as (p' & a & b & V & [->| ->]);
      exists (c :: p'), a, b; split; auto using vb_other.
Qed.

Section Loops.
Variable rec : str -> res json.
Lemma arr_cut i j s i' j' p q inner acc : Verb i j s i' j' -> s = p ++ q -> not_ok (arr_loop rec i j inner acc p).
Proof.
  intros H E. destruct (Verb_prefix _ _ _ _ _ H p q E) as (p' & a & b & V & [->| ->]).
  - rewrite <- (app_nil_r p'), (arr_verb _ _ _ _ _ _ V). exact I.
  - rewrite (arr_verb _ _ _ _ _ _ V). exact I.
Qed.
Lemma obj_cut_v i j s i' j' p q k v m : Verb i j s i' j' -> s = p ++ q -> not_ok (obj_loop rec i j k v false m p).
Proof.
  intros H E. destruct (Verb_prefix _ _ _ _ _ H p q E) as (p' & a & b & V & [->| ->]).
  - rewrite <- (app_nil_r p'), (obj_verb_v _ _ _ _ _ _ V). exact I.
  - rewrite (obj_verb_v _ _ _ _ _ _ V). exact I.
Qed.
Lemma obj_cut_k i j s i' j' p q k v m : Verb i j s i' j' -> s = p ++ q -> not_ok (obj_loop rec i j k v true m p).
Proof.
  intros H E. destruct (Verb_prefix _ _ _ _ _ H p q E) as (p' & a & b & V & [->| ->]).
  - rewrite <- (app_nil_r p'), (obj_verb_k _ _ _ _ _ _ V). exact I.
  - rewrite (obj_verb_k _ _ _ _ _ _ V). exact I.
Qed.
Lemma ws_app_inv a b : ws (a ++ b) -> ws a /\ ws b.
Proof. apply Forall_app. Qed.
Lemma arr_cut_ws p q inner acc : ws (p ++ q) -> not_ok (arr_loop rec 0 0 inner acc p).
Proof. intros H. apply ws_app_inv in H as [H _]. rewrite <- (app_nil_r p), arr_ws by auto. exact I. Qed.
Lemma obj_cut_ws p q k v b m : ws (p ++ q) -> not_ok (obj_loop rec 0 0 k v b m p).
Proof. intros H. apply ws_app_inv in H as [H _]. rewrite <- (app_nil_r p), obj_ws by auto. exact I. Qed.

(** ** What follows an accepted text *)
Lemma trailing_ext k s x : ~ ws x -> not_ok (trailing k (s ++ x)).
Proof.
  intros H. destruct (trailing k (s ++ x)) eqn:E; cbn; auto. apply trailing_inv in E. apply ws_app_inv in E as [_ E]. auto.
Qed.
Lemma arr_ext s : forall i j inner acc v x, ~ ws x -> arr_loop rec i j inner acc s = Ok v ->
  not_ok (arr_loop rec i j inner acc (s ++ x)).
Proof.
  remember (List.length s) as n eqn:Hn. revert s Hn.
  induction n as [n IH0] using lt_wf_ind. intros s -> i j inner acc v x Hx.
  assert (IH : forall s' i j inner acc, (List.length s' < List.length s)%nat -> arr_loop rec i j inner acc s' = Ok v ->
    not_ok (arr_loop rec i j inner acc (s' ++ x))) by (intros s' ? ? ? ? Hl HR; exact (IH0 _ Hl s' eq_refl _ _ _ _ _ _ Hx HR)).
  clear IH0. destruct s as [|c r]; [discriminate|]. cbn [app arr_loop].
  destruct (_ && _).
  { destruct (rec inner); cbn; auto. intros _. pose proof (trailing_ext ParseArrayError r x Hx). destruct (trailing _ (r ++ x)); cbn in *; tauto. }
  destruct (_ && _).
  { destruct inner; [discriminate|]. destruct r as [|c' r]; cbn [app].
    - destruct (rec _); discriminate.
    - destruct (c' =? 93); [discriminate|]. destruct (rec _); try discriminate. intros H. change (c' :: r ++ x) with ((c' :: r) ++ x).
      apply IH; cbn; auto. }
  destruct (c =? 34); [apply IH; cbn; lia|].
  destruct (_ || _); [apply IH; cbn; lia|].
  destruct (_ || _); [apply IH; cbn; lia|].
  destruct (c =? 92). { destruct r as [|e r1]; [discriminate|]. cbn [app]. apply IH; cbn; lia. }
  destruct (_ && _); apply IH; cbn; lia.
Qed.
Lemma obj_ext s : forall i j k v b m o x, ~ ws x -> obj_loop rec i j k v b m s = Ok o ->
  not_ok (obj_loop rec i j k v b m (s ++ x)).
Proof.
  remember (List.length s) as n eqn:Hn. revert s Hn.
  induction n as [n IH0] using lt_wf_ind. intros s -> i j k v b m o x Hx.
  assert (IH : forall s' i j k v b m, (List.length s' < List.length s)%nat -> obj_loop rec i j k v b m s' = Ok o ->
    not_ok (obj_loop rec i j k v b m (s' ++ x))) by (intros s' ? ? ? ? ? ? Hl HR; exact (IH0 _ Hl s' eq_refl _ _ _ _ _ _ _ _ Hx HR)).
  clear IH0. destruct s as [|c r]; [discriminate|]. cbn [app obj_loop].
  destruct (_ && _).
  { destruct (rec k) as [[]| | |]; cbn; auto. destruct (rec v); cbn; auto. intros _.
    pose proof (trailing_ext ParseObjectError r x Hx). destruct (trailing _ (r ++ x)); cbn in *; tauto. }
  destruct (_ && _).
  { destruct k as [|k0 k]; [discriminate|]. destruct v as [|v0 v]; [discriminate|]. destruct r as [|c' r]; cbn [app].
    - destruct (rec (k0 :: k)) as [[]| | |]; try discriminate. destruct (rec (v0 :: v)); discriminate.
    - destruct (c' =? 125); [discriminate|]. destruct (rec (k0 :: k)) as [[]| | |]; try discriminate.
      destruct (rec (v0 :: v)); try discriminate. intros H. change (c' :: r ++ x) with ((c' :: r) ++ x). apply IH; cbn; auto. }
  destruct (_ && _); [apply IH; cbn; lia|].
  destruct (c =? 34); [apply IH; cbn; lia|].
  destruct (_ || _); [apply IH; cbn; lia|].
  destruct (_ || _); [apply IH; cbn; lia|].
  destruct (c =? 92). { destruct r as [|e r1]; [discriminate|]. cbn [app]. apply IH; cbn; lia. }
  destruct (_ && _); apply IH; cbn; lia.
Qed.
End Loops.

(** Cutting a string: whatever is read as a string, is not with something after it. *)
Lemma string_loop_ext s : forall acc v x, ~ ws x -> string_loop acc s = Ok v -> not_ok (string_loop acc (s ++ x)).
Proof.
  remember (List.length s) as n eqn:Hn. revert s Hn.
  induction n as [n IH0] using lt_wf_ind. intros s -> acc v x Hx.
  assert (IH : forall s' acc, (List.length s' < List.length s)%nat -> string_loop acc s' = Ok v -> not_ok (string_loop acc (s' ++ x)))
    by (intros s' ? Hl HR; exact (IH0 _ Hl s' eq_refl _ _ _ Hx HR)).
  clear IH0. destruct s as [|c r]; [discriminate|].
  destruct (N.eqb_spec c 34) as [->|].
  { intros _. cbn [app string_loop N.eqb Pos.eqb]. pose proof (trailing_ext ParseStringError r x Hx).
    destruct (trailing _ (r ++ x)); cbn in *; tauto. }
  destruct (N.eqb_spec c 92) as [->|].
  - destruct r as [|e r1]; [discriminate|]. destruct (N.eqb_spec e 117) as [->|He].
    + cbn [app]. rewrite !string_loop_u. intros H. apply hex4_inv in H as (h & u & r2 & -> & Hh & H).
      rewrite <- app_assoc, (hex4_ok _ u) by auto.
      assert (Pp : forall u' r', (List.length r' <= List.length r2)%nat -> push_code u' acc (fun acc' => string_loop acc' r') = Ok v ->
         not_ok (push_code u' acc (fun acc' => string_loop acc' (r' ++ x)))).
      { intros u' r' Hr'. unfold push_code. destruct (from_utf8 _); [|discriminate]. apply IH. cbn. rewrite app_length. lia. }
      destruct (_ && _); [|apply Pp; auto].
      destruct r2 as [|b [|u' r3]]; try discriminate. cbn [app]. destruct (_ && _); [|discriminate].
      apply hex4_inv in H as (l & lo & r4 & -> & Hl & H). rewrite <- app_assoc, (hex4_ok _ lo) by auto.
      destruct (_ || _); [discriminate|]. apply Pp; auto. cbn. rewrite app_length. lia.
    + cbn [app string_loop N.eqb Pos.eqb]. rewrite (proj2 (N.eqb_neq e 117) He).
      repeat (match goal with |- (if ?b then _ else _) = _ -> _ => destruct b end;
              [try (apply IH; cbn; lia)|]); discriminate.
  - cbn [app string_loop]. rewrite (proj2 (N.eqb_neq c 34)) by auto. rewrite (proj2 (N.eqb_neq c 92)) by auto.
    destruct (c <=? 31); [discriminate|]. apply IH. cbn; lia.
Qed.
Lemma string_cut raw c p q : Chars raw c -> raw = p ++ q -> forall acc, not_ok (string_loop acc p).
Proof.
  intros H E acc. destruct (string_loop acc p) eqn:Ep; cbn; auto.
  assert (Hx : ~ ws (q ++ [34])).
  { intros Hw. apply ws_app_inv in Hw as [_ Hw]. inversion Hw as [|? ? Hc]; subst. unfold ws_char in Hc; cbn in Hc. lia. }
  pose proof (string_loop_ext _ _ _ _ Hx Ep) as Hn. rewrite app_assoc, <- E, (string_loop_chars _ _ H) in Hn. exact Hn.
Qed.

(** ** Prefixes of RFC values inside containers *)
Lemma value_cut g s v p q : GValue true g s v -> s = p ++ q ->
  forall N, (forall acc, not_ok (arr_loop (parse_ N) 0 0 [] acc p)) /\
            (forall k m, not_ok (obj_loop (parse_ N) 0 0 k [] false m p)).
Proof.
  intros H E N. destruct g.
  - pose proof (proj1 Verb_values _ _ _ _ H eq_refl eq_refl 0%Z (Z.le_refl _)) as V.
    split; intros; [eapply arr_cut|eapply obj_cut_v]; eauto.
  - destruct (bad_in_array s (proj1 unsupported _ _ _ _ H eq_refl)) as (p0 & q0 & E0 & Hp & HV & HA & HO).
    rewrite E in E0. apply app_eq_app in E0 as [l [[-> _]|[-> _]]].
    + split; intros; auto.
    + destruct (HV 0%Z (Z.le_refl _)) as (a & b & V). split; intros; [eapply arr_cut|eapply obj_cut_v]; eauto.
Qed.
(** After a complete value, either nothing helps or the value is in the piece. *)
Lemma value_whole g s v : GValue true g s v ->
  (forall N x, (forall acc, not_ok (arr_loop (parse_ N) 0 0 [] acc (s ++ x))) /\ (forall k m, not_ok (obj_loop (parse_ N) 0 0 k [] false m (s ++ x))))
  \/ Verb 0 0 s 0 0.
Proof.
  intros H. destruct g.
  - right. exact (proj1 Verb_values _ _ _ _ H eq_refl eq_refl 0%Z (Z.le_refl _)).
  - left. destruct (bad_in_array s (proj1 unsupported _ _ _ _ H eq_refl)) as (p0 & q0 & E0 & Hp & HV & HA & HO).
    intros N x. rewrite E0, <- app_assoc. split; intros; auto.
Qed.
Lemma elements_cut g s vs : GElements g s vs -> forall p q, s = p ++ q ->
  forall N acc, not_ok (arr_loop (parse_ N) 0 0 [] acc p).
Proof.
  assert (A : forall g w1 s w2 v p q x, ws w1 -> GValue true g s v -> ws w2 -> w1 ++ s ++ w2 ++ x = p ++ q ->
    (forall N acc, not_ok (arr_loop (parse_ N) 0 0 [] acc p)) \/
    exists l, p = w1 ++ s ++ w2 ++ l /\ x = l ++ q /\ Verb 0 0 s 0 0).
  { intros g0 w1 s0 w2 v p q x H1 Hv H2 E. apply app_eq_app in E as [l [[-> E]|[-> E]]].
    { left. intros N acc. eapply arr_cut_ws. exact H1. }
    apply app_eq_app in E as [l2 [[-> E]|[-> E]]].
    { left. intros N acc. rewrite arr_ws by auto. apply (value_cut _ _ _ _ _ Hv eq_refl). }
    apply app_eq_app in E as [l3 [[-> E]|[-> E]]].
    - left. intros N acc. rewrite arr_ws by auto. destruct (value_whole _ _ _ Hv) as [D|V].
      + apply (D N l2).
      + rewrite (arr_verb _ _ _ _ _ _ V). eapply arr_cut_ws. exact H2.
    - destruct (value_whole _ _ _ Hv) as [D|V].
      + left. intros N acc. rewrite arr_ws by auto. apply (D N).
      + right. exists l3. auto. }
  induction 1 as [g w1 s w2 v H1 Hv H2|g w1 s w2 v g' s' vs H1 Hv H2 Hs IH]; intros p q E N acc.
  - rewrite <- (app_nil_r w2) in E. destruct (A _ _ _ _ _ _ _ _ H1 Hv H2 E) as [D|(l & -> & El & V)]; auto.
    symmetry in El. apply app_eq_nil in El as [-> ->]. rewrite arr_ws by auto. rewrite (arr_verb _ _ _ _ _ _ V).
    rewrite arr_ws by auto. exact I.
  - destruct (A _ _ _ _ _ _ _ _ H1 Hv H2 E) as [D|(l & -> & El & V)]; auto.
    rewrite arr_ws by auto. rewrite (arr_verb _ _ _ _ _ _ V). rewrite arr_ws by auto.
    destruct l as [|c l]; [exact I|]. cbn [app] in El. injection El as <- El.
    destruct (arr_comma_any (parse_ N) ([] ++ s) acc l) as [D|[v' ->]]; auto. eapply IH; eauto.
Qed.
Lemma key_whole raw k : Chars raw k ->
  (forall N m x, not_ok (obj_loop (parse_ N) 0 0 [] [] true m (([34] ++ raw ++ [34]) ++ x))) \/ Verb 0 0 ([34] ++ raw ++ [34]) 0 0.
Proof.
  intros H. pose proof (Verb_string raw k 0 H) as V. destruct (Z.eqb_spec (net raw) 0) as [E|E].
  - right. now rewrite E in V.
  - left. intros N m x. rewrite (obj_verb_k _ _ _ _ _ _ V). apply obj_closed_k; [lia|]. eapply closed_string; eauto.
Qed.
Lemma members_cut g s ms : GMembers g s ms -> forall p q, s = p ++ q ->
  forall N m, not_ok (obj_loop (parse_ N) 0 0 [] [] true m p).
Proof.
  assert (A : forall g w1 raw k w2 w3 s w4 v p q x, ws w1 -> Chars raw k -> ws w2 -> ws w3 -> GValue true g s v -> ws w4 ->
    w1 ++ ([34] ++ raw ++ [34]) ++ w2 ++ [58] ++ w3 ++ s ++ w4 ++ x = p ++ q ->
    (forall N m, not_ok (obj_loop (parse_ N) 0 0 [] [] true m p)) \/
    exists l k', x = l ++ q /\ forall N m, obj_loop (parse_ N) 0 0 [] [] true m p = obj_loop (parse_ N) 0 0 k' s false m l).
  { intros g0 w1 raw k w2 w3 s0 w4 v p q x H1 Hr H2 H3 Hv H4 E. apply app_eq_app in E as [l [[-> E]|[-> E]]].
    { left. intros N m. eapply obj_cut_ws. exact H1. }
    apply app_eq_app in E as [l2 [[E0 E]|[-> E]]].
    { left. intros N m. rewrite obj_ws by auto. eapply obj_cut_k; [|exact E0]. eapply Verb_string; eauto. }
    destruct (key_whole raw k Hr) as [D|Vk]. { left. intros N m. rewrite obj_ws by auto. apply D. }
    apply app_eq_app in E as [l3 [[-> E]|[-> E]]].
    { left. intros N m. rewrite obj_ws by auto. rewrite (obj_verb_k _ _ _ _ _ _ Vk). eapply obj_cut_ws. exact H2. }
    destruct l3 as [|c l3].
    { left. intros N m. rewrite obj_ws by auto. rewrite (obj_verb_k _ _ _ _ _ _ Vk). rewrite obj_ws by auto. exact I. }
    cbn [app] in E. injection E as <- E.
    assert (Step : forall N m y, obj_loop (parse_ N) 0 0 [] [] true m (w1 ++ ([34] ++ raw ++ [34]) ++ w2 ++ 58 :: y)
      = obj_loop (parse_ N) 0 0 ([34] ++ raw ++ [34]) [] false m y).
    { intros N m y. rewrite obj_ws by auto. rewrite (obj_verb_k _ _ _ _ _ _ Vk). rewrite obj_ws by auto. apply obj_colon. }
    apply app_eq_app in E as [l4 [[-> E]|[-> E]]].
    { left. intros N m. rewrite Step. eapply obj_cut_ws. exact H3. }
    apply app_eq_app in E as [l5 [[-> E]|[-> E]]].
    { left. intros N m. rewrite Step, obj_ws by auto. apply (value_cut _ _ _ _ _ Hv eq_refl). }
    destruct (value_whole _ _ _ Hv) as [D|V].
    { left. intros N m. rewrite Step, obj_ws by auto. apply (D N). }
    apply app_eq_app in E as [l6 [[-> E]|[-> E]]].
    { left. intros N m. rewrite Step, obj_ws by auto. rewrite (obj_verb_v _ _ _ _ _ _ V). eapply obj_cut_ws. exact H4. }
    right. exists l6, ([34] ++ raw ++ [34]). split; auto. intros N m. rewrite Step, obj_ws by auto. rewrite (obj_verb_v _ _ _ _ _ _ V).
    rewrite obj_ws by auto. reflexivity. }
  induction 1 as [g w1 raw k w2 w3 s w4 v H1 Hr H2 H3 Hv H4|g w1 raw k w2 w3 s w4 v g' s' ms H1 Hr H2 H3 Hv H4 Hs IH];
    intros p q E N m.
  - rewrite <- (app_nil_r w4) in E. destruct (A _ _ _ _ _ _ _ _ _ _ _ _ H1 Hr H2 H3 Hv H4 E) as [D|(l & k' & El & ->)]; auto.
    symmetry in El. apply app_eq_nil in El as [-> ->]. exact I.
  - destruct (A _ _ _ _ _ _ _ _ _ _ _ _ H1 Hr H2 H3 Hv H4 E) as [D|(l & k' & El & ->)]; auto.
    destruct l as [|c l]; [exact I|]. cbn [app] in El. injection El as <- El.
    destruct (obj_comma_any (parse_ N) k' s m l) as [D|[m' ->]]; auto. eapply IH; eauto.
Qed.

Definition is_number (j : json) : bool := match j with JNum _ => true | _ => false end.
Lemma cut_snoc (s : str) c p q : s ++ [c] = p ++ q -> q <> [] -> exists l, s = p ++ l.
Proof.
  intros E Hq. destruct (exists_last Hq) as (l & c' & ->). rewrite app_assoc in E. apply app_inj_tail in E as [-> _]. now exists l.
Qed.
Lemma parse_cut n g t v : GValue n g t v -> is_number v = false -> forall p q, t = p ++ q -> q <> [] ->
  forall N, not_ok (parse_ N p).
Proof.
  assert (L : forall a b c : N, True) by auto. clear L.
  destruct 1 as [| | |n s neg m e HN|n raw c HC|n|n w Hw Hn|n g s vs HE|n|n w Hw Hn|n g s ms o HM Hg]; intros Hv p q E Hq [|N]; try exact I;
    try discriminate;
    (destruct p as [|c0 p]; [exact I|]).
  - cbn in E. injection E as <- E. cbn [parse_ N.eqb Pos.eqb]. unfold parse_null.
    destruct (str_eqb _ _) eqn:Es; [|exact I]. exfalso. apply str_eqb_eq in Es. cbn in Es. injection Es as ->. cbn in E.
    injection E as <-. auto.
  - cbn in E. injection E as <- E. cbn [parse_ N.eqb Pos.eqb orb]. unfold parse_boolean.
    destruct (str_eqb _ _) eqn:Es; [|destruct (str_eqb _ (lit "false")) eqn:Es'; [|exact I]]; exfalso.
    + apply str_eqb_eq in Es. cbn in Es. injection Es as ->. cbn in E. injection E as <-. auto.
    + apply str_eqb_eq in Es'. cbn in Es'. discriminate.
  - cbn in E. injection E as <- E. cbn [parse_ N.eqb Pos.eqb orb]. unfold parse_boolean.
    destruct (str_eqb _ _) eqn:Es; [|destruct (str_eqb _ (lit "false")) eqn:Es'; [|exact I]]; exfalso.
    + apply str_eqb_eq in Es. cbn in Es. discriminate.
    + apply str_eqb_eq in Es'. cbn in Es'. injection Es' as ->. cbn in E. injection E as <-. auto.
  - cbn [app] in E. injection E as <- E. cbn [parse_ N.eqb Pos.eqb orb]. change (is_digit 34) with false. cbn [orb]. unfold parse_string. cbn [tl].
    destruct (cut_snoc _ _ _ _ E Hq) as [l El]. eapply string_cut; eauto.
  - cbn in E. injection E as <- E. destruct p as [|c1 p]; [destruct N; exact I|]. cbn in E. injection E as <- E.
    symmetry in E. apply app_eq_nil in E as [-> ->]. congruence.
  - cbn in E. injection E as <- E. destruct (cut_snoc _ _ _ _ E Hq) as [l El].
    cbn [parse_ N.eqb Pos.eqb orb]. change (is_digit 91) with false. cbn [orb]. unfold parse_array. cbn [tl].
    destruct p as [|c1 p]; [exact I|]. rewrite El in Hw. inversion Hw as [|? ? Hc]; subst. unfold ws_char in Hc; cbn in Hc.
    rewrite if_false by lia. eapply arr_cut_ws. exact Hw.
  - cbn [app] in E. injection E as <- E. destruct (cut_snoc _ _ _ _ E Hq) as [l El].
    cbn [parse_ N.eqb Pos.eqb orb]. change (is_digit 91) with false. cbn [orb]. unfold parse_array. cbn [tl].
    destruct (elements_head _ _ _ HE) as (c & r & Ec & Hc & _).
    rewrite if_false. { eapply elements_cut; eauto. }
    destruct p as [|c1 p]; auto. rewrite El in Ec. cbn in Ec. injection Ec as -> _. lia.
  - cbn in E. injection E as <- E. destruct p as [|c1 p]; [destruct N; exact I|]. cbn in E. injection E as <- E.
    symmetry in E. apply app_eq_nil in E as [-> ->]. congruence.
  - cbn in E. injection E as <- E. destruct (cut_snoc _ _ _ _ E Hq) as [l El].
    cbn [parse_ N.eqb Pos.eqb orb]. change (is_digit 123) with false. cbn [orb]. unfold parse_object. cbn [tl].
    destruct p as [|c1 p]; [exact I|]. rewrite El in Hw. inversion Hw as [|? ? Hc]; subst. unfold ws_char in Hc; cbn in Hc.
    rewrite if_false by lia. eapply obj_cut_ws. exact Hw.
  - cbn [app] in E. injection E as <- E. destruct (cut_snoc _ _ _ _ E Hq) as [l El].
    cbn [parse_ N.eqb Pos.eqb orb]. change (is_digit 123) with false. cbn [orb]. unfold parse_object. cbn [tl].
    destruct (members_head _ _ _ HM) as (c & r & Ec & _ & Hc).
    rewrite if_false. { eapply members_cut; eauto. }
    destruct p as [|c1 p]; auto. rewrite El in Ec. cbn in Ec. injection Ec as -> _. lia.
Qed.

(** ** Something after a whole value *)
Definition empty_container (j : json) : bool := match j with JArr [] | JObj [] => true | _ => false end.
Lemma top_string_supported n g t v x : GValue n g t v -> n = false -> g = false -> t = ([34] ++ x) -> False.
Proof. destruct 1; intros -> Hg E; cbn in *; discriminate. Qed.
Lemma parse_ext g t v : GValue false g t v -> is_number v = false -> empty_container v = false ->
  forall N x, ~ ws x -> (List.length t < N)%nat -> not_ok (parse_ N (t ++ x)).
Proof.
  intros H Hn He N x Hx HL. destruct g.
  2:{ destruct (proj1 unsupported _ _ _ _ H eq_refl) as (p & q & E & Hp & [[HD _]|(raw & c & E' & Hc & Hne)]).
      - rewrite E, <- app_assoc. apply HD.
      - exfalso. rewrite E', <- app_assoc in E. eapply top_string_supported; eauto. }
  assert (Lz : forall s, str_eqb (s ++ x) s = false).
  { intros s. destruct (str_eqb (s ++ x) s) eqn:E; auto. apply str_eqb_eq in E. exfalso. apply Hx.
    rewrite <- (app_nil_r s) in E at 2. apply app_inv_head in E as ->. constructor. }
  pose proof (proj1 parse_supported _ _ _ _ H eq_refl N HL) as HP.
  destruct N as [|N]; [exact I|].
  assert (H0 : exists n g, g = true /\ GValue n g t v) by eauto. clear H. destruct H0 as (n & g & Eg & H).
  destruct H as [| | |n s neg m e HN|n raw c HC|n|n w Hw Hnw|n g s vs HE|n|n w Hw Hnw|n g s ms o HM Hg]; try discriminate.
  - change (parse_ (S N) (lit "null" ++ x)) with (parse_null (lit "null" ++ x)). unfold parse_null. rewrite (Lz (lit "null")). exact I.
  - change (parse_ (S N) (lit "true" ++ x)) with (parse_boolean (lit "true" ++ x)). unfold parse_boolean. rewrite (Lz (lit "true")).
    destruct (str_eqb _ _) eqn:E; [|exact I]. apply str_eqb_eq in E. discriminate.
  - change (parse_ (S N) (lit "false" ++ x)) with (parse_boolean (lit "false" ++ x)). unfold parse_boolean. rewrite (Lz (lit "false")).
    destruct (str_eqb _ _) eqn:E; [|exact I]. apply str_eqb_eq in E. discriminate.
  - rewrite <- !app_assoc. cbn [app parse_ N.eqb Pos.eqb orb]. change (is_digit 34) with false. cbn [orb].
    apply (parse_string_trailing raw c x HC Hx).
  - revert HP. rewrite <- !app_assoc. cbn [app parse_ N.eqb Pos.eqb orb]. change (is_digit 91) with false. cbn [orb]. unfold parse_array. cbn [tl].
    destruct (elements_head _ _ _ HE) as (c & r & Ec & Hc & _).
    rewrite if_false by (rewrite Ec; cbn; lia). rewrite if_false by (rewrite Ec; cbn; lia).
    intros HP. change (s ++ 93 :: x) with (s ++ [93] ++ x). rewrite app_assoc. eapply arr_ext; eauto.
  - revert HP. rewrite <- !app_assoc. cbn [app parse_ N.eqb Pos.eqb orb]. change (is_digit 123) with false. cbn [orb]. unfold parse_object. cbn [tl].
    destruct (members_head _ _ _ HM) as (c & r & Ec & _ & Hc).
    rewrite if_false by (rewrite Ec; cbn; lia). rewrite if_false by (rewrite Ec; cbn; lia).
    intros HP. change (s ++ 125 :: x) with (s ++ [125] ++ x). rewrite app_assoc. eapply obj_ext; eauto.
Qed.

(** White space between tokens, and the order of members (C86, C87). *)
From Verif Require Import Base F64 Utf8 Json Parse Print SpecGrammar SpecJoin SpecSpan SpecMinify SpecValue MapProofs Utf8Proofs StringProofs NumberProofs ScanProofs GrammarProofs LenientProofs PrintProofs CanonProofs PropsParse PropsPrint UnambigProofs PropsJoin.
From Coq Require Import Permutation ZifyBool ZifyN.
Open Scope N_scope.

(** * C86 *)
Lemma space_ws c : space c = true <-> ws_char c.
Proof. unfold space, ws_char. cbn [In]. lia. Qed.
Lemma sq_ws w r : ws w -> squeeze false (w ++ r) = squeeze false r.
Proof. induction 1 as [|c w Hc H IH]; auto. cbn [app squeeze]. apply space_ws in Hc. now rewrite Hc. Qed.
Definition solid (c : N) : Prop := space c = false /\ c <> 34.
Lemma sq_solid s r : Forall solid s -> squeeze false (s ++ r) = s ++ squeeze false r.
Proof.
  induction 1 as [|c s [Hc Hq] H IH]; auto. cbn [app squeeze]. rewrite Hc. rewrite (proj2 (N.eqb_neq _ _)) by auto. now f_equal.
Qed.
Lemma sq_plain_in s r : Forall (fun c => c <> 34 /\ c <> 92) s -> squeeze true (s ++ r) = s ++ squeeze true r.
Proof.
  induction 1 as [|c s [Hc Hq] H IH]; auto. cbn [app squeeze]. do 2 (rewrite (proj2 (N.eqb_neq _ _)) by auto). cbn. now f_equal.
Qed.
Lemma hex_plain h u : four_hex h u -> Forall (fun c => c <> 34 /\ c <> 92) h.
Proof. intros (a & b & c & d & x & y & z & w & -> & H1 & H2 & H3 & H4 & _). unfold hexdig in *. repeat constructor; lia. Qed.
Lemma sq_chars raw c r : Chars raw c -> squeeze true (raw ++ 34 :: r) = raw ++ 34 :: squeeze false r.
Proof.
  induction 1 as [|c raw s Hc H IH|e c raw s He H IH|h u raw s Hh Hu H IH|h hi l lo raw s Hh Hl Hi Hlo H IH].
  - reflexivity.
  - cbn [app squeeze]. unfold unescaped in Hc. rewrite (proj2 (N.eqb_neq c 92)) by lia. rewrite (proj2 (N.eqb_neq c 34)) by lia. cbn [negb]. now f_equal.
  - cbn [app squeeze N.eqb Pos.eqb]. now rewrite IH.
  - cbn [app squeeze N.eqb Pos.eqb]. rewrite <- !app_assoc, sq_plain_in by (eapply hex_plain; eauto). now rewrite IH.
  - cbn [app squeeze N.eqb Pos.eqb]. rewrite <- !app_assoc, sq_plain_in by (eapply hex_plain; eauto). cbn [app squeeze N.eqb Pos.eqb].
    rewrite <- !app_assoc, sq_plain_in by (eapply hex_plain; eauto). now rewrite IH.
Qed.
Lemma sq_string raw c r : Chars raw c -> squeeze false (([34] ++ raw ++ [34]) ++ r) = ([34] ++ raw ++ [34]) ++ squeeze false r.
Proof. intros H. rewrite <- !app_assoc. cbn [app squeeze space N.eqb Pos.eqb orb]. now rewrite (sq_chars _ _ _ H). Qed.
Lemma digits_solid ds : Forall digit ds -> Forall solid ds.
Proof. apply Forall_impl. intros c H. unfold digit, solid, space in *. lia. Qed.
Lemma number_solid s neg m e : Number s neg m e -> Forall solid s.
Proof.
  intros [n i f fd x xe HI HF HE]. repeat (apply Forall_app; split).
  - destruct n; repeat constructor; discriminate.
  - destruct HI; [repeat constructor; discriminate|]. constructor; [unfold solid, space; lia|now apply digits_solid].
  - destruct HF; [constructor|]. constructor; [unfold solid, space; lia|now apply digits_solid].
  - destruct HE; repeat (constructor; [unfold solid, space; lia|]); try constructor; now apply digits_solid.
Qed.
Ltac tidy := cbn [app]; rewrite ?app_nil_r; repeat (rewrite <- app_assoc; cbn [app]); reflexivity.
Section Any.
Variable eo so : str -> Prop.
Lemma squeeze_grammar :
  (forall n s v, Value eo so n s v -> exists m, Value no_space so n m v /\ forall r, squeeze false (s ++ r) = m ++ squeeze false r) /\
  (forall s vs, Elements eo so s vs -> exists m, Elements no_space so m vs /\ forall r, squeeze false (s ++ r) = m ++ squeeze false r) /\
  (forall s ms, Members eo so s ms -> exists m, Members no_space so m ms /\ forall r, squeeze false (s ++ r) = m ++ squeeze false r).
Proof.
  apply grammar_mind.
  - intros n. exists (lit "null"). split; [constructor|]. intros r. apply sq_solid. repeat constructor; discriminate.
  - intros n. exists (lit "true"). split; [constructor|]. intros r. apply sq_solid. repeat constructor; discriminate.
  - intros n. exists (lit "false"). split; [constructor|]. intros r. apply sq_solid. repeat constructor; discriminate.
  - intros n s neg m e HN HF. exists s. split; [now apply v_num|]. intros r. apply sq_solid. eapply number_solid; eauto.
  - intros n raw c HC HS. exists ([34] ++ raw ++ [34]). split; [now apply v_str|]. intros r. eapply sq_string; eauto.
  - intros n w Hw He. exists ([91] ++ [] ++ [93]). split; [apply v_arr0; [constructor|reflexivity]|]. intros r. rewrite <- !app_assoc.
    cbn [app squeeze space N.eqb Pos.eqb orb]. f_equal. rewrite sq_ws by auto. reflexivity.
  - intros n s vs HE (m & Hm & E). exists ([91] ++ m ++ [93]). split; [now apply v_arr|]. intros r. rewrite <- !app_assoc.
    cbn [app squeeze space N.eqb Pos.eqb orb]. f_equal. rewrite E. reflexivity.
  - intros n w Hw He. exists ([123] ++ [] ++ [125]). split; [apply v_obj0; [constructor|reflexivity]|]. intros r. rewrite <- !app_assoc.
    cbn [app squeeze space N.eqb Pos.eqb orb]. f_equal. rewrite sq_ws by auto. reflexivity.
  - intros n s ms o HM (m & Hm & E) HG. exists ([123] ++ m ++ [125]). split; [now apply (v_obj _ _ n m ms)|]. intros r. rewrite <- !app_assoc.
    cbn [app squeeze space N.eqb Pos.eqb orb]. f_equal. rewrite E. reflexivity.
  - intros w1 s w2 v H1 HV (m & Hm & E) H2. exists ([] ++ m ++ []). split; [apply e_one; auto; constructor|]. intros r.
    rewrite <- !app_assoc, sq_ws, E, sq_ws by auto. reflexivity.
  - intros w1 s w2 v s' vs H1 HV (m & Hm & E) H2 HE (m' & Hm' & E'). exists ([] ++ m ++ [] ++ [44] ++ m'). split; [apply e_cons; auto; constructor|]. intros r.
    rewrite <- !app_assoc, sq_ws, E, sq_ws by auto. cbn [app squeeze space N.eqb Pos.eqb orb]. now rewrite E'.
  - intros w1 raw k w2 w3 s w4 v H1 HC HS H2 H3 HV (m & Hm & E) H4. exists ([] ++ ([34] ++ raw ++ [34]) ++ [] ++ [58] ++ [] ++ m ++ []).
    split; [apply m_one; auto; constructor|]. intros r.
    rewrite <- (app_assoc w1), sq_ws by auto. rewrite <- (app_assoc ([34] ++ raw ++ [34])). rewrite (sq_string _ _ _ HC). rewrite <- (app_assoc w2), sq_ws by auto.
    cbn [app squeeze space N.eqb Pos.eqb orb]. rewrite <- (app_assoc w3), sq_ws by auto. rewrite <- (app_assoc s), E, sq_ws by auto.
    tidy.
  - intros w1 raw k w2 w3 s w4 v s' ms H1 HC HS H2 H3 HV (m & Hm & E) H4 HM (m' & Hm' & E').
    exists ([] ++ ([34] ++ raw ++ [34]) ++ [] ++ [58] ++ [] ++ m ++ [] ++ [44] ++ m').
    split; [apply m_cons; auto; constructor|]. intros r.
    rewrite <- (app_assoc w1), sq_ws by auto. rewrite <- (app_assoc ([34] ++ raw ++ [34])). rewrite (sq_string _ _ _ HC). rewrite <- (app_assoc w2), sq_ws by auto.
    cbn [app squeeze space N.eqb Pos.eqb orb]. rewrite <- (app_assoc w3), sq_ws by auto. rewrite <- (app_assoc s), E. rewrite <- (app_assoc w4), sq_ws by auto.
    cbn [app squeeze space N.eqb Pos.eqb orb]. rewrite E'. tidy.
Qed.
(** Leaving out the white space between tokens leaves a text of the same value, without white space in empty containers. *)
Theorem minified_text_denotes_the_same s v : Text eo so s v -> Text no_space so (minified s) v.
Proof.
  intros (w1 & t & w2 & H1 & H2 & HV & ->). destruct (proj1 squeeze_grammar _ _ _ HV) as (m & Hm & E).
  exists [], m, []. split; [constructor|]. split; [constructor|]. split; auto. unfold minified. rewrite sq_ws, E by auto.
  rewrite <- (app_nil_r w2), sq_ws by auto. reflexivity.
Qed.
End Any.
(** Without white space between tokens every JSON text whose strings (inside containers) are balanced is accepted. *)
Theorem minified_texts_are_accepted s v : Text anything balanced_raw s v -> parse (minified s) = Ok v.
Proof. intros H. apply parse_supported_text. exact (minified_text_denotes_the_same _ _ _ _ H). Qed.
Theorem minifying_keeps_acceptance s v : JsonText s v -> parse s = Ok v -> parse (minified s) = Ok v.
Proof.
  intros H P. apply (valid_text_accepted_iff _ _ H) in P. apply parse_supported_text. exact (minified_text_denotes_the_same _ _ _ _ P).
Qed.
(** The value depends on the tokens only. *)
Theorem layout_does_not_matter s s' v v' : JsonText s v -> JsonText s' v' -> minified s = minified s' -> v = v'.
Proof.
  intros H H' E. apply minified_text_denotes_the_same in H, H'. rewrite E in H.
  assert (W : forall s v, Text no_space anything s v -> JsonText s v).
  { assert (G : (forall n s v, Value no_space anything n s v -> Value anything anything n s v) /\
      (forall s vs, Elements no_space anything s vs -> Elements anything anything s vs) /\
      (forall s ms, Members no_space anything s ms -> Members anything anything s ms)).
    { apply grammar_mind; intros; try (econstructor; eauto; fail). - now apply v_arr0. - now apply v_obj0. }
    intros t x (w1 & u & w2 & H1 & H2 & HV & ->). exists w1, u, w2. repeat split; auto. now apply G. }
  eapply json_text_unambiguous; eauto.
Qed.
Theorem same_tokens_same_parse s s' v v' : JsonText s v -> JsonText s' v' -> minified s = minified s' ->
  forall w w', parse s = Ok w -> parse s' = Ok w' -> w = w'.
Proof.
  intros H H' E w w' P P'. apply (valid_text_never_misread _ _ _ H) in P as ->. apply (valid_text_never_misread _ _ _ H') in P' as ->.
  eapply layout_does_not_matter; eauto.
Qed.
(** Minifying is final and only takes white space away. *)
Theorem minified_is_minified s : minified (minified s) = minified s.
Proof.
  unfold minified. generalize false. remember (List.length s) as n eqn:Hn. revert s Hn.
  induction n as [n IH0] using lt_wf_ind. intros s -> q.
  assert (IH : forall s' q, (List.length s' < List.length s)%nat -> squeeze q (squeeze q s') = squeeze q s') by (intros; eapply IH0; eauto). clear IH0.
  destruct s as [|c r]; auto. cbn [squeeze]. destruct q.
  - destruct (c =? 92) eqn:E.
    + destruct r as [|e r]; cbn [squeeze]; rewrite E; auto. do 2 f_equal. apply IH. cbn; lia.
    + cbn [squeeze]. rewrite E. f_equal. apply IH. cbn; lia.
  - destruct (space c) eqn:E; [apply IH; cbn; lia|]. cbn [squeeze]. rewrite E. f_equal. apply IH. cbn; lia.
Qed.
Theorem printed_then_minified j : wf j = true -> finite j = true -> balanced j = true -> parse (minified (to_string j)) = Ok j.
Proof.
  intros W F B. apply minifying_keeps_acceptance; [now apply printed_text_is_valid_json|]. now apply print_parse_round_trip.
Qed.
Example minified_case : minified (lit " [ 1 , { ""a b"" : [ ] } ] ") = lit "[1,{""a b"":[]}]" /\
  parse (minified (lit " [ 1 , { ""a b"" : [ ] } ] ")) = Ok (JArr [JNum (dec_to_f64 false 1 0); JObj [(lit "a b", (JArr [], []))]]) /\
  exists e, parse (lit " [ 1 , { ""a b"" : [ ] } ] ") = Err e.
Proof. split; [vm_compute; reflexivity|]. split; [vm_compute; reflexivity|]. eexists; vm_compute; reflexivity. Qed.

Example minified_hypothesis : Text anything balanced_raw (lit "[ ]") (JArr []) /\ parse (minified (lit "[ ]")) = Ok (JArr []) /\ exists e, parse (lit "[ ]") = Err e.
Proof.
  split; [|split; [vm_compute; reflexivity|eexists; vm_compute; reflexivity]]. exists [], (lit "[ ]"), []. split; [constructor|]. split; [constructor|]. split; [|reflexivity].
  apply (v_arr0 _ _ false [32]); [|exact I]. constructor; [now left|constructor].
Qed.

(** * C87 *)
(** Two rows of members make the same object exactly when under each key they have the same values in the same order. *)
Theorem rows_of_members t m ts ms t' m' ts' ms' :
  scalar_str (separated t ts) = true -> scalar_str (separated t' ts') = true ->
  one_member t m -> Forall2 one_member ts ms -> one_member t' m' -> Forall2 one_member ts' ms' ->
  (parse (in_braces (separated t ts)) = parse (in_braces (separated t' ts')) <->
   forall k, values_of k (m :: ms) = values_of k (m' :: ms')).
Proof.
  intros Hs Hs' H1 H2 H1' H2'.
  pose proof (Groups_build (m :: ms)) as G. pose proof (Groups_build (m' :: ms')) as G'.
  assert (P : parse (in_braces (separated t ts)) = Ok (JObj (build [] (m :: ms)))).
  { apply object_texts_come_apart; auto; [eapply groups_nonempty; [exact G|discriminate]|]. exists t, ts, m, ms. auto. }
  assert (P' : parse (in_braces (separated t' ts')) = Ok (JObj (build [] (m' :: ms')))).
  { apply object_texts_come_apart; auto; [eapply groups_nonempty; [exact G'|discriminate]|]. exists t', ts', m', ms'. auto. }
  rewrite P, P'. split.
  - intros E k. assert (X : build [] (m :: ms) = build [] (m' :: ms')) by congruence. clear E. destruct G as [_ G], G' as [_ G']. now rewrite <- G, <- G', X.
  - intros E. do 2 f_equal. eapply Groups_unique; [exact G|]. destruct G' as [S' G']. split; auto. intros k. now rewrite G', E.
Qed.
Lemma values_of_cons2 k k' x ms : values_of k ((k', x) :: ms) = if str_eqb k k' then x :: values_of k ms else values_of k ms.
Proof. unfold values_of. cbn [filter fst]. now destruct (str_eqb k k'). Qed.
Lemma values_of_permutation ms ms' k : Permutation ms ms' -> NoDup (map fst ms) -> values_of k ms = values_of k ms'.
Proof.
  intros P. induction P as [|[k1 x] ms ms' P IH|[k1 x] [k2 y] ms|a b c P1 IH1 P2 IH2]; intros N; auto.
  - cbn in N. inversion N; subst. rewrite !values_of_cons2. now rewrite IH.
  - cbn in N. inversion N as [|? ? Hn N']; subst. rewrite !values_of_cons2. destruct (str_eqb k k1) eqn:E1; auto. destruct (str_eqb k k2) eqn:E2; auto.
    apply str_eqb_eq in E1 as <-. apply str_eqb_eq in E2 as <-. exfalso. apply Hn. now left.
  - rewrite IH1 by auto. apply IH2. eapply Permutation_NoDup; [apply Permutation_map; exact P1|auto].
Qed.
Theorem members_may_be_reordered t m ts ms t' m' ts' ms' :
  scalar_str (separated t ts) = true -> scalar_str (separated t' ts') = true ->
  one_member t m -> Forall2 one_member ts ms -> one_member t' m' -> Forall2 one_member ts' ms' ->
  NoDup (map fst (m :: ms)) -> Permutation (m :: ms) (m' :: ms') ->
  parse (in_braces (separated t ts)) = parse (in_braces (separated t' ts')).
Proof. intros Hs Hs' H1 H2 H1' H2' N P. apply (rows_of_members t m ts ms t' m' ts' ms'); auto. intros k. now apply values_of_permutation. Qed.
(** Elements of arrays keep their order: rows of elements make the same array only if they are the same values in the same order. *)
Theorem rows_of_elements t v ts vs t' v' ts' vs' :
  scalar_str (separated t ts) = true -> scalar_str (separated t' ts') = true ->
  one_element t v -> Forall2 one_element ts vs -> one_element t' v' -> Forall2 one_element ts' vs' ->
  (parse (in_brackets (separated t ts)) = parse (in_brackets (separated t' ts')) <-> v :: vs = v' :: vs').
Proof.
  intros Hs Hs' H1 H2 H1' H2'.
  assert (P : parse (in_brackets (separated t ts)) = Ok (JArr (v :: vs))) by (apply array_texts_come_apart; eauto).
  assert (P' : parse (in_brackets (separated t' ts')) = Ok (JArr (v' :: vs'))) by (apply array_texts_come_apart; eauto).
  rewrite P, P'. split; [intros E; congruence|intros ->; reflexivity].
Qed.
Example reordering_case :
  parse (in_braces (separated (lit """a"": 1") [lit """b"": 2"; lit """a"": 3"])) = parse (in_braces (separated (lit """a"": 1") [lit """a"": 3"; lit """b"": 2"])) /\
  parse (in_braces (separated (lit """a"": 1") [lit """b"": 2"; lit """a"": 3"])) <> parse (in_braces (separated (lit """a"": 3") [lit """b"": 2"; lit """a"": 1"])).
Proof. split; [vm_compute; reflexivity|]. vm_compute. discriminate. Qed.

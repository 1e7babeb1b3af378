(** Properties of [Json::parse] (C01 - C08, C16).  Each theorem is stated with the grammar of
    [SpecGrammar.v] (RFC 8259) or [SpecLenient.v]; examples beside them meet the hypotheses. *)
From Verif Require Import Base F64 Utf8 Json Parse Print Ops Path SpecGrammar SpecLenient SpecNumber
  MapProofs Utf8Proofs StringProofs NumberProofs ScanProofs GrammarProofs LenientProofs FloatProofs DecProofs PrintProofs.
From Coq Require Import ZifyBool ZifyNat ZifyN Reals.
Open Scope N_scope.
Notation if_true := Utf8Proofs.if_true.
Notation is_finite := F64.is_finite.

(** * C01: parsing is total. *)
Theorem parse_is_total s : (exists v, parse s = Ok v) \/ (exists e, parse s = Err e).
Proof. pose proof (parse_total s) as H. destruct (parse s); cbn in H; eauto; contradiction. Qed.
(** Non-trivial inputs of both kinds. *)
Example parse_total_ok : exists v, parse (lit "[{""a"": [1, null]}, ""x""]") = Ok v.
Proof. eexists. vm_compute. reflexivity. Qed.
Example parse_total_err : exists e, parse (lit "[{""a"": [1, null}, ""x""]") = Err e.
Proof. eexists. vm_compute. reflexivity. Qed.

(** * C02: what happens to RFC 8259 texts. *)
Theorem valid_text_outcome s v : JsonText s v ->
  (SupportedText s v -> parse s = Ok v) /\
  (~ SupportedText s v -> exists e, parse s = Err e).
Proof. intros H. split; [apply parse_supported_text|now apply parse_unsupported_text]. Qed.
(** In particular a valid text is never read as a value it does not denote. *)
Corollary valid_text_never_misread s v w : JsonText s v -> parse s = Ok w -> w = v.
Proof.
  intros (w1 & t & w2 & H1 & H2 & H & ->) Hp.
  destruct (proj1 (grammar_flag _ _) _ _ _ H) as [g Hg]. pose proof (parse_rfc g w1 t w2 v H1 H2 Hg) as P.
  destruct g; [|destruct P as [e P]]; congruence.
Qed.
(** Acceptance of a valid text is support, and implies the right value. *)
Corollary valid_text_accepted_iff s v : JsonText s v -> (parse s = Ok v <-> SupportedText s v).
Proof.
  intros H. split; [|apply parse_supported_text]. destruct H as (w1 & t & w2 & H1 & H2 & H & ->). intros Hp.
  destruct (proj1 (grammar_flag _ _) _ _ _ H) as [g Hg]. pose proof (parse_rfc g w1 t w2 v H1 H2 Hg) as P.
  destruct g; [|destruct P as [e P]; congruence]. exists w1, t, w2. repeat split; auto. eapply (proj1 flag_true); eauto.
Qed.

(** A small tactic for concrete derivations. *)
Ltac scal := unfold digit, ws_char, unescaped; cbn; try lia.
Lemma chars_plain s : Forall unescaped s -> Chars s s.
Proof. induction 1; constructor; auto. Qed.
Ltac plain := apply chars_plain; repeat (apply Forall_cons; [scal|]); apply Forall_nil.

Example supported_example : SupportedText (lit " [1, {""k"": ""v""}] ")
  (JArr [JNum (dec_to_f64 false 1 0); JObj [(lit "k", (JStr (lit "v"), []))]]).
Proof.
  exists [32], (lit "[1, {""k"": ""v""}]"), [32]. repeat split; try (repeat (apply Forall_cons; [scal|]); apply Forall_nil).
  apply (v_arr _ _ _ (lit "1, {""k"": ""v""}")).
  apply (e_cons _ _ [] [49] [] (JNum (dec_to_f64 false 1 0)) (lit " {""k"": ""v""}")); try apply Forall_nil.
  { apply (v_num _ _ true [49] false 1 0); [|reflexivity].
    apply (number false [49] [] [] [] 0%Z); [apply int_pos; [lia|apply Forall_nil]|constructor|constructor]. }
  apply (e_one _ _ [32] (lit "{""k"": ""v""}") []); [apply Forall_cons; [scal|apply Forall_nil]| |apply Forall_nil].
  apply (v_obj _ _ _ (lit """k"": ""v""") [(lit "k", JStr (lit "v"))]).
  - apply (m_one _ _ [] (lit "k") (lit "k") [] [32] (lit """v""") []); try apply Forall_nil; try (apply Forall_cons; [scal|apply Forall_nil]).
    + plain.
    + reflexivity.
    + apply (v_str _ _ true (lit "v") (lit "v")); [plain|reflexivity].
  - split; [reflexivity|]. intros k. cbn [hm_get values_of filter map fst]. destruct (str_eqb k (lit "k")); reflexivity.
Qed.

(** The unrestricted claim (every valid text is accepted) is false of the code: *)
Lemma bracket_in_string_valid : JsonText (lit "[""[""]") (JArr [JStr [91]]).
Proof.
  exists [], (lit "[""[""]"), []. repeat split; try apply Forall_nil.
  apply (v_arr _ _ _ (lit """[""")). apply (e_one _ _ [] (lit """[""") []); try apply Forall_nil.
  apply (v_str _ _ true [91] [91]); [plain|exact (fun _ => I)].
Qed.
Theorem not_every_valid_text_is_accepted : exists s v e, JsonText s v /\ parse s = Err e.
Proof.
  exists (lit "[""[""]"), (JArr [JStr [91]]). eexists. split; [apply bracket_in_string_valid|].
  vm_compute. reflexivity.
Qed.
Theorem not_every_empty_array_is_accepted : exists e, JsonText (lit "[ ]") (JArr []) /\ parse (lit "[ ]") = Err e.
Proof.
  eexists. split; [|vm_compute; reflexivity].
  exists [], (lit "[ ]"), []. repeat split; try apply Forall_nil. apply (v_arr0 _ _ false [32]); [|exact I].
  apply Forall_cons; [scal|apply Forall_nil].
Qed.

(** * C03: exactly what is accepted. *)
Theorem parse_accepts_exactly s v : scalar_str s = true -> (parse s = Ok v <-> LenientText s v).
Proof. apply parse_iff_lenient. Qed.
(** More than RFC 8259: *)
Theorem not_only_valid_texts_are_accepted :
  parse (lit "[]garbage") = Ok (JArr []) /\
  parse (lit "[1 2]") = Ok (JArr [JNum (dec_to_f64 false 12 0)]) /\
  parse (lit "{""a""::1:2}") = Ok (JObj [(lit "a", (JNum (dec_to_f64 false 12 0), []))]) /\
  parse (lit "01.5") = Ok (JNum (dec_to_f64 false 15 (-1))).
Proof. vm_compute. repeat split. Qed.
Lemma garbage_not_valid : forall v, ~ JsonText (lit "[]garbage") v.
Proof.
  intros v (w1 & t & w2 & H1 & H2 & H & E).
  assert (w1 = []) as ->. { destruct H1 as [|c w1 Hc _]; auto. cbn in E. injection E as <- _. unfold ws_char in Hc; cbn in Hc. lia. }
  destruct (rev w2) as [|c r] eqn:Er.
  - assert (w2 = []) as -> by (rewrite <- (rev_involutive w2), Er; reflexivity).
    rewrite app_nil_r in E. cbn [app] in E. subst t. 
    inversion H as [| | |n s neg m e HN| |n w Hw He|n s vs Hs|n w Hw He|n s ms o Hs]; subst.
    + apply Number_head in HN as (c & r & E & Hc). injection E as <- _. unfold digit in Hc. lia.
    + match goal with E : _ = _ |- _ => apply (f_equal (@rev _)) in E; cbn in E; rewrite rev_app_distr in E; discriminate E end.
    + match goal with E : _ = _ |- _ => apply (f_equal (@rev _)) in E; cbn in E; rewrite rev_app_distr in E; discriminate E end.
  - apply (f_equal (@rev _)) in E. cbn [app] in E. rewrite rev_app_distr, Er in E. cbn in E. injection E as <- _.
    apply ws_rev in H2. rewrite Er in H2. inversion H2 as [|? ? Hc]. unfold ws_char in Hc; cbn in Hc. lia.
Qed.

(** * C04: literals and strings are parsed exactly. *)
Theorem literals_and_strings_exact w c r v : scalar_str (w ++ c :: r) = true -> ws w -> In c [110; 116; 102; 34] ->
  (parse (w ++ c :: r) = Ok v <-> JsonText (w ++ c :: r) v).
Proof.
  intros Hs Hw Hc. split.
  - intros H. apply parse_accepts_exactly in H; auto. destruct H as (w1 & t & w2 & H1 & H2 & E & N1 & N2 & HL).
    exists w1, t, w2. repeat split; auto.
    assert (Hh : exists t', t = c :: t').
    { pose proof (LValue_nonempty _ _ HL) as Hn. destruct t as [|d t]; [congruence|]. cbn in N1. clear HL N2 Hs.
      revert w1 H1 E. induction w as [|x w IH]; intros w1 H1 E; destruct w1 as [|y w1]; cbn in E.
      - injection E as -> _. eauto.
      - injection E as <- _. inversion H1 as [|? ? Hy]. unfold ws_char in Hy. cbn in *. lia.
      - injection E as -> _. inversion Hw. contradiction.
      - injection E as _ E. inversion Hw; inversion H1; subst. eauto. }
    destruct Hh as [t' ->].
    inversion HL as [| | |s neg m e Hl Hf|raw cs w' HC Hw'|x|s vs w' Hl Hw'|x|s ms o w' Hl Hg Hw']; subst; cbn in Hc; try lia.
    + apply v_null.
    + apply v_true.
    + apply v_false.
    + exfalso. assert (Hd : c = 45 \/ digit c).
      { inversion Hl as [? ? ? ? HN|neg' d ds f fd x xe Hd]; subst.
        - apply Number_head in HN as (c' & r' & E' & Hc'). injection E' as -> _. auto.
        - destruct neg; cbn in *; match goal with E : _ :: _ = _ :: _ |- _ => injection E as <- _ end; [auto|right; unfold digit; lia]. }
      unfold digit in Hd. lia.
    + destruct w' as [|y w'].
      * apply (v_str _ _ false raw cs); auto. intros; exact I.
      * exfalso.
        assert (Hl : exists l z, y :: w' = l ++ [z] /\ ws_char z).
        { destruct (@exists_last _ (y :: w')) as (l & z & El); [discriminate|]. exists l, z. split; auto.
          rewrite El in Hw'. apply Forall_app in Hw' as [_ Hz]. now inversion Hz. }
        destruct Hl as (l & z & El & Hz). rewrite El in N2.
        change (34 :: raw ++ 34 :: l ++ [z]) with ((34 :: raw) ++ (34 :: l) ++ [z]) in N2. rewrite app_assoc, rev_app_distr in N2. cbn in N2. auto.
  - intros H. apply parse_supported_text. destruct H as (w1 & t & w2 & H1 & H2 & H & E).
    exists w1, t, w2. repeat split; auto.
    assert (Hh : exists t', t = c :: t').
    { destruct (proj1 (grammar_flag _ _) _ _ _ H) as [g Hg]. destruct (value_head _ _ _ _ Hg) as (d & t' & -> & Hd).
      clear H Hg Hs. revert w1 H1 E. induction w as [|x w IH]; intros w1 H1 E; destruct w1 as [|y w1]; cbn in E.
      - injection E as -> _. eauto.
      - injection E as <- _. inversion H1 as [|? ? Hy]. unfold ws_char in Hy. cbn in *. lia.
      - injection E as -> _. inversion Hw as [|? ? Hx]. unfold value_start, ws_char, digit in *. cbn in *. lia.
      - injection E as _ E. inversion Hw; inversion H1; subst. eauto. }
    destruct Hh as [t' ->]. remember false as n. clear Hs E.
    inversion H; subst; cbn in Hc; try lia; try (constructor; auto; fail).
    apply (v_str _ _ false raw c0); auto. discriminate.
Qed.
Example literals_hyp : scalar_str (lit "  ""a\u0041""") = true /\ parse (lit "  ""a\u0041""") = Ok (JStr (lit "aA")).
Proof. vm_compute. auto. Qed.

(** * C05: surrounding white space. *)
Theorem surrounding_space_irrelevant w1 s w2 : ws w1 -> ws w2 -> parse (w1 ++ s ++ w2) = parse s.
Proof. apply parse_ws. Qed.

(** * C06: parsed values are well formed. *)
Lemma groups_wf ms o : Groups ms o ->
  Forall (fun kv => scalar_str (fst kv) = true /\ (wf (snd kv) = true /\ finite (snd kv) = true)) ms ->
  wf (JObj o) = true /\ finite (JObj o) = true.
Proof.
  intros [Hs Hg] Hms. rewrite Forall_forall in Hms.
  assert (A : forall k v l, In (k, (v, l)) o -> scalar_str k = true /\ (wf v = true /\ finite v = true) /\
     forall x, In x l -> wf x = true /\ finite x = true).
  { intros k v l Hin. apply hm_In_get in Hin; auto. specialize (Hg k). rewrite Hin in Hg. cbn in Hg.
    assert (B : forall x, In x (rev l ++ [v]) -> scalar_str k = true /\ wf x = true /\ finite x = true).
    { intros x Hx. rewrite Hg in Hx. unfold values_of in Hx. apply in_map_iff in Hx as ([k' x'] & <- & Hx).
      apply filter_In in Hx as [Hx E]. cbn in E. apply str_eqb_eq in E as <-. apply (Hms _ Hx). }
    split; [apply (B v), in_or_app; right; now left|]. split; [apply (B v), in_or_app; right; now left|].
    intros x Hx. apply (B x), in_or_app. left. now apply in_rev in Hx. }
  cbn [wf finite]. rewrite Hs. cbn [andb]. split; apply forallb_forall; intros [k [v l]] Hin; cbn [fst snd];
    destruct (A _ _ _ Hin) as (H1 & (H2 & H3) & H4).
  - rewrite H1, H2. cbn. apply forallb_forall. intros; now apply H4.
  - rewrite H3. cbn. apply forallb_forall. intros; now apply H4.
Qed.
Lemma lenient_wf :
  (forall s v, LValue s v -> scalar_str s = true -> wf v = true /\ finite v = true) /\
  (forall t vs, LElements t vs -> scalar_str t = true -> Forall (fun v => wf v = true /\ finite v = true) vs) /\
  (forall t ms, LMembers t ms -> scalar_str t = true ->
     Forall (fun kv => scalar_str (fst kv) = true /\ (wf (snd kv) = true /\ finite (snd kv) = true)) ms).
Proof.
  apply lenient_mind; auto.
  - intros s neg m e _ Hf _. cbn. split; [|exact Hf]. apply (proj1 (dec_to_f64_rounds neg m e)).
  - intros raw c w HC _ Hs. cbn [app] in Hs. apply scalar_tail, scalar_app in Hs as [Hs _]. cbn. split; auto. eapply Chars_scalar; eauto.
  - intros t vs w _ IH _ Hs. apply scalar_app in Hs as [_ Hs]. apply scalar_app in Hs as [Hs _].
    specialize (IH Hs). rewrite Forall_forall in IH. cbn. split; apply forallb_forall; intros; now apply IH.
  - intros t ms o w _ IH Hg _ Hs. apply scalar_app in Hs as [_ Hs]. apply scalar_app in Hs as [Hs _]. eapply groups_wf; eauto.
  - intros t p v HP _ IH Hs. repeat constructor; apply IH; eapply Skim_scalar; eauto.
  - intros t p v t' vs HP _ IH _ IH' Hs. apply scalar_app in Hs as [Hs Hs']. apply scalar_app in Hs' as [_ Hs'].
    constructor; auto. apply IH. eapply Skim_scalar; eauto.
  - intros tk pk k t p v HK _ IHk HP _ IH Hs. apply scalar_app in Hs as [Hs Hs']. apply scalar_app in Hs' as [_ Hs'].
    constructor; [|constructor]. cbn. split; [|apply IH; eapply Skim_scalar; eauto].
    apply IHk. eapply Skim_scalar; eauto.
  - intros tk pk k t p v t' ms HK _ IHk HP _ IH _ IH' Hs. apply scalar_app in Hs as [Hs Hs']. apply scalar_app in Hs' as [_ Hs'].
    apply scalar_app in Hs' as [Hs1 Hs']. apply scalar_app in Hs' as [_ Hs'].
    constructor; auto. cbn. split; [|apply IH; eapply Skim_scalar; eauto].
    apply IHk. eapply Skim_scalar; eauto.
Qed.
Theorem parsed_values_well_formed s v : scalar_str s = true -> parse s = Ok v -> wf v = true /\ finite v = true.
Proof.
  intros Hs H. apply parse_accepts_exactly in H; auto. destruct H as (w1 & t & w2 & _ & _ & -> & _ & _ & HL).
  apply (proj1 lenient_wf _ _ HL). apply scalar_app in Hs as [_ Hs]. now apply scalar_app in Hs as [Hs _].
Qed.
Example parsed_example : let s := lit "{""k"": [1.5e3, ""\ud83d\ude00""], ""k"": null}" in
  scalar_str s = true /\ exists v, parse s = Ok v.
Proof. vm_compute. split; eauto. Qed.

(** * C07: numbers are correctly rounded. *)
Theorem number_text_correctly_rounded s neg m e : Number s neg m e ->
  let x := decimal_real neg m e in
  ((Rabs x < overflow_bound 53 1024)%R ->
     exists f, parse s = Ok (JNum f) /\ nearest_even 53 1024 x f /\ sign_of f = neg) /\
  ((overflow_bound 53 1024 <= Rabs x)%R -> exists err, parse s = Err err).
Proof.
  intros H x. destruct (dec_to_f64_rounds neg m e) as [_ [R1 R2]]. fold x in R1, R2.
  destruct (Number_head _ _ _ _ H) as (c & r & E & Hc).
  assert (Ht : nonws_ends s).
  { rewrite E in *. split; [exists c, r; split; auto; unfold digit, ws_char in *; cbn; lia|].
    destruct (@exists_last _ (c :: r)) as (l & z & El); [discriminate|]. exists l, z. split; auto.
    apply Number_chars in H. rewrite El in H. apply Forall_app in H as [_ H]. inversion H; subst. now apply num_char_nonws. }
  assert (Hp : parse s = parse_number s).
  { unfold parse. rewrite trim_ws_id by auto. rewrite E. cbn [parse_ List.length].
    rewrite if_false by (unfold digit in Hc; lia). rewrite if_false by (unfold digit in Hc; lia).
    assert (En : (c =? 45) || is_digit c = true) by (apply orb_true_iff; destruct Hc as [->|Hc]; [left; reflexivity|right; now apply is_digit_digit]).
    rewrite En. reflexivity. }
  destruct (lax_number_ok s neg m e (lax_rfc _ _ _ _ H)) as [V F].
  rewrite Hp. unfold parse_number. rewrite V, F. split; intros Hx.
  - destruct (R1 Hx) as [Hn Hs]. exists (dec_to_f64 neg m e). split; [|auto].
    destruct Hn as (_ & Hfin & _). now rewrite Hfin.
  - rewrite (R2 Hx). eexists. reflexivity.
Qed.
(** The same inside containers: the double a number text denotes in the grammar is the correctly rounded one. *)
Theorem denoted_double_correctly_rounded neg m e :
  rounds_to 53 1024 neg (decimal_real neg m e) (dec_to_f64 neg m e).
Proof. apply dec_to_f64_rounds. Qed.
Example number_example : Number (lit "-12.5e-1") true 125 (-2).
Proof. apply (number true [49; 50] (lit ".5") [53] (lit "e-1") (-1)%Z).
  - apply int_pos; [lia|]. apply Forall_cons; [scal|apply Forall_nil].
  - apply frac_some; [discriminate|]. apply Forall_cons; [scal|apply Forall_nil].
  - apply (exp_minus 101 [49]); auto; [discriminate|]. apply Forall_cons; [scal|apply Forall_nil].
Qed.

(** * C08: duplicate keys keep document order. *)
Theorem duplicate_keys_in_order w1 t w2 ms : ws w1 -> ws w2 -> Members no_space balanced_raw t ms ->
  exists j, parse (w1 ++ [123] ++ t ++ [125] ++ w2) = Ok j /\
  forall k, match values_of k ms with
            | [] => (exists e, f_find (Key k) j = Err e /\ kind e = MissingKey) /\
                    (exists e, index_and_merge j k = Err e /\ kind e = MissingKey)
            | _ :: _ => f_find (Key k) j = Ok (last (values_of k ms) JNull) /\
                        index_and_merge j k = Ok (values_of k ms)
            end.
Proof.
  intros H1 H2 Hm. exists (JObj (build [] ms)). pose proof (Groups_build ms) as [Hs Hg]. split.
  - apply parse_supported_text. exists w1, ([123] ++ t ++ [125]), w2. repeat split; auto.
    + eapply v_obj; eauto. apply Groups_build.
    + now rewrite <- !app_assoc.
  - intros k. specialize (Hg k). cbn [f_find index_and_merge]. rewrite <- Hg.
    destruct (hm_get k (build [] ms)) as [[v l]|]; cbn [entry_values].
    + destruct (rev l ++ [v]) as [|x r] eqn:E; [symmetry in E; now apply app_cons_not_nil in E|]. rewrite <- E. split; auto. now rewrite last_last.
    + split; eexists; (split; [reflexivity|reflexivity]).
Qed.
Example duplicate_example : let t := lit """k"":1,""x"":2,""k"":3" in
  exists ms, Members no_space balanced_raw t ms /\ List.length (values_of (lit "k") ms) = 2%nat.
Proof.
  exists [(lit "k", JNum (dec_to_f64 false 1 0)); (lit "x", JNum (dec_to_f64 false 2 0)); (lit "k", JNum (dec_to_f64 false 3 0))].
  assert (N1 : forall d, 49 <= d <= 57 -> Number [d] false (decimal [d]) 0).
  { intros d Hd. pose proof (number false [d] [] [] [] 0%Z) as P. cbn [app] in P. apply P; [apply int_pos; [lia|apply Forall_nil]|constructor|constructor]. }
  assert (V : forall d, In d [49; 50; 51] -> Value no_space balanced_raw true [d] (JNum (dec_to_f64 false (decimal [d]) 0))).
  { intros d Hd. apply (v_num _ _ true [d] false (decimal [d]) 0). { apply N1. cbn in Hd. lia. }
    cbn in Hd. destruct Hd as [<-|[<-|[<-|[]]]]; reflexivity. }
  split; [|reflexivity].
  apply (m_cons _ _ [] (lit "k") (lit "k") [] [] [49] [] (JNum (dec_to_f64 false 1 0)) (lit """x"":2,""k"":3")); try apply Forall_nil; [plain|reflexivity|apply V; cbn; auto|].
  apply (m_cons _ _ [] (lit "x") (lit "x") [] [] [50] [] (JNum (dec_to_f64 false 2 0)) (lit """k"":3")); try apply Forall_nil; [plain|reflexivity|apply V; cbn; auto|].
  apply (m_one _ _ [] (lit "k") (lit "k") [] [] [51] [] (JNum (dec_to_f64 false 3 0))); try apply Forall_nil; [plain|reflexivity|apply V; cbn; auto].
Qed.

(** * C16: string texts, escapes and surrogates. *)
Lemma ws_app_nonws z : ~ ws_char z -> forall w a b t, ws w -> a ++ [z] ++ b = t ++ w ->
  exists b', t = a ++ [z] ++ b' /\ b = b' ++ w.
Proof.
  intros Hz w. induction w as [|x w IH] using rev_ind; intros a b t Hw E.
  - rewrite app_nil_r in E. exists b. rewrite app_nil_r. auto.
  - apply Forall_app in Hw as [Hw Hx]. destruct (@exists_last _ ([z] ++ b)) as (l & y & El); [discriminate|].
    rewrite El, !app_assoc in E. apply app_inj_tail in E as [E ->].
    destruct l as [|z' b1].
    + injection El as -> _. inversion Hx. contradiction.
    + injection El as <- ->. destruct (IH a b1 t Hw E) as (b' & -> & ->). exists b'. split; auto. now rewrite <- app_assoc.
Qed.
Theorem string_text_exact raw c : scalar_str raw = true ->
  (parse ([34] ++ raw ++ [34]) = Ok (JStr c) <-> Chars raw c).
Proof.
  intros Hs. assert (Hs' : scalar_str ([] ++ 34 :: raw ++ [34]) = true).
  { unfold scalar_str in *. cbn. rewrite forallb_app, Hs. reflexivity. }
  split.
  - intros H. apply (literals_and_strings_exact [] 34 (raw ++ [34])) in H; [|auto|constructor|cbn; auto].
    destruct H as (w1 & t & w2 & H1 & H2 & H & E). inversion H as [| | | |n raw' c' HC _| | | |]; subst.
    assert (w1 = []) as ->. { destruct H1 as [|x w1 Hx _]; auto. cbn in E. injection E as <- _. unfold ws_char in Hx; cbn in Hx. lia. }
    assert (w2 = []) as ->.
    { destruct (rev w2) as [|x l] eqn:Er; [now rewrite <- (rev_involutive w2), Er|]. apply ws_rev in H2. rewrite Er in H2.
      apply (f_equal (@rev _)) in E. cbn [app] in E. rewrite app_comm_cons, (app_comm_cons _ w2), !rev_app_distr, Er in E. cbn in E.
      injection E as <- _. inversion H2 as [|? ? Hx]. unfold ws_char in Hx; cbn in Hx. lia. }
    rewrite app_nil_r in E. cbn in E. injection E as E. apply app_inj_tail in E as [<- _]. exact HC.
  - intros H. apply parse_supported_text. exists [], ([34] ++ raw ++ [34]), []. rewrite app_nil_r. repeat split; try constructor; auto. discriminate.
Qed.
(** A lone surrogate escape anywhere in a string makes the whole text an error, whatever follows. *)
Theorem lone_surrogate_rejected pre c h u rest : Chars pre c -> four_hex h u ->
  0xDC00 <= u <= 0xDFFF \/
  (0xD800 <= u <= 0xDBFF /\ ~ exists l lo r, rest = [92; 117] ++ l ++ r /\ four_hex l lo /\ 0xDC00 <= lo <= 0xDFFF) ->
  exists e, parse ([34] ++ pre ++ [92; 117] ++ h ++ rest) = Err e.
Proof.
  intros HC Hh Hu. set (s := [34] ++ _). destruct (parse_is_total s) as [[v Hv]|]; auto. exfalso.
  assert (Ht : exists rest' w, trim_ws s = 34 :: pre ++ 92 :: 117 :: h ++ rest' /\ rest = rest' ++ w).
  { destruct (trim_ws_spec s) as (w1 & w2 & H1 & H2 & E & N1 & N2).
    assert (w1 = []) as ->. { destruct H1 as [|x w1 Hx _]; auto. cbn in E. injection E as <- _. unfold ws_char in Hx; cbn in Hx. lia. }
    destruct Hh as (x1 & x2 & x3 & x4 & d1 & d2 & d3 & d4 & -> & _ & _ & _ & Hd & _).
    destruct (ws_app_nonws x4) with (w := w2) (a := 34 :: pre ++ [92; 117; x1; x2; x3]) (b := rest) (t := trim_ws s) as (b' & Et & Er); auto.
    - unfold hexdig in Hd. unfold ws_char. cbn. lia.
    - cbn [app] in E. rewrite <- E. unfold s. cbn. f_equal. now rewrite <- app_assoc.
    - exists b', w2. split; auto. rewrite Et. cbn. now rewrite <- app_assoc. }
  destruct Ht as (rest' & w & Et & ->). unfold parse in Hv. rewrite Et in Hv.
  cbn [parse_ N.eqb Pos.eqb orb] in Hv. unfold parse_string in Hv. cbn [tl] in Hv.
  rewrite (string_loop_chars _ _ HC) in Hv. cbn [app] in Hv. rewrite string_loop_u, (hex4_ok _ _ _ _ Hh) in Hv.
  destruct Hu as [Hu|[Hu Hn]].
  - cbn beta in Hv. replace ((0xD800 <=? u) && (u <=? 0xDBFF)) with false in Hv by lia. cbv iota in Hv. unfold push_code in Hv. rewrite decode_encode_surrogate in Hv by lia. discriminate.
  - cbn beta in Hv. replace ((0xD800 <=? u) && (u <=? 0xDBFF)) with true in Hv by lia. cbv iota in Hv. destruct rest' as [|b [|u' r3]]; try discriminate.
    destruct ((b =? 92) && (u' =? 117)) eqn:Eb; [|discriminate].
    apply andb_true_iff in Eb as [E1 E2]. apply N.eqb_eq in E1 as ->. apply N.eqb_eq in E2 as ->.
    apply hex4_inv in Hv as (l & lo & r4 & -> & Hl & Hv).
    destruct ((lo <? 0xDC00) || (0xDFFF <? lo)) eqn:El; [discriminate|].
    apply Hn. exists l, lo, (r4 ++ w). cbn. rewrite <- app_assoc. split; auto. split; auto. lia.
Qed.
Example surrogate_examples :
  four_hex (lit "D83D") 0xD83D /\ (exists e, parse (lit """\uD83D""") = Err e) /\ (exists e, parse (lit """\uDE00\uD83D""") = Err e) /\
  parse (lit """\uD83D\uDE00""") = Ok (JStr [0x1F600]) /\ parse (lit """\u20AC""") = Ok (JStr [0x20AC]).
Proof.
  split. { exists 68, 56, 51, 68, 13, 8, 3, 13. unfold hexdig. repeat split; lia. }
  vm_compute. eauto 10.
Qed.

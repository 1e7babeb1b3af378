(** The JSON grammar is unambiguous: a text denotes at most one value. *)
From Verif Require Import Base F64 Json Parse SpecGrammar SpecLenient MapProofs Utf8Proofs StringProofs NumberProofs ScanProofs GrammarProofs.
From Coq Require Import ZifyBool ZifyNat ZifyN.
Open Scope N_scope.

Definition stop (r : str) : Prop := match r with [] => True | c :: _ => ~ num_char c end.
Definition nonws_head (t : str) : Prop := match t with [] => True | c :: _ => ~ ws_char c end.

Lemma ws_split w w' t t' : ws w -> ws w' -> nonws_head t -> nonws_head t' -> w ++ t = w' ++ t' -> w = w' /\ t = t'.
Proof.
  intros Hw. revert w'. induction Hw as [|c w Hc Hw IH]; intros w' Hw' Ht Ht' E.
  - destruct Hw' as [|c' w' Hc' _]; auto. cbn in E. subst t. contradiction.
  - destruct Hw' as [|c' w' Hc' Hw']; cbn in E.
    + subst t'. contradiction.
    + injection E as <- E. destruct (IH w' Hw' Ht Ht' E) as [-> ->]. auto.
Qed.
Lemma prefix_split (P : N -> Prop) s s' r r' : Forall P s -> Forall P s' ->
  match r with [] => True | c :: _ => ~ P c end -> match r' with [] => True | c :: _ => ~ P c end ->
  s ++ r = s' ++ r' -> s = s' /\ r = r'.
Proof.
  intros H. revert s'. induction H as [|c s Hc H IH]; intros s' H' Hr Hr' E.
  - destruct H' as [|c' s' Hc' _]; auto. cbn in E. subst r. contradiction.
  - destruct H' as [|c' s' Hc' H']; cbn in E.
    + subst r'. contradiction.
    + injection E as <- E. destruct (IH s' H' Hr Hr' E) as [-> ->]. auto.
Qed.
Lemma app_same_length {A} (a b c d : list A) : List.length a = List.length b -> a ++ c = b ++ d -> a = b /\ c = d.
Proof.
  revert b. induction a as [|x a IH]; intros [|y b] H E; try discriminate; auto.
  cbn in *. injection E as <- E. injection H as H. destruct (IH b H E) as [-> ->]. auto.
Qed.
Lemma four_hex_split h u h' u' r r' : four_hex h u -> four_hex h' u' -> h ++ r = h' ++ r' -> h = h' /\ u = u' /\ r = r'.
Proof.
  intros H H' E. destruct (app_same_length h h' r r') as [-> ->]; auto.
  { now rewrite (four_hex_length _ _ H), (four_hex_length _ _ H'). }
  split; auto. split; auto. eapply four_hex_fun; eauto.
Qed.
Lemma simple_not_u e c : simple_escape e c -> e <> 117.
Proof. unfold simple_escape. cbn. intros H ->. intuition congruence. Qed.
Lemma simple_fun e c c' : simple_escape e c -> simple_escape e c' -> c = c'.
Proof. unfold simple_escape. cbn. intros H H'. intuition congruence. Qed.

Lemma Chars_split raw c : Chars raw c -> forall raw' c' r r', Chars raw' c' -> raw ++ 34 :: r = raw' ++ 34 :: r' ->
  raw = raw' /\ c = c' /\ r = r'.
Proof.
  induction 1 as [|c raw s Hc H IH|e c raw s He H IH|h u raw s Hh Hu H IH|h hi l lo raw s Hh Hl Hhi Hlo H IH];
    intros raw' c' r r' H' E.
  - destruct H'; cbn in E; try discriminate; [injection E as <-; auto|]. injection E as <- E. unfold unescaped in *. lia.
  - destruct H'; cbn in E.
    + injection E as -> E. unfold unescaped in Hc. lia.
    + injection E as <- E. destruct (IH _ _ _ _ H' E) as (-> & -> & ->). auto.
    + injection E as -> E. unfold unescaped in Hc. lia.
    + injection E as -> E. unfold unescaped in Hc. lia.
    + injection E as -> E. unfold unescaped in Hc. lia.
  - pose proof (simple_not_u _ _ He) as Hu.
    destruct H' as [|c1 raw' s' Hc1 H'|e1 c1 raw' s' He1 H'|h1 u1 raw' s' Hh1 Hu1 H'|h1 hi1 l1 lo1 raw' s' Hh1 Hl1 Hhi1 Hlo1 H']; cbn in E.
    + discriminate.
    + injection E as <- E. unfold unescaped in Hc1. lia.
    + injection E as <- E. destruct (IH _ _ _ _ H' E) as (-> & -> & ->). now rewrite (simple_fun _ _ _ He He1).
    + injection E as -> E. congruence.
    + injection E as -> E. congruence.
  - destruct H' as [|c1 raw' s' Hc1 H'|e1 c1 raw' s' He1 H'|h1 u1 raw' s' Hh1 Hu1 H'|h1 hi1 l1 lo1 raw' s' Hh1 Hl1 Hhi1 Hlo1 H']; cbn in E.
    + discriminate.
    + injection E as <- E. unfold unescaped in Hc1. lia.
    + injection E as <- E. now apply simple_not_u in He1.
    + injection E as E. rewrite <- !app_assoc in E. destruct (four_hex_split _ _ _ _ _ _ Hh Hh1 E) as (-> & -> & E').
      destruct (IH _ _ _ _ H' E') as (-> & -> & ->). auto.
    + injection E as E. rewrite <- !app_assoc in E. destruct (four_hex_split _ _ _ _ _ _ Hh Hh1 E) as (-> & -> & E'). lia.
  - destruct H' as [|c1 raw' s' Hc1 H'|e1 c1 raw' s' He1 H'|h1 u1 raw' s' Hh1 Hu1 H'|h1 hi1 l1 lo1 raw' s' Hh1 Hl1 Hhi1 Hlo1 H']; cbn in E.
    + discriminate.
    + injection E as <- E. unfold unescaped in Hc1. lia.
    + injection E as <- E. now apply simple_not_u in He1.
    + injection E as E. rewrite <- !app_assoc in E. destruct (four_hex_split _ _ _ _ _ _ Hh Hh1 E) as (-> & -> & E'). lia.
    + injection E as E. rewrite <- !app_assoc in E. destruct (four_hex_split _ _ _ _ _ _ Hh Hh1 E) as (-> & -> & E').
      cbn in E'. injection E' as E'. rewrite <- !app_assoc in E'. destruct (four_hex_split _ _ _ _ _ _ Hl Hl1 E') as (-> & -> & E'').
      destruct (IH _ _ _ _ H' E'') as (-> & -> & ->). auto.
Qed.

Lemma Number_split s neg m e s' neg' m' e' r r' : Number s neg m e -> Number s' neg' m' e' -> stop r -> stop r' ->
  s ++ r = s' ++ r' -> s = s' /\ dec_to_f64 neg m e = dec_to_f64 neg' m' e' /\ r = r'.
Proof.
  intros H H' Hr Hr' E. destruct (prefix_split num_char s s' r r') as [Es Er]; eauto using Number_chars. subst s'.
  split; auto. split; auto. destruct (lax_number_ok _ _ _ _ (lax_rfc _ _ _ _ H)) as [_ F].
  destruct (lax_number_ok _ _ _ _ (lax_rfc _ _ _ _ H')) as [_ F']. congruence.
Qed.

Notation AValue := (Value anything anything).
Notation AElements := (Elements anything anything).
Notation AMembers := (Members anything anything).

Lemma avalue_head n s v : AValue n s v -> exists c r, s = c :: r /\ value_start c.
Proof. intros H. destruct (proj1 (grammar_flag _ _) _ _ _ H) as [g Hg]. eapply value_head; eauto. Qed.
Lemma value_start_nonws c : value_start c -> ~ ws_char c.
Proof. unfold value_start, digit, ws_char. cbn. lia. Qed.
Lemma avalue_nonws n s v r : AValue n s v -> nonws_head (s ++ r).
Proof. intros H. destruct (avalue_head _ _ _ H) as (c & t & -> & Hc). cbn. now apply value_start_nonws. Qed.
Lemma stop_ws w c r : ws w -> ~ num_char c -> stop (w ++ c :: r).
Proof. intros [|x w' Hx _] Hc; cbn; auto. unfold ws_char, num_char, digit in *. cbn in Hx. lia. Qed.
Lemma num_comma : ~ num_char 44. Proof. unfold num_char, digit. lia. Qed.
Lemma num_brack : ~ num_char 93. Proof. unfold num_char, digit. lia. Qed.
Lemma num_brace : ~ num_char 125. Proof. unfold num_char, digit. lia. Qed.
Lemma nw c r : ~ ws_char c -> nonws_head (c :: r).
Proof. auto. Qed.
Lemma ws_comma : ~ ws_char 44. Proof. unfold ws_char; cbn; lia. Qed.
Lemma ws_brack : ~ ws_char 93. Proof. unfold ws_char; cbn; lia. Qed.
Lemma ws_brace : ~ ws_char 125. Proof. unfold ws_char; cbn; lia. Qed.
Lemma ws_quote : ~ ws_char 34. Proof. unfold ws_char; cbn; lia. Qed.
Lemma ws_colon : ~ ws_char 58. Proof. unfold ws_char; cbn; lia. Qed.

Ltac hd := solve [eassumption | apply nw, ws_comma | apply nw, ws_brack | apply nw, ws_brace | apply nw, ws_quote | apply nw, ws_colon
  | eapply avalue_nonws; eassumption].

(** An element list starts with a value after white space. *)
Lemma elements_shape s vs : AElements s vs -> exists w n t v r, s = w ++ t ++ r /\ ws w /\ AValue n t v.
Proof.
  destruct 1 as [w1 s w2 v H1 H H2|w1 s w2 v s' vs H1 H H2 H'].
  - exists w1, true, s, v, w2. auto.
  - exists w1, true, s, v, (w2 ++ [44] ++ s'). auto.
Qed.
Lemma members_shape s ms : AMembers s ms -> exists w r, s = w ++ 34 :: r /\ ws w.
Proof.
  destruct 1 as [w1 raw k w2 w3 s w4 v H1|w1 raw k w2 w3 s w4 v s' ms H1]; exists w1; cbn; eauto.
Qed.

Lemma split_all :
  (forall n s v, AValue n s v -> forall n' s' v' r r', AValue n' s' v' -> stop r -> stop r' -> s ++ r = s' ++ r' ->
     s = s' /\ v = v' /\ r = r') /\
  (forall s vs, AElements s vs -> forall s' vs' r r', AElements s' vs' -> s ++ 93 :: r = s' ++ 93 :: r' ->
     s = s' /\ vs = vs' /\ r = r') /\
  (forall s ms, AMembers s ms -> forall s' ms' r r', AMembers s' ms' -> s ++ 125 :: r = s' ++ 125 :: r' ->
     s = s' /\ ms = ms' /\ r = r').
Proof.
  assert (NH : forall s neg m e r c t, Number s neg m e -> s ++ r = c :: t -> c = 45 \/ digit c).
  { intros s neg m e r c t H E. destruct (Number_head _ _ _ _ H) as (c' & t' & -> & Hc). injection E as <- _. auto. }
  assert (Ar0 : forall w s vs r r', ws w -> AElements s vs -> w ++ 93 :: r <> s ++ 93 :: r').
  { intros w s vs r r' Hw H E. destruct (elements_shape _ _ H) as (w1 & n & t & v & q & -> & Hw1 & Hv).
    rewrite <- !app_assoc in E. apply ws_split in E as [_ E]; try hd.
    destruct (avalue_head _ _ _ Hv) as (c & t' & -> & Hc). injection E as <- _. unfold value_start, digit in Hc. lia. }
  assert (Ob0 : forall w s ms r r', ws w -> AMembers s ms -> w ++ 125 :: r <> s ++ 125 :: r').
  { intros w s vs r r' Hw H E. destruct (members_shape _ _ H) as (w1 & q & -> & Hw1).
    rewrite <- !app_assoc in E. apply ws_split in E as [_ E]; try hd.
    discriminate. }
  assert (Hn : forall s neg m e r, Number s neg m e -> In (hd 0 (s ++ r)) [110; 116; 102; 34; 91; 123] -> False).
  { intros s neg m e r H Hi. destruct (Number_head _ _ _ _ H) as (c & t & -> & Hc). cbn in Hi. unfold digit in Hc. lia. }
  apply grammar_mind.
  - intros n n' s' v' r r' H' Hr Hr' E; destruct H' as [| | |n' s' neg m e HN Hf|n' raw c HC _|n' w Hw _|n' s' vs HE|n' w Hw _|n' s' ms o HM HG]; cbn in E; try discriminate.
    + injection E as <-. auto.
    + exfalso. eapply (Hn s'); eauto. rewrite <- E. cbn; auto.
  - intros n n' s' v' r r' H' Hr Hr' E; destruct H' as [| | |n' s' neg m e HN Hf|n' raw c HC _|n' w Hw _|n' s' vs HE|n' w Hw _|n' s' ms o HM HG]; cbn in E; try discriminate.
    + injection E as <-. auto.
    + exfalso. eapply (Hn s'); eauto. rewrite <- E. cbn; auto.
  - intros n n' s' v' r r' H' Hr Hr' E; destruct H' as [| | |n' s' neg m e HN Hf|n' raw c HC _|n' w Hw _|n' s' vs HE|n' w Hw _|n' s' ms o HM HG]; cbn in E; try discriminate.
    + injection E as <-. auto.
    + exfalso. eapply (Hn s'); eauto. rewrite <- E. cbn; auto.
  - intros n s neg m e HN Hf n' s' v' r r' H' Hr Hr' E. destruct H' as [| | |n' s' neg' m' e' HN' Hf'|n' raw c HC _|n' w Hw _|n' s' vs HE|n' w Hw _|n' s' ms o HM HG];
      try (exfalso; eapply (Hn s); eauto; rewrite E; cbn; auto 10; fail).
    destruct (Number_split _ _ _ _ _ _ _ _ _ _ HN HN' Hr Hr' E) as (-> & -> & ->). auto.
  - intros n raw c HC _ n' s' v' r r' H' Hr Hr' E. destruct H' as [| | |n' s' neg' m' e' HN' Hf'|n' raw' c' HC' _|n' w Hw _|n' s' vs HE|n' w Hw _|n' s' ms o HM HG]; cbn in E; try discriminate.
    + exfalso; eapply (Hn s'); eauto. rewrite <- E. cbn; auto 10.
    + injection E as E. rewrite <- !app_assoc in E. destruct (Chars_split _ _ HC _ _ _ _ HC' E) as (-> & -> & ->). auto.
  - intros n w Hw _ n' s' v' r r' H' Hr Hr' E. destruct H' as [| | |n' s' neg' m' e' HN' Hf'|n' raw' c' HC' _|n' w' Hw' _|n' s' vs HE|n' w' Hw' _|n' s' ms o HM HG]; cbn in E; try discriminate.
    + exfalso; eapply (Hn s'); eauto. rewrite <- E. cbn; auto 10.
    + injection E as E. rewrite <- !app_assoc in E. apply ws_split in E as [-> E]; try hd. injection E as ->. auto.
    + exfalso. injection E as E. rewrite <- !app_assoc in E. eapply (Ar0 w s'); eauto.
  - intros n s vs HE0 IH n' s' v' r r' H' Hr Hr' E. destruct H' as [| | |n' s' neg' m' e' HN' Hf'|n' raw' c' HC' _|n' w' Hw' _|n' s' vs' HE|n' w' Hw' _|n' s' ms o HM HG]; cbn in E; try discriminate.
    + exfalso; eapply (Hn s'); eauto. rewrite <- E. cbn; auto 10.
    + exfalso. injection E as E. rewrite <- !app_assoc in E. eapply (Ar0 w' s); eauto.
    + injection E as E. rewrite <- !app_assoc in E. destruct (IH _ _ _ _ HE E) as (-> & -> & ->). auto.
  - intros n w Hw _ n' s' v' r r' H' Hr Hr' E. destruct H' as [| | |n' s' neg' m' e' HN' Hf'|n' raw' c' HC' _|n' w' Hw' _|n' s' vs HE|n' w' Hw' _|n' s' ms o HM HG]; cbn in E; try discriminate.
    + exfalso; eapply (Hn s'); eauto. rewrite <- E. cbn; auto 10.
    + injection E as E. rewrite <- !app_assoc in E. apply ws_split in E as [-> E]; try hd. injection E as ->. auto.
    + exfalso. injection E as E. rewrite <- !app_assoc in E. eapply (Ob0 w s'); eauto.
  - intros n s ms o HE0 IH HG n' s' v' r r' H' Hr Hr' E. destruct H' as [| | |n' s' neg' m' e' HN' Hf'|n' raw' c' HC' _|n' w' Hw' _|n' s' vs' HE|n' w' Hw' _|n' s' ms' o' HM HG']; cbn in E; try discriminate.
    + exfalso; eapply (Hn s'); eauto. rewrite <- E. cbn; auto 10.
    + exfalso. injection E as E. rewrite <- !app_assoc in E. eapply (Ob0 w' s); eauto.
    + injection E as E. rewrite <- !app_assoc in E. destruct (IH _ _ _ _ HM E) as (-> & -> & ->). rewrite (Groups_unique _ _ _ HG HG'). auto.
  - intros w1 s w2 v H1 H IH H2 s' vs' r r' H' E.
    destruct H' as [w1' s' w2' v' H1' H' H2'|w1' s' w2' v' s'' vs' H1' H' H2' H''];
      rewrite <- !app_assoc in E; (apply ws_split in E as [-> E]; try hd).
    + destruct (IH _ _ _ _ _ H' (stop_ws _ _ _ H2 num_brack) (stop_ws _ _ _ H2' num_brack) E) as (-> & -> & E').
      apply ws_split in E' as [-> E']; try hd. injection E' as ->. auto.
    + destruct (IH _ _ _ _ _ H' (stop_ws _ _ _ H2 num_brack) (stop_ws _ _ _ H2' num_comma) E) as (-> & -> & E').
      apply ws_split in E' as [-> E']; try hd. discriminate.
  - intros w1 s w2 v s0 vs H1 H IH H2 H0 IH0 s' vs' r r' H' E.
    destruct H' as [w1' s' w2' v' H1' H' H2'|w1' s' w2' v' s'' vs' H1' H' H2' H''];
      rewrite <- !app_assoc in E; (apply ws_split in E as [-> E]; try hd).
    + destruct (IH _ _ _ _ _ H' (stop_ws _ _ _ H2 num_comma) (stop_ws _ _ _ H2' num_brack) E) as (-> & -> & E').
      apply ws_split in E' as [-> E']; try hd. discriminate.
    + destruct (IH _ _ _ _ _ H' (stop_ws _ _ _ H2 num_comma) (stop_ws _ _ _ H2' num_comma) E) as (-> & -> & E').
      apply ws_split in E' as [-> E']; try hd. injection E' as E'.
      destruct (IH0 _ _ _ _ H'' E') as (-> & -> & ->). auto.
  - intros w1 raw k w2 w3 s w4 v H1 HC _ H2 H3 H IH H4 s' ms' r r' H' E.
    destruct H' as [w1' raw' k' w2' w3' s' w4' v' H1' HC' _ H2' H3' H' H4'|w1' raw' k' w2' w3' s' w4' v' s'' ms' H1' HC' _ H2' H3' H' H4' H''];
      rewrite <- !app_assoc in E; (apply ws_split in E as [-> E]; try hd);
      injection E as E; destruct (Chars_split _ _ HC _ _ _ _ HC' E) as (-> & -> & E'); clear E;
      (apply ws_split in E' as [-> E']; try hd); injection E' as E;
      (apply ws_split in E as [-> E]; try hd).
    + destruct (IH _ _ _ _ _ H' (stop_ws _ _ _ H4 num_brace) (stop_ws _ _ _ H4' num_brace) E) as (-> & -> & E').
      apply ws_split in E' as [-> E']; try hd. injection E' as ->. auto.
    + destruct (IH _ _ _ _ _ H' (stop_ws _ _ _ H4 num_brace) (stop_ws _ _ _ H4' num_comma) E) as (-> & -> & E').
      apply ws_split in E' as [-> E']; try hd. discriminate.
  - intros w1 raw k w2 w3 s w4 v s0 ms H1 HC _ H2 H3 H IH H4 H0 IH0 s' ms' r r' H' E.
    destruct H' as [w1' raw' k' w2' w3' s' w4' v' H1' HC' _ H2' H3' H' H4'|w1' raw' k' w2' w3' s' w4' v' s'' ms' H1' HC' _ H2' H3' H' H4' H''];
      rewrite <- !app_assoc in E; (apply ws_split in E as [-> E]; try hd);
      injection E as E; destruct (Chars_split _ _ HC _ _ _ _ HC' E) as (-> & -> & E'); clear E;
      (apply ws_split in E' as [-> E']; try hd); injection E' as E;
      (apply ws_split in E as [-> E]; try hd).
    + destruct (IH _ _ _ _ _ H' (stop_ws _ _ _ H4 num_comma) (stop_ws _ _ _ H4' num_brace) E) as (-> & -> & E').
      apply ws_split in E' as [-> E']; try hd. discriminate.
    + destruct (IH _ _ _ _ _ H' (stop_ws _ _ _ H4 num_comma) (stop_ws _ _ _ H4' num_comma) E) as (-> & -> & E').
      apply ws_split in E' as [-> E']; try hd. injection E' as E'.
      destruct (IH0 _ _ _ _ H'' E') as (-> & -> & ->). auto.
Qed.

(** A text denotes at most one value. *)
Theorem json_text_unambiguous s v v' : JsonText s v -> JsonText s v' -> v = v'.
Proof.
  intros (w1 & t & w2 & H1 & H2 & H & ->) (w1' & t' & w2' & H1' & H2' & H' & E).
  apply ws_split in E as [-> E]; try hd.
  assert (S : forall w, ws w -> stop w).
  { intros w [|c w' Hc _]; cbn; auto. unfold ws_char, num_char, digit in *. cbn in Hc. lia. }
  destruct (proj1 split_all _ _ _ H _ _ _ _ _ H' (S _ H2) (S _ H2') E) as (_ & -> & _). reflexivity.
Qed.

(** Documents cut short, and documents with something after them (C80). *)
From Verif Require Import Base F64 Utf8 Json Parse Print SpecGrammar SpecLenient MapProofs StringProofs NumberProofs ScanProofs GrammarProofs
  LenientProofs PrintProofs PropsParse SpecValue PropsPrint CutProofs.
From Coq Require Import ZifyBool ZifyNat ZifyN.
Local Open Scope N_scope.

Lemma not_number v : (forall f, v <> JNum f) -> is_number v = false.
Proof. destruct v; cbn; auto. intros H. now destruct (H f). Qed.
Lemma not_empty v : v <> JArr [] -> v <> JObj [] -> empty_container v = false.
Proof. destruct v as [[|]|[|]| | | |]; cbn; congruence. Qed.
Lemma not_ws_last (r : str) : (exists r' c, r = r' ++ [c] /\ ~ ws_char c) -> ~ ws r.
Proof. intros (r' & c & -> & Hc) H. apply ws_app_inv in H as [_ H]. inversion H; auto. Qed.
Lemma reject s : not_ok (parse s) -> exists e, parse s = Err e.
Proof. intros H. destruct (parse_is_total s) as [[v E]|]; auto. rewrite E in H. destruct H. Qed.
Lemma trim_prefix l : match l with [] => True | c :: _ => ~ ws_char c end -> exists w, ws w /\ l = trim_ws l ++ w.
Proof.
  intros H. destruct (trim_ws_spec l) as (a & b & Ha & Hb & E & _). exists b. split; auto.
  destruct Ha as [|c a Hc _]; auto. exfalso. rewrite E in H. cbn in H. auto.
Qed.
Lemma parse_front w s : ws w -> parse (w ++ s) = parse s.
Proof. intros H. pose proof (parse_ws w s [] H (Forall_nil _)) as E. now rewrite app_nil_r in E. Qed.

(** ** Cut short: no part of a document's text, other than the whole, is read as a value - unless it is a number. *)
Theorem truncated_document_rejected p r v : JsonText (p ++ r) v -> (forall f, v <> JNum f) -> ~ ws r ->
  exists e, parse p = Err e.
Proof.
  intros (w1 & t & w2 & H1 & H2 & Hv & E) Hn Hr. apply reject.
  destruct (proj1 (grammar_flag _ _) _ _ _ Hv) as [g Hg]. destruct (value_ends _ _ _ _ Hg) as [(c & t' & Et & Hc) _].
  apply app_eq_app in E as [l [[-> E]|[-> E]]].
  2:{ apply ws_app_inv in H1 as [H1 _]. rewrite <- (app_nil_r p), parse_front by auto. exact I. }
  rewrite parse_front by auto. symmetry in E. apply app_eq_app in E as [q [[_ E]|[E1 E2]]].
  { rewrite E in H2. apply ws_app_inv in H2 as [_ H2]. contradiction. }
  destruct (trim_prefix l) as (w & Hw & El). { destruct l as [|d l]; auto. rewrite E1 in Et. cbn in Et. injection Et as -> _. exact Hc. }
  unfold parse. eapply (parse_cut _ _ _ _ Hg (not_number _ Hn) (trim_ws l) (w ++ q)).
  - now rewrite app_assoc, <- El.
  - intros Ew. apply app_eq_nil in Ew as [_ ->]. now rewrite E2 in Hr.
Qed.
(** ** Something after the document: rejected, unless the document is a number or an empty container. *)
Theorem extended_document_rejected s x v : JsonText s v -> (forall f, v <> JNum f) -> v <> JArr [] -> v <> JObj [] -> ~ ws x ->
  exists e, parse (s ++ x) = Err e.
Proof.
  intros (w1 & t & w2 & H1 & H2 & Hv & ->) Hn Ha Ho Hx. apply reject.
  destruct (proj1 (grammar_flag _ _) _ _ _ Hv) as [g Hg]. destruct (value_ends _ _ _ _ Hg) as [(c & t' & Et & Hc) Hlast].
  rewrite <- !app_assoc, parse_front by auto.
  destruct (trim_prefix (t ++ w2 ++ x)) as (w & Hw & El). { rewrite Et. exact Hc. }
  assert (Hx' : ~ ws (w2 ++ x)) by (intros Hw'; apply ws_app_inv in Hw' as [_ Hw']; auto).
  unfold parse. set (u := trim_ws _) in *. apply app_eq_app in El as [l [[E1 E2]|[E1 E2]]].
  - exfalso. apply Hx'. rewrite E2 in Hw. now apply ws_app_inv in Hw as [_ Hw].
  - rewrite E1. apply (parse_ext _ _ _ Hg); auto using not_number, not_empty.
    + intros Hl. apply Hx'. rewrite E2. now apply Forall_app.
    + rewrite app_length. lia.
Qed.
(** Hence, in a stream that starts with such a document, the only part from the start that is read as a value is the document. *)
Theorem document_end_determined s x v p r v' : JsonText s v -> (forall f, v <> JNum f) -> v <> JArr [] -> v <> JObj [] ->
  s ++ x = p ++ r -> parse p = Ok v' ->
  v' = v /\ exists w, ws w /\ (p = s ++ w \/ s = p ++ w).
Proof.
  intros H Hn Ha Ho E Hp.
  assert (D : forall w, ws w \/ ~ ws w).
  { intros w. unfold ws. destruct (Forall_dec ws_char (fun c => in_dec N.eq_dec c _) w); auto. }
  assert (Hw : exists w, ws w /\ (p = s ++ w \/ s = p ++ w)).
  { apply app_eq_app in E as [l [[E1 E2]|[E1 E2]]]; exists l; (split; [|auto]); destruct (D l) as [Hl|Hl]; auto; exfalso.
    - rewrite E1 in H. destruct (truncated_document_rejected _ _ _ H Hn Hl). congruence.
    - rewrite E1 in Hp. destruct (extended_document_rejected _ _ _ H Hn Ha Ho Hl). congruence. }
  split; auto. destruct Hw as (w & Hw & Ew).
  assert (Es : parse s = parse p).
  { destruct Ew as [-> | ->].
    - symmetry. exact (surrounding_space_irrelevant [] s w (Forall_nil _) Hw).
    - exact (surrounding_space_irrelevant [] p w (Forall_nil _) Hw). }
  eapply valid_text_never_misread; eauto. congruence.
Qed.
(** The same of printed values. *)
Lemma printed_last j : wf j = true -> finite j = true -> forall p r, to_string j = p ++ r -> r <> [] -> ~ ws r.
Proof.
  intros Hw Hf p r E Hr. destruct (value_ends _ _ _ _ (to_string_grammar j Hw Hf false)) as [_ (l & c & El & Hc)].
  apply not_ws_last. destruct (exists_last Hr) as (r' & c' & ->). rewrite E, app_assoc in El. apply app_inj_tail in El as [_ ->].
  eauto.
Qed.
Theorem truncated_output_rejected j p r : wf j = true -> finite j = true -> (forall f, j <> JNum f) ->
  to_string j = p ++ r -> r <> [] -> exists e, parse p = Err e.
Proof.
  intros Hw Hf Hn E Hr. apply (truncated_document_rejected p r j); auto; [|eapply printed_last; eauto].
  rewrite <- E. now apply printed_text_is_valid_json.
Qed.
Theorem extended_output_rejected j x : wf j = true -> finite j = true -> (forall f, j <> JNum f) -> j <> JArr [] -> j <> JObj [] ->
  ~ ws x -> exists e, parse (to_string j ++ x) = Err e.
Proof. intros Hw Hf. intros. eapply extended_document_rejected; eauto. now apply printed_text_is_valid_json. Qed.
(** Two printed values written one after the other: where the first ends can be told. *)
Theorem output_self_delimiting j j' x x' : wf j = true -> finite j = true -> balanced j = true -> (forall f, j <> JNum f) ->
  wf j' = true -> finite j' = true -> balanced j' = true -> (forall f, j' <> JNum f) ->
  to_string j ++ x = to_string j' ++ x' -> j = j' /\ x = x'.
Proof.
  intros W F B Hn W' F' B' Hn' E.
  assert (A : forall a b l, wf a = true -> finite a = true -> wf b = true -> finite b = true -> balanced b = true ->
    (forall f, a <> JNum f) -> to_string a = to_string b ++ l -> a = b /\ l = []).
  { intros a b l Wa Fa Wb Fb Bb Na El. destruct l as [|c l].
    - rewrite app_nil_r in El. split; auto. now apply to_string_injective.
    - exfalso. destruct (truncated_output_rejected a _ _ Wa Fa Na El ltac:(discriminate)) as [e He].
      rewrite print_parse_round_trip in He by auto. discriminate. }
  pose proof E as E0. apply app_eq_app in E as [l [[E1 E2]|[E1 E2]]].
  - destruct (A j j' l) as [-> ->]; auto.
  - destruct (A j' j l) as [<- ->]; auto.
Qed.

(** *** The excepted documents are: part of a number is a number, and anything may follow [[]] and [{}]. *)
Theorem part_of_number_accepted : exists p r v v', JsonText (p ++ r) v /\ ~ ws r /\ parse p = Ok v' /\ v' <> v.
Proof.
  exists (lit "1"), (lit "2"), (JNum (dec_to_f64 false 12 0)), (JNum (dec_to_f64 false 1 0)).
  split; [|split; [|split]].
  - exists [], (lit "12"), []. split; [constructor|]. split; [constructor|]. split; [|reflexivity].
    apply (v_num _ _ false (lit "12") false 12 0); [|vm_compute; reflexivity].
    apply (number false (lit "12") [] [] [] 0%Z); [|apply frac_none|apply exp_none].
    apply (int_pos 49 [50]); [lia|]. apply Forall_cons; [scal|apply Forall_nil].
  - intros H. inversion H as [|? ? Hc]; subst. unfold ws_char in Hc. cbn in Hc. lia.
  - vm_compute. reflexivity.
  - vm_compute. discriminate.
Qed.
Theorem anything_after_empty_container x : parse (lit "[]" ++ x) = Ok (JArr []) /\ parse (lit "{}" ++ x) = Ok (JObj []).
Proof.
  assert (A : forall a b c, ~ ws_char a -> ~ ws_char b -> exists y, trim_ws (a :: b :: c) = a :: b :: y).
  { intros a b c Ha Hb. destruct (trim_prefix (a :: b :: c) Ha) as (w & Hw & E).
    destruct (trim_ws (a :: b :: c)) as [|a' [|b' y]]; cbn in E.
    - subst w. inversion Hw; contradiction.
    - injection E as _ E. subst w. inversion Hw; contradiction.
    - injection E as <- <- _. now exists y. }
  assert (H1 : ~ ws_char 91 /\ ~ ws_char 93 /\ ~ ws_char 123 /\ ~ ws_char 125) by (unfold ws_char; cbn; lia).
  destruct H1 as (H1 & H2 & H3 & H4). unfold parse.
  split; [destruct (A 91 93 x H1 H2) as [y E]|destruct (A 123 125 x H3 H4) as [y E]]; cbn [lit app] in *; cbn in E |- *; rewrite E; reflexivity.
Qed.

(** *** Concrete documents: one whose strings hold brackets and quotes, and a stream of two. *)
Definition cut_example : json :=
  JObj [(lit "a]", (JArr [JNum (dec_to_f64 false 1 0); JStr (lit "x"""); JObj [(lit "k", (JNull, []))]], []));
        (lit "b", (JObj [], []))].
Example cut_document : wf cut_example = true /\ finite cut_example = true /\ (forall f, cut_example <> JNum f) /\
  to_string cut_example = lit "{""a]"": [1, ""x\"""", {""k"": null}], ""b"": {}}".
Proof. repeat split; try (vm_compute; reflexivity). discriminate. Qed.
Example cut_stream : exists p r, JsonText (lit "[true]") (JArr [JBool true]) /\ lit "[true]" ++ lit " [1]" = p ++ r /\
  parse p = Ok (JArr [JBool true]) /\ p = lit "[true] " .
Proof.
  exists (lit "[true] "), (lit "[1]"). split; [|split; [|split]]; try (vm_compute; reflexivity).
  exact (printed_text_is_valid_json (JArr [JBool true]) eq_refl eq_refl).
Qed.

(** C73 and C74: the forms of [quote!] with an at sign. *)
From Verif Require Import Base Tokens Quote SpecQuote QuoteProofs PropsQuote Translate SpecTranslate TranslateProofs PropsTranslate QuoteAt QuoteAtProofs SpecQuoteAt ScopeProofs.
From Coq Require Import Lia.
Local Open Scope N_scope.

(** * C73 *)
(** A template with any of these forms in it gives what the forms mean, one after the other, and nothing else; and it gives it only then. *)
Lemma quote_at_append n e ts : at_free ts -> quote_at n e ts = append n e ts.
Proof. intros H. unfold quote_at, quote_top. now rewrite top_free. Qed.
Theorem forms_give_meaning e fs out : forms_ok e fs -> at_free (flat_map form_toks fs) ->
  (exists steps, quote_at steps e (flat_map form_toks fs) = Done out) <-> forms_mean e fs out.
Proof.
  intros H F. rewrite <- (forms_give e fs H). unfold gives, lim. split; intros [n G]; exists n; [now rewrite quote_at_append in G|now rewrite quote_at_append].
Qed.
(** More steps do not change what was returned. *)
Theorem forms_settle n m e ts : (n <= m)%nat -> quote_at n e ts <> Running -> quote_at m e ts = quote_at n e ts.
Proof. apply (steady_top append e ts append_steady). Qed.
Lemma quote_at_unique n m e ts a b : quote_at n e ts = Done a -> quote_at m e ts = Done b -> a = b.
Proof. intros A B. apply (lim_unique (fun n => quote_at n e ts)); [apply (steady_top append e ts append_steady)|exists n; exact A|exists m; exact B]. Qed.
Corollary forms_meaning_unique e fs a b : forms_ok e fs -> at_free (flat_map form_toks fs) -> forms_mean e fs a -> forms_mean e fs b -> a = b.
Proof.
  intros H F A B. apply forms_give_meaning in A as [n A]; auto. apply forms_give_meaning in B as [m B]; auto. now apply (quote_at_unique n m e (flat_map form_toks fs)).
Qed.
(** Templates without such forms give what they gave in C60. *)
Theorem templates_as_before e ts out : forallb tmpl_ok ts = true -> at_free (flat_map written ts) ->
  (exists steps, quote_at steps e (flat_map written ts) = Done out) <-> quote e (flat_map written ts) = Some out.
Proof.
  intros H F. rewrite (templates_mean ts e out H), <- (templates_give_end ts H). unfold gives, lim. split; intros [n G]; exists n; [now rewrite quote_at_append in G|now rewrite quote_at_append].
Qed.
(** Whatever stands between the parentheses of [@literal] is copied, hashes and all. *)
Lemma at_group_free name more r : at_free (at_group name more ++ r).
Proof. intros r' E. discriminate. Qed.
Theorem literal_copies e ts n : ts <> [] -> forallb real_tok ts = true -> (2 <= n)%nat ->
  quote_at n e (at_top "literal" (op ":" :: ts)) = Done (flat_map copied ts).
Proof.
  intros H1 H2 L. destruct n as [|[|n]]; [lia|lia|]. unfold quote_at.
  change (quote_top (append (S (S n))) e (at_top "literal" (op ":" :: ts))) with (append (S (S n)) e (at_group "literal" (op ":" :: ts))).
  change (append (S (S n)) e (at_group "literal" (op ":" :: ts))) with (step_at (append (S n)) (translate (S n)) e (at_group "literal" (op ":" :: ts))). unfold step_at. change (leading (at_group "literal" (op ":" :: ts))) with (@nil str, at_group "literal" (op ":" :: ts)). cbv iota.
  pose proof (at_literal ts [] H1) as R. rewrite app_nil_r in R. change (form_toks (Literal ts)) with (at_group "literal" (op ":" :: ts)) in R. rewrite R. cbn [at_run rbind fst snd map app].
  change (append (S n) e []) with (@Done (list ptok) []). cbn [rbind]. now rewrite app_nil_r, (reread_copied ts H2).
Qed.
(** ** The forms at the beginning of [quote!] *)
Theorem literal_at_top n e ts : quote_at n e (at_top "literal" (op ":" :: ts)) = quote_at n e (at_group "literal" (op ":" :: ts)).
Proof. reflexivity. Qed.
Theorem params_at_top n e ps ts : quote_at n e (at_top "params" (TGrp Paren ps :: op ":" :: ts)) = quote_at n e (at_group "params" (TGrp Paren ps :: op ":" :: ts)).
Proof. reflexivity. Qed.
Theorem scope_at_top n e ts : quote_at n e (at_top "scope" (op ":" :: ts)) = quote_at n e (at_group "scope" (op ":" :: ts)).
Proof. reflexivity. Qed.
(** The span makes no difference to the tokens. *)
Theorem span_changes_nothing n e ex ts : expr_ok ex = true -> at_free ts -> quote_at n e (at_top "span" (TGrp Paren ex :: op ":" :: ts)) = quote_at n e ts.
Proof.
  intros H F. rewrite (quote_at_append n e ts F). unfold quote_at, quote_top, at_top, top_rule. change (op_is "@" (op "@")) with true. cbv iota.
  change (str_eqb (lit "span") (lit "options")) with false. change (str_eqb (lit "span") (lit "span")) with true. cbv iota. rewrite (begins_ok ex H). reflexivity.
Qed.
(** Of several options the last one counts that is not a span. *)
Definition options_toks (os : list (list ttok)) (ts : list ttok) : list ttok := at_top "options" (TGrp Paren (listed os) :: op ":" :: ts).
Definition of_opt (o : opt) : str * option (list ttok) :=
  match o with OSpan ex => (lit "span", Some ex) | OLiteral => (lit "literal", None) | OParams ps => (lit "params", Some ps) | OScope => (lit "scope", None) end.
Definition mode_of (m : mode) (o : opt) : mode := match o with OSpan _ => m | OLiteral => MLiteral | OParams ps => MParams ps | OScope => MScope end.
Lemma opt_no_comma o : no_comma (opt_toks o) = true. Proof. destruct o; reflexivity. Qed.
Lemma option_of_ok o : opt_ok o -> option_of (opt_toks o) = Some (of_opt o).
Proof. destruct o as [[|t ex]| |[|t ps]|]; intros H; try reflexivity; [discriminate H|]. now contradict H. Qed.
Lemma parse_opt m o r : opt_ok o -> parse_options m (of_opt o :: r) = parse_options (mode_of m o) r.
Proof. destruct o as [ex| |ps|]; intros H; try reflexivity. cbn [of_opt mode_of parse_options]. change (str_eqb (lit "span") (lit "span")) with true. cbv iota. now rewrite (begins_ok ex H). Qed.
Lemma parse_opts os : Forall opt_ok os -> forall m, parse_options m (map of_opt os) = Some (fold_left mode_of os m).
Proof. induction 1 as [|o os H _ IH]; intros m; [reflexivity|]. cbn [map fold_left]. now rewrite (parse_opt m o _ H). Qed.
Lemma top_options os ts : os <> [] -> Forall opt_ok os -> top_rule (options_toks (map opt_toks os) ts) = Some (Some (wrap (fold_left mode_of os MPlain) ts)).
Proof.
  intros Hn H. unfold options_toks, at_top, top_rule. change (op_is "@" (op "@")) with true. change (str_eqb (lit "options") (lit "options")) with true. cbv iota. unfold after_colon. change (op_is ":" (op ":")) with true. cbv iota. cbn [obind].
  rewrite parts_listed; [|destruct os; easy|apply Forall_forall; intros a I; apply in_map_iff in I as (o & <- & _); apply opt_no_comma].
  assert (A : all_some option_of (map opt_toks os) = Some (map of_opt os)).
  { clear Hn. induction H as [|o os H _ IH]; [reflexivity|]. cbn [map all_some]. now rewrite (option_of_ok o H), IH. }
  rewrite A. cbn [obind]. now rewrite (parse_opts os H).
Qed.
Lemma spans_mode os m : Forall (fun o => is_span o = true) os -> fold_left mode_of os m = m.
Proof. induction 1 as [|o os H _ IH]; [reflexivity|]. cbn [fold_left]. destruct o; try discriminate. exact IH. Qed.
Theorem last_option_counts n e before o after ts : Forall opt_ok (before ++ o :: after) -> is_span o = false -> Forall (fun o => is_span o = true) after ->
  quote_at n e (options_toks (map opt_toks (before ++ o :: after)) ts) = quote_at n e (under o ts).
Proof.
  intros H Ho Ha. unfold quote_at at 1, quote_top. rewrite top_options by (auto; now destruct before).
  rewrite fold_left_app. cbn [fold_left]. rewrite spans_mode by exact Ha. destruct o; try discriminate; reflexivity.
Qed.
Theorem only_spans_change_nothing n e os ts : os <> [] -> Forall opt_ok os -> Forall (fun o => is_span o = true) os -> at_free ts ->
  quote_at n e (options_toks (map opt_toks os) ts) = quote_at n e ts.
Proof.
  intros Hn H Hs F. rewrite (quote_at_append n e ts F). unfold quote_at, quote_top. rewrite top_options by auto. now rewrite spans_mode.
Qed.
(** An option that there is not is an error. *)
Theorem unknown_option_fails n e before x args after ts : Forall opt_ok before -> Forall opt_ok after -> ~ In x (map lit ["span"; "literal"; "params"; "scope"]%string) ->
  quote_at n e (options_toks (map opt_toks before ++ (TId x :: match args with Some (a, l) => [TGrp Paren (a :: l)] | None => [] end) :: map opt_toks after) ts) = Panicked.
Proof.
  intros Hb Ha Hx. set (bad := TId x :: match args with Some (a, l) => [TGrp Paren (a :: l)] | None => [] end).
  assert (Nb : no_comma bad = true) by (unfold bad; destruct args as [[]|]; reflexivity).
  unfold quote_at, quote_top, options_toks, at_top, top_rule. change (op_is "@" (op "@")) with true. change (str_eqb (lit "options") (lit "options")) with true. cbv iota. unfold after_colon. change (op_is ":" (op ":")) with true. cbv iota. cbn [obind].
  rewrite parts_listed.
  2:{ now destruct before. }
  2:{ apply Forall_app. split; [|constructor; [exact Nb|]]; apply Forall_forall; intros a I; apply in_map_iff in I as (o & <- & _); apply opt_no_comma. }
  assert (M : forall os, Forall opt_ok os -> all_some option_of (map opt_toks os) = Some (map of_opt os)).
  { induction 1 as [|o os H _ IH]; [reflexivity|]. cbn [map all_some]. now rewrite (option_of_ok o H), IH. }
  assert (A : all_some option_of (map opt_toks before ++ bad :: map opt_toks after) = Some (map of_opt before ++ (x, match args with Some (a, l) => Some (a :: l) | None => None end) :: map of_opt after)).
  { clear - Hb Ha M. induction Hb as [|o os H _ IH]; cbn [map app all_some].
    - rewrite (M after Ha). unfold bad. destruct args as [[]|]; reflexivity.
    - now rewrite (option_of_ok o H), IH. }
  rewrite A. cbn [obind].
  assert (P : forall m, parse_options m (map of_opt before ++ (x, match args with Some (a, l) => Some (a :: l) | None => None end) :: map of_opt after) = None).
  { clear - Hb Hx. induction Hb as [|o os H _ IH]; intros m; cbn [map app]; [|now rewrite (parse_opt m o _ H)]. cbn [parse_options].
    assert (E : forall w, In w ["span"; "literal"; "params"; "scope"]%string -> str_eqb x (lit w) = false).
    { intros w I. destruct (str_eqb x (lit w)) eqn:E; [|reflexivity]. apply str_eqb_eq in E. exfalso. apply Hx. rewrite E. now apply in_map. }
    rewrite !E by (cbn; auto). reflexivity. }
  now rewrite P.
Qed.
(** ** Modifiers that there are not *)
(** They are no error: hash, parentheses and all are copied, and only what is in the parentheses is expanded. *)
Lemma gives_lone_hash e g r out : at_rule (op "#" :: TGrp Paren g :: r) = None -> first_rule rules (op "#" :: TGrp Paren g :: r) = Some (ATokens [hash], TGrp Paren g :: r) ->
  (gives e (op "#" :: TGrp Paren g :: r) out <-> exists o c, gives e g o /\ gives e r c /\ out = hash :: PGrp Paren o :: c).
Proof.
  intros A F. rewrite (gives_rule e (op "#") _ _ _ out eq_refl A F). split.
  - intros (x & b & X & B & ->). apply act_tokens in X as ->. apply gives_group in B as (o & c & O & C & ->); [|discriminate]. exists o, c. auto.
  - intros (o & c & O & C & ->). exists [hash], (PGrp Paren o :: c). split; [now apply act_tokens|]. split; [|reflexivity]. apply gives_group; [discriminate|]. eauto.
Qed.
Lemma hash_at_rules m g r : first_rule rules (op "#" :: TGrp Paren (op "@" :: TId m :: g) :: r) = Some (ATokens [hash], TGrp Paren (op "@" :: TId m :: g) :: r).
Proof. destruct r as [|[| | | | |[] ?] ?]; reflexivity. Qed.
Lemma gives_at_word e m r out : gives e (op "@" :: TId m :: r) out <-> exists b, gives e r b /\ out = PPunct 64 false :: PId m :: b.
Proof.
  change (op "@") with (TOp (lit "@")). rewrite gives_op_plain by reflexivity. split.
  - intros (b & G & ->). apply gives_id in G as (c & G & ->). exists c. auto.
  - intros (b & G & ->). exists (PId m :: b). split; [apply gives_id; eauto|reflexivity].
Qed.
Lemma not_taken e m g r out : at_form m g = None ->
  (gives e (op "#" :: TGrp Paren (op "@" :: TId m :: g) :: r) out <-> exists o c, gives e g o /\ gives e r c /\ out = hash :: PGrp Paren (PPunct 64 false :: PId m :: o) :: c).
Proof.
  intros H. rewrite gives_lone_hash; [|unfold at_rule; change (op_is "#" (op "#") && op_is "@" (op "@")) with true; cbv iota; now rewrite H|apply hash_at_rules]. split.
  - intros (o & c & O & C & ->). apply gives_at_word in O as (b & O & ->). eauto.
  - intros (o & c & O & C & ->). exists (PPunct 64 false :: PId m :: o), c. split; [apply gives_at_word; eauto|auto].
Qed.
Theorem unknown_modifier_is_copied e m ts out : ~ In m (map lit ["literal"; "params"; "scope"]%string) -> forallb tmpl_ok ts = true ->
  (exists steps, quote_at steps e [op "#"; TGrp Paren (op "@" :: TId m :: flat_map written ts)] = Done out) <->
  exists o, all_mean e ts o /\ out = [hash; PGrp Paren (PPunct 64 false :: PId m :: o)].
Proof.
  intros Hm Ht. assert (E : forall w, In w ["literal"; "params"; "scope"]%string -> str_eqb m (lit w) = false).
  { intros w I. destruct (str_eqb m (lit w)) eqn:E; [|reflexivity]. apply str_eqb_eq in E. exfalso. apply Hm. rewrite E. now apply in_map. }
  assert (A : at_form m (flat_map written ts) = None) by (unfold at_form; now rewrite !E by (cbn; auto)).
  transitivity (gives e [op "#"; TGrp Paren (op "@" :: TId m :: flat_map written ts)] out).
  { unfold gives, lim. split; intros [n H]; exists n; exact H. }
  rewrite (not_taken e m _ [] out A). split.
  - intros (o & c & O & C & ->). apply gives_nil in C as ->. apply templates_give_end in O; [|exact Ht]. eauto.
  - intros (o & O & ->). exists o, []. split; [now apply templates_give_end|]. split; [now apply gives_nil|reflexivity].
Qed.
(** Nor is it an error if there is nothing after the colon, or in the parentheses of [@params]. *)
Theorem empty_forms_are_copied e : (exists steps, quote_at steps e (lex "#(@literal:)") = Done (code "#(@literal:)")) /\
  (exists steps, quote_at steps e (lex "#(@scope:)") = Done (code "#(@scope:)")) /\ (exists steps, quote_at steps e (lex "#(@params(): a b)") = Done (code "#(@params(): a b)")).
Proof. split; [|split]; exists 20%nat; vm_compute; reflexivity. Qed.

(** ** Examples *)
Section Example73.
  Let obj (w : string) : value := VObj (Some [PId (lit w)]) [].
  Let e : env := [(lit "x", obj "one"); (lit "t", VBool true)].
  Let fs : list form :=
    [Template (Token (TId (lit "a"))); Literal (lex "#x ##"); Params [(lit "y", Some [TId (lit "x")]); (lit "x", None)] (lex "[#y, #x] #z"); Template (Var (lit "y"))].
  Lemma no_hash_settled w : settled [PId w].
  Proof. split; [intros (a & j & t & b & E & _); destruct a as [|? [|? ?]]; discriminate|]. intros a j E. destruct a as [|? [|? ?]]; discriminate. Qed.
  Example forms_fine : forms_ok e fs.
  Proof.
    apply fo_template; [reflexivity|]. apply fo_literal; [discriminate|reflexivity|]. apply fo_params; [discriminate| | | | |].
    - repeat apply Forall_cons; [split; [discriminate|split; reflexivity]|split; [discriminate|exact I]|apply Forall_nil].
    - vm_compute. discriminate.
    - split; [reflexivity|]. exists [RGrp Bracket [RVar (lit "y"); RTok (PPunct 44 false); RVar (lit "x")]; RVar (lit "z")]. split; [vm_compute; reflexivity|].
      repeat apply Forall_cons; [constructor; repeat apply Forall_cons; [constructor; discriminate|constructor; discriminate|constructor; discriminate|apply Forall_nil]|constructor; discriminate|apply Forall_nil].
    - intros e' vs M. inversion M as [|? ? ? v t ? ? vs' V S M'|]; subst. inversion M' as [| |? ? v2 t2 ? ? vs2 V2 S2 M2]; subst. inversion M2; subst.
      apply eval_ok in V. vm_compute in V. injection V as <-. apply assoc_ok in V2. vm_compute in V2. injection V2 as <-. apply text_of_ok in S. vm_compute in S. injection S as <-. apply text_of_ok in S2. vm_compute in S2. injection S2 as <-.
      repeat apply Forall_cons; [apply no_hash_settled|apply no_hash_settled|apply Forall_nil].
    - intros e' vs M. apply fo_template; [reflexivity|apply fo_nil].
  Qed.
  Example forms_result : quote_at 20 e (flat_map form_toks fs) = Done (code "a #x ## [one, one] one").
  Proof. vm_compute. reflexivity. Qed.
  Example forms_text : flat_map form_toks fs = lex "a #(@literal: #x ##) #(@params(y = x, x): [#y, #x] #z) #y".
  Proof. vm_compute. reflexivity. Qed.
  Example options_text : options_toks (map opt_toks [OScope; OLiteral; OSpan [TId (lit "s")]]) (lex "#x") = lex "@options(scope, literal, span(s)): #x".
  Proof. vm_compute. reflexivity. Qed.
End Example73.

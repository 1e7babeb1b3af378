(** Theorems about [quote!]. *)
From Verif Require Import Base Tokens Quote SpecQuote QuoteProofs.

(** Every form of template stands for exactly the tokens its documentation says, in every combination and nesting. *)
Theorem templates_stand_for_their_meaning ts e out : forallb tmpl_ok ts = true -> (quote e (flat_map written ts) = Some out <-> all_mean e ts out).
Proof. apply templates_mean. Qed.
(** So a template stands for at most one sequence of tokens. *)
Theorem meanings_are_unique ts e out out' : forallb tmpl_ok ts = true -> all_mean e ts out -> all_mean e ts out' -> out = out'.
Proof. intros H A B. apply (templates_mean ts e out H) in A. apply (templates_mean ts e out' H) in B. congruence. Qed.
(** The forms can be put one after the other and into groups: what stands before and after does not matter. *)
Theorem templates_are_compositional ts ts' e out : forallb tmpl_ok ts = true -> forallb tmpl_ok ts' = true ->
  (quote e (flat_map written ts ++ flat_map written ts') = Some out <->
   exists a b, quote e (flat_map written ts) = Some a /\ quote e (flat_map written ts') = Some b /\ out = a ++ b).
Proof.
  intros H H'. rewrite <- flat_map_app. revert out. induction ts as [|t ts IH]; intros out.
  - cbn [app flat_map]. split; [intros E; exists [], out; auto|]. intros (a & b & Ea & Eb & ->). rewrite quote_nil in Ea. injection Ea as <-. exact Eb.
  - cbn [forallb] in H. apply andb_prop in H as [Ht Hts]. cbn [app]. rewrite !quote_cons by auto. rewrite oapp_inv. split.
    + intros (x & y & Ex & Ey & ->). apply (IH Hts) in Ey as (a & b & Ea & Eb & ->). exists (x ++ a), b. split; [|split; [exact Eb|now rewrite app_assoc]].
      rewrite Ex, Ea. reflexivity.
    + intros (a & b & Ea & Eb & ->). apply oapp_inv in Ea as (x & y & Ex & Ey & ->). exists x, (y ++ b). split; [exact Ex|]. split; [apply IH; eauto|now rewrite app_assoc].
Qed.
(** Code without hashes is copied token for token, whatever follows it; its operators stay whole. *)
Lemma plain_copied t : plain_tok t = true -> plain t = Some (copied t).
Proof.
  intros H. destruct t as [s| |o|raw|a|d b]; try reflexivity; [|discriminate]. cbn [copied plain]. f_equal.
  assert (I : itself (TOp o) (gen_punct o)) by (apply itself_plain; auto). inversion I; reflexivity.
Qed.
Lemma copy_gen n : forall ts, (sizes ts < n)%nat -> forall e r, forallb no_hash ts = true -> quote e (ts ++ r) = oapp (Some (flat_map copied ts)) (quote e r).
Proof.
  induction n as [|n IH]; intros ts Hn e r H; [lia|]. destruct ts as [|t ts]; [cbn [app flat_map]; now rewrite oapp_nil|].
  cbn [forallb] in H. apply andb_prop in H as [Ht H]. rewrite sizes_cons in Hn. pose proof (size_pos t).
  assert (T : forall r, quote e (t :: r) = oapp (Some (copied t)) (quote e r)).
  { intros r'. destruct t as [s| |o|raw|a|d b]; try (rewrite quote_token by exact Ht; now rewrite plain_copied).
    cbn [no_hash] in Ht. apply andb_prop in Ht as [Hd Hb]. rewrite size_grp in Hn. rewrite quote_group by (intros ->; discriminate). unfold group_out.
    rewrite <- (app_nil_r b) at 1. rewrite (IH b) by (auto; lia). rewrite quote_nil, oapp_nil_r. reflexivity. }
  cbn [app flat_map]. rewrite T, (IH ts) by (auto; lia). rewrite <- oapp_some, oapp_assoc. reflexivity.
Qed.
Theorem code_without_hashes_is_copied ts rest e : forallb no_hash ts = true -> quote e (ts ++ rest) = oapp (Some (flat_map copied ts)) (quote e rest).
Proof. intros H. apply (copy_gen (S (sizes ts))); auto. Qed.
(** The separators plus and minus do not work where there is a body: the form is taken for a boolean one. *)
Theorem plus_is_no_separator (w : bool) x y body v e : nonempty_body body = true -> finds x e (VList v) ->
  quote e (written (EachAs (SVar x) (Some y) body (Some (op (if w then "+" else "-"))))) = None.
Proof.
  intros Hb Hx. apply assoc_ok in Hx. cbn [written app]. pose proof (quote_when e w (SVar x) (TId y :: flat_map written body) [op "*"] eq_refl ltac:(discriminate)) as Q.
  unfold binder_toks, source_toks in *. cbn [app] in *. rewrite Q. cbn [act source_expr eval]. rewrite Hx. reflexivity.
Qed.

(** The examples of the documentation, quote/src/lib.rs 48-62. *)
Definition word (w : string) : value := VObj (Some [PId (lit w)]) [].
Definition doc_env : env :=
  [(lit "var", word "var"); (lit "vis", VBool true); (lit "opt", VOpt (Some (word "opt"))); (lit "iter", VList [word "foo"; word "bar"])].
Example doc_var : quote doc_env (lex "#var") = Some (code "var"). Proof. vm_compute. reflexivity. Qed.
Example doc_bool : quote doc_env (lex "#(#vis:pub)+") = Some (code "pub") /\ quote doc_env (lex "#(#vis:pub)-") = Some []. Proof. vm_compute. auto. Qed.
Example doc_opt : quote doc_env (lex "#(#opt)?") = Some (code "opt") /\ quote doc_env (lex "#(#opt:x k = #x)?") = Some (code "k = opt"). Proof. vm_compute. auto. Qed.
Example doc_iter : quote doc_env (lex "#(#iter)*") = Some (code "foo bar") /\ quote doc_env (lex "#(#iter:x pub #x),*") = Some (code "pub foo, pub bar").
Proof. vm_compute. auto. Qed.
(** A template with most forms in it meets the conditions of the theorems. *)
Definition all_forms : list tmpl :=
  [Attribute false [Token (TId (lit "inline"))]; When true (SVar (lit "vis")) [Token (TId (lit "pub"))]; Token (TId (lit "fn")); Var (lit "var");
   Grouped Paren [EachAs (SVar (lit "iter")) (Some (lit "x")) [Var (lit "x"); Token (op ":"); Expr [TId (lit "var")]] (Some (op ","))];
   Opt (SExpr [op "&"; TId (lit "opt")]); Grouped Brace [Each (SVar (lit "iter")) (After (op ";")); Hash; OptAs (SVar (lit "opt")) None [Token TUnder]]].
Example forms_ok : forallb tmpl_ok all_forms = true /\ flat_map written all_forms =
  lex "#[inline] #(#vis: pub)+ fn #var (#(#iter:x #x: #(var)),*) #(#(&opt))? { #(#iter;)* ## #(#opt:_ _)? }" /\
  quote doc_env (flat_map written all_forms) =
    Some (hash :: code "[inline] pub fn var(foo: var, bar: var) opt" ++ [PGrp Brace (code "foo; bar;" ++ [hash] ++ code "_")]).
Proof. vm_compute. auto. Qed.
Example forms_mean : exists out, all_mean doc_env all_forms out.
Proof. eexists. apply templates_mean; [reflexivity|]. vm_compute. reflexivity. Qed.
Example no_hash_ok : forallb no_hash (lex "fn f(a: &'x str) -> bool { a.len() >= 2 && !g![a] }") = true. Proof. reflexivity. Qed.

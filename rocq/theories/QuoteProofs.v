(** Lemmas about [quote]. *)
From Verif Require Import Base Tokens Quote SpecQuote.
From Coq Require Import Lia.
Local Open Scope nat_scope.

(** * The meaning of templates once more, in terms of the functions of the model *)
Definition source_value0 (e : env) (s : source) (v : value) : Prop :=
  match s with SVar x => assoc x e = Some v | SExpr toks => eval e toks = Some v end.
Inductive means0 : env -> tmpl -> list ptok -> Prop :=
| m_token0 e t out : itself t out -> means0 e (Token t) out
| m_group0 e d body out : all_mean0 e body out -> means0 e (Grouped d body) [PGrp d out]
| m_hash0 e : means0 e Hash [hash]
| m_attr0 e body out : all_mean0 e body out -> means0 e (Attribute false body) [hash; PGrp Bracket out]
| m_inner_attr0 e body out : all_mean0 e body out -> means0 e (Attribute true body) [hash; bang; PGrp Bracket out]
| m_var0 e x v out : assoc x e = Some v -> text_of v = Some out -> means0 e (Var x) out
| m_expr0 e toks v out : eval e toks = Some v -> text_of v = Some out -> means0 e (Expr toks) out
| m_when0 e b s body out : source_value0 e s (VBool b) -> all_mean0 e body out -> means0 e (When b s body) out
| m_unless0 e b s body : source_value0 e s (VBool (negb b)) -> means0 e (When b s body) []
| m_opt0 e s v out : source_value0 e s (VOpt (Some v)) -> text_of v = Some out -> means0 e (Opt s) out
| m_opt_none0 e s : source_value0 e s (VOpt None) -> means0 e (Opt s) []
| m_opt_as0 e s x v body out : source_value0 e s (VOpt (Some v)) -> all_mean0 (bind_var x v e) body out -> means0 e (OptAs s x body) out
| m_opt_as_none0 e s x body : source_value0 e s (VOpt None) -> means0 e (OptAs s x body) []
| m_each0 e s p v vs outs out : source_value0 e s v -> items v = Some vs -> Forall2 (fun v o => text_of v = Some o) vs outs -> joined p outs out ->
    means0 e (Each s p) out
| m_each_as0 e s x body p v vs outs out : source_value0 e s v -> items v = Some vs ->
    each_means0 e x body vs outs -> joined (match p with Some t => Between t | None => NoSep end) outs out -> means0 e (EachAs s x body p) out
with all_mean0 : env -> list tmpl -> list ptok -> Prop :=
| all_nil0 e : all_mean0 e [] []
| all_cons0 e t ts a b : means0 e t a -> all_mean0 e ts b -> all_mean0 e (t :: ts) (a ++ b)
with each_means0 : env -> option str -> list tmpl -> list value -> list (list ptok) -> Prop :=
| each_nil0 e x body : each_means0 e x body [] []
| each_cons0 e x body v vs o os : all_mean0 (bind_var x v e) body o -> each_means0 e x body vs os -> each_means0 e x body (v :: vs) (o :: os).

(** * Enough fuel *)
Lemma sizes_cons t ts : sizes (t :: ts) = size t + sizes ts. Proof. reflexivity. Qed.
Lemma sizes_app a b : sizes (a ++ b) = sizes a + sizes b.
Proof. induction a as [|t a IH]; [reflexivity|]. cbn [app]. rewrite !sizes_cons, IH. lia. Qed.
Lemma size_grp d ts : size (TGrp d ts) = S (sizes ts). Proof. reflexivity. Qed.
Lemma size_pos t : 1 <= size t. Proof. destruct t; cbn; lia. Qed.
(** What an action calls the expansion with. *)
Definition sep_toks (s : sep) : list ttok := match s with NoSep => [] | Between t | After t => [t] end.
Definition act_sizes (a : action) : nat :=
  match a with
  | ABool _ _ b | AOptAs _ _ b | AGroup _ _ b _ => sizes b
  | AEach _ s => sizes (sep_toks s)
  | AEachAs _ _ b s => sizes b + sizes (sep_toks s)
  | _ => 0
  end.
Ltac opb := repeat match goal with
  | H : (if ?b then _ else _) = Some _ |- _ => destruct b eqn:?; [|discriminate H]
  | H : obind ?x _ = Some _ |- _ => destruct x as [?|] eqn:?; cbn [obind] in H; [|discriminate H]
  end.
Lemma pounded_size ts e more rest : pounded ts = Some (e, more, rest) -> sizes more + sizes rest + 1 < sizes ts.
Proof.
  unfold pounded. destruct ts as [|h [|[| | | | |[| | |] [|h' inner]] r]]; try discriminate. intros H. opb.
  destruct inner as [|[| | | | |[| | |] ts'] more']; try discriminate.
  - injection H as _ <- <-. rewrite !sizes_cons, size_grp, !sizes_cons. pose proof (size_pos h). pose proof (size_pos h'). cbn. lia.
  - opb. injection H as _ <- <-. rewrite !sizes_cons, !size_grp, !sizes_cons, !size_grp. pose proof (size_pos h). pose proof (size_pos h'). lia.
Qed.
Lemma colon_body_size more b : colon_body more = Some b -> sizes b < sizes more.
Proof. unfold colon_body. destruct more as [|c [|x r]]; try discriminate. intros H. opb. injection H as <-. rewrite (sizes_cons c). pose proof (size_pos c). lia. Qed.
Lemma binder_body_size more x b : binder_body more = Some (x, b) -> sizes b < sizes more.
Proof.
  unfold binder_body. destruct (colon_body more) as [c|] eqn:E; [|discriminate]. apply colon_body_size in E.
  destruct c as [|[| | | | |] [|y r]]; try discriminate; intros H; injection H as _ <-; rewrite sizes_cons in E; lia.
Qed.
Lemma ends_op_size w ts r : ends_op w ts = Some r -> sizes r < sizes ts.
Proof. destruct ts as [|t ts]; [discriminate|]. cbn [ends_op]. intros H. opb. injection H as <-. rewrite sizes_cons. pose proof (size_pos t). lia. Qed.
Lemma group_of_size t d b : group_of t = Some (d, b) -> sizes b < size t.
Proof. destruct t as [| | | | |[| | |] ts]; try discriminate; intros H; injection H as _ <-; rewrite size_grp; lia. Qed.
Definition shrinks (f : list ttok -> option rule) : Prop := forall ts a r, f ts = Some (a, r) -> act_sizes a + sizes r < sizes ts.
Ltac rule_tac :=
  intros ts a r H; cbv beta delta [rule_bool rule_opt rule_opt_as rule_each rule_each_between rule_each_after rule_each_as rule_each_as_between] in H;
  destruct (pounded ts) as [[[? ?] ?]|] eqn:?; cbn [obind] in H; [|discriminate H];
  repeat match goal with
  | H : match ?l with _ => _ end = Some _ |- _ => destruct l eqn:?; try discriminate H
  | H : obind ?x _ = Some _ |- _ => destruct x as [?|] eqn:?; cbn [obind] in H; [|discriminate H]
  end;
  repeat match goal with H : pounded _ = Some _ |- _ => apply pounded_size in H | H : colon_body _ = Some _ |- _ => apply colon_body_size in H
  | H : binder_body _ = Some ?p |- _ => destruct p as [? ?]; apply binder_body_size in H | H : ends_op _ _ = Some _ |- _ => apply ends_op_size in H end;
  injection H as <- <-; cbn [act_sizes sep_toks fst snd]; subst; rewrite ?sizes_cons in *;
  repeat match goal with t : ttok |- _ => pose proof (size_pos t); revert t end; intros; cbn [sizes fold_right] in *; try lia.
Lemma all_shrink : Forall shrinks rules.
Proof.
  unfold rules. repeat apply Forall_cons; try apply Forall_nil; try solve [rule_tac].
  - intros ts a r H. unfold rule_expr in H. destruct ts as [|h [|[| | | | |[| | |] ?] ?]]; try discriminate. opb. injection H as <- <-. cbn [act_sizes].
    rewrite !sizes_cons. pose proof (size_pos h). lia.
  - intros ts a r H. unfold rule_var in H. destruct ts as [|h [|[| | | | |] ?]]; try discriminate. opb. injection H as <- <-. cbn [act_sizes].
    rewrite !sizes_cons. pose proof (size_pos h). lia.
  - intros ts a r H. unfold rule_hash in H. destruct ts as [|h [|h' ?]]; try discriminate. opb. injection H as <- <-. cbn [act_sizes].
    rewrite !sizes_cons. pose proof (size_pos h). lia.
  - intros ts a r H. unfold rule_inner_attr in H. destruct ts as [|h [|b [|[| | | | |[| | |] ?] ?]]]; try discriminate. opb. injection H as <- <-. cbn [act_sizes].
    rewrite !sizes_cons, size_grp. pose proof (size_pos h). lia.
  - intros ts a r H. unfold rule_attr in H. destruct ts as [|h [|[| | | | |[| | |] ?] ?]]; try discriminate. opb. injection H as <- <-. cbn [act_sizes].
    rewrite !sizes_cons, size_grp. pose proof (size_pos h). lia.
  - intros ts a r H. unfold rule_bang_semi in H. destruct ts as [|h [|g rest]]; try discriminate. opb. injection H as <- <-. cbn [act_sizes].
    destruct p as [d b]. apply group_of_size in Heqo. apply ends_op_size in Heqo0. rewrite !sizes_cons. cbn [snd]. lia.
  - intros ts a r H. unfold rule_bang in H. destruct ts as [|h [|g rest]]; try discriminate. opb. injection H as <- <-. cbn [act_sizes].
    destruct p as [d b]. apply group_of_size in Heqo. rewrite !sizes_cons. cbn [snd]. lia.
  - intros ts a r H. unfold rule_group_semi in H. destruct ts as [|g rest]; try discriminate. opb. injection H as <- <-. cbn [act_sizes].
    destruct p as [d b]. apply group_of_size in Heqo. apply ends_op_size in Heqo0. rewrite !sizes_cons. cbn [snd]. lia.
  - intros ts a r H. unfold rule_group in H. destruct ts as [|g rest]; try discriminate. opb. injection H as <- <-. cbn [act_sizes].
    destruct p as [d b]. apply group_of_size in Heqo. rewrite !sizes_cons. cbn [snd]. lia.
  - intros ts a r H. unfold rule_op in H. destruct ts as [|t rest]; try discriminate. opb. injection H as <- <-. cbn [act_sizes].
    rewrite !sizes_cons. pose proof (size_pos t). lia.
Qed.
Lemma first_rule_shrinks rs : Forall shrinks rs -> shrinks (first_rule rs).
Proof.
  induction 1 as [|f rs Hf _ IH]; intros ts a r H; [discriminate|]. cbn [first_rule] in H. destruct (f ts) as [[a' r']|] eqn:E.
  - injection H as <- <-. exact (Hf _ _ _ E).
  - exact (IH _ _ _ H).
Qed.
Lemma leading_size ts ids r : leading ts = (ids, r) -> sizes r + List.length ids = sizes ts.
Proof.
  revert ids r. induction ts as [|[s| | | | |] ts IH]; intros ids r H; try (injection H as <- <-; cbn [List.length]; lia).
  cbn [leading] in H. destruct (leading ts) as [i r'] eqn:E. injection H as <- <-. specialize (IH _ _ eq_refl). rewrite sizes_cons. cbn [size List.length fst snd]. lia.
Qed.
Lemma each_ext f g e x body s first vs :
  (forall e ts, sizes ts <= match body with Some b => sizes b | None => 0 end + sizes (sep_toks s) -> f e ts = g e ts) ->
  each f e x body s first vs = each g e x body s first vs.
Proof.
  intros H. revert first. induction vs as [|v vs IH]; intros first; [reflexivity|]. cbn [each]. cbv zeta. rewrite IH.
  assert (A : match s with Between t => if first then Some [] else f (bind_var x v e) [t] | _ => Some [] end =
              match s with Between t => if first then Some [] else g (bind_var x v e) [t] | _ => Some [] end).
  { destruct s; try reflexivity. destruct first; [reflexivity|]. apply H. cbn [sep_toks]. lia. }
  assert (B : match body with Some ts => f (bind_var x v e) ts | None => text_of v end = match body with Some ts => g (bind_var x v e) ts | None => text_of v end).
  { destruct body; [apply H; lia|reflexivity]. }
  assert (C : match s with After t => f (bind_var x v e) [t] | _ => Some [] end = match s with After t => g (bind_var x v e) [t] | _ => Some [] end).
  { destruct s; try reflexivity. apply H. cbn [sep_toks]. lia. }
  rewrite A, B, C. reflexivity.
Qed.
Lemma act_ext f g e a : (forall e ts, sizes ts <= act_sizes a -> f e ts = g e ts) -> act f e a = act g e a.
Proof.
  intros H. destruct a as [w src b|src|src x b|src s|src x b s|src|ts|bf d b af]; cbn [act act_sizes] in *; try reflexivity.
  - destruct (eval e src) as [[]|]; cbn [obind]; try reflexivity. destruct (Bool.eqb _ _); [apply H; lia|reflexivity].
  - destruct (eval e src) as [[| |[w|]|]|]; cbn [obind]; try reflexivity. apply H; lia.
  - destruct (eval e src) as [v|]; cbn [obind]; try reflexivity. destruct (items v); cbn [obind]; [|reflexivity]. apply each_ext. intros. apply H. lia.
  - destruct (eval e src) as [v|]; cbn [obind]; try reflexivity. destruct (items v); cbn [obind]; [|reflexivity]. apply each_ext. intros. apply H. lia.
  - rewrite (H e b) by lia. reflexivity.
Qed.
Lemma step_ext f g e ts : (forall e ts', sizes ts' < sizes ts -> f e ts' = g e ts') -> step f e ts = step g e ts.
Proof.
  intros H. unfold step. destruct (leading ts) as [ids r] eqn:E. pose proof (leading_size _ _ _ E) as L. destruct (modified r); [reflexivity|].
  destruct (first_rule rules r) as [[a rest]|] eqn:R.
  - apply (first_rule_shrinks _ all_shrink) in R. rewrite (act_ext f g e a) by (intros; apply H; lia). rewrite (H e rest) by lia. reflexivity.
  - destruct r; [reflexivity|]. destruct ts as [|t' rest]; [reflexivity|]. rewrite (H e rest); [reflexivity|]. rewrite sizes_cons. pose proof (size_pos t'). lia.
Qed.
Lemma expand_enough n m e ts : sizes ts < n -> sizes ts < m -> expand n e ts = expand m e ts.
Proof.
  revert m e ts. induction n as [|n IH]; intros m e ts Hn Hm; [lia|]. destruct m as [|m]; [lia|]. cbn [expand]. apply step_ext. intros e' ts' Hs. apply IH; lia.
Qed.
Lemma quote_eq e ts : quote e ts = step quote e ts.
Proof. unfold quote at 1. cbn [expand]. apply step_ext. intros e' ts' Hs. unfold quote. apply expand_enough; lia. Qed.

(** * One token at a time *)
Definition oapp (a b : option (list ptok)) : option (list ptok) := let! x := a in let! y := b in Some (x ++ y).
Lemma oapp_some a b : oapp (Some a) (Some b) = Some (a ++ b). Proof. reflexivity. Qed.
Lemma oapp_nil b : oapp (Some []) b = b. Proof. destruct b; reflexivity. Qed.
Lemma quote_nil e : quote e [] = Some []. Proof. reflexivity. Qed.
Lemma quote_id e s r : quote e (TId s :: r) = oapp (Some [PId s]) (quote e r).
Proof.
  rewrite (quote_eq e (TId s :: r)). unfold step. cbn [leading]. destruct (leading r) as [ids r'] eqn:E. cbn [fst snd].
  destruct (modified r') eqn:M. { rewrite (quote_eq e r). unfold step. rewrite E, M. reflexivity. }
  destruct (first_rule rules r') as [[a rest]|] eqn:R.
  { rewrite (quote_eq e r). unfold step. rewrite E, M, R. destruct (act quote e a); cbn [obind oapp]; [|reflexivity]. destruct (quote e rest); reflexivity. }
  destruct r' as [|t r'].
  { rewrite (quote_eq e r). unfold step. rewrite E, M, R. reflexivity. }
  reflexivity.
Qed.
Definition not_id (t : ttok) : bool := match t with TId _ => false | _ => true end.
Lemma leading_not_id t r : not_id t = true -> leading (t :: r) = ([], t :: r).
Proof. destruct t; try discriminate; reflexivity. Qed.
(** A rule applies. *)
Lemma quote_rule e t r a rest : not_id t = true -> modified (t :: r) = false -> first_rule rules (t :: r) = Some (a, rest) ->
  quote e (t :: r) = oapp (act quote e a) (quote e rest).
Proof. intros N M R. rewrite quote_eq. unfold step. rewrite leading_not_id, M, R by auto. cbn [map app]. reflexivity. Qed.
(** No rule applies. *)
Lemma quote_plain e t r : not_id t = true -> modified (t :: r) = false -> first_rule rules (t :: r) = None -> quote e (t :: r) = oapp (plain t) (quote e r).
Proof. intros N M R. rewrite quote_eq. unfold step. rewrite leading_not_id, M, R by auto. reflexivity. Qed.
Lemma op_is_eq w t : op_is w t = true <-> t = op w.
Proof. destruct t; cbn; try (split; [discriminate|intros H; discriminate H]). rewrite str_eqb_eq. split; [intros ->; reflexivity|intros H; injection H as ->; reflexivity]. Qed.
Lemma op_is_refl w : op_is w (op w) = true. Proof. now apply op_is_eq. Qed.
Lemma op_rule_ok rs o : Forall (fun p => fst p = snd p) rs -> existsb (fun p => str_eqb o (lit (fst p))) rs = true -> op_rule rs (TOp o) = Some (gen_punct o).
Proof.
  induction 1 as [|[w out] rs E _ IH]; [discriminate|]. cbn [fst snd] in E. subst out. cbn [existsb op_rule op_is fst]. destruct (str_eqb o (lit w)) eqn:S; cbn [orb]; auto.
  intros _. apply str_eqb_eq in S. now subst o.
Qed.
Lemma op_rules_ok o : is_op o = true -> op_rule op_rules (TOp o) = Some (gen_punct o).
Proof. intros H. apply op_rule_ok; [|exact H]. unfold op_rules. repeat constructor. Qed.
(** Tokens without a hash are not taken by the rules of the special forms. *)
Lemma pounded_no_hash t r : op_is "#" t = false -> pounded (t :: r) = None.
Proof. intros H. unfold pounded. destruct r as [|[| | | | |[| | |] [|h inner]] rest]; try reflexivity. now rewrite H. Qed.
Lemma no_hash_rules t r : op_is "#" t = false ->
  first_rule rules (t :: r) = first_rule [rule_bang_semi; rule_bang; rule_group_semi; rule_group; rule_op] (t :: r).
Proof.
  intros H. unfold rules. cbn [first_rule]. unfold rule_bool, rule_opt, rule_opt_as, rule_each, rule_each_between, rule_each_after, rule_each_as, rule_each_as_between.
  rewrite (pounded_no_hash t r H). cbn [obind]. unfold rule_expr, rule_var, rule_hash, rule_inner_attr, rule_attr.
  destruct r as [|x r]; [reflexivity|]. rewrite H. cbn [andb].
  destruct x as [| | | | |[| | |] ?]; try reflexivity; destruct r as [|[| | | | |[| | |] ?] r]; reflexivity.
Qed.
Lemma not_modified t r : op_is "#" t = false -> modified (t :: r) = false.
Proof. intros H. unfold modified. destruct r as [|[| | | | |[| | |] [|a b]] rest]; try reflexivity. now rewrite H. Qed.
Lemma quote_op_plain e o r : is_op o = true -> op_is "#" (TOp o) = false -> op_is "!" (TOp o) = false ->
  quote e (TOp o :: r) = oapp (Some (gen_punct o)) (quote e r).
Proof.
  intros K H1 H2. rewrite (quote_rule e (TOp o) r (ATokens (gen_punct o)) r); [reflexivity|reflexivity|now apply not_modified|].
  rewrite no_hash_rules by auto. cbn [first_rule]. unfold rule_bang_semi, rule_bang, rule_group_semi, rule_group, rule_op. rewrite H2, (op_rules_ok o K). cbn [group_of obind].
  destruct r; reflexivity.
Qed.
Lemma ends_op_eq w ts r : ends_op w ts = Some r -> ts = op w :: r.
Proof. destruct ts as [|t ts]; [discriminate|]. cbn [ends_op]. destruct (op_is w t) eqn:E; [|discriminate]. intros H. injection H as <-. apply op_is_eq in E. now subst t. Qed.
Definition group_out (e : env) (d : delim) (b : list ttok) : option (list ptok) := let! ts := quote e b in Some [PGrp d ts].
Lemma quote_group e d b r : d <> NoDelim -> quote e (TGrp d b :: r) = oapp (group_out e d b) (quote e r).
Proof.
  intros Hd. assert (G : group_of (TGrp d b) = Some (d, b)) by (destruct d; try reflexivity; now contradict Hd).
  destruct (ends_op ";" r) as [r'|] eqn:E.
  - rewrite (quote_rule e (TGrp d b) r (AGroup [] d b (gen_punct (lit ";"))) r'); [|reflexivity|now apply not_modified|].
    + apply ends_op_eq in E. subst r. change (op ";") with (TOp (lit ";")). rewrite quote_op_plain by reflexivity. unfold group_out. cbn [act].
      destruct (quote e b); cbn [obind oapp]; [|reflexivity]. destruct (quote e r'); reflexivity.
    + rewrite no_hash_rules by reflexivity. cbn [first_rule]. unfold rule_bang_semi, rule_bang, rule_group_semi. rewrite G, E. cbn [obind op_is fst snd]. destruct r; reflexivity.
  - rewrite (quote_rule e (TGrp d b) r (AGroup [] d b []) r); [|reflexivity|now apply not_modified|].
    + unfold group_out. cbn [act]. destruct (quote e b); reflexivity.
    + rewrite no_hash_rules by reflexivity. cbn [first_rule]. unfold rule_bang_semi, rule_bang, rule_group_semi, rule_group. rewrite G, E. cbn [obind op_is fst snd]. destruct r; reflexivity.
Qed.
Lemma quote_bang e r : quote e (op "!" :: r) = oapp (Some [bang]) (quote e r).
Proof.
  destruct r as [|g r]; [reflexivity|]. destruct (group_of g) as [[d b]|] eqn:G.
  - assert (Eg : g = TGrp d b /\ d <> NoDelim).
    { destruct g as [| | | | |d' b']; try discriminate. destruct d'; try discriminate; injection G as <- <-; split; congruence. }
    destruct Eg as [-> Hd]. rewrite quote_group by auto.
    destruct (ends_op ";" r) as [r'|] eqn:E.
    + rewrite (quote_rule e (op "!") (TGrp d b :: r) (AGroup (gen_punct (lit "!")) d b (gen_punct (lit ";"))) r'); [|reflexivity|now apply not_modified|].
      * apply ends_op_eq in E. subst r. change (op ";") with (TOp (lit ";")). rewrite quote_op_plain by reflexivity. unfold group_out. cbn [act].
        destruct (quote e b); cbn [obind oapp]; [|reflexivity]. destruct (quote e r'); reflexivity.
      * rewrite no_hash_rules by reflexivity. cbn [first_rule]. unfold rule_bang_semi. rewrite op_is_refl, G, E. reflexivity.
    + rewrite (quote_rule e (op "!") (TGrp d b :: r) (AGroup (gen_punct (lit "!")) d b []) r); [|reflexivity|now apply not_modified|].
      * unfold group_out. cbn [act]. destruct (quote e b); cbn [obind oapp]; [|reflexivity]. destruct (quote e r); reflexivity.
      * rewrite no_hash_rules by reflexivity. cbn [first_rule]. unfold rule_bang_semi, rule_bang. rewrite op_is_refl, G, E. reflexivity.
  - rewrite (quote_rule e (op "!") (g :: r) (ATokens [bang]) (g :: r)); [reflexivity|reflexivity|now apply not_modified|].
    rewrite no_hash_rules by reflexivity. cbn [first_rule]. unfold rule_bang_semi, rule_bang, rule_group_semi, rule_group. rewrite op_is_refl, G. cbn [obind]. reflexivity.
Qed.
Lemma quote_op e o r : is_op o = true -> o <> lit "#" -> quote e (TOp o :: r) = oapp (Some (gen_punct o)) (quote e r).
Proof.
  intros K N. destruct (str_eqb o (lit "!")) eqn:E.
  - apply str_eqb_eq in E. subst o. exact (quote_bang e r).
  - apply quote_op_plain; auto. cbn. now apply str_eqb_neq.
Qed.
(** Every token that is not a hash or a group stands for itself. *)
Lemma quote_token e t r : plain_tok t = true -> quote e (t :: r) = oapp (plain t) (quote e r).
Proof.
  destruct t as [s| |o|raw|a|d b]; intros H.
  - apply quote_id.
  - apply quote_plain; [reflexivity|now apply not_modified|]. rewrite no_hash_rules by reflexivity. destruct r; reflexivity.
  - cbn [plain_tok] in H. apply andb_prop in H as [H1 H2]. rewrite negb_true_iff in H2. apply str_eqb_neq in H2. now apply quote_op.
  - apply quote_plain; [reflexivity|now apply not_modified|]. rewrite no_hash_rules by reflexivity. destruct r; reflexivity.
  - apply quote_plain; [reflexivity|now apply not_modified|]. rewrite no_hash_rules by reflexivity. destruct r; reflexivity.
  - discriminate.
Qed.
Lemma itself_plain t out : plain_tok t = true -> (itself t out <-> plain t = Some out).
Proof.
  intros H. split.
  - destruct 1; reflexivity.
  - destruct t as [s| |o|raw|a|d b]; cbn [plain]; intros E; try (injection E as <-; constructor).
    + injection E as <-. cbn [plain_tok] in H. apply andb_prop in H as [H _]. unfold is_op in H. apply existsb_exists in H as ([w out] & Hin & Ho). apply str_eqb_eq in Ho. cbn [fst] in Ho.
      subst o. unfold op_rules in Hin. cbn [In] in Hin. repeat destruct Hin as [Hin|Hin]; try (injection Hin as <- _; constructor). destruct Hin.
    + discriminate.
Qed.

(** * The forms *)
Definition source_expr (s : source) : list ttok := match s with SVar x => [TId x] | SExpr e => e end.
Lemma begins_ok e : expr_ok e = true -> begins_expr e = true.
Proof.
  destruct e as [|[| |o| | |] e]; try discriminate; try reflexivity. cbn [expr_ok]. intros H. apply str_eqb_eq in H. subst o. reflexivity.
Qed.
Lemma pounded_source s more rest : source_ok s = true -> pounded (op "#" :: TGrp Paren (source_toks s ++ more) :: rest) = Some (source_expr s, more, rest).
Proof.
  intros H. unfold source_toks. cbn [app pounded]. rewrite op_is_refl. cbn [andb]. destruct s as [x|e]; [reflexivity|]. cbn [app source_expr]. cbn in H. now rewrite (begins_ok e H).
Qed.
Lemma not_modified_source s more rest : modified (op "#" :: TGrp Paren (source_toks s ++ more) :: rest) = false.
Proof. reflexivity. Qed.
Lemma colon_ok b : b <> [] -> colon_body (op ":" :: b) = Some b.
Proof. destruct b; [easy|reflexivity]. Qed.
Lemma binder_ok x b : b <> [] -> binder_body (binder_toks x ++ b) = Some (x, b).
Proof. intros H. unfold binder_toks, binder_body. cbn [app]. rewrite colon_ok by discriminate. destruct b; [easy|]. destruct x; reflexivity. Qed.
Lemma ends_refl w r : ends_op w (op w :: r) = Some r. Proof. cbn [ends_op]. now rewrite op_is_refl. Qed.
Lemma ends_other w t r : op_is w t = false -> ends_op w (t :: r) = None. Proof. cbn [ends_op]. now intros ->. Qed.
Ltac forms := unfold rules; cbn [first_rule]; unfold rule_bool, rule_opt, rule_opt_as, rule_each, rule_each_between, rule_each_after, rule_each_as, rule_each_as_between.
Lemma quote_when e (want : bool) s b r : source_ok s = true -> b <> [] ->
  quote e (op "#" :: TGrp Paren (source_toks s ++ op ":" :: b) :: op (if want then "+" else "-") :: r) = oapp (act quote e (ABool want (source_expr s) b)) (quote e r).
Proof.
  intros Hs Hb. apply quote_rule; [reflexivity|apply not_modified_source|]. forms. rewrite (pounded_source s (op ":" :: b)) by auto. cbn [obind]. rewrite colon_ok by auto.
  cbn [obind]. destruct want; rewrite ?ends_refl; [reflexivity|]. rewrite ends_other by reflexivity. reflexivity.
Qed.
Lemma quote_opt e s r : source_ok s = true -> quote e (op "#" :: TGrp Paren (source_toks s) :: op "?" :: r) = oapp (act quote e (AOpt (source_expr s))) (quote e r).
Proof.
  intros Hs. rewrite <- (app_nil_r (source_toks s)). apply quote_rule; [reflexivity|apply not_modified_source|]. forms. rewrite (pounded_source s []) by auto. cbn [obind colon_body].
  rewrite ends_refl. reflexivity.
Qed.
Lemma quote_opt_as e s x b r : source_ok s = true -> b <> [] ->
  quote e (op "#" :: TGrp Paren (source_toks s ++ binder_toks x ++ b) :: op "?" :: r) = oapp (act quote e (AOptAs (source_expr s) x b)) (quote e r).
Proof.
  intros Hs Hb. apply quote_rule; [reflexivity|apply not_modified_source|]. forms. rewrite (pounded_source s (binder_toks x ++ b)) by auto. cbn [obind]. rewrite binder_ok by auto.
  unfold binder_toks. cbn [app]. rewrite colon_ok by discriminate. cbn [obind fst snd]. rewrite (ends_other "+"), (ends_other "-"), ends_refl by reflexivity. reflexivity.
Qed.
Definition sep_good (bad : list string) (s : sep) : Prop := match s with Between t => Forall (fun w => op_is w t = false) bad | _ => True end.
Lemma quote_each e s r : source_ok s = true -> quote e (op "#" :: TGrp Paren (source_toks s) :: op "*" :: r) = oapp (act quote e (AEach (source_expr s) NoSep)) (quote e r).
Proof.
  intros Hs. rewrite <- (app_nil_r (source_toks s)). apply quote_rule; [reflexivity|apply not_modified_source|]. forms. rewrite (pounded_source s []) by auto. cbn [obind colon_body binder_body].
  rewrite (ends_other "?"), ends_refl by reflexivity. reflexivity.
Qed.
Lemma quote_each_between e s t r : source_ok s = true -> op_is "?" t = false -> op_is "*" t = false ->
  quote e (op "#" :: TGrp Paren (source_toks s) :: t :: op "*" :: r) = oapp (act quote e (AEach (source_expr s) (Between t))) (quote e r).
Proof.
  intros Hs H1 H2. rewrite <- (app_nil_r (source_toks s)). apply quote_rule; [reflexivity|apply not_modified_source|]. forms. rewrite (pounded_source s []) by auto. cbn [obind colon_body binder_body].
  rewrite (ends_other "?"), (ends_other "*" t), ends_refl by auto. reflexivity.
Qed.
Lemma quote_each_after e s t r : source_ok s = true ->
  quote e (op "#" :: TGrp Paren (source_toks s ++ [t]) :: op "*" :: r) = oapp (act quote e (AEach (source_expr s) (After t))) (quote e r).
Proof.
  intros Hs. apply quote_rule; [reflexivity|apply not_modified_source|]. forms. rewrite (pounded_source s [t]) by auto. cbn [obind colon_body binder_body].
  rewrite ends_refl by auto. reflexivity.
Qed.
Lemma quote_each_as e s x b r : source_ok s = true -> b <> [] ->
  quote e (op "#" :: TGrp Paren (source_toks s ++ binder_toks x ++ b) :: op "*" :: r) = oapp (act quote e (AEachAs (source_expr s) x b NoSep)) (quote e r).
Proof.
  intros Hs Hb. apply quote_rule; [reflexivity|apply not_modified_source|]. forms. rewrite (pounded_source s (binder_toks x ++ b)) by auto. cbn [obind]. rewrite binder_ok by auto.
  unfold binder_toks. cbn [app]. rewrite colon_ok by discriminate. cbn [obind fst snd]. rewrite (ends_other "+"), (ends_other "-"), (ends_other "?"), ends_refl by reflexivity.
  destruct b; [easy|]. reflexivity.
Qed.
Lemma quote_each_as_between e s x b t r : source_ok s = true -> b <> [] ->
  op_is "?" t = false -> op_is "*" t = false -> op_is "+" t = false -> op_is "-" t = false ->
  quote e (op "#" :: TGrp Paren (source_toks s ++ binder_toks x ++ b) :: t :: op "*" :: r) = oapp (act quote e (AEachAs (source_expr s) x b (Between t))) (quote e r).
Proof.
  intros Hs Hb H1 H2 H3 H4. apply quote_rule; [reflexivity|apply not_modified_source|]. forms. rewrite (pounded_source s (binder_toks x ++ b)) by auto. cbn [obind]. rewrite binder_ok by auto.
  unfold binder_toks. cbn [app]. rewrite colon_ok by discriminate. cbn [obind fst snd]. rewrite (ends_other "+"), (ends_other "-"), (ends_other "?"), (ends_other "*" t), ends_refl by auto.
  destruct b; [easy|]. reflexivity.
Qed.
Lemma pounded_expr x rest : expr_ok x = true -> pounded (op "#" :: TGrp Paren x :: rest) = None.
Proof.
  intros H. unfold pounded. destruct x as [|h inner]; [reflexivity|]. rewrite op_is_refl. cbn [andb]. destruct (op_is "#" h) eqn:E; [|reflexivity].
  apply op_is_eq in E. subst h. discriminate H.
Qed.
Lemma quote_expr e x r : expr_ok x = true -> quote e (op "#" :: TGrp Paren x :: r) = oapp (act quote e (AText x)) (quote e r).
Proof.
  intros H. apply quote_rule; [reflexivity| |].
  - unfold modified. destruct x as [|a x]; [reflexivity|]. rewrite op_is_refl. cbn [andb]. destruct (op_is "@" a) eqn:E; [|reflexivity]. apply op_is_eq in E. subst a. discriminate H.
  - forms. rewrite (pounded_expr x r H). cbn [obind]. unfold rule_expr. rewrite (begins_ok x H). reflexivity.
Qed.
Lemma quote_var e x r : quote e (op "#" :: TId x :: r) = oapp (act quote e (AText [TId x])) (quote e r).
Proof. apply quote_rule; reflexivity. Qed.
Lemma quote_hash e r : quote e (op "#" :: op "#" :: r) = oapp (Some [hash]) (quote e r).
Proof. rewrite (quote_rule e (op "#") (op "#" :: r) (ATokens [hash]) r); reflexivity. Qed.
Lemma quote_attr e b r : quote e (op "#" :: TGrp Bracket b :: r) = oapp (let! ts := quote e b in Some [hash; PGrp Bracket ts]) (quote e r).
Proof. rewrite (quote_rule e (op "#") (TGrp Bracket b :: r) (AGroup [hash] Bracket b []) r); try reflexivity. destruct r as [|[| | | | |[| | |] ?] r]; reflexivity. Qed.
Lemma quote_inner_attr e b r : quote e (op "#" :: op "!" :: TGrp Bracket b :: r) = oapp (let! ts := quote e b in Some [hash; bang; PGrp Bracket ts]) (quote e r).
Proof. rewrite (quote_rule e (op "#") (op "!" :: TGrp Bracket b :: r) (AGroup [hash; bang] Bracket b []) r); reflexivity. Qed.

(** * Templates *)
Section induction.
  Variable P : tmpl -> Prop.
  Hypothesis token : forall t, P (Token t).
  Hypothesis grouped : forall d b, Forall P b -> P (Grouped d b).
  Hypothesis hash_ : P Hash.
  Hypothesis attr : forall i b, Forall P b -> P (Attribute i b).
  Hypothesis var : forall x, P (Var x).
  Hypothesis expr : forall x, P (Expr x).
  Hypothesis when : forall w s b, Forall P b -> P (When w s b).
  Hypothesis opt : forall s, P (Opt s).
  Hypothesis opt_as : forall s x b, Forall P b -> P (OptAs s x b).
  Hypothesis each_ : forall s p, P (Each s p).
  Hypothesis each_as : forall s x b p, Forall P b -> P (EachAs s x b p).
  Fixpoint tmpl_induction (t : tmpl) : P t :=
    let all := fix all (l : list tmpl) : Forall P l := match l with [] => Forall_nil P | t :: r => Forall_cons t (tmpl_induction t) (all r) end in
    match t with
    | Token t => token t
    | Grouped d b => grouped d b (all b)
    | Hash => hash_
    | Attribute i b => attr i b (all b)
    | Var x => var x
    | Expr x => expr x
    | When w s b => when w s b (all b)
    | Opt s => opt s
    | OptAs s x b => opt_as s x b (all b)
    | Each s p => each_ s p
    | EachAs s x b p => each_as s x b p (all b)
    end.
End induction.
Lemma written_nonempty t : written t <> [].
Proof. destruct t as [| | | | | | | | |s [| |]|]; discriminate. Qed.
Lemma body_nonempty b : nonempty_body b = true -> flat_map written b <> [].
Proof. destruct b as [|t b]; [discriminate|]. intros _. cbn. pose proof (written_nonempty t). destruct (written t); [easy|discriminate]. Qed.

(** The rules agree with [means0]: [quote_of] is what the expansion makes of one form. *)
Definition quote_of (e : env) (t : tmpl) : option (list ptok) := quote e (written t).
Definition splits (t : tmpl) : Prop := tmpl_ok t = true -> forall e r, quote e (written t ++ r) = oapp (quote_of e t) (quote e r).
Lemma oapp_nil_r a : oapp a (Some []) = a. Proof. destruct a; cbn; [now rewrite app_nil_r|reflexivity]. Qed.
Lemma oapp_assoc a b c : oapp (oapp a b) c = oapp a (oapp b c).
Proof. destruct a, b, c; cbn; now rewrite ?app_assoc. Qed.
Lemma splits_by t : (forall e, exists o, forall r, quote e (written t ++ r) = oapp o (quote e r)) -> forall e r, quote e (written t ++ r) = oapp (quote_of e t) (quote e r).
Proof. intros H e r. destruct (H e) as [o Ho]. rewrite Ho. unfold quote_of. rewrite <- (app_nil_r (written t)), Ho, quote_nil, oapp_nil_r. reflexivity. Qed.
Lemma sep_ok_inv bad t : sep_ok bad t = true -> plain_tok t = true /\ Forall (fun w => op_is w t = false) bad.
Proof.
  unfold sep_ok. intros H. apply andb_prop in H as [H1 H2]. split; [exact H1|]. rewrite negb_true_iff in H2. induction bad as [|w bad IH]; constructor.
  - cbn in H2. now apply orb_false_elim in H2 as [H2 _].
  - apply IH. cbn in H2. now apply orb_false_elim in H2 as [_ H2].
Qed.
Ltac andbs := repeat match goal with H : (_ && _)%bool = true |- _ => apply andb_prop in H as [? ?] end.
Lemma all_split t : splits t.
Proof.
  unfold splits. destruct t as [t|d b| |i b|x|x|w s b|s|s x b|s [|t|t]|s x b [t|]]; intros H; apply splits_by; intros e; cbn [tmpl_ok] in H; cbn [written app]; andbs;
    repeat match goal with H : nonempty_body _ = true |- _ => apply body_nonempty in H | H : sep_ok _ _ = true |- _ => apply sep_ok_inv in H as [? ?] end.
  - eexists. intros r. now apply quote_token.
  - eexists. intros r. apply quote_group. intros ->. discriminate.
  - eexists. intros r. apply quote_hash.
  - destruct i; eexists; intros r; [apply quote_inner_attr|apply quote_attr].
  - eexists. intros r. apply quote_var.
  - eexists. intros r. now apply quote_expr.
  - eexists. intros r. now apply quote_when.
  - eexists. intros r. now apply quote_opt.
  - eexists. intros r. now apply quote_opt_as.
  - eexists. intros r. now apply quote_each.
  - eexists. intros r. match goal with F : Forall _ _ |- _ => inversion F as [|? ? ? F']; inversion F'; subst end. now apply quote_each_between.
  - eexists. intros r. now apply quote_each_after.
  - eexists. intros r. match goal with F : Forall _ _ |- _ => inversion F as [|? ? ? F1]; inversion F1 as [|? ? ? F2]; inversion F2 as [|? ? ? F3]; inversion F3; subst end.
    now apply quote_each_as_between.
  - eexists. intros r. now apply quote_each_as.
Qed.
Lemma quote_cons t ts e : tmpl_ok t = true -> quote e (flat_map written (t :: ts)) = oapp (quote_of e t) (quote e (flat_map written ts)).
Proof. intros H. cbn [flat_map]. now apply all_split. Qed.

(** * The two directions *)
Definition correct (t : tmpl) : Prop := tmpl_ok t = true -> forall e out, quote_of e t = Some out <-> means0 e t out.
Lemma oapp_inv a b out : oapp a b = Some out <-> exists x y, a = Some x /\ b = Some y /\ out = x ++ y.
Proof.
  split.
  - destruct a as [x|], b as [y|]; try discriminate. cbn. intros H. injection H as <-. eauto.
  - intros (x & y & -> & -> & ->). reflexivity.
Qed.
Lemma body_correct b : Forall correct b -> forallb tmpl_ok b = true -> forall e out, quote e (flat_map written b) = Some out <-> all_mean0 e b out.
Proof.
  induction 1 as [|t b Ht _ IH]; intros H e out.
  - cbn [flat_map]. rewrite quote_nil. split; [intros E; injection E as <-; constructor|intros M; inversion M; reflexivity].
  - cbn [forallb] in H. apply andb_prop in H as [H1 H2]. rewrite quote_cons by auto. rewrite oapp_inv. split.
    + intros (x & y & A & B & ->). constructor; [now apply Ht|now apply IH].
    + intros M. inversion M; subst. eexists _, _. split; [apply (Ht H1); eassumption|]. split; [apply (IH H2); eassumption|reflexivity].
Qed.
Lemma eval_source e s v : (eval e (source_expr s) = Some v) <-> source_value0 e s v.
Proof. destruct s as [x|t]; cbn [source_expr source_value0 eval]; [|reflexivity]. destruct (assoc x e); cbn; split; auto; discriminate. Qed.
Lemma each_between f e x body first vs outs p : (forall v, f (bind_var x v e) [p] = plain p) ->
  forall sp, plain p = Some sp ->
  (each f e x body (Between p) first vs = Some outs <->
   exists l, Forall2 (fun v o => match body with Some ts => f (bind_var x v e) ts | None => text_of v end = Some o) vs l /\
             outs = (if first then [] else match l with [] => [] | _ => sp end) ++ interleave sp l).
Proof.
  intros Hp sp Hsp. revert first outs. induction vs as [|v vs IH]; intros first outs.
  - cbn [each]. split.
    + intros E. injection E as <-. exists []. split; [constructor|]. destruct first; reflexivity.
    + intros (l & F & ->). inversion F; subst. destruct first; reflexivity.
  - cbn [each]. cbv zeta. rewrite Hp, Hsp.
    assert (A : (if first then Some [] else Some sp) = Some (if first then [] else sp)) by (destruct first; reflexivity). rewrite A. cbn [obind].
    set (B := match body with Some ts => f (bind_var x v e) ts | None => text_of v end). split.
    + destruct B as [o|] eqn:EB; cbn [obind]; [|discriminate]. destruct (each f e x body (Between p) false vs) as [d|] eqn:ED; cbn [obind]; [|discriminate].
      intros E. injection E as <-. apply IH in ED as (l & F & ->). exists (o :: l). split; [constructor; auto|]. cbn [app].
      destruct l as [|o' l]; [cbn; rewrite ?app_nil_r|cbn [interleave app]]; destruct first; cbn [app]; reflexivity.
    + intros (l & F & ->). inversion F as [|? o ? l' Ho F']; subst. fold B in Ho. rewrite Ho. cbn [obind].
      rewrite (proj2 (IH false _) (ex_intro _ l' (conj F' eq_refl))). cbn [obind app].
      destruct l' as [|o' l']; [cbn; rewrite ?app_nil_r|cbn [interleave app]]; destruct first; cbn [app]; reflexivity.
Qed.
Lemma each_none f e x body first vs outs :
  each f e x body NoSep first vs = Some outs <->
  exists l, Forall2 (fun v o => match body with Some ts => f (bind_var x v e) ts | None => text_of v end = Some o) vs l /\ outs = List.concat l.
Proof.
  revert first outs. induction vs as [|v vs IH]; intros first outs.
  - cbn [each]. split; [intros E; injection E as <-; exists []; split; [constructor|reflexivity]|]. intros (l & F & ->). inversion F; reflexivity.
  - cbn [each]. cbv zeta. cbn [obind app]. set (B := match body with Some ts => f (bind_var x v e) ts | None => text_of v end). split.
    + destruct B as [o|] eqn:EB; cbn [obind]; [|discriminate]. destruct (each f e x body NoSep false vs) as [d|] eqn:ED; cbn [obind]; [|discriminate].
      intros E. injection E as <-. apply IH in ED as (l & F & ->). exists (o :: l). split; [constructor; auto|reflexivity].
    + intros (l & F & ->). inversion F as [|? o ? l' Ho F']; subst. fold B in Ho. rewrite Ho. cbn [obind].
      rewrite (proj2 (IH false _) (ex_intro _ l' (conj F' eq_refl))). reflexivity.
Qed.
Lemma each_after f e x body first vs outs p sp : (forall v, f (bind_var x v e) [p] = plain p) -> plain p = Some sp ->
  (each f e x body (After p) first vs = Some outs <->
   exists l, Forall2 (fun v o => match body with Some ts => f (bind_var x v e) ts | None => text_of v end = Some o) vs l /\ outs = flat_map (fun a => a ++ sp) l).
Proof.
  intros Hp Hsp. revert first outs. induction vs as [|v vs IH]; intros first outs.
  - cbn [each]. split; [intros E; injection E as <-; exists []; split; [constructor|reflexivity]|]. intros (l & F & ->). inversion F; reflexivity.
  - cbn [each]. cbv zeta. cbn [obind app]. rewrite Hp, Hsp. cbn [obind]. set (B := match body with Some ts => f (bind_var x v e) ts | None => text_of v end). split.
    + destruct B as [o|] eqn:EB; cbn [obind]; [|discriminate]. destruct (each f e x body (After p) false vs) as [d|] eqn:ED; cbn [obind]; [|discriminate].
      intros E. injection E as <-. apply IH in ED as (l & F & ->). exists (o :: l). split; [constructor; auto|]. cbn [flat_map]. now rewrite app_assoc.
    + intros (l & F & ->). inversion F as [|? o ? l' Ho F']; subst. fold B in Ho. rewrite Ho. cbn [obind].
      rewrite (proj2 (IH false _) (ex_intro _ l' (conj F' eq_refl))). cbn [obind flat_map]. now rewrite app_assoc.
Qed.
Lemma quote_sep e p : plain_tok p = true -> quote e [p] = plain p.
Proof. intros H. rewrite quote_token by auto. now rewrite quote_nil, oapp_nil_r. Qed.
Lemma each_text_ok e p vs out : match p with NoSep => True | Between t | After t => plain_tok t = true end ->
  (each quote e None None p true vs = Some out <-> exists outs, Forall2 (fun v o => text_of v = Some o) vs outs /\ joined p outs out).
Proof.
  intros Hp. destruct p as [|t|t].
  - rewrite each_none. split.
    + intros (l & F & ->). exists l. split; [exact F|constructor].
    + intros (l & F & J). inversion J; subst. eauto.
  - destruct (plain t) as [sp|] eqn:Es; [|destruct t; discriminate]. rewrite (each_between quote e None None true vs out t); [|intros; now apply quote_sep|exact Es]. split.
    + intros (l & F & ->). exists l. split; [exact F|]. constructor. now apply itself_plain.
    + intros (l & F & J). inversion J as [|? s ? I0|]; subst. apply itself_plain in I0; auto. rewrite Es in I0. injection I0 as ->. eauto.
  - destruct (plain t) as [sp|] eqn:Es; [|destruct t; discriminate]. rewrite (each_after quote e None None true vs out t sp); [|intros; now apply quote_sep|exact Es]. split.
    + intros (l & F & ->). exists l. split; [exact F|]. constructor. now apply itself_plain.
    + intros (l & F & J). inversion J as [| |? s ? I0]; subst. apply itself_plain in I0; auto. rewrite Es in I0. injection I0 as ->. eauto.
Qed.
Lemma each_means_forall e x b vs l : Forall correct b -> forallb tmpl_ok b = true ->
  (Forall2 (fun v o => quote (bind_var x v e) (flat_map written b) = Some o) vs l <-> each_means0 e x b vs l).
Proof.
  intros Hb Hok. split.
  - induction 1 as [|v o vs l H _ IH]; constructor; auto. now apply body_correct.
  - induction 1 as [|? ? ? v vs o l H _ IH]; constructor; auto. now apply body_correct.
Qed.
Lemma each_body_ok e x b p vs out : Forall correct b -> forallb tmpl_ok b = true -> match p with Some t => plain_tok t = true | None => True end ->
  (each quote e x (Some (flat_map written b)) (match p with Some t => Between t | None => NoSep end) true vs = Some out <->
   exists outs, each_means0 e x b vs outs /\ joined (match p with Some t => Between t | None => NoSep end) outs out).
Proof.
  intros Hb Hok Hp. destruct p as [t|].
  - destruct (plain t) as [sp|] eqn:Es; [|destruct t; discriminate].
    rewrite (each_between quote e x (Some (flat_map written b)) true vs out t); [|intros; now apply quote_sep|exact Es]. split.
    + intros (l & F & ->). exists l. split; [now apply each_means_forall|]. constructor. now apply itself_plain.
    + intros (l & F & J). inversion J as [|? s ? I0|]; subst. apply itself_plain in I0; auto. rewrite Es in I0. injection I0 as ->. exists l. split; [|reflexivity]. now apply each_means_forall.
  - rewrite each_none. split.
    + intros (l & F & ->). exists l. split; [now apply each_means_forall|constructor].
    + intros (l & F & J). inversion J; subst. exists l. split; [|reflexivity]. now apply each_means_forall.
Qed.
Lemma of_rule e t a : (forall r, quote e (written t ++ r) = oapp a (quote e r)) -> quote_of e t = a.
Proof. intros H. unfold quote_of. rewrite <- (app_nil_r (written t)), H, quote_nil. apply oapp_nil_r. Qed.
Lemma all_correct t : correct t.
Proof.
  induction t as [t|d b IH| |i b IH|x|x|w s b IH|s|s x b IH|s p|s x b p IH] using tmpl_induction; intros H e out; cbn [tmpl_ok] in H.
  - rewrite (of_rule e (Token t) (plain t)) by (intros r; now apply quote_token). rewrite <- itself_plain by auto. split; [now constructor|inversion 1; auto].
  - apply andb_prop in H as [H1 H2]. rewrite (of_rule e (Grouped d b) (group_out e d (flat_map written b))).
    2:{ intros r. apply quote_group. intros ->. discriminate. }
    unfold group_out. destruct (quote e (flat_map written b)) as [o|] eqn:E; cbn [obind]; split.
    + intros E'. injection E' as <-. constructor. now apply body_correct.
    + inversion 1; subst. match goal with M : all_mean0 _ _ _ |- _ => apply (body_correct b IH H2) in M; rewrite M in E; injection E as -> end. reflexivity.
    + discriminate.
    + inversion 1; subst. match goal with M : all_mean0 _ _ _ |- _ => apply (body_correct b IH H2) in M; rewrite M in E; discriminate E end.
  - rewrite (of_rule e Hash (Some [hash])) by (intros r; apply quote_hash). split; [intros E; injection E as <-; constructor|inversion 1; reflexivity].
  - destruct i.
    + rewrite (of_rule e (Attribute true b) (let! ts := quote e (flat_map written b) in Some [hash; bang; PGrp Bracket ts])) by (intros r; apply quote_inner_attr).
      destruct (quote e (flat_map written b)) as [o|] eqn:E; cbn [obind]; split.
      * intros E'. injection E' as <-. constructor. now apply body_correct.
      * inversion 1; subst. match goal with M : all_mean0 _ _ _ |- _ => apply (body_correct b IH H) in M; rewrite M in E; injection E as -> end. reflexivity.
      * discriminate.
      * inversion 1; subst. match goal with M : all_mean0 _ _ _ |- _ => apply (body_correct b IH H) in M; rewrite M in E; discriminate E end.
    + rewrite (of_rule e (Attribute false b) (let! ts := quote e (flat_map written b) in Some [hash; PGrp Bracket ts])) by (intros r; apply quote_attr).
      destruct (quote e (flat_map written b)) as [o|] eqn:E; cbn [obind]; split.
      * intros E'. injection E' as <-. constructor. now apply body_correct.
      * inversion 1; subst. match goal with M : all_mean0 _ _ _ |- _ => apply (body_correct b IH H) in M; rewrite M in E; injection E as -> end. reflexivity.
      * discriminate.
      * inversion 1; subst. match goal with M : all_mean0 _ _ _ |- _ => apply (body_correct b IH H) in M; rewrite M in E; discriminate E end.
  - rewrite (of_rule e (Var x) (act quote e (AText [TId x]))) by (intros r; apply quote_var). cbn [act eval]. destruct (assoc x e) as [v|] eqn:E; cbn [obind eval_suffix]; split.
    + intros T. now apply (m_var0 e x v).
    + inversion 1; subst. congruence.
    + discriminate.
    + inversion 1; subst. congruence.
  - rewrite (of_rule e (Expr x) (act quote e (AText x))) by (intros r; now apply quote_expr). cbn [act]. destruct (eval e x) as [v|] eqn:E; cbn [obind]; split.
    + intros T. now apply (m_expr0 e x v).
    + inversion 1; subst. congruence.
    + discriminate.
    + inversion 1; subst. congruence.
  - andbs. rewrite (of_rule e (When w s b) (act quote e (ABool w (source_expr s) (flat_map written b)))).
    2:{ intros r. apply quote_when; [auto|now apply body_nonempty]. }
    cbn [act]. split.
    + destruct (eval e (source_expr s)) as [v|] eqn:E; cbn [obind]; [|discriminate]. destruct v as [|c| |]; try discriminate. apply eval_source in E.
      destruct (Bool.eqb c w) eqn:Ec.
      * apply Bool.eqb_prop in Ec. subst c. intros Q. constructor; [exact E|]. now apply body_correct.
      * intros Q. injection Q as <-. apply m_unless0. destruct c, w; try discriminate; exact E.
    + inversion 1; subst.
      * match goal with S : source_value0 _ _ _ |- _ => apply eval_source in S; rewrite S end. cbn [obind]. rewrite Bool.eqb_reflx. now apply body_correct.
      * match goal with S : source_value0 _ _ _ |- _ => apply eval_source in S; rewrite S end. cbn [obind]. destruct w; reflexivity.
  - rewrite (of_rule e (Opt s) (act quote e (AOpt (source_expr s)))) by (intros r; now apply quote_opt). cbn [act]. split.
    + destruct (eval e (source_expr s)) as [[| |[v|]|]|] eqn:E; cbn [obind]; try discriminate; apply eval_source in E; intros T.
      * now apply (m_opt0 e s v).
      * injection T as <-. now constructor.
    + inversion 1; subst; match goal with S : source_value0 _ _ _ |- _ => apply eval_source in S; rewrite S end; auto.
  - andbs. rewrite (of_rule e (OptAs s x b) (act quote e (AOptAs (source_expr s) x (flat_map written b)))).
    2:{ intros r. apply quote_opt_as; [auto|now apply body_nonempty]. }
    cbn [act]. split.
    + destruct (eval e (source_expr s)) as [[| |[v|]|]|] eqn:E; cbn [obind]; try discriminate; apply eval_source in E; intros T.
      * apply (m_opt_as0 e s x v); [exact E|]. now apply body_correct.
      * injection T as <-. now constructor.
    + inversion 1; subst; match goal with S : source_value0 _ _ _ |- _ => apply eval_source in S; rewrite S end; cbn [obind]; auto. now apply body_correct.
  - assert (Hs : source_ok s = true) by (destruct p; andbs; auto).
    assert (Hp : match p with NoSep => True | Between t | After t => plain_tok t = true end).
    { destruct p; auto; apply andb_prop in H as [_ H]; auto. now apply sep_ok_inv in H as [H _]. }
    rewrite (of_rule e (Each s p) (act quote e (AEach (source_expr s) p))).
    2:{ intros r. destruct p as [|t|t]; cbn [written app]; [now apply quote_each| |now apply quote_each_after]. apply andb_prop in H as [_ H]. apply sep_ok_inv in H as [_ F].
        inversion F as [|? ? ? F']; inversion F'; subst. now apply quote_each_between. }
    cbn [act]. split.
    + destruct (eval e (source_expr s)) as [v|] eqn:E; cbn [obind]; [|discriminate]. destruct (items v) as [vs|] eqn:Ei; cbn [obind]; [|discriminate]. apply eval_source in E.
      rewrite each_text_ok by auto. intros (outs & F & J). now apply (m_each0 e s p v vs outs).
    + inversion 1; subst. match goal with S : source_value0 _ _ _ |- _ => apply eval_source in S; rewrite S end. cbn [obind].
      match goal with S : items _ = _ |- _ => rewrite S end. cbn [obind]. rewrite each_text_ok by auto. eauto.
  - andbs. assert (Hp : match p with Some t => plain_tok t = true | None => True end).
    { destruct p; auto. match goal with S : sep_ok _ _ = true |- _ => now apply sep_ok_inv in S as [S _] end. }
    rewrite (of_rule e (EachAs s x b p) (act quote e (AEachAs (source_expr s) x (flat_map written b) (match p with Some t => Between t | None => NoSep end)))).
    2:{ intros r. destruct p as [t|]; cbn [written app]; [|apply quote_each_as; [auto|now apply body_nonempty]].
        match goal with S : sep_ok _ _ = true |- _ => apply sep_ok_inv in S as [_ F] end.
        inversion F as [|? ? ? F1]; inversion F1 as [|? ? ? F2]; inversion F2 as [|? ? ? F3]; inversion F3; subst. apply quote_each_as_between; auto. now apply body_nonempty. }
    cbn [act]. split.
    + destruct (eval e (source_expr s)) as [v|] eqn:E; cbn [obind]; [|discriminate]. destruct (items v) as [vs|] eqn:Ei; cbn [obind]; [|discriminate]. apply eval_source in E.
      rewrite each_body_ok by auto. intros (outs & F & J). now apply (m_each_as0 e s x b p v vs outs).
    + inversion 1; subst. match goal with S : source_value0 _ _ _ |- _ => apply eval_source in S; rewrite S end. cbn [obind].
      match goal with S : items _ = _ |- _ => rewrite S end. cbn [obind]. rewrite each_body_ok by auto. eauto.
Qed.
Lemma templates_mean0 ts e out : forallb tmpl_ok ts = true -> (quote e (flat_map written ts) = Some out <-> all_mean0 e ts out).
Proof. intros H. apply body_correct; [|exact H]. apply Forall_forall. intros t _. apply all_correct. Qed.

(** * The functions of the model are what the specification says *)
Lemma assoc_ok x e v : assoc x e = Some v <-> finds x e v.
Proof.
  split.
  - induction e as [|[y w] e IH]; cbn [assoc]; [discriminate|]. destruct (str_eqb x y) eqn:E.
    + apply str_eqb_eq in E as ->. intros H. injection H as ->. constructor.
    + intros H. constructor; [|auto]. intros ->. rewrite str_eqb_refl in E. discriminate.
  - induction 1 as [w e|y w e v N H IH]; cbn [assoc]; [now rewrite str_eqb_refl|]. destruct (str_eqb x y) eqn:E; [apply str_eqb_eq in E; congruence|exact IH].
Qed.
Lemma decimal_digits d n : decimal d n -> forall f, n < f -> digits f n = d.
Proof.
  induction 1 as [k K|s n k H IH P K]; intros f F; (destruct f as [|f]; [lia|]); cbn [digits].
  - destruct (Nat.ltb_spec k 10); [reflexivity|lia].
  - destruct (Nat.ltb_spec (10 * n + k) 10); [lia|].
    assert (D : (10 * n + k) / 10 = n) by (symmetry; apply (Nat.div_unique _ 10 n k); lia).
    assert (M : (10 * n + k) mod 10 = k) by (symmetry; apply (Nat.mod_unique _ 10 n k); lia).
    rewrite D, M, IH by lia. reflexivity.
Qed.
Lemma digits_decimal f : forall n, n < f -> decimal (digits f n) n.
Proof.
  induction f as [|f IH]; intros n F; [lia|]. cbn [digits]. destruct (Nat.ltb_spec n 10) as [L|L]; [now constructor|].
  pose proof (Nat.div_mod n 10 ltac:(lia)) as E. pose proof (Nat.mod_upper_bound n 10 ltac:(lia)). rewrite E at 3.
  constructor; [apply IH|pose proof (Nat.div_str_pos n 10)|]; lia.
Qed.
Lemma text_of_ok v ts : text_of v = Some ts <-> shows v ts.
Proof.
  split.
  - destruct v as [[t|] ms|[|]| |]; cbn; intros H; try discriminate; injection H as <-; constructor.
  - now destruct 1.
Qed.
Lemma items_ok v vs : items v = Some vs <-> elements v vs.
Proof.
  split.
  - destruct v as [| |[w|]|l]; cbn; intros H; try discriminate; injection H as <-; constructor.
  - now destruct 1.
Qed.
Lemma some_inj {A} (a b : A) : Some a = Some b -> a = b. Proof. congruence. Qed.
Lemma get_member_ok f v w : get_member f v = Some w <-> member v f w.
Proof.
  split.
  - destruct v as [t ms| | |l]; cbn [get_member]; try discriminate.
    + intros H. constructor. now apply assoc_ok.
    + destruct (str_eqb f (lit "len()")) eqn:E; [|discriminate]. apply str_eqb_eq in E as ->. intros H. apply some_inj in H. subst w. constructor. apply digits_decimal. lia.
  - destruct 1 as [t ms f v H|l d H]; cbn [get_member]; [now apply assoc_ok|]. rewrite str_eqb_refl, (decimal_digits _ _ H) by lia. reflexivity.
Qed.
Lemma op_is_iff w t : op_is w t = true <-> t = op w.
Proof.
  split; [|intros ->; apply str_eqb_refl]. destruct t as [| |o| | |]; cbn; try discriminate. intros H. apply str_eqb_eq in H as ->. reflexivity.
Qed.
Lemma eval_suffix_ok e n : forall ts, List.length ts < n -> forall pre v w, value_of e pre v -> eval_suffix v ts = Some w -> value_of e (pre ++ ts) w.
Proof.
  induction n as [|n IH]; intros ts L pre v w P; [lia|]. destruct ts as [|d r]; cbn [eval_suffix]; [intros H; injection H as <-; now rewrite app_nil_r|].
  destruct (op_is "." d) eqn:D; [|discriminate]. apply op_is_iff in D as ->. cbn [List.length] in L.
  destruct r as [|[f| |o|k|a|dl g] r1]; try discriminate; cbn [List.length] in L.
  - assert (Fld : (let! w0 := get_member f v in eval_suffix w0 r1) = Some w -> value_of e (pre ++ op "." :: TId f :: r1) w).
    { destruct (get_member f v) as [u|] eqn:G; cbn [obind]; [|discriminate]. apply get_member_ok in G. intros H.
      change (op "." :: TId f :: r1) with ([op "."; TId f] ++ r1). rewrite app_assoc. eapply IH; [lia| |exact H]. econstructor; eauto. }
    destruct r1 as [|[f'| |o'|k'|a'|dl' g'] r2]; try exact Fld. destruct dl'; try exact Fld. destruct g'; try exact Fld. clear Fld.
    destruct (get_member _ v) as [u|] eqn:G; cbn [obind]; [|discriminate]. apply get_member_ok in G. intros H.
    change (op "." :: TId f :: TGrp Paren [] :: r2) with ([op "."; TId f; TGrp Paren []] ++ r2). rewrite app_assoc. cbn [List.length] in L.
    eapply IH; [lia| |exact H]. eapply v_call; eauto.
  - destruct (get_member k v) as [u|] eqn:G; cbn [obind]; [|discriminate]. apply get_member_ok in G. intros H.
    change (op "." :: TLit k :: r1) with ([op "."; TLit k] ++ r1). rewrite app_assoc. eapply IH; [lia| |exact H]. eapply v_element; eauto.
Qed.
Lemma eval_suffix_app r n : forall ts, List.length ts < n -> forall v, eval_suffix v (ts ++ op "." :: r) = let! w := eval_suffix v ts in eval_suffix w (op "." :: r).
Proof.
  induction n as [|n IH]; intros ts L v; [lia|]. destruct ts as [|d ts]; [reflexivity|]. cbn [List.length] in L.
  cbn [app]. change (eval_suffix v (d :: ts ++ op "." :: r)) with
    (if op_is "." d then match ts ++ op "." :: r with
        | TId f :: r1 => match r1 with TGrp Paren [] :: r2 => let! w := get_member (f ++ lit "()") v in eval_suffix w r2 | _ => let! w := get_member f v in eval_suffix w r1 end
        | TLit n :: r1 => let! w := get_member n v in eval_suffix w r1 | _ => None end else None).
  cbn [eval_suffix]. destruct (op_is "." d); [|reflexivity].
  destruct ts as [|[f| |o|k|a|dl g] r1]; cbn [app]; try reflexivity; cbn [List.length] in L.
  - assert (F : (let! w := get_member f v in eval_suffix w (r1 ++ op "." :: r)) =
                obind (let! w := get_member f v in eval_suffix w r1) (fun w => eval_suffix w (op "." :: r))).
    { destruct (get_member f v); cbn [obind]; [|reflexivity]. apply IH. lia. }
    destruct r1 as [|[f'| |o'|k'|a'|dl' g'] r2]; cbn [app] in *; try exact F. destruct dl'; try exact F. destruct g'; try exact F.
    clear F. cbn [List.length] in L. destruct (get_member (f ++ lit "()") v); cbn [obind]; [|reflexivity]. apply IH. lia.
  - destruct (get_member k v); cbn [obind]; [|reflexivity]. apply IH. lia.
Qed.
Lemma eval_app e ts r : eval e (ts ++ op "." :: r) = let! w := eval e ts in eval_suffix w (op "." :: r).
Proof.
  induction ts as [|t ts IH]; [reflexivity|]. destruct t as [x| |o|k|a|d g]; try reflexivity.
  - cbn [app eval]. destruct (assoc x e); cbn [obind]; [|reflexivity]. apply (eval_suffix_app r (S (List.length ts))). lia.
  - cbn [app eval]. destruct (op_is "&" (TOp o)); [exact IH|reflexivity].
Qed.
Lemma eval_ok e ts v : eval e ts = Some v <-> value_of e ts v.
Proof.
  split.
  - revert v. induction ts as [|t ts IH]; intros v; [discriminate|]. destruct t as [x| |o|k|a|d g]; cbn [eval]; try (cbn; discriminate).
    + destruct (assoc x e) as [u|] eqn:A; cbn [obind]; [|discriminate]. intros H. change (TId x :: ts) with ([TId x] ++ ts). apply (eval_suffix_ok e (S (List.length ts)) ts ltac:(lia) [TId x] u v); [|exact H].
      constructor. now apply assoc_ok.
    + destruct (op_is "&" (TOp o)) eqn:D; [|discriminate]. apply op_is_iff in D. injection D as ->. intros H. constructor. auto.
  - induction 1 as [x v H|ts v H IH|ts v f w H IH M|ts v k w H IH M|ts v f w H IH M].
    + cbn [eval]. apply assoc_ok in H as ->. reflexivity.
    + exact IH.
    + apply get_member_ok in M. rewrite eval_app, IH. cbn [obind eval_suffix]. change (op_is "." (op ".")) with true. cbv iota. rewrite M. reflexivity.
    + apply get_member_ok in M. rewrite eval_app, IH. cbn [obind eval_suffix]. change (op_is "." (op ".")) with true. cbv iota. rewrite M. reflexivity.
    + apply get_member_ok in M. rewrite eval_app, IH. cbn [obind eval_suffix]. change (op_is "." (op ".")) with true. cbv iota. rewrite M. reflexivity.
Qed.
Lemma source_ok0 e s v : source_value0 e s v <-> source_value e s v.
Proof. destruct s; cbn; [apply assoc_ok|apply eval_ok]. Qed.
Lemma with_var_eq x v e : with_var x v e = bind_var x v e. Proof. reflexivity. Qed.
Lemma shows_all vs outs : Forall2 shows vs outs <-> Forall2 (fun v o => text_of v = Some o) vs outs.
Proof. split; induction 1; constructor; auto; now apply text_of_ok. Qed.
Scheme means_min := Minimality for means Sort Prop with all_mean_min := Minimality for all_mean Sort Prop with each_means_min := Minimality for each_means Sort Prop.
Combined Scheme means_mut from means_min, all_mean_min, each_means_min.
Scheme means0_min := Minimality for means0 Sort Prop with all_mean0_min := Minimality for all_mean0 Sort Prop with each_means0_min := Minimality for each_means0 Sort Prop.
Combined Scheme means0_mut from means0_min, all_mean0_min, each_means0_min.
Ltac spec := repeat match goal with
  | H : finds _ _ _ |- _ => apply assoc_ok in H | H : shows _ _ |- _ => apply text_of_ok in H | H : value_of _ _ _ |- _ => apply eval_ok in H
  | H : elements _ _ |- _ => apply items_ok in H | H : source_value _ _ _ |- _ => apply source_ok0 in H | H : Forall2 shows _ _ |- _ => apply shows_all in H end.
Ltac unspec := repeat match goal with
  | H : assoc _ _ = Some _ |- _ => apply assoc_ok in H | H : text_of _ = Some _ |- _ => apply text_of_ok in H | H : eval _ _ = Some _ |- _ => apply eval_ok in H
  | H : items _ = Some _ |- _ => apply items_ok in H | H : source_value0 _ _ _ |- _ => apply source_ok0 in H | H : Forall2 (fun v o => text_of v = Some o) _ _ |- _ => apply shows_all in H end.
Lemma means_means0 : (forall e t o, means e t o -> means0 e t o) /\ (forall e ts o, all_mean e ts o -> all_mean0 e ts o) /\
  (forall e x b vs os, each_means e x b vs os -> each_means0 e x b vs os).
Proof. apply means_mut; intros; spec; solve [eapply m_unless0; eauto|eapply m_opt_none0; eauto|eapply m_opt_as_none0; eauto|econstructor; eauto]. Qed.
Lemma means0_means : (forall e t o, means0 e t o -> means e t o) /\ (forall e ts o, all_mean0 e ts o -> all_mean e ts o) /\
  (forall e x b vs os, each_means0 e x b vs os -> each_means e x b vs os).
Proof. apply means0_mut; intros; unspec; solve [eapply m_unless; eauto|eapply m_opt_none; eauto|eapply m_opt_as_none; eauto|econstructor; eauto]. Qed.
Lemma templates_mean ts e out : forallb tmpl_ok ts = true -> (quote e (flat_map written ts) = Some out <-> all_mean e ts out).
Proof.
  intros H. rewrite templates_mean0 by exact H. split; [apply means0_means|apply means_means0].
Qed.

(** Lemmas about [@literal], [@params] and [@scope]. *)
From Verif Require Import Base Tokens Quote SpecQuote QuoteProofs PropsQuote Translate SpecTranslate TranslateProofs PropsTranslate QuoteAt QuoteAtProofs SpecQuoteAt.
From Coq Require Import Lia.
Local Open Scope nat_scope.

(** ** Tokens read back *)
Lemma op_short o : is_op o = true -> gen_punct o = split_op o.
Proof.
  intros H. unfold is_op in H. apply existsb_exists in H as ([w x] & I & E). apply str_eqb_eq in E. cbn [fst] in E. subst o.
  revert I. unfold op_rules. cbn [In]. intros I. repeat destruct I as [I|I]; try contradiction; injection I as <- <-; reflexivity.
Qed.
Lemma reread_copied_gen n : forall ts, (sizes ts < n)%nat -> forallb real_tok ts = true -> flat_map reread ts = flat_map copied ts.
Proof.
  induction n as [|n IH]; intros [|t ts] L H; try lia; try reflexivity. cbn [forallb] in H. apply andb_prop in H as [H1 H2]. rewrite sizes_cons in L. cbn [flat_map]. f_equal.
  - destruct t as [| |o| | |d b]; try reflexivity; cbn [reread copied real_tok] in *; [now apply op_short|]. do 2 f_equal. apply IH; [rewrite size_grp in L; lia|exact H1].
  - apply IH; [|exact H2]. destruct t; rewrite ?size_grp in L; cbn [size] in L; lia.
Qed.
Lemma reread_copied ts : forallb real_tok ts = true -> flat_map reread ts = flat_map copied ts.
Proof. apply (reread_copied_gen (S (sizes ts))). lia. Qed.

(** ** Texts *)
Lemma text_yields d L ts out : represents d L -> library_ok L -> is_text ts -> (yields d ts out <-> text_stands L ts out).
Proof.
  intros R HL [l [-> Hl]]. unfold yields, lim, text_stands. split.
  - intros H. exists l. split; [now split|]. now apply (translate_gives_meaning d L).
  - intros (l' & [E' Hl'] & S). rewrite E'. now apply (translate_gives_meaning d L).
Qed.

(** ** Dictionaries *)
Lemma mkey_eqb_spec a b : mkey_eqb a b = true <-> a = b.
Proof.
  destruct a, b; cbn [mkey_eqb]; try (split; congruence); rewrite str_eqb_spec; split; congruence.
Qed.
Lemma get_put k v d k' : dict_get k' (dict_put k v d) = if mkey_eqb k' k then Some v else dict_get k' d.
Proof. reflexivity. Qed.
Lemma get_remove k d k' : dict_get k' (dict_remove k d) = if mkey_eqb k' k then None else dict_get k' d.
Proof.
  unfold dict_remove. induction d as [|[j v] d IH]; cbn [filter dict_get fst]; [destruct (mkey_eqb k' k); reflexivity|].
  destruct (mkey_eqb k j) eqn:E; cbn [negb].
  - rewrite IH. apply mkey_eqb_spec in E. subst j. destruct (mkey_eqb k' k); reflexivity.
  - cbn [dict_get]. rewrite IH. destruct (mkey_eqb k' j) eqn:E'; [|reflexivity]. apply mkey_eqb_spec in E'. subst j. destruct (mkey_eqb k' k) eqn:E2; [|reflexivity].
    apply mkey_eqb_spec in E2. subst k'. assert (mkey_eqb k k = true) by now apply mkey_eqb_spec. congruence.
Qed.
Lemma represents_empty : represents [] empty_library.
Proof. constructor; reflexivity. Qed.
Lemma represents_set d L x v : represents d L -> represents (dict_put (KVar x) v d) (set_var x v L).
Proof.
  intros [R1 R2 R3]. constructor; intros k; try intros Hk; rewrite get_put; cbn [mkey_eqb set_var vars macros]; auto. rewrite lookup_cons. destruct (str_eqb k x); auto.
Qed.
Lemma lookup_filter x y (l : list (str * list ptok)) : lookup x (filter (fun p => negb (str_eqb y (fst p))) l) = if str_eqb x y then None else lookup x l.
Proof.
  induction l as [|[z v] l IH]; cbn [filter lookup fst]; [destruct (str_eqb x y); reflexivity|]. destruct (str_eqb y z) eqn:E; cbn [negb].
  - rewrite IH. apply str_eqb_spec in E. subst z. destruct (str_eqb x y); reflexivity.
  - cbn [lookup]. rewrite IH. destruct (str_eqb x z) eqn:E'; [|reflexivity]. apply str_eqb_spec in E'. subst z. destruct (str_eqb x y) eqn:E2; [|reflexivity].
    apply str_eqb_spec in E2. subst x. assert (str_eqb y y = true) by now apply str_eqb_spec. congruence.
Qed.
Lemma represents_unset d L x : represents d L -> represents (dict_remove (KVar x) d) (unset_var x L).
Proof.
  intros [R1 R2 R3]. constructor; intros k; try intros Hk; rewrite get_remove; cbn [mkey_eqb unset_var vars macros]; auto. rewrite lookup_filter. destruct (str_eqb k x); auto.
Qed.
Lemma param_toks_commas ps : QuoteAt.param_toks ps = commas (map (fun p => [PId p]) ps).
Proof.
  destruct ps as [|p ps]; [reflexivity|]. cbn [QuoteAt.param_toks]. revert p. induction ps as [|q ps IH]; intros p; [reflexivity|]. cbn [flat_map map]. cbn [map] in IH.
  change (PId p :: [PPunct 44 false; PId q] ++ flat_map (fun a => [PPunct 44 false; PId a]) ps) with ([PId p] ++ comma :: (PId q :: flat_map (fun a => [PPunct 44 false; PId a]) ps)).
  rewrite IH. reflexivity.
Qed.
Lemma represents_macro d L f ps l : represents d L ->
  represents (dict_put (KParams f) (QuoteAt.param_toks ps) (dict_put (KBody f) (refs_toks l) d)) (set_macro f ps l L).
Proof.
  intros [R1 R2 R3]. constructor; intros k; try intros Hk; rewrite !get_put; cbn [mkey_eqb set_macro vars macros]; auto; rewrite lookup_cons; destruct (str_eqb k f); auto.
  cbn [option_map fst]. now rewrite param_toks_commas.
Qed.
Lemma ok_set L x v : library_ok L -> settled v -> library_ok (set_var x v L).
Proof.
  intros [A B] H. constructor; [|exact B]. intros y w. cbn [set_var vars]. rewrite lookup_cons. destruct (str_eqb y x); [intros [= <-]; exact H|apply A].
Qed.
Lemma ok_unset L x : library_ok L -> library_ok (unset_var x L).
Proof.
  intros [A B]. constructor; [|exact B]. intros y w. cbn [unset_var vars]. rewrite lookup_filter. destruct (str_eqb y x); [discriminate|apply A].
Qed.
Lemma ok_macro L f ps l : library_ok L -> Forall ref_ok l -> ~ In [] ps -> library_ok (set_macro f ps l L).
Proof.
  intros [A B] H1 H2. constructor; [exact A|]. intros y w b. cbn [set_macro macros]. rewrite lookup_cons. destruct (str_eqb y f); [intros [= <- <-]; auto|apply B].
Qed.
Lemma settled_nil : settled [].
Proof.
  split; [|intros a j H; destruct a; discriminate]. intros (a & j & t & b & H & _). destruct a; discriminate.
Qed.
Lemma ok_empty : library_ok empty_library.
Proof. constructor; discriminate. Qed.

(** ** Commands *)
Definition cgives (e : env) (cs : list scmd) (s : sstate) (out : list ptok) : Prop := lim (fun n => commands (append n) (quote_top (append n)) (translate n) e cs s) out.
Definition one (e : env) (c : scmd) (s : sstate) (p : list ptok * sstate) : Prop :=
  lim (fun n => match c with Block ts => do_block (translate n) ts s | Cmd name args => command (append n) (quote_top (append n)) (translate n) e name args s end) p.
Lemma cgives_nil e s out : cgives e [] s out <-> out = [].
Proof. unfold cgives. cbn [commands]. rewrite lim_done. split; congruence. Qed.
Lemma cgives_cons e c r s out : ended s = false -> (cgives e (c :: r) s out <-> exists p b, one e c s p /\ cgives e r (snd p) b /\ out = fst p ++ b).
Proof.
  intros H. unfold cgives. cbn [commands]. rewrite H.
  apply (lim_pair (fun n => match c with Block ts => do_block (translate n) ts s | Cmd name args => command (append n) (quote_top (append n)) (translate n) e name args s end)
    (fun p n => commands (append n) (quote_top (append n)) (translate n) e r (snd p)) (fun p b => fst p ++ b)).
  - destruct c; [apply (steady_block translate steady_translate)|apply (steady_command translate steady_translate append), append_steady].
  - intros p. apply (steady_commands translate steady_translate append), append_steady.
Qed.
Lemma one_unique e c s p q : one e c s p -> one e c s q -> p = q.
Proof.
  apply lim_unique. destruct c; [apply (steady_block translate steady_translate)|apply (steady_command translate steady_translate append), append_steady].
Qed.
(** The state between the commands of a scope. *)
Definition st (c o : bool) (d : dict) : sstate := mkState c o None d false.
Lemma all_done_forall {A B} (f : nat -> A -> run B) l bs : (forall a, steady (fun n => f n a)) -> (lim (fun n => all_done (f n) l) bs <-> Forall2 (fun a b => lim (fun n => f n a) b) l bs).
Proof.
  intros H. revert bs. induction l as [|a l IH]; intros bs; cbn [all_done].
  - rewrite lim_done. split; [intros <-; constructor|inversion 1; reflexivity].
  - rewrite (lim_pair (fun n => f n a) (fun _ n => all_done (f n) l) (fun b bs => b :: bs)); [|apply H|intros _; now apply steady_all_done]. split.
    + intros (b & bs' & H1 & H2 & ->). constructor; [exact H1|now apply IH].
    + intros F. inversion F as [|? b ? bs' H1 H2]; subst. exists b, bs'. split; [exact H1|]. split; [now apply IH|reflexivity].
Qed.
Lemma templates_give ts : forallb tmpl_ok ts = true -> forall e r out, gives e (flat_map written ts ++ r) out <-> exists a b, all_mean e ts a /\ gives e r b /\ out = a ++ b.
Proof.
  intros H e r out. rewrite (body_good ts) by (auto; apply Forall_forall; intros; apply all_good). split; intros (a & b & M & R); exists a, b; (split; [|exact R]).
  - now apply means0_means.
  - now apply means_means0.
Qed.
Lemma templates_give_end ts : forallb tmpl_ok ts = true -> forall e out, gives e (flat_map written ts) out <-> all_mean e ts out.
Proof.
  intros H e out. rewrite <- (app_nil_r (flat_map written ts)), templates_give by exact H. split.
  - intros (a & b & M & B & ->). apply gives_nil in B as ->. now rewrite app_nil_r.
  - intros M. exists out, []. rewrite gives_nil, app_nil_r. auto.
Qed.
(** ** One command *)
Lemma one_block e ts c o d p : one e (Block ts) (st c o d) p <-> snd p = st c o d /\ if c then yields d (flat_map reread ts) (fst p) else fst p = [].
Proof.
  unfold one. destruct p as [a s]. cbn [fst snd]. unfold do_block. cbn [active iter hmap st]. destruct c.
  - rewrite (lim_pure (fun n => translate n d (flat_map reread ts)) (fun out => (out, st true o d))) by apply steady_translate. split.
    + intros (x & H & E). injection E as -> ->. auto.
    + intros [-> H]. exists a. auto.
  - rewrite lim_done. split; [intros [= <- <-]; auto|intros [-> ->]; reflexivity].
Qed.
Lemma lim_is {A} (x : run A) F p : (forall n, F n = x) -> (lim F p <-> x = Done p).
Proof. intros H. rewrite <- lim_const. now apply lim_ext. Qed.
Definition after (c o : bool) (d d' : dict) (p : list ptok * sstate) : Prop := p = ([], st c o (if c then d' else d)).
Lemma one_declare e x c o d p : one e (Cmd (lit "define") (Some [TId x])) (st c o d) p <-> after c o d (dict_put (KVar x) [] d) p.
Proof. unfold one, after. rewrite (lim_is (Done ([], st c o (if c then dict_put (KVar x) [] d else d)))); [split; congruence|]. intros n. destruct c; reflexivity. Qed.
Lemma one_undef e x c o d p : one e (Cmd (lit "undef") (Some [TId x])) (st c o d) p <-> after c o d (dict_remove (KVar x) d) p.
Proof. unfold one, after. rewrite (lim_is (Done ([], st c o (if c then dict_remove (KVar x) d else d)))); [split; congruence|]. intros n. destruct c; reflexivity. Qed.
Lemma one_execute e t ts c o d p : one e (Cmd (lit "execute") (Some (t :: ts))) (st c o d) p <-> p = ([], st c o d).
Proof. unfold one. rewrite (lim_is (Done ([], st c o d))); [split; congruence|]. intros n. reflexivity. Qed.
Lemma one_define e x body c o d p : body <> [] ->
  (one e (Cmd (lit "define") (Some (TId x :: op "," :: body))) (st c o d) p <-> if c then exists v, gives e body v /\ p = ([], st true o (dict_put (KVar x) v d)) else p = ([], st c o d)).
Proof.
  intros Hb. destruct body as [|t body]; [easy|]. unfold one. destruct c.
  - exact (lim_pure (fun n => append n e (t :: body)) (fun v => ([], st true o (dict_put (KVar x) v d))) p (append_steady e (t :: body))).
  - rewrite (lim_is (Done ([], st false o d))); [split; congruence|]. intros n. reflexivity.
Qed.
Lemma ident_list_listed ps : ident_list (listed (map (fun p => [TId p]) ps)) = Some ps.
Proof.
  assert (C : forall a b r, ident_list (TId a :: op "," :: TId b :: r) = let! l := ident_list (TId b :: r) in Some (a :: l)) by reflexivity.
  assert (H : forall q ps, exists r, listed (map (fun p => [TId p]) (q :: ps)) = TId q :: r) by (intros q [|q' qs]; eexists; reflexivity).
  destruct ps as [|p ps]; [reflexivity|]. revert p. induction ps as [|q ps IH]; intros p; [reflexivity|].
  change (listed (map (fun p => [TId p]) (p :: q :: ps))) with (TId p :: op "," :: listed (map (fun p => [TId p]) (q :: ps))). specialize (IH q). destruct (H q ps) as [r E]. rewrite E in *. rewrite C, IH. reflexivity.
Qed.
Lemma one_macro e f ps body c o d p : body <> [] ->
  (one e (Cmd (lit "define") (Some (TId f :: TGrp Paren (listed (map (fun p => [TId p]) ps)) :: op "," :: body))) (st c o d) p <->
   if c then exists v, gives (rev (map as_reference ps) ++ e) body v /\ p = ([], st true o (dict_put (KParams f) (QuoteAt.param_toks ps) (dict_put (KBody f) v d))) else p = ([], st c o d)).
Proof.
  intros Hb. destruct body as [|t body]; [easy|]. unfold one.
  assert (E : forall n, command (append n) (quote_top (append n)) (translate n) e (lit "define") (Some (TId f :: TGrp Paren (listed (map (fun p => [TId p]) ps)) :: op "," :: t :: body)) (st c o d) =
    if c then run! v := append n (rev (map as_reference ps) ++ e) (t :: body) in Done ([], st true o (dict_put (KParams f) (QuoteAt.param_toks ps) (dict_put (KBody f) v d))) else Done ([], st c o d)).
  { intros n. change (command (append n) (quote_top (append n)) (translate n) e (lit "define") (Some (TId f :: TGrp Paren (listed (map (fun p => [TId p]) ps)) :: op "," :: t :: body)) (st c o d)) with
      (do_define (append n) e (TId f :: TGrp Paren (listed (map (fun p => [TId p]) ps)) :: op "," :: t :: body) (st c o d)).
    unfold do_define. change (op_is "," (op ",")) with true. rewrite ident_list_listed. destruct c; reflexivity. }
  rewrite (lim_ext _ _ p E). destruct c.
  - exact (lim_pure (fun n => append n (rev (map as_reference ps) ++ e) (t :: body)) _ p (append_steady _ (t :: body))).
  - rewrite lim_done. split; congruence.
Qed.
Lemma one_include e ex c o d p : one e (Cmd (lit "include") (Some ex)) (st c o d) p <->
  if c then exists ts ms a, eval e ex = Some (VObj (Some ts) ms) /\ yields d ts a /\ p = (a, st true o d) else p = ([], st c o d).
Proof.
  unfold one. destruct c.
  - rewrite (lim_ext _ (fun n => rbind (orun (eval e ex)) (fun v => match v with VObj (Some ts) _ => run! out := translate n d ts in Done (out, st true o d) | _ => Panicked end))) by reflexivity.
    rewrite (lim_bind (fun _ => orun (eval e ex)) (fun v n => match v with VObj (Some ts) _ => run! out := translate n d ts in Done (out, st true o d) | _ => Panicked end)).
    2: apply steady_const. 2:{ intros [[ts|] ms| | |]; try apply steady_const. apply (steady_bind (fun n => translate n d ts)); [apply steady_translate|intros; apply steady_const]. }
    split.
    + intros (v & Hv & H). apply lim_orun in Hv. destruct v as [[ts|] ms| | |]; try (destruct H as [n H]; discriminate).
      apply (lim_pure (fun n => translate n d ts) (fun out => (out, st true o d))) in H as (a & H & ->); [|apply steady_translate]. eauto 10.
    + intros (ts & ms & a & Hv & H & ->). exists (VObj (Some ts) ms). split; [now apply lim_orun|]. apply (lim_pure (fun n => translate n d ts) (fun out => (out, st true o d))); [apply steady_translate|]. exists a. auto.
  - rewrite (lim_is (Done ([], st false o d))); [split; congruence|]. intros n. reflexivity.
Qed.
Lemma top_free ts : at_free ts -> top_rule ts = None.
Proof.
  intros H. unfold top_rule. destruct ts as [|a [|[m| | | | |] more]]; try reflexivity. destruct (op_is "@" a) eqn:E; [|reflexivity]. apply op_is_iff in E. subst a. now destruct (H (TId m :: more)).
Qed.
Lemma one_quote e ts c o d p : at_free ts -> (one e (Cmd (lit "quote") (Some ts)) (st c o d) p <->
  if c then exists v a, gives e ts v /\ yields d v a /\ p = (a, st true o d) else p = ([], st c o d)).
Proof.
  intros F. unfold one. destruct c.
  - rewrite (lim_ext _ (fun n => rbind (append n e ts) (fun v => rbind (translate n d v) (fun out => Done (out, st true o d))))).
    + apply (lim_pair (fun n => append n e ts) (fun v n => translate n d v) (fun v out => (out, st true o d))); [apply append_steady|intros; apply steady_translate].
    + intros n. change (command (append n) (quote_top (append n)) (translate n) e (lit "quote") (Some ts) (st true o d)) with (do_quote (quote_top (append n)) (translate n) e ts (st true o d)).
      unfold do_quote, quote_top. rewrite (top_free ts F). reflexivity.
  - rewrite (lim_is (Done ([], st false o d))); [split; congruence|]. intros n. reflexivity.
Qed.
(** ** Loops *)
Definition looping_in (ts : list (list ptok)) (x : str) (s : sstate) : sstate := set_iter (Some (ts, x)) s.
Definition foreach_args (ex : list ttok) (x : option str) : list ttok := ex ++ match x with Some x => [op ","; TId x] | None => [] end.
Lemma all_some_forall {A B} (f : A -> option B) l bs : all_some f l = Some bs <-> Forall2 (fun a b => f a = Some b) l bs.
Proof.
  revert bs. induction l as [|a l IH]; intros bs; cbn [all_some].
  - split; [intros [= <-]; constructor|inversion 1; reflexivity].
  - destruct (f a) as [b|] eqn:E; cbn [obind]; [|split; [discriminate|inversion 1; congruence]]. destruct (all_some f l) as [l'|] eqn:E'; cbn [obind].
    + split; [intros [= <-]; constructor; [exact E|now apply IH]|]. inversion 1 as [|? ? ? ? H1 H2]; subst. apply IH in H2. congruence.
    + split; [discriminate|]. inversion 1 as [|? ? ? ? H1 H2]; subst. apply IH in H2. discriminate.
Qed.
Lemma foreach_unnamed e ex s : no_comma ex = true -> do_foreach e ex s = run! v := orun (eval e ex) in run! vs := orun (items v) in Done ([], set_iter (Some (map (fun _ => []) vs, lit "_")) s).
Proof.
  intros H. unfold do_foreach. destruct (rev ex) as [|[x| | | | |] [|c r]] eqn:E; try reflexivity. destruct (op_is "," c) eqn:Ec; [|reflexivity].
  apply op_is_iff in Ec. subst c. assert (I : In (op ",") ex) by (rewrite <- (rev_involutive ex), E, <- in_rev; right; left; reflexivity).
  unfold no_comma in H. rewrite forallb_forall in H. apply H in I. discriminate.
Qed.
Lemma one_foreach e ex x c o d p : no_comma ex = true -> (one e (Cmd (lit "foreach") (Some (foreach_args ex x))) (st c o d) p <-> exists ts, loop_texts e ex x ts /\ p = ([], looping_in ts (loop_var x) (st c o d))).
Proof.
  intros Hc. unfold one. rewrite (lim_is (do_foreach e (foreach_args ex x) (st c o d))) by reflexivity. destruct x as [x|].
  - unfold foreach_args, do_foreach. rewrite rev_app_distr. cbn [rev app]. change (op_is "," (op ",")) with true. rewrite rev_involutive. split.
    + intros H. destruct (eval e ex) as [v|] eqn:E1; [|discriminate]. cbn [orun rbind] in H. destruct (items v) as [vs|] eqn:E2; [|discriminate]. cbn [orun rbind] in H. destruct (all_some text_of vs) as [ts|] eqn:E3; [|discriminate].
      cbn [orun rbind] in H. injection H as <-. exists ts. split; [|reflexivity]. apply (lt_named e ex x v vs ts); [now apply eval_ok|now apply items_ok|]. apply shows_all. now apply all_some_forall.
    + intros (ts & H & ->). inversion H as [? v vs ? H1 H2 H3|]; subst. apply eval_ok in H1. apply items_ok in H2. apply shows_all, all_some_forall in H3. rewrite H1. cbn [orun rbind]. rewrite H2. cbn [orun rbind]. now rewrite H3.
  - unfold foreach_args. rewrite app_nil_r, foreach_unnamed by exact Hc. split.
    + intros H. destruct (eval e ex) as [v|] eqn:E1; [|discriminate]. cbn [orun rbind] in H. destruct (items v) as [vs|] eqn:E2; [|discriminate]. cbn [orun rbind] in H. injection H as <-.
      eexists. split; [|reflexivity]. apply (lt_unnamed e ex v vs); [now apply eval_ok|now apply items_ok].
    + intros (ts & H & ->). inversion H as [|v vs H1 H2]; subst. apply eval_ok in H1. apply items_ok in H2. rewrite H1. cbn [orun rbind]. now rewrite H2.
Qed.
Lemma one_loop_block e b ts x c o d p : one e (Block b) (looping_in ts x (st c o d)) p <->
  if c then exists os, Forall2 (fun t a => yields (dict_put (KVar x) t (dict_remove (KVar x) d)) (flat_map reread b) a) ts os /\
    p = (List.concat os, looping_in ts x (st true o (match dict_get (KVar x) d with Some v => dict_put (KVar x) v (dict_remove (KVar x) d) | None => dict_remove (KVar x) d end)))
  else p = ([], looping_in ts x (st c o d)).
Proof.
  unfold one. destruct c.
  - set (d1 := match dict_get (KVar x) d with Some v => dict_put (KVar x) v (dict_remove (KVar x) d) | None => dict_remove (KVar x) d end).
    rewrite (lim_ext _ (fun n => rbind (all_done (fun v => translate n (dict_put (KVar x) v (dict_remove (KVar x) d)) (flat_map reread b)) ts) (fun outs => Done (List.concat outs, looping_in ts x (st true o d1))))) by reflexivity.
    assert (S : forall v, steady (fun n => translate n (dict_put (KVar x) v (dict_remove (KVar x) d)) (flat_map reread b))) by (intros; apply steady_translate).
    rewrite (lim_pure (fun n => all_done (fun v => translate n (dict_put (KVar x) v (dict_remove (KVar x) d)) (flat_map reread b)) ts) (fun outs => (List.concat outs, looping_in ts x (st true o d1)))) by now apply (steady_all_done (fun n v => translate n (dict_put (KVar x) v (dict_remove (KVar x) d)) (flat_map reread b))).
    split; intros (os & H & ->); exists os; (split; [|reflexivity]); now apply (all_done_forall (fun n v => translate n (dict_put (KVar x) v (dict_remove (KVar x) d)) (flat_map reread b)) ts os S).
  - rewrite (lim_is (Done ([], looping_in ts x (st false o d)))) by reflexivity. split; congruence.
Qed.
Lemma one_endfor e ts x c o d p : one e (Cmd (lit "endfor") None) (looping_in ts x (st c o d)) p <-> p = ([], st c o d).
Proof. unfold one. rewrite (lim_is (Done ([], st c o d))) by reflexivity. split; congruence. Qed.
Lemma loop_put d L x t : represents d L -> represents (dict_put (KVar x) t (dict_remove (KVar x) d)) (set_var x t L).
Proof.
  intros [R1 R2 R3]. constructor; intros k; try intros Hk; rewrite get_put, get_remove; cbn [mkey_eqb set_var vars macros]; auto. rewrite lookup_cons. destruct (str_eqb k x); auto.
Qed.
Lemma loop_restore d L x : represents d L -> represents (match dict_get (KVar x) d with Some v => dict_put (KVar x) v (dict_remove (KVar x) d) | None => dict_remove (KVar x) d end) L.
Proof.
  intros [R1 R2 R3]. assert (G : forall k, dict_get k (match dict_get (KVar x) d with Some v => dict_put (KVar x) v (dict_remove (KVar x) d) | None => dict_remove (KVar x) d end) = dict_get k d).
  { intros k. destruct (dict_get (KVar x) d) as [v|] eqn:E; rewrite ?get_put, get_remove; destruct (mkey_eqb k (KVar x)) eqn:Ek; auto; apply mkey_eqb_spec in Ek; congruence. }
  constructor; intros k; try intros Hk; rewrite G; auto.
Qed.
(** ** Items *)
Definition item_cmds (i : item) : list scmd :=
  match i with
  | Text ts => [Block ts]
  | Define x body => [Cmd (lit "define") (Some (TId x :: op "," :: flat_map written body))]
  | DefineMacro f ps body => [Cmd (lit "define") (Some (TId f :: TGrp Paren (listed (map (fun p => [TId p]) ps)) :: op "," :: flat_map written body))]
  | Declare x => [Cmd (lit "define") (Some [TId x])]
  | Undef x => [Cmd (lit "undef") (Some [TId x])]
  | Include ex => [Cmd (lit "include") (Some ex)]
  | Quoted body => [Cmd (lit "quote") (Some (flat_map written body))]
  | Execute stmt => [Cmd (lit "execute") (Some stmt)]
  | Loop ex x blocks => Cmd (lit "foreach") (Some (foreach_args ex x)) :: map Block blocks ++ [Cmd (lit "endfor") None]
  end.
Lemma body_written body : body_ok body -> flat_map written body <> [].
Proof. intros [H _]. apply body_nonempty. destruct body; [easy|reflexivity]. Qed.
(** A single command. *)
Definition goes (e : env) (cs : list scmd) (s : sstate) (a : list ptok) (s' : sstate) : Prop :=
  forall r out, cgives e (cs ++ r) s out <-> exists b, cgives e r s' b /\ out = a ++ b.
Definition only (e : env) (cs : list scmd) (s : sstate) (P : list ptok -> sstate -> Prop) : Prop :=
  (forall a s', P a s' -> goes e cs s a s') /\ (forall r out, cgives e (cs ++ r) s out -> exists a s', P a s').
Lemma only_ext e cs s P Q : (forall a s', P a s' <-> Q a s') -> only e cs s P -> only e cs s Q.
Proof. intros H [A B]. split; [intros a s' q; apply A; now apply H|]. intros r out G. destruct (B r out G) as (a & s' & p). exists a, s'. now apply H. Qed.
Lemma only_one e c s : ended s = false -> only e [c] s (fun a s' => one e c s (a, s')).
Proof.
  intros H. split.
  - intros a s' O r out. cbn [app]. rewrite cgives_cons by exact H. split.
    + intros (p & b & Hp & Hb & ->). rewrite (one_unique e c s p (a, s') Hp O) in *. exists b. auto.
    + intros (b & Hb & ->). exists (a, s'), b. auto.
  - intros r out G. cbn [app] in G. apply cgives_cons in G as ([a s'] & b & Hp & _); [|exact H]. eauto.
Qed.
Lemma only_nil e s : only e [] s (fun a s' => a = [] /\ s' = s).
Proof.
  split; [|intros; eauto]. intros a s' [-> ->] r out. cbn [app]. split; [intros H; exists out; auto|intros (b & H & ->); exact H].
Qed.
Lemma only_app e cs1 cs2 s P Q : only e cs1 s P -> (forall a s', P a s' -> only e cs2 s' (Q s')) ->
  only e (cs1 ++ cs2) s (fun a s' => exists a1 s1 a2, P a1 s1 /\ Q s1 a2 s' /\ a = a1 ++ a2).
Proof.
  intros [A1 B1] H. split.
  - intros a s' (a1 & s1 & a2 & p & q & ->) r out. rewrite <- app_assoc. pose proof (A1 a1 s1 p (cs2 ++ r) out) as A. rewrite A. destruct (H a1 s1 p) as [A2 _]. split.
    + intros (b & G & ->). apply (A2 a2 s' q) in G as (b' & G & ->). exists b'. rewrite app_assoc. auto.
    + intros (b & G & ->). exists (a2 ++ b). rewrite app_assoc. split; [|reflexivity]. apply (A2 a2 s' q). eauto.
  - intros r out G. rewrite <- app_assoc in G. destruct (B1 _ _ G) as (a1 & s1 & p). pose proof (proj1 (A1 a1 s1 p (cs2 ++ r) out) G) as (b & G' & _). destruct (H a1 s1 p) as [_ B2]. destruct (B2 _ _ G') as (a2 & s2 & q). exists (a1 ++ a2), s2, a1, s1, a2. auto.
Qed.
(** ** What commands do to the library *)
Definition sim (s : sstate) (c o : bool) (L : library) : Prop := exists d, s = st c o d /\ represents d L /\ library_ok L.
Definition effect := list ptok -> bool -> bool -> library -> Prop.
Definition matches (e : env) (cs : list scmd) (s : sstate) (M : effect) : Prop :=
  (forall r out, cgives e (cs ++ r) s out -> exists a c o L s' b, M a c o L /\ sim s' c o L /\ cgives e r s' b /\ out = a ++ b) /\
  (forall a c o L, M a c o L -> exists s', sim s' c o L /\ forall r b, cgives e r s' b -> cgives e (cs ++ r) s (a ++ b)).
Lemma matches_ext e cs s (M N : effect) : (forall a c o L, M a c o L <-> N a c o L) -> matches e cs s M -> matches e cs s N.
Proof.
  intros H [A B]. split; [|intros a c o L n; apply B; now apply H]. intros r out G. destruct (A r out G) as (a & c & o & L & s' & b & m & R). exists a, c, o, L, s', b. split; [now apply H|exact R].
Qed.
Lemma matches_app e cs1 cs2 s (M1 : effect) (M2 : bool -> bool -> library -> effect) : matches e cs1 s M1 ->
  (forall a c o L s', M1 a c o L -> sim s' c o L -> matches e cs2 s' (M2 c o L)) ->
  matches e (cs1 ++ cs2) s (fun a c o L => exists a1 c1 o1 L1 a2, M1 a1 c1 o1 L1 /\ M2 c1 o1 L1 a2 c o L /\ a = a1 ++ a2).
Proof.
  intros [A1 B1] H. split.
  - intros r out G. rewrite <- app_assoc in G. apply A1 in G as (a1 & c1 & o1 & L1 & s1 & b & m1 & S1 & G & ->). destruct (H a1 c1 o1 L1 s1 m1 S1) as [A2 _].
    apply A2 in G as (a2 & c2 & o2 & L2 & s2 & b' & m2 & S2 & G & ->). exists (a1 ++ a2), c2, o2, L2, s2, b'. split; [eauto 10|]. rewrite app_assoc. auto.
  - intros a c o L (a1 & c1 & o1 & L1 & a2 & m1 & m2 & ->). destruct (B1 _ _ _ _ m1) as (s1 & S1 & K1). destruct (H a1 c1 o1 L1 s1 m1 S1) as [_ B2]. destruct (B2 _ _ _ _ m2) as (s2 & S2 & K2).
    exists s2. split; [exact S2|]. intros r b G. rewrite <- !app_assoc. apply K1. now apply K2.
Qed.
Lemma matches_nil e s c o L : sim s c o L -> matches e [] s (fun a c' o' L' => a = [] /\ c' = c /\ o' = o /\ L' = L).
Proof.
  intros S. split; [intros r out G; exists [], c, o, L, s, out; auto 10|]. intros a c' o' L' (-> & -> & -> & ->). exists s. auto.
Qed.
Lemma matches_only e cs s P (M : effect) : only e cs s P -> (forall a s', P a s' -> exists c o L, M a c o L /\ sim s' c o L) ->
  (forall a c o L, M a c o L -> exists s', P a s' /\ sim s' c o L) -> matches e cs s M.
Proof.
  intros [A B] H1 H2. split.
  - intros r out G. destruct (B r out G) as (a & s' & p). destruct (H1 a s' p) as (c & o & L & m & S). pose proof (proj1 (A a s' p r out) G) as (b & G' & ->). exists a, c, o, L, s', b. auto.
  - intros a c o L m. destruct (H2 a c o L m) as (s' & p & S). exists s'. split; [exact S|]. intros r b G. apply (proj2 (A a s' p r (a ++ b))). eauto.
Qed.
(** One command, whose effect is given by a predicate on outputs and libraries. *)
Lemma matches_one e c s (M : effect) : ended s = false -> (forall p, one e c s p -> exists c o L, M (fst p) c o L /\ sim (snd p) c o L) ->
  (forall a c' o L, M a c' o L -> exists p, one e c s p /\ fst p = a /\ sim (snd p) c' o L) -> matches e [c] s M.
Proof.
  intros H H1 H2. apply (matches_only e [c] s _ M (only_one e c s H)).
  - intros a s' O. exact (H1 (a, s') O).
  - intros a c' o L m. destruct (H2 a c' o L m) as ([a' s'] & O & <- & S). eauto.
Qed.
Lemma sim_st c o d L : represents d L -> library_ok L -> sim (st c o d) c o L.
Proof. intros R H. exists d. auto. Qed.
(** ** Loops: the blocks *)
Definition block_means (L : library) (x : str) (ts : list (list ptok)) (b : list ttok) (o : list ptok) : Prop :=
  exists os, Forall2 (fun t o => text_stands (set_var x t L) (flat_map copied b) o) ts os /\ o = List.concat os.
Lemma loop_block e b ts x o d L a s' : represents d L -> library_ok L -> block_ok b -> Forall settled ts ->
  (one e (Block b) (looping_in ts x (st true o d)) (a, s') <-> block_means L x ts b a /\
   s' = looping_in ts x (st true o (match dict_get (KVar x) d with Some v => dict_put (KVar x) v (dict_remove (KVar x) d) | None => dict_remove (KVar x) d end))).
Proof.
  intros R HL [Hb1 Hb2] Hs. rewrite one_loop_block. rewrite (reread_copied b Hb1).
  assert (F : forall os, Forall2 (fun t a => yields (dict_put (KVar x) t (dict_remove (KVar x) d)) (flat_map copied b) a) ts os <-> Forall2 (fun t o => text_stands (set_var x t L) (flat_map copied b) o) ts os).
  { intros os. split; intros F; revert Hs; induction F as [|t w ts' os' Y F IH]; intros Hs; constructor; inversion Hs as [|? ? S1 S2]; subst; auto;
      apply (text_yields (dict_put (KVar x) t (dict_remove (KVar x) d)) (set_var x t L)); auto using loop_put, ok_set. }
  split.
  - intros (os & Y & [= -> ->]). apply F in Y. split; [exists os; auto|reflexivity].
  - intros ((os & Y & ->) & ->). exists os. split; [now apply F|reflexivity].
Qed.
Lemma blocks_sound e ts x o L blocks : library_ok L -> Forall block_ok blocks -> Forall settled ts -> forall d r out, represents d L ->
  cgives e (map Block blocks ++ r) (looping_in ts x (st true o d)) out ->
  exists outs d' b, Forall2 (block_means L x ts) blocks outs /\ represents d' L /\ cgives e r (looping_in ts x (st true o d')) b /\ out = List.concat outs ++ b.
Proof.
  intros HL Hb Hs. induction Hb as [|b blocks H1 _ IH]; intros d r out R G; cbn [map app] in G.
  - exists [], d, out. auto.
  - apply cgives_cons in G as ([a s'] & w & O & G & ->); [|reflexivity]. apply (loop_block e b ts x o d L a s' R HL H1 Hs) in O as (Ob & ->). cbn [fst snd] in *.
    apply IH in G as (outs & d' & b' & F & R' & G & ->); [|now apply loop_restore]. exists (a :: outs), d', b'. cbn [List.concat]. rewrite app_assoc. auto.
Qed.
Lemma blocks_complete e ts x o L blocks : library_ok L -> Forall block_ok blocks -> Forall settled ts -> forall outs d, represents d L -> Forall2 (block_means L x ts) blocks outs ->
  exists d', represents d' L /\ forall r b, cgives e r (looping_in ts x (st true o d')) b -> cgives e (map Block blocks ++ r) (looping_in ts x (st true o d)) (List.concat outs ++ b).
Proof.
  intros HL Hb Hs. induction Hb as [|b blocks H1 _ IH]; intros outs d R F; inversion F as [|? a ? outs' M F']; subst.
  - exists d. auto.
  - destruct (IH outs' _ (loop_restore d L x R) F') as (d' & R' & K). exists d'. split; [exact R'|]. intros r w G. cbn [map app List.concat]. rewrite <- app_assoc.
    apply cgives_cons; [reflexivity|]. eexists (a, _), _. split; [apply (loop_block e b ts x o d L); [auto|auto|auto|auto|split; [exact M|reflexivity]]|]. cbn [fst snd]. split; [apply K; exact G|reflexivity].
Qed.
Lemma blocks_skipped e ts x o d blocks r out : cgives e (map Block blocks ++ r) (looping_in ts x (st false o d)) out <-> cgives e r (looping_in ts x (st false o d)) out.
Proof.
  induction blocks as [|b blocks IH]; cbn [map app]; [reflexivity|]. rewrite cgives_cons by reflexivity. rewrite <- IH. split.
  - intros ([a s'] & w & O & G & ->). apply one_loop_block in O. injection O as -> ->. exact G.
  - intros G. exists ([], looping_in ts x (st false o d)), out. split; [now apply one_loop_block|auto].
Qed.
(** ** Items *)
Lemma after_true c o d d' p : after c o d d' p -> c = true -> p = ([], st true o d'). Proof. intros -> ->. reflexivity. Qed.
Lemma item_matches e i s o L : sim s true o L -> item_ok e i -> matches e (item_cmds i) s (fun a c o' L' => c = true /\ o' = o /\ item_means e L i a L').
Proof.
  intros (d & -> & R & HL) H. destruct i as [ts|x body|f ps body|x|x|ex|body|stmt|ex x blocks]; cbn [item_cmds item_ok] in *.
  - destruct H as [H1 H2]. apply matches_one; [reflexivity| |].
    + intros [a s'] O. apply one_block in O as [E Y]. cbn [fst snd] in *. subst s'. rewrite (reread_copied ts H1) in Y. exists true, o, L. split; [|apply sim_st; auto].
      split; [reflexivity|]. split; [reflexivity|]. constructor. now apply (text_yields d L).
    + intros a c' o' L' (-> & -> & M). inversion M; subst. exists (a, st true o d). split; [|split; [reflexivity|apply sim_st; auto]]. apply one_block. split; [reflexivity|]. cbn [fst]. rewrite (reread_copied ts H1). now apply (text_yields d L').
  - destruct H as (Hx & Hb & Hs). apply matches_one; [reflexivity| |].
    + intros p O. apply one_define in O as (v & G & ->); [|now apply body_written]. apply templates_give_end in G; [|apply Hb]. exists true, o, (set_var x v L). cbn [fst snd].
      split; [split; [reflexivity|]; split; [reflexivity|now constructor]|]. exists (dict_put (KVar x) v d). split; [reflexivity|]. split; [now apply represents_set|]. apply ok_set; auto.
    + intros a c' o' L' (-> & -> & M). inversion M as [|? ? v G| | | | | | |]; subst. exists ([], st true o (dict_put (KVar x) v d)). split.
      * apply one_define; [now apply body_written|]. exists v. split; [|reflexivity]. apply templates_give_end; [apply Hb|exact G].
      * split; [reflexivity|]. exists (dict_put (KVar x) v d). split; [reflexivity|]. split; [now apply represents_set|]. apply ok_set; auto.
  - destruct H as (Hp & Hb & Hs). apply matches_one; [reflexivity| |].
    + intros p O. apply one_macro in O as (v & G & ->); [|now apply body_written]. apply templates_give_end in G; [|apply Hb]. destruct (Hs v G) as [l [El Hl]]. exists true, o, (set_macro f ps l L). cbn [fst snd].
      split; [split; [reflexivity|]; split; [reflexivity|apply (im_macro e L f ps body v l); auto; now split]|]. eexists. split; [reflexivity|]. subst v. split; [now apply represents_macro|now apply ok_macro].
    + intros a c' o' L' (-> & -> & M). inversion M as [| |? ? ? v l G [El Hl]| | | | | |]; subst. eexists. split.
      * apply one_macro; [now apply body_written|]. eexists. split; [|reflexivity]. apply templates_give_end; [apply Hb|exact G].
      * split; [reflexivity|]. eexists. split; [reflexivity|]. split; [now apply represents_macro|now apply ok_macro].
  - apply matches_one; [reflexivity| |].
    + intros p O. apply one_declare in O. unfold after in O. subst p. exists true, o, (set_var x [] L). cbn [fst snd]. split; [split; [reflexivity|]; split; [reflexivity|constructor]|].
      eexists. split; [reflexivity|]. split; [now apply represents_set|apply ok_set; auto using settled_nil].
    + intros a c' o' L' (-> & -> & M). inversion M; subst. eexists. split; [apply one_declare; reflexivity|]. split; [reflexivity|]. eexists. split; [reflexivity|]. split; [now apply represents_set|apply ok_set; auto using settled_nil].
  - apply matches_one; [reflexivity| |].
    + intros p O. apply one_undef in O. unfold after in O. subst p. exists true, o, (unset_var x L). cbn [fst snd]. split; [split; [reflexivity|]; split; [reflexivity|constructor]|].
      eexists. split; [reflexivity|]. split; [now apply represents_unset|now apply ok_unset].
    + intros a c' o' L' (-> & -> & M). inversion M; subst. eexists. split; [apply one_undef; reflexivity|]. split; [reflexivity|]. eexists. split; [reflexivity|]. split; [now apply represents_unset|now apply ok_unset].
  - apply matches_one; [reflexivity| |].
    + intros p O. apply one_include in O as (ts & ms & a & E & Y & ->). apply eval_ok in E. exists true, o, L. cbn [fst snd]. split; [|apply sim_st; auto]. split; [reflexivity|]. split; [reflexivity|].
      apply (im_include e L ex ts ms); [exact E|]. apply (text_yields d L); eauto.
    + intros a c' o' L' (-> & -> & M). inversion M as [| | | | |? ts ms ? E S| | |]; subst. exists (a, st true o d). split; [|split; [reflexivity|apply sim_st; auto]]. apply one_include.
      exists ts, ms, a. split; [now apply eval_ok|]. split; [|reflexivity]. apply (text_yields d L'); eauto.
  - destruct H as (Hb & Hf & Hs). apply matches_one; [reflexivity| |].
    + intros p O. apply one_quote in O as (v & a & G & Y & ->); [|exact Hf]. apply templates_give_end in G; [|exact Hb]. exists true, o, L. cbn [fst snd]. split; [|apply sim_st; auto]. split; [reflexivity|]. split; [reflexivity|].
      apply (im_quote e L body v); [exact G|]. apply (text_yields d L); auto.
    + intros a c' o' L' (-> & -> & M). inversion M as [| | | | | |? v ? G S| |]; subst. exists (a, st true o d). split; [|split; [reflexivity|apply sim_st; auto]]. apply one_quote; [exact Hf|].
      exists v, a. split; [now apply templates_give_end|]. split; [|reflexivity]. apply (text_yields d L'); auto.
  - destruct stmt as [|t stmt]; [easy|]. apply matches_one; [reflexivity| |].
    + intros p O. apply one_execute in O as ->. exists true, o, L. cbn [fst snd]. split; [|apply sim_st; auto]. split; [reflexivity|]. split; [reflexivity|constructor].
    + intros a c' o' L' (-> & -> & M). inversion M; subst. eexists. split; [now apply one_execute|]. split; [reflexivity|apply sim_st; auto].
  - destruct H as (Hc & Hx & Hb & Hs). split.
    + intros r out G. cbn [app] in G. apply cgives_cons in G as (p & w & O & G & ->); [|reflexivity]. apply one_foreach in O as (ts & T & ->); [|exact Hc]. cbn [fst snd app] in *. rewrite <- app_assoc in G.
      apply (blocks_sound e ts (loop_var x) o L blocks HL Hb (Hs ts T) d) in G as (outs & d' & b & F & R' & G & ->); [|exact R]. cbn [app] in G. apply cgives_cons in G as (p & b' & O & G & ->); [|reflexivity].
      apply one_endfor in O as ->. cbn [fst snd app] in *. exists (List.concat outs), true, o, L, (st true o d'), b'. split; [|split; [apply sim_st; auto|auto]]. split; [reflexivity|]. split; [reflexivity|]. now apply (im_loop e L ex x blocks ts outs).
    + intros a c' o' L' (-> & -> & M). inversion M as [| | | | | | | |? ? ? ts outs T F]; subst. destruct (blocks_complete e ts (loop_var x) o L' blocks HL Hb (Hs ts T) outs d R F) as (d' & R' & K).
      exists (st true o d'). split; [apply sim_st; auto|]. intros r b G. cbn [app]. apply cgives_cons; [reflexivity|]. eexists _, _. split; [apply one_foreach; [exact Hc|exists ts; split; [exact T|reflexivity]]|].
      cbn [fst snd app]. split; [|reflexivity]. rewrite <- app_assoc. apply K. cbn [app]. apply cgives_cons; [reflexivity|]. eexists _, b. split; [apply one_endfor; reflexivity|]. auto.
Qed.
Lemma item_skipped e i s o L : sim s false o L -> item_ok e i -> matches e (item_cmds i) s (fun a c o' L' => a = [] /\ c = false /\ o' = o /\ L' = L /\ loops_fine e i).
Proof.
  intros (d & -> & R & HL) H.
  assert (Q : forall c, (forall p, one e c (st false o d) p <-> p = ([], st false o d)) -> matches e [c] (st false o d) (fun a c o' L' => a = [] /\ c = false /\ o' = o /\ L' = L /\ True)).
  { intros c O. apply matches_one; [reflexivity| |].
    - intros p Hp. apply O in Hp as ->. exists false, o, L. cbn [fst snd]. split; [auto|apply sim_st; auto].
    - intros a c' o' L' (-> & -> & -> & -> & _). exists ([], st false o d). split; [now apply O|]. split; [reflexivity|apply sim_st; auto]. }
  destruct i as [ts|x body|f ps body|x|x|ex|body|stmt|ex x blocks]; cbn [item_cmds item_ok loops_fine] in *.
  - apply Q. intros [a s']. rewrite one_block. cbn [fst snd]. split; [intros [-> ->]; reflexivity|intros [= -> ->]; auto].
  - apply Q. intros p. apply (one_define e x (flat_map written body) false o d p). apply body_written, H.
  - apply Q. intros p. apply (one_macro e f ps (flat_map written body) false o d p). apply body_written, H.
  - apply Q. intros p. exact (one_declare e x false o d p).
  - apply Q. intros p. exact (one_undef e x false o d p).
  - apply Q. intros p. exact (one_include e ex false o d p).
  - apply Q. intros p. apply (one_quote e (flat_map written body) false o d p), H.
  - apply Q. intros p. destruct stmt as [|t stmt]; [easy|]. apply one_execute.
  - destruct H as (Hc & Hx & Hb & Hs). split.
    + intros r out G. cbn [app] in G. apply cgives_cons in G as (p & w & O & G & ->); [|reflexivity]. apply one_foreach in O as (ts & T & ->); [|exact Hc]. cbn [fst snd app] in *. rewrite <- app_assoc in G.
      apply (proj1 (blocks_skipped e ts (loop_var x) o d blocks _ _)) in G. cbn [app] in G. apply cgives_cons in G as (p & b' & O & G & ->); [|reflexivity]. apply one_endfor in O as ->. cbn [fst snd app] in *.
      exists [], false, o, L, (st false o d), b'. split; [eauto 10|]. split; [apply sim_st; auto|auto].
    + intros a c' o' L' (-> & -> & -> & -> & ts & T). exists (st false o d). split; [apply sim_st; auto|]. intros r b G. cbn [app]. apply cgives_cons; [reflexivity|].
      eexists _, _. split; [apply one_foreach; [exact Hc|exists ts; split; [exact T|reflexivity]]|]. cbn [fst snd app]. split; [|reflexivity]. rewrite <- app_assoc. apply blocks_skipped.
      cbn [app]. apply cgives_cons; [reflexivity|]. eexists _, b. split; [apply one_endfor; reflexivity|]. auto.
Qed.
(** ** Sequences and conditions *)
Lemma items_match e o l : Forall (item_ok e) l -> forall s L, sim s true o L -> matches e (flat_map item_cmds l) s (fun a c o' L' => c = true /\ o' = o /\ items_mean e L l a L').
Proof.
  induction 1 as [|i l H _ IH]; intros s L S; cbn [flat_map].
  - eapply matches_ext; [|exact (matches_nil e s true o L S)]. intros a c o' L'. split; [intros (-> & -> & -> & ->); repeat split; constructor|]. intros (-> & -> & M). inversion M; subst. auto.
  - eapply matches_ext; [|apply (matches_app e (item_cmds i) (flat_map item_cmds l) s _ (fun c o' L1 => fun a c2 o2 L2 => c2 = true /\ o2 = o /\ items_mean e L1 l a L2) (item_matches e i s o L S H))].
    + intros a c o' L'. split.
      * intros (a1 & c1 & o1 & L1 & a2 & (-> & -> & M1) & (-> & -> & M2) & ->). split; [reflexivity|]. split; [reflexivity|]. now apply (is_cons e L i l a1 L1 a2 L').
      * intros (-> & -> & M). inversion M as [|? ? ? a1 L1 a2 ? M1 M2]; subst. exists a1, true, o, L1, a2. auto 10.
    + intros a c o' L1 s' (-> & -> & M) S'. now apply IH.
Qed.
Lemma items_skipped e o l : Forall (item_ok e) l -> forall s L, sim s false o L ->
  matches e (flat_map item_cmds l) s (fun a c o' L' => a = [] /\ c = false /\ o' = o /\ L' = L /\ Forall (loops_fine e) l).
Proof.
  induction 1 as [|i l H _ IH]; intros s L S; cbn [flat_map].
  - eapply matches_ext; [|exact (matches_nil e s false o L S)]. intros a c o' L'. split; [intros (-> & -> & -> & ->); auto 10|]. intros (-> & -> & -> & -> & _). auto.
  - eapply matches_ext; [|apply (matches_app e (item_cmds i) (flat_map item_cmds l) s _ (fun c o' L1 => fun a c2 o2 L2 => a = [] /\ c2 = false /\ o2 = o /\ L2 = L1 /\ Forall (loops_fine e) l) (item_skipped e i s o L S H))].
    + intros a c o' L'. split.
      * intros (a1 & c1 & o1 & L1 & a2 & (-> & -> & -> & -> & M1) & (-> & -> & -> & -> & M2) & ->). auto 10.
      * intros (-> & -> & -> & -> & M). inversion M as [|? ? M1 M2]; subst. exists [], false, o, L, []. auto 10.
    + intros a c o' L1 s' (-> & -> & -> & -> & M) S'. now apply IH.
Qed.
Lemma guarded_match e o l c : Forall (item_ok e) l -> forall s L, sim s c o L -> matches e (flat_map item_cmds l) s (fun a c' o' L' => c' = c /\ o' = o /\ guarded e L l c a L').
Proof.
  intros H s L S. destruct c.
  - eapply matches_ext; [|exact (items_match e o l H s L S)]. intros a c o' L'. split; [intros (-> & -> & M); auto using g_yes|]. intros (-> & -> & M). inversion M; auto.
  - eapply matches_ext; [|exact (items_skipped e o l H s L S)]. intros a c o' L'. split; [intros (-> & -> & -> & -> & M); auto using g_no|]. intros (-> & -> & M). inversion M; subst; auto.
Qed.
Definition test_cmd (t : test) : scmd := match t with IfTrue ex => Cmd (lit "if") (Some ex) | IfDef x => Cmd (lit "ifdef") (Some [TId x]) | IfNotDef x => Cmd (lit "ifndef") (Some [TId x]) end.
Definition clause_cmd (c : clause) : scmd := match c with Elif ex => Cmd (lit "elif") (Some ex) | Else => Cmd (lit "else") None end.
Lemma one_if e ex c o d p : one e (Cmd (lit "if") (Some ex)) (st c o d) p <-> exists b, eval e ex = Some (VBool b) /\ p = ([], st b true d).
Proof.
  unfold one. rewrite (lim_is (rbind (orun (eval e ex)) (fun v => match v with VBool b => Done ([], st b true d) | _ => Panicked end))) by reflexivity.
  destruct (eval e ex) as [[| b | |]|]; cbn [orun rbind]; (split; [try discriminate|]); try (intros (b' & E & _); discriminate).
  - intros [= <-]. eauto.
  - intros (b' & [= <-] & ->). reflexivity.
Qed.
Lemma one_elif e ex c d p : one e (Cmd (lit "elif") (Some ex)) (st c true d) p <-> exists b, eval e ex = Some (VBool b) /\ p = ([], st b true d).
Proof.
  unfold one. rewrite (lim_is (rbind (orun (eval e ex)) (fun v => match v with VBool b => Done ([], st b true d) | _ => Panicked end))) by reflexivity.
  destruct (eval e ex) as [[| b | |]|]; cbn [orun rbind]; (split; [try discriminate|]); try (intros (b' & E & _); discriminate).
  - intros [= <-]. eauto.
  - intros (b' & [= <-] & ->). reflexivity.
Qed.
Lemma one_ifdef e x c o d p : one e (Cmd (lit "ifdef") (Some [TId x])) (st c o d) p <-> p = ([], st (has_var x d) true d).
Proof. unfold one. rewrite (lim_is (Done ([], st (Bool.eqb (has_var x d) true) true d))) by reflexivity. replace (Bool.eqb (has_var x d) true) with (has_var x d) by (destruct (has_var x d); reflexivity). split; congruence. Qed.
Lemma one_ifndef e x c o d p : one e (Cmd (lit "ifndef") (Some [TId x])) (st c o d) p <-> p = ([], st (negb (has_var x d)) true d).
Proof. unfold one. rewrite (lim_is (Done ([], st (Bool.eqb (has_var x d) false) true d))) by reflexivity. replace (Bool.eqb (has_var x d) false) with (negb (has_var x d)) by (destruct (has_var x d); reflexivity). split; congruence. Qed.
Lemma one_else e c d p : one e (Cmd (lit "else") None) (st c true d) p <-> p = ([], st (negb c) true d).
Proof. unfold one. rewrite (lim_is (Done ([], st (negb c) true d))) by reflexivity. split; congruence. Qed.
Lemma one_endif e c d p : one e (Cmd (lit "endif") None) (st c true d) p <-> p = ([], st true false d).
Proof. unfold one. rewrite (lim_is (Done ([], st true false d))) by reflexivity. split; congruence. Qed.
Lemma test_match e t s c o L : sim s c o L -> test_ok t -> matches e [test_cmd t] s (fun a c' o' L' => a = [] /\ o' = true /\ L' = L /\ test_means e L t c').
Proof.
  intros (d & -> & R & HL) H. destruct t as [ex|x|x]; cbn [test_cmd test_ok] in *; (apply matches_one; [reflexivity| |]).
  - intros p O. apply one_if in O as (b & E & ->). exists b, true, L. cbn [fst snd]. split; [|now apply sim_st]. repeat (split; [reflexivity|]). constructor. now apply eval_ok.
  - intros a c' o' L' (-> & -> & -> & M). inversion M as [? ? E| |]; subst. exists ([], st c' true d). split; [|split; [reflexivity|now apply sim_st]]. apply one_if. exists c'. split; [now apply eval_ok|reflexivity].
  - intros p O. apply one_ifdef in O as ->. exists (has_var x d), true, L. cbn [fst snd]. split; [|now apply sim_st]. repeat (split; [reflexivity|]). constructor. unfold has_var. rewrite (rep_var d L R x H). destruct (lookup x (vars L)); split; congruence.
  - intros a c' o' L' (-> & -> & -> & M). inversion M as [|? ? E|]; subst. exists ([], st (has_var x d) true d). split; [now apply one_ifdef|]. split; [reflexivity|]. replace c' with (has_var x d); [now apply sim_st|].
    unfold has_var. rewrite (rep_var d L R x H). destruct (lookup x (vars L)), c'; try reflexivity; exfalso; intuition congruence.
  - intros p O. apply one_ifndef in O as ->. exists (negb (has_var x d)), true, L. cbn [fst snd]. split; [|now apply sim_st]. repeat (split; [reflexivity|]). constructor. unfold has_var. rewrite (rep_var d L R x H). destruct (lookup x (vars L)); cbn; split; congruence.
  - intros a c' o' L' (-> & -> & -> & M). inversion M as [| |? ? E]; subst. exists ([], st (negb (has_var x d)) true d). split; [now apply one_ifndef|]. split; [reflexivity|]. replace c' with (negb (has_var x d)); [now apply sim_st|].
    unfold has_var. rewrite (rep_var d L R x H). destruct (lookup x (vars L)), c'; try reflexivity; exfalso; intuition congruence.
Qed.
Inductive clause_means (e : env) (c : bool) : clause -> bool -> Prop :=
| cl_elif ex b : value_of e ex (VBool b) -> clause_means e c (Elif ex) b
| cl_else : clause_means e c Else (negb c).
Lemma clause_match e k s c L : sim s c true L -> matches e [clause_cmd k] s (fun a c' o' L' => a = [] /\ o' = true /\ L' = L /\ clause_means e c k c').
Proof.
  intros (d & -> & R & HL). destruct k as [ex|]; cbn [clause_cmd]; (apply matches_one; [reflexivity| |]).
  - intros p O. apply one_elif in O as (b & E & ->). exists b, true, L. cbn [fst snd]. split; [|now apply sim_st]. repeat (split; [reflexivity|]). constructor. now apply eval_ok.
  - intros a c' o' L' (-> & -> & -> & M). inversion M as [? ? E|]; subst. exists ([], st c' true d). split; [|split; [reflexivity|now apply sim_st]]. apply one_elif. exists c'. split; [now apply eval_ok|reflexivity].
  - intros p O. apply one_else in O as ->. exists (negb c), true, L. cbn [fst snd]. split; [|now apply sim_st]. repeat (split; [reflexivity|]). constructor.
  - intros a c' o' L' (-> & -> & -> & M). inversion M; subst. exists ([], st (negb c) true d). split; [now apply one_else|]. split; [reflexivity|now apply sim_st].
Qed.
(** With the last condition. *)
Inductive clauses_run (e : env) : library -> bool -> list (clause * list item) -> list ptok -> library -> bool -> Prop :=
| cr_nil L c : clauses_run e L c [] [] L c
| cr_cons L c k b l r o1 L1 o2 L2 z : clause_means e c k b -> guarded e L l b o1 L1 -> clauses_run e L1 b r o2 L2 z -> clauses_run e L c ((k, l) :: r) (o1 ++ o2) L2 z.
Lemma clauses_run_mean e L c l a L' : clauses_mean e L c l a L' <-> exists z, clauses_run e L c l a L' z.
Proof.
  split.
  - induction 1 as [L c|L c ex b l r o1 L1 o2 L2 E G M [z IH]|L c l r o1 L1 o2 L2 G M [z IH]]; [exists c; constructor| |]; exists z; econstructor; try eassumption; constructor; assumption.
  - intros [z H]. induction H as [L c|L c k b l r o1 L1 o2 L2 z K G M IH]; [constructor|]. inversion K; subst; econstructor; eassumption.
Qed.
Definition clauses_cmds (l : list (clause * list item)) : list scmd := flat_map (fun c => clause_cmd (fst c) :: flat_map item_cmds (snd c)) l.
Lemma clauses_match e l : Forall (fun c => Forall (item_ok e) (snd c)) l -> forall s c L, sim s c true L ->
  matches e (clauses_cmds l) s (fun a c' o' L' => o' = true /\ clauses_run e L c l a L' c').
Proof.
  induction 1 as [|[k b] l H _ IH]; intros s c L S; unfold clauses_cmds; cbn [flat_map fst snd].
  - eapply matches_ext; [|exact (matches_nil e s c true L S)]. intros a c' o' L'. split; [intros (-> & -> & -> & ->); split; [reflexivity|constructor]|]. intros (-> & M). inversion M; subst. auto.
  - eapply matches_ext; [|apply (matches_app e [clause_cmd k] (flat_map item_cmds b ++ clauses_cmds l) s _ (fun c1 o1 L1 => fun a c3 o3 L3 => exists a1 c2 o2 L2 a2, (c2 = c1 /\ o2 = true /\ guarded e L1 b c1 a1 L2) /\ (o3 = true /\ clauses_run e L2 c2 l a2 L3 c3) /\ a = a1 ++ a2) (clause_match e k s c L S))].
    + intros a c' o' L'. split.
      * intros (a0 & c1 & o1 & L1 & a2 & (-> & -> & -> & K) & (a1 & c2 & o2 & L2 & a3 & (-> & -> & G) & (-> & M) & ->) & ->). split; [reflexivity|]. cbn [app]. econstructor; eassumption.
      * intros (-> & M). inversion M as [|? ? ? b' ? ? a1 L1 a2 ? ? K G M']; subst.
        exists [], b', true, L, (a1 ++ a2). split; [auto|]. split; [|reflexivity]. exists a1, b', true, L1, a2. auto 10.
    + intros a c1 o1 L1 s1 (-> & -> & -> & K) S1. apply (matches_app e (flat_map item_cmds b) (clauses_cmds l) s1 (fun a c2 o2 L2 => c2 = c1 /\ o2 = true /\ guarded e L b c1 a L2) (fun c2 o2 L2 => fun a c3 o3 L3 => o3 = true /\ clauses_run e L2 c2 l a L3 c3)).
      * now apply guarded_match.
      * intros a' c2 o2 L2 s2 (-> & -> & G) S2. now apply IH.
Qed.
Definition part_cmds (p : part) : list scmd :=
  match p with Item i => item_cmds i | Cond t body more => [test_cmd t] ++ flat_map item_cmds body ++ clauses_cmds more ++ [Cmd (lit "endif") None] end.
Lemma endif_match e s c L : sim s c true L -> matches e [Cmd (lit "endif") None] s (fun a c' o' L' => a = [] /\ c' = true /\ o' = false /\ L' = L).
Proof.
  intros (d & -> & R & HL). apply matches_one; [reflexivity| |].
  - intros p O. apply one_endif in O as ->. exists true, false, L. cbn [fst snd]. split; [auto|now apply sim_st].
  - intros a c' o' L' (-> & -> & -> & ->). exists ([], st true false d). split; [now apply one_endif|]. split; [reflexivity|now apply sim_st].
Qed.
Lemma part_match e p s L : part_ok e p -> sim s true false L -> matches e (part_cmds p) s (fun a c o L' => c = true /\ o = false /\ part_means e L p a L').
Proof.
  intros H S. destruct p as [i|t body more]; cbn [part_cmds part_ok] in *.
  - eapply matches_ext; [|exact (item_matches e i s false L S H)]. intros a c o L'. split; [intros (-> & -> & M); auto using pt_item|]. intros (-> & -> & M). inversion M; auto.
  - destruct H as (H1 & H2 & H3).
    eapply matches_ext; [|apply (matches_app e _ _ s _ (fun c1 o1 L1 => fun a c5 o5 L5 => exists a1 c2 o2 L2 a2, (c2 = c1 /\ o2 = true /\ guarded e L1 body c1 a1 L2) /\
      (exists a3 c3 o3 L3 a4, (o3 = true /\ clauses_run e L2 c2 more a3 L3 c3) /\ (a4 = [] /\ c5 = true /\ o5 = false /\ L5 = L3) /\ a2 = a3 ++ a4) /\ a = a1 ++ a2) (test_match e t s true false L S H1))].
    + intros a c o L'. split.
      * intros (a0 & c1 & o1 & L1 & b0 & (-> & -> & -> & T) & (a1 & c2 & o2 & L2 & b1 & (-> & -> & G) & (a3 & c3 & o3 & L3 & a4 & (-> & M) & (-> & -> & -> & ->) & ->) & ->) & ->). split; [reflexivity|]. split; [reflexivity|].
        cbn [app]. rewrite app_nil_r. apply (pt_cond e L t c1 body more a1 L2 a3 L3); auto. apply clauses_run_mean. eauto.
      * intros (-> & -> & M). inversion M as [|? c1 ? ? a1 L1 a2 ? T G K]; subst. apply clauses_run_mean in K as [z K]. exists [], c1, true, L, (a1 ++ a2). split; [auto|]. split; [|reflexivity].
        exists a1, c1, true, L1, a2. split; [auto|]. split; [|reflexivity]. exists a2, z, true, L', []. rewrite app_nil_r. auto 10.
    + intros a c1 o1 L1 s1 (-> & -> & -> & T) S1.
      apply (matches_app e _ _ s1 (fun a c2 o2 L2 => c2 = c1 /\ o2 = true /\ guarded e L body c1 a L2) (fun c2 o2 L2 => fun a c5 o5 L5 => exists a3 c3 o3 L3 a4, (o3 = true /\ clauses_run e L2 c2 more a3 L3 c3) /\ (a4 = [] /\ c5 = true /\ o5 = false /\ L5 = L3) /\ a = a3 ++ a4)).
      * now apply guarded_match.
      * intros a' c2 o2 L2 s2 (-> & -> & G) S2. apply (matches_app e _ _ s2 (fun a c3 o3 L3 => o3 = true /\ clauses_run e L2 c1 more a L3 c3) (fun c3 o3 L3 => fun a c5 o5 L5 => a = [] /\ c5 = true /\ o5 = false /\ L5 = L3)).
        -- now apply clauses_match.
        -- intros a3 c3 o3 L3 s3 (-> & M) S3. now apply (endif_match e s3 c3).
Qed.
Lemma parts_match e l : Forall (part_ok e) l -> forall s L, sim s true false L -> matches e (flat_map part_cmds l) s (fun a c o L' => c = true /\ o = false /\ parts_mean e L l a L').
Proof.
  induction 1 as [|p l H _ IH]; intros s L S; cbn [flat_map].
  - eapply matches_ext; [|exact (matches_nil e s true false L S)]. intros a c o' L'. split; [intros (-> & -> & -> & ->); repeat split; constructor|]. intros (-> & -> & M). inversion M; subst. auto.
  - eapply matches_ext; [|apply (matches_app e (part_cmds p) (flat_map part_cmds l) s _ (fun c o' L1 => fun a c2 o2 L2 => c2 = true /\ o2 = false /\ parts_mean e L1 l a L2) (part_match e p s L H S))].
    + intros a c o' L'. split.
      * intros (a1 & c1 & o1 & L1 & a2 & (-> & -> & M1) & (-> & -> & M2) & ->). split; [reflexivity|]. split; [reflexivity|]. now apply (ps_cons e L p l a1 L1 a2 L').
      * intros (-> & -> & M). inversion M as [|? ? ? a1 L1 a2 ? M1 M2]; subst. exists a1, true, false, L1, a2. auto 10.
    + intros a c o' L1 s' (-> & -> & M) S'. now apply IH.
Qed.
Definition scope_cmds (ps : list part) (closed : bool) : list scmd := flat_map part_cmds ps ++ if closed then [Cmd (lit "end") None] else [].
Lemma end_gives e s c o L out : sim s c o L -> (cgives e [Cmd (lit "end") None] s out <-> out = []).
Proof.
  intros (d & -> & R & HL). rewrite cgives_cons by reflexivity. unfold one. split.
  - intros (p & b & O & G & ->). apply (lim_is (Done ([], set_end (st c o d)))) in O; [|reflexivity]. injection O as <-. now apply cgives_nil in G as ->.
  - intros ->. exists ([], set_end (st c o d)), []. split; [now apply (lim_is (Done ([], set_end (st c o d))))|]. split; [now apply cgives_nil|reflexivity].
Qed.
Lemma sim_start : sim start true false empty_library.
Proof. exists []. split; [reflexivity|]. split; [apply represents_empty|apply ok_empty]. Qed.
Lemma scope_gives e ps closed out : Forall (part_ok e) ps -> (cgives e (scope_cmds ps closed) start out <-> exists L, parts_mean e empty_library ps out L).
Proof.
  intros H. destruct (parts_match e ps H start empty_library sim_start) as [A B]. unfold scope_cmds. split.
  - intros G. apply A in G as (a & c & o & L & s' & b & (-> & -> & M) & S & G & ->). assert (b = []) as -> by (destruct closed; [now apply (end_gives e s' true false L) in G|now apply cgives_nil in G]). rewrite app_nil_r. eauto.
  - intros [L M]. destruct (B out true false L) as (s' & S & K); [auto|]. rewrite <- (app_nil_r out). apply K. destruct closed; [now apply (end_gives e s' true false L)|now apply cgives_nil].
Qed.
(** ** How the forms are read *)
Definition head_ok (ts : list ttok) : bool := match ts with TGrp Paren _ :: _ => false | _ => true end.
Definition parses (ts : list ttok) (cs : list scmd) : Prop := forall r, head_ok r = true -> scope_items (ts ++ r) = option_map (app cs) (scope_items r).
Lemma head_ok_app a b : head_ok a = true -> head_ok b = true -> head_ok (a ++ b) = true.
Proof. destruct a; auto. Qed.
Lemma parses_nil : parses [] [].
Proof. intros r _. cbn [app]. destruct (scope_items r); reflexivity. Qed.
Lemma parses_app a b ca cb : head_ok b = true -> parses a ca -> parses b cb -> parses (a ++ b) (ca ++ cb).
Proof.
  intros Hb A B r Hr. rewrite <- app_assoc, A by now apply head_ok_app. rewrite (B r Hr). destruct (scope_items r); cbn [option_map]; [now rewrite app_assoc|reflexivity].
Qed.
Lemma parses_cmd name args : parses (cmd name args) [Cmd (lit name) (Some args)].
Proof. intros r _. cbn [cmd app scope_items]. change (op_is "#" (op "#")) with true. destruct (scope_items r); reflexivity. Qed.
Lemma parses_word name : parses (word name) [Cmd (lit name) None].
Proof.
  intros r Hr. cbn [word app scope_items]. change (op_is "#" (op "#")) with true. destruct r as [|[| | | | |[| | |] l] r]; try discriminate Hr; try reflexivity; match goal with |- context [scope_items ?x] => destruct (scope_items x); reflexivity end.
Qed.
Lemma parses_block ts : parses (block ts) [Block ts].
Proof. intros r _. cbn [block app scope_items]. destruct (scope_items r); reflexivity. Qed.
Lemma head_flat {A} (f : A -> list ttok) l : (forall a, head_ok (f a) = true) -> head_ok (flat_map f l) = true.
Proof. intros H. induction l as [|a l IH]; [reflexivity|]. cbn [flat_map]. now apply head_ok_app. Qed.
Lemma parses_flat {A} (f : A -> list ttok) (g : A -> list scmd) l : (forall a, head_ok (f a) = true) -> (forall a, parses (f a) (g a)) -> parses (flat_map f l) (flat_map g l).
Proof. intros H1 H2. induction l as [|a l IH]; [apply parses_nil|]. cbn [flat_map]. apply parses_app; auto. now apply head_flat. Qed.
Lemma head_item i : head_ok (item_toks i) = true. Proof. destruct i; reflexivity. Qed.
Lemma parses_item i : parses (item_toks i) (item_cmds i).
Proof.
  destruct i as [ts|x body|f ps body|x|x|ex|body|stmt|ex x blocks]; try apply parses_cmd; [apply parses_block|].
  cbn [item_toks item_cmds]. apply (parses_app _ _ [_]); [apply head_ok_app; [now apply head_flat|reflexivity]|apply parses_cmd|].
  apply parses_app; [reflexivity| |apply parses_word]. clear ex x. induction blocks as [|b l IH]; [apply parses_nil|]. cbn [flat_map map]. apply (parses_app (block b) _ [Block b]); [now apply head_flat|apply parses_block|exact IH].
Qed.
Lemma head_part p : head_ok (part_toks p) = true. Proof. destruct p as [i|[] ? ?]; [apply head_item|reflexivity..]. Qed.
Lemma parses_part p : parses (part_toks p) (part_cmds p).
Proof.
  destruct p as [i|t body more]; [apply parses_item|]. cbn [part_toks part_cmds].
  assert (HC : forall c : clause * list item, head_ok (clause_toks (fst c) ++ flat_map item_toks (snd c)) = true) by (intros [[] ?]; reflexivity).
  apply parses_app; [|destruct t; apply parses_cmd|].
  - apply head_ok_app; [apply head_flat, head_item|]. apply head_ok_app; [now apply head_flat|reflexivity].
  - apply parses_app; [apply head_ok_app; [now apply head_flat|reflexivity]|apply parses_flat; [apply head_item|apply parses_item]|]. apply parses_app; [reflexivity| |apply parses_word].
    unfold clauses_cmds. apply parses_flat; [exact HC|]. intros [k l]. cbn [fst snd]. apply (parses_app _ _ [clause_cmd k]); [apply head_flat, head_item|destruct k; [apply parses_cmd|apply parses_word]|]. apply parses_flat; [apply head_item|apply parses_item].
Qed.
Lemma parses_scope ps closed : scope_items (scope_toks ps closed) = Some (scope_cmds ps closed).
Proof.
  assert (P : parses (scope_toks ps closed) (scope_cmds ps closed)).
  { apply parses_app; [destruct closed; reflexivity| |destruct closed; [apply parses_word|apply parses_nil]]. apply parses_flat; [apply head_part|apply parses_part]. }
  specialize (P [] eq_refl). rewrite app_nil_r in P. rewrite P. cbn. now rewrite app_nil_r.
Qed.
Lemma existsb_flat {A B} (f : A -> list B) p l : existsb p (flat_map f l) = existsb (fun a => existsb p (f a)) l.
Proof. induction l as [|a l IH]; [reflexivity|]. cbn [flat_map existsb]. now rewrite existsb_app, IH. Qed.
Lemma existsb_same {A} (p q : A -> bool) l : (forall a, p a = q a) -> existsb p l = existsb q l.
Proof. intros H. induction l as [|a l IH]; [reflexivity|]. cbn [existsb]. now rewrite H, IH. Qed.
Lemma item_block i : existsb is_block (item_cmds i) = has_block i.
Proof.
  destruct i as [ts|x body|f ps body|x|x|ex|body|stmt|ex x blocks]; try reflexivity. destruct blocks; reflexivity.
Qed.
Lemma part_block p : existsb is_block (part_cmds p) = part_has_block p.
Proof.
  destruct p as [i|t body more]; [apply item_block|]. cbn [part_cmds part_has_block]. rewrite !existsb_app. unfold clauses_cmds. rewrite !existsb_flat.
  rewrite (existsb_same _ has_block body item_block). rewrite (existsb_same _ (fun c => existsb has_block (snd c)) more).
  - destruct t; cbn [existsb test_cmd is_block]; rewrite ?orb_false_r; reflexivity.
  - intros [[] l]; cbn [fst snd existsb clause_cmd is_block orb]; rewrite existsb_flat; apply existsb_same, item_block.
Qed.
Lemma scope_block ps closed : existsb is_block (scope_cmds ps closed) = existsb part_has_block ps.
Proof.
  unfold scope_cmds. rewrite existsb_app, existsb_flat. rewrite (existsb_same _ part_has_block ps part_block). destruct closed; cbn [existsb is_block]; now rewrite ?orb_false_r.
Qed.
Lemma at_scope ps closed r : existsb part_has_block ps = true -> at_rule (form_toks (Scope ps closed) ++ r) = Some (AScope (scope_cmds ps closed), r).
Proof.
  intros H. cbn [form_toks at_group app]. unfold at_rule. change (op_is "#" (op "#") && op_is "@" (op "@")) with true. cbv iota.
  assert (E : at_form (lit "scope") (op ":" :: scope_toks ps closed) = Some (AScope (scope_cmds ps closed))).
  { unfold at_form. change (str_eqb (lit "scope") (lit "literal")) with false. change (str_eqb (lit "scope") (lit "params")) with false. change (str_eqb (lit "scope") (lit "scope")) with true. cbv iota.
    unfold after_colon. change (op_is ":" (op ":")) with true. cbv iota. cbn [obind]. rewrite parses_scope. cbn [obind]. now rewrite scope_block, H. }
  now rewrite E.
Qed.
Lemma at_literal ts r : ts <> [] -> at_rule (form_toks (Literal ts) ++ r) = Some (ALiteral ts, r).
Proof.
  intros H. destruct ts as [|t ts]; [easy|]. reflexivity.
Qed.
(** *** Parameters *)
Lemma parts_no_comma a : no_comma a = true -> forall cur r, parts cur (a ++ op "," :: r) = (cur ++ a) :: parts [] r.
Proof.
  induction a as [|t a IH]; intros H cur r; cbn [app parts].
  - change (op_is "," (op ",")) with true. now rewrite app_nil_r.
  - cbn [no_comma forallb] in H. apply andb_prop in H as [H1 H2]. rewrite negb_true_iff in H1. rewrite H1. change (forallb (fun t => negb (op_is "," t)) a) with (no_comma a) in H2. rewrite (IH H2), <- app_assoc. reflexivity.
Qed.
Lemma parts_last a : no_comma a = true -> forall cur, parts cur a = [cur ++ a].
Proof.
  induction a as [|t a IH]; intros H cur; cbn [parts]; [now rewrite app_nil_r|]. cbn [no_comma forallb] in H. apply andb_prop in H as [H1 H2]. rewrite negb_true_iff in H1. rewrite H1.
  change (forallb (fun t => negb (op_is "," t)) a) with (no_comma a) in H2. now rewrite (IH H2), <- app_assoc.
Qed.
Lemma parts_listed l : l <> [] -> Forall (fun a => no_comma a = true) l -> parts [] (listed l) = l.
Proof.
  intros Hn H. induction H as [|a l H1 _ IH]; [easy|]. destruct l as [|b l]; [apply (parts_last a H1)|].
  change (listed (a :: b :: l)) with (a ++ op "," :: listed (b :: l)). rewrite (parts_no_comma a H1), IH by discriminate. reflexivity.
Qed.
Lemma param_no_comma p : param_ok p -> no_comma (param_toks p) = true.
Proof. destruct p as [x [ex|]]; intros [_ H]; [|reflexivity]. destruct H as [_ H]. exact H. Qed.
Lemma param_of_ok p : param_ok p -> param_of (param_toks p) = Some p.
Proof.
  destruct p as [x [ex|]]; intros [_ H]; [|reflexivity]. destruct H as [H _]. cbn [param_toks fst snd param_of]. change (op_is "=" (op "=")) with true. rewrite (begins_ok ex H). reflexivity.
Qed.
Lemma all_some_params ps : Forall param_ok ps -> all_some param_of (map param_toks ps) = Some ps.
Proof. induction 1 as [|p ps H _ IH]; [reflexivity|]. cbn [map all_some]. now rewrite param_of_ok, IH. Qed.
Lemma param_list_ok ps : ps <> [] -> Forall param_ok ps -> param_list (listed (map param_toks ps)) = Some ps.
Proof.
  intros Hn H. unfold param_list. rewrite parts_listed.
  2:{ destruct ps; easy. } 2:{ clear Hn. induction H; constructor; auto using param_no_comma. }
  rewrite <- (all_some_params ps H) at 1.
  destruct (rev (map param_toks ps)) as [|[|t a] [|b l]] eqn:E; try reflexivity. exfalso.
  assert (I : In [] (map param_toks ps)) by (rewrite <- (rev_involutive (map param_toks ps)), E, <- in_rev; left; reflexivity). apply in_map_iff in I as ([x [ex|]] & I & _); discriminate.
Qed.
Lemma at_params ps ts r : ps <> [] -> Forall param_ok ps -> ts <> [] -> at_rule (form_toks (Params ps ts) ++ r) = Some (AParams ps ts, r).
Proof.
  intros H1 H2 H3. destruct ts as [|t ts]; [easy|]. cbn [form_toks at_group app]. unfold at_rule. change (op_is "#" (op "#") && op_is "@" (op "@")) with true. cbv iota.
  assert (E : at_form (lit "params") (TGrp Paren (listed (map param_toks ps)) :: op ":" :: t :: ts) = Some (AParams ps (t :: ts))).
  { unfold at_form. change (str_eqb (lit "params") (lit "literal")) with false. change (str_eqb (lit "params") (lit "params")) with true. cbv iota.
    unfold after_colon. change (op_is ":" (op ":")) with true. cbv iota. cbn [obind]. now rewrite param_list_ok. }
  now rewrite E.
Qed.
Lemma bind_params_ok ps : forall e d e' d', bind_params e d ps = Some (e', d') <-> exists vs, params_mean e ps e' vs /\ d' = map (fun p => (KVar (fst p), snd p)) vs ++ d.
Proof.
  induction ps as [|[x ex] ps IH]; intros e d e' d'; cbn [bind_params].
  - split; [intros [= <- <-]; exists []; split; [constructor|reflexivity]|]. intros (vs & M & ->). inversion M; subst. reflexivity.
  - destruct ex as [ex|]; cbn [obind].
    + destruct (eval e ex) as [v|] eqn:E; cbn [obind]; [|split; [discriminate|intros (vs & M & _); inversion M as [|? ? ? ? ? ? ? ? V|]; subst; apply eval_ok in V; congruence]].
      cbn [assoc]. rewrite str_eqb_refl. cbn [obind]. destruct (text_of v) as [t|] eqn:T; cbn [obind].
      * rewrite IH. split.
        -- intros (vs & M & ->). exists (vs ++ [(x, t)]). split; [apply (pm_value e x ex v); auto; [now apply eval_ok|now apply text_of_ok]|]. unfold dict_put. rewrite map_app, <- app_assoc. reflexivity.
        -- intros (vs & M & ->). inversion M as [|? ? ? v' t' ? ? vs' V S M'|]; subst. apply eval_ok in V. apply text_of_ok in S. assert (v' = v) as -> by congruence. assert (t' = t) as -> by congruence.
           exists vs'. split; [exact M'|]. unfold dict_put. rewrite map_app, <- app_assoc. reflexivity.
      * split; [discriminate|]. intros (vs & M & _). inversion M as [|? ? ? v' t' ? ? vs' V S M'|]; subst. apply eval_ok in V. apply text_of_ok in S. congruence.
    + destruct (assoc x e) as [v|] eqn:E; cbn [obind]; [|split; [discriminate|intros (vs & M & _); inversion M as [| |? ? ? ? ? ? ? V]; subst; apply assoc_ok in V; congruence]].
      destruct (text_of v) as [t|] eqn:T; cbn [obind].
      * rewrite IH. split.
        -- intros (vs & M & ->). exists (vs ++ [(x, t)]). split; [apply (pm_var e x v); auto; [now apply assoc_ok|now apply text_of_ok]|]. unfold dict_put. rewrite map_app, <- app_assoc. reflexivity.
        -- intros (vs & M & ->). inversion M as [| |? ? v' t' ? ? vs' V S M']; subst. apply assoc_ok in V. apply text_of_ok in S. assert (v' = v) as -> by congruence. assert (t' = t) as -> by congruence.
           exists vs'. split; [exact M'|]. unfold dict_put. rewrite map_app, <- app_assoc. reflexivity.
      * split; [discriminate|]. intros (vs & M & _). inversion M as [| |? ? v' t' ? ? vs' V S M']; subst. apply assoc_ok in V. apply text_of_ok in S. congruence.
Qed.
Lemma represents_vars vs : represents (map (fun p => (KVar (fst p), snd p)) vs) (mkLibrary vs []).
Proof.
  constructor; intros k; try intros Hk; cbn [vars macros lookup option_map]; induction vs as [|[x v] vs IH]; cbn [map dict_get fst snd mkey_eqb lookup]; auto. now rewrite IH.
Qed.
Lemma ok_vars vs : Forall (fun p : str * list ptok => settled (snd p)) vs -> library_ok (mkLibrary vs []).
Proof.
  intros H. constructor; [|discriminate]. cbn [vars]. intros x v. induction H as [|[y w] vs H _ IH]; cbn [lookup]; [discriminate|]. destruct (str_eqb x y); [intros [= <-]; exact H|exact IH].
Qed.
(** ** Forms *)
Lemma form_gives e f r a out : match f with Template _ => False | _ => True end -> at_rule (form_toks f ++ r) = Some (a, r) ->
  (gives e (form_toks f ++ r) out <-> exists p b, at_gives e a p /\ gives (fst p) r b /\ out = snd p ++ b).
Proof. intros H R. destruct f; [contradiction|..]; apply (gives_at e (op "#") _ a r out eq_refl R). Qed.
Lemma forms_give e fs : forms_ok e fs -> forall out, gives e (flat_map form_toks fs) out <-> forms_mean e fs out.
Proof.
  induction 1 as [e|e t r H _ IH|e ts r H1 H2 _ IH|e ps ts r H1 H2 H3 H4 H5 _ IH|e ps closed r H1 H2 _ IH]; intros out; cbn [flat_map].
  - rewrite gives_nil. split; [intros ->; constructor|inversion 1; reflexivity].
  - change (form_toks (Template t)) with (written t). rewrite (all_good t H). split.
    + intros (a & b & M & G & ->). constructor; [now apply means0_means|now apply IH].
    + inversion 1 as [|? ? ? a b M M'| | |]; subst. exists a, b. split; [now apply means_means0|]. split; [now apply IH|reflexivity].
  - rewrite (form_gives e (Literal ts) _ (ALiteral ts)) by (auto using at_literal). unfold at_gives. cbn [at_run]. rewrite (reread_copied ts H2). split.
    + intros (p & b & P & G & ->). apply lim_done in P. subst p. cbn [fst snd] in *. constructor. now apply IH.
    + inversion 1 as [| |? ? ? b M| |]; subst. exists (e, flat_map copied ts), b. split; [now apply lim_done|]. split; [now apply IH|reflexivity].
  - rewrite (form_gives e (Params ps ts) _ (AParams ps ts)) by (auto using at_params). unfold at_gives. cbn [at_run]. destruct H4 as [H4 H4'].
    assert (P : forall p, lim (fun n => run! p := orun (bind_params e [] ps) in run! out := translate n (snd p) (flat_map reread ts) in Done (fst p, out)) p <->
      exists vs, params_mean e ps (fst p) vs /\ text_stands (mkLibrary vs []) (flat_map copied ts) (snd p)).
    { intros [e1 a]. rewrite (lim_pair (fun _ => orun (bind_params e [] ps)) (fun p n => translate n (snd p) (flat_map reread ts)) (fun p out => (fst p, out))); [|apply steady_const|intros; apply steady_translate].
      cbn [fst snd]. split.
      - intros ([e2 d2] & b & B & Y & E). injection E as -> ->. cbn [fst snd] in *. apply lim_orun in B. apply bind_params_ok in B as (vs & M & ->). exists vs. split; [exact M|]. rewrite app_nil_r in Y. rewrite (reread_copied ts H4) in Y.
        apply (text_yields _ _ _ _ (represents_vars vs)); auto. apply ok_vars, (H5 e2 vs M).
      - intros (vs & M & S). exists (e1, map (fun p => (KVar (fst p), snd p)) vs), a. split; [apply lim_orun, bind_params_ok; exists vs; rewrite app_nil_r; auto|]. split; [|reflexivity]. cbn [snd]. rewrite (reread_copied ts H4).
        apply (text_yields _ _ _ _ (represents_vars vs)); auto. apply ok_vars, (H5 e1 vs M). }
    split.
    + intros ([e1 a] & b & Q & G & ->). apply P in Q as (vs & M & S). cbn [fst snd] in *. apply (fm_params e ps ts r e1 vs a b); auto. now apply (IH e1 vs M).
    + inversion 1 as [| | |? ? ? ? e1 vs a b M S M'|]; subst. exists (e1, a), b. split; [apply P; eauto|]. split; [|reflexivity]. cbn [fst]. now apply (IH e1 vs M).
  - rewrite (form_gives e (Scope ps closed) _ (AScope (scope_cmds ps closed))) by (auto using at_scope). unfold at_gives. cbn [at_run]. split.
    + intros (p & b & P & G & ->). apply (lim_pure (fun n => commands (append n) (quote_top (append n)) (translate n) e (scope_cmds ps closed) start) (fun out => (e, out))) in P as (a & P & ->); [|apply (steady_commands translate steady_translate append), append_steady].
      apply (scope_gives e ps closed a H1) in P as [L M]. cbn [fst snd] in *. apply (fm_scope e ps closed r a L b M). now apply IH.
    + inversion 1 as [| | | |? ? ? ? a L b M M']; subst. exists (e, a), b. split; [|split; [now apply IH|reflexivity]].
      apply (lim_pure (fun n => commands (append n) (quote_top (append n)) (translate n) e (scope_cmds ps closed) start) (fun out => (e, out))); [apply (steady_commands translate steady_translate append), append_steady|].
      exists a. split; [apply (scope_gives e ps closed a H1); eauto|reflexivity].
Qed.

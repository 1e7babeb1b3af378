(** What the macros make of a whole declaration. *)
From Verif Require Import Base F64 Convert Tokens SpecAttr SpecTokens TokenProofs AttrProofs.
From Coq Require Import Wf_nat.

(** * Texts of types *)
Lemma join_path pre tail : (if nonempty pre then join_toks [Punct 58; Punct 58] (map (fun s => [Ident s]) pre) ++ [Punct 58; Punct 58] ++ tail else tail)
  = flat_map (fun s => [Ident s; Punct 58; Punct 58]) pre ++ tail.
Proof.
  destruct pre as [|s pre]; [reflexivity|]. cbn [nonempty]. revert s. induction pre as [|s' pre IH]; intros s; [reflexivity|].
  change (join_toks [Punct 58; Punct 58] (map (fun s => [Ident s]) (s :: s' :: pre)))
    with ([Ident s] ++ [Punct 58; Punct 58] ++ join_toks [Punct 58; Punct 58] (map (fun s => [Ident s]) (s' :: pre))).
  rewrite <- !app_assoc. rewrite IH. reflexivity.
Qed.
Lemma nonempty_map {A B} (f : A -> B) l : nonempty (map f l) = nonempty l.
Proof. now destruct l. Qed.
Lemma kept_text :
  (forall n, name_kept n = true -> name_text (to_name n) = name_toks n) /\
  (forall a, arg_kept a = true -> type_text (to_arg a) = arg_toks a) /\
  (forall t, forall b, arg_kept (RArg b t) = true -> type_text (to_arg (RArg b t)) = arg_toks (RArg b t)).
Proof.
  apply rtypes_ind.
  - reflexivity.
  - intros pre id args H Hk. cbn [to_name name_text name_toks]. fold (path_tail id args). rewrite <- join_path, nonempty_map, nonempty_map.
    assert (E : (if nonempty args then [Ident id] ++ [Punct 60] ++ join_toks [Punct 44] (map type_text (map to_arg args)) ++ [Punct 62] else [Ident id])
                = path_tail id args).
    { unfold path_tail. destruct args as [|a args]; [reflexivity|]. cbn [nonempty app]. rewrite join_sep, map_map. do 4 f_equal.
      cbn [name_kept] in Hk. rewrite forallb_forall in Hk. apply map_ext_in. rewrite Forall_forall in H. auto. }
    now rewrite E.
  - intros [|] i _; reflexivity.
  - intros w ps [n|] H _; reflexivity.
  - intros b t H. apply H.
  - intros n H b Hk. cbn [arg_kept type_kept] in Hk. apply andb_prop in Hk as [Hk _].
    destruct b as [x|]; cbn [to_arg option_map type_text map join_toks arg_toks type_toks app]; now rewrite H.
  - intros lt m n H b Hk. cbn [arg_kept type_kept] in Hk. apply andb_prop in Hk as [Hk Hb]. destruct b as [x|]; [discriminate|].
    cbn [to_arg option_map type_text map join_toks arg_toks type_toks app].
    destruct lt as [a|], m; cbn [option_map name_text nonempty life app glue].
    + now rewrite H.
    + apply andb_prop in Hk as [Hk Hn]. rewrite H by auto. destruct n as [| |[|] i|]; try discriminate; reflexivity.
    + now rewrite H.
    + now rewrite H.
  - intros ns H b Hk. cbn [arg_kept type_kept] in Hk. apply andb_prop in Hk as [Hk Hb]. destruct b as [x|]; [discriminate|].
    cbn [to_arg option_map type_text arg_toks type_toks app]. rewrite join_sep, map_map. do 2 f_equal.
    rewrite forallb_forall in Hk. rewrite Forall_forall in H. apply map_ext_in. auto.
Qed.
Lemma kept_used t : field_type_kept t = true -> used_ty (to_arg (RArg None t)) = type_toks t.
Proof.
  intros Hk. destruct t as [n|lt m n|ns].
  - cbn in *. now rewrite (proj1 kept_text).
  - destruct lt, m; try discriminate. cbn in *. now rewrite (proj1 kept_text).
  - cbn [to_arg used_ty type_toks app]. rewrite join_sep, map_map. do 2 f_equal. cbn in Hk. rewrite forallb_forall in Hk. apply map_ext_in. intros n Hn.
    apply (proj1 kept_text), Hk, Hn.
Qed.

(** * Attributes *)
Definition no_meta (ts : list token) : Prop := match ts with t :: _ => meta_token t = false | [] => True end.
Lemma take_meta attrs rest : no_meta rest -> take_while meta_token (flat_map attr_toks attrs ++ rest) = flat_map attr_toks attrs.
Proof.
  intros H. induction attrs as [|a attrs IH]; cbn [flat_map app attr_toks take_while].
  - destruct rest as [|t r]; [reflexivity|]. cbn in H. cbn. now rewrite H.
  - change (meta_token (Punct 35)) with true. change (meta_token (Group Bracket (meta_toks a))) with true. cbn iota.
    fold (flat_map attr_toks attrs). now rewrite IH.
Qed.
Lemma meta_loop_ok attrs : Forall attr_ok attrs -> meta_loop (flat_map attr_toks attrs) = Some (map item_of attrs).
Proof.
  induction 1 as [|a attrs Ha _ IH]; [reflexivity|]. cbn [flat_map app attr_toks meta_loop is_punct N.eqb Pos.eqb].
  rewrite (proj1 (item_of_ok a Ha)). cbn [obind]. rewrite IH. reflexivity.
Qed.
Lemma eat_meta_ok attrs rest : Forall attr_ok attrs -> no_meta rest ->
  eat_meta (flat_map attr_toks attrs ++ rest) = Some (match attrs with [] => None | _ => Some (map item_of attrs) end, rest).
Proof.
  intros Hok Hr. destruct attrs as [|a attrs].
  - cbn. destruct rest as [|t r]; [reflexivity|]. cbn in Hr. unfold meta_token in Hr. apply orb_false_elim in Hr as [Hr _]. unfold eat_meta. rewrite Hr. reflexivity.
  - remember (a :: attrs) as l eqn:El. unfold eat_meta.
    assert (SK : skip_while (fun t => negb (meta_token t)) (flat_map attr_toks l ++ rest) = flat_map attr_toks l ++ rest) by (subst; reflexivity).
    assert (PM : parse_meta (flat_map attr_toks l ++ rest) = Some (map item_of l)).
    { unfold parse_meta. rewrite SK, take_meta, meta_loop_ok by auto. cbn [obind].
      replace (List.length (filter (is_punct 35) (flat_map attr_toks l))) with (List.length (map item_of l)).
      - rewrite Nat.eqb_refl. now subst.
      - rewrite map_length. clear. induction l as [|a l IH]; [reflexivity|]. cbn [flat_map attr_toks app filter is_punct N.eqb Pos.eqb List.length]. now rewrite IH. }
    rewrite PM. subst l. cbn [flat_map attr_toks app is_punct N.eqb Pos.eqb obind]. do 2 f_equal.
    change (Punct 35 :: Group Bracket (meta_toks a) :: flat_map attr_toks attrs ++ rest) with (flat_map attr_toks (a :: attrs) ++ rest).
    rewrite map_length. generalize (a :: attrs). clear. induction l as [|a l IH]; [reflexivity|].
    replace (2 * List.length (a :: l))%nat with (S (S (2 * List.length l))) by (cbn; lia). cbn [flat_map attr_toks app skipn]. exact IH.
Qed.

(** * Fields *)
Lemma eat_vis_ok v name rest : reserved name = false -> eat_vis (vis_toks v ++ Ident name :: rest) = Ident name :: rest.
Proof.
  intros H. destruct v; try reflexivity. cbn [vis_toks app eat_vis]. destruct (is_ident "pub" (Ident name)) eqn:E; auto.
  cbn in E. apply str_eqb_eq in E as ->. now cbv in H.
Qed.
Lemma vis_of_ok v name rest : reserved name = false -> vis_of (vis_toks v ++ Ident name :: rest) = vis_value v.
Proof.
  intros H. destruct v; try reflexivity. cbn [vis_toks app vis_of]. destruct (is_ident "pub" (Ident name)) eqn:E; auto.
  cbn in E. apply str_eqb_eq in E as ->. now cbv in H.
Qed.
Definition item_of_field (f : rfield) : field_item :=
  mkItem (match rf_attrs f with [] => None | l => Some (map item_of l) end) (vis_value (rf_vis f)) (rf_name f) (to_arg (RArg None (rf_type f))).
Lemma field_toks_ne f : field_toks f <> [].
Proof. unfold field_toks. intros E. apply app_eq_nil in E as [_ E]. apply app_eq_nil in E as [_ E]. discriminate. Qed.
Lemma no_meta_vis v name rest : no_meta (vis_toks v ++ Ident name :: rest).
Proof. now destruct v. Qed.
Lemma parse_field_ok f : field_readable f -> parse_field (field_toks f) = Some (item_of_field f).
Proof.
  intros (Ha & Hn & Ht). unfold parse_field. pose proof (field_toks_ne f) as NE. destruct (field_toks f) eqn:E; [easy|]. rewrite <- E. clear E NE t l.
  unfold field_toks. rewrite eat_meta_ok by (auto; apply no_meta_vis). cbn [obind snd fst]. rewrite vis_of_ok, eat_vis_ok by auto.
  cbn [at_colon is_punct N.eqb Pos.eqb]. unfold field_type_ok in Ht. apply andb_prop in Ht as [Ht _]. rewrite parse_type_ok by auto. cbn [obind]. unfold item_of_field.
  now destruct (rf_attrs f).
Qed.
Lemma field_flat f : Flat (stops [44]) (field_toks f).
Proof.
  unfold field_toks. apply Flat_app; [|apply Flat_app].
  - induction (rf_attrs f) as [|a l IH]; [constructor|]. cbn [flat_map attr_toks app]. flats. exact IH.
  - destruct (rf_vis f); cbn; flats.
  - flats. eapply Flat_weaken; [|apply type_flat]. stp.
Qed.
Lemma parse_body_ok fs c : fs <> [] -> Forall field_readable fs ->
  parse_fields [Group Brace (sep_by 44 (map field_toks fs) ++ comma c)] = Some (StructFields (map item_of_field fs)).
Proof.
  intros Hne H. cbn [parse_fields skip_while is_group delim_eqb is_punct orb negb]. rewrite split_sep_end.
  - erewrite all_some_map; [reflexivity|]. revert H. apply Forall_impl. apply parse_field_ok.
  - repeat split; discriminate.
  - destruct c; auto.
  - now destruct fs.
  - apply Forall_map, Forall_forall. intros f _. split; [apply field_toks_ne|]. apply (Flat_one [44]); [now left|apply field_flat].
Qed.
Lemma is_pair_key m : attr_ok m -> match m with WPair k _ _ => match item_of m with MPair k' _ _ => k' = k | _ => False end | _ => match item_of m with MPair _ _ _ => False | _ => True end end.
Proof. intros H. destruct (item_of_ok m H) as [_ R]. destruct R; auto. Qed.
Lemma ignored_ok f : Forall attr_ok (rf_attrs f) -> ignored (item_of_field f) = is_ignored f.
Proof.
  unfold ignored, is_ignored, item_of_field. cbn [i_meta]. destruct (rf_attrs f) as [|a l]; [reflexivity|].
  generalize (a :: l). clear. unfold has_ident. intros l H. induction H as [|a l Ha _ IH]; [reflexivity|]. cbn [map existsb]. rewrite IH. f_equal.
  destruct (item_of_ok a Ha) as [_ R]. destruct R; reflexivity.
Qed.
(** What the first [key] attribute is read as. *)
Lemma key_pair attrs : Forall attr_ok attrs ->
  get_pair "key" (map item_of attrs) =
  match flat_map (fun a => match a with WPair k _ v => if str_eqb k (lit "key") then [v] else [] | _ => [] end) attrs with
  | Plain l :: _ => parse_lit (literal_tok l)
  | Minus l :: _ => parse_negative (literal_tok l)
  | [] => None
  end.
Proof.
  unfold get_pair. induction 1 as [|a l Ha _ IH]; [reflexivity|]. cbn [map find flat_map].
  destruct (item_of_ok a Ha) as [E R]. destruct R as [w|v x R|k c v x R|w d parts is F]; cbn [app]; try exact IH.
  destruct (str_eqb k (lit "key")); [|exact IH]. cbn [app]. unfold parse_meta_item in E. cbn [meta_toks] in E. destruct v as [v|v]; cbn [value_toks parse_item] in E.
  - replace (pair_mark (Punct (if c then 58 else 61))) with (Some (if c then 58 else 61)) in E by now destruct c. cbn [obind] in E.
    assert (E' : option_map (fun y => MPair k y (if c then 58 else 61)) (parse_lit (literal_tok v)) = Some (MPair k x (if c then 58 else 61))) by (destruct v; exact E).
    destruct (parse_lit (literal_tok v)); [|discriminate]. injection E' as ->. reflexivity.
  - replace (pair_mark (Punct (if c then 58 else 61))) with (Some (if c then 58 else 61)) in E by now destruct c. cbn [obind is_punct N.eqb Pos.eqb] in E.
    assert (E' : option_map (fun y => MPair k y (if c then 58 else 61)) (parse_negative (literal_tok v)) = Some (MPair k x (if c then 58 else 61))) by (destruct v; exact E).
    destruct (parse_negative (literal_tok v)); [|discriminate]. injection E' as ->. reflexivity.
Qed.
Lemma key_of_ok f : Forall attr_ok (rf_attrs f) ->
  key_of (item_of_field f) =
  match key_values f with
  | Plain l :: _ => match parse_lit (literal_tok l) with Some (LString s _) => Some s | Some _ => None | None => Some (rf_name f) end
  | Minus l :: _ => match parse_negative (literal_tok l) with Some (LString s _) => Some s | Some _ => None | None => Some (rf_name f) end
  | [] => Some (rf_name f)
  end.
Proof.
  intros H. unfold key_of, item_of_field. cbn [i_meta i_ident].
  assert (E : match rf_attrs f with [] => None | l => Some (map item_of l) end = match rf_attrs f with [] => None | _ :: _ => Some (map item_of (rf_attrs f)) end) by now destruct (rf_attrs f).
  rewrite E. pose proof (key_pair _ H) as K. fold (key_values f) in K. destruct (rf_attrs f) eqn:Ea; [unfold key_values; now rewrite Ea|]. rewrite K.
  destruct (key_values f) as [|[v|v] r0]; reflexivity.
Qed.
Lemma plain_tok l : plain_lit (written l) -> literal_tok l = Literal (written l).
Proof.
  intros H. destruct l as [b|bytes raw body|body|body|i fr x suf|letter ds suf]; try reflexivity.
  destruct H as [(body & v & E & _)|(n & body & E & _)]; destruct b; discriminate.
Qed.
Lemma key_ok f : Forall attr_ok (rf_attrs f) -> key_fine f -> exists k, key_of (item_of_field f) = Some k /\ forall v, key_is f v -> StringLit (quoted k) v.
Proof.
  intros Ha Hk. rewrite key_of_ok by auto. unfold key_fine, key_is in *. destruct (key_values f) as [|[l|l] r].
  - destruct Hk as [Hq Hb]. exists (rf_name f). split; auto. intros v ->. constructor. now apply Unescape_plain.
  - rewrite plain_tok by auto. destruct (parse_plain_lit _ Hk) as (s & Es & Hs). rewrite Es. eauto.
  - contradiction.
Qed.

(** * Generic parameters and where clauses *)
Definition names_in (b : rbound) : list rname := match b with BName n => [n] | _ => [] end.
Definition unsized_from (u : bool) (bs : list rbound) : bool := fold_left (fun u b => match b with BMaybe => true | BSized => false | BName _ => u end) bs u.
Definition generic_of (p : rparam) : generic :=
  mkGeneric (param_arg (param_out p))
    (map to_name (flat_map names_in (filter is_trait (rp_bounds p)))) (map to_name (flat_map names_in (filter is_life (rp_bounds p))))
    (negb (unsized (rp_bounds p))) (option_map (fun t => to_arg (RArg None t)) (rp_default p)).
Lemma to_name_lifetime n : is_lifetime (to_name n) = match n with RLife _ => true | _ => false end.
Proof. destruct n as [|pre id args|[|] i|w ps ret]; reflexivity. Qed.
Lemma last_of_default {A} (d d' : A) l : l <> [] -> last_of d l = last_of d' l.
Proof. induction l as [|a [|b l] IH]; [easy|reflexivity|]. intros _. cbn. apply IH. discriminate. Qed.
Lemma last_of_cons {A} (d a : A) l : last_of d (a :: l) = last_of a l.
Proof. destruct l; [reflexivity|]. change (last_of d (a0 :: l) = last_of a (a0 :: l)). now apply last_of_default. Qed.
Lemma last_of_app {A} (d : A) a b : b <> [] -> last_of d (a ++ b) = last_of d b.
Proof. induction a as [|x a IH]; intros H; [reflexivity|]. cbn [app]. rewrite last_of_cons, (last_of_default x d) by (now destruct a, b). now apply IH. Qed.
Lemma not_sized n d : bound_ok (BName n) = true ->
  (is_punct 63 (match name_toks n with t :: _ => t | [] => d end) && is_ident "Sized" (last_of (match name_toks n with t :: _ => t | [] => d end) (name_toks n))) = false /\
  (is_ident "Sized" (match name_toks n with t :: _ => t | [] => d end) && is_ident "Sized" (last_of (match name_toks n with t :: _ => t | [] => d end) (name_toks n))) = false.
Proof.
  intros H. destruct n as [a|pre id args|[|] i|w ps ret]; try (split; reflexivity).
  - split.
    + destruct pre; reflexivity.
    + cbn [bound_ok] in H. apply andb_prop in H as [_ H]. apply negb_true_iff in H. apply andb_false_iff. right.
      cbn [name_toks]. rewrite last_of_app by discriminate. destruct args as [|a args]; [exact H|].
      rewrite !last_of_cons. now rewrite last_of_snoc.
  - split; [reflexivity|]. cbn [bound_ok name_ok] in H. apply andb_prop in H as [H _]. cbn [name_toks app]. apply andb_false_iff. left. cbn [is_ident].
    destruct (str_eqb w (lit "Sized")) eqn:E; auto. apply str_eqb_eq in E as ->. now cbv in H.
Qed.
Lemma bounds_ok bs g : forallb bound_ok bs = true ->
  bounds_loop g (map bound_toks bs) = Some (mkGeneric (g_ident g)
    (g_traits g ++ map to_name (flat_map names_in (filter is_trait bs))) (g_lifetimes g ++ map to_name (flat_map names_in (filter is_life bs)))
    (negb (unsized_from (negb (g_sized g)) bs)) (g_default g)).
Proof.
  revert g. induction bs as [|b bs IH]; intros g H.
  - cbn. rewrite !app_nil_r, negb_involutive. now destruct g.
  - cbn [forallb] in H. apply andb_prop in H as [Hb H]. cbn [map bounds_loop]. destruct b as [n| |].
    + cbn [bound_toks]. destruct (not_sized n (Punct 0) Hb) as [E1 E2]. rewrite E1, E2.
      rewrite parse_name_top. 2:{ cbn in Hb. destruct n; auto. now apply andb_prop in Hb as [Hb _]. }
      cbn [obind]. rewrite to_name_lifetime. destruct n as [a|pre id args|r i|w ps ret]; rewrite IH by auto;
        cbn [g_ident g_traits g_lifetimes g_sized g_default filter is_trait is_life flat_map names_in app map unsized_from fold_left];
        rewrite <- ?app_assoc; reflexivity.
    + cbn [bound_toks is_punct N.eqb Pos.eqb last_of is_ident]. change (str_eqb (lit "Sized") (lit "Sized")) with true. cbn [andb]. rewrite IH by auto. reflexivity.
    + cbn [bound_toks is_punct N.eqb Pos.eqb last_of is_ident]. change (str_eqb (lit "Sized") (lit "Sized")) with true. cbn [andb]. rewrite IH by auto. reflexivity.
Qed.
Lemma bound_toks_ne b : bound_toks b <> [].
Proof. destruct b; [apply name_toks_ne|discriminate..]. Qed.
Lemma bound_flat b : Flat (stops [44; 61; 43]) (bound_toks b).
Proof. destruct b; [apply name_flat|cbn; flats..]. Qed.
Definition param_head (p : rparam) : list token := param_name p ++ match rp_bounds p with [] => [] | bs => Punct 58 :: sep_by 43 (map bound_toks bs) end.
Lemma param_head_ne p : param_head p <> [].
Proof. unfold param_head, param_name, param_arg. destruct (rp_kind p); discriminate. Qed.
Lemma param_parts p : param_toks p = sep_by 61 (param_head p :: match rp_default p with Some t => [type_toks t] | None => [] end).
Proof. unfold param_toks, param_head. destruct (rp_default p); cbn [sep_by]; now rewrite <- ?app_assoc, ?app_nil_r. Qed.
Lemma param_head_flat p : Flat (stops [44; 61]) (param_head p).
Proof.
  unfold param_head. apply Flat_app; [unfold param_name, param_arg; destruct (rp_kind p); cbn; flats|]. destruct (rp_bounds p) as [|b bs]; [constructor|]. flats.
  apply Flat_sep; [reflexivity|repeat split; discriminate|discriminate|]. apply Forall_map, Forall_forall. intros x _.
  eapply Flat_weaken; [|apply bound_flat]. stp.
Qed.
Lemma param_flat p : Flat (stops [44]) (param_toks p).
Proof.
  rewrite param_parts. apply Flat_sep; [reflexivity|repeat split; discriminate|discriminate|]. apply Forall_cons.
  - eapply Flat_weaken; [|apply param_head_flat]. stp.
  - destruct (rp_default p); [|constructor]. constructor; [|constructor]. eapply Flat_weaken; [|apply type_flat]. stp.
Qed.
Lemma param_toks_ne p : param_toks p <> [].
Proof. unfold param_toks, param_name, param_arg. destruct (rp_kind p); discriminate. Qed.
Lemma field_type_is_type t : field_type_ok t = true -> type_ok t = true.
Proof. unfold field_type_ok. intros H. now apply andb_prop in H as [H _]. Qed.
Lemma parse_generic_ok p : param_ok p = true -> parse_generic (param_toks p) = Some (generic_of p).
Proof.
  intros H. unfold param_ok in H. apply andb_prop in H as [H Hd]. apply andb_prop in H as [Hn Hb]. unfold parse_generic.
  assert (SP : split_by 61 None (param_toks p) = param_head p :: match rp_default p with Some t => [type_toks t] | None => [] end).
  { rewrite param_parts. apply split_sep; [repeat split; discriminate|discriminate|]. apply Forall_cons.
    - split; [apply param_head_ne|]. apply (Flat_one [44; 61]); [right; now left|apply param_head_flat].
    - destruct (rp_default p) as [t|]; [|constructor]. constructor; [|constructor]. split; [apply type_toks_ne|].
      apply (Flat_one [44; 61]); [right; now left|apply type_flat]. }
  rewrite SP. pose proof (param_toks_ne p) as NE. destruct (param_toks p) eqn:E; [easy|]. clear E NE t l SP.
  assert (DP : match match rp_default p with Some t => [type_toks t] | None => [] end with
               | [] => Some (param_head p, None)
               | [d] => let! t := parse_type d in Some (param_head p, Some t)
               | _ => None
               end = Some (param_head p, option_map (fun t => to_arg (RArg None t)) (rp_default p))).
  { destruct (rp_default p) as [t|]; [|reflexivity]. rewrite parse_type_ok by now apply field_type_is_type. reflexivity. }
  cbn [obind]. rewrite DP. cbn [obind fst snd].
  assert (AC : at_colon (param_head p) = (param_name p, match rp_bounds p with [] => None | bs => Some (sep_by 43 (map bound_toks bs)) end)).
  { unfold param_head, param_name, param_arg. destruct (rp_kind p), (rp_bounds p) as [|b bs]; reflexivity. }
  rewrite AC. assert (GI : generic_ident (param_name p) = Some (param_arg (param_out p))) by (unfold param_name, param_arg, param_out; cbn [rp_kind rp_name]; destruct (rp_kind p); reflexivity).
  rewrite GI. cbn [obind]. unfold generic_of. destruct (rp_bounds p) as [|b bs] eqn:EB; [reflexivity|]. rewrite split_sep.
  - rewrite bounds_ok by auto. reflexivity.
  - repeat split; discriminate.
  - discriminate.
  - apply Forall_map, Forall_forall. intros x _. split; [apply bound_toks_ne|]. apply (Flat_one [44; 61; 43]); [right; right; now left|apply bound_flat].
Qed.
Lemma parse_items_ok ps c : forallb param_ok ps = true -> parse_items (sep_by 44 (map param_toks ps) ++ comma c) = Some (map generic_of ps).
Proof.
  intros H. unfold parse_items. rewrite split_items.
  - apply all_some_map. rewrite forallb_forall in H. apply Forall_forall. intros p Hp. apply parse_generic_ok, H, Hp.
  - repeat split; discriminate.
  - destruct c; auto.
  - apply Forall_map, Forall_forall. intros p _. split; [apply param_toks_ne|]. apply (Flat_one [44]); [now left|apply param_flat].
Qed.
Lemma generics_flat stop a : Flat stop a -> forall prev i acc r, is_punct 45 prev = false -> (1 <= i)%Z ->
  exists prev', is_punct 45 prev' = false /\ generics_loop prev i acc (a ++ r) = generics_loop prev' i (acc ++ a) r.
Proof.
  intros H. induction H as [|stop t a Hp Hc _ IH|stop a _ IH|stop a b _ IHa _ IHb]; intros prev i acc r Hprev Hi.
  - exists prev. rewrite app_nil_r. auto.
  - unfold plain in Hp. apply andb_prop in Hp as [Hp _]. apply andb_prop in Hp as [Hp _].
    apply andb_prop in Hp as [Hp H3]. apply andb_prop in Hp as [H1 H2]. apply negb_true_iff in H1, H2, H3.
    destruct (IH t i (acc ++ [t]) r H1 Hi) as (p & Ep & E). exists p. split; auto. cbn [app generics_loop]. rewrite Hprev, H2, H3. cbn [andb].
    destruct (Z.eqb_spec i 0); [lia|]. rewrite E, <- app_assoc. reflexivity.
  - destruct (IH (Punct 62) i (acc ++ [Punct 45; Punct 62]) r eq_refl Hi) as (p & Ep & E). exists p. split; auto. cbn [app generics_loop].
    rewrite Hprev. cbn [andb is_punct N.eqb Pos.eqb]. destruct (Z.eqb_spec i 0); [lia|]. cbn [generics_loop is_punct N.eqb Pos.eqb andb].
    destruct (Z.eqb_spec i 0); [lia|]. rewrite <- !app_assoc. cbn [app]. rewrite <- app_assoc in E. exact E.
  - destruct (IHa (Punct 60) (i + 1)%Z (acc ++ [Punct 60]) (Punct 62 :: b ++ r) eq_refl ltac:(lia)) as (p & Ep & E).
    destruct (IHb (Punct 62) i (((acc ++ [Punct 60]) ++ a) ++ [Punct 62]) r eq_refl Hi) as (q & Eq & E').
    exists q. split; auto. cbn [app generics_loop]. rewrite Hprev. cbn [andb is_punct N.eqb Pos.eqb]. destruct (Z.eqb_spec (i + 1) 0); [lia|].
    rewrite <- app_assoc. cbn [app]. rewrite E. cbn [generics_loop]. rewrite Ep. cbn [andb is_punct N.eqb Pos.eqb].
    replace (i + 1 - 1)%Z with i by lia. destruct (Z.eqb_spec i 0); [lia|]. rewrite E', <- !app_assoc. reflexivity.
Qed.
Lemma comma_flat c : Flat (fun _ => false) (comma c).
Proof. destruct c; cbn; flats. Qed.
Lemma params_flat ps c : Flat (fun _ => false) (sep_by 44 (map param_toks ps) ++ comma c).
Proof.
  apply Flat_app; [|apply comma_flat]. apply Flat_sep; [reflexivity|repeat split; discriminate|discriminate|]. apply Forall_map, Forall_forall. intros p _.
  eapply Flat_weaken; [|apply param_flat]. discriminate.
Qed.
Lemma parse_generics_ok ps c rest : forallb param_ok ps = true ->
  parse_generics (Punct 60 :: (sep_by 44 (map param_toks ps) ++ comma c) ++ Punct 62 :: rest) = Some (Some (map generic_of ps), rest).
Proof.
  intros H. unfold parse_generics. cbn [is_punct N.eqb Pos.eqb].
  destruct (generics_flat _ _ (params_flat ps c) (Punct 60) 1%Z [] (Punct 62 :: rest) eq_refl ltac:(lia)) as (p & Ep & E). rewrite E. clear E.
  cbn [generics_loop app]. rewrite Ep. cbn [andb is_punct N.eqb Pos.eqb]. cbn [Z.sub Z.add Z.opp Z.eqb Z.pos_sub obind].
  rewrite parse_items_ok by auto. cbn [obind]. do 3 f_equal.
  set (inner := sep_by 44 (map param_toks ps) ++ comma c). replace (List.length inner + 2)%nat with (S (List.length inner + 1)) by lia. cbn [skipn].
  rewrite skipn_app, skipn_all2 by lia. replace (List.length inner + 1 - List.length inner)%nat with 1%nat by lia. reflexivity.
Qed.
Lemma Flat_not_end stop a : Flat stop a -> Forall (fun t => negb (is_punct 59 t) && negb (is_group Brace t) = true) a.
Proof.
  induction 1 as [|stop t a Hp _ _ IH|stop a _ IH|stop a b _ IHa _ IHb]; repeat constructor; auto.
  - unfold plain in Hp. apply andb_prop in Hp as [Hp H1]. apply andb_prop in Hp as [_ H2]. now rewrite H1, H2.
  - apply Forall_app. split; auto.
Qed.
Lemma take_while_all {A} (p : A -> bool) a t r : Forall (fun x => p x = true) a -> p t = false -> take_while p (a ++ t :: r) = a.
Proof. induction 1 as [|x a E _ IH]; intros Ht; cbn [app take_while]; [now rewrite Ht|]. now rewrite E, IH. Qed.
Lemma parse_where_ok ps c g r : forallb param_ok ps = true ->
  let rest := Ident (lit "where") :: (sep_by 44 (map param_toks ps) ++ comma c) ++ Group Brace g :: r in
  exists n, parse_where rest = Some (map generic_of ps, n) /\ skipn n rest = Group Brace g :: r.
Proof.
  intros H rest. set (inner := sep_by 44 (map param_toks ps) ++ comma c) in *.
  assert (W : where_tokens rest = inner).
  { unfold where_tokens, rest. cbn [skip_while]. change (is_ident "where" (Ident (lit "where"))) with true. cbn [negb skipn].
    apply take_while_all; [|reflexivity]. apply (Flat_not_end (fun _ => false)), params_flat. }
  exists (S (List.length inner)). unfold parse_where. rewrite W. unfold inner at 1. rewrite parse_items_ok by auto. cbn [obind]. split; [reflexivity|].
  unfold rest. cbn [skipn]. rewrite skipn_app, skipn_all2, Nat.sub_diag by lia. reflexivity.
Qed.

(** ** Texts *)
Lemma names_of_filter k bs : (forall b, k b = true -> exists n, b = BName n) -> forallb bound_kept bs = true ->
  map name_text (map to_name (flat_map names_in (filter k bs))) = map bound_toks (filter k bs).
Proof.
  intros Hk. induction bs as [|b bs IH]; intros H; [reflexivity|]. cbn [forallb] in H. apply andb_prop in H as [Hb H]. cbn [filter].
  destruct (k b) eqn:E; auto. destruct (Hk b E) as [n ->]. cbn [flat_map app map bound_toks names_in]. rewrite (proj1 kept_text) by auto. now rewrite IH.
Qed.
Lemma traits_are_names b : is_trait b = true -> exists n, b = BName n.
Proof. destruct b; try discriminate. eauto. Qed.
Lemma lifes_are_names b : is_life b = true -> exists n, b = BName n.
Proof. destruct b; try discriminate. eauto. Qed.
Lemma generic_text_ok p : param_kept p = true -> generic_text (generic_of p) = param_toks (param_out p).
Proof.
  intros H. unfold param_kept in H. apply andb_prop in H as [H Hd]. unfold generic_text, generic_of. cbn [g_ident g_traits g_lifetimes g_sized g_default].
  rewrite !names_of_filter by auto using traits_are_names, lifes_are_names. unfold param_toks.
  assert (A : param_name (param_out p) = param_arg (param_out p)) by (unfold param_name, param_arg, param_out; cbn [rp_kind]; now destruct (rp_kind p)).
  rewrite A. unfold param_out at 2 3 4. cbn [rp_bounds rp_default]. f_equal. f_equal.
  - unfold sorted_bounds.
    replace (if negb (unsized (rp_bounds p)) then [] else [[Punct 63; Ident (lit "Sized")]]) with (map bound_toks (if unsized (rp_bounds p) then [BMaybe] else [])) by now destruct (unsized _).
    rewrite <- !map_app. rewrite join_sep, nonempty_map. now destruct (_ ++ _).
  - destruct (rp_default p) as [t|]; [|reflexivity]. cbn [option_map app]. f_equal. apply (proj2 (proj2 kept_text)). cbn [arg_kept]. now rewrite Hd.
Qed.

(** * The struct *)
Definition item_of_struct (s : rstruct) : struct_item :=
  mkStruct (match rs_attrs s with [] => None | l => Some (map item_of l) end) (vis_value (rs_vis s)) (rs_name s) (option_map (fun x => map generic_of (fst x)) (rs_params s)) (option_map (fun x => map generic_of (fst x)) (rs_where s))
    (StructFields (map item_of_field (rs_fields s))).
Lemma skip_to_struct attrs v rest : skip_while before_keyword (flat_map attr_toks attrs ++ vis_toks v ++ Ident (lit "struct") :: rest) = Ident (lit "struct") :: rest.
Proof. induction attrs as [|a attrs IH]; [destruct v; reflexivity|]. cbn [flat_map attr_toks app skip_while before_keyword is_punct N.eqb Pos.eqb orb is_group delim_eqb]. exact IH. Qed.
Lemma parse_struct_readable s : Forall attr_ok (rs_attrs s) ->
  match rs_params s with Some (ps, _) => forallb param_ok ps = true | None => True end ->
  match rs_where s with Some (ps, _) => forallb param_ok ps = true | None => True end ->
  rs_fields s <> [] -> Forall field_readable (rs_fields s) -> parse_struct_item (struct_toks s) = Some (item_of_struct s).
Proof.
  intros Ha Hp Hw Hne Hr. unfold parse_struct_item, struct_toks. cbn [app]. rewrite skip_to_struct.
  change (is_ident "struct" (Ident (lit "struct"))) with true. cbn iota. unfold parse_struct.
  destruct (flat_map attr_toks (rs_attrs s) ++ _) eqn:E at 1.
  { apply app_eq_nil in E as [_ E]. apply app_eq_nil in E as [_ E]. discriminate. }
  clear E t l. rewrite eat_meta_ok by (auto; apply no_meta_vis). cbn [obind snd fst].
  assert (EV : forall r, eat_vis (vis_toks (rs_vis s) ++ Ident (lit "struct") :: r) = Ident (lit "struct") :: r) by (intros r; destruct (rs_vis s); reflexivity).
  assert (EV' : forall r, vis_of (vis_toks (rs_vis s) ++ Ident (lit "struct") :: r) = vis_value (rs_vis s)) by (intros r; destruct (rs_vis s); reflexivity).
  rewrite EV, EV'. change (is_ident "struct" (Ident (lit "struct"))) with true. cbn iota.
  set (body := Group Brace (sep_by 44 (map field_toks (rs_fields s)) ++ comma (rs_comma s))).
  set (tail := match rs_where s with Some (ps, c) => Ident (lit "where") :: sep_by 44 (map param_toks ps) ++ comma c | None => [] end ++ [body]).
  assert (PG : parse_generics (match rs_params s with Some (ps, c) => Punct 60 :: sep_by 44 (map param_toks ps) ++ comma c ++ [Punct 62] | None => [] end ++ tail)
               = Some (option_map (fun x => map generic_of (fst x)) (rs_params s), tail)).
  { destruct (rs_params s) as [[ps c]|].
    - cbn [app option_map fst]. rewrite <- !app_assoc. cbn [app]. rewrite app_assoc. now apply parse_generics_ok.
    - cbn [app option_map]. unfold tail. destruct (rs_where s) as [[ps c]|]; reflexivity. }
  rewrite PG. cbn [obind snd fst]. unfold item_of_struct, tail. destruct (rs_where s) as [[ps c]|].
  - cbn [app]. change (is_ident "where" (Ident (lit "where"))) with true. cbn iota.
    destruct (parse_where_ok ps c (sep_by 44 (map field_toks (rs_fields s)) ++ comma (rs_comma s)) [] Hw) as (n & E1 & E2).
    fold body in E1, E2. rewrite E1. cbn [obind snd fst]. rewrite E2. unfold body. rewrite parse_body_ok by auto. now destruct (rs_attrs s).
  - cbn [app]. unfold body at 1 2 3. cbn [is_ident is_punct is_group delim_eqb]. unfold body. rewrite parse_body_ok by auto. now destruct (rs_attrs s).
Qed.
Lemma parse_struct_ok s : struct_ok s -> parse_struct_item (struct_toks s) = Some (item_of_struct s).
Proof. intros (Ha & Hp & Hw & Hne & Hf). apply parse_struct_readable; auto. revert Hf. apply Forall_impl. now intros f [X _]. Qed.
Lemma header_made s : struct_kept s = true -> header_with param_out s (header_of (item_of_struct s)).
Proof.
  intros H. unfold struct_kept in H. apply andb_prop in H as [Hp Hw]. unfold header_with, header_of, item_of_struct. cbn [h_generics h_self h_where st_generics st_ident st_where].
  assert (T : forall ps, forallb param_kept ps = true -> map generic_text (map generic_of ps) = map (fun p => param_toks (param_out p)) ps).
  { intros ps K. rewrite map_map. apply map_ext_in. rewrite forallb_forall in K. intros p Hin. apply generic_text_ok, K, Hin. }
  repeat split.
  - destruct (rs_params s) as [[[|p ps] c]|]; try reflexivity. cbn [option_map fst]. unfold generics_text, angle, angles. rewrite nonempty_map, nonempty_map, T by auto.
    cbn [nonempty]. now rewrite join_sep.
  - destruct (rs_params s) as [[[|p ps] c]|]; try reflexivity. cbn [option_map fst]. unfold only_idents, angle, angles. rewrite map_map, nonempty_map. cbn [nonempty].
    now rewrite join_sep.
  - destruct (rs_where s) as [[[|p ps] c]|]; try reflexivity. cbn [option_map fst]. unfold where_text. rewrite nonempty_map, T by auto. cbn [nonempty].
    now rewrite join_sep.
Qed.
Lemma plain_out p : param_plain p = true -> param_out p = param_meant p.
Proof. unfold param_plain, param_out, param_meant. destruct (rp_kind p), (rp_default p); try discriminate; reflexivity. Qed.
Lemma header_plain s h : header_with param_out s h -> struct_plain s = true -> header_is s h.
Proof.
  intros (A & B & C) P. unfold struct_plain in P. apply andb_prop in P as [P1 P2].
  assert (X : forall {B} (f : rparam -> B) ps, forallb param_plain ps = true -> map (fun p => f (param_out p)) ps = map (fun p => f (param_meant p)) ps).
  { intros B' f ps HP. apply map_ext_in. rewrite forallb_forall in HP. intros p Hin. now rewrite plain_out by auto. }
  unfold header_is, header_with. rewrite A, B, C. repeat split.
  - destruct (rs_params s) as [[[|p ps] c]|]; try reflexivity. now rewrite (X _ param_toks).
  - destruct (rs_params s) as [[[|p ps] c]|]; try reflexivity. now rewrite (X _ param_arg).
  - destruct (rs_where s) as [[[|p ps] c]|]; try reflexivity. now rewrite (X _ param_toks).
Qed.
Lemma header_ok s : struct_kept s = true -> struct_plain s = true -> header_is s (header_of (item_of_struct s)).
Proof. intros H. now apply header_plain, header_made. Qed.

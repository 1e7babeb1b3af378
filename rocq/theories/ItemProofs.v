(** What the parse crate makes of whole items. *)
From Verif Require Import Base F64 Convert SpecGrammar SpecNumber SpecConvert DecProofs KeyProofs Tokens SpecAttr SpecTokens TokenProofs AttrProofs DeclProofs Items SpecItems.
Local Open Scope N_scope.

(** * The specification's readings and the proofs' *)
Lemma reads_ok : (forall n, to_name n = name_read n) /\ (forall a, to_arg a = arg_read a) /\ (forall t b, to_arg (RArg b t) = arg_read (RArg b t)).
Proof.
  apply rtypes_ind.
  - reflexivity.
  - intros pre id args H. cbn [to_name name_read]. f_equal. apply map_ext_in. now apply Forall_forall.
  - reflexivity.
  - reflexivity.
  - intros b t H. apply H.
  - intros n H b. cbn [to_arg arg_read]. now rewrite H.
  - intros lt m n H b. cbn [to_arg arg_read]. now rewrite H.
  - intros ns H b. cbn [to_arg arg_read]. f_equal. apply map_ext_in. now apply Forall_forall.
Qed.
Lemma names_ok ns : map to_name ns = map name_read ns.
Proof. apply map_ext. apply reads_ok. Qed.
Lemma type_read_ok t : to_arg (RArg None t) = type_read t.
Proof. apply reads_ok. Qed.
Lemma generic_read_ok p : generic_of p = generic_read p.
Proof.
  unfold generic_of, generic_read. f_equal.
  - unfold param_arg, param_out. cbn [rp_kind rp_name]. now destruct (rp_kind p).
  - induction (rp_bounds p) as [|b bs IH]; [reflexivity|]. destruct b as [[]| |]; cbn [filter is_trait flat_map names_in app map]; rewrite ?(proj1 reads_ok), IH; reflexivity.
  - induction (rp_bounds p) as [|b bs IH]; [reflexivity|]. destruct b as [[]| |]; cbn [filter is_life flat_map names_in app map]; rewrite ?(proj1 reads_ok), IH; reflexivity.
  - destruct (rp_default p); [|reflexivity]. cbn [option_map]. now rewrite type_read_ok.
Qed.
Lemma generics_read_ok ps : option_map (fun x : list rparam * bool => map generic_of (fst x)) ps = generics_read ps.
Proof. destruct ps as [[ps c]|]; [|reflexivity]. cbn. f_equal. apply map_ext, generic_read_ok. Qed.
Lemma attr_is_ok a : attr_ok a -> attr_is a (item_of a).
Proof. apply item_of_ok. Qed.
Definition meta_read (attrs : list rmeta) : option (list meta_item) := match attrs with [] => None | _ => Some (map item_of attrs) end.
Lemma meta_is_ok attrs : Forall attr_ok attrs -> meta_is attrs (meta_read attrs).
Proof.
  intros H. unfold meta_is, meta_read. destruct attrs as [|a l]; [reflexivity|]. exists (map item_of (a :: l)). split; [reflexivity|].
  revert H. generalize (a :: l). clear. induction 1 as [|a l Ha _ IH]; constructor; auto using attr_is_ok.
Qed.

(** * Bodies *)
Lemma field_is_ok f : field_readable f -> field_is f (item_of_field f).
Proof.
  intros (Ha & _). unfold field_is, item_of_field. cbn [i_meta i_vis i_ident i_ty]. rewrite type_read_ok. repeat split.
  replace (match rf_attrs f with [] => None | l => Some (map item_of l) end) with (meta_read (rf_attrs f)) by now destruct (rf_attrs f). now apply meta_is_ok.
Qed.
(** A single array after the attributes is not one of them. *)
Lemma eat_meta_array attrs g : Forall attr_ok attrs -> eat_meta (flat_map attr_toks attrs ++ [Group Bracket g]) = Some (meta_read attrs, [Group Bracket g]).
Proof.
  intros Hok. destruct attrs as [|a attrs]; [reflexivity|]. unfold meta_read. remember (a :: attrs) as l eqn:El. unfold eat_meta.
  assert (SK : skip_while (fun t => negb (meta_token t)) (flat_map attr_toks l ++ [Group Bracket g]) = flat_map attr_toks l ++ [Group Bracket g]) by (subst; reflexivity).
  assert (TK : take_while meta_token (flat_map attr_toks l ++ [Group Bracket g]) = flat_map attr_toks l ++ [Group Bracket g]).
  { clear. induction l as [|a l IH]; [reflexivity|]. cbn [flat_map app attr_toks take_while].
    change (meta_token (Punct 35)) with true. change (meta_token (Group Bracket (meta_toks a))) with true. cbn iota. fold (flat_map attr_toks l). now rewrite IH. }
  assert (ML : meta_loop (flat_map attr_toks l ++ [Group Bracket g]) = Some (map item_of l)).
  { clear - Hok. induction Hok as [|a l Ha _ IH]; [reflexivity|]. cbn [flat_map app attr_toks meta_loop is_punct N.eqb Pos.eqb].
    rewrite (proj1 (item_of_ok a Ha)). cbn [obind]. rewrite IH. reflexivity. }
  assert (PM : parse_meta (flat_map attr_toks l ++ [Group Bracket g]) = Some (map item_of l)).
  { unfold parse_meta. rewrite SK, TK, ML. cbn [obind].
    replace (List.length (filter (is_punct 35) (flat_map attr_toks l ++ [Group Bracket g]))) with (List.length (map item_of l)).
    - rewrite Nat.eqb_refl. now subst.
    - rewrite map_length. clear. induction l as [|a l IH]; [reflexivity|]. cbn [flat_map attr_toks app filter is_punct N.eqb Pos.eqb List.length]. now rewrite IH. }
  rewrite PM. subst l. cbn [flat_map attr_toks app is_punct N.eqb Pos.eqb obind]. do 2 f_equal.
  change (Punct 35 :: Group Bracket (meta_toks a) :: flat_map attr_toks attrs ++ [Group Bracket g]) with (flat_map attr_toks (a :: attrs) ++ [Group Bracket g]).
  rewrite map_length. generalize (a :: attrs). clear. induction l as [|a l IH]; [reflexivity|].
  replace (2 * List.length (a :: l))%nat with (S (S (2 * List.length l))) by (cbn; lia). cbn [flat_map attr_toks app skipn]. exact IH.
Qed.
Lemma eat_meta_ok' attrs rest : Forall attr_ok attrs -> no_meta rest -> eat_meta (flat_map attr_toks attrs ++ rest) = Some (meta_read attrs, rest).
Proof. intros. unfold meta_read. rewrite eat_meta_ok by auto. now destruct attrs. Qed.
Lemma no_meta_type t : match t with RName (RGroup false _) => False | _ => True end -> no_meta (type_toks t).
Proof. destruct t as [[|[|] ? ?|[|] ?|]| |]; intros H; try contradiction; exact eq_refl. Qed.
Definition item_of_tuple (t : rtuple) : tuple_item := mkTuple (meta_read (rt_attrs t)) (vis_value (rt_vis t)) (type_read (rt_type t)).
Lemma type_head_pub t : type_ok t = true -> eat_vis (type_toks t) = type_toks t /\ vis_of (type_toks t) = None.
Proof.
  intros H. assert (E : match type_toks t with x :: _ => is_ident "pub" x = false | [] => True end).
  { assert (R : forall s, negb (reserved s) = true -> is_ident "pub" (Ident s) = false).
    { intros s Hs. cbn. destruct (str_eqb s (lit "pub")) eqn:X; auto. apply str_eqb_eq in X as ->. discriminate. }
    destruct t as [n| |]; try reflexivity. destruct n as [|[|p pre] id args|r i|w ps ret]; try reflexivity; cbn in H |- *.
    - apply andb_prop in H as [H _]. now apply R.
    - apply andb_prop in H as [H _]. apply andb_prop in H as [H _]. apply andb_prop in H as [H _]. now apply R.
    - apply andb_prop in H as [H _]. destruct (str_eqb w (lit "pub")) eqn:X; auto. apply str_eqb_eq in X as ->. discriminate. }
  unfold eat_vis, vis_of. destruct (type_toks t) as [|x r]; [auto|]. now rewrite E.
Qed.
Lemma type_head_paren t : match t with RName (RGroup true _) => False | _ => True end -> match type_toks t with Group Paren _ :: _ => False | _ => True end.
Proof. destruct t as [[|[|] ? ?|[|] ?|]| |]; intros H; try contradiction; exact I. Qed.
Lemma parse_tuple_ok t : tuple_ok t -> parse_tuple_field (tuple_toks t) = Some (item_of_tuple t).
Proof.
  intros (Ha & Ht & Hp). apply andb_prop in Ht as [Ht _]. unfold parse_tuple_field. pose proof (type_toks_ne (rt_type t)) as NE.
  destruct (tuple_toks t) eqn:E. { unfold tuple_toks in E. apply app_eq_nil in E as [_ E]. apply app_eq_nil in E as [_ E]. contradiction. }
  rewrite <- E. clear E t0 l. unfold tuple_toks. destruct (type_head_pub _ Ht) as [V1 V2].
  assert (EM : eat_meta (flat_map attr_toks (rt_attrs t) ++ vis_toks (rt_vis t) ++ type_toks (rt_type t)) =
               Some (meta_read (rt_attrs t), vis_toks (rt_vis t) ++ type_toks (rt_type t))).
  { destruct (rt_vis t).
    - cbn [vis_toks app]. destruct (rt_type t) as [[| |[|] g|]| |] eqn:ET; try (apply eat_meta_ok'; auto; now apply no_meta_type). now apply eat_meta_array.
    - apply eat_meta_ok'; auto. reflexivity.
    - apply eat_meta_ok'; auto. reflexivity. }
  rewrite EM. cbn [obind fst snd].
  assert (EV : eat_vis (vis_toks (rt_vis t) ++ type_toks (rt_type t)) = type_toks (rt_type t) /\ vis_of (vis_toks (rt_vis t) ++ type_toks (rt_type t)) = vis_value (rt_vis t)).
  { destruct (rt_vis t); cbn [vis_toks app vis_value]; [auto| |split; reflexivity].
    pose proof (type_head_paren (rt_type t)) as TH. cbn [eat_vis vis_of]. change (is_ident "pub" (Ident (lit "pub"))) with true. cbn iota.
    destruct (type_toks (rt_type t)) as [|[| | |[| | |] g] r]; cbn [is_group delim_eqb]; auto.
    elim TH. destruct (rt_type t) as [[| |[|] ?|]| |]; auto. }
  destruct EV as [-> ->]. rewrite parse_type_ok by auto. cbn [obind]. unfold item_of_tuple. now rewrite type_read_ok.
Qed.
Lemma tuple_toks_ne t : tuple_toks t <> [].
Proof. unfold tuple_toks. intros E. apply app_eq_nil in E as [_ E]. apply app_eq_nil in E as [_ E]. now apply type_toks_ne in E. Qed.
Lemma attrs_flat stop attrs : stop 35 = false -> Flat stop (flat_map attr_toks attrs).
Proof. intros H. induction attrs as [|a l IH]; [constructor|]. cbn [flat_map attr_toks app]. apply fl_tok; [reflexivity|cbn; now rewrite H|]. apply fl_tok; [reflexivity..|]. exact IH. Qed.
Lemma vis_flat stop v : Flat stop (vis_toks v).
Proof. destruct v; cbn [vis_toks]; repeat (apply fl_tok; [reflexivity..|]); constructor. Qed.
Lemma tuple_flat t : Flat (stops [44]) (tuple_toks t).
Proof.
  unfold tuple_toks. apply Flat_app; [now apply attrs_flat|]. apply Flat_app; [apply vis_flat|]. eapply Flat_weaken; [|apply type_flat]. stp.
Qed.
Definition read_body (b : rbody) : fields :=
  match b with BUnit => NoFields | BTuple l _ => TupleFields (map item_of_tuple l) | BNamed l _ => StructFields (map item_of_field l) end.
Lemma Forall_Forall2_map {A B} (P : A -> Prop) (R : A -> B -> Prop) (f : A -> B) l : (forall a, P a -> R a (f a)) -> Forall P l -> Forall2 R l (map f l).
Proof. intros H. induction 1; cbn; constructor; auto. Qed.
Lemma body_is_ok b : body_ok b -> body_is b (read_body b).
Proof.
  destruct b as [|l c|l c]; cbn; [auto| |]; intros [_ H]; eapply Forall_Forall2_map; try exact H.
  - intros t (Ha & _). unfold tuple_is, item_of_tuple. cbn. split; auto. now apply meta_is_ok.
  - intros f. apply field_is_ok.
Qed.
Lemma parse_body b rest : body_ok b -> b <> BUnit -> parse_fields (body_toks b ++ rest) = Some (read_body b).
Proof.
  destruct b as [|l c|l c]; intros H Hb; [easy| |]; destruct H as [Hne H]; cbn [body_toks app parse_fields skip_while is_group delim_eqb is_punct orb negb read_body].
  - rewrite split_sep_end.
    + erewrite all_some_map; [reflexivity|]. revert H. apply Forall_impl. apply parse_tuple_ok.
    + repeat split; discriminate.
    + destruct c; auto.
    + now destruct l.
    + apply Forall_map, Forall_forall. intros f _. split; [apply tuple_toks_ne|]. apply (Flat_one [44]); [now left|apply tuple_flat].
  - rewrite split_sep_end.
    + erewrite all_some_map; [reflexivity|]. revert H. apply Forall_impl. apply parse_field_ok.
    + repeat split; discriminate.
    + destruct c; auto.
    + now destruct l.
    + apply Forall_map, Forall_forall. intros f _. split; [apply field_toks_ne|]. apply (Flat_one [44]); [now left|apply field_flat].
Qed.

(** * Headers *)
Definition body_start (t : token) : bool := is_punct 59 t || is_group Brace t.
Lemma parse_where_end ps c t r : forallb param_ok ps = true -> body_start t = true ->
  let rest := Ident (lit "where") :: (sep_by 44 (map param_toks ps) ++ comma c) ++ t :: r in
  exists n, parse_where rest = Some (map generic_of ps, n) /\ skipn n rest = t :: r.
Proof.
  intros H Ht rest. set (inner := sep_by 44 (map param_toks ps) ++ comma c) in *.
  assert (W : where_tokens rest = inner).
  { unfold where_tokens, rest. cbn [skip_while]. change (is_ident "where" (Ident (lit "where"))) with true. cbn [negb skipn].
    apply take_while_all; [|unfold body_start in Ht; now destruct (is_punct 59 t), (is_group Brace t)]. apply (Flat_not_end (fun _ => false)), params_flat. }
  exists (S (List.length inner)). unfold parse_where. rewrite W. unfold inner at 1. rewrite parse_items_ok by auto. cbn [obind]. split; [reflexivity|].
  unfold rest. cbn [skipn]. rewrite skipn_app, skipn_all2, Nat.sub_diag by lia. reflexivity.
Qed.
Lemma parse_generics_end ps rest : params_ok ps -> match rest with t :: _ => is_punct 60 t = false | [] => True end ->
  parse_generics (generics_toks ps ++ rest) = Some (generics_read ps, rest).
Proof.
  intros H Hr. rewrite <- generics_read_ok. destruct ps as [[ps c]|]; cbn [generics_toks option_map fst].
  - cbn [app]. rewrite <- !app_assoc. cbn [app]. rewrite app_assoc. now apply parse_generics_ok.
  - cbn [app]. unfold parse_generics. destruct rest as [|t r]; [reflexivity|]. now rewrite Hr.
Qed.
Lemma no_where_body t : body_start t = true -> is_ident "where" t = false.
Proof. now destruct t. Qed.
Lemma where_step ps t r : params_ok ps -> body_start t = true ->
  match ps with
  | Some (qs, c) => exists n, parse_where (where_toks ps ++ t :: r) = Some (map generic_of qs, n) /\ skipn n (where_toks ps ++ t :: r) = t :: r
  | None => where_toks ps ++ t :: r = t :: r
  end.
Proof.
  destruct ps as [[ps c]|]; intros H Ht; [|reflexivity]. cbn [where_toks app]. now apply parse_where_end.
Qed.
Lemma vis_kw v w rest : w = "struct"%string \/ w = "enum"%string \/ w = "fn"%string \/ w = "async"%string \/ w = "const"%string \/ w = "unsafe"%string \/ w = "extern"%string ->
  eat_vis (vis_toks v ++ Ident (lit w) :: rest) = Ident (lit w) :: rest /\ vis_of (vis_toks v ++ Ident (lit w) :: rest) = vis_value v.
Proof. intros H. destruct v; intuition subst; reflexivity. Qed.
Lemma skip_attrs attrs rest : skip_while before_keyword (flat_map attr_toks attrs ++ rest) = skip_while before_keyword rest.
Proof. induction attrs as [|a attrs IH]; [reflexivity|]. cbn [flat_map attr_toks app skip_while before_keyword is_punct N.eqb Pos.eqb orb is_group delim_eqb]. exact IH. Qed.
Lemma skip_vis v rest : skip_while before_keyword (vis_toks v ++ rest) = skip_while before_keyword rest.
Proof. destruct v; reflexivity. Qed.
Lemma app_ne {A} (a b : list A) : b <> [] -> a ++ b <> [].
Proof. now destruct a. Qed.
Lemma bind_nonempty {A} (a b c : list token) (k : option A) : c <> [] -> match a ++ b ++ c with [] => None | _ => k end = k.
Proof. intros H. destruct (a ++ b ++ c) eqn:E; [|reflexivity]. apply app_eq_nil in E as [_ E]. now apply app_eq_nil in E as [_ E]. Qed.

(** * Structs *)
Definition item_of_decl (d : rdecl) : struct_item :=
  mkStruct (meta_read (rd_attrs d)) (vis_value (rd_vis d)) (rd_name d) (generics_read (rd_params d)) (generics_read (rd_where d)) (read_body (rd_body d)).
Lemma parse_decl_ok d : decl_ok d -> parse_struct (decl_toks d) = Some (item_of_decl d).
Proof.
  intros (Ha & Hp & Hw & Hb). unfold parse_struct, decl_toks. rewrite bind_nonempty by discriminate.
  cbn [app]. rewrite eat_meta_ok' by (auto; apply no_meta_vis). cbn [obind snd fst].
  set (tl := generics_toks (rd_params d) ++ _). destruct (vis_kw (rd_vis d) "struct" (Ident (rd_name d) :: tl)) as [-> ->]; [auto|].
  change (is_ident "struct" (Ident (lit "struct"))) with true. cbn iota. unfold tl. clear tl. unfold item_of_decl.
  assert (GW : match rd_where d with Some (qs, c) => generics_read (rd_where d) = Some (map generic_of qs) | None => generics_read (rd_where d) = None end).
  { rewrite <- generics_read_ok. destruct (rd_where d) as [[qs c]|]; reflexivity. }
  destruct (rd_body d) as [|l c|l c] eqn:EB.
  - rewrite parse_generics_end; [|auto|destruct (rd_where d) as [[? ?]|]; reflexivity]. cbn [obind snd fst].
    pose proof (where_step (rd_where d) (Punct 59) [] Hw eq_refl) as W. destruct (rd_where d) as [[qs c]|].
    + destruct W as (n & W1 & W2). rewrite W1. cbn [obind snd fst]. rewrite W2, GW. cbn [where_toks app].
      change (is_ident "where" (Ident (lit "where"))) with true. reflexivity.
    + rewrite W, GW. reflexivity.
  - rewrite parse_generics_end; [|auto|reflexivity]. cbn [obind snd fst]. cbn [body_toks app]. cbn [is_ident is_punct is_group delim_eqb].
    pose proof (parse_body (BTuple l c) [] Hb ltac:(discriminate)) as PB. rewrite app_nil_r in PB. cbn [body_toks] in PB. rewrite PB. cbn [obind].
    pose proof (where_step (rd_where d) (Punct 59) [] Hw eq_refl) as W. destruct (rd_where d) as [[qs c']|].
    + destruct W as (n & W1 & _). cbn [where_toks app] in W1 |- *. change (is_ident "where" (Ident (lit "where"))) with true. cbn iota.
      rewrite W1, GW. reflexivity.
    + cbn [where_toks app]. rewrite GW. reflexivity.
  - set (body := Group Brace (sep_by 44 (map field_toks l) ++ comma c)). change (body_toks (BNamed l c)) with [body].
    rewrite parse_generics_end; [|auto|destruct (rd_where d) as [[? ?]|]; reflexivity]. cbn [obind snd fst].
    pose proof (where_step (rd_where d) body [] Hw eq_refl) as W.
    pose proof (parse_body (BNamed l c) [] Hb ltac:(discriminate)) as PB. rewrite app_nil_r in PB. change (body_toks (BNamed l c)) with [body] in PB.
    destruct (rd_where d) as [[qs c']|].
    + destruct W as (n & W1 & W2). rewrite W1. cbn [obind snd fst]. rewrite W2, PB, GW. cbn [where_toks app].
      change (is_ident "where" (Ident (lit "where"))) with true. reflexivity.
    + rewrite W, GW, PB. reflexivity.
Qed.

Lemma decl_is_ok d : decl_ok d -> decl_is d (item_of_decl d).
Proof. intros (Ha & _ & _ & Hb). unfold decl_is, item_of_decl. cbn. repeat split; [now apply meta_is_ok|now apply body_is_ok]. Qed.

(** * Sequences that a separator does not cut *)
Definition Passes (s1 : N) (a : list token) : Prop := forall inner r, split_loop s1 None 0 inner (a ++ r) = split_loop s1 None 0 (inner ++ a) r.
Lemma Passes_nil s1 : Passes s1 [].
Proof. intros inner r. now rewrite app_nil_r. Qed.
Lemma Passes_app s1 a b : Passes s1 a -> Passes s1 b -> Passes s1 (a ++ b).
Proof. intros Ha Hb inner r. now rewrite <- app_assoc, Ha, Hb, app_assoc. Qed.
Lemma Flat_passes stop s1 a : Flat stop a -> stop s1 = true -> Passes s1 a.
Proof. intros F H inner r. apply (split_flat _ _ stop); auto. lia. Qed.
Lemma Passes_one s1 t : match t with Punct c => c <> 45 /\ c <> 60 /\ c <> 62 /\ c <> s1 | _ => True end -> Passes s1 [t].
Proof.
  intros H inner r. destruct t as [s|c|raw|d g]; cbn [app split_loop is_punct]; rewrite ?andb_false_r; try reflexivity.
  destruct H as (H1 & H2 & H3 & H4). apply N.eqb_neq in H1, H2, H3, H4. now rewrite H1, H2, H3, H4.
Qed.
Lemma split_passes c l tail : sep_ok c -> (tail = [] \/ tail = [Punct c]) ->
  l <> [] -> Forall (fun a => a <> [] /\ Passes c a) l -> split_by c None (sep_by c l ++ tail) = l.
Proof.
  intros (S1 & S2 & S3) Ht Hne H. unfold split_by. apply N.eqb_neq in S1, S2, S3. induction l as [|a [|b l] IH]; [easy| |].
  - inversion H as [|? ? [Ha Fa] _]; subst. cbn [sep_by]. rewrite Fa. cbn [app]. destruct Ht as [-> | ->]; [reflexivity|].
    cbn [split_loop is_punct]. now rewrite S1, S2, S3, N.eqb_refl.
  - inversion H as [|? ? [Ha Fa] Hl]; subst. change (sep_by c (a :: b :: l)) with (a ++ Punct c :: sep_by c (b :: l)). rewrite <- app_assoc, Fa.
    cbn [app split_loop is_punct]. rewrite S1, S2, S3, N.eqb_refl. cbn [Z.eqb andb]. f_equal.
    assert (NE : sep_by c (b :: l) ++ tail <> []).
    { intros E. apply app_eq_nil in E as [E _]. revert E. apply sep_by_ne; [|discriminate]. revert Hl. apply Forall_impl. now intros x [? _]. }
    destruct (sep_by c (b :: l) ++ tail) eqn:E; [easy|]. rewrite <- IH by (auto; discriminate). reflexivity.
Qed.

(** * Enums *)
Section Render.
  Variable render : list token -> str.
  Hypothesis C : compiler render.
  Definition item_of_variant (v : rvariant) : variant_item :=
    mkVariant (meta_read (rv_attrs v)) (rv_name v) (read_body (rv_body v)) (option_map value_of_variant (rv_value v)).
  Lemma read_value ds neg : value_ok (neg, ds) -> read_int Isize ((if neg then [45] else []) ++ ds) = Some (value_of_variant (neg, ds)).
  Proof.
    intros (H1 & H2 & H3). apply read_int_iff. exists ds. cbn [snd] in *. repeat split; auto.
    - cbn. lia.
    - cbn. lia.
    - unfold value_of_variant. cbn [fst snd]. destruct neg; [right|left]; cbn [app]; auto. repeat split; auto.
  Qed.
  Lemma head_passes s1 v : s1 <> 35 -> Passes s1 (flat_map attr_toks (rv_attrs v) ++ Ident (rv_name v) :: body_toks (rv_body v)).
  Proof.
    intros Hs. apply Passes_app; [apply (Flat_passes (fun d => d =? s1)); [apply attrs_flat, N.eqb_neq; auto|apply N.eqb_refl]|].
    apply (Passes_app _ [_]); [now apply Passes_one|]. destruct (rv_body v); cbn [body_toks]; [apply Passes_nil|now apply Passes_one..].
  Qed.
  Lemma variant_split v : split_by 61 None (variant_toks v) =
    (flat_map attr_toks (rv_attrs v) ++ Ident (rv_name v) :: body_toks (rv_body v)) ::
    match rv_value v with Some (neg, ds) => [(if neg then [Punct 45] else []) ++ [Literal ds]] | None => [] end.
  Proof.
    unfold variant_toks, split_by. rewrite app_comm_cons, app_assoc. rewrite (head_passes 61 v) by discriminate.
    destruct (rv_value v) as [[neg ds]|]; [|reflexivity]. cbn [discriminant_toks]. destruct neg; reflexivity.
  Qed.
  Lemma variant_passes v : Passes 44 (variant_toks v).
  Proof.
    unfold variant_toks. rewrite app_comm_cons, app_assoc. apply Passes_app; [now apply head_passes|]. destruct (rv_value v) as [[neg ds]|]; [|apply Passes_nil].
    cbn [discriminant_toks]. apply (Passes_app _ [_]); [now apply Passes_one|]. destruct neg; [|now apply Passes_one]. intros inner r. cbn [app split_loop is_punct N.eqb Pos.eqb Z.eqb andb]. now rewrite <- app_assoc.
  Qed.
  Lemma variant_toks_ne v : variant_toks v <> [].
  Proof. unfold variant_toks. apply app_ne. discriminate. Qed.
  (** The body of a variant's text, when the value is known to be read as [d]. *)
  Lemma parse_variant_with v d : Forall attr_ok (rv_attrs v) -> body_ok (rv_body v) ->
    match rv_value v with Some (neg, ds) => (let! n := read_int Isize (render ((if neg then [Punct 45] else []) ++ [Literal ds])) in Some (Some n)) = d | None => d = Some None end ->
    parse_variant render (variant_toks v) = let! disc := d in Some (mkVariant (meta_read (rv_attrs v)) (rv_name v) (read_body (rv_body v)) disc).
  Proof.
    intros Ha Hb Hd. unfold parse_variant. pose proof (variant_toks_ne v) as NE. destruct (variant_toks v) eqn:E; [easy|]. rewrite <- E. clear E NE t l.
    rewrite variant_split.
    assert (K : (let! mr := eat_meta (flat_map attr_toks (rv_attrs v) ++ Ident (rv_name v) :: body_toks (rv_body v)) in
                 match snd mr with Ident id :: rest => let! fs := match rest with [] => Some NoFields | _ => parse_fields rest end in Some (fst mr, id, fs) | _ => None end) =
                Some (meta_read (rv_attrs v), rv_name v, read_body (rv_body v))).
    { rewrite eat_meta_ok' by (auto; reflexivity). cbn [obind fst snd]. destruct (rv_body v) as [|l c|l c] eqn:EB; [reflexivity| |].
      - pose proof (parse_body (BTuple l c) [] Hb ltac:(discriminate)) as PB. rewrite app_nil_r in PB. rewrite PB. reflexivity.
      - pose proof (parse_body (BNamed l c) [] Hb ltac:(discriminate)) as PB. rewrite app_nil_r in PB. rewrite PB. reflexivity. }
    assert (Z : forall disc, (let! mr := eat_meta (flat_map attr_toks (rv_attrs v) ++ Ident (rv_name v) :: body_toks (rv_body v)) in
                 match snd mr with Ident id :: rest => let! fs := match rest with [] => Some NoFields | _ => parse_fields rest end in Some (mkVariant (fst mr) id fs disc) | _ => None end) =
                Some (mkVariant (meta_read (rv_attrs v)) (rv_name v) (read_body (rv_body v)) disc)).
    { intros disc. destruct (eat_meta _) as [[m r]|]; [|discriminate]. cbn [obind fst snd] in K |- *. destruct r as [|[id| | |] r]; try discriminate.
      destruct (match r with [] => Some NoFields | _ => parse_fields r end); [|discriminate]. cbn [obind] in K |- *. congruence. }
    destruct (rv_value v) as [[neg ds]|].
    - rewrite Hd. destruct d as [disc|]; [|reflexivity]. cbn [obind]. apply Z.
    - subst d. cbn [obind]. apply Z.
  Qed.
  Lemma parse_variant_ok v : variant_ok v -> (match rv_value v with Some (true, _) => joins_minus render | _ => True end) ->
    parse_variant render (variant_toks v) = Some (item_of_variant v).
  Proof.
    intros (Ha & Hb & Hv) Hm. rewrite (parse_variant_with v (Some (option_map value_of_variant (rv_value v)))); auto.
    destruct (rv_value v) as [[neg ds]|]; [|reflexivity]. apply read_value in Hv.
    replace (render _) with ((if neg then [45] else []) ++ ds).
    - rewrite Hv. reflexivity.
    - destruct neg; cbn [app]; symmetry; [apply Hm|apply C].
  Qed.
  Definition item_of_enum (e : renum) : enum_item :=
    mkEnum (meta_read (re_attrs e)) (vis_value (re_vis e)) (re_name e) (generics_read (re_params e)) (generics_read (re_where e)) (map item_of_variant (re_variants e)).
  (** Everything but the variants. *)
  Lemma parse_enum_with e : Forall attr_ok (re_attrs e) -> params_ok (re_params e) -> params_ok (re_where e) ->
    parse_enum render (renum_toks e) =
    let! vs := all_some (parse_variant render) (split_by 44 None (sep_by 44 (map variant_toks (re_variants e)) ++ comma (re_comma e))) in
    Some (mkEnum (meta_read (re_attrs e)) (vis_value (re_vis e)) (re_name e) (generics_read (re_params e)) (generics_read (re_where e)) vs).
  Proof.
    intros Ha Hp Hw. unfold parse_enum, renum_toks. rewrite bind_nonempty by discriminate.
    cbn [app]. rewrite eat_meta_ok' by (auto; apply no_meta_vis). cbn [obind snd fst].
    set (tl := generics_toks (re_params e) ++ _). destruct (vis_kw (re_vis e) "enum" (Ident (re_name e) :: tl)) as [-> ->]; [auto|].
    change (is_ident "enum" (Ident (lit "enum"))) with true. cbn iota. unfold tl. clear tl.
    assert (GW : match re_where e with Some (qs, c) => generics_read (re_where e) = Some (map generic_of qs) | None => generics_read (re_where e) = None end).
    { rewrite <- generics_read_ok. destruct (re_where e) as [[qs c]|]; reflexivity. }
    set (inside := sep_by 44 (map variant_toks (re_variants e)) ++ comma (re_comma e)).
    rewrite parse_generics_end; [|auto|destruct (re_where e) as [[? ?]|]; reflexivity]. cbn [obind snd fst].
    pose proof (where_step (re_where e) (Group Brace inside) [] Hw eq_refl) as W. destruct (re_where e) as [[qs c]|].
    - destruct W as (n & W1 & W2). rewrite W1. cbn [obind snd fst]. rewrite W2, GW. cbn [where_toks app].
      change (is_ident "where" (Ident (lit "where"))) with true. reflexivity.
    - rewrite W, GW. reflexivity.
  Qed.
  Lemma variants_split e : re_variants e <> [] ->
    split_by 44 None (sep_by 44 (map variant_toks (re_variants e)) ++ comma (re_comma e)) = map variant_toks (re_variants e).
  Proof.
    intros H. apply split_passes.
    - repeat split; discriminate.
    - destruct (re_comma e); auto.
    - now destruct (re_variants e).
    - apply Forall_map, Forall_forall. intros v _. split; [apply variant_toks_ne|apply variant_passes].
  Qed.
  Lemma parse_enum_ok e : renum_ok e -> (has_negative e = true -> joins_minus render) -> parse_enum render (renum_toks e) = Some (item_of_enum e).
  Proof.
    intros (Ha & Hp & Hw & Hne & Hv) Hm. rewrite parse_enum_with, variants_split by auto. erewrite all_some_map; [reflexivity|].
    apply Forall_forall. intros v Hin. rewrite Forall_forall in Hv. apply parse_variant_ok; auto. destruct (rv_value v) as [[[|] ds]|] eqn:E; auto.
    apply Hm. unfold has_negative. apply existsb_exists. exists v. now rewrite E.
  Qed.
  Lemma variant_is_ok v : variant_ok v -> variant_is v (item_of_variant v).
  Proof. intros (Ha & Hb & _). unfold variant_is, item_of_variant. cbn. repeat split; [now apply meta_is_ok|now apply body_is_ok]. Qed.
  Lemma renum_is_ok e : renum_ok e -> renum_is e (item_of_enum e).
  Proof.
    intros (Ha & _ & _ & _ & Hv). unfold renum_is, item_of_enum. cbn. repeat split; [now apply meta_is_ok|].
    eapply Forall_Forall2_map; [|exact Hv]. apply variant_is_ok.
  Qed.

  (** * Functions *)
  Definition sig_to (s : rsig) : type := match s with SType t => to_arg (RArg None t) | SImpl ns => mkType None (map to_name ns) false None false false true end.
  Lemma sig_to_read s : sig_to s = sig_read s.
  Proof. destruct s as [t|ns]; cbn [sig_to sig_read]; [apply type_read_ok|]. now rewrite names_ok. Qed.
  Lemma name_head w n : In w ["mut"; "dyn"; "impl"]%string -> name_ok n = true -> eat (is_ident w) (name_toks n) = (false, name_toks n).
  Proof.
    intros Hw Hn. destruct n as [|[|p pre] id args|r i|f ps ret]; try reflexivity; cbn [name_toks flat_map app eat is_ident]; cbn [name_ok forallb] in Hn.
    - apply andb_prop in Hn as [Hn _]. apply negb_true_iff in Hn. destruct (str_eqb id (lit w)) eqn:E; [|reflexivity].
      apply str_eqb_eq in E as ->. exfalso. destruct Hw as [<-|[<-|[<-|[]]]]; now cbv in Hn.
    - apply andb_prop in Hn as [Hn _]. apply andb_prop in Hn as [Hn _]. apply andb_prop in Hn as [Hn _]. apply negb_true_iff in Hn.
      destruct (str_eqb p (lit w)) eqn:E; [|reflexivity].
      apply str_eqb_eq in E as ->. exfalso. destruct Hw as [<-|[<-|[<-|[]]]]; now cbv in Hn.
    - apply andb_prop in Hn as [Hn _]. destruct (str_eqb f (lit w)) eqn:E; [|reflexivity].
      apply str_eqb_eq in E as ->. exfalso. destruct Hw as [<-|[<-|[<-|[]]]]; now cbv in Hn.
  Qed.
  Lemma names_head w ns : In w ["mut"; "dyn"; "impl"]%string -> forallb name_ok ns = true -> eat (is_ident w) (sep_by 43 (map name_toks ns)) = (false, sep_by 43 (map name_toks ns)).
  Proof.
    intros Hw Hn. destruct ns as [|n ns]; [reflexivity|]. cbn in Hn. apply andb_prop in Hn as [Hn _].
    pose proof (name_head w n Hw Hn) as H. pose proof (name_toks_ne n) as NN. cbn [map].
    destruct (name_toks n) as [|x y]; [easy|].
    destruct ns; cbn [map sep_by app eat] in *; destruct (is_ident w x); congruence.
  Qed.
  Lemma whole_one c a : sep_ok c -> a <> [] -> Flat (fun d => d =? c) a -> split_by c None a = [a].
  Proof. intros Hc Ha Hf. apply (split_sep c [a]); auto. discriminate. Qed.
  Lemma impl_flat ns : Flat (stops [44; 61]) (Ident (lit "impl") :: sep_by 43 (map name_toks ns)).
  Proof.
    apply fl_tok; [reflexivity..|]. apply Flat_sep; [reflexivity|repeat split; discriminate|discriminate|]. apply Forall_map, Forall_forall.
    intros n _. eapply Flat_weaken; [|apply name_flat]. stp.
  Qed.
  Lemma sig_flat s : Flat (stops [44; 61]) (sig_toks s).
  Proof. destruct s as [t|ns]; [apply type_flat|apply impl_flat]. Qed.
  Lemma sig_toks_ne s : sig_toks s <> [].
  Proof. destruct s as [t|ns]; [apply type_toks_ne|discriminate]. Qed.
  Lemma parse_sig_ok s : sig_ok s = true -> parse_type (sig_toks s) = Some (sig_read s).
  Proof.
    rewrite <- sig_to_read. destruct s as [t|ns]; cbn [sig_ok sig_toks sig_to]; intros H.
    - apply andb_prop in H as [H _]. now apply parse_type_ok.
    - apply andb_prop in H as [H Hne].
      assert (D : parse_type (type_toks (RDyn ns)) = Some (to_arg (RArg None (RDyn ns)))).
      { apply parse_type_ok. cbn. rewrite H. now destruct ns. }
      unfold parse_type in *. cbn [type_toks List.length] in *. set (f := S (List.length _)) in *. cbn [parse_ty] in *.
      assert (S1 : split_by 61 None (Ident (lit "dyn") :: sep_by 43 (map name_toks ns)) = [Ident (lit "dyn") :: sep_by 43 (map name_toks ns)]).
      { apply whole_one; [repeat split; discriminate|discriminate|]. apply (Flat_one [44; 61]); [right; now left|]. apply (type_flat (RDyn ns)). }
      assert (S2 : split_by 61 None (Ident (lit "impl") :: sep_by 43 (map name_toks ns)) = [Ident (lit "impl") :: sep_by 43 (map name_toks ns)]).
      { apply whole_one; [repeat split; discriminate|discriminate|]. apply (Flat_one [44; 61]); [right; now left|]. apply impl_flat. }
      rewrite S1 in D. rewrite S2. cbn [obind fst snd] in D |- *.
      change (eat (is_punct 38) (Ident (lit "dyn") :: sep_by 43 (map name_toks ns))) with (false, Ident (lit "dyn") :: sep_by 43 (map name_toks ns)) in D.
      change (eat (is_punct 38) (Ident (lit "impl") :: sep_by 43 (map name_toks ns))) with (false, Ident (lit "impl") :: sep_by 43 (map name_toks ns)).
      cbn [obind fst snd] in D |- *.
      change (eat (is_ident "dyn") (Ident (lit "dyn") :: sep_by 43 (map name_toks ns))) with (true, sep_by 43 (map name_toks ns)) in D.
      change (eat (is_ident "dyn") (Ident (lit "impl") :: sep_by 43 (map name_toks ns))) with (false, Ident (lit "impl") :: sep_by 43 (map name_toks ns)).
      cbv beta iota in D |- *. rewrite names_head in D by (cbn; auto).
      change (eat (is_ident "impl") (Ident (lit "impl") :: sep_by 43 (map name_toks ns))) with (true, sep_by 43 (map name_toks ns)).
      cbv beta iota in D |- *. destruct (nonempty (sep_by 43 (map name_toks ns))); [|discriminate D]. cbn [negb andb orb] in D |- *.
      destruct (all_some _ _) as [l|]; [|discriminate D]. cbn [obind to_arg option_map] in D |- *. congruence.
  Qed.
  Lemma name_flat58 n : name_ok n = true -> has_prefix n = false -> Flat (fun d => d =? 58) (name_toks n).
  Proof.
    destruct n as [a|[|p pre] id args|r i|w ps ret]; intros Hn Hp; try discriminate Hp.
    - cbn. flats.
    - cbn [name_toks flat_map app]. fold (path_tail id args). apply path_tail_flat. apply Forall_forall. intros. apply arg_flat.
    - cbn. destruct r; flats.
    - cbn [name_toks app]. flats. destruct ret as [n|]; [|constructor]. cbn in Hn. apply andb_prop in Hn as [_ Hn]. apply fl_arrow.
      apply ret_flat. destruct n as [|[|] ? ?| |]; try discriminate; auto.
  Qed.
  Lemma sig_flat58 s : sig_ok s = true -> forallb (fun n => negb (has_prefix n)) (sig_names s) = true -> Flat (fun d => d =? 58) (sig_toks s).
  Proof.
    assert (N1 : forall n, name_ok n = true -> forallb (fun n => negb (has_prefix n)) [n] = true -> Flat (fun d => d =? 58) (name_toks n)).
    { intros n Hn H. cbn in H. rewrite andb_true_r in H. apply name_flat58; auto. now apply negb_true_iff. }
    assert (NS : forall ns, forallb name_ok ns = true -> forallb (fun n => negb (has_prefix n)) ns = true -> Flat (fun d => d =? 58) (sep_by 43 (map name_toks ns))).
    { intros ns Hn H. apply Flat_sep; [reflexivity|repeat split; discriminate|discriminate|]. apply Forall_map, Forall_forall. intros n Hin.
      rewrite forallb_forall in Hn, H. apply name_flat58; auto. apply negb_true_iff. auto. }
    destruct s as [[n|lt m n|ns]|ns]; cbn [sig_ok sig_toks sig_names type_toks]; intros H Hp.
    - apply andb_prop in H as [H _]. now apply N1.
    - apply andb_prop in H as [H _]. apply andb_prop in H as [H _]. apply fl_tok; [reflexivity..|]. apply Flat_app; [destruct lt; cbn; flats|].
      apply Flat_app; [destruct m; cbn; flats|]. now apply N1.
    - apply andb_prop in H as [H _]. apply andb_prop in H as [H _]. apply fl_tok; [reflexivity..|]. now apply NS.
    - apply andb_prop in H as [H _]. apply fl_tok; [reflexivity..|]. now apply NS.
  Qed.
  Definition item_of_input (i : rinput) : param_item :=
    match i with INamed x s => mkParam (Some x) (sig_read s) | ISelf r => mkParam None (type_read (self_type r)) end.
  Lemma self_ok r : sig_ok (SType (self_type r)) = true.
  Proof. destruct r as [[lt m]|]; reflexivity. Qed.
  Lemma input_toks_ne i : input_toks i <> [].
  Proof. destruct i; [discriminate|apply type_toks_ne]. Qed.
  Lemma parse_input_ok i : input_ok i = true -> parse_param (input_toks i) = Some (item_of_input i).
  Proof.
    intros H. unfold parse_param. pose proof (input_toks_ne i) as NE. destruct (input_toks i) eqn:E; [easy|]. rewrite <- E. clear E NE t l.
    destruct i as [x s|r]; cbn [input_toks input_ok item_of_input] in *.
    - apply andb_prop in H as [H Hp].
      assert (SP : split_by 58 None (Ident x :: Punct 58 :: sig_toks s) = [[Ident x]; sig_toks s]).
      { apply (split_sep 58 [[Ident x]; sig_toks s]); [repeat split; discriminate|discriminate|].
        constructor; [split; [discriminate|flats]|]. constructor; [split; [apply sig_toks_ne|now apply sig_flat58]|constructor]. }
      rewrite SP. rewrite parse_sig_ok by auto. reflexivity.
    - assert (SP : split_by 58 None (type_toks (self_type r)) = [type_toks (self_type r)]).
      { apply whole_one; [repeat split; discriminate|apply type_toks_ne|]. apply (sig_flat58 (SType (self_type r))); [apply self_ok|].
        destruct r as [[lt m]|]; reflexivity. }
      rewrite SP. pose proof (parse_sig_ok (SType (self_type r)) (self_ok r)) as P. cbn [sig_toks sig_read] in P. rewrite P. reflexivity.
  Qed.
  Lemma input_flat i : Flat (stops [44]) (input_toks i).
  Proof.
    destruct i as [x s|r]; cbn [input_toks].
    - apply fl_tok; [reflexivity..|]. apply fl_tok; [reflexivity..|]. eapply Flat_weaken; [|apply sig_flat]. stp.
    - eapply Flat_weaken; [|apply type_flat]. stp.
  Qed.
  Lemma parse_inputs_ok l c : l <> [] -> forallb input_ok l = true ->
    parse_params [Group Paren (sep_by 44 (map input_toks l) ++ comma c)] = Some (map item_of_input l).
  Proof.
    intros Hne H. cbn [parse_params]. rewrite split_sep_end.
    - apply all_some_map. apply Forall_forall. intros i Hi. apply parse_input_ok. rewrite forallb_forall in H. auto.
    - repeat split; discriminate.
    - destruct c; auto.
    - now destruct l.
    - apply Forall_map, Forall_forall. intros i _. split; [apply input_toks_ne|]. apply (Flat_one [44]); [now left|apply input_flat].
  Qed.
  (** ** The number of tokens of a type *)
  Lemma starts_iff p s : starts_with p s = true <-> exists r, s = p ++ r.
  Proof.
    split.
    - revert s. induction p as [|a p IH]; intros s H; [now exists s|]. destruct s as [|b s]; [discriminate|]. cbn in H. apply andb_prop in H as [E H].
      apply N.eqb_eq in E as ->. destruct (IH _ H) as [r ->]. now exists r.
    - intros [r ->]. apply starts_with_app.
  Qed.
  Lemma spaced_iff s : fn_spaced s = true <-> call_text s.
  Proof.
    unfold fn_spaced, call_text. rewrite !orb_true_iff, !starts_iff. split.
    - intros [[[[r ->]|[r ->]]|[r ->]]|[r ->]]; [exists "Fn"%string|exists "FnMut"%string|exists "FnOnce"%string|exists "fn"%string]; exists r; (split; [cbn; auto|reflexivity]).
    - intros (w & r & Hw & ->). cbn in Hw. destruct Hw as [<-|[<-|[<-|[<-|[]]]]]; [left; left; left|left; left; right|left; right|right]; now exists r.
  Qed.
  Lemma not_spaced s : ~ call_text s -> fn_spaced s = false.
  Proof. intros H. destruct (fn_spaced s) eqn:E; auto. now apply spaced_iff in E. Qed.
  Lemma sep_length c l : l <> [] -> List.length (sep_by c l) = (total_of (map (fun a => List.length a + 1) l) - 1)%nat.
  Proof.
    induction l as [|a [|b l] IH]; [easy| |]; intros _; [cbn; lia|].
    change (sep_by c (a :: b :: l)) with (a ++ Punct c :: sep_by c (b :: l)). rewrite app_length. cbn [List.length].
    rewrite IH by discriminate. cbn [map total_of fold_right]. unfold total_of. lia.
  Qed.
  Lemma total_eq {A B} (f : A -> nat) (g : B -> A) (h : B -> nat) l : Forall (fun b => f (g b) = h b) l ->
    total_of (map (fun a => f a + 1)%nat (map g l)) = total_of (map (fun b => h b + 1)%nat l).
  Proof. induction 1 as [|b l E _ IH]; [reflexivity|]. unfold total_of in *. cbn. lia. Qed.
  Lemma prefix_length pre : List.length (flat_map (fun s : str => [Ident s; Punct 58; Punct 58]) pre) = (3 * List.length pre)%nat.
  Proof. induction pre as [|s pre IH]; [reflexivity|]. cbn [flat_map app List.length]. rewrite IH. lia. Qed.
  Lemma name_num_eq pre id gs : name_num render (mkName pre id gs) =
    (if is_lifetime (mkName pre id gs) then 2
     else if fn_spaced (render id) then 3 * List.length pre + List.length id
     else match gs with [] => 3 * List.length pre + 1 | _ => 3 * List.length pre + (total_of (map (fun g => type_num render g + 1) gs) - 1 + 3) end)%nat.
  Proof. reflexivity. Qed.
  Lemma type_num_eq b ns r l m d i : type_num render (mkType b ns r l m d i) =
    (total_of (map (fun n => name_num render n + 1) ns) - 1 + (if b then 2 else 0) + (if r then 1 else 0) + (if l then 2 else 0) + (if m then 1 else 0) + (if d then 1 else 0) + (if i then 1 else 0))%nat.
  Proof. reflexivity. Qed.
  Lemma nums_ok :
    (forall n, name_ok n = true -> (spaces_calls render \/ name_calls n = false) -> name_num render (name_read n) = List.length (name_toks n)) /\
    (forall a, arg_ok a = true -> (spaces_calls render \/ arg_calls a = false) -> type_num render (arg_read a) = List.length (arg_toks a)) /\
    (forall t b, type_ok t = true -> (spaces_calls render \/ arg_calls (RArg b t) = false) -> type_num render (arg_read (RArg b t)) = List.length (arg_toks (RArg b t))).
  Proof.
    assert (BT : forall b t, List.length (arg_toks (RArg b t)) = ((if b then 2 else 0) + List.length (type_toks t))%nat) by (intros [x|] t; reflexivity).
    apply rtypes_ind.
    - reflexivity.
    - intros pre id args IH Hok Hc. cbn [name_ok name_read name_toks] in *. rewrite name_num_eq. cbn [is_lifetime is_punct].
      rewrite (not_spaced _ (writes_idents _ C id)), map_length, app_length, prefix_length. cbn [List.length].
      apply andb_prop in Hok as [_ Hok]. destruct args as [|a args]; [reflexivity|]. remember (a :: args) as l eqn:El.
      assert (NE : l <> []) by (subst; discriminate).
      replace (match l with [] => [] | _ => Punct 60 :: sep_by 44 (map arg_toks l) ++ [Punct 62] end) with (Punct 60 :: sep_by 44 (map arg_toks l) ++ [Punct 62]) by now subst l.
      replace (match map arg_read l with [] => _ | _ => _ end) with (3 * List.length pre + (total_of (map (fun g => type_num render g + 1) (map arg_read l)) - 1 + 3))%nat by now subst l.
      rewrite (total_eq _ _ (fun a => List.length (arg_toks a))).
      + cbn [List.length]. rewrite app_length, sep_length by now subst l. cbn [List.length]. rewrite map_map. lia.
      + rewrite forallb_forall in Hok. rewrite Forall_forall in *. intros x Hx. apply IH; auto. destruct Hc as [Hc|Hc]; [now left|right].
        cbn [name_calls] in Hc. destruct (arg_calls x) eqn:E; auto. rewrite <- Hc. symmetry. apply existsb_exists. eauto.
    - intros r i _ _. cbn [name_read]. rewrite name_num_eq. cbn [is_lifetime is_punct]. now rewrite (not_spaced _ (writes_groups _ C (if r then Paren else Bracket) i ltac:(destruct r; auto))).
    - intros w ps ret _ Hok Hc. cbn [name_ok name_read name_toks app name_calls] in *. rewrite name_num_eq. cbn [is_lifetime is_punct].
      destruct Hc as [Hc|Hc]; [|discriminate]. apply andb_prop in Hok as [Hw _]. apply existsb_exists in Hw as (w' & Hw & E). apply str_eqb_eq in E as ->.
      pose proof (Hc w' ps (match ret with Some n => Punct 45 :: Punct 62 :: name_toks n | None => [] end) Hw) as E. apply spaced_iff in E. rewrite E. reflexivity.
    - intros b t H Hok. cbn in Hok. apply andb_prop in Hok as [_ Hok]. now apply H.
    - intros n H b Hok Hc. cbn [type_ok arg_calls arg_read type_toks] in *. rewrite BT, type_num_eq. cbn [map total_of fold_right type_toks]. rewrite H by auto. destruct b; cbn [option_map]; lia.
    - intros lt m n H b Hok Hc. cbn [type_ok arg_calls arg_read] in *. apply andb_prop in Hok as [Hok _]. rewrite BT, type_num_eq. cbn [map total_of fold_right type_toks].
      rewrite H by auto. cbn [List.length]. rewrite !app_length. destruct b, lt, m; cbn [option_map List.length life]; lia.
    - intros ns H b Hok Hc. cbn [type_ok arg_calls arg_read type_toks] in *. apply andb_prop in Hok as [Hok Hne]. rewrite BT, type_num_eq. cbn [type_toks List.length].
      rewrite sep_length by now destruct ns. rewrite (total_eq _ _ (fun n => List.length (name_toks n))).
      + rewrite map_map. destruct b; cbn [option_map]; lia.
      + rewrite forallb_forall in Hok. rewrite Forall_forall in *. intros x Hx. apply H; auto. destruct Hc as [Hc|Hc]; [now left|right].
        destruct (name_calls x) eqn:E; auto. rewrite <- Hc. symmetry. apply existsb_exists. eauto.
  Qed.
  Lemma sig_num s : sig_ok s = true -> (spaces_calls render \/ sig_calls s = false) -> type_num render (sig_read s) = List.length (sig_toks s).
  Proof.
    destruct s as [t|ns]; cbn [sig_ok sig_read sig_toks]; intros H Hc.
    - apply andb_prop in H as [H _]. apply (proj2 (proj2 nums_ok) t None); auto. destruct Hc as [Hc|Hc]; [now left|right].
      destruct t; cbn in Hc |- *; rewrite ?orb_false_r in Hc; auto.
    - apply andb_prop in H as [H Hne]. pose proof (proj2 (proj2 nums_ok) (RDyn ns) None) as E. cbn [type_ok arg_toks type_toks] in E.
      cbn [List.length] in E |- *. rewrite <- E.
      + cbn [arg_read option_map]. rewrite !type_num_eq. lia.
      + rewrite H. now destruct ns.
      + destruct Hc as [Hc|Hc]; [now left|now right].
  Qed.
  (** A compiler that writes [Fn(u8)] without a space makes the count too small. *)
  Lemma total_le {A B} (f : A -> nat) (g : B -> A) (h : B -> nat) (p : B -> bool) l :
    Forall (fun b => f (g b) <= h b /\ (p b = true -> f (g b) < h b))%nat l ->
    let x := total_of (map (fun a => f a + 1)%nat (map g l)) in let y := total_of (map (fun b => h b + 1)%nat l) in
    (x <= y /\ (existsb p l = true -> x < y))%nat.
  Proof.
    cbv zeta. induction 1 as [|b l [E1 E2] _ [IH1 IH2]]; [cbn; split; [lia|discriminate]|]. unfold total_of in *. cbn. split; [lia|].
    intros H. apply orb_true_iff in H as [H|H]; [apply E2 in H; lia|apply IH2 in H; lia].
  Qed.
  Lemma total_pos {A} (f : A -> nat) l : l <> [] -> (1 <= total_of (map (fun a => f a + 1) l))%nat.
  Proof. destruct l; [easy|]. intros _. unfold total_of. cbn. lia. Qed.
  Lemma nums_short : joins_calls render ->
    (forall n, name_ok n = true -> let x := name_num render (name_read n) in let y := List.length (name_toks n) in (x <= y /\ (name_calls n = true -> x < y))%nat) /\
    (forall a, arg_ok a = true -> let x := type_num render (arg_read a) in let y := List.length (arg_toks a) in (x <= y /\ (arg_calls a = true -> x < y))%nat) /\
    (forall t b, type_ok t = true -> let x := type_num render (arg_read (RArg b t)) in let y := List.length (arg_toks (RArg b t)) in (x <= y /\ (arg_calls (RArg b t) = true -> x < y))%nat).
  Proof.
    intros J. cbv zeta.
    assert (BT : forall b t, List.length (arg_toks (RArg b t)) = ((if b then 2 else 0) + List.length (type_toks t))%nat) by (intros [x|] t; reflexivity).
    apply rtypes_ind.
    - intros a _. cbn. split; [lia|discriminate].
    - intros pre id args IH Hok. cbn [name_ok name_read name_toks] in *. rewrite name_num_eq. cbn [is_lifetime is_punct].
      rewrite (not_spaced _ (writes_idents _ C id)), map_length, app_length, prefix_length. cbn [List.length].
      apply andb_prop in Hok as [_ Hok]. destruct args as [|a args]; [cbn; split; [lia|discriminate]|]. cbn [name_calls]. remember (a :: args) as l eqn:El.
      assert (NE : l <> []) by (subst; discriminate).
      replace (match l with [] => [] | _ => Punct 60 :: sep_by 44 (map arg_toks l) ++ [Punct 62] end) with (Punct 60 :: sep_by 44 (map arg_toks l) ++ [Punct 62]) by now subst l.
      replace (match map arg_read l with [] => _ | _ => _ end) with (3 * List.length pre + (total_of (map (fun g => type_num render g + 1) (map arg_read l)) - 1 + 3))%nat by now subst l.
      pose proof (total_le (type_num render) arg_read (fun a => List.length (arg_toks a)) arg_calls l) as T. cbv zeta in T.
      pose proof (total_pos (type_num render) (map arg_read l) ltac:(now subst l)) as T2.
      cbn [List.length]. rewrite app_length, sep_length by now subst l. cbn [List.length]. rewrite (map_map arg_toks).
      destruct T as [T T'].
      + rewrite forallb_forall in Hok. rewrite Forall_forall in *. intros x Hx. apply IH; auto.
      + split; [lia|]. intros X. apply T' in X. lia.
    - intros r i _. cbn [name_read]. rewrite name_num_eq. cbn [is_lifetime is_punct]. rewrite (not_spaced _ (writes_groups _ C (if r then Paren else Bracket) i ltac:(destruct r; auto))). cbn. split; [lia|discriminate].
    - intros w ps ret _ Hok. cbn [name_ok name_read name_toks app] in *. rewrite name_num_eq. cbn [is_lifetime is_punct].
      apply andb_prop in Hok as [Hw _]. apply existsb_exists in Hw as (w' & Hw & E). apply str_eqb_eq in E as ->.
      rewrite (not_spaced _ (J w' ps (match ret with Some n => Punct 45 :: Punct 62 :: name_toks n | None => [] end) Hw)). cbn [List.length]. lia.
    - intros b t H Hok. cbn in Hok. apply andb_prop in Hok as [_ Hok]. now apply H.
    - intros n H b Hok. cbn [type_ok arg_calls arg_read type_toks] in *. rewrite BT, type_num_eq. cbn [map total_of fold_right type_toks]. destruct (H Hok) as [H1 H2].
      split; [destruct b; cbn [option_map]; lia|]. intros X. apply H2 in X. destruct b; cbn [option_map]; lia.
    - intros lt m n H b Hok. cbn [type_ok arg_calls arg_read] in *. apply andb_prop in Hok as [Hok _]. rewrite BT, type_num_eq. cbn [map total_of fold_right type_toks].
      destruct (H Hok) as [H1 H2]. cbn [List.length]. rewrite !app_length.
      split; [|intros X; apply H2 in X]; destruct b, lt, m; cbn [option_map List.length life]; lia.
    - intros ns H b Hok. cbn [type_ok arg_calls arg_read type_toks] in *. apply andb_prop in Hok as [Hok Hne]. rewrite BT, type_num_eq. cbn [type_toks List.length].
      rewrite sep_length by now destruct ns. pose proof (total_le (name_num render) name_read (fun n => List.length (name_toks n)) name_calls ns) as T. cbv zeta in T.
      pose proof (total_pos (name_num render) (map name_read ns) ltac:(now destruct ns)) as T2. rewrite (map_map name_toks).
      destruct T as [T T'].
      + rewrite forallb_forall in Hok. rewrite Forall_forall in *. intros x Hx. apply H; auto.
      + split; [|intros X; apply T' in X]; destruct b; cbn [option_map]; lia.
  Qed.
  Lemma sig_num_short s : sig_ok s = true -> joins_calls render -> sig_calls s = true -> (type_num render (sig_read s) < List.length (sig_toks s))%nat.
  Proof.
    destruct s as [t|ns]; cbn [sig_ok sig_read sig_toks]; intros H J Hc.
    - apply andb_prop in H as [H _]. apply (proj2 (proj2 (nums_short J)) t None); auto.
      destruct t; cbn in Hc |- *; rewrite ?orb_false_r in Hc; auto.
    - apply andb_prop in H as [H Hne]. destruct (proj2 (proj2 (nums_short J)) (RDyn ns) None) as [_ E].
      { cbn. rewrite H. now destruct ns. }
      cbn [arg_toks type_toks List.length] in E |- *. specialize (E Hc). cbn [arg_read option_map] in E. rewrite !type_num_eq in *. lia.
  Qed.
  (** ** The result, the where clause and the body *)
  Definition ret_toks (r : option rsig) : list token := match r with Some s => Punct 45 :: Punct 62 :: sig_toks s | None => [] end.
  Definition after (ps : option (list rparam * bool)) (body : list token) : list token := where_toks ps ++ [Group Brace body].
  Definition until_body (x : token) : bool := negb (is_group Brace x) && negb (is_ident "where" x).
  Lemma after_head ps body : exists t r, after ps body = t :: r /\ until_body t = false /\ is_punct 45 t = false.
  Proof. unfold after. destruct ps as [[ps c]|]; [|now exists (Group Brace body), []]. eexists _, _. split; [reflexivity|]. split; reflexivity. Qed.
  Lemma sig_until s : ~ In (Ident (lit "where")) (sig_toks s) -> Forall (fun x => until_body x = true) (sig_toks s).
  Proof.
    intros H. pose proof (Flat_not_end _ _ (sig_flat s)) as F. rewrite Forall_forall in *. intros x Hx. specialize (F x Hx). apply andb_prop in F as [_ F].
    unfold until_body. rewrite F. cbn. destruct x as [w| | |]; try reflexivity. cbn [is_ident]. destruct (str_eqb w (lit "where")) eqn:E; auto. apply str_eqb_eq in E as ->. contradiction.
  Qed.
  Definition ret_ok (r : option rsig) : Prop := match r with Some s => sig_ok s = true /\ ~ In (Ident (lit "where")) (sig_toks s) | None => True end.
  Lemma parse_ret_with r ps body : ret_ok r ->
    parse_ret render (ret_toks r ++ after ps body) =
    Some (option_map sig_read r, match r with Some s => skipn (type_num render (sig_read s)) (sig_toks s ++ after ps body) | None => after ps body end).
  Proof.
    intros H. destruct (after_head ps body) as (t & rr & E & E1 & E2). destruct r as [s|]; cbn [ret_toks app option_map].
    - unfold parse_ret. cbn [is_punct N.eqb Pos.eqb]. destruct H as [H1 H2]. fold until_body. rewrite E.
      rewrite take_while_all by (auto using sig_until). rewrite parse_sig_ok by auto. reflexivity.
    - rewrite E. unfold parse_ret. now rewrite E2.
  Qed.
  Lemma parse_ret_ok r ps body : ret_ok r -> (match r with Some s => spaces_calls render \/ sig_calls s = false | None => True end) ->
    parse_ret render (ret_toks r ++ after ps body) = Some (option_map sig_read r, after ps body).
  Proof.
    intros H Hc. rewrite parse_ret_with by auto. do 2 f_equal. destruct r as [s|]; [|reflexivity]. destruct H as [H1 H2]. rewrite sig_num by auto.
    rewrite skipn_app, skipn_all, Nat.sub_diag. reflexivity.
  Qed.
  Lemma eat_where_ok ps body : params_ok ps -> eat_where (after ps body) = Some (generics_read ps, [Group Brace body]).
  Proof.
    intros H. pose proof (where_step ps (Group Brace body) [] H eq_refl) as W. unfold after. rewrite <- generics_read_ok. destruct ps as [[ps c]|]; cbn [option_map fst].
    - destruct W as (n & W1 & W2). cbn [where_toks app] in W1, W2 |- *. unfold eat_where. change (is_ident "where" (Ident (lit "where"))) with true. cbn iota.
      rewrite W1. cbn [obind fst snd]. now rewrite W2.
    - reflexivity.
  Qed.
  (** ** Functions *)
  Definition item_of_fun (f : rfn) : fn_item :=
    mkFn (meta_read (rn_attrs f)) (vis_value (rn_vis f)) (rn_async f) (rn_const f) (rn_unsafe f) (rn_abi f) (rn_name f) (generics_read (rn_params f))
      (map item_of_input (rn_inputs f)) (option_map sig_read (rn_ret f)) (generics_read (rn_where f)) (rn_body f).
  Definition quals (f : rfn) : list token :=
    word_if (rn_async f) "async" ++ word_if (rn_const f) "const" ++ word_if (rn_unsafe f) "unsafe" ++
    match rn_abi f with Some raw => [Ident (lit "extern"); Literal raw] | None => [] end.
  Lemma fun_toks_eq f : fun_toks f = flat_map attr_toks (rn_attrs f) ++ vis_toks (rn_vis f) ++ quals f ++ Ident (lit "fn") :: Ident (rn_name f) ::
    generics_toks (rn_params f) ++ Group Paren (sep_by 44 (map input_toks (rn_inputs f)) ++ comma (rn_comma f)) :: ret_toks (rn_ret f) ++ after (rn_where f) (rn_body f).
  Proof. unfold fun_toks, quals, ret_toks, after. rewrite <- !app_assoc. reflexivity. Qed.
  Lemma quals_kw f rest : exists w tl, quals f ++ Ident (lit "fn") :: rest = Ident (lit w) :: tl /\
    (w = "struct"%string \/ w = "enum"%string \/ w = "fn"%string \/ w = "async"%string \/ w = "const"%string \/ w = "unsafe"%string \/ w = "extern"%string).
  Proof.
    unfold quals. destruct (rn_async f); [exists "async"%string; eexists; split; [reflexivity|auto 9]|].
    destruct (rn_const f); [exists "const"%string; eexists; split; [reflexivity|auto 9]|].
    destruct (rn_unsafe f); [exists "unsafe"%string; eexists; split; [reflexivity|auto 9]|].
    destruct (rn_abi f); [exists "extern"%string|exists "fn"%string]; eexists; (split; [reflexivity|auto 9]).
  Qed.
  (** Everything but the parameters and the result. *)
  Lemma parse_fn_with f : Forall attr_ok (rn_attrs f) -> params_ok (rn_params f) ->
    parse_fn render (fun_toks f) =
    let! ps := parse_params [Group Paren (sep_by 44 (map input_toks (rn_inputs f)) ++ comma (rn_comma f))] in
    let! rr := parse_ret render (ret_toks (rn_ret f) ++ after (rn_where f) (rn_body f)) in
    let! wr := eat_where (snd rr) in
    match snd wr with
    | Group Brace body :: _ =>
        Some (mkFn (meta_read (rn_attrs f)) (vis_value (rn_vis f)) (rn_async f) (rn_const f) (rn_unsafe f) (rn_abi f) (rn_name f) (generics_read (rn_params f)) ps (fst rr) (fst wr) body)
    | _ => None
    end.
  Proof.
    intros Ha Hp. rewrite fun_toks_eq. unfold parse_fn.
    rewrite bind_nonempty by (apply app_ne; discriminate).
    set (tl := Ident (rn_name f) :: _). destruct (quals_kw f tl) as (w & tl' & E & Hw).
    rewrite eat_meta_ok'; [|auto|rewrite E; apply no_meta_vis]. cbn [obind fst snd]. rewrite E. destruct (vis_kw (rn_vis f) w tl' Hw) as [-> ->]. rewrite <- E. clear w tl' E Hw.
    assert (Q : (let '(is_async, t1) := eat (is_ident "async") (quals f ++ Ident (lit "fn") :: tl) in
      let '(is_const, t2) := eat (is_ident "const") t1 in
      let '(is_unsafe, t3) := eat (is_ident "unsafe") t2 in
      let '(abi, t4) := eat_extern t3 in (is_async, is_const, is_unsafe, abi, t4)) = (rn_async f, rn_const f, rn_unsafe f, rn_abi f, Ident (lit "fn") :: tl)).
    { unfold quals. destruct (rn_async f), (rn_const f), (rn_unsafe f), (rn_abi f); reflexivity. }
    destruct (eat (is_ident "async") _) as [x1 t1]. destruct (eat (is_ident "const") t1) as [x2 t2]. destruct (eat (is_ident "unsafe") t2) as [x3 t3].
    destruct (eat_extern t3) as [x4 t4]. injection Q as -> -> -> -> ->. unfold tl.
    change (is_ident "fn" (Ident (lit "fn"))) with true. cbn iota. rewrite parse_generics_end; [|auto|reflexivity]. reflexivity.
  Qed.
  Lemma parse_fn_ok f : fun_ok f -> (match rn_ret f with Some s => spaces_calls render \/ sig_calls s = false | None => True end) ->
    parse_fn render (fun_toks f) = Some (item_of_fun f).
  Proof.
    intros (Ha & Hp & Hw & Hi & Hi2 & Hr) Hc. rewrite parse_fn_with by auto. rewrite parse_inputs_ok by auto. cbn [obind].
    rewrite parse_ret_ok by auto. cbn [obind fst snd]. rewrite eat_where_ok by auto. reflexivity.
  Qed.
  Lemma parse_fn_calls f s : fun_ok f -> rn_ret f = Some s -> joins_calls render -> sig_calls s = true -> parse_fn render (fun_toks f) = None.
  Proof.
    intros (Ha & Hp & Hw & Hi & Hi2 & Hr) Hs J Hc. rewrite parse_fn_with by auto. rewrite parse_inputs_ok by auto. cbn [obind].
    rewrite parse_ret_with by auto. cbn [obind fst snd]. rewrite Hs in *. destruct Hr as [Hr1 Hr2]. pose proof (sig_num_short s Hr1 J Hc) as L.
    set (k := type_num render (sig_read s)) in *. rewrite skipn_app. pose proof (sig_until s Hr2) as U.
    destruct (skipn k (sig_toks s)) as [|x rest] eqn:E.
    { assert (X : List.length (skipn k (sig_toks s)) = O) by now rewrite E. rewrite skipn_length in X. lia. }
    assert (Hx : until_body x = true).
    { rewrite Forall_forall in U. apply U. rewrite <- (firstn_skipn k). apply in_or_app. right. rewrite E. now left. }
    unfold until_body in Hx. apply andb_prop in Hx as [H1 H2]. apply negb_true_iff in H1, H2. cbn [app eat_where]. rewrite H2. cbn [obind snd].
    destruct x as [| | |[| | |]]; try reflexivity. discriminate.
  Qed.
  Lemma fun_is_ok f : fun_ok f -> fun_is f (item_of_fun f).
  Proof.
    intros (Ha & _). unfold fun_is, item_of_fun. cbn. repeat split; [now apply meta_is_ok|].
    induction (rn_inputs f) as [|i l IH]; constructor; auto. now destruct i.
  Qed.
End Render.

(** * Texts *)
Lemma meta_text_ok attrs : Forall attr_ok attrs -> meta_text (meta_read attrs) = flat_map attr_toks (attrs_out attrs).
Proof.
  intros H. unfold meta_read, meta_text. destruct attrs as [|a l]; [reflexivity|]. revert H. generalize (a :: l). clear.
  induction 1 as [|a l Ha _ IH]; [reflexivity|]. cbn [attrs_out map flat_map]. rewrite IH, attr_text by auto. reflexivity.
Qed.
Lemma attrs_out_ok attrs : Forall attr_ok attrs -> attrs_kept attrs = true -> Forall attr_ok (attrs_out attrs) /\ meta_read (attrs_out attrs) = meta_read attrs.
Proof.
  intros H K. unfold attrs_kept in K. rewrite forallb_forall in K. rewrite Forall_forall in H. split.
  - apply Forall_map, Forall_forall. intros a Ha. apply attr_ok_out; auto.
  - unfold meta_read, attrs_out. replace (map item_of (map meta_out attrs)) with (map item_of attrs); [now destruct attrs|].
    rewrite map_map. apply map_ext_in. intros a Ha. symmetry. apply item_of_out; auto.
Qed.
Lemma vis_text_ok v : vis_text (vis_value v) = vis_toks v.
Proof. now destruct v. Qed.
Lemma type_text_ok t : type_kept t = true -> type_text (type_read t) = type_toks t.
Proof. intros H. rewrite <- type_read_ok. apply (proj2 (proj2 kept_text) t None). cbn. now rewrite H. Qed.
Lemma trailing {A} (f : A -> list token) l : l <> [] -> flat_map (fun x => f x ++ [Punct 44]) l = sep_by 44 (map f l) ++ [Punct 44].
Proof.
  induction l as [|a [|b l] IH]; [easy| |]; intros _; [cbn; now rewrite app_nil_r|].
  change (sep_by 44 (map f (a :: b :: l))) with (f a ++ Punct 44 :: sep_by 44 (map f (b :: l))). rewrite <- app_assoc. cbn [app].
  rewrite <- IH by discriminate. cbn [flat_map]. now rewrite <- app_assoc.
Qed.
Lemma body_text b : body_ok b -> body_kept b = true -> fields_text (read_body b) = body_toks (body_out b).
Proof.
  destruct b as [|l c|l c]; cbn [body_ok body_kept read_body fields_text body_out body_toks comma]; intros H K; [reflexivity| |]; destruct H as [Hne H];
    rewrite forallb_forall in K; rewrite Forall_forall in H.
  - rewrite join_sep, !map_map, app_nil_r. do 3 f_equal. apply map_ext_in. intros t Ht. destruct (H t Ht) as (Ha & _). specialize (K t Ht).
    unfold tuple_text, item_of_tuple, tuple_toks. cbn [t_meta t_vis t_ty rt_attrs rt_vis rt_type]. now rewrite meta_text_ok, vis_text_ok, type_text_ok by auto.
  - do 2 f_equal. rewrite <- trailing by now destruct l. rewrite !flat_map_concat_map, !map_map. f_equal. apply map_ext_in. intros f Hf. f_equal.
    destruct (H f Hf) as (Ha & _). specialize (K f Hf). unfold field_text, item_of_field, field_toks.
    cbn [i_meta i_vis i_ident i_ty rf_attrs rf_vis rf_name rf_type]. rewrite type_read_ok.
    replace (match rf_attrs f with [] => None | l => Some (map item_of l) end) with (meta_read (rf_attrs f)) by now destruct (rf_attrs f).
    now rewrite meta_text_ok, vis_text_ok, type_text_ok by auto.
Qed.
Lemma generics_texts ps : forallb param_kept ps = true -> map generic_text (map generic_of ps) = map param_toks (map param_out ps).
Proof. intros K. rewrite !map_map. apply map_ext_in. rewrite forallb_forall in K. intros p Hin. apply generic_text_ok, K, Hin. Qed.
Lemma params_text ps : params_kept ps = true -> opt_text generics_text (generics_read ps) = generics_toks (params_out ps).
Proof.
  rewrite <- generics_read_ok. destruct ps as [[[|p ps] c]|]; [discriminate| |reflexivity]. intros K. cbn [option_map fst opt_text params_out generics_toks comma].
  unfold generics_text, angle. rewrite generics_texts by exact K. now rewrite join_sep.
Qed.
Lemma wheres_text ps : params_kept ps = true -> opt_text where_text (generics_read ps) = where_toks (params_out ps).
Proof.
  rewrite <- generics_read_ok. destruct ps as [[[|p ps] c]|]; [discriminate| |reflexivity]. intros K. cbn [option_map fst opt_text params_out where_toks comma].
  unfold where_text. rewrite generics_texts by exact K. rewrite join_sep, app_nil_r. reflexivity.
Qed.
Lemma decl_text d : decl_ok d -> decl_kept d = true -> struct_text (item_of_decl d) = decl_toks (decl_out d).
Proof.
  intros (Ha & _ & _ & Hb) K. apply andb_prop in K as [K Kw]. apply andb_prop in K as [K K3]. apply andb_prop in K as [K1 K2].
  unfold struct_text, item_of_decl, decl_toks, decl_out. cbn [st_meta st_vis st_ident st_generics st_where st_fields rd_attrs rd_vis rd_name rd_params rd_where rd_body].
  rewrite meta_text_ok, vis_text_ok, params_text by auto. pose proof (body_text _ Hb K3) as B. do 4 f_equal. destruct (rd_body d) as [|l c|l c].
  - cbn [read_body body_out]. now destruct (rd_where d).
  - cbn [read_body body_out] in *. now rewrite B, wheres_text.
  - cbn [read_body body_out] in *. now rewrite B, wheres_text.
Qed.
(** What is read for the tokens written is the same item. *)
Lemma unsized_app a b : unsized (a ++ b) = unsized_from (unsized a) b.
Proof. unfold unsized. now rewrite fold_left_app. Qed.
Lemma unsized_names bs u : (forall b, In b bs -> exists n, b = BName n) -> unsized_from u bs = u.
Proof.
  revert u. induction bs as [|b bs IH]; intros u H; [reflexivity|]. destruct (H b (or_introl eq_refl)) as [n ->]. cbn. apply IH. intros x Hx. apply H. now right.
Qed.
Lemma generic_of_out p : generic_of (param_out p) = generic_of p.
Proof.
  unfold generic_of. replace (param_arg (param_out (param_out p))) with (param_arg (param_out p)) by (unfold param_arg, param_out; cbn [rp_kind rp_name]; now destruct (rp_kind p)).
  unfold param_out at 2 3 4 5. cbn [rp_bounds rp_default]. unfold sorted_bounds. set (bs := rp_bounds p).
  assert (F0 : forall k (l : list rbound), filter k (filter k l) = filter k l).
  { intros k l. apply (filter_all k). apply Forall_forall. intros x Hx. now apply filter_In in Hx. }
  assert (F1 : forall l, filter is_trait (filter is_life l) = []).
  { intros l. induction l as [|b l IH]; [reflexivity|]. destruct b as [[]| |]; exact IH. }
  assert (F2 : forall l, filter is_life (filter is_trait l) = []).
  { intros l. induction l as [|b l IH]; [reflexivity|]. destruct b as [[]| |]; exact IH. }
  f_equal.
  - do 2 f_equal. rewrite !filter_app, F0, F1. destruct (unsized bs); cbn [filter is_trait app]; now rewrite app_nil_r.
  - do 2 f_equal. rewrite !filter_app, F0, F2. destruct (unsized bs); cbn [filter is_life app]; now rewrite ?app_nil_r.
  - f_equal. rewrite app_assoc, unsized_app. replace (unsized (filter is_trait bs ++ filter is_life bs)) with false; [now destruct (unsized bs)|].
    symmetry. apply (unsized_names _ false). intros b Hb. apply in_app_iff in Hb as [Hb|Hb]; apply filter_In in Hb as [_ Hb]; [now apply traits_are_names|now apply lifes_are_names].
Qed.
Lemma param_ok_out p : param_ok p = true -> param_ok (param_out p) = true.
Proof.
  unfold param_ok, param_out. cbn [rp_name rp_bounds rp_default]. intros H. apply andb_prop in H as [H H3]. apply andb_prop in H as [H1 H2]. rewrite H1, H3, andb_true_r. cbn [andb].
  unfold sorted_bounds. rewrite !forallb_app. rewrite forallb_forall in H2.
  assert (Y : forall k, forallb bound_ok (filter k (rp_bounds p)) = true).
  { intros k. apply forallb_forall. intros x Hx. apply filter_In in Hx as [Hx _]. auto. }
  rewrite !Y. now destruct (unsized _).
Qed.
Lemma params_read_out ps : generics_read (params_out ps) = generics_read ps.
Proof.
  rewrite <- !generics_read_ok. destruct ps as [[ps c]|]; [|reflexivity]. cbn. f_equal. rewrite map_map. apply map_ext, generic_of_out.
Qed.
Lemma params_ok_out ps : params_ok ps -> params_ok (params_out ps).
Proof.
  destruct ps as [[ps c]|]; cbn; auto. rewrite !forallb_forall. intros H p Hp. apply in_map_iff in Hp as (q & <- & Hq). apply param_ok_out. auto.
Qed.
Lemma attrs_kept_in {A} (f : A -> list rmeta) l a : attrs_kept (flat_map f l) = true -> In a l -> attrs_kept (f a) = true.
Proof. unfold attrs_kept. rewrite !forallb_forall. intros H Hin x Hx. apply H, in_flat_map. eauto. Qed.
Lemma attrs_kept_app a b : attrs_kept (a ++ b) = attrs_kept a && attrs_kept b.
Proof. apply forallb_app. Qed.
Lemma body_out_ok b : body_ok b -> attrs_kept (body_attrs b) = true -> body_ok (body_out b) /\ read_body (body_out b) = read_body b.
Proof.
  destruct b as [|l c|l c]; cbn [body_ok body_attrs body_out read_body]; [auto| |]; intros [Hne H] K; rewrite Forall_forall in H.
  - split; [split; [now destruct l|]|].
    + apply Forall_map, Forall_forall. intros t Ht. destruct (H t Ht) as (Ha & Hr). apply (attrs_kept_in _ _ _ K) in Ht as Kt. split; [now apply attrs_out_ok|exact Hr].
    + f_equal. rewrite map_map. apply map_ext_in. intros t Ht. destruct (H t Ht) as (Ha & _). apply (attrs_kept_in _ _ _ K) in Ht as Kt.
      unfold item_of_tuple. cbn [rt_attrs rt_vis rt_type]. now rewrite (proj2 (attrs_out_ok _ Ha Kt)).
  - split; [split; [now destruct l|]|].
    + apply Forall_map, Forall_forall. intros t Ht. destruct (H t Ht) as (Ha & Hr). apply (attrs_kept_in _ _ _ K) in Ht as Kt. split; [now apply attrs_out_ok|exact Hr].
    + f_equal. rewrite map_map. apply map_ext_in. intros t Ht. destruct (H t Ht) as (Ha & _). apply (attrs_kept_in _ _ _ K) in Ht as Kt.
      pose proof (proj2 (attrs_out_ok _ Ha Kt)) as E. unfold meta_read in E. unfold item_of_field. cbn [rf_attrs rf_vis rf_name rf_type]. f_equal.
      destruct (rf_attrs t) as [|x y]; [reflexivity|]. exact E.
Qed.
Lemma decl_out_ok d : decl_ok d -> attrs_kept (decl_attrs d) = true -> decl_ok (decl_out d) /\ item_of_decl (decl_out d) = item_of_decl d.
Proof.
  intros (Ha & Hp & Hw & Hb) K. unfold decl_attrs in K. rewrite attrs_kept_app in K. apply andb_prop in K as [Ka Kb].
  destruct (attrs_out_ok _ Ha Ka) as [A1 A2]. destruct (body_out_ok _ Hb Kb) as [B1 B2]. split.
  - split; [exact A1|]. split; [now apply params_ok_out|]. split; [now apply params_ok_out|]. exact B1.
  - unfold item_of_decl, decl_out. cbn [rd_attrs rd_vis rd_name rd_params rd_where rd_body]. now rewrite !params_read_out, A2, B2.
Qed.
(** ** Enums and functions *)
Definition value_shown (v : bool * str) : bool * str :=
  let n := value_of_variant v in if (n <? 0)%Z then (true, show_N (Z.to_N (- n))) else (false, show_N (Z.to_N n)).
Lemma show_N_Int n : Int (show_N n) /\ decimal (show_N n) = n /\ Forall digit (show_N n) /\ show_N n <> [].
Proof.
  destruct (show_N_ok n) as (D & F & G). assert (I : Int (show_N n)).
  { destruct (N.eq_dec n 0) as [->|H]; [constructor|]. destruct G as (c & r & E & Hc); [lia|]. rewrite E in *. constructor; auto. now inversion F. }
  repeat split; auto. intros E. rewrite E in I. inversion I.
Qed.
Lemma value_shown_ok v : value_ok v -> value_of_variant (value_shown v) = value_of_variant v /\ value_ok (value_shown v) /\ Int (snd (value_shown v)) /\
  (fst (value_shown v) = true -> (value_of_variant v < 0)%Z).
Proof.
  intros (_ & _ & R). unfold value_shown. set (n := value_of_variant v) in *. destruct (Z.ltb_spec n 0) as [L|L].
  - destruct (show_N_Int (Z.to_N (- n))) as (I & D & F & E). assert (V : value_of_variant (true, show_N (Z.to_N (- n))) = n) by (unfold value_of_variant; cbn [fst snd]; rewrite D; lia).
    split; [exact V|]. split; [|auto]. split; [auto|]. split; [auto|]. rewrite V. exact R.
  - destruct (show_N_Int (Z.to_N n)) as (I & D & F & E). assert (V : value_of_variant (false, show_N (Z.to_N n)) = n) by (unfold value_of_variant; cbn [fst snd]; rewrite D; lia).
    split; [exact V|]. split; [|split; [auto|discriminate]]. split; [auto|]. split; [auto|]. rewrite V. exact R.
Qed.
Definition variant_shown (v : rvariant) : rvariant := RVariant (attrs_out (rv_attrs v)) (rv_name v) (body_out (rv_body v)) (option_map value_shown (rv_value v)).
Definition enum_shown (e : renum) : renum :=
  REnum (attrs_out (re_attrs e)) (re_vis e) (re_name e) (params_out (re_params e)) (params_out (re_where e)) (map variant_shown (re_variants e)) true.
Lemma variant_text_ok v : variant_ok v -> body_kept (rv_body v) = true -> variant_text (item_of_variant v) = variant_toks (variant_shown v).
Proof.
  intros (Ha & Hb & Hv) K. unfold variant_text, item_of_variant, variant_toks, variant_shown. cbn [v_meta v_ident v_fields v_disc rv_attrs rv_name rv_body rv_value].
  rewrite meta_text_ok, body_text by auto. do 3 f_equal. destruct (rv_value v) as [x|]; [|reflexivity]. cbn [option_map opt_text discriminant_toks].
  unfold disc_text, value_shown. destruct (_ <? 0)%Z; reflexivity.
Qed.
Lemma variant_shown_ok v : variant_ok v -> attrs_kept (rv_attrs v ++ body_attrs (rv_body v)) = true ->
  variant_ok (variant_shown v) /\ item_of_variant (variant_shown v) = item_of_variant v.
Proof.
  intros (Ha & Hb & Hv) K. rewrite attrs_kept_app in K. apply andb_prop in K as [Ka Kb]. destruct (attrs_out_ok _ Ha Ka) as [A1 A2]. destruct (body_out_ok _ Hb Kb) as [B1 B2].
  unfold variant_ok, variant_out, item_of_variant, variant_shown. cbn [rv_attrs rv_name rv_body rv_value]. rewrite A2, B2. split.
  - split; [auto|]. split; [auto|]. destruct (rv_value v) as [x|]; [|exact I]. now apply value_shown_ok.
  - f_equal. destruct (rv_value v) as [x|]; [|reflexivity]. cbn [option_map]. f_equal. now apply value_shown_ok.
Qed.
Lemma enum_text_ok e : renum_ok e -> enum_kept e = true -> enum_text (item_of_enum e) = renum_toks (enum_shown e).
Proof.
  intros (Ha & _ & _ & Hne & Hv) K. apply andb_prop in K as [K K3]. apply andb_prop in K as [K1 K2].
  unfold enum_text, item_of_enum, renum_toks, enum_shown. cbn [e_meta e_vis e_ident e_generics e_where e_values re_attrs re_vis re_name re_params re_where re_variants re_comma].
  rewrite meta_text_ok, vis_text_ok, params_text, wheres_text by auto. do 7 f_equal. cbn [comma]. rewrite <- trailing by (destruct (re_variants e); [easy|discriminate]).
  rewrite !flat_map_concat_map, !map_map. f_equal. apply map_ext_in. intros v Hin. f_equal. rewrite Forall_forall in Hv. rewrite forallb_forall in K3.
  specialize (K3 v Hin). apply variant_text_ok; auto.
Qed.
Lemma variant_shown_out v : variant_ok v -> variant_out v (variant_shown v).
Proof.
  intros (_ & _ & Hv). repeat split. unfold variant_shown. cbn [rv_value]. destruct (rv_value v) as [x|]; [|exact I]. cbn [option_map value_out].
  destruct (value_shown_ok x Hv) as (V1 & V2 & V3 & V4). destruct (value_shown x) as [neg ds]. auto.
Qed.
Lemma enum_shown_out e : renum_ok e -> enum_out e (enum_shown e).
Proof.
  intros (_ & _ & _ & _ & Hv). repeat split. cbn [enum_shown re_variants]. induction Hv; constructor; auto using variant_shown_out.
Qed.
Lemma enum_shown_ok e : renum_ok e -> attrs_kept (enum_attrs e) = true -> renum_ok (enum_shown e) /\ item_of_enum (enum_shown e) = item_of_enum e /\
  (has_negative (enum_shown e) = true -> has_negative e = true).
Proof.
  intros (Ha & Hp & Hw & Hne & Hv) K. unfold enum_attrs in K. rewrite attrs_kept_app in K. apply andb_prop in K as [Ka Kv].
  pose proof (fun v => attrs_kept_in (fun v => rv_attrs v ++ body_attrs (rv_body v)) _ v Kv) as Kv'. clear Kv. rename Kv' into Kv.
  destruct (attrs_out_ok _ Ha Ka) as [A1 A2].
  unfold renum_ok, enum_out, item_of_enum, enum_shown. cbn [re_attrs re_vis re_name re_params re_where re_variants re_comma].
  rewrite !params_read_out, A2. rewrite Forall_forall in Hv. split; [|split].
  - split; [auto|]. split; [now apply params_ok_out|]. split; [now apply params_ok_out|]. split; [now destruct (re_variants e)|].
    apply Forall_map, Forall_forall. intros v Hin. apply variant_shown_ok; auto.
  - f_equal. rewrite map_map. apply map_ext_in. intros v Hin. apply variant_shown_ok; auto.
  - unfold has_negative. cbn [re_variants]. intros H. apply existsb_exists in H as (v' & Hin & H). apply in_map_iff in Hin as (v & <- & Hin).
    apply existsb_exists. exists v. split; [auto|]. destruct (Hv v Hin) as (_ & _ & Hx). cbn [variant_shown rv_value] in H. destruct (rv_value v) as [x|]; [|discriminate].
    cbn [option_map] in H. destruct (value_shown_ok x Hx) as (_ & _ & _ & N). destruct (value_shown x) as [[|] ds]; [|discriminate]. specialize (N eq_refl).
    destruct x as [[|] ds']; [reflexivity|]. unfold value_of_variant in N. cbn [fst] in N. lia.
Qed.
Lemma sig_text s : sig_kept s = true -> type_text (sig_read s) = sig_toks s.
Proof.
  destruct s as [t|ns]; cbn [sig_kept sig_read sig_toks]; intros K; [now apply type_text_ok|].
  cbn [type_text app]. rewrite join_sep, <- names_ok, map_map. do 2 f_equal. apply map_ext_in. intros n Hn. rewrite forallb_forall in K. apply kept_text. auto.
Qed.
Lemma fun_text f : fun_ok f -> fun_kept f = true -> fn_text (item_of_fun f) = fun_toks (fun_out f).
Proof.
  intros (Ha & _ & _ & Hi & _) K. apply andb_prop in K as [K K4]. apply andb_prop in K as [K K3]. apply andb_prop in K as [K1 K2].
  unfold fn_text, item_of_fun, fun_toks, fun_out.
  cbn [f_meta f_vis f_async f_const f_unsafe f_abi f_ident f_generics f_params f_ret f_where f_body rn_attrs rn_vis rn_async rn_const rn_unsafe rn_abi rn_name rn_params rn_inputs rn_comma rn_ret rn_where rn_body].
  rewrite meta_text_ok, vis_text_ok, params_text, wheres_text by auto.
  assert (P : map param_text (map item_of_input (rn_inputs f)) = map input_toks (rn_inputs f)).
  { rewrite map_map. apply map_ext_in. intros i Hin. rewrite forallb_forall in K3. specialize (K3 i Hin). destruct i as [x s|r]; cbn [item_of_input input_kept input_toks] in *.
    - unfold param_text. cbn [p_ident p_ty opt_text app]. now rewrite sig_text.
    - unfold param_text. cbn [p_ident p_ty opt_text app]. now apply type_text_ok. }
  rewrite join_sep, P. cbn [comma]. rewrite app_nil_r.
  assert (R : opt_text (fun t => Punct 45 :: Punct 62 :: type_text t) (option_map sig_read (rn_ret f)) = match rn_ret f with Some s => Punct 45 :: Punct 62 :: sig_toks s | None => [] end).
  { destruct (rn_ret f) as [s|]; [|reflexivity]. cbn [option_map opt_text]. now rewrite sig_text. }
  rewrite R. reflexivity.
Qed.
Lemma fun_out_ok f : fun_ok f -> attrs_kept (rn_attrs f) = true -> fun_ok (fun_out f) /\ item_of_fun (fun_out f) = item_of_fun f.
Proof.
  intros (Ha & Hp & Hw & Hi) Ka.
  destruct (attrs_out_ok _ Ha Ka) as [A1 A2]. unfold fun_ok, item_of_fun, fun_out.
  cbn [rn_attrs rn_vis rn_async rn_const rn_unsafe rn_abi rn_name rn_params rn_inputs rn_comma rn_ret rn_where rn_body]. rewrite !params_read_out, A2.
  split; [|reflexivity]. split; [auto|]. split; [now apply params_ok_out|]. split; [now apply params_ok_out|]. exact Hi.
Qed.
(** * Whole items *)
Lemma whole_struct render d : parse_whole render (decl_toks d) = option_map IStruct (parse_struct (decl_toks d)).
Proof. unfold parse_whole. unfold decl_toks at 1. rewrite skip_attrs, skip_vis. reflexivity. Qed.
Lemma whole_enum render e : parse_whole render (renum_toks e) = option_map IEnum (parse_enum render (renum_toks e)).
Proof. unfold parse_whole. unfold renum_toks at 1. rewrite skip_attrs, skip_vis. reflexivity. Qed.
Lemma whole_fn render f : parse_whole render (fun_toks f) = option_map IFn (parse_fn render (fun_toks f)).
Proof.
  unfold parse_whole. rewrite fun_toks_eq at 1. rewrite skip_attrs, skip_vis. unfold quals.
  destruct (rn_async f), (rn_const f), (rn_unsafe f), (rn_abi f); reflexivity.
Qed.

(** Theorems about the derive macros' reading of declarations. *)
From Verif Require Import Base F64 Json Convert Derive Tokens SpecGrammar SpecAttr SpecTokens TokenProofs AttrProofs DeclProofs.

(** * Literals denote one string *)
Lemma hex_fun ds xs ys : Forall2 (fun d x => hex_digit_value d = Some x) ds xs -> Forall2 (fun d x => hex_digit_value d = Some x) ds ys -> xs = ys.
Proof. intros H. revert ys. induction H; intros ys H'; inversion H'; subst; [reflexivity|]. f_equal; [congruence|auto]. Qed.
Lemma hex_brace ds xs r ds' xs' r' : Forall2 (fun d x => hex_digit_value d = Some x) ds xs -> Forall2 (fun d x => hex_digit_value d = Some x) ds' xs' ->
  ds ++ 125 :: r = ds' ++ 125 :: r' -> ds = ds' /\ r = r'.
Proof.
  intros H. revert ds' xs'. induction H as [|d x ds xs E _ IH]; intros ds' xs' H'; destruct H' as [|d' x' ds' xs' E' H']; cbn [app]; intros X; [|injection X as X1 X2..].
  - injection X as X. auto.
  - subst. discriminate.
  - subst. discriminate.
  - subst. destruct (IH _ _ H' X2) as [-> ->]. auto.
Qed.
Lemma blanks_end ws r ws' r' : Forall blank ws -> Forall blank ws' -> match r with c :: _ => ~ blank c | [] => True end ->
  match r' with c :: _ => ~ blank c | [] => True end -> ws ++ r = ws' ++ r' -> r = r'.
Proof.
  intros H. revert ws'. induction H as [|c ws Hc _ IH]; intros [|c' ws'] H' Hr Hr' E; cbn [app] in E.
  - auto.
  - subst. now inversion H'.
  - subst. now elim Hr'.
  - injection E as -> E. inversion H'; subst. eapply IH; eauto.
Qed.
Lemma simple_escape_fun e c c' : In (e, c) [(110, 10); (114, 13); (116, 9); (92, 92); (48, 0); (39, 39); (34, 34)] ->
  In (e, c') [(110, 10); (114, 13); (116, 9); (92, 92); (48, 0); (39, 39); (34, 34)] -> c = c'.
Proof. cbn. intuition congruence. Qed.
Lemma simple_escape_head e c : In (e, c) [(110, 10); (114, 13); (116, 9); (92, 92); (48, 0); (39, 39); (34, 34)] -> e <> 120 /\ e <> 117 /\ e <> 10.
Proof. cbn. intros H. repeat destruct H as [H|H]; try (injection H as <- <-; repeat split; discriminate). destruct H. Qed.
Lemma Unescape_fun b v v' : Unescape b v -> Unescape b v' -> v = v'.
Proof.
  intros H. revert v'. induction H as [|c r v C1 C2 _ IH|e c r v He _ IH|x1 x2 y1 y2 r v E1 E2 E3 _ IH|ds xs r v HF HL HS _ IH|ws r v HW HR _ IH]; intros v' H'.
  - now inversion H'.
  - inversion H'; subst; try congruence. f_equal; auto.
  - pose proof (simple_escape_head e c He) as (N1 & N2 & N3). inversion H'; subst; try congruence.
    f_equal; [eapply simple_escape_fun; eauto|auto].
  - inversion H' as [|? ? ? D1 D2|? ? ? ? He|? ? ? ? ? ? F1 F2|? ? ? ? HF HL|? ? ? HW HR]; subst; try congruence.
    + pose proof (simple_escape_head _ _ He). intuition congruence.
    + f_equal; [congruence|auto].
  - inversion H' as [|? ? ? D1 D2|? ? ? ? He|? ? ? ? ? ? F1 F2|ds' xs' r' u HF' HL' HS' HU EQ|? ? ? HW HR]; subst; try congruence.
    + pose proof (simple_escape_head _ _ He). intuition congruence.
    + destruct (hex_brace _ _ _ _ _ _ HF' HF EQ) as [-> ->]. rewrite (hex_fun _ _ _ HF' HF). f_equal. auto.
  - inversion H' as [|? ? ? D1 D2|? ? ? ? He|? ? ? ? ? ? F1 F2|? ? ? ? HF HL|ws' r' u HW' HR' HU EQ]; subst; try congruence.
    + pose proof (simple_escape_head _ _ He). intuition congruence.
    + apply (blanks_end _ _ _ _ HW' HW HR' HR) in EQ as ->. auto.
Qed.
Theorem string_literals_denote_one_string raw v v' : StringLit raw v -> StringLit raw v' -> v = v'.
Proof.
  intros H H'. destruct H as [b v U|n b Hno].
  - inversion H' as [b' u U' E|]; subst. apply app_inj_tail in E as [-> _]. eapply Unescape_fun; eauto.
  - inversion H' as [|m b' Hno' E]; subst. apply (f_equal (cons 114)) in E. apply (raw_quoted_inj m n v' b) in E as [_ ->]. auto.
Qed.
Lemma plain_denotes raw : plain_lit raw -> exists v, StringLit raw v.
Proof.
  intros [(b & v & -> & U & _)|(n & b & -> & _ & Hq & _)]; [exists v; now constructor|]. exists b. constructor.
  intros (x & y & ->). apply Hq, in_or_app. right. now left.
Qed.
(** Every field has exactly one key. *)
Theorem every_field_has_one_key f : key_fine f -> exists v, key_is f v /\ forall v', key_is f v' -> v' = v.
Proof.
  unfold key_fine, key_is. destruct (key_values f) as [|[l|l] r]; [eauto| |contradiction].
  intros Hp. destruct (plain_denotes _ Hp) as [v Hv]. exists v. split; auto. intros v' H'. eapply string_literals_denote_one_string; eauto.
Qed.

(** * What the macros generate *)
Lemma key_ok_iff f : field_readable f -> key_fine f -> exists k, key_of (item_of_field f) = Some k /\ forall v, key_is f v <-> StringLit (quoted k) v.
Proof.
  intros (Ha & _) H. destruct (key_ok f Ha H) as (k & E & K). destruct (every_field_has_one_key f H) as (v & Hv & U). exists k. split; auto.
  intros v'. split; auto. intros Hl. replace v' with v; auto. eapply string_literals_denote_one_string; eauto.
Qed.
Lemma filter_map {A B} (f : A -> B) p l : filter p (map f l) = map f (filter (fun a => p (f a)) l).
Proof. induction l as [|a l IH]; [reflexivity|]. cbn. destruct (p (f a)); cbn; now rewrite IH. Qed.
Lemma all_some_forall2 {A B} (g : A -> option B) (P : A -> B -> Prop) l : (forall a, In a l -> exists b, g a = Some b /\ P a b) ->
  exists bs, all_some g l = Some bs /\ Forall2 P l bs.
Proof.
  induction l as [|a l IH]; intros H; [exists []; split; auto|].
  destruct (H a (or_introl eq_refl)) as (b & E & Pb). destruct IH as (bs & Es & Ps); [intros; apply H; now right|].
  exists (b :: bs). cbn. rewrite E, Es. split; auto.
Qed.
Lemma all_some_map_eq {A B C} (f : A -> B) (g : B -> option C) l : all_some g (map f l) = all_some (fun a => g (f a)) l.
Proof. induction l as [|a l IH]; [reflexivity|]. cbn. now rewrite IH. Qed.
Lemma attrs_readable s f : Forall field_readable (rs_fields s) -> In f (rs_fields s) -> Forall attr_ok (rf_attrs f).
Proof. intros H Hf. rewrite Forall_forall in H. now apply H in Hf as [Hf _]. Qed.
Lemma filter_ext_where {A} (p q : A -> bool) l : (forall a, In a l -> p a = q a) -> filter p l = filter q l.
Proof. induction l as [|a l IH]; intros H; [reflexivity|]. cbn. rewrite (H a) by now left. rewrite IH; [reflexivity|]. intros b Hb. apply H. now right. Qed.
Lemma filter_active s : Forall field_readable (rs_fields s) -> filter (fun x => negb (ignored x)) (map item_of_field (rs_fields s)) = map item_of_field (active s).
Proof. intros H. rewrite filter_map. unfold active. f_equal. apply filter_ext_where. intros f Hf. now rewrite ignored_ok by (eapply attrs_readable; eauto). Qed.
Lemma filter_inactive s : Forall field_readable (rs_fields s) -> map i_ident (filter ignored (map item_of_field (rs_fields s))) = map rf_name (inactive s).
Proof. intros H. rewrite filter_map, map_map. unfold inactive. cbn. f_equal. apply filter_ext_where. intros f Hf. now rewrite ignored_ok by (eapply attrs_readable; eauto). Qed.
Lemma struct_fields_readable s : struct_ok s -> Forall field_readable (rs_fields s).
Proof. intros (_ & _ & _ & _ & H). revert H. apply Forall_impl. now intros f [X _]. Qed.
Lemma active_ok s f : struct_ok s -> In f (active s) -> field_readable f /\ key_fine f.
Proof. intros (_ & _ & _ & _ & H) Hf. apply filter_In in Hf as [Hf Hi]. rewrite Forall_forall in H. destruct (H f Hf) as [A B]. split; auto. apply B. now apply negb_true_iff. Qed.

(** The generated [to_json] writes exactly the fields without [ignore], in the order of the declaration, each under its key. *)
Theorem derived_writer_covers_the_declared_fields s : struct_ok s -> exists h ks, derive_encode (struct_toks s) = Some (h, ks) /\
  Forall2 (fun f k => snd k = rf_name f /\ forall v, key_is f v <-> StringLit (fst k) v) (active s) ks.
Proof.
  intros H. unfold derive_encode. rewrite parse_struct_ok by auto. cbn [obind item_of_struct st_fields]. rewrite filter_active, all_some_map_eq by now apply struct_fields_readable.
  destruct (all_some_forall2 (fun f => let! k := key_of (item_of_field f) in Some (34 :: k ++ [34], i_ident (item_of_field f)))
    (fun f k => snd k = rf_name f /\ forall v, key_is f v <-> StringLit (fst k) v) (active s)) as (ks & E & K).
  - intros f Hf. destruct (active_ok s f H Hf) as [HR HK]. destruct (key_ok_iff f HR HK) as (k & Ek & Kk). rewrite Ek. cbn [obind]. eexists. split; [reflexivity|]. auto.
  - rewrite E. cbn [obind]. eauto.
Qed.
Lemma used_ok t : type_ok t = true -> type_used_kept t = true -> used_ty (to_arg (RArg None t)) = type_toks (type_used t).
Proof.
  intros _ Hk. destruct t as [n|lt m n|ns].
  - now apply kept_used.
  - cbn in *. now rewrite (proj1 kept_text).
  - now apply kept_used.
Qed.
(** The generated [from_json] reads exactly the fields without [ignore], in the order of the declaration, each from its key and with its type;
    the others get their default; its messages name the struct. *)
Theorem derived_reader_covers_the_declared_fields s : struct_ok s -> exists h ks ig name, derive_decode (struct_toks s) = Some (h, ks, ig, name) /\
  Forall2 (fun f k => snd (fst k) = rf_name f /\ (forall v, key_is f v <-> StringLit (fst (fst k)) v) /\
                      (type_used_kept (rf_type f) = true -> snd k = type_toks (type_used (rf_type f)))) (active s) ks /\
  ig = map rf_name (inactive s) /\ name = rs_name s.
Proof.
  intros H. unfold derive_decode. rewrite parse_struct_ok by auto. cbn [obind item_of_struct st_fields st_ident]. rewrite filter_active, all_some_map_eq, filter_inactive by now apply struct_fields_readable.
  destruct (all_some_forall2 (fun f => let! k := key_of (item_of_field f) in Some (34 :: k ++ [34], i_ident (item_of_field f), used_ty (i_ty (item_of_field f))))
    (fun f k => snd (fst k) = rf_name f /\ (forall v, key_is f v <-> StringLit (fst (fst k)) v) /\
                (type_used_kept (rf_type f) = true -> snd k = type_toks (type_used (rf_type f)))) (active s)) as (ks & E & K).
  - intros f Hf. destruct (active_ok s f H Hf) as [HR HK]. destruct (key_ok_iff f HR HK) as (k & Ek & Kk). rewrite Ek. cbn [obind]. eexists. split; [reflexivity|].
    split; [reflexivity|]. split; [exact Kk|]. cbn [snd item_of_field i_ty]. apply used_ok. destruct HR as (_ & _ & HT). unfold field_type_ok in HT.
    now apply andb_prop in HT as [HT _].
  - rewrite E. cbn [obind]. eexists _, _, _, _. split; [reflexivity|]. auto.
Qed.
Lemma both_headers s : struct_ok s ->
  exists ks ks' ig name, derive_encode (struct_toks s) = Some (header_of (item_of_struct s), ks) /\ derive_decode (struct_toks s) = Some (header_of (item_of_struct s), ks', ig, name).
Proof.
  intros H. pose proof (derived_writer_covers_the_declared_fields s H) as (h & ks & E1 & _).
  pose proof (derived_reader_covers_the_declared_fields s H) as (h' & ks' & ig & name & E2 & _).
  unfold derive_encode, derive_decode in *. rewrite parse_struct_ok in * by auto. cbn [obind item_of_struct st_fields] in *.
  destruct (all_some _ _) as [l1|] in E1 |- *; [|discriminate]. destruct (all_some _ _) as [l2|] in E2 |- *; [|discriminate]. cbn [obind] in *.
  eexists _, _, _, _. split; reflexivity.
Qed.
(** The header of the implementation repeats the declared parameters, bounds and conditions. *)
Theorem derived_header_repeats_the_parameters s : struct_ok s -> struct_kept s = true -> struct_plain s = true ->
  exists h ks ks' ig name, derive_encode (struct_toks s) = Some (h, ks) /\ derive_decode (struct_toks s) = Some (h, ks', ig, name) /\ header_is s h.
Proof.
  intros H Hk Hp. destruct (both_headers s H) as (ks & ks' & ig & name & E1 & E2). eexists _, _, _, _, _. split; [exact E1|]. split; [exact E2|]. now apply header_ok.
Qed.
(** In general constants become lifetimes and defaults are repeated. *)
Theorem derived_header_in_general s : struct_ok s -> struct_kept s = true ->
  exists h ks ks' ig name, derive_encode (struct_toks s) = Some (h, ks) /\ derive_decode (struct_toks s) = Some (h, ks', ig, name) /\ header_with param_out s h.
Proof.
  intros H Hk. destruct (both_headers s H) as (ks & ks' & ig & name & E1 & E2). eexists _, _, _, _, _. split; [exact E1|]. split; [exact E2|]. now apply header_made.
Qed.
Lemma sep_length c l : List.length (sep_by c l) = (list_sum (map (@List.length token) l) + (List.length l - 1))%nat.
Proof.
  induction l as [|a [|b l] IH]; [reflexivity|cbn; lia|]. change (sep_by c (a :: b :: l)) with (a ++ Punct c :: sep_by c (b :: l)).
  rewrite app_length. cbn [List.length] in *. rewrite IH. cbn [map list_sum fold_right List.length]. lia.
Qed.
Lemma same_lengths (f g : rparam -> list token) ps : (forall p, (List.length (g p) <= List.length (f p))%nat) -> angles (map f ps) = angles (map g ps) ->
  Forall (fun p => List.length (f p) = List.length (g p)) ps.
Proof.
  intros H E. apply (f_equal (@List.length token)) in E. unfold angles in E. cbn [List.length] in E. rewrite !app_length, !sep_length, !map_length, !map_map in E.
  assert (S : list_sum (map (fun p => List.length (f p)) ps) = list_sum (map (fun p => List.length (g p)) ps)) by lia. clear E.
  assert (L : forall ps, (list_sum (map (fun p => List.length (g p)) ps) <= list_sum (map (fun p => List.length (f p)) ps))%nat).
  { clear - H. induction ps as [|p ps IH]; [cbn; lia|]. cbn [map list_sum fold_right]. specialize (H p). unfold list_sum in IH. lia. }
  induction ps as [|p ps IH]; [constructor|]. cbn [map list_sum fold_right] in S. pose proof (H p) as Hp. pose proof (L ps) as Lp. unfold list_sum in Lp. constructor; [lia|].
  apply IH. unfold list_sum. lia.
Qed.
(** So a constant parameter or a default makes the header another one than it has to be. *)
Theorem constants_and_defaults_spoil_the_header s ps c h ks : struct_ok s -> struct_kept s = true -> rs_params s = Some (ps, c) -> forallb param_plain ps = false ->
  derive_encode (struct_toks s) = Some (h, ks) -> ~ header_is s h.
Proof.
  intros H Hk Hps Hp E M. destruct (derived_header_in_general s H Hk) as (h' & ks0 & ks' & ig & name & E1 & _ & (A & B & _)). rewrite E in E1. injection E1 as <- _.
  destruct M as (A' & B' & _). rewrite Hps in *. rewrite A' in A. rewrite B' in B. clear A' B' E. destruct ps as [|p0 ps0]; [discriminate|]. remember (p0 :: ps0) as l eqn:El. clear El.
  injection B as B. pose proof (same_lengths (fun p => param_arg (param_out p)) (fun p => param_arg (param_meant p)) l) as K1.
  pose proof (same_lengths (fun p => param_toks (param_out p)) (fun p => param_toks (param_meant p)) l) as K2.
  assert (K : Forall (fun p => rp_kind p <> KConst) l).
  { assert (X : angles (map (fun p => param_arg (param_out p)) l) = angles (map (fun p => param_arg (param_meant p)) l)) by (unfold angles; now rewrite B).
    eapply Forall_impl; [|apply K1; [|exact X]].
    - intros p Hl Hc. unfold param_arg, param_out, param_meant in Hl. cbn [rp_kind rp_name] in Hl. rewrite Hc in Hl. discriminate.
    - intros p. unfold param_arg, param_out, param_meant. cbn [rp_kind rp_name]. destruct (rp_kind p); cbn; lia. }
  assert (D : Forall (fun p => rp_default p = None) l).
  { eapply Forall_impl; [|apply K2; [|now symmetry]].
    - intros p Hl. unfold param_toks, param_out, param_meant, param_name, param_arg in Hl. cbn [rp_kind rp_name rp_bounds rp_default] in Hl. destruct (rp_default p); [|reflexivity].
      exfalso. destruct (rp_kind p); rewrite !app_length in Hl; cbn [List.length life] in Hl; lia.
    - intros p. unfold param_toks, param_out, param_meant, param_name, param_arg. cbn [rp_kind rp_name rp_bounds rp_default]. rewrite !app_length.
      destruct (rp_kind p), (rp_default p); cbn [List.length life]; lia. }
  apply not_true_iff_false in Hp. apply Hp. apply forallb_forall. intros p Hin. rewrite Forall_forall in K, D. unfold param_plain. rewrite (D p Hin). specialize (K p Hin).
  now destruct (rp_kind p).
Qed.

(** * For every sequence of tokens *)
(** Both macros accept the same declarations, and the keys and fields written are the ones read, in the same order. *)
Theorem both_macros_agree ts :
  (forall h ks, derive_encode ts = Some (h, ks) -> exists ds ig name, derive_decode ts = Some (h, ds, ig, name) /\ map fst ds = ks) /\
  (forall h ds ig name, derive_decode ts = Some (h, ds, ig, name) -> derive_encode ts = Some (h, map fst ds)).
Proof.
  unfold derive_encode, derive_decode. destruct (parse_struct_item ts) as [s|]; cbn [obind]; [|split; discriminate].
  destruct (st_fields s) as [|v|]; try (split; discriminate). generalize (filter (fun x => negb (ignored x)) v). intros l.
  assert (A : all_some (fun x => let! k := key_of x in Some (34 :: k ++ [34], i_ident x)) l =
              option_map (map fst) (all_some (fun x => let! k := key_of x in Some (34 :: k ++ [34], i_ident x, used_ty (i_ty x))) l)).
  { clear. induction l as [|x l IH]; [reflexivity|]. cbn [all_some]. destruct (key_of x); cbn [obind]; [|reflexivity]. rewrite IH. clear IH.
    destruct (all_some _ l); reflexivity. }
  rewrite A. clear A. destruct (all_some _ l) as [ds|]; cbn [option_map obind]; split; try discriminate.
  - intros h ks E. injection E as <- <-. eauto 6.
  - intros h ds' ig name E. injection E as <- <- <- <-. reflexivity.
Qed.

Definition suffix {A} (r l : list A) : Prop := exists a, l = a ++ r.
Lemma suffix_refl {A} (l : list A) : suffix l l. Proof. now exists []. Qed.
Lemma suffix_trans {A} (a b c : list A) : suffix a b -> suffix b c -> suffix a c.
Proof. intros [x ->] [y ->]. exists (y ++ x). now rewrite app_assoc. Qed.
Lemma suffix_skipn {A} n (l : list A) : suffix (skipn n l) l.
Proof. exists (firstn n l). now rewrite firstn_skipn. Qed.
Lemma suffix_cons {A} a (r l : list A) : suffix r l -> suffix r (a :: l).
Proof. intros [x ->]. now exists (a :: x). Qed.
Lemma suffix_skip_while {A} p (l : list A) : suffix (skip_while p l) l.
Proof. induction l as [|a l IH]; cbn; [apply suffix_refl|]. destruct (p a); [now apply suffix_cons|apply suffix_refl]. Qed.
Lemma eat_meta_suffix ts m r : eat_meta ts = Some (m, r) -> suffix r ts.
Proof.
  unfold eat_meta. destruct ts as [|t ts]; [intros E; injection E as _ <-; apply suffix_refl|]. destruct (is_punct 35 t).
  - destruct (parse_meta (t :: ts)); cbn [obind]; [|discriminate]. intros E. injection E as _ <-. apply suffix_skipn.
  - intros E. injection E as _ <-. apply suffix_refl.
Qed.
Lemma eat_vis_suffix ts : suffix (eat_vis ts) ts.
Proof.
  unfold eat_vis. destruct ts as [|t [|g r]]; try apply suffix_refl; destruct (is_ident "pub" t); try apply suffix_refl.
  - apply suffix_cons, suffix_refl.
  - destruct (is_group Paren g); [exists [t; g]|exists [t]]; reflexivity.
Qed.
Lemma parse_generics_suffix ts g r : parse_generics ts = Some (g, r) -> suffix r ts.
Proof.
  unfold parse_generics. destruct ts as [|t ts]; [intros E; injection E as _ <-; apply suffix_refl|]. destruct (is_punct 60 t).
  - destruct (generics_loop _ _ _ _) as [inner|]; cbn [obind]; [|discriminate]. destruct (parse_items inner); cbn [obind]; [|discriminate].
    intros E. injection E as _ <-. apply suffix_skipn.
  - intros E. injection E as _ <-. apply suffix_refl.
Qed.
Lemma parse_fields_brace ts l : parse_fields ts = Some (StructFields l) -> exists body after, suffix (Group Brace body :: after) ts /\ body <> [].
Proof.
  unfold parse_fields. destruct ts as [|t ts]; [discriminate|].
  pose proof (suffix_skip_while (fun t => negb (is_group Paren t || is_group Brace t || is_punct 59 t)) (t :: ts)) as S.
  destruct (skip_while _ (t :: ts)) as [|[| | |d g] r]; try discriminate. destruct d; try discriminate.
  - destruct (all_some _ _); discriminate.
  - intros E. exists g, r. split; auto. intros ->. discriminate.
Qed.
Lemma is_ident_eq w t : is_ident w t = true -> t = Ident (lit w).
Proof. destruct t; try discriminate. cbn. intros E. now apply str_eqb_eq in E as ->. Qed.
Lemma is_group_eq d t : is_group d t = true -> exists g, t = Group d g.
Proof. destruct t; try discriminate. cbn. destruct d, d0; try discriminate; eauto. Qed.
(** What is accepted is the declaration of a struct with a body of named fields: the word [struct], a name, and a body in braces that is not
    empty.  Enums, functions, tuple structs, unit structs and structs without fields are rejected. *)
Theorem only_structs_with_fields_are_accepted ts h ks : derive_encode ts = Some (h, ks) ->
  exists before name between body after, ts = before ++ Ident (lit "struct") :: Ident name :: between ++ Group Brace body :: after /\ body <> [].
Proof.
  unfold derive_encode. destruct (parse_struct_item ts) as [s|] eqn:E; cbn [obind]; [|discriminate]. destruct (st_fields s) as [|v|] eqn:F; try discriminate.
  intros _. unfold parse_struct_item in E. destruct (skip_while before_keyword ts) as [|kw0 ?]; [discriminate|]. destruct (is_ident "struct" kw0); [|discriminate].
  unfold parse_struct in E. destruct ts as [|t0 ts0]; [discriminate|]. set (ts := t0 :: ts0) in *. clearbody ts.
  destruct (eat_meta ts) as [[m r1]|] eqn:EM; cbn [obind snd] in E; [|discriminate]. apply eat_meta_suffix in EM.
  pose proof (eat_vis_suffix r1) as SV. destruct (eat_vis r1) as [|kw [|[id| | |] r]]; try discriminate.
  destruct (is_ident "struct" kw) eqn:EK; [|discriminate]. apply is_ident_eq in EK as ->.
  destruct (parse_generics r) as [[g rest]|] eqn:EG; cbn [obind snd fst] in E; [|discriminate]. apply parse_generics_suffix in EG.
  assert (G : forall body after, suffix (Group Brace body :: after) rest -> body <> [] ->
     exists before name between body after, ts = before ++ Ident (lit "struct") :: Ident name :: between ++ Group Brace body :: after /\ body <> []).
  { intros body after Hs Hb. destruct (suffix_trans _ _ _ Hs EG) as [x ->]. destruct (suffix_trans _ _ _ SV EM) as [y ->]. eauto 8. }
  destruct rest as [|t r']; [discriminate|]. destruct (is_ident "where" t).
  { destruct (parse_where (t :: r')) as [[w n]|]; cbn [obind snd fst] in E; [|discriminate].
    destruct (parse_fields (skipn n (t :: r'))) as [fs|] eqn:EF; cbn [obind] in E; [|discriminate]. injection E as <-. cbn in F. subst fs.
    apply parse_fields_brace in EF as (body & after & S & Hb). eapply G; [|exact Hb]. eapply suffix_trans; [exact S|apply suffix_skipn]. }
  destruct (is_punct 59 t). { injection E as <-. discriminate. }
  destruct (is_group Brace t).
  { destruct (parse_fields (t :: r')) as [fs|] eqn:EF; cbn [obind] in E; [|discriminate]. injection E as <-. cbn in F. subst fs.
    apply parse_fields_brace in EF as (body & after & S & Hb). eapply G; eauto. }
  destruct (is_group Paren t) eqn:EP; [|discriminate]. apply is_group_eq in EP as [gp ->].
  destruct (parse_fields [Group Paren gp]) as [fs|] eqn:EF; cbn [obind] in E; [|discriminate].
  assert (FF : exists l, fs = TupleFields l).
  { cbn [parse_fields skip_while is_group delim_eqb orb negb] in EF. destruct (all_some _ _) as [tl|]; [|discriminate]. injection EF as <-. eauto. }
  destruct FF as [tl ->]. destruct r' as [|u r'']; [discriminate|]. destruct (is_ident "where" u).
  - destruct (parse_where (u :: r'')) as [[w n]|]; cbn [obind fst] in E; [|discriminate]. injection E as <-. discriminate.
  - destruct (is_punct 59 u); [injection E as <-; discriminate|discriminate].
Qed.

(** * The structs of [Derive] *)
(** The list of fields [fs] describes the declaration [s]. *)
Definition describes (fs : list Derive.field) (s : rstruct) : Prop :=
  Forall2 (fun d f => rf_name d = f_ident f /\ is_ignored d = f_ignored f /\ (f_ignored f = false -> key_is d (f_key f))) (rs_fields s) fs.
(** The generated code is the one [Derive] is about: it writes and reads the same fields under the same keys, in the same order. *)
Theorem generated_code_is_for_the_described_fields s fs : struct_ok s -> describes fs s ->
  exists h ks ks' name,
    derive_encode (struct_toks s) = Some (h, ks) /\
    derive_decode (struct_toks s) = Some (h, ks', map f_ident (filter f_ignored fs), name) /\ name = rs_name s /\
    Forall2 (fun f k => snd k = f_ident f /\ StringLit (fst k) (f_key f)) (filter (fun f => negb (f_ignored f)) fs) ks /\
    Forall2 (fun f k => snd (fst k) = f_ident f /\ StringLit (fst (fst k)) (f_key f)) (filter (fun f => negb (f_ignored f)) fs) ks'.
Proof.
  intros H D. destruct (derived_writer_covers_the_declared_fields s H) as (h & ks & E & K).
  destruct (derived_reader_covers_the_declared_fields s H) as (h' & ks' & ig & name & E' & K' & -> & ->).
  assert (h' = h).
  { destruct (both_macros_agree (struct_toks s)) as [_ B]. rewrite (B _ _ _ _ E') in E. now injection E as -> _. }
  subst h'. exists h, ks, ks', (rs_name s).
  assert (I : map rf_name (inactive s) = map f_ident (filter f_ignored fs)).
  { unfold inactive. clear - D. unfold describes in D. induction D as [|d f ds fs (A & B & _) _ IH]; [reflexivity|]. cbn [filter]. rewrite B.
    destruct (f_ignored f); cbn [map]; now rewrite ?A, IH. }
  split; [exact E|]. split; [now rewrite <- I|]. split; [reflexivity|].
  assert (T : forall (B : Type) (P : rfield -> B -> Prop) (Q : Derive.field -> B -> Prop) l,
     (forall d f b, rf_name d = f_ident f -> key_is d (f_key f) -> P d b -> Q f b) ->
     Forall2 P (active s) l -> Forall2 Q (filter (fun f => negb (f_ignored f)) fs) l).
  { intros B P Q l PQ. unfold active. revert l. clear - D PQ. unfold describes in D. induction D as [|d f ds fs (A1 & A2 & A3) _ IH]; intros l HP.
    - inversion HP. constructor.
    - cbn [filter] in *. rewrite A2 in HP. destruct (f_ignored f) eqn:EI; cbn [negb] in *; auto. inversion HP; subst. constructor; eauto. }
  split.
  - eapply T; [|exact K]. intros d f k En Hk [Hn Hv]. split; [congruence|now apply Hv].
  - eapply T; [|exact K']. intros d f k En Hk (Hn & Hv & _). split; [congruence|now apply Hv].
Qed.

(** * What goes wrong *)
Definition path (id : string) (args : list rarg) : rname := RPath [] (lit id) args.
(** In a generic argument, a reference with a lifetime loses the space after it: [Vec<&'a u8>] becomes [Vec<&'au8>], which does not compile. *)
Theorem lifetimes_in_arguments_are_glued outer a id : reserved outer = false -> reserved id = false ->
  exists T, parse_type (type_toks (RName (RPath [] outer [RArg None (RRef (Some a) false (RPath [] id []))]))) = Some T /\
    used_ty T = type_toks (RName (RPath [] outer [RArg None (RRef None false (RLife (a ++ id)))])).
Proof. intros H1 H2. eexists. split; [apply parse_type_ok; cbn [type_ok name_ok arg_ok forallb]; now rewrite H1, H2|reflexivity]. Qed.
(** A named argument that is a reference has its mark before the name: [Item = &T] becomes [&Item = T]. *)
Theorem reference_marks_move_before_the_name outer x n : reserved outer = false -> reserved x = false -> type_ok (RRef None false n) = true -> name_kept n = true ->
  exists T, parse_type (type_toks (RName (RPath [] outer [RArg (Some x) (RRef None false n)]))) = Some T /\
    used_ty T = Ident outer :: Punct 60 :: Punct 38 :: Ident x :: Punct 61 :: name_toks n ++ [Punct 62].
Proof.
  intros H1 H2 H3 Hk. eexists. split; [apply parse_type_ok; cbn [type_ok name_ok arg_ok forallb] in *; now rewrite H1, H2, H3|].
  cbn. rewrite (proj1 kept_text) by auto. reflexivity.
Qed.
(** [struct S<T = u8, const N: usize> { x: u8 }] gives [impl<T = u8, 'N: usize> .. for S<T, 'N>], which does not compile. *)
Definition spoilt : rstruct := RStruct [] Private (lit "S")
  (Some ([RParam KType (lit "T") [] (Some (RName (path "u8" []))); RParam KConst (lit "N") [BName (path "usize" [])] None], false)) None
  [RField [] Private (lit "x") (RName (path "u8" []))] false.
Example spoilt_ok : struct_ok spoilt /\ struct_kept spoilt = true /\
  derive_encode (struct_toks spoilt) =
    Some (mkHeader [Punct 60; Ident (lit "T"); Punct 61; Ident (lit "u8"); Punct 44; Punct 39; Ident (lit "N"); Punct 58; Ident (lit "usize"); Punct 62]
                   [Ident (lit "S"); Punct 60; Ident (lit "T"); Punct 44; Punct 39; Ident (lit "N"); Punct 62] [],
          [(quoted (lit "x"), lit "x")]).
Proof.
  split; [|split; reflexivity]. split; [constructor|]. do 2 (split; [try exact I; reflexivity|]). split; [discriminate|].
  apply Forall_cons; [|constructor]. split; [split; [constructor|split; reflexivity]|]. intros _. split; cbv; intuition discriminate.
Qed.
(** The default of a constant parameter is no type, and is refused. *)
Theorem constant_defaults_are_refused name n ty raw body :
  derive_encode [Ident (lit "struct"); Ident name; Punct 60; Ident (lit "const"); Ident n; Punct 58; Ident ty; Punct 61; Literal raw; Punct 62; Group Brace body] = None.
Proof. reflexivity. Qed.
(** A key that ends with an escaped quote loses it, and the literal is broken: it ends with the backslash, so it is not closed. *)
Theorem keys_ending_in_a_quote_are_broken a : starts_with [34] a = false -> a <> [] ->
  exists s, parse_lit (Literal (quoted (a ++ [92; 34]))) = Some (LString s (quoted (a ++ [92; 34]))) /\ s = a ++ [92].
Proof.
  intros Ha Hne. exists (a ++ [92]). split; [|reflexivity]. unfold parse_lit.
  replace (fix_quotes byte_quotes (quoted (a ++ [92; 34]))) with (@None str) by reflexivity.
  cbn [fix_quotes string_quotes]. change (starts_with [34] (quoted (a ++ [92; 34]))) with true.
  replace (ends_with [34] (quoted (a ++ [92; 34]))) with true by (symmetry; apply (ends_with_snoc [34] (34 :: a ++ [92; 34]))). cbn [andb]. do 2 f_equal.
  unfold quoted. change (34 :: (a ++ [92; 34]) ++ [34]) with ([34] ++ (a ++ [92; 34]) ++ [34]). rewrite trim_once; [|destruct a; [easy|exact Ha]|discriminate].
  unfold trim_end_matches. rewrite !rev_app_distr. cbn [rev app]. unfold trim_start_matches. cbn [List.length trim_start starts_with N.eqb Pos.eqb andb skipn List.length].
  rewrite <- (rev_involutive (a ++ [92])), rev_app_distr. reflexivity.
Qed.
(** A raw key with a backslash changes its meaning: a backslash and an n give the key of one line feed. *)
Theorem raw_keys_with_backslashes_change : exists s, parse_lit (Literal (raw_quoted 0 [92; 110])) = Some (LString s (raw_quoted 0 [92; 110])) /\
  StringLit (raw_quoted 0 [92; 110]) [92; 110] /\ StringLit (quoted s) [10] /\ ~ StringLit (quoted s) [92; 110].
Proof.
  exists [92; 110]. split; [reflexivity|]. split; [|split].
  - apply sl_raw. intros ([|? [|? [|? ?]]] & b & E); discriminate.
  - apply sl_plain, (un_simple 110 10 []); [now left|constructor].
  - intros H. assert (StringLit (quoted [92; 110]) [10]) by (apply sl_plain, (un_simple 110 10 []); [now left|constructor]).
    now pose proof (string_literals_denote_one_string _ _ _ H H0).
Qed.
(** The raw literal of the letter r gives the empty key. *)
Theorem raw_key_r_is_lost : parse_lit (Literal (raw_quoted 0 (lit "r"))) = Some (LString [] (raw_quoted 0 (lit "r"))).
Proof. reflexivity. Qed.
(** A field with a raw identifier has the mark of the identifier in its key. *)
Theorem raw_identifiers_keep_their_mark :
  derive_encode [Ident (lit "struct"); Ident (lit "S"); Group Brace [Ident (lit "r#type"); Punct 58; Ident (lit "u8")]] =
    Some (mkHeader [] [Ident (lit "S")] [], [(quoted (lit "r#type"), lit "r#type")]).
Proof. reflexivity. Qed.
(** Without fields, the body of a struct is rejected. *)
Theorem empty_structs_are_rejected name : derive_encode [Ident (lit "struct"); Ident name; Group Brace []] = None.
Proof. reflexivity. Qed.

(** A key that is no string is refused by both macros. *)
Theorem keys_must_be_strings s f v rest : Forall attr_ok (rs_attrs s) ->
  match rs_params s with Some (ps, _) => forallb param_ok ps = true | None => True end ->
  match rs_where s with Some (ps, _) => forallb param_ok ps = true | None => True end ->
  Forall field_readable (rs_fields s) -> In f (active s) -> key_values f = v :: rest -> (forall n body, v <> Plain (KText false n body)) ->
  derive_encode (struct_toks s) = None /\ derive_decode (struct_toks s) = None.
Proof.
  intros Ha Hp Hw Hr Hf Hk Hv.
  assert (N : key_of (item_of_field f) = None).
  { apply filter_In in Hf as [Hf _]. rewrite Forall_forall in Hr. destruct (Hr f Hf) as (Hat & _). rewrite key_of_ok, Hk by auto.
    assert (Hfine : value_fine v).
    { assert (Hin : In v (key_values f)) by (rewrite Hk; now left). unfold key_values in Hin. apply in_flat_map in Hin as (a & Hain & Hin). rewrite Forall_forall in Hat.
      specialize (Hat a Hain). destruct a as [w|x|k c x|w d parts]; try contradiction. destruct (str_eqb k (lit "key")); [|contradiction]. destruct Hin as [-> |[]]. now inversion Hat. }
    pose proof (value_reads_ok v Hfine) as X. destruct v as [l|l]; destruct X as (x & E & R); rewrite E.
    - inversion R as [? ? [R1 R2]|]; subst. destruct l as [b|[|] n body|body|body|i fr y suf|letter ds suf].
      + specialize (R1 I). now inversion R1.
      + now destruct R2 as [s0 ->].
      + now elim (Hv n body).
      + now destruct R2 as [s0 ->].
      + specialize (R1 I). now inversion R1.
      + specialize (R1 I). now inversion R1.
      + specialize (R1 I). now inversion R1.
    - inversion R as [|? ? V]; subst. now inversion V. }
  assert (S : parse_struct_item (struct_toks s) = Some (item_of_struct s)).
  { apply parse_struct_readable; auto. intros E. unfold active in Hf. rewrite E in Hf. contradiction. }
  assert (D : derive_encode (struct_toks s) = None).
  { unfold derive_encode. rewrite S. cbn [obind item_of_struct st_fields]. rewrite filter_active, all_some_map_eq by auto.
    replace (all_some _ (active s)) with (@None (list (str * str))); [reflexivity|]. symmetry. clear - Hf N. induction (active s) as [|g l IH]; [contradiction|].
    cbn [all_some]. destruct Hf as [-> |Hf]; [rewrite N; reflexivity|]. destruct (key_of (item_of_field g)); [|reflexivity]. cbn [obind]. rewrite IH by auto. reflexivity. }
  split; [exact D|]. destruct (derive_decode (struct_toks s)) as [[[[h ds] ig] name]|] eqn:E; [|reflexivity]. apply both_macros_agree in E. congruence.
Qed.

(** * A declaration
[[
#[derive(JsonEncode, JsonDecode)]
/// An item
#[repr(align(8),)]
pub struct Item<'a, T: ?Sized + Clone + 'a,> where T: std::fmt::Debug + Into<Vec<u8>>, {
    #[key = id, then backslash and n, in quotes] pub _id: i32,
    pub(crate) f: Box<dyn Fn(u8) -> T + 'a>,
    #[ignore] #[doc(hidden)] #[key = 1] opt: Option<()>,
    r: &'a mut std::collections::HashMap<String, [T; 3]>,
}
]] *)
Lemma text_fine body : Body 34 body -> value_fine (Plain (KText false None body)).
Proof. intros H. split; [exact H|]. eexists. constructor. now constructor. Qed.
Ltac body := repeat (apply body_nil || (apply body_char; [discriminate|discriminate|]) || apply body_escape).
Definition item : rstruct := RStruct
  [WGroup (lit "derive") Paren [Some (WWord (lit "JsonEncode")); Some (WWord (lit "JsonDecode"))];
   WPair (lit "doc") false (Plain (KText false (Some 0%nat) [32; 65; 110; 32; 105; 116; 101; 109]));
   WGroup (lit "repr") Paren [Some (WGroup (lit "align") Paren [Some (WValue (Plain (KNum (lit "8") [] [] [])))]); None]]
  Public (lit "Item")
  (Some ([RParam KLife (lit "a") [] None; RParam KType (lit "T") [BMaybe; BName (path "Clone" []); BName (RLife (lit "a"))] None], true))
  (Some ([RParam KType (lit "T") [BName (RPath [lit "std"; lit "fmt"] (lit "Debug") []);
                                  BName (path "Into" [RArg None (RName (path "Vec" [RArg None (RName (path "u8" []))]))])] None], true))
  [RField [WPair (lit "key") false (Plain (KText false None [105; 100; 92; 110]))] Public (lit "_id") (RName (path "i32" []));
   RField [] (PublicIn [Ident (lit "crate")]) (lit "f")
     (RName (path "Box" [RArg None (RDyn [RFn (lit "Fn") [Ident (lit "u8")] (Some (path "T" [])); RLife (lit "a")])]));
   RField [WWord (lit "ignore"); WGroup (lit "doc") Paren [Some (WWord (lit "hidden"))]; WPair (lit "key") false (Plain (KNum (lit "1") [] [] []))]
     Private (lit "opt") (RName (path "Option" [RArg None (RName (RGroup true []))]));
   RField [] Private (lit "r") (RRef (Some (lit "a")) true (RPath [lit "std"; lit "collections"] (lit "HashMap")
     [RArg None (RName (path "String" [])); RArg None (RName (RGroup false [Ident (lit "T"); Punct 59; Literal (lit "3")]))]))]
  true.
Lemma word_ok w : str_eqb w (lit "true") = false -> str_eqb w (lit "false") = false -> attr_ok (WWord w).
Proof. intros H1 H2. constructor. intros [X|[X|[]]]; subst w; discriminate. Qed.
Lemma small_number_fine d : digit d -> value_fine (Plain (KNum [d] [] [] [])).
Proof.
  intros H. split.
  - split; [exists d, []; auto|]. split; [auto|]. split; [auto|now left].
  - eexists. constructor. apply (li_int [d] []); [auto|now left|]. unfold digit in H. cbn. lia.
Qed.
Lemma item_ok : struct_ok item.
Proof.
  split; [|split; [reflexivity|split; [reflexivity|split; [discriminate|]]]].
  - cbn [rs_attrs item]. repeat apply Forall_cons; [..|apply Forall_nil].
    + apply ok_group; [discriminate..|]. cbn [somes flat_map app]. repeat apply Forall_cons; [..|apply Forall_nil]; now apply word_ok.
    + apply ok_pair. split; [|eexists; constructor; now constructor; lia].
      cbn [lexical]. intros (a & b & E). assert (X : In 34 [32; 65; 110; 32; 105; 116; 101; 109]) by (rewrite E; apply in_or_app; right; now left). cbv in X. intuition discriminate.
    + apply ok_group; [discriminate..|]. cbn [somes flat_map app]. apply Forall_cons; [|apply Forall_nil]. apply ok_group; [discriminate..|]. cbn [somes flat_map app].
      apply Forall_cons; [|apply Forall_nil]. apply ok_value, small_number_fine. cbv; split; discriminate.
  - cbn [rs_fields item]. repeat apply Forall_cons; [..|apply Forall_nil]; (split; [split; [|split; reflexivity]|]); cbn [rf_attrs].
    + apply Forall_cons; [|apply Forall_nil]. apply ok_pair, text_fine. body.
    + intros _. left. exists [105; 100; 92; 110], [105; 100; 10]. split; [reflexivity|]. split.
      * apply un_char; [discriminate..|]. apply un_char; [discriminate..|]. apply (un_simple 110 10 []); [now left|constructor].
      * intros ([|? [|? [|? [|? [|? ?]]]]] & E); discriminate.
    + constructor.
    + intros _. split; cbv; intuition discriminate.
    + repeat apply Forall_cons; [..|apply Forall_nil].
      * now apply word_ok.
      * apply ok_group; [discriminate..|]. apply Forall_cons; [|apply Forall_nil]. now apply word_ok.
      * apply ok_pair, small_number_fine. cbv; split; discriminate.
    + discriminate.
    + constructor.
    + intros _. split; cbv; intuition discriminate.
Qed.
Example item_kept : struct_kept item = true /\ struct_plain item = true /\ forallb (fun f => type_used_kept (rf_type f)) (rs_fields item) = true.
Proof. repeat split; reflexivity. Qed.
Example item_encode : derive_encode (struct_toks item) = Some
  (mkHeader
    (Punct 60 :: life (lit "a") ++ [Punct 44; Ident (lit "T"); Punct 58; Ident (lit "Clone"); Punct 43] ++ life (lit "a") ++ [Punct 43; Punct 63; Ident (lit "Sized"); Punct 62])
    ([Ident (lit "Item"); Punct 60] ++ life (lit "a") ++ [Punct 44; Ident (lit "T"); Punct 62])
    [Ident (lit "where"); Ident (lit "T"); Punct 58; Ident (lit "std"); Punct 58; Punct 58; Ident (lit "fmt"); Punct 58; Punct 58; Ident (lit "Debug"); Punct 43;
     Ident (lit "Into"); Punct 60; Ident (lit "Vec"); Punct 60; Ident (lit "u8"); Punct 62; Punct 62],
   [(quoted [105; 100; 92; 110], lit "_id"); (quoted (lit "f"), lit "f"); (quoted (lit "r"), lit "r")]).
Proof. reflexivity. Qed.

(** [struct P { #[key = "k"] x: bool, #[ignore] y: bool }], as declared and as described in [Derive]. *)
Definition small : rstruct := RStruct [] Private (lit "P") None None
  [RField [WPair (lit "key") false (Plain (KText false None (lit "k")))] Private (lit "x") (RName (path "bool" []));
   RField [WWord (lit "ignore")] Private (lit "y") (RName (path "bool" []))] false.
Example small_described : struct_ok small /\
  describes [mkField (lit "x") (lit "k") false bool c_bool false; mkField (lit "y") (lit "y") true bool c_bool false] small.
Proof.
  split.
  - split; [constructor|]. do 2 (split; [exact I|]). split; [discriminate|].
    cbn [rs_fields small]. repeat apply Forall_cons; [..|apply Forall_nil]; (split; [split; [|split; reflexivity]|]); cbn [rf_attrs].
    + apply Forall_cons; [|apply Forall_nil]. apply ok_pair, text_fine. change (lit "k") with [107]. body.
    + intros _. left. exists (lit "k"), (lit "k"). split; [reflexivity|].
      split; [apply Unescape_plain; cbv; intuition discriminate|]. intros ([|? [|? ?]] & E); discriminate.
    + apply Forall_cons; [|apply Forall_nil]. now apply word_ok.
    + discriminate.
  - constructor; [|constructor; [|constructor]].
    + do 2 (split; [reflexivity|]). intros _. cbn. apply (sl_plain (lit "k")), Unescape_plain; cbv; intuition discriminate.
    + do 2 (split; [reflexivity|]). discriminate.
Qed.
(** [struct P { #[key = 1] x: bool }] is refused. *)
Definition bad_key : rstruct := RStruct [] Private (lit "P") None None
  [RField [WPair (lit "key") false (Plain (KNum (lit "1") [] [] []))] Private (lit "x") (RName (path "bool" []))] false.
Example bad_key_refused : derive_encode (struct_toks bad_key) = None /\ derive_decode (struct_toks bad_key) = None.
Proof.
  eapply (keys_must_be_strings bad_key); [constructor|exact I|exact I| |left; reflexivity|reflexivity|discriminate].
  cbn [rs_fields bad_key]. apply Forall_cons; [|apply Forall_nil]. split; [|split; reflexivity]. apply Forall_cons; [|apply Forall_nil]. apply ok_pair, small_number_fine. cbv; split; discriminate.
Qed.

(** Theorems about what the parse crate reads for structs, enums and functions, and about the texts it writes. *)
From Verif Require Import Base F64 Convert SpecGrammar SpecNumber SpecConvert DecProofs KeyProofs Tokens SpecAttr SpecTokens TokenProofs AttrProofs DeclProofs PropsTokens Items SpecItems ItemProofs.
Local Open Scope N_scope.

(** * Two compilers *)
(** One that writes a space between any two tokens, and one that writes none around punctuation and groups. *)
Definition no_blanks (s : str) : str := filter (fun c => negb (c =? 32)) s.
Definition bracket_of (d : delim) : str := match d with Paren => [40] | Brace => [123] | Bracket => [91] | NoDelim => [] end.
Definition end_of (d : delim) : str := match d with Paren => [41] | Brace => [125] | Bracket => [93] | NoDelim => [] end.
Fixpoint blank_join (l : list str) : str := match l with [] => [] | [a] => a | a :: r => a ++ 32 :: blank_join r end.
Fixpoint spaced_token (t : token) : str :=
  match t with Ident s => no_blanks s | Punct c => [c] | Literal raw => raw | Group d g => bracket_of d ++ blank_join (map spaced_token g) ++ end_of d end.
Definition spaced (ts : list token) : str := blank_join (map spaced_token ts).
Definition joined (ts : list token) : str := List.concat (map spaced_token ts).
Lemma word_has_no_blank w : In w fn_words -> ~ In 32 (lit w).
Proof. cbn. intuition subst; cbn in *; intuition discriminate. Qed.
Lemma no_blanks_ok s : ~ In 32 (no_blanks s).
Proof. intros H. apply filter_In in H as [_ H]. discriminate. Qed.
Lemma call_blank s : call_text s -> In 32 s.
Proof. intros (w & r & _ & ->). apply in_or_app. right. now left. Qed.
Lemma call_head s : call_text s -> exists c r, s = c :: r /\ (c = 70 \/ c = 102).
Proof. intros (w & r & H & ->). cbn in H. destruct H as [<-|[<-|[<-|[<-|[]]]]]; cbn; eauto. Qed.
Lemma spaced_compiler : compiler spaced /\ spaces_minus spaced /\ spaces_calls spaced.
Proof.
  split; [split|split].
  - reflexivity.
  - intros s H. now apply call_blank, no_blanks_ok in H.
  - intros d g [-> | ->] H; apply call_head in H as (c & r & E & H); cbn in E; injection E as <- _; intuition discriminate.
  - intros ds. reflexivity.
  - intros w ps r Hw. exists w. assert (E : no_blanks (lit w) = lit w) by (cbn in Hw; intuition subst; reflexivity).
    unfold spaced. cbn [map spaced_token bracket_of]. rewrite E. destruct (map spaced_token r) as [|x l]; eexists; (split; [exact Hw|reflexivity]).
Qed.
Lemma joined_compiler : compiler joined /\ joins_minus joined /\ joins_calls joined.
Proof.
  split; [split|split].
  - intros raw. apply app_nil_r.
  - intros s H. unfold joined in H. cbn in H. rewrite app_nil_r in H. now apply call_blank, no_blanks_ok in H.
  - intros d g [-> | ->] H; apply call_head in H as (c & r & E & H); cbn in E; injection E as <- _; intuition discriminate.
  - intros ds. unfold joined. cbn. now rewrite app_nil_r.
  - intros w ps r Hw (w' & rest & Hw' & H). assert (E : no_blanks (lit w) = lit w) by (cbn in Hw; intuition subst; reflexivity).
    unfold joined in H. cbn [map List.concat spaced_token bracket_of] in H. rewrite E in H.
    cbn in Hw, Hw'. intuition subst; discriminate.
Qed.

(** * C63: structs *)
Theorem structs_are_read_as_written render d : decl_ok d -> exists i, parse_whole render (decl_toks d) = Some (IStruct i) /\ decl_is d i.
Proof.
  intros H. exists (item_of_decl d). rewrite whole_struct, parse_decl_ok by auto. split; [reflexivity|now apply decl_is_ok].
Qed.
(** [#[doc = r"a"] pub(crate) struct P<'a, const N: u8, T: Sized + Clone + 'a + ?Sized = Vec<u8>,>(#[x(y)] pub &'a mut T, [u8; 4], Box<dyn Fn(u8) -> T>,) where T: Copy;] *)
Definition T_ : rname := RPath [] (lit "T") [].
Definition path0 (s : string) : rname := RPath [] (lit s) [].
Definition tuple_example : rdecl :=
  RDecl [WPair (lit "doc") false (Plain (KText false (Some 0%nat) [97]))] (PublicIn [Ident (lit "crate")]) (lit "P")
    (Some ([RParam KLife (lit "a") [] None; RParam KConst (lit "N") [BName (path0 "u8")] None;
           RParam KType (lit "T") [BSized; BName (path0 "Clone"); BName (RLife (lit "a")); BMaybe] (Some (RName (RPath [] (lit "Vec") [RArg None (RName (path0 "u8"))])))], true))
    (Some ([RParam KType (lit "T") [BName (path0 "Copy")] None], false))
    (BTuple [RTuple [WGroup (lit "x") Paren [Some (WWord (lit "y"))]] Public (RRef (Some (lit "a")) true T_);
             RTuple [] Private (RName (RGroup false [Ident (lit "u8"); Punct 59; Literal [52]]));
             RTuple [] Private (RName (RPath [] (lit "Box") [RArg None (RDyn [RFn (lit "Fn") [Ident (lit "u8")] (Some T_)])]))] true).
Lemma raw_fine n body : (n <= 2)%nat -> ~ In 34 body -> value_fine (Plain (KText false (Some n) body)).
Proof.
  intros Hn H. split; [|eexists; constructor; now constructor]. cbn [lexical]. intros (a & b & E). apply H. rewrite E. apply in_or_app. right. now left.
Qed.
Ltac attrs := repeat (apply Forall_nil || apply Forall_cons || (apply word_ok; reflexivity) || (apply ok_group; [discriminate|discriminate|]; cbn [somes flat_map app])).
Example tuple_example_ok : decl_ok tuple_example /\ decl_kept tuple_example = true /\ attrs_kept (decl_attrs tuple_example) = true /\
  parse_whole joined (decl_toks tuple_example) = Some (IStruct (item_of_decl tuple_example)) /\
  st_where (item_of_decl tuple_example) = Some [mkGeneric [Ident (lit "T")] [mkName [] [Ident (lit "Copy")] []] [] true None].
Proof.
  split.
  - split; [|split; [reflexivity|split; [reflexivity|split; [discriminate|]]]].
    + cbn [rd_attrs tuple_example]. attrs. apply ok_pair, raw_fine; [lia|cbv; intuition discriminate].
    + repeat apply Forall_cons; [..|apply Forall_nil]; (split; [|split; [reflexivity|exact I]]); cbn [rt_attrs]; attrs.
  - repeat split; vm_compute; reflexivity.
Qed.
Definition unit_example : rdecl := RDecl [] Public (lit "U") None (Some ([RParam KType (lit "u8") [BName (path0 "Copy")] None], true)) BUnit.
Example unit_example_ok : decl_ok unit_example /\ parse_whole joined (decl_toks unit_example) = Some (IStruct (item_of_decl unit_example)) /\ decl_kept unit_example = false.
Proof. split; [repeat split; constructor|split; vm_compute; reflexivity]. Qed.
(** Not read: empty bodies, and a public tuple among the fields of a tuple struct. *)
Lemma all_some_none {A B} (f : A -> option B) l a : In a l -> f a = None -> all_some f l = None.
Proof.
  induction l as [|x l IH]; [easy|]. intros [-> |H] E; cbn [all_some].
  - now rewrite E.
  - rewrite IH by auto. now destruct (f x).
Qed.
Definition empty_body (b : rbody) : bool := match b with BTuple [] _ | BNamed [] _ => true | _ => false end.
Definition public_tuple (b : rbody) : bool :=
  match b with BTuple l _ => existsb (fun t => match rt_vis t, rt_type t with Public, RName (RGroup true _) => true | _, _ => false end) l | _ => false end.
Lemma refused_body b rest : empty_body b = true \/ (public_tuple b = true /\ match b with BTuple l _ => Forall (fun t => Forall attr_ok (rt_attrs t)) l | _ => True end) ->
  parse_fields (body_toks b ++ rest) = None.
Proof.
  intros [H|[H HA]].
  - destruct b as [|[|] c|[|] c]; try discriminate H; destruct c; reflexivity.
  - destruct b as [|l c|]; try discriminate H. cbn [public_tuple] in H. apply existsb_exists in H as (t & Hin & Ht).
    cbn [body_toks app parse_fields skip_while is_group delim_eqb is_punct orb negb]. rewrite split_sep_end.
    + rewrite (all_some_none _ _ (tuple_toks t)); [reflexivity|now apply in_map|].
      destruct (rt_vis t) eqn:V; try discriminate. destruct (rt_type t) as [[| |[|] g|]| |] eqn:T; try discriminate.
      unfold parse_tuple_field, tuple_toks. rewrite V, T. cbn [vis_toks type_toks name_toks]. rewrite bind_nonempty by discriminate. cbn [app].
      rewrite Forall_forall in HA. rewrite eat_meta_ok'; [reflexivity|now apply HA|reflexivity].
    + repeat split; discriminate.
    + destruct c; auto.
    + now destruct l.
    + apply Forall_map, Forall_forall. intros f _. split; [apply tuple_toks_ne|]. apply (Flat_one [44]); [now left|apply tuple_flat].
Qed.
Theorem some_bodies_are_refused render d :
  Forall attr_ok (rd_attrs d) -> params_ok (rd_params d) -> params_ok (rd_where d) ->
  empty_body (rd_body d) = true \/ (public_tuple (rd_body d) = true /\ match rd_body d with BTuple l _ => Forall (fun t => Forall attr_ok (rt_attrs t)) l | _ => True end) ->
  parse_whole render (decl_toks d) = None.
Proof.
  intros Ha Hp Hw Hb. pose proof (refused_body _ [] Hb) as R. rewrite app_nil_r in R. rewrite whole_struct. unfold parse_struct, decl_toks. rewrite bind_nonempty by discriminate.
  cbn [app]. rewrite eat_meta_ok' by (auto; apply no_meta_vis). cbn [obind snd fst].
  set (tl := generics_toks (rd_params d) ++ _). destruct (vis_kw (rd_vis d) "struct" (Ident (rd_name d) :: tl)) as [-> ->]; [auto|].
  change (is_ident "struct" (Ident (lit "struct"))) with true. cbn iota. unfold tl. clear tl. destruct (rd_body d) as [|l c|l c] eqn:EB.
  - now destruct Hb as [Hb|[Hb _]].
  - rewrite parse_generics_end; [|auto|reflexivity]. cbn [obind snd fst]. cbn [body_toks app] in R |- *. cbn [is_ident is_punct is_group delim_eqb]. now rewrite R.
  - set (body := Group Brace (sep_by 44 (map field_toks l) ++ comma c)) in *. change (body_toks (BNamed l c)) with [body] in *.
    rewrite parse_generics_end; [|auto|destruct (rd_where d) as [[? ?]|]; reflexivity]. cbn [obind snd fst].
    pose proof (where_step (rd_where d) body [] Hw eq_refl) as W. destruct (rd_where d) as [[qs c']|].
    + destruct W as (n & W1 & W2). rewrite W1. cbn [obind snd fst]. rewrite W2, R. cbn [where_toks app]. change (is_ident "where" (Ident (lit "where"))) with true. reflexivity.
    + rewrite W, R. reflexivity.
Qed.
Example refused_bodies_examples :
  parse_whole joined (decl_toks (RDecl [] Private (lit "E") None None (BTuple [] false))) = None /\
  parse_whole joined (decl_toks (RDecl [] Private (lit "E") None None (BTuple [RTuple [] Public (RName (RGroup true [Ident (lit "u8")]))] false))) = None /\
  parse_whole joined (decl_toks (RDecl [] Private (lit "E") None None (BTuple [RTuple [] Private (RName (RGroup true [Ident (lit "u8")]))] false))) <> None.
Proof. repeat split; vm_compute; try reflexivity. discriminate. Qed.

(** * C64: enums *)
Theorem enums_are_read_as_written render e : compiler render -> renum_ok e -> (has_negative e = true -> joins_minus render) ->
  exists i, parse_whole render (renum_toks e) = Some (IEnum i) /\ renum_is e i.
Proof.
  intros C H Hm. exists (item_of_enum e). rewrite whole_enum, parse_enum_ok by auto. split; [reflexivity|now apply renum_is_ok].
Qed.
(** [#[derive(Debug)] pub enum E<T> where T: Copy { A, #[x] B(u8, pub T,), C { x: T }, D = 7, F(u8) = -003, }] *)
Definition enum_example : renum :=
  REnum [WGroup (lit "derive") Paren [Some (WWord (lit "Debug"))]] Public (lit "E") (Some ([RParam KType (lit "T") [] None], false)) (Some ([RParam KType (lit "T") [BName (path0 "Copy")] None], false))
    [RVariant [] (lit "A") BUnit None;
     RVariant [WWord (lit "x")] (lit "B") (BTuple [RTuple [] Private (RName (path0 "u8")); RTuple [] Public (RName T_)] true) None;
     RVariant [] (lit "C") (BNamed [RField [] Private (lit "x") (RName T_)] false) None;
     RVariant [] (lit "D") BUnit (Some (false, lit "7"));
     RVariant [] (lit "F") (BTuple [RTuple [] Private (RName (path0 "u8"))] false) (Some (true, lit "003"))] true.
Lemma lit_digits w : forallb (fun c => (48 <=? c) && (c <=? 57)) (lit w) = true -> Forall digit (lit w).
Proof. intros H. rewrite forallb_forall in H. apply Forall_forall. intros c Hc. apply H, andb_prop in Hc as [H1 H2]. unfold digit. lia. Qed.
Example enum_example_ok : renum_ok enum_example /\ enum_kept enum_example = true /\ attrs_kept (enum_attrs enum_example) = true /\ has_negative enum_example = true /\
  parse_whole joined (renum_toks enum_example) = Some (IEnum (item_of_enum enum_example)) /\
  map v_disc (e_values (item_of_enum enum_example)) = [None; None; None; Some 7%Z; Some (-3)%Z].
Proof.
  split.
  - unfold renum_ok. split; [cbn [re_attrs enum_example]; attrs|]. split; [reflexivity|]. split; [reflexivity|].
    split; [discriminate|]. cbn [re_variants enum_example].
    assert (VO : forall neg w, (1 <=? List.length (lit w))%nat && forallb (fun c => (48 <=? c) && (c <=? 57)) (lit w) = true ->
      (- 2 ^ 63 <= value_of_variant (neg, lit w) < 2 ^ 63)%Z -> value_ok (neg, lit w)).
    { intros neg w H1 H2. apply andb_prop in H1 as [H1 H3]. split; [cbn; destruct (lit w); [discriminate|easy]|]. split; [now apply lit_digits|auto]. }
    assert (TO : forall t, tuple_ok t -> Forall tuple_ok [t]) by auto.
    repeat (constructor; [|]); try constructor; cbn [rv_attrs rv_body rv_value]; try exact I; try (repeat constructor; fail); try discriminate;
      try (apply VO; [reflexivity|vm_compute; split; congruence]).
    all: try (repeat constructor; cbn; try discriminate; intuition discriminate).
  - repeat split; vm_compute; reflexivity.
Qed.
(** Compilers that write a space after the minus sign make every enum with a negative value an error. *)
Theorem negative_values_depend_on_the_compiler render e : renum_ok e -> has_negative e = true -> spaces_minus render ->
  parse_whole render (renum_toks e) = None.
Proof.
  intros (Ha & Hp & Hw & Hne & Hv) Hn S. rewrite whole_enum, parse_enum_with, variants_split by auto. unfold has_negative in Hn. apply existsb_exists in Hn as (v & Hin & Hn).
  rewrite (all_some_none _ _ (variant_toks v)); [reflexivity|now apply in_map|]. rewrite Forall_forall in Hv. destruct (Hv v Hin) as (A1 & A2 & A3).
  rewrite (parse_variant_with _ v None); auto. destruct (rv_value v) as [[[|] ds]|]; try discriminate. cbn [app]. rewrite S.
  destruct (read_int Isize (45 :: 32 :: ds)) as [n|] eqn:E; [|reflexivity]. exfalso. apply read_int_iff in E. destruct E as (d & D1 & D2 & D3 & D4).
  destruct D4 as [([D4|D4] & _)|(D4 & _)].
  - rewrite <- D4 in D2. inversion D2 as [|? ? X]; subst. unfold digit in X. lia.
  - discriminate.
  - injection D4 as D4. rewrite <- D4 in D2. inversion D2 as [|? ? X]; subst. unfold digit in X. lia.
Qed.
Example negative_example : parse_whole spaced (renum_toks enum_example) = None.
Proof. apply negative_values_depend_on_the_compiler; [apply enum_example_ok|reflexivity|apply spaced_compiler]. Qed.
(** Any other way of writing a value: it is read if and only if the compiler's text of it is that of a decimal [isize]. *)
Definition value_token (t : token) : bool := match t with Punct c => negb (existsb (N.eqb c) [44; 61; 60; 62]) | _ => true end.
Lemma value_whole s1 d inner : s1 = 44 \/ s1 = 61 -> forallb value_token d = true -> split_loop s1 None 0 inner d = [inner ++ d].
Proof.
  intros Hs. revert inner. induction d as [|t d IH]; intros inner H; [now rewrite app_nil_r|]. cbn [forallb] in H. apply andb_prop in H as [Ht H].
  assert (K : split_loop s1 None 0 (inner ++ [t]) d = [inner ++ t :: d]) by (rewrite IH by auto; now rewrite <- app_assoc).
  destruct t as [w|c|raw|dl g]; cbn [split_loop is_punct]; rewrite ?andb_false_r; auto. cbn in Ht. apply negb_true_iff in Ht.
  apply orb_false_iff in Ht as [H1 Ht]. apply orb_false_iff in Ht as [H2 Ht]. apply orb_false_iff in Ht as [H3 H4]. apply orb_false_iff in H4 as [H4 _]. rewrite H3, H4.
  replace (c =? s1) with false by (destruct Hs; subst; auto). rewrite andb_false_r. destruct (c =? 45); auto.
  destruct d as [|g d]; auto. cbn [forallb] in H. apply andb_prop in H as [Hg _].
  assert (G : is_punct 62 g = false). { destruct g as [|c'| |]; try reflexivity. cbn in Hg |- *. destruct (c' =? 62); [|reflexivity]. rewrite !orb_true_r in Hg. discriminate. }
  now rewrite G.
Qed.
Theorem values_are_texts_of_integers render name id d i : forallb value_token d = true -> d <> [] ->
  (parse_whole render [Ident (lit "enum"); Ident name; Group Brace (Ident id :: Punct 61 :: d)] = Some i <->
   exists n, int_text Isize (render d) n /\ i = IEnum (mkEnum None None name None None [mkVariant None id NoFields (Some n)])).
Proof.
  intros Hd Hne.
  assert (E : parse_whole render [Ident (lit "enum"); Ident name; Group Brace (Ident id :: Punct 61 :: d)] =
    option_map IEnum (let! vs := all_some (parse_variant render) (split_by 44 None (Ident id :: Punct 61 :: d)) in Some (mkEnum None None name None None vs))) by reflexivity.
  rewrite E. clear E.
  assert (S : split_by 44 None (Ident id :: Punct 61 :: d) = [Ident id :: Punct 61 :: d]).
  { unfold split_by. cbn [split_loop is_punct N.eqb Pos.eqb Z.eqb andb app]. now rewrite value_whole by auto. }
  rewrite S. cbn [all_some].
  assert (V : parse_variant render (Ident id :: Punct 61 :: d) = let! n := read_int Isize (render d) in Some (mkVariant None id NoFields (Some n))).
  { unfold parse_variant. assert (S2 : split_by 61 None (Ident id :: Punct 61 :: d) = [[Ident id]; d]).
    { unfold split_by. cbn [split_loop is_punct N.eqb Pos.eqb Z.eqb andb app]. destruct d as [|x d']; [easy|]. now rewrite value_whole by auto. }
    rewrite S2. now destruct (read_int Isize (render d)). }
  rewrite V. split.
  - destruct (read_int Isize (render d)) as [n|] eqn:R; [|discriminate]. apply read_int_iff in R. intros X. exists n. split; [exact R|]. cbn in X. congruence.
  - intros (n & R & ->). apply read_int_iff in R. now rewrite R.
Qed.
(** So hexadecimal values and values with a suffix are refused. *)
Example odd_values render name id : compiler render ->
  (forall i, parse_whole render [Ident (lit "enum"); Ident name; Group Brace [Ident id; Punct 61; Literal (lit "0x10")]] <> Some i) /\
  (forall i, parse_whole render [Ident (lit "enum"); Ident name; Group Brace [Ident id; Punct 61; Literal (lit "1u8")]] <> Some i) /\
  parse_whole render [Ident (lit "enum"); Ident name; Group Brace [Ident id; Punct 61; Literal (lit "010")]] = Some (IEnum (mkEnum None None name None None [mkVariant None id NoFields (Some 10%Z)])).
Proof.
  intros C. split; [|split].
  - intros i H. apply values_are_texts_of_integers in H as (n & R & _); [|reflexivity|discriminate]. rewrite (writes_literals _ C) in R. apply read_int_iff in R. now vm_compute in R.
  - intros i H. apply values_are_texts_of_integers in H as (n & R & _); [|reflexivity|discriminate]. rewrite (writes_literals _ C) in R. apply read_int_iff in R. now vm_compute in R.
  - apply values_are_texts_of_integers; [reflexivity|discriminate|]. exists 10%Z. split; [|reflexivity]. rewrite (writes_literals _ C). apply read_int_iff. reflexivity.
Qed.
Theorem empty_enums_are_refused render e : Forall attr_ok (re_attrs e) -> params_ok (re_params e) -> params_ok (re_where e) -> re_variants e = [] ->
  parse_whole render (renum_toks e) = None.
Proof.
  intros Ha Hp Hw Hv. rewrite whole_enum, parse_enum_with by auto. rewrite Hv. now destruct (re_comma e).
Qed.

(** * C65: functions *)
Theorem functions_are_read_as_written render f : compiler render -> fun_ok f ->
  (match rn_ret f with Some s => sig_calls s = true -> spaces_calls render | None => True end) ->
  exists i, parse_whole render (fun_toks f) = Some (IFn i) /\ fun_is f i.
Proof.
  intros C H Hc. exists (item_of_fun f). rewrite whole_fn, parse_fn_ok; auto.
  - split; [reflexivity|now apply fun_is_ok].
  - destruct (rn_ret f) as [s|]; auto. destruct (sig_calls s); auto.
Qed.
(** Compilers that write [Fn(u8)] without a space make such a result an error. *)
Theorem results_with_calls_depend_on_the_compiler render f s : compiler render -> fun_ok f -> rn_ret f = Some s -> sig_calls s = true -> joins_calls render ->
  parse_whole render (fun_toks f) = None.
Proof. intros C H Hs Hc J. now rewrite whole_fn, (parse_fn_calls render C f s). Qed.
(** [#[inline] pub const unsafe extern "C" fn go<T: Copy>(&mut self, x: Vec<std::string::String>, f: fn(u8) -> u8,) -> impl Iterator<Item = T> + 'static where T: Clone { x }] *)
Definition fn_example (ret : rsig) : rfn :=
  RFun [WWord (lit "inline")] Public false true true (Some (quoted (lit "C"))) (lit "go") (Some ([RParam KType (lit "T") [BName (path0 "Copy")] None], false))
    [ISelf (Some (None, true)); INamed (lit "x") (SType (RName (RPath [] (lit "Vec") [RArg None (RName (RPath [lit "std"; lit "string"] (lit "String") []))])));
     INamed (lit "f") (SType (RName (RFn (lit "fn") [Ident (lit "u8")] (Some (path0 "u8")))))] true (Some ret)
    (Some ([RParam KType (lit "T") [BName (path0 "Clone")] None], false)) [Ident (lit "x")].
Definition plain_ret : rsig := SImpl [RPath [lit "std"] (lit "Iterator") [RArg (Some (lit "Item")) (RName T_)]; RLife (lit "static")].
Definition call_ret : rsig := SType (RName (RPath [] (lit "Box") [RArg None (RDyn [RFn (lit "Fn") [Ident (lit "u8")] (Some T_)])])).
Lemma not_in_toks ts : forallb (fun t => negb (is_ident "where" t)) ts = true -> ~ In (Ident (lit "where")) ts.
Proof. intros H Hin. rewrite forallb_forall in H. now apply H in Hin. Qed.
Example fn_example_ok : fun_ok (fn_example plain_ret) /\ fun_ok (fn_example call_ret) /\ fun_kept (fn_example plain_ret) = true /\ attrs_kept (rn_attrs (fn_example plain_ret)) = true /\ sig_calls plain_ret = false /\ sig_calls call_ret = true /\
  parse_whole joined (fun_toks (fn_example plain_ret)) = Some (IFn (item_of_fun (fn_example plain_ret))) /\
  parse_whole joined (fun_toks (fn_example call_ret)) = None /\
  parse_whole spaced (fun_toks (fn_example call_ret)) = Some (IFn (item_of_fun (fn_example call_ret))).
Proof.
  assert (O : forall ret, sig_ok ret = true -> forallb (fun t => negb (is_ident "where" t)) (sig_toks ret) = true -> fun_ok (fn_example ret)).
  { intros ret H1 H2. repeat split; try reflexivity; try discriminate; auto using not_in_toks. cbn [rn_attrs fn_example]. attrs. }
  split; [apply O; reflexivity|]. split; [apply O; reflexivity|]. repeat split; vm_compute; reflexivity.
Qed.
(** Not read: functions without parameters, and paths in the type of a parameter. *)
Theorem functions_without_parameters_are_refused render f : Forall attr_ok (rn_attrs f) -> params_ok (rn_params f) -> rn_inputs f = [] ->
  parse_whole render (fun_toks f) = None.
Proof. intros Ha Hp Hi. rewrite whole_fn, parse_fn_with by auto. rewrite Hi. now destruct (rn_comma f). Qed.
Lemma split_colon inner a r : Passes 58 a -> split_loop 58 None 0 inner (a ++ Punct 58 :: r) = (inner ++ a) :: match r with [] => [] | _ => split_loop 58 None 0 [] r end.
Proof. intros P. rewrite P. reflexivity. Qed.
Lemma split_ne s1 s2 n inner ts : split_loop s1 s2 n inner ts <> [].
Proof.
  revert n inner. induction ts as [|t r IH]; intros n inner; [discriminate|]. cbn [split_loop].
  destruct (is_punct 45 t); [destruct r as [|g r']; [apply IH|]; destruct (is_punct 62 g); [|apply IH]|].
  - intros E. clear IH. revert n inner E. assert (K : forall k r' n inner, (List.length r' <= k)%nat -> split_loop s1 s2 n inner r' <> []).
    { clear. induction k as [|k IH]; intros [|t r] n inner L; try discriminate; cbn [List.length] in L; [lia|]. cbn [split_loop].
      destruct (is_punct 45 t); [destruct r as [|g r']; [apply IH; cbn; lia|]; destruct (is_punct 62 g); apply IH; cbn [List.length] in *; lia|].
      destruct (is_punct 60 t); [apply IH; lia|]. destruct (is_punct 62 t); [apply IH; lia|]. destruct ((n =? 0)%Z && is_punct s1 t); [|apply IH; lia].
      destruct s2 as [c|]; [|discriminate]. destruct r as [|u r']; [discriminate|]. destruct (is_punct c u); [discriminate|]. apply IH. lia. }
    intros n inner. apply (K _ _ _ _ (le_n _)).
  - destruct (is_punct 60 t); [apply IH|]. destruct (is_punct 62 t); [apply IH|]. destruct ((n =? 0)%Z && is_punct s1 t); [|apply IH].
    destruct s2 as [c|]; [|discriminate]. destruct r as [|u r']; [discriminate|]. destruct (is_punct c u); [discriminate|]. apply IH.
Qed.
(** The tokens of a signature up to the first path with a prefix in it. *)
Lemma prefix_cut n : has_prefix n = true -> exists p rest, name_toks n = Ident p :: Punct 58 :: Punct 58 :: rest /\ rest <> [].
Proof.
  destruct n as [|[|p pre] id args| |]; try discriminate. intros _. cbn [name_toks flat_map app]. eexists _, _. split; [reflexivity|]. apply app_ne. discriminate.
Qed.
Lemma names_cut ns : forallb name_ok ns = true -> forallb (fun n => negb (has_prefix n)) ns = false ->
  exists a p rest, sep_by 43 (map name_toks ns) = a ++ Ident p :: Punct 58 :: Punct 58 :: rest /\ rest <> [] /\ Passes 58 a.
Proof.
  induction ns as [|n ns IH]; [discriminate|]. cbn [forallb]. intros H Hp. apply andb_prop in H as [Hn H]. destruct (has_prefix n) eqn:E.
  - destruct (prefix_cut n E) as (p & rest & EN & NE). cbn [map]. rewrite EN. destruct ns as [|m ns]; cbn [map sep_by].
    + exists [], p, rest. repeat split; auto. apply Passes_nil.
    + exists [], p. eexists. cbn [app]. split; [reflexivity|]. split; [destruct rest; discriminate|apply Passes_nil].
  - cbn [negb andb] in Hp. destruct (IH H Hp) as (a & p & rest & E1 & NE & P). destruct ns as [|m ns]; [discriminate|].
    change (sep_by 43 (map name_toks (n :: m :: ns))) with (name_toks n ++ Punct 43 :: sep_by 43 (map name_toks (m :: ns))). rewrite E1.
    exists (name_toks n ++ Punct 43 :: a), p, rest. split; [now rewrite <- app_assoc|]. split; [auto|].
    apply Passes_app; [apply (Flat_passes (fun d => d =? 58)); [now apply name_flat58|reflexivity]|]. apply (Passes_app _ [_]); [now apply Passes_one|auto].
Qed.
Lemma sig_cut s : sig_ok s = true -> forallb (fun n => negb (has_prefix n)) (sig_names s) = false ->
  exists a p rest, sig_toks s = a ++ Ident p :: Punct 58 :: Punct 58 :: rest /\ rest <> [] /\ Passes 58 a.
Proof.
  assert (L : forall h ns, Passes 58 h -> forallb name_ok ns = true -> forallb (fun n => negb (has_prefix n)) ns = false ->
     exists a p rest, h ++ sep_by 43 (map name_toks ns) = a ++ Ident p :: Punct 58 :: Punct 58 :: rest /\ rest <> [] /\ Passes 58 a).
  { intros h ns Ph H Hp. destruct (names_cut ns H Hp) as (a & p & rest & -> & NE & P). exists (h ++ a), p, rest. rewrite <- app_assoc. repeat split; auto. now apply Passes_app. }
  destruct s as [[n|lt m n|ns]|ns]; cbn [sig_ok sig_toks sig_names type_toks]; intros H Hp.
  - apply andb_prop in H as [H _]. change (name_ok n = true) in H. apply (L [] [n]); [apply Passes_nil|cbn [forallb]; cbn [type_ok] in H; rewrite H; reflexivity|exact Hp].
  - apply andb_prop in H as [H _]. apply andb_prop in H as [H _]. change (name_ok n = true) in H.
    replace (Punct 38 :: match lt with Some a => life a | None => [] end ++ (if m then [Ident (lit "mut")] else []) ++ name_toks n)
      with ((Punct 38 :: match lt with Some a => life a | None => [] end ++ (if m then [Ident (lit "mut")] else [])) ++ sep_by 43 (map name_toks [n])) by (cbn; now rewrite <- app_assoc).
    apply L; [|cbn [forallb]; rewrite H; reflexivity|exact Hp]. apply (Flat_passes (fun d => d =? 58)); [|reflexivity]. apply fl_tok; [reflexivity..|].
    apply Flat_app; [destruct lt|destruct m]; cbn; flats.
  - apply andb_prop in H as [H _]. apply andb_prop in H as [H _]. apply (L [Ident (lit "dyn")] ns); auto. now apply Passes_one.
  - apply andb_prop in H as [H _]. apply (L [Ident (lit "impl")] ns); auto. now apply Passes_one.
Qed.
Theorem paths_in_parameter_types_are_refused render f x s : Forall attr_ok (rn_attrs f) -> params_ok (rn_params f) ->
  In (INamed x s) (rn_inputs f) -> sig_ok s = true -> existsb has_prefix (sig_names s) = true -> parse_whole render (fun_toks f) = None.
Proof.
  intros Ha Hp Hin Hs Hn. rewrite whole_fn, parse_fn_with by auto. cbn [parse_params]. rewrite split_sep_end.
  - rewrite (all_some_none _ _ (input_toks (INamed x s))); [reflexivity|now apply in_map|]. cbn [input_toks]. unfold parse_param.
    destruct (sig_cut s Hs) as (a & p & rest & -> & NE & P).
    { apply not_true_iff_false. intros E. rewrite forallb_forall in E. apply existsb_exists in Hn as (n & H1 & H2). apply E in H1. now rewrite H2 in H1. }
    unfold split_by. change (Ident x :: Punct 58 :: a ++ Ident p :: Punct 58 :: Punct 58 :: rest) with ([Ident x] ++ Punct 58 :: a ++ [Ident p] ++ Punct 58 :: Punct 58 :: rest).
    rewrite split_colon by now apply Passes_one. destruct (a ++ [Ident p] ++ Punct 58 :: Punct 58 :: rest) eqn:E; [now destruct a|]. rewrite <- E. clear E.
    rewrite (app_assoc a). rewrite split_colon by (apply Passes_app; [auto|now apply Passes_one]).
    pose proof (split_ne 58 None 0 [] (Punct 58 :: rest)) as NE2. destruct (split_loop 58 None 0 [] (Punct 58 :: rest)); [easy|]. reflexivity.
  - repeat split; discriminate.
  - destruct (rn_comma f); auto.
  - now destruct (rn_inputs f).
  - apply Forall_map, Forall_forall. intros i _. split; [apply input_toks_ne|]. apply (Flat_one [44]); [now left|apply input_flat].
Qed.
Example refused_functions :
  let f i := fun_toks (RFun [] Private false false false None (lit "f") None i false None None []) in
  parse_whole spaced (f []) = None /\ parse_whole spaced (f [INamed (lit "x") (SType (RName (RPath [lit "std"] (lit "X") [])))]) = None /\
  parse_whole spaced (f [INamed (lit "x") (SType (RName (RPath [] (lit "X") [])))]) <> None.
Proof. repeat split; vm_compute; try reflexivity. discriminate. Qed.
(** Read, but not as written: [extern fn] without the name of the ABI, and [mut x: T]. *)
Theorem bare_extern_is_forgotten render attrs v (a c u : bool) rest : Forall attr_ok attrs ->
  let start := flat_map attr_toks attrs ++ vis_toks v ++ word_if a "async" ++ word_if c "const" ++ word_if u "unsafe" in
  parse_whole render (start ++ Ident (lit "extern") :: Ident (lit "fn") :: rest) = parse_whole render (start ++ Ident (lit "fn") :: rest).
Proof.
  intros Ha. cbv zeta. rewrite <- !app_assoc. unfold parse_whole. rewrite !skip_attrs, !skip_vis.
  set (q r := word_if a "async" ++ word_if c "const" ++ word_if u "unsafe" ++ r).
  assert (K : forall r, skip_while before_keyword (word_if a "async" ++ word_if c "const" ++ word_if u "unsafe" ++ r) = skip_while before_keyword r) by (destruct a, c, u; reflexivity).
  rewrite !K. change (skip_while before_keyword (Ident (lit "extern") :: Ident (lit "fn") :: rest)) with (Ident (lit "fn") :: rest).
  change (skip_while before_keyword (Ident (lit "fn") :: rest)) with (Ident (lit "fn") :: rest). cbn iota.
  change (is_ident "struct" (Ident (lit "fn"))) with false. change (is_ident "enum" (Ident (lit "fn"))) with false. change (is_ident "fn" (Ident (lit "fn"))) with true. cbn iota. f_equal.
  unfold parse_fn. rewrite !bind_nonempty by (destruct a, c, u; discriminate).
  assert (H : forall w tl, w = "extern"%string \/ w = "fn"%string -> exists w' tl', word_if a "async" ++ word_if c "const" ++ word_if u "unsafe" ++ Ident (lit w) :: tl = Ident (lit w') :: tl' /\
    (w' = "struct"%string \/ w' = "enum"%string \/ w' = "fn"%string \/ w' = "async"%string \/ w' = "const"%string \/ w' = "unsafe"%string \/ w' = "extern"%string)).
  { intros w tl Hw. destruct a; [exists "async"%string; eexists; split; [reflexivity|auto 9]|]. destruct c; [exists "const"%string; eexists; split; [reflexivity|auto 9]|].
    destruct u; [exists "unsafe"%string; eexists; split; [reflexivity|auto 9]|]. exists w, tl. split; [reflexivity|]. intuition. }
  destruct (H "extern"%string (Ident (lit "fn") :: rest)) as (w1 & t1 & E1 & H1); [auto|]. destruct (H "fn"%string rest) as (w2 & t2 & E2 & H2); [auto|].
  rewrite (eat_meta_ok' attrs (vis_toks v ++ word_if a "async" ++ word_if c "const" ++ word_if u "unsafe" ++ Ident (lit "extern") :: Ident (lit "fn") :: rest)); [|auto|rewrite E1; apply no_meta_vis].
  rewrite (eat_meta_ok' attrs (vis_toks v ++ word_if a "async" ++ word_if c "const" ++ word_if u "unsafe" ++ Ident (lit "fn") :: rest)); [|auto|rewrite E2; apply no_meta_vis].
  cbn [obind fst snd]. destruct (vis_kw v w1 t1 H1) as [V1 V2]. destruct (vis_kw v w2 t2 H2) as [V3 V4].
  rewrite <- E1 in V1, V2. rewrite <- E2 in V3, V4. rewrite V1, V2, V3, V4. destruct a, c, u; reflexivity.
Qed.
Theorem mut_parameters_are_called_mut x s : sig_ok s = true -> forallb (fun n => negb (has_prefix n)) (sig_names s) = true ->
  parse_param (Ident (lit "mut") :: Ident x :: Punct 58 :: sig_toks s) = Some (mkParam (Some (lit "mut")) (sig_read s)).
Proof.
  intros H Hp. unfold parse_param.
  assert (SP : split_by 58 None (Ident (lit "mut") :: Ident x :: Punct 58 :: sig_toks s) = [[Ident (lit "mut"); Ident x]; sig_toks s]).
  { apply (split_sep 58 [[Ident (lit "mut"); Ident x]; sig_toks s]); [repeat split; discriminate|discriminate|].
    constructor; [split; [discriminate|flats]|]. constructor; [split; [apply sig_toks_ne|now apply sig_flat58]|constructor]. }
  rewrite SP. now rewrite parse_sig_ok.
Qed.
Example mut_example : let f := [Ident (lit "fn"); Ident (lit "f"); Group Paren [Ident (lit "mut"); Ident (lit "x"); Punct 58; Ident (lit "u8")]; Group Brace []] in
  exists i, parse_whole joined f = Some (IFn i) /\ item_text (IFn i) = [Ident (lit "fn"); Ident (lit "f"); Group Paren [Ident (lit "mut"); Punct 58; Ident (lit "u8")]; Group Brace []].
Proof. eexists. split; vm_compute; reflexivity. Qed.

(** * C66: the macros take structs with named fields only *)
Theorem macros_take_structs_with_named_fields render ts :
  (derive_encode ts <> None \/ derive_decode ts <> None) -> exists s l, parse_whole render ts = Some (IStruct s) /\ st_fields s = StructFields l.
Proof.
  intros H. assert (K : exists s l, parse_struct_item ts = Some s /\ st_fields s = StructFields l).
  { destruct H as [H|H]; [unfold derive_encode in H|unfold derive_decode in H]; destruct (parse_struct_item ts) as [s|]; try (now elim H); cbn [obind] in H;
      destruct (st_fields s) as [l|l|] eqn:E; try (now elim H); eauto. }
  destruct K as (s & l & E1 & E2). exists s, l. split; [|exact E2]. unfold parse_struct_item in E1. unfold parse_whole.
  destruct (skip_while before_keyword ts) as [|kw r]; [discriminate|]. destruct (is_ident "struct" kw); [|discriminate]. now rewrite E1.
Qed.
Corollary macros_refuse_enums e : derive_encode (renum_toks e) = None /\ derive_decode (renum_toks e) = None.
Proof.
  assert (K : parse_struct_item (renum_toks e) = None) by (unfold parse_struct_item, renum_toks; rewrite skip_attrs, skip_vis; reflexivity).
  unfold derive_encode, derive_decode. now rewrite K.
Qed.
Corollary macros_refuse_functions f : derive_encode (fun_toks f) = None /\ derive_decode (fun_toks f) = None.
Proof.
  assert (K : parse_struct_item (fun_toks f) = None).
  { unfold parse_struct_item. rewrite fun_toks_eq. rewrite skip_attrs, skip_vis. unfold quals. destruct (rn_async f), (rn_const f), (rn_unsafe f), (rn_abi f); reflexivity. }
  unfold derive_encode, derive_decode. now rewrite K.
Qed.
Corollary macros_refuse_other_structs d : decl_ok d -> match rd_body d with BNamed _ _ => False | _ => True end ->
  derive_encode (decl_toks d) = None /\ derive_decode (decl_toks d) = None.
Proof.
  intros H Hb. destruct (structs_are_read_as_written joined d H) as (i & P & I). destruct I as (_ & _ & _ & _ & _ & B).
  assert (N : forall l, st_fields i <> StructFields l) by (intros l E; rewrite E in B; destruct (rd_body d); contradiction).
  assert (K : (derive_encode (decl_toks d) <> None \/ derive_decode (decl_toks d) <> None) -> False).
  { intros X. destruct (macros_take_structs_with_named_fields joined _ X) as (s & l & E1 & E2). rewrite P in E1. injection E1 as <-. now apply N in E2. }
  destruct (derive_encode _), (derive_decode _); try (split; reflexivity); exfalso; apply K; first [left; discriminate|right; discriminate].
Qed.

(** * C67: texts *)
Theorem struct_texts_read_back render d : decl_ok d -> decl_kept d = true ->
  exists i, parse_whole render (decl_toks d) = Some (IStruct i) /\ item_text (IStruct i) = decl_toks (decl_out d) /\
    (attrs_kept (decl_attrs d) = true -> parse_whole render (item_text (IStruct i)) = Some (IStruct i)).
Proof.
  intros H K. exists (item_of_decl d). cbn [item_text]. rewrite decl_text by auto. rewrite !whole_struct, (parse_decl_ok d) by auto. do 2 (split; [reflexivity|]).
  intros KA. destruct (decl_out_ok d H KA) as [O1 O2]. rewrite parse_decl_ok by auto. now rewrite O2.
Qed.
Theorem enum_texts_read_back render e : compiler render -> renum_ok e -> enum_kept e = true -> (has_negative e = true -> joins_minus render) ->
  exists i e', parse_whole render (renum_toks e) = Some (IEnum i) /\ item_text (IEnum i) = renum_toks e' /\ enum_out e e' /\
    (attrs_kept (enum_attrs e) = true -> parse_whole render (item_text (IEnum i)) = Some (IEnum i)).
Proof.
  intros C H K Hm. exists (item_of_enum e), (enum_shown e). cbn [item_text]. rewrite enum_text_ok by auto. rewrite !whole_enum, (parse_enum_ok render C e) by auto.
  split; [reflexivity|]. split; [reflexivity|]. split; [now apply enum_shown_out|]. intros KA. destruct (enum_shown_ok e H KA) as (O1 & O2 & O4).
  rewrite parse_enum_ok by auto. now rewrite O2.
Qed.
Theorem function_texts_read_back render f : compiler render -> fun_ok f -> fun_kept f = true ->
  (match rn_ret f with Some s => sig_calls s = true -> spaces_calls render | None => True end) ->
  exists i, parse_whole render (fun_toks f) = Some (IFn i) /\ item_text (IFn i) = fun_toks (fun_out f) /\
    (attrs_kept (rn_attrs f) = true -> parse_whole render (item_text (IFn i)) = Some (IFn i)).
Proof.
  intros C H K Hc. exists (item_of_fun f). cbn [item_text]. rewrite fun_text by auto.
  assert (Hc' : match rn_ret f with Some s => spaces_calls render \/ sig_calls s = false | None => True end) by (destruct (rn_ret f) as [s|]; auto; destruct (sig_calls s); auto).
  rewrite !whole_fn, (parse_fn_ok render C f) by auto. do 2 (split; [reflexivity|]). intros KA. destruct (fun_out_ok f H KA) as [O1 O2].
  rewrite parse_fn_ok by auto. now rewrite O2.
Qed.
(** What is lost: the where clause of a unit struct, empty lists of parameters, the sign of a literal in an attribute, and the space of [&'a T]. *)
Example lost_in_text :
  let whole ts := match parse_whole joined ts with Some i => Some (item_text i) | None => None end in
  let sem := Punct 59 in
  whole [Ident (lit "struct"); Ident (lit "U"); Ident (lit "where"); Ident (lit "T"); Punct 58; Ident (lit "Copy"); sem] = Some [Ident (lit "struct"); Ident (lit "U"); sem] /\
  whole [Ident (lit "struct"); Ident (lit "U"); Punct 60; Punct 62; sem] = Some [Ident (lit "struct"); Ident (lit "U"); sem] /\
  whole [Punct 35; Group Bracket [Ident (lit "x"); Punct 61; Punct 45; Literal (lit "5")]; Ident (lit "struct"); Ident (lit "U"); sem] =
    Some [Punct 35; Group Bracket [Ident (lit "x"); Punct 61; Literal (lit "5")]; Ident (lit "struct"); Ident (lit "U"); sem] /\
  whole [Ident (lit "struct"); Ident (lit "U"); Group Paren [Punct 38; Punct 39; Ident (lit "a"); Ident (lit "str")]; sem] =
    Some [Ident (lit "struct"); Ident (lit "U"); Group Paren [Punct 38; Punct 39; Ident (lit "astr")]; sem].
Proof. repeat split; vm_compute; reflexivity. Qed.
(** The text of a unit struct never has the clause. *)
Theorem where_clause_of_a_unit_struct_is_lost d : decl_ok d -> rd_body d = BUnit -> params_kept (rd_params d) = true ->
  exists i, parse_struct (decl_toks d) = Some i /\ st_where i = generics_read (rd_where d) /\
    item_text (IStruct i) = decl_toks (decl_out (RDecl (rd_attrs d) (rd_vis d) (rd_name d) (rd_params d) None BUnit)).
Proof.
  intros H Hb K. exists (item_of_decl d). split; [now apply parse_decl_ok|]. split; [reflexivity|]. destruct H as (Ha & Hp & Hw & _).
  rewrite <- decl_text; [|repeat split; auto|unfold decl_kept; cbn; now rewrite K]. cbn [item_text]. unfold struct_text, item_of_decl. cbn [st_meta st_vis st_ident st_generics st_where st_fields rd_attrs rd_vis rd_name rd_params rd_where rd_body].
  rewrite Hb. reflexivity.
Qed.

(** Attributes: what they are read as, their texts, and how their parts are found. *)
From Verif Require Import Base F64 Json Convert SpecGrammar SpecLenient SpecNumber DecProofs SpecConvert KeyProofs NumberProofs Tokens SpecAttr SpecTokens TokenProofs AttrProofs DeclProofs Items Meta SpecMeta MetaProofs.
From Coq Require Import Reals Floats.SpecFloat.
Local Open Scope N_scope.

(** * C68 literals *)
(** Every literal of the Rust language is read as what it says, or refused. *)
Theorem literals_read_as_written l v : lexical l -> clear l -> (parse_lit (literal_tok l) = Some v <-> literal_is l v).
Proof. apply literal_read. Qed.
(** Refused: characters, other bases than ten, raw texts with more than two hashes, numbers with underscores, and integers beyond [i32] that have
    a suffix. *)
Theorem literals_refused :
  (forall body, lexical (KChar body) -> parse_lit (literal_tok (KChar body)) = None) /\
  (forall letter ds suffix, lexical (KRadix letter ds suffix) -> parse_lit (literal_tok (KRadix letter ds suffix)) = None) /\
  (forall bytes n body, (2 < n)%nat -> lexical (KText bytes (Some n) body) -> clear (KText bytes (Some n) body) -> parse_lit (literal_tok (KText bytes (Some n) body)) = None) /\
  (forall i fr x suffix, lexical (KNum i fr x suffix) -> In 95 (written (KNum i fr x suffix)) -> parse_lit (literal_tok (KNum i fr x suffix)) = None) /\
  (forall i suffix, lexical (KNum i [] [] suffix) -> In suffix int_suffixes -> 2147483647 < decimal i -> parse_lit (literal_tok (KNum i [] [] suffix)) = None).
Proof.
  assert (R : forall l, lexical l -> clear l -> (forall v, ~ literal_is l v) -> parse_lit (literal_tok l) = None).
  { intros l H1 H2 H3. destruct (parse_lit (literal_tok l)) as [v|] eqn:E; auto. apply literal_read in E; auto. now apply H3 in E. }
  repeat split.
  - intros body H. apply R; cbn; auto. intros v X. inversion X.
  - intros letter ds suffix H. apply R; cbn; auto. intros v X. inversion X.
  - intros bytes n body Hn H1 H2. apply R; auto. intros v X. inversion X; lia.
  - intros i fr x suffix H Hin. apply R; cbn [clear]; auto. intros v X.
    assert (S : forall s, In s ([] :: int_suffixes ++ float_suffixes) -> ~ In 95 s).
    { intros s Hs C. apply suffix_cases in Hs as [-> |[(y & -> & Hy)|(y & -> & Hy)]]; [easy| |]; cbn in Hy; repeat destruct Hy as [<-|Hy]; try contradiction;
        vm_compute in C; repeat destruct C as [C|C]; try discriminate; contradiction. }
    assert (D : forall s, Forall digit s -> ~ In 95 s) by (intros s Hs C; rewrite Forall_forall in Hs; apply Hs in C; unfold digit in C; lia).
    assert (E : forall s e, Exp s e -> ~ In 95 s).
    { intros s e He C. assert (X1 : forall ds, Forall digit ds -> ~ In 95 ds) by auto. inversion He; subst; cbn in C; intuition; eauto; lia. }
    cbn [written] in Hin. destruct H as (_ & _ & _ & Hs). rewrite !in_app_iff in Hin. inversion X as [| | | |? ? Hd| ? ? fd ? xe ? ? Hd Hf Hx]; subst.
    + destruct Hin as [Hin|[[]|[[]|Hin]]]; [now apply (D i)|now apply (S suffix)].
    + destruct Hin as [Hin|[Hin|[Hin|Hin]]]; [now apply (D i)| |now apply (E x xe)|now apply (S suffix)]. inversion Hf; subst; [easy|]. destruct Hin as [Hin|Hin]; [discriminate|].
      now apply (D fd).
  - intros i suffix H Hs Hd. apply R; cbn [clear]; auto. intros v X. inversion X as [| | | |? ? _ _ Hle|? ? fd ? xe ? ? _ _ _ Hf]; subst; [lia|].
    apply in_map_iff in Hs as (y & <- & Hy). now apply int_not_float in Hf.
Qed.
(** A whole number beyond [i32] without a suffix is a float; one within it is an integer. *)
Theorem whole_numbers i : lexical (KNum i [] [] []) -> Forall digit i ->
  (decimal i <= 2147483647 -> parse_lit (literal_tok (KNum i [] [] [])) = Some (LInteger (Z.of_N (decimal i)) i)) /\
  (2147483647 < decimal i -> exists f, parse_lit (literal_tok (KNum i [] [] [])) = Some (LFloat f i) /\ rounds_to 53 1024 false (decimal_real false (decimal i) 0) f).
Proof.
  intros H Hd. assert (Ei : written (KNum i [] [] []) = i) by (cbn [written]; now rewrite !app_nil_r). split; intros Hle.
  - apply literal_read; cbn [clear]; auto. pose proof (li_int i [] Hd (or_introl eq_refl) Hle) as X. now rewrite Ei in X.
  - exists (dec_to_f64 false (decimal i) 0). assert (R : rounds_to 53 1024 false (decimal_real false (decimal i) 0) (dec_to_f64 false (decimal i) 0)) by apply dec_to_f64_rounds.
    split; [|exact R]. apply literal_read; cbn [clear]; auto.
    pose proof (li_float i [] [] [] 0 [] (dec_to_f64 false (decimal i) 0) Hd lax_frac_none exp_none (or_introl eq_refl)) as X. rewrite Ei, app_nil_r in X. apply X; [|exact R]. lia.
Qed.
(** Not [clear]: a text that consists of its own opening mark is lost, and a closing mark at the end of the text is. *)
Theorem unclear_texts_are_cut :
  parse_lit (literal_tok (KByte (lit "b"))) = Some (LBytes [] (lit "b'b'")) /\
  parse_lit (literal_tok (KText true None (lit "b"))) = Some (LBytes [] (written (KText true None (lit "b")))) /\
  parse_lit (literal_tok (KByte [92; 39])) = Some (LBytes [92] (lit "b'\''")) /\
  (forall body : str, Body 34 body -> body <> [] -> parse_lit (literal_tok (KText false None (body ++ [92; 34]))) =
    Some (LString (body ++ [92]) (written (KText false None (body ++ [92; 34]))))).
Proof.
  repeat split; try reflexivity. intros body Hb Hne. cbn [literal_tok]. set (w := written _). cbn [parse_lit].
  assert (Ew : w = 34 :: body ++ [92; 34; 34]) by (unfold w; cbn; now rewrite <- app_assoc).
  replace (fix_quotes byte_quotes w) with (@None str) by (rewrite Ew; reflexivity).
  assert (F : fix_quotes string_quotes w = Some (body ++ [92])).
  { cbn [fix_quotes string_quotes]. replace (starts_with [34] w) with true by (rewrite Ew; reflexivity).
    replace (ends_with [34] w) with true by (rewrite Ew; symmetry; apply ends_iff; exists (34 :: body ++ [92; 34]); cbn; now rewrite <- app_assoc). cbn [andb]. f_equal.
    replace w with ([34] ++ body ++ [92; 34; 34]) by now rewrite Ew. rewrite trim_once; [|destruct Hb; [easy|apply starts_other; congruence|reflexivity]|discriminate].
    unfold trim_end_matches. rewrite rev_app_distr. cbn [rev app]. unfold trim_start_matches. cbn [List.length trim_start starts_with N.eqb Pos.eqb andb skipn].
    cbn [rev]. now rewrite rev_involutive. }
  now rewrite F.
Qed.
(** The accessors give the value of the kind they are named after, and nothing for the others. *)
Theorem literal_accessors v :
  (forall s, lit_bytes v = Some s <-> exists raw, v = LBytes s raw) /\ (forall s, lit_string v = Some s <-> exists raw, v = LString s raw) /\
  (forall n, lit_integer v = Some n <-> exists raw, v = LInteger n raw) /\ (forall f, lit_float v = Some f <-> exists raw, v = LFloat f raw) /\
  (forall b, lit_boolean v = Some b <-> exists raw, v = LBoolean b raw).
Proof.
  repeat split; destruct v; cbn; try discriminate; try (intros [= ->]; eauto; fail); try (intros [? [=]]; subst; reflexivity).
Qed.
(** Beside them: the literals of this list, with what is read for them. *)
Example literals_read_case : forall l v, In (l, v)
  [(KText false (Some 1%nat) (lit "a""b"), LString (lit "a""b") (lit "r#""a""b""#")); (KText true None (lit "x\""y"), LBytes (lit "x\""y") (lit "b""x\""y"""));
   (KNum (lit "127") [] [] (lit "i128"), LInteger 127 (lit "127i128")); (KNum (lit "1") (lit ".50") (lit "e+2") (lit "f32"), LFloat (dec_to_f64 false 150 0) (lit "1.50e+2f32"));
   (KBool true, LBoolean true (lit "true"))] -> lexical l /\ clear l /\ parse_lit (literal_tok l) = Some v.
Proof.
  assert (B : forall p a b, starts_with p (a ++ b) = false -> ~ exists r, a ++ b = p ++ r).
  { intros p a b H [r X]. rewrite X, starts_with_app in H. discriminate. }
  assert (Bn : forall p a, ends_with p a = false -> ~ exists r, a = r ++ p).
  { intros p a H X. apply ends_iff in X. congruence. }
  intros l v H. repeat destruct H as [H|H]; try contradiction; injection H as <- <-; (split; [|split; [|vm_compute; reflexivity]]).
  - intros (a & b & E). assert (X : existsb (fun i => starts_with [34; 35] (skipn i (lit "a""b"))) (seq 0 4) = false) by reflexivity.
    rewrite <- not_true_iff_false in X. apply X. apply existsb_exists. exists (List.length a). rewrite E. split.
    + apply in_seq. apply (f_equal (@List.length N)) in E. rewrite app_length in E. vm_compute in E. vm_compute. destruct a as [|? [|? [|? [|]]]]; cbn in *; lia.
    + rewrite skipn_app, skipn_all, Nat.sub_diag. apply starts_iff. now exists b.
  - right. split; [apply B|apply Bn]; reflexivity.
  - change (Body 34 [120; 92; 34; 121]). apply body_char; [discriminate..|]. apply body_escape. apply body_char; [discriminate..|]. constructor.
  - right. split; [apply B|apply Bn]; reflexivity.
  - repeat split; try (left; reflexivity).
    + exists 49, (lit "27"). repeat split; try (vm_compute; discriminate). repeat constructor; vm_compute; discriminate.
    + vm_compute. tauto.
  - exact I.
  - repeat split.
    + exists 49, []. repeat split; try (vm_compute; discriminate). constructor.
    + right. right. exists 53, [48]. repeat split; try (vm_compute; discriminate). repeat constructor; vm_compute; discriminate.
    + right. exists 101, [43], [50]. repeat split; try discriminate; auto; [right; now left|]. repeat constructor; vm_compute; discriminate.
    + vm_compute. tauto.
  - exact I.
  - exact I.
  - exact I.
Qed.

(** * C69 attributes *)
(** The inside of an attribute is read exactly if it is a word, a value, a pair or a group, and then as what was written. *)
Theorem attributes_read_exactly ts i : clear_literals ts ->
  (parse_meta_item ts = Some i <-> exists m, meta_good m /\ meta_toks m = ts /\ item_is m i).
Proof.
  intros Hl. split.
  - intros H. destruct (only_items _ _ _ Hl H) as (m & Hm & <-). exists m. repeat split; auto. now apply item_read.
  - intros (m & Hm & <- & H). now apply item_read.
Qed.
(** ..., and there is only one way to take it. *)
Theorem attributes_mean_one_thing m m' i i' : meta_good m -> meta_good m' -> meta_toks m = meta_toks m' -> item_is m i -> item_is m' i' -> i = i'.
Proof. intros H H' E I I'. apply item_read in I, I'; auto. congruence. Qed.
(** The attributes in front of a declaration, of which there are any, are read one by one. *)
Theorem attribute_lists_read ms rest l : ms <> [] -> Forall meta_good ms -> match rest with Punct 35 :: _ | Group Bracket _ :: _ => False | _ => True end ->
  (parse_meta (flat_map attr_toks ms ++ rest) = Some l <-> Forall2 item_is ms l).
Proof.
  intros H1 H2 H3. apply parse_meta_outer; auto. unfold no_meta. destruct rest as [|[s|c|raw|d ts] rest]; auto.
  - unfold meta_token. cbn [is_punct is_group]. destruct (N.eqb_spec c 35) as [-> |]; [contradiction|reflexivity].
  - destruct d; auto. contradiction.
Qed.
(** [Meta::parse] looks for the first attribute: what stands before it is passed over; where there is none it gives none, and it refuses to read an empty input. *)
Theorem attributes_are_looked_for pre ms rest l : (forall t, In t pre -> match t with Punct 35 | Group Bracket _ => False | _ => True end) ->
  Forall meta_good ms -> match rest with Punct 35 :: _ | Group Bracket _ :: _ => False | _ => True end ->
  (ms = [] -> rest = []) -> pre ++ ms_toks ms <> [] ->
  (parse_meta (pre ++ ms_toks ms ++ rest) = Some l <-> Forall2 item_is ms l).
Proof.
  intros Hp Hg Hr Hm Hne.
  assert (P : Forall (fun t => meta_token t = false) pre).
  { apply Forall_forall. intros t Ht. apply Hp in Ht. unfold meta_token. destruct t as [s|c|raw|d ts]; auto; cbn [is_punct is_group].
    - destruct (N.eqb_spec c 35) as [-> |]; [contradiction|reflexivity].
    - destruct d; auto. contradiction. }
  destruct ms as [|m ms].
  - rewrite (Hm eq_refl). cbn [ms_toks flat_map app] in *. rewrite app_nil_r in *. unfold parse_meta.
    assert (S : skip_while (fun t => negb (meta_token t)) pre = []) by (clear - P; induction P as [|t pre E _ IH]; [reflexivity|]; cbn; now rewrite E).
    rewrite S. destruct pre; [easy|]. cbn. split; [intros [= <-]; constructor|inversion 1; reflexivity].
  - rewrite <- attribute_lists_read with (rest := rest) by (auto; discriminate). fold (ms_toks (m :: ms)).
    assert (S : skip_while (fun t => negb (meta_token t)) (pre ++ ms_toks (m :: ms) ++ rest) = ms_toks (m :: ms) ++ rest).
    { clear - P. induction P as [|t pre E _ IH]; [reflexivity|]. cbn [app skip_while]. now rewrite E. }
    unfold parse_meta. rewrite S. change (skip_while (fun t => negb (meta_token t)) (ms_toks (m :: ms) ++ rest)) with (ms_toks (m :: ms) ++ rest).
    destruct (pre ++ ms_toks (m :: ms) ++ rest) eqn:E; [apply app_eq_nil in E as [_ E]; discriminate|reflexivity].
Qed.
Theorem no_tokens_are_refused : parse_meta [] = None.
Proof. reflexivity. Qed.
(** The readers of the items and [__token_num]: two tokens for each attribute. *)
Theorem item_accessors i :
  (forall w, item_ident i = Some w <-> i = MIdent w) /\ (forall l, item_literal i = Some l <-> i = MLiteral l) /\
  (forall k l, item_pair i = Some (k, l) <-> exists e, i = MPair k l e) /\ (forall w l, item_group i = Some (w, l) <-> i = MGroup w l).
Proof.
  repeat split; destruct i; cbn; try discriminate; try (intros [= -> ->]; eauto; fail); try (intros [= ->]; eauto; fail); intros [? [=]]; subst; reflexivity.
Qed.
Theorem attributes_token_num ms rest l : ms <> [] -> Forall meta_good ms -> match rest with Punct 35 :: _ | Group Bracket _ :: _ => False | _ => True end ->
  parse_meta (flat_map attr_toks ms ++ rest) = Some l -> skipn (meta_token_num l) (flat_map attr_toks ms ++ rest) = rest.
Proof.
  intros H1 H2 H3 H. apply attribute_lists_read in H; auto. unfold meta_token_num. rewrite <- (Forall2_len _ _ _ H). clear.
  induction ms as [|m ms IH]; [reflexivity|]. cbn [List.length]. replace (S (List.length ms) * 2)%nat with (S (S (List.length ms * 2))) by lia.
  cbn [flat_map attr_toks app skipn]. exact IH.
Qed.

(** * C70 texts *)
(** The text of what was read is what was written, but with round brackets, without stray commas and without minus signs. *)
Theorem attribute_text m i : item_is m i -> meta_item_text i = meta_toks (meta_out m).
Proof. apply item_text. Qed.
(** If there is no minus sign and no group without items the text is read as the same attribute. *)
Theorem attribute_text_reads_back m i : meta_good m -> steady m = true -> item_is m i -> parse_meta_item (meta_item_text i) = Some i.
Proof. intros Hg Hs H. rewrite (item_text m i H). apply item_read; [now apply good_out|]. now apply steady_out. Qed.
(** A minus sign is lost: the text is that of the number without it, and a group with commas only becomes one that is refused. *)
Theorem attribute_text_changes :
  (forall l v, item_is (WValue (Minus l)) (MLiteral v) -> meta_item_text (MLiteral v) = [literal_tok l]) /\
  (forall w d n, item_is (WGroup w d (repeat None (S (S n)))) (MGroup w []) /\ parse_meta_item (meta_item_text (MGroup w [])) = None).
Proof.
  split.
  - intros l v H. apply item_text in H. exact H.
  - intros w d n. split; [|reflexivity]. constructor; try discriminate. replace (somes (repeat None (S (S n)))) with (@nil rmeta); [constructor|].
    unfold somes. generalize (S (S n)). induction n0; auto.
Qed.

(** * C71 looking up *)
Theorem get_finds ix m f : meta_get ix m = Some f <-> Found ix m f.
Proof. apply get_found. Qed.
(** The key an attribute gives to a derived field is found in the same way. *)
Theorem derive_looks_up_keys_by_get w m l : get_pair w m = Some l <-> meta_get (IxKey (lit w)) m = Some (FLit l).
Proof.
  unfold get_pair. cbn [meta_get]. change (fun i => match i with MPair k _ _ => str_eqb k (lit w) | _ => false end) with (has_key (lit w)).
  destruct (find (has_key (lit w)) m) as [[]|]; split; congruence.
Qed.
Theorem idents_in_order m n w : nth_error (meta_idents m) n = Some w <-> Pick a_word n m (MIdent w).
Proof.
  unfold meta_idents. rewrite filter_map_nth. unfold a_word. split.
  - intros (x & Hx & H). destruct x; try discriminate. injection Hx as ->. eapply Nth_ext; [|exact H]. intros a. destruct a; split; intros [? [=]]; eauto.
  - intros H. exists (MIdent w). split; auto. eapply Nth_ext; [|exact H]. intros a. destruct a; split; intros [? [=]]; eauto.
Qed.
Theorem literals_in_order m n l : nth_error (meta_literals m) n = Some l <-> Pick a_value n m (MLiteral l).
Proof.
  unfold meta_literals. rewrite filter_map_nth. unfold a_value. split.
  - intros (x & Hx & H). destruct x; try discriminate. injection Hx as ->. eapply Nth_ext; [|exact H]. intros a. destruct a; split; intros [? [=]]; eauto.
  - intros H. exists (MLiteral l). split; auto. eapply Nth_ext; [|exact H]. intros a. destruct a; split; intros [? [=]]; eauto.
Qed.
(** The map of the pairs has the value of the last pair with the key, whereas [get] gives the first; that of the groups likewise. *)
Theorem pairs_have_the_last m k l : map_find k (meta_pairs m) = Some l <-> exists e, Last (a_pair k) m (MPair k l e).
Proof.
  unfold meta_pairs. rewrite collect_last. unfold a_pair, Last. split.
  - intros (x & Hx & H). destruct x; try discriminate. injection Hx as -> ->. exists eq. eapply Nth_ext; [|exact H].
    intros a. destruct a; split; try (intros [? [=]]; fail); try (intros (? & ? & [=]); fail); [intros [? [= -> ->]]|intros (? & ? & [= -> -> ->])]; eauto.
  - intros (e & H). exists (MPair k l e). split; auto. eapply Nth_ext; [|exact H].
    intros a. destruct a; split; try (intros [? [=]]; fail); try (intros (? & ? & [=]); fail); [intros (? & ? & [= -> -> ->])|intros [? [= -> ->]]]; eauto.
Qed.
Theorem groups_have_the_last m g inner : map_find g (meta_groups m) = Some inner <-> Last (a_group g) m (MGroup g inner).
Proof.
  unfold meta_groups. rewrite collect_last. unfold a_group, Last. split.
  - intros (x & Hx & H). destruct x; try discriminate. injection Hx as -> ->. eapply Nth_ext; [|exact H].
    intros a. destruct a; split; try (intros [? [=]]; fail); intros [? [= -> ->]]; eauto.
  - intros H. exists (MGroup g inner). split; auto. eapply Nth_ext; [|exact H].
    intros a. destruct a; split; try (intros [? [=]]; fail); intros [? [= -> ->]]; eauto.
Qed.
Theorem maps_have_each_key_once m : NoDup (map fst (meta_pairs m)) /\ NoDup (map fst (meta_groups m)).
Proof. split; apply collect_is_map. Qed.
(** They agree on a key that occurs once. *)
Theorem get_and_pairs_agree before after k l e : (forall x, In x (before ++ after) -> ~ a_pair k x) ->
  let m := before ++ MPair k l e :: after in meta_get (IxKey k) m = Some (FLit l) /\ map_find k (meta_pairs m) = Some l.
Proof.
  intros H m. assert (S : forall before after, (forall x, In x before -> ~ a_pair k x) -> First (a_pair k) (before ++ MPair k l e :: after) (MPair k l e)).
  { clear. intros before after H. induction before as [|x before IH]; cbn [app].
    - apply pick_here. unfold a_pair. eauto.
    - apply pick_skip; [apply H; now left|]. apply IH. intros y Hy. apply H. now right. }
  split.
  - apply get_found. apply (found_key k m l e). apply S. intros x Hx. apply H, in_or_app. now left.
  - apply pairs_have_the_last. exists e. unfold Last, m. rewrite rev_app_distr. cbn [rev]. rewrite <- app_assoc. cbn [app]. apply S.
    intros x Hx. apply in_rev in Hx. apply H, in_or_app. now right.
Qed.
Example lookups_case :
  let one := LInteger 1 (lit "1") in let two := LInteger 2 (lit "2") in
  let m := [MIdent (lit "w"); MPair (lit "k") one 61; MLiteral two; MGroup (lit "g") [MPair (lit "k") two 58; MIdent (lit "v")]; MPair (lit "k") two 61; MGroup (lit "g") []] in
  meta_get (IxNth 1) m = Some (FItem (MLiteral two)) /\ meta_get (IxNth 2) m = None /\ meta_get (IxKey (lit "k")) m = Some (FLit one) /\
  map_find (lit "k") (meta_pairs m) = Some two /\ meta_get (IxIn (lit "g") (IxNth 0)) m = Some (FItem (MIdent (lit "v"))) /\
  meta_get (IxGroup (lit "g")) m = Some (FMeta [MPair (lit "k") two 58; MIdent (lit "v")]) /\ map_find (lit "g") (meta_groups m) = Some [].
Proof. repeat split. Qed.
(** Beside C69 and C70: [word[k: -3u8,, "s", deep(true)]] *)
Definition sample_meta : rmeta :=
  WGroup (lit "word") Bracket [Some (WPair (lit "k") true (Minus (KNum (lit "3") [] [] (lit "u8")))); None; Some (WValue (Plain (KText false None (lit "s"))));
    Some (WGroup (lit "deep") Paren [Some (WValue (Plain (KBool true)))])].
Example sample_meta_good : meta_good sample_meta.
Proof.
  assert (L1 : lexical (KNum (lit "3") [] [] (lit "u8"))).
  { split; [exists 51, []; repeat split; try (vm_compute; discriminate); constructor|]. split; [now left|]. split; [now left|]. vm_compute. tauto. }
  assert (L2 : lexical (KText false None (lit "s"))) by (apply body_char; [vm_compute; discriminate..|constructor]).
  assert (C2 : clear (KText false None (lit "s"))).
  { right. split; [intros [r E]; discriminate|]. intros [r E]. destruct r as [|? [|]]; discriminate. }
  apply good_group. repeat apply Forall_cons; try apply Forall_nil.
  - apply good_pair. now split.
  - apply good_value. now split.
  - apply good_group. apply Forall_cons; [|apply Forall_nil]. apply good_value. now split.
Qed.
Example sample_meta_read : parse_meta_item (meta_toks sample_meta) = Some (MGroup (lit "word")
  [MPair (lit "k") (LInteger (-3) (lit "3u8")) 58; MLiteral (LString (lit "s") (lit """s""")); MGroup (lit "deep") [MLiteral (LBoolean true (lit "true"))]]).
Proof. reflexivity. Qed.
Example sample_meta_clear : clear_literals (meta_toks sample_meta).
Proof.
  intros raw H. pose proof sample_meta_good as G. inversion G as [| | |? ? ? F]; subst. rewrite Forall_forall in F. vm_compute in H. destruct H as [<-|[<-|[]]].
  - specialize (F _ (or_introl eq_refl)). inversion F as [| |? ? ? V|]; subst. destruct V as [X Y]. now exists (KNum (lit "3") [] [] (lit "u8")).
  - specialize (F _ (or_intror (or_introl eq_refl))). inversion F as [|? V| |]; subst. destruct V as [X Y]. now exists (KText false None (lit "s")).
Qed.

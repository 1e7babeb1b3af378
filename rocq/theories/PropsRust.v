(** What the generated code does when it runs. *)
From Verif Require Import Base F64 Json Ops Convert Derive SpecDerive PropsDerive Tokens SpecAttr SpecTokens TokenProofs AttrProofs DeclProofs PropsTokens Quote SpecQuote Macros SpecMacros PropsMacros SpecRust RustProofs CanonProofs.
From Coq Require Import Permutation.

Lemma rev_end {A} (l : list A) x : rev (l ++ [x]) = x :: rev l. Proof. apply rev_app_distr. Qed.
Lemma method_body_ok f w g impl hd a ps mid body : w = lit f ->
  impl = hd ++ [PGrp Brace g] -> g = PId (lit "fn") :: PId w :: PGrp Paren ps :: a :: mid ++ [PGrp Brace body] -> method_body f impl = Some body.
Proof.
  intros -> -> ->. unfold method_body. rewrite rev_end.
  match goal with |- context [rev ?g] => assert (R : exists t, rev g = PGrp Brace body :: t) end.
  { change (exists t, rev (([PId (lit "fn"); PId (lit f); PGrp Paren ps; a] ++ mid ++ [PGrp Brace body])) = PGrp Brace body :: t). rewrite app_assoc, rev_end. eauto. }
  destruct R as [t ->]. cbn [is_word]. rewrite !str_eqb_refl. reflexivity.
Qed.
Lemma encode_method params self conditions n rows : method_body "to_json" (encode_code params self conditions n rows) = Some (encode_body n rows).
Proof.
  unfold encode_code, header_code, braces. rewrite !app_assoc. eapply method_body_ok; [reflexivity|reflexivity|]. fold (encode_body n rows).
  let x := eval vm_compute in (code "fn to_json(&self) -> json::Json") in change (code "fn to_json(&self) -> json::Json") with x. cbn [app].
  match goal with |- _ :: _ :: _ :: ?a :: ?r = _ => instantiate (1 := removelast r) end. reflexivity.
Qed.
Lemma decode_method params self conditions name rows skipped :
  method_body "from_json" (decode_code params self conditions name rows skipped) = Some (decode_body name rows skipped).
Proof.
  unfold decode_code, header_code. fold (inits_code rows skipped). fold (decode_body name rows skipped). unfold braces. rewrite !app_assoc.
  eapply method_body_ok; [reflexivity|reflexivity|].
  let x := eval vm_compute in (code "fn from_json(json: &json::Json) -> Result<Self, json::Error>") in change (code "fn from_json(json: &json::Json) -> Result<Self, json::Error>") with x. cbn [app].
  match goal with |- _ :: _ :: _ :: ?a :: ?r = _ => instantiate (1 := removelast r) end. reflexivity.
Qed.
(** The tokens suffice as fuel. *)
Definition sizes (ts : list ptok) : nat := list_sum (map tok_size ts).
Lemma sizes_app a b : sizes (a ++ b) = (sizes a + sizes b)%nat. Proof. unfold sizes. now rewrite map_app, list_sum_app. Qed.
Lemma sizes_rows {A} (f : A -> list ptok) l : (forall x, (1 <= sizes (f x))%nat) -> (List.length l <= sizes (flat_map f l))%nat.
Proof. intros H. induction l as [|a l IH]; [cbn; lia|]. cbn [flat_map List.length]. rewrite sizes_app. specialize (H a). lia. Qed.
Ltac sizes_of := repeat match goal with |- context [sizes (code ?s)] => let x := eval vm_compute in (sizes (code s)) in change (sizes (code s)) with x end.
Lemma encode_enough n rows : (22 + List.length rows <= 4 * S (sizes (encode_body n rows)))%nat.
Proof.
  unfold encode_body. rewrite !sizes_app. sizes_of.
  assert (List.length rows <= sizes (flat_map (fun row => write_code (fst row) (snd row)) rows))%nat; [|lia].
  apply sizes_rows. intros x. unfold write_code. rewrite !sizes_app. sizes_of. lia.
Qed.
Lemma group_size d g : sizes [PGrp d g] = S (sizes g). Proof. unfold sizes. cbn. lia. Qed.
Lemma decode_enough name rows skipped : (60 + (List.length rows + List.length skipped) <= 4 * S (sizes (decode_body name rows skipped)))%nat.
Proof.
  unfold decode_body, braces, parens, inits_code. repeat (rewrite !sizes_app || rewrite !group_size). sizes_of.
  assert (List.length rows <= sizes (flat_map (fun row => read_code (fst (fst row)) (snd (fst row)) (snd row)) rows))%nat.
  { apply sizes_rows. intros x. unfold read_code. rewrite !sizes_app. sizes_of. lia. }
  assert (List.length skipped <= sizes (flat_map default_code skipped))%nat.
  { apply sizes_rows. intros x. unfold default_code. rewrite !sizes_app. sizes_of. lia. }
  lia.
Qed.
(** The keys are quoted literals. *)
Lemma all_some_forall {A B} (g : A -> option B) (P : B -> Prop) l : (forall a b, g a = Some b -> P b) -> forall bs, all_some g l = Some bs -> Forall P bs.
Proof.
  intros H. induction l as [|a l IH]; intros bs E; cbn in E; [injection E as <-; constructor|].
  destruct (g a) as [b|] eqn:G; [|discriminate]. destruct (all_some g l) as [bs'|]; [|discriminate]. injection E as <-. constructor; eauto.
Qed.
Lemma encode_keys ts h ks : derive_encode ts = Some (h, ks) -> Forall (fun k => exists b, fst k = quoted b) ks.
Proof.
  unfold derive_encode. destruct (parse_struct_item ts) as [s|]; [|discriminate]. cbn [obind]. destruct (st_fields s); try discriminate.
  destruct (all_some _ _) as [ks'|] eqn:E; [|discriminate]. cbn [obind]. intros X. injection X as _ <-. eapply all_some_forall; [|exact E].
  intros a b G. cbn beta in G. destruct (key_of a) as [k|]; [|discriminate]. injection G as <-. exists k. reflexivity.
Qed.
Lemma decode_keys ts h ks ig name : derive_decode ts = Some (h, ks, ig, name) -> Forall (fun k => exists b, fst (fst k) = quoted b) ks.
Proof.
  unfold derive_decode. destruct (parse_struct_item ts) as [s|]; [|discriminate]. cbn [obind]. destruct (st_fields s); try discriminate.
  destruct (all_some _ _) as [ks'|] eqn:E; [|discriminate]. cbn [obind]. intros X. injection X as _ <- _ _. eapply all_some_forall; [|exact E].
  intros a b G. cbn beta in G. destruct (key_of a) as [k|]; [|discriminate]. injection G as <-. exists k. reflexivity.
Qed.
Lemma pack_find fs : forall x, NoDup (map f_ident fs) -> forall f v, In (f, v) (pack fs x) -> exists p, find (fun p => str_eqb f (fst p)) (pack fs x) = Some p /\ snd p = v.
Proof.
  assert (N : forall fs x f v, In (f, v) (pack fs x) -> In f (map f_ident fs)).
  { induction fs0 as [|g gs IH]; intros x f v H; [destruct H|]. destruct H as [H|H]; [injection H as <- _; now left|right; eauto]. }
  induction fs as [|g fs IH]; intros x D f v H; [destruct H|]. cbn [map] in D. inversion D as [|? ? D1 D2]; subst. cbn [pack find]. destruct H as [H|H].
  - injection H as <- <-. rewrite str_eqb_refl. eauto.
  - cbn [fst]. destruct (str_eqb f (f_ident g)) eqn:E; [|eauto]. apply str_eqb_eq in E. subst f. elim D1. eapply N; eauto.
Qed.
Lemma forall2_and {A B} (P Q : A -> B -> Prop) l m : Forall2 P l m -> Forall2 Q l m -> Forall2 (fun a b => P a b /\ Q a b) l m.
Proof. intros H. induction H; intros K; inversion K; subst; constructor; auto. Qed.
Lemma forall2_r {A B} (P : A -> B -> Prop) (Q : B -> Prop) l m : Forall2 P l m -> Forall Q m -> Forall2 (fun a b => P a b /\ Q b) l m.
Proof. intros H. induction H; intros K; inversion K; subst; constructor; auto. Qed.

Lemma digit_ok d : (d < 10)%nat -> (48 <=? 48 + N.of_nat d) && (48 + N.of_nat d <=? 57) = true.
Proof. intros H. apply andb_true_intro. split; apply N.leb_le; lia. Qed.
Lemma digits_ok f n : digits (S f) n <> [] /\ forallb (fun c => (48 <=? c) && (c <=? 57)) (digits (S f) n) = true.
Proof.
  split; [cbn [digits]; destruct (Nat.ltb n 10); [discriminate|intros X; apply app_eq_nil in X as [_ X]; discriminate]|].
  generalize (S f). clear f. intros f. revert n. induction f as [|f IH]; intros n; [reflexivity|]. cbn [digits]. destruct (Nat.ltb_spec n 10) as [L|L].
  - cbn [forallb]. now rewrite digit_ok.
  - rewrite forallb_app, IH. cbn [forallb]. rewrite digit_ok; [reflexivity|]. apply Nat.mod_upper_bound. lia.
Qed.
Local Arguments literal_value : simpl never.
(** Running the [to_json] that JsonEncode generates for a declaration gives the JSON that [derived] has for it, for every value of the struct. *)
Theorem generated_to_json_runs read s fs ctx x : faithful read -> struct_ok s -> describes fs s -> NoDup (map f_ident fs) ->
  exists impl, json_encode read (struct_toks s) = Some impl /\
    runs ctx impl "to_json" [(lit "self", VStruct (rs_name s) (pack fs x))] = Returned (VJson (to_json (derived (rs_name s) fs) x)).
Proof.
  intros R H D ND. destruct (generated_code_is_for_the_described_fields s fs H D) as (h & ks & ks' & name & E & _ & _ & F & _).
  pose proof (writer_code_for_any_tokens read (struct_toks s) R) as W. rewrite E in W. destruct W as (p & sf & c & W & _).
  eexists. split; [exact W|]. unfold runs. rewrite encode_method. fold (sizes (encode_body (digits (S (List.length ks)) (List.length ks)) ks)).
  set (cap := digits (S (List.length ks)) (List.length ks)) in *. pose proof (encode_enough cap ks) as Hn.
  replace (4 * S (sizes (encode_body cap ks)))%nat with (22 + List.length ks + (4 * S (sizes (encode_body cap ks)) - (22 + List.length ks)))%nat by lia.
  rewrite encode_reads. clear Hn.
  assert (C : literal_value cap = Some (VInt cap)).
  { unfold cap, literal_value. pose proof digits_ok as G.
    destruct (G (List.length ks) (List.length ks)) as [G1 G2]. destruct (digits (S (List.length ks)) (List.length ks)) as [|a l]; [congruence|].
    replace (a =? 34) with false. { now rewrite G2. } symmetry. apply N.eqb_neq. cbn [forallb] in G2. apply andb_prop in G2 as [G2 _]. apply andb_prop in G2 as [G2 _]. apply N.leb_le in G2. lia. }
  assert (K : Forall2 (fun f k => snd k = f_ident f /\ literal_value (fst k) = Some (VText (f_key f))) (filter (fun f => negb (f_ignored f)) fs) ks).
  { apply (fun F => forall2_r _ _ _ _ F (encode_keys _ _ _ E)) in F. clear - F. induction F as [|f k fl kl [[A B] Q] _ IH]; constructor; auto. split; [exact A|now apply key_value]. }
  destruct (writes_run ctx (rs_name s) (pack fs x) fs x ks [] (pack_find fs x ND) K) as (j & e & A & B).
  unfold encode_block. cbn [map fst snd].
  match goal with |- context [eval_block ctx ?b ?e0] => assert (Z : eval_block ctx b e0 = eval_block ctx (writes ks (Value (Path [lit "js"]))) (writer_env (rs_name s) (pack fs x) [])) end.
  { clearbody cap. cbn. rewrite C. cbn. reflexivity. }
  rewrite Z, B. cbn [derived to_json]. now rewrite A.
Qed.
(** The program around the code: the types of the fields mean what [fs] says, as far as the macro keeps them, and ignored fields have their
    defaults. *)
Definition knows (ctx : context) (s : rstruct) (fs : list Derive.field) : Prop :=
  Forall2 (fun d f =>
    if is_ignored d then default_of ctx (rf_name d) = Some (VField (f_type f) (f_codec f) (f_default f))
    else type_used_kept (rf_type d) = true /\ ~ In (Ident (lit "as")) (type_toks (type_used (rf_type d))) /\
         type_of ctx (type_toks (type_used (rf_type d))) = Some (existT codec (f_type f) (f_codec f))) (rs_fields s) fs.
(** What the result of a conversion looks like when it comes out of running code: the same struct, whatever order its fields were given in. *)
Definition comes_out {fs : list Derive.field} (name : str) (o : outcome) (r : res (struct_value fs)) : Prop :=
  match r with
  | Ok y => exists fields, o = Returned (VOk (VStruct name fields)) /\ Permutation fields (pack fs y)
  | Err e => o = Returned (VErr (VError e))
  | Panic => o = Panicked
  | Fuel => o = NoAnswer
  end.
(** Running the [from_json] that JsonDecode generates gives, for every JSON value, what [derived] gives. *)
Theorem generated_from_json_runs read s fs ctx j : faithful read -> struct_ok s -> describes fs s -> knows ctx s fs -> keyword (rs_name s) = false ->
  exists impl, json_decode read (struct_toks s) = Some impl /\
    comes_out (rs_name s) (runs ctx impl "from_json" [(lit "json", VJson j)]) (from_json (derived (rs_name s) fs) j).
Proof.
  intros R H D KN KW. destruct (derived_reader_covers_the_declared_fields s H) as (h & ks & ig & name & E & F & -> & ->).
  pose proof (reader_code_for_any_tokens read (struct_toks s) R) as W. rewrite E in W. destruct W as (p & sf & c & rows & W & _ & _ & _ & FR).
  eexists. split; [exact W|]. unfold runs. rewrite decode_method. fold (sizes (decode_body (rs_name s) rows (map rf_name (inactive s)))).
  set (sk := map rf_name (inactive s)) in *.
  assert (SK : sk = map f_ident (filter f_ignored fs)).
  { unfold sk, inactive. clear - D. unfold describes in D. induction D as [|d f ds fs (A & B & _) _ IH]; [reflexivity|]. cbn [filter]. rewrite B.
    destruct (f_ignored f); cbn [map]; now rewrite ?A, IH. }
  assert (DF : forall f, In f (filter f_ignored fs) -> default_of ctx (f_ident f) = Some (default_value f)).
  { clear - D KN. unfold describes, knows in *. pose proof (forall2_and _ _ _ _ D KN) as X. clear D KN. intros f Hf. apply filter_In in Hf as [Hf Ig].
    induction X as [|d g ds gs ((A & B & _) & C) _ IH]; [destruct Hf|]. destruct Hf as [->|Hf]; [|auto]. rewrite B, Ig in C. now rewrite A in C. }
  assert (K : Forall2 (fun f k => snd (fst k) = f_ident f /\ literal_value (fst (fst k)) = Some (VText (f_key f)) /\
                                  type_of ctx (map unspaced (snd k)) = Some (existT codec (f_type f) (f_codec f))) (filter (fun f => negb (f_ignored f)) fs) rows
              /\ Forall (fun r => closed (snd r)) rows).
  { apply (fun F => forall2_r _ _ _ _ F (decode_keys _ _ _ _ _ E)) in F. clear - F FR D KN. unfold describes, knows, active in *. pose proof (forall2_and _ _ _ _ D KN) as X. clear D KN.
    revert ks rows F FR. induction X as [|d f ds fs ((A & B & C) & G) _ IH]; intros ks rows F FR.
    - inversion F; subst. inversion FR; subst. split; constructor.
    - cbn [filter] in *. rewrite B in *. destruct (f_ignored f) eqn:EI; cbn [negb] in *; [eapply IH; eauto|]. specialize (C eq_refl).
      inversion F as [|? k ? ks' ((F1 & F2 & F3) & F4) F']; subst. inversion FR as [|? row ? rows' (R1 & R2) FR']; subst. destruct G as (G1 & G2 & G3).
      destruct (IH _ _ F' FR') as [I1 I2]. unfold reads_as in R2. rewrite (F3 G1) in R2. split; (constructor; [|assumption]).
      + rewrite R1. split; [congruence|]. split; [apply key_value; [now apply F2|exact F4]|]. now rewrite R2.
      + apply closed_walk; rewrite R2; [apply types_walk|exact G2]. }
  destruct K as [K CL]. pose proof (decode_enough (rs_name s) rows sk) as Hn.
  replace (4 * S (sizes (decode_body (rs_name s) rows sk)))%nat with (60 + (List.length rows + List.length sk) + (4 * S (sizes (decode_body (rs_name s) rows sk)) - (60 + (List.length rows + List.length sk))))%nat by lia.
  rewrite decode_reads by auto. clear Hn. unfold decode_block. cbn [map fst snd]. destruct j as [o|v|st|n|b|].
  2-6: cbn; match goal with |- context [literal_value (34 :: ?x)] => let v := eval vm_compute in (literal_value (34 :: x)) in change (literal_value (34 :: x)) with v end;
    cbn; reflexivity.
  change (from_json (derived (rs_name s) fs) (JObj o)) with (read_fields fs o).
  match goal with |- context [eval_block ctx ?b ?e0] =>
    assert (Z : eval_block ctx b e0 = andthen (eval_inits ctx (reads rows (defaults sk)) (reader_env o)) (fun vs e => Go (VOk (VStruct (rs_name s) vs)) (drop_to 1 (drop_to 2 e)))) end.
  { cbn. lazymatch goal with |- andthen (andthen (andthen (andthen (andthen ?m _) _) _) _) _ = andthen ?m' _ => change m with m'; destruct m'; reflexivity end. }
  rewrite Z. clear Z. rewrite (reads_run ctx o (defaults sk) fs rows K), SK, (defaults_run ctx _ _ DF).
  destruct (read_fields fs o) as [y|e| |] eqn:RF; cbn [andthen comes_out]; try reflexivity.
  eexists. split; [reflexivity|]. eapply packed; eauto.
Qed.
(** Both together: what the generated [to_json] returns, the generated [from_json] turns back into the struct, with defaults in the ignored
    fields, if the fields themselves can be turned back and no two of them have the same key. *)
Theorem generated_code_round_trips read s fs ctx (eqv : forall f, f_type f -> f_type f -> Prop) x :
  faithful read -> struct_ok s -> describes fs s -> knows ctx s fs -> keyword (rs_name s) = false -> NoDup (map f_ident fs) ->
  NoDup (used_keys fs) -> each_field (fun f y => SpecConvert.round_trips (f_codec f) (eqv f) y) fs x ->
  exists enc dec j fields y,
    json_encode read (struct_toks s) = Some enc /\ json_decode read (struct_toks s) = Some dec /\
    runs ctx enc "to_json" [(lit "self", VStruct (rs_name s) (pack fs x))] = Returned (VJson j) /\
    runs ctx dec "from_json" [(lit "json", VJson j)] = Returned (VOk (VStruct (rs_name s) fields)) /\
    Permutation fields (pack fs y) /\ struct_eqv eqv fs x y.
Proof.
  intros R H D KN KW ND NK RT. destruct (generated_to_json_runs read s fs ctx x R H D ND) as (enc & E & RE).
  destruct (generated_from_json_runs read s fs ctx (to_json (derived (rs_name s) fs) x) R H D KN KW) as (dec & DE & RD).
  destruct (derived_round_trips (rs_name s) fs eqv x NK RT _ (CanonProofs.same_refl _)) as (y & Y & Q).
  unfold comes_out in RD. rewrite Y in RD. destruct RD as (fields & RD & P). exists enc, dec, (to_json (derived (rs_name s) fs) x), fields, y. repeat (split; [assumption|]). exact Q.
Qed.

(** * Example *)
Definition small_fields : list Derive.field := [mkField (lit "x") (lit "k") false bool c_bool false; mkField (lit "y") (lit "y") true bool c_bool false].
Definition small_ctx : context :=
  mkContext (fun ts => match ts with [Ident w] => if str_eqb w (lit "bool") then Some (existT codec (bool : Type) c_bool) else None | _ => None end)
            (fun f => if str_eqb f (lit "y") then Some (VField bool c_bool false) else None).
Example small_known : knows small_ctx small small_fields /\ keyword (rs_name small) = false /\ NoDup (map f_ident small_fields) /\ NoDup (used_keys small_fields).
Proof.
  split; [|split; [reflexivity|split; [|apply NoDup_cons; [intros []|constructor]]]].
  - constructor; [|constructor; [|constructor]]; cbn; auto. split; [reflexivity|]. split; [|reflexivity]. intros [X|[]]. discriminate.
  - repeat constructor; cbn; intuition discriminate.
Qed.
Example small_runs :
  (let! impl := json_encode (map alone) (struct_toks small) in
   Some (runs small_ctx impl "to_json" [(lit "self", VStruct (lit "P") [(lit "x", VField bool c_bool true); (lit "y", VField bool c_bool true)])])) =
  Some (Returned (VJson (JObj [(lit "k", (JBool true, []))]))) /\
  (let! impl := json_decode (map alone) (struct_toks small) in Some (runs small_ctx impl "from_json" [(lit "json", VJson (JObj [(lit "k", (JBool true, []))]))])) =
  Some (Returned (VOk (VStruct (lit "P") [(lit "x", VField bool c_bool true); (lit "y", VField bool c_bool false)]))) /\
  (let! impl := json_decode (map alone) (struct_toks small) in Some (runs small_ctx impl "from_json" [(lit "json", VJson (JObj []))])) =
  Some (Returned (VErr (VError (mkError MissingKey (lit "missing key ""k""."))))).
Proof. vm_compute. auto. Qed.

(** Properties of derived conversions (C36, C37). *)
From Verif Require Import Base F64 Json Parse Print Ops Convert Derive SpecGrammar SpecLenient SpecValue SpecConvert SpecErrors SpecDerive MapProofs CanonProofs ConvertNumProofs ConvertProofs PropsConvert PropsErrors.
From Coq Require Import Permutation.
Open Scope N_scope.

Lemma member_get k o : member k o = option_map fst (hm_get k o).
Proof.
  unfold member. induction o as [|[k' [v l]] o IH]; auto. cbn. destruct (str_eqb k k'); auto.
Qed.

(** * to_json *)
(** The members added so far, newest first per key. *)
Fixpoint field_jsons (fs : list field) : struct_value fs -> list (str * json) :=
  match fs with
  | [] => fun _ => []
  | f :: r => fun x => (if f_ignored f then [] else [(f_key f, to_json (f_codec f) (fst x))]) ++ field_jsons r (snd x)
  end.
Lemma add_fields_ok fs : forall x o, add_fields fs x (JObj o) = Ok (JObj (fold_left (fun o kv => object_insert o (fst kv) (snd kv)) (field_jsons fs x) o)).
Proof.
  induction fs as [|f fs IH]; intros x o; auto. cbn [add_fields field_jsons]. destruct (f_ignored f); cbn [app]; auto.
  cbn [add_option]. rewrite IH. reflexivity.
Qed.
Theorem derived_to_json_is_an_object name fs x : exists o, add_fields fs x (JObj []) = Ok (JObj o) /\ to_json (derived name fs) x = JObj o.
Proof. eexists. split; [apply add_fields_ok|]. cbn. now rewrite add_fields_ok. Qed.
Lemma derived_to_json name fs x : to_json (derived name fs) x = JObj (pairs_object k_string c_json (field_jsons fs x) []).
Proof. cbn. rewrite add_fields_ok. reflexivity. Qed.
Lemma field_jsons_keys fs : forall x, map fst (field_jsons fs x) = used_keys fs.
Proof.
  induction fs as [|f fs IH]; intros x; auto. cbn [field_jsons]. rewrite map_app, IH. unfold used_keys. cbn. now destruct (f_ignored f).
Qed.
Lemma at_key_nodup {V} (l : list (str * V)) k v : NoDup (map fst l) -> In (k, v) l -> at_key str_eqb k l = [v].
Proof. intros N H. apply (at_key_in str_eqb str_dec); auto. Qed.
(** The JSON of a struct: every field that is not ignored is a member, and nothing else. *)
Theorem derived_members name fs x : NoDup (used_keys fs) ->
  exists o, to_json (derived name fs) x = JObj o /\ keys_sorted o = true /\ forall k, hm_get k o = option_map (fun v => (v, [])) (lookup str_eqb k (field_jsons fs x)).
Proof.
  intros N. rewrite derived_to_json. eexists. split; [reflexivity|]. destruct (pairs_object_spec k_string c_json (field_jsons fs x) [] eq_refl) as [S G]. split; auto.
  intros k. specialize (G k). cbn [hm_get app show k_string to_json c_json] in G.
  assert (E : map (fun kv : str * json => (fst kv, snd kv)) (field_jsons fs x) = field_jsons fs x) by (rewrite <- (map_id (field_jsons fs x)) at 2; apply map_ext; now intros []).
  rewrite E, map_id in G. unfold lookup. destruct (at_key str_eqb k (field_jsons fs x)) as [|v w] eqn:A.
  - destruct (hm_get k _) as [[v r]|]; auto. apply app_eq_nil in G as [_ G]. discriminate.
  - assert (W : w = []). { assert (In v (at_key str_eqb k (field_jsons fs x))) by (rewrite A; now left). apply (at_key_In str_eqb str_dec) in H.
      rewrite (at_key_nodup _ _ _ (eq_ind_r (fun l => NoDup l) N (field_jsons_keys fs x)) H) in A. congruence. }
    subst w. destruct (hm_get k _) as [[v' r]|]; [|discriminate]. destruct r as [|y r].
    + cbn in G. inversion G. reflexivity.
    + exfalso. cbn in G. apply (f_equal (@List.length json)) in G. rewrite !app_length in G. cbn in G. lia.
Qed.
Lemma nodup_get {V} k (v : V) o : NoDup (map fst o) -> In (k, v) o -> hm_get k o = Some v.
Proof.
  induction o as [|[k' v'] o IH]; intros N H; [destruct H|]. inversion N as [|? ? Nk N']; subst. cbn. destruct H as [E|H].
  - inversion E; subst. now rewrite str_eqb_refl.
  - destruct (str_eqb k k') eqn:E; [|auto]. apply str_eqb_eq in E. subst. exfalso. apply Nk. change k' with (fst (k', v)). now apply in_map.
Qed.
Lemma same_get o o' : NoDup (map fst o) -> same (JObj o) (JObj o') ->
  forall k, match hm_get k o, hm_get k o' with
            | Some e, Some e' => same (fst e) (fst e') /\ Forall2 same (snd e) (snd e')
            | None, None => True
            | _, _ => False
            end.
Proof.
  intros N S k. inversion S as [? p ? P F| | | | |]; subst. assert (Np : NoDup (map fst p)) by (eapply Permutation_NoDup; [apply Permutation_map; exact P|exact N]).
  assert (E : hm_get k o = hm_get k p).
  { destruct (hm_get k p) as [e|] eqn:E.
    - apply hm_get_In in E. apply nodup_get; auto. eapply Permutation_in; [symmetry; exact P|exact E].
    - destruct (hm_get k o) as [e|] eqn:E2; auto. apply hm_get_In in E2. eapply Permutation_in in E2; [|exact P]. apply nodup_get in E2; auto. congruence. }
  rewrite E. clear - F. induction F as [|[a [v l]] [a' [v' l']] p o' (A & B & C) F IH]; [exact I|]. cbn in A, B, C. subst a'. cbn. destruct (str_eqb k a); auto.
Qed.
(** * C36 *)
Lemma read_fields_back (eqv : forall f, f_type f -> f_type f -> Prop) o : forall fs x,
  (forall k v, In (k, v) (field_jsons fs x) -> exists w r, hm_get k o = Some (w, r) /\ same v w) ->
  each_field (fun f y => round_trips (f_codec f) (eqv f) y) fs x -> exists y, read_fields fs o = Ok y /\ struct_eqv eqv fs x y.
Proof.
  induction fs as [|f fs IH]; intros x G H; cbn [read_fields struct_eqv]; [eauto|]. destruct H as [H1 H2]. cbn [field_jsons] in G.
  destruct (IH (snd x)) as (y & E & Q); auto. { intros k v Hin. apply G. apply in_or_app. now right. }
  destruct (f_ignored f) eqn:I.
  - rewrite E. cbn. exists (f_default f, y). auto.
  - destruct (G (f_key f) (to_json (f_codec f) (fst x))) as (w & r & -> & S); [now left|]. destruct (H1 eq_refl w S) as (z & Ez & Qz). rewrite Ez. cbn [bind]. rewrite E. cbn.
    exists (z, y). auto.
Qed.
Theorem derived_round_trips name fs (eqv : forall f, f_type f -> f_type f -> Prop) x : NoDup (used_keys fs) ->
  each_field (fun f y => round_trips (f_codec f) (eqv f) y) fs x -> round_trips (derived name fs) (struct_eqv eqv fs) x.
Proof.
  intros N H j S. destruct (derived_members name fs x N) as (o & E & So & G). rewrite E in S. inversion S as [? p o' P F| | | | |]; subst.
  pose proof (same_get o o' (keys_sorted_NoDup _ So) S) as SG. apply (read_fields_back eqv o'); auto. intros k v Hin. specialize (SG k). rewrite G in SG.
  assert (L : lookup str_eqb k (field_jsons fs x) = Some v). { apply (lookup_some str_eqb str_dec); auto. unfold is_map. now rewrite field_jsons_keys. }
  rewrite L in SG. cbn in SG. destruct (hm_get k o') as [[w r]|]; [|contradiction]. exists w, r. split; auto. now destruct SG.
Qed.
(** Two fields with one key: the value of the later one is read back into both. *)
Theorem shared_key_reads_last name i1 i2 k (x y d1 d2 : bool) :
  let fs := [mkField i1 k false bool c_bool d1; mkField i2 k false bool c_bool d2] in
  from_json (derived name fs) (to_json (derived name fs) (x, (y, tt))) = Ok (y, (y, tt)).
Proof. cbn. unfold object_insert. cbn. rewrite str_cmp_refl. cbn. rewrite str_eqb_refl. cbn. rewrite str_eqb_refl. reflexivity. Qed.

(** ** As text *)
Lemma derived_legal name fs x : Forall (fun k => scalar_str k = true) (used_keys fs) -> each_field (fun f y => legal (to_json (f_codec f) y)) fs x ->
  legal (to_json (derived name fs) x).
Proof.
  intros K L. rewrite derived_to_json.
  assert (F : Forall (fun kv => scalar_str (fst kv) = true /\ legal (snd kv)) (field_jsons fs x)).
  { clear name. induction fs as [|f fs IH]; [constructor|]. destruct L as [L1 L2]. unfold used_keys in K. cbn in K. cbn [field_jsons].
    destruct (f_ignored f) eqn:I; cbn in K |- *; [now apply IH|]. inversion K; subst. constructor; [split; cbn; auto|]. now apply IH. }
  destruct (fold_legal (fun o kv => object_insert o (fst kv) (snd kv)) (fun kv => scalar_str (fst kv) = true /\ legal (snd kv))
    (fun o kv H Ho => object_insert_legal _ _ _ (proj1 H) (proj2 H) Ho) (field_jsons fs x) F []) as [A B]; [split; [reflexivity|constructor]|].
  now apply legal_obj_sorted.
Qed.
Theorem derived_text_round_trip order order' name fs (eqv : forall f, f_type f -> f_type f -> Prop) x : reorders order -> reorders order' ->
  NoDup (used_keys fs) -> Forall (fun k => scalar_str k = true) (used_keys fs) ->
  each_field (fun f y => legal (to_json (f_codec f) y) /\ round_trips (f_codec f) (eqv f) y) fs x ->
  finite (to_json (derived name fs) x) = true ->
  if balanced (to_json (derived name fs) x)
  then exists y, decode order' (derived name fs) (encode order (derived name fs) x) = Ok y /\ struct_eqv eqv fs x y
  else exists e, decode order' (derived name fs) (encode order (derived name fs) x) = Err e.
Proof.
  intros R R' N K H F. assert (S : forall (P Q : forall f, f_type f -> Prop) fs x, (forall f y, P f y -> Q f y) -> each_field P fs x -> each_field Q fs x).
  { intros P Q gs. induction gs as [|g gs IH]; intros z PQ; cbn; auto. intros [A B]. split; [auto|]. eapply IH; eauto. }
  apply decode_encode_any; auto.
  - apply derived_legal; auto. eapply S; [|exact H]. cbn. tauto.
  - apply derived_round_trips; auto. eapply S; [|exact H]. cbn. tauto.
Qed.

(** * C37 *)
Lemma read_fields_ok o fs : forall x, read_fields fs o = Ok x <-> struct_reads o fs x.
Proof.
  induction fs as [|f fs IH]; intros x; cbn [read_fields struct_reads].
  - destruct x. tauto.
  - rewrite member_get. destruct x as [a b]. cbn [fst snd]. destruct (f_ignored f).
    + rewrite <- IH. destruct (read_fields fs o) as [y| | |]; cbn; split; try discriminate; intros H; try (destruct H; discriminate).
      * inversion H; subst. auto.
      * destruct H as [-> H]. congruence.
    + destruct (hm_get (f_key f) o) as [[v r]|]; cbn.
      * rewrite <- IH. destruct (from_json (f_codec f) v) as [y| | |] eqn:E; cbn; [|split; [discriminate|intros [(w & [= <-] & C) _]; congruence]..].
        destruct (read_fields fs o) as [z| | |]; cbn; (split; [intros H; try discriminate; inversion H; subst; split; eauto|intros [(w & W & C) H]; try discriminate; inversion W; subst; congruence]).
      * unfold missing_key, fail. split; [discriminate|]. intros [(w & C & _) _]. discriminate.
Qed.
Lemma read_fields_err o fs e : read_fields fs o = Err e <-> exists fs1 f fs2, fs = fs1 ++ f :: fs2 /\ Forall (field_reads o) fs1 /\ field_fails o f e.
Proof.
  induction fs as [|f fs IH]; cbn [read_fields].
  - split; [discriminate|]. intros ([] & ? & ? & H & _); discriminate.
  - assert (T : forall (P : Prop) (G : field_reads o f) (NF : ~ field_fails o f e), (P <-> read_fields fs o = Err e) ->
      (P <-> exists fs1 f0 fs2, f :: fs = fs1 ++ f0 :: fs2 /\ Forall (field_reads o) fs1 /\ field_fails o f0 e)).
    { intros P G NF HP. rewrite HP, IH. split.
      - intros (fs1 & f0 & fs2 & -> & A & B). exists (f :: fs1), f0, fs2. auto.
      - intros ([|g fs1] & f0 & fs2 & E & A & B); inversion E; subst; [contradiction|]. inversion A; subst. exists fs1, f0, fs2. auto. }
    destruct (f_ignored f) eqn:I.
    + apply T; [now left|unfold field_fails; intros [C _]; congruence|]. destruct (read_fields fs o); cbn; (split; [congruence|]); try discriminate; congruence.
    + destruct (hm_get (f_key f) o) as [[v r]|] eqn:G.
      * assert (M : member (f_key f) o = Some v) by (rewrite member_get, G; reflexivity). destruct (from_json (f_codec f) v) as [y|e'| |] eqn:E; cbn [bind].
        -- apply T.
           ++ right. eauto.
           ++ unfold field_fails. rewrite M. intros [_ [[C _]|(w & [= <-] & C)]]; congruence.
           ++ destruct (read_fields fs o); cbn; (split; [congruence|]); try discriminate; congruence.
        -- split.
           ++ intros [= <-]. exists [], f, fs. split; auto. split; auto. split; auto. right. eauto.
           ++ intros ([|g fs1] & f0 & fs2 & Eq & A & B); inversion Eq; subst.
              ** destruct B as [_ [[C _]|(w & C & D)]]; [congruence|]. assert (w = v) by congruence. subst w. rewrite E in D. inversion D. reflexivity.
              ** inversion A as [|? ? [C|(w & z & C & D)] _]; subst; congruence.
        -- split; [discriminate|]. intros ([|g fs1] & f0 & fs2 & Eq & A & B); inversion Eq; subst.
           ++ destruct B as [_ [[C _]|(w & C & D)]]; congruence.
           ++ inversion A as [|? ? [C|(w & z & C & D)] _]; subst; congruence.
        -- split; [discriminate|]. intros ([|g fs1] & f0 & fs2 & Eq & A & B); inversion Eq; subst.
           ++ destruct B as [_ [[C _]|(w & C & D)]]; congruence.
           ++ inversion A as [|? ? [C|(w & z & C & D)] _]; subst; congruence.
      * assert (M : member (f_key f) o = None) by (rewrite member_get, G; reflexivity). unfold missing_key, fail. split.
        -- intros H. exists [], f, fs. split; auto. split; auto. split; auto. left. split; auto. now inversion H.
        -- intros ([|g fs1] & f0 & fs2 & Eq & A & B); inversion Eq; subst.
           ++ destruct B as [_ [[_ ->]|(w & C & D)]]; [reflexivity|congruence].
           ++ inversion A as [|? ? [C|(w & z & C & D)] _]; subst; congruence.
Qed.
(** An object converts exactly to the struct whose fields are what its members convert to; only the members with a key of the struct
    matter. *)
Theorem derived_reads name fs j x : from_json (derived name fs) j = Ok x <-> exists o, j = JObj o /\ struct_reads o fs x.
Proof.
  destruct j as [o| | | | |]; cbn; try (split; [discriminate|intros (? & ? & _); discriminate]). rewrite read_fields_ok. split; [eauto|]. intros (o' & [= <-] & H). exact H.
Qed.
(** The error is that of the first field, in order of declaration, that cannot be read. *)
Theorem derived_fails name fs j e : from_json (derived name fs) j = Err e <->
  ((forall o, j <> JObj o) /\ e = mkError ConvertError (lit "cannot convert " ++ kind_name j ++ lit " to " ++ name ++ lit ".")) \/
  exists o fs1 f fs2, j = JObj o /\ fs = fs1 ++ f :: fs2 /\ Forall (field_reads o) fs1 /\ field_fails o f e.
Proof.
  destruct j as [o| | | | |]; [|cbn; unfold cannot_convert, fail; (split; [intros H; left; split; [discriminate|now inversion H]|intros [[_ ->]|(? & ? & ? & ? & ? & _)]; [reflexivity|discriminate]])..].
  cbn [from_json derived]. rewrite read_fields_err. split.
  - intros (fs1 & f & fs2 & H). right. exists o, fs1, f, fs2. tauto.
  - intros [[H _]|(o' & fs1 & f & fs2 & [= <-] & H)]; [exfalso; now apply (H o)|]. eauto.
Qed.
Theorem derived_is_total name fs : Forall (fun f => total (f_codec f)) fs -> total (derived name fs).
Proof.
  intros T j. destruct j as [o| | | | |]; cbn; unfold cannot_convert, fail; eauto.
  induction T as [|f fs Tf T IH]; cbn [read_fields]; eauto. destruct (f_ignored f).
  - destruct IH as [[x ->]|[e ->]]; cbn; eauto.
  - destruct (hm_get (f_key f) o) as [[v r]|]; [|unfold missing_key, fail; eauto]. destruct (Tf v) as [[x ->]|[e ->]]; cbn; eauto. destruct IH as [[y ->]|[e ->]]; cbn; eauto.
Qed.

(** A struct with a renamed field, an ignored field and a nested struct. *)
Definition inner_fields : list field := [mkField (lit "x") (lit "x") false Z (c_int I32) 0%Z].
Definition person_fields : list field :=
  [mkField (lit "name") (lit "full name") false str c_string []; mkField (lit "cache") (lit "cache") true bool c_bool true;
   mkField (lit "pos") (lit "pos") false _ (c_vec (derived (lit "Inner") inner_fields)) []].
Definition person : struct_value person_fields := (lit "Ann", (false, ([((-3)%Z, tt)], tt))).
Definition same_fields : forall f, f_type f -> f_type f -> Prop := fun f => eq.
Example person_round_trips : NoDup (used_keys person_fields) /\
  to_string (to_json (derived (lit "Person") person_fields) person) = lit "{""full name"": ""Ann"", ""pos"": [{""x"": -3}]}" /\
  from_json (derived (lit "Person") person_fields) (to_json (derived (lit "Person") person_fields) person) = Ok (lit "Ann", (true, ([((-3)%Z, tt)], tt))) /\
  from_json (derived (lit "Person") person_fields) (JObj [(lit "full name", (JStr [], []))]) = Err (mkError MissingKey (lit "missing key ""pos"".")).
Proof.
  split. { cbn. repeat constructor; cbn; intuition discriminate. }
  vm_compute. auto.
Qed.
Lemma round_trips_weaken {T} (c : codec T) (R S : T -> T -> Prop) x : (forall y, R x y -> S x y) -> round_trips c R x -> round_trips c S x.
Proof. intros H RT j Hj. destruct (RT j Hj) as (y & E & Q). eauto. Qed.
Example person_meets_the_hypotheses : each_field (fun f y => round_trips (f_codec f) (same_fields f) y) person_fields person.
Proof.
  cbn. split; [intros _; apply string_round_trip|]. split; [discriminate|]. split; [|exact I]. intros _.
  apply (round_trips_weaken _ (Forall2 (struct_eqv same_fields inner_fields))).
  - intros y H. inversion H as [|? [a []] ? r [E _] H']; subst. inversion H'; subst. cbn in E. unfold same_fields in *. now subst.
  - apply vec_round_trips. constructor; [|constructor]. apply derived_round_trips; [repeat constructor; cbn; tauto|].
    cbn. split; [|exact I]. intros _. apply narrow_integers_round_trip; [cbn; lia|]. split; vm_compute; discriminate.
Qed.

(** Properties of changing a struct's declaration (C82). *)
From Verif Require Import Base F64 Json Parse Print Ops Convert Derive SpecGrammar SpecLenient SpecValue SpecConvert SpecErrors SpecDerive SpecEvolve MapProofs CanonProofs ConvertNumProofs ConvertProofs PropsPrint PropsConvert PropsErrors PropsDerive.
From Coq Require Import Permutation.
Open Scope N_scope.

(** * Fields and their values *)
Lemma has_In fs x f v : has fs x f v -> In f fs.
Proof. induction 1; [now left|now right]. Qed.
Lemma In_has fs x f : In f fs -> exists v, has fs x f v.
Proof.
  induction fs as [|g fs IH]; intros H; [destruct H|]. destruct x as [w x]. destruct H as [<-|H].
  - exists w. constructor.
  - destruct (IH x H) as [v Hv]. exists v. now constructor.
Qed.
Lemma used_keys_In fs f : In f fs -> f_ignored f = false -> In (f_key f) (used_keys fs).
Proof. intros H I. unfold used_keys. apply in_map. apply filter_In. now rewrite I. Qed.
Lemma reads_has o fs x f v : struct_reads o fs x -> has fs x f v ->
  if f_ignored f then v = f_default f else exists w, member (f_key f) o = Some w /\ from_json (f_codec f) w = Ok v.
Proof. intros R H. induction H as [f r v x|g r w x f v H IH]; cbn in R; destruct R as [R1 R2]; [exact R1|exact (IH R2)]. Qed.
Lemma reads_gives o fs x k T (c : codec T) v : struct_reads o fs x -> gives fs x k c v -> exists w, member k o = Some w /\ from_json c w = Ok v.
Proof. intros R (i & d & H). exact (reads_has _ _ _ _ _ R H). Qed.
Lemma declares_gives fs x k T (c : codec T) : declares fs k c -> exists v, gives fs x k c v.
Proof. intros (i & d & H). destruct (In_has fs x _ H) as [v Hv]. exists v. now exists i, d. Qed.
Lemma gives_declares fs x k T (c : codec T) v : gives fs x k c v -> declares fs k c.
Proof. intros (i & d & H). exists i, d. now apply has_In in H. Qed.

(** * Members the struct does not know *)
Lemma read_fields_agree fs o o' : agree fs o o' -> read_fields fs o = read_fields fs o'.
Proof.
  induction fs as [|f fs IH]; intros A; [reflexivity|]. cbn [read_fields].
  assert (A' : agree fs o o'). { intros k H. apply A. unfold used_keys in *. cbn. destruct (negb (f_ignored f)); cbn; auto. }
  rewrite (IH A'). destruct (f_ignored f) eqn:I; auto.
  assert (M : member (f_key f) o = member (f_key f) o') by (apply A, used_keys_In; [now left|auto]). rewrite !member_get in M.
  destruct (hm_get (f_key f) o) as [[v l]|], (hm_get (f_key f) o') as [[v' l']|]; cbn in M; inversion M; auto.
Qed.
Theorem unknown_members_are_ignored name fs o o' : agree fs o o' ->
  from_json (derived name fs) (JObj o) = from_json (derived name fs) (JObj o').
Proof. apply read_fields_agree. Qed.

(** * Dropping, renaming, reordering fields *)
Lemma covers_nil big : covers big [].
Proof. intros k T c (i & d & []). Qed.
Lemma covers_ignored big small i k T (c : codec T) d : covers big small -> covers big (mkField i k true T c d :: small).
Proof. intros C k' T' c' (i' & d' & [H|H]); [discriminate|]. apply C. now exists i', d'. Qed.
Lemma covers_cons big small i k T (c : codec T) d i' d' : In (mkField i' k false T c d') big -> covers big small -> covers big (mkField i k false T c d :: small).
Proof.
  intros H C k0 T0 c0 (i0 & d0 & [E|G]); [|apply C; now exists i0, d0].
  change (declares big (f_key (mkField i0 k0 false T0 c0 d0)) (f_codec (mkField i0 k0 false T0 c0 d0))). rewrite <- E. cbn. now exists i', d'.
Qed.
Theorem smaller_struct_reads name name' fs fs' j x : covers fs fs' -> from_json (derived name fs) j = Ok x ->
  exists x', from_json (derived name' fs') j = Ok x' /\ forall k T (c : codec T) v, gives fs' x' k c v -> gives fs x k c v.
Proof.
  intros C H. apply derived_reads in H as (o & -> & R).
  assert (E : exists x', struct_reads o fs' x').
  { clear name name'. induction fs' as [|f fs' IH]; [now exists tt|].
    destruct IH as [x' Hx']. { intros k T c (i & d & H). apply C. exists i, d. now right. }
    destruct f as [i k [] T c d].
    - exists (d, x'). cbn. auto.
    - destruct (declares_gives fs x k T c) as [v Hv]. { apply C. exists i, d. now left. }
      exists (v, x'). cbn. split; auto. exact (reads_gives _ _ _ _ _ _ _ R Hv). }
  destruct E as [x' R']. exists x'. split; [apply derived_reads; eauto|].
  intros k T c v G. destruct (declares_gives fs x k T c) as [v' Hv']. { apply C. eapply gives_declares, G. }
  destruct (reads_gives _ _ _ _ _ _ _ R' G) as (w & M & F). destruct (reads_gives _ _ _ _ _ _ _ R Hv') as (w' & M' & F').
  assert (w = w') by congruence. subst. assert (v = v') by congruence. now subst.
Qed.
Theorem ignored_fields_are_default name fs j x f v : from_json (derived name fs) j = Ok x -> has fs x f v -> f_ignored f = true -> v = f_default f.
Proof. intros H G I. apply derived_reads in H as (o & -> & R). pose proof (reads_has _ _ _ _ _ R G) as E. now rewrite I in E. Qed.
Theorem declaration_order_is_irrelevant name name' fs fs' j x : Permutation fs fs' -> from_json (derived name fs) j = Ok x ->
  exists x', from_json (derived name' fs') j = Ok x' /\ forall k T (c : codec T) v, gives fs' x' k c v <-> gives fs x k c v.
Proof.
  intros P H. assert (C : forall a b, Permutation a b -> covers a b). { intros a b Q k T c (i & d & I). exists i, d. eapply Permutation_in; [symmetry|]; eauto. }
  destruct (smaller_struct_reads name name' fs fs' j x (C _ _ P) H) as (x' & H' & G). exists x'. split; auto. intros k T c v. split; auto.
  destruct (smaller_struct_reads name' name fs' fs j x' (C _ _ (Permutation_sym P)) H') as (x2 & H2 & G2). assert (x2 = x) by congruence. subst x2. apply G2.
Qed.

(** * What is written *)
Lemma has_field_jsons fs x f v : has fs x f v -> f_ignored f = false -> In (f_key f, to_json (f_codec f) v) (field_jsons fs x).
Proof. intros H I. induction H as [f r v x|g r w x f v H IH]; cbn; [rewrite I; now left|]. apply in_or_app. right. auto. Qed.
Lemma field_jsons_shows fs x k v : In (k, v) (field_jsons fs x) <-> shows fs x k v.
Proof.
  split.
  - induction fs as [|f fs IH]; cbn [field_jsons]; [intros []|]. destruct x as [w x]. cbn [fst snd]. rewrite in_app_iff. intros [H|H].
    + destruct f as [i g [] T c d]; cbn in H; [destruct H|]. destruct H as [[= <- <-]|[]]. exists T, c, w. split; auto. exists i, d. constructor.
    + destruct (IH x H) as (T & c & y & (i & d & G) & E). exists T, c, y. split; auto. exists i, d. now constructor.
  - intros (T & c & y & (i & d & H) & <-). exact (has_field_jsons _ _ _ _ H eq_refl).
Qed.
(** Every member of the JSON is what a field that is not ignored shows, and nothing else is. *)
Theorem derived_shows name fs x : NoDup (used_keys fs) ->
  exists o, to_json (derived name fs) x = JObj o /\ forall k v, shows fs x k v <-> member k o = Some v.
Proof.
  intros N. destruct (derived_members name fs x N) as (o & E & _ & G). exists o. split; auto. intros k v. rewrite member_get, G, <- field_jsons_shows.
  assert (M : is_map (field_jsons fs x)) by (unfold is_map; now rewrite field_jsons_keys). rewrite <- (lookup_some str_eqb str_dec k v (field_jsons fs x) M).
  destruct (lookup str_eqb k (field_jsons fs x)); cbn; split; congruence.
Qed.
Theorem same_fields_same_json name name' fs fs' x x' : NoDup (used_keys fs) -> NoDup (used_keys fs') ->
  (forall k v, shows fs x k v <-> shows fs' x' k v) -> to_json (derived name fs) x = to_json (derived name' fs') x'.
Proof.
  intros N N' H. destruct (derived_members name fs x N) as (o & E & So & G). destruct (derived_members name' fs' x' N') as (o' & E' & So' & G').
  rewrite E, E'. f_equal. apply hm_ext; auto. intros k. rewrite G, G'. f_equal.
  assert (M : is_map (field_jsons fs x)) by (unfold is_map; now rewrite field_jsons_keys). assert (M' : is_map (field_jsons fs' x')) by (unfold is_map; now rewrite field_jsons_keys).
  assert (Q : forall v, lookup str_eqb k (field_jsons fs x) = Some v <-> lookup str_eqb k (field_jsons fs' x') = Some v).
  { intros v. rewrite (lookup_some str_eqb str_dec k v _ M), (lookup_some str_eqb str_dec k v _ M'), !field_jsons_shows. apply H. }
  destruct (lookup str_eqb k (field_jsons fs x)) as [v|]; [symmetry; now apply Q|]. destruct (lookup str_eqb k (field_jsons fs' x')) as [v|]; auto. now apply Q.
Qed.

(** * Documents of another version *)
Lemma struct_eqv_has eqv fs x y f v : struct_eqv eqv fs x y -> has fs x f v -> f_ignored f = false -> exists w, has fs y f w /\ eqv f v w.
Proof.
  intros Q H I. induction H as [f r v x|g r u x f v H IH]; destruct y as [w y]; cbn in Q; destruct Q as [Q1 Q2].
  - rewrite I in Q1. exists w. split; auto. constructor.
  - destruct (IH y Q2 I) as (w' & H' & E). exists w'. split; auto. now constructor.
Qed.
Lemma struct_eqv_has_back eqv fs x y f w : struct_eqv eqv fs x y -> has fs y f w -> f_ignored f = false -> exists v, has fs x f v /\ eqv f v w.
Proof.
  intros Q H I. induction H as [f r w y|g r u y f w H IH]; destruct x as [v x]; cbn in Q; destruct Q as [Q1 Q2].
  - rewrite I in Q1. exists v. split; auto. constructor.
  - destruct (IH x Q2 I) as (v' & H' & E). exists v'. split; auto. now constructor.
Qed.
(** A text written from a struct with more fields is read by one with less: every field the reader gets is equivalent to what was
    written. *)
Theorem newer_documents_read order order' name name' fs fs' (eqv : forall f, f_type f -> f_type f -> Prop) x : reorders order -> reorders order' ->
  NoDup (used_keys fs) -> Forall (fun k => scalar_str k = true) (used_keys fs) -> covers fs fs' ->
  each_field (fun f y => legal (to_json (f_codec f) y) /\ round_trips (f_codec f) (eqv f) y) fs x ->
  finite (to_json (derived name fs) x) = true -> balanced (to_json (derived name fs) x) = true ->
  exists x', decode order' (derived name' fs') (encode order (derived name fs) x) = Ok x' /\
    forall k T (c : codec T) v', gives fs' x' k c v' -> exists i d v, has fs x (mkField i k false T c d) v /\ eqv (mkField i k false T c d) v v'.
Proof.
  intros R R' N K C H F B. pose proof (derived_text_round_trip order order' name fs eqv x R R' N K H F) as P. rewrite B in P. destruct P as (y & E & Q).
  unfold decode, convert in *. destruct (parse (encode order (derived name fs) x)) as [j| | |]; try discriminate. cbn [bind] in *.
  destruct (smaller_struct_reads name name' fs fs' _ _ C E) as (x' & E' & G). exists x'. split; auto. intros k T c v' Hv'.
  destruct (G _ _ _ _ Hv') as (i & d & Hy). destruct (struct_eqv_has_back eqv fs x y _ _ Q Hy eq_refl) as (v & Hx & Hv). exists i, d, v. auto.
Qed.
(** A reader with one more field does not read them, whatever the type of the new field. *)
Theorem older_documents_lack order order' name name' fs fs1 f fs2 (eqv : forall f, f_type f -> f_type f -> Prop) x : reorders order -> reorders order' ->
  NoDup (used_keys fs) -> Forall (fun k => scalar_str k = true) (used_keys fs) -> covers fs fs1 -> f_ignored f = false -> ~ In (f_key f) (used_keys fs) ->
  each_field (fun f y => legal (to_json (f_codec f) y) /\ round_trips (f_codec f) (eqv f) y) fs x ->
  finite (to_json (derived name fs) x) = true -> balanced (to_json (derived name fs) x) = true ->
  decode order' (derived name' (fs1 ++ f :: fs2)) (encode order (derived name fs) x) = Err (mkError MissingKey (lit "missing key """ ++ f_key f ++ lit """.")).
Proof.
  intros R R' N K C I A H F B.
  assert (L : legal (to_json (derived name fs) x)).
  { apply derived_legal; auto. clear - H. induction fs as [|g fs IH]; cbn in *; auto. destruct H as [H1 H2]. split; [intros Hg; apply (H1 Hg)|auto]. }
  assert (RT : each_field (fun f y => round_trips (f_codec f) (eqv f) y) fs x).
  { clear - H. induction fs as [|g fs IH]; cbn in *; auto. destruct H as [H1 H2]. split; [intros Hg; apply (H1 Hg)|auto]. }
  pose proof (print_parse_legal _ L F) as P. rewrite B in P. unfold decode, convert. rewrite encode_reorders by auto. rewrite P. cbn [bind].
  assert (S : same (to_json (derived name fs) x) (order' (canon (to_json (derived name fs) x)))) by (eapply same_trans; [apply canon_same|apply R']).
  destruct (derived_round_trips name fs eqv x N RT _ S) as (y & Ey & _).
  remember (order' (canon (to_json (derived name fs) x))) as j eqn:Ej. clear Ej.
  destruct (derived_members name fs x N) as (o & E & So & G). rewrite E in S. pose proof S as S'.
  inversion S' as [? p o' Pm Fm| | | | |]; subst.
  assert (M : member (f_key f) o' = None).
  { pose proof (same_get o o' (keys_sorted_NoDup _ So) S (f_key f)) as SG. rewrite G in SG. rewrite member_get.
    assert (Z : lookup str_eqb (f_key f) (field_jsons fs x) = None).
    { destruct (lookup str_eqb (f_key f) (field_jsons fs x)) as [v|] eqn:Lk; auto. exfalso. apply A. rewrite <- (field_jsons_keys fs x).
      apply (lookup_some str_eqb str_dec) in Lk; [|unfold is_map; now rewrite field_jsons_keys]. now apply in_map with (f := fst) in Lk. }
    rewrite Z in SG. cbn in SG. destruct (hm_get (f_key f) o'); [contradiction|reflexivity]. }
  apply derived_fails. right. exists o', fs1, f, fs2. split; auto. split; auto. split; [|split; auto].
  apply Forall_forall. intros g Hg. unfold field_reads. destruct g as [i k [] T c d]; [now left|]. right. cbn.
  apply derived_reads in Ey as (o2 & [= <-] & Ry). destruct (declares_gives fs y k T c) as [v Hv]. { apply C. now exists i, d. }
  destruct (reads_gives _ _ _ _ _ _ _ Ry Hv) as (w & Mw & Fw). eauto.
Qed.

(** * Examples *)
(** The person of [PropsDerive], as a later program declares it: the cache is gone, the position comes first under another name, and an
    ignored field is new. *)
Definition person_fields_2 : list field :=
  [mkField (lit "place") (lit "pos") false _ (c_vec (derived (lit "Inner") inner_fields)) [];
   mkField (lit "age") (lit "age") true Z (c_int U8) 7%Z;
   mkField (lit "title") (lit "full name") false str c_string (lit "?")].
Example person_2_covered : covers person_fields person_fields_2 /\ covers person_fields_2 person_fields.
Proof.
  split.
  - apply (covers_cons _ _ _ _ _ _ _ (lit "pos") []); [cbn; auto|]. apply covers_ignored. apply (covers_cons _ _ _ _ _ _ _ (lit "name") []); [cbn; auto|]. apply covers_nil.
  - apply (covers_cons _ _ _ _ _ _ _ (lit "title") (lit "?")); [cbn; auto|]. apply covers_ignored. apply (covers_cons _ _ _ _ _ _ _ (lit "place") []); [cbn; auto|]. apply covers_nil.
Qed.
(** Both write the same text, and each reads the other's. *)
Definition person_2 : struct_value person_fields_2 := ([((-3)%Z, tt)], (40%Z, (lit "Ann", tt))).
Example persons_write_the_same : to_json (derived (lit "Person") person_fields) person = to_json (derived (lit "Person2") person_fields_2) person_2.
Proof.
  apply same_fields_same_json.
  - cbn. repeat constructor; cbn; intuition discriminate.
  - cbn. repeat constructor; cbn; intuition discriminate.
  - intros k v. rewrite <- !field_jsons_shows. cbn. tauto.
Qed.
Example person_2_reads : decode (fun j => j) (derived (lit "Person2") person_fields_2) (lit "{""pos"":[{""x"":-3,""y"":4}],""new"":null,""full name"":""Ann""}") =
  Ok ([((-3)%Z, tt)], (7%Z, (lit "Ann", tt))).
Proof. vm_compute. reflexivity. Qed.
Example person_meets_newer : exists x', decode canon (derived (lit "Person2") person_fields_2) (encode canon (derived (lit "Person") person_fields) person) = Ok x' /\
    forall k T (c : codec T) v', gives person_fields_2 x' k c v' -> exists i d v, has person_fields person (mkField i k false T c d) v /\ v = v'.
Proof.
  apply (newer_documents_read canon canon (lit "Person") (lit "Person2") person_fields person_fields_2 same_fields person reorders_canon reorders_canon).
  - cbn. repeat constructor; cbn; intuition discriminate.
  - repeat constructor.
  - apply person_2_covered.
  - pose proof person_meets_the_hypotheses as H. cbn in H |- *. destruct H as (H1 & _ & H3 & _). split; [intros _; split; [now constructor|now apply H1]|].
    split; [discriminate|]. split; auto. intros _. split; [|now apply H3]. vm_compute. repeat constructor. all: intros [].
  - vm_compute. reflexivity.
  - vm_compute. reflexivity.
Qed.
(** A new field of an optional type is still required. *)
Example new_optional_field_is_required : decode canon (derived (lit "Person") (person_fields ++ [mkField (lit "nick") (lit "nick") false _ (c_option c_string) None]))
  (encode canon (derived (lit "Person") person_fields) person) = Err (mkError MissingKey (lit "missing key ""nick"".")).
Proof. vm_compute. reflexivity. Qed.

(** Conversions from JSON: which succeed, with which value, and with which error the others fail (C34). *)
From Verif Require Import Base F64 Json Convert SpecNumber SpecValue SpecConvert SpecErrors MapProofs NumberProofs FloatProofs CanonProofs ConvertNumProofs KeyProofs ConvertProofs PropsConvert PathTextProofs.
From Coq Require Import Floats.SpecFloat.
Open Scope N_scope.
Notation is_finite := F64.is_finite.

Lemma collect_app {A B} (f : A -> res B) l1 l2 : collect f (l1 ++ l2) = let? a := collect f l1 in let? b := collect f l2 in Ok (a ++ b).
Proof.
  induction l1 as [|x l1 IH]; cbn.
  - now destruct (collect f l2).
  - destruct (f x) as [y| | |]; cbn; auto. rewrite IH. destruct (collect f l1) as [a| | |]; cbn; auto. now destruct (collect f l2).
Qed.
(** One member of an object. *)
Definition member_of {K V} (kc : key_codec K) (c : codec V) (m : str * json) : res (K * V) :=
  let? k := read_key kc (fst m) in let? v := from_json c (snd m) in Ok (k, v).
Lemma collect_map {A B C} (g : A -> B) (f : B -> res C) l : collect f (map g l) = collect (fun a => f (g a)) l.
Proof. induction l as [|a l IH]; cbn; auto. now rewrite IH. Qed.
Lemma pairs_members {K V} (kc : key_codec K) (c : codec V) o :
  (let? ls := collect (pairs_of_entry kc c) o in Ok (List.concat ls)) = collect (member_of kc c) (members o).
Proof.
  induction o as [|e o IH]; cbn [members flat_map collect]; auto. rewrite collect_app, collect_map. change (flat_map _ o) with (members o). rewrite <- IH.
  assert (E : collect (fun a => member_of kc c (fst e, a)) (rev (snd (snd e)) ++ [fst (snd e)]) = pairs_of_entry kc c e) by reflexivity.
  rewrite E. destruct (pairs_of_entry kc c e) as [l| | |]; cbn [bind]; auto. destruct (collect (pairs_of_entry kc c) o) as [ls| | |]; cbn [bind]; auto.
Qed.
Definition insert_all {K V} (eqb : K -> K -> bool) (l m : list (K * V)) := fold_left (fun m kv => map_insert eqb (fst kv) (snd kv) m) l m.
Lemma map_members {K V} (eqb : K -> K -> bool) (kc : key_codec K) (c : codec V) o : forall m,
  map_of_entries eqb kc c o m = let? l := collect (member_of kc c) (newest o) in Ok (insert_all eqb l m).
Proof.
  induction o as [|[k [v w]] o IH]; intros m; cbn; auto. unfold member_of at 1; cbn. destruct (read_key kc k) as [x| | |]; cbn; auto.
  destruct (from_json c v) as [y| | |]; cbn; auto. rewrite IH. unfold newest. cbn. now destruct (collect (member_of kc c) _).
Qed.
Lemma collect_good {A B} (f : A -> res B) good l : (forall a, (exists b, f a = Ok b) <-> good a) -> ((exists bs, collect f l = Ok bs) <-> Forall good l).
Proof.
  intros G. split.
  - intros [bs H]. apply collect_ok in H. induction H; constructor; auto. apply G. eauto.
  - induction 1 as [|a l Ha H [bs IH]]; cbn; eauto. apply G in Ha as [b ->]. cbn. rewrite IH. cbn. eauto.
Qed.
Lemma collect_bad {A B} (f : A -> res B) good (bad : A -> error -> Prop) l e : (forall a, (exists b, f a = Ok b) <-> good a) -> (forall a e, f a = Err e <-> bad a e) ->
  (collect f l = Err e <-> first_bad good bad l e).
Proof.
  intros G D. rewrite collect_err. unfold first_failure, first_bad. split; intros (l1 & a & l2 & E & H1 & H2); exists l1, a, l2; split; auto; split.
  - revert H2. apply Forall_impl. intros b. apply G.
  - now apply D.
  - now apply D.
  - revert H1. apply Forall_impl. intros b. apply G.
Qed.

(** * Which values convert *)
Lemma fits_cases t j : fits t j <-> right_kind t j /\
  match t, j with
  | TVec a, JArr v => Forall (fits a) v
  | TOption a, _ => j = JNull \/ fits a j
  | TPairs k a, JObj o => Forall (fun m => readable k (fst m) /\ fits a (snd m)) (members o)
  | TMap k a, JObj o => Forall (fun m => readable k (fst m) /\ fits a (snd m)) (newest o)
  | _, _ => True
  end.
Proof. destruct t; cbn [fits]; reflexivity. Qed.
Lemma readable_read k s : readable k s <-> exists x, read (key_codec_of k) s = Some x.
Proof. unfold readable. split; intros [x H]; exists x; now apply keys_are_read_as_these_texts. Qed.
Lemma member_good k a : (forall j, (exists x, from_json (codec_of a) j = Ok x) <-> fits a j) ->
  forall m, (exists x, member_of (key_codec_of k) (codec_of a) m = Ok x) <-> readable k (fst m) /\ fits a (snd m).
Proof.
  intros IH [s j]. rewrite readable_read. unfold member_of, read_key. cbn. rewrite <- IH. destruct (read (key_codec_of k) s) as [x|]; cbn.
  - destruct (from_json (codec_of a) j) as [y| | |]; cbn; split; try (intros [? ?]; discriminate); try (intros [_ [? ?]]; discriminate); intros _; repeat split; eauto.
  - split; [intros [? ?]; discriminate|intros [[? ?] _]; discriminate].
Qed.
Theorem converts_iff_fits t : forall j, (exists x, from_json (codec_of t) j = Ok x) <-> fits t j.
Proof.
  induction t as [| | |w| | |a IH|a IH|k a IH|k a IH]; intros j; rewrite fits_cases; cbn [codec_of denote];
    try (destruct j; cbn; (split; [intros [? H]; first [discriminate H|tauto]|intros [H _]; first [contradiction|eauto]])).
  - destruct j as [|v| | | |]; cbn; try (split; [intros [? ?]; discriminate|intros [[] _]]). rewrite (collect_good _ (fits a)); auto. tauto.
  - transitivity (j = JNull \/ fits a j); [|cbn; tauto]. rewrite <- IH. destruct j; cbn; [| | | | |split; eauto];
      (destruct (from_json (codec_of a) _) as [y|e| |]; cbn; (split; [intros [? H]; try discriminate; right; eauto|intros [H|[? H]]; try discriminate; eauto])).
  - destruct j as [o| | | | |]; cbn [right_kind]; try (cbn; split; [intros [? ?]; discriminate|intros [[] _]]).
    cbn [from_json c_pairs]. rewrite pairs_members. rewrite (collect_good _ _ _ (member_good k a IH)). tauto.
  - destruct j as [o| | | | |]; cbn [right_kind]; try (cbn; split; [intros [? ?]; discriminate|intros [[] _]]).
    cbn [from_json c_map]. rewrite map_members. rewrite <- (collect_good _ _ _ (member_good k a IH)).
    destruct (collect _ _) as [l|e| |]; cbn; split; try (intros [? ?]; discriminate); try (intros [_ [? ?]]; discriminate); eauto.
Qed.

(** * Errors *)
Lemma fails_cases t j e : fails t j e <-> (~ right_kind t j /\ e = kind_error j (type_text t)) \/
  match t, j with
  | TVec a, JArr v => first_bad (fits a) (fails a) v e
  | TOption a, _ => j <> JNull /\ fails a j e
  | TPairs k a, JObj o => first_bad (fun m => readable k (fst m) /\ fits a (snd m))
      (fun m e => (~ readable k (fst m) /\ e = key_error (fst m)) \/ (readable k (fst m) /\ fails a (snd m) e)) (members o) e
  | TMap k a, JObj o => first_bad (fun m => readable k (fst m) /\ fits a (snd m))
      (fun m e => (~ readable k (fst m) /\ e = key_error (fst m)) \/ (readable k (fst m) /\ fails a (snd m) e)) (newest o) e
  | _, _ => False
  end.
Proof. destruct t; cbn [fails]; reflexivity. Qed.
Lemma member_bad k a : (forall j e, from_json (codec_of a) j = Err e <-> fails a j e) ->
  forall m e, member_of (key_codec_of k) (codec_of a) m = Err e <-> (~ readable k (fst m) /\ e = key_error (fst m)) \/ (readable k (fst m) /\ fails a (snd m) e).
Proof.
  intros IH [s j] e. rewrite readable_read. unfold member_of, read_key. cbn. rewrite <- IH. destruct (read (key_codec_of k) s) as [x|]; cbn.
  - split.
    + intros H. right. split; eauto. destruct (from_json (codec_of a) j) as [y| | |]; cbn in H; try discriminate. congruence.
    + intros [[H _]|[_ H]]; [exfalso; eauto|]. now rewrite H.
  - unfold fail, key_error. split.
    + intros H. left. split; [intros [? ?]; discriminate|]. now inversion H.
    + intros [[_ ->]|[[? ?] _]]; [reflexivity|discriminate].
Qed.
Theorem fails_with_the_first_error t : forall j e, from_json (codec_of t) j = Err e <-> fails t j e.
Proof.
  induction t as [| | |w| | |a IH|a IH|k a IH|k a IH]; intros j e; rewrite fails_cases; cbn [codec_of denote];
    try (destruct j; cbn; unfold cannot_convert, fail, kind_error; (split; [intros H; first [discriminate H|left; (split; [tauto|now inversion H])]|intros [[H ->]|[]]; first [tauto|reflexivity]])).
  - destruct w; destruct j; cbn; unfold cannot_convert, fail, kind_error; (split; [intros H; first [discriminate H|left; (split; [tauto|]); now inversion H]|intros [[H ->]|[]]; try tauto; reflexivity]).
  - destruct j as [|v| | | |]; cbn; try (unfold cannot_convert, fail, kind_error; (split; [intros H; left; (split; [tauto|]); now inversion H|intros [[H ->]|[]]; reflexivity])).
    rewrite (collect_bad _ (fits a) (fails a)); auto using converts_iff_fits. tauto.
  - transitivity (j <> JNull /\ fails a j e); [|cbn; tauto]. rewrite <- IH. destruct j; cbn;
      try (destruct (from_json (codec_of a) _) as [y|e'| |]; cbn; (split; [intros H|intros [_ H]]; try discriminate; try (split; congruence); congruence)).
    split; [discriminate|]. intros [H _]. congruence.
  - destruct j as [o| | | | |]; cbn [right_kind]; try (cbn; unfold cannot_convert, fail, kind_error; (split; [intros H; left; (split; [tauto|]); now inversion H|intros [[H ->]|[]]; reflexivity])).
    cbn [from_json c_pairs]. rewrite pairs_members. rewrite (collect_bad _ _ _ _ _ (member_good k a (converts_iff_fits a)) (member_bad k a IH)). tauto.
  - destruct j as [o| | | | |]; cbn [right_kind]; try (cbn; unfold cannot_convert, fail, kind_error; (split; [intros H; left; (split; [tauto|]); now inversion H|intros [[H ->]|[]]; reflexivity])).
    cbn [from_json c_map]. rewrite map_members. rewrite or_comm, <- (collect_bad _ _ _ _ _ (member_good k a (converts_iff_fits a)) (member_bad k a IH)).
    destruct (collect _ _) as [l|e'| |]; cbn; split; intros H; try destruct H as [H|[H _]]; try discriminate; try tauto; try (left; congruence); congruence.
Qed.
Lemma first_bad_ex {A} good (bad : A -> error -> Prop) l e : first_bad good bad l e -> exists a, bad a e.
Proof. intros (l1 & a & l2 & _ & _ & H). eauto. Qed.
Theorem conversion_errors_are_convert_errors t : forall j e, from_json (codec_of t) j = Err e -> kind e = ConvertError.
Proof.
  intros j e H. apply fails_with_the_first_error in H. revert j e H.
  induction t as [| | |w| | |a IH|a IH|k a IH|k a IH]; intros j e H; rewrite fails_cases in H; destruct H as [[_ ->]|H]; try reflexivity; try contradiction; destruct j; try contradiction;
    try (destruct H as [_ H]; eauto; fail); apply first_bad_ex in H as [m H]; eauto; destruct H as [[_ ->]|[_ H]]; eauto; reflexivity.
Qed.
(** A conversion ends, with a value or an error; it does not panic. *)
Theorem conversions_are_total t : total (codec_of t).
Proof.
  induction t as [| | |w| | |a IH|a IH|k a IH|k a IH]; intros j; cbn [codec_of];
    try (destruct j; cbn; unfold cannot_convert, fail; eauto; fail).
  - destruct j; cbn; unfold cannot_convert, fail; eauto. apply collect_total. auto.
  - assert (E : (exists x, (let? y := from_json (codec_of a) j in Ok (Some y)) = Ok x) \/ (exists e, (let? y := from_json (codec_of a) j in Ok (Some y)) = Err e)).
    { destruct (IH j) as [[x ->]|[e ->]]; cbn; eauto. }
    destruct j; cbn in *; eauto.
  - destruct j as [o| | | | |]; try (cbn; unfold cannot_convert, fail; eauto; fail). cbn [from_json c_pairs]. rewrite pairs_members. apply collect_total. intros [s j] _.
    unfold member_of, read_key, fail. cbn. destruct (read (key_codec_of k) s); cbn; eauto. destruct (IH j) as [[x ->]|[e ->]]; cbn; eauto.
  - destruct j as [o| | | | |]; try (cbn; unfold cannot_convert, fail; eauto; fail). cbn [from_json c_map]. rewrite map_members.
    destruct (collect_total (member_of (key_codec_of k) (codec_of a)) (newest o)) as [[l ->]|[e ->]]; cbn; eauto. intros [s j] _.
    unfold member_of, read_key, fail. cbn. destruct (read (key_codec_of k) s); cbn; eauto. destruct (IH j) as [[x ->]|[e ->]]; cbn; eauto.
Qed.

(** * The value *)
Lemma insert_all_snoc {K V} (eqb : K -> K -> bool) l k (v : V) m : insert_all eqb (l ++ [(k, v)]) m = map_insert eqb k v (insert_all eqb l m).
Proof. unfold insert_all. now rewrite fold_left_app. Qed.
Lemma map_insert_keys {K V} (eqb : K -> K -> bool) k (v : V) m : decides eqb -> map fst (map_insert eqb k v m) = map fst m \/ (~ In k (map fst m) /\ map fst (map_insert eqb k v m) = map fst m ++ [k]).
Proof.
  intros D. induction m as [|[k' v'] m IH]; cbn; auto. destruct (eqb k k') eqn:E; cbn; auto. destruct IH as [IH|[N IH]]; rewrite IH; auto.
  right. split; auto. intros [C|C]; auto. subst. pose proof (eqb_refl' eqb D k). congruence.
Qed.
Lemma map_insert_is_map {K V} (eqb : K -> K -> bool) k (v : V) m : decides eqb -> is_map m -> is_map (map_insert eqb k v m).
Proof.
  unfold is_map. intros D N. destruct (map_insert_keys eqb k v m D) as [E|[H E]]; rewrite E; auto.
  apply NoDup_rev in N. rewrite <- (rev_involutive (map fst m ++ [k])). apply NoDup_rev. rewrite rev_app_distr. cbn. constructor; auto.
  now rewrite <- in_rev.
Qed.
Lemma map_insert_lookup {K V} (eqb : K -> K -> bool) k (v : V) m x : decides eqb -> lookup eqb x (map_insert eqb k v m) = if eqb x k then Some v else lookup eqb x m.
Proof.
  intros D. unfold lookup. induction m as [|[k' v'] m IH]; cbn [map_insert].
  - rewrite at_key_cons. now destruct (eqb x k).
  - destruct (eqb k k') eqn:E.
    + apply D in E. subst k'. rewrite !at_key_cons. now destruct (eqb x k).
    + rewrite !at_key_cons. destruct (eqb x k') eqn:E2; auto. apply D in E2. subst k'.
      destruct (eqb x k) eqn:E3; auto. apply D in E3. subst k. rewrite (eqb_refl' eqb D) in E. discriminate.
Qed.
Lemma insert_all_spec k a ms l : forall (R : json -> denote a -> Prop),
  Forall2 (fun m x => key_text k (fst m) (fst x) /\ R (snd m) (snd x)) ms l ->
  is_map (insert_all (key_eqb k) l []) /\ forall x, last_for k R ms x (lookup (key_eqb k) x (insert_all (key_eqb k) l [])).
Proof.
  intros R. pose proof (key_eqb_decides k) as D. revert ms. induction l as [|[q v] l IH] using rev_ind; intros ms F.
  - inversion F; subst. split; [constructor|]. intros x. cbn. constructor.
  - apply Forall2_app_inv_r in F as (ms' & t & F1 & F2 & ->). inversion F2 as [|[s j] ? t' ? [Hs Hv] F3]; subst. inversion F3; subst. clear F2 F3. cbn in Hs, Hv.
    rewrite insert_all_snoc. destruct (IH _ F1) as [M L]. split; [now apply map_insert_is_map|]. intros x. rewrite map_insert_lookup by auto.
    destruct (key_eqb k x q) eqn:E.
    + apply D in E. subst q. cbn. exists ms', s, j, []. auto.
    + specialize (L x). assert (Ns : ~ key_text k s x). { apply keys_are_read_as_these_texts in Hs. intros C. apply keys_are_read_as_these_texts in C. rewrite Hs in C. inversion C; subst. rewrite (eqb_refl' _ D) in E. discriminate. }
      destruct (lookup (key_eqb k) x _) as [y|]; cbn in *.
      * destruct L as (l1 & s' & j' & l2 & -> & A & B & C). exists l1, s', j', (l2 ++ [(s, j)]). rewrite <- app_assoc. repeat split; auto. apply Forall_app; auto.
      * apply Forall_app; auto.
Qed.
Lemma member_value k a ms l : (forall j x, from_json (codec_of a) j = Ok x -> reads a j x) -> collect (member_of (key_codec_of k) (codec_of a)) ms = Ok l ->
  Forall2 (fun m x => key_text k (fst m) (fst x) /\ reads a (snd m) (snd x)) ms l.
Proof.
  intros IH H. apply collect_ok in H. revert H. apply Forall2_impl. intros [s j] [q v] H. unfold member_of, read_key in H. cbn in *.
  rewrite <- keys_are_read_as_these_texts. destruct (read (key_codec_of k) s) as [x|]; cbn in H; [|discriminate]. destruct (from_json (codec_of a) j) as [y| | |] eqn:E; cbn in H; try discriminate. inversion H; subst. auto.
Qed.
Theorem converted_value t : forall j x, from_json (codec_of t) j = Ok x -> reads t j x.
Proof.
  induction t as [| | |w| | |a IH|a IH|k a IH|k a IH]; intros j x H; cbn [codec_of denote reads] in *.
  - inversion H. reflexivity.
  - destruct j; cbn in H; try discriminate. congruence.
  - destruct j; cbn in H; try discriminate. congruence.
  - destruct j as [| | |f| |]; try discriminate. exists f. split; auto. destruct (number_to_integer w f) as (n & E & R). rewrite E in H. inversion H; subst. exact R.
  - destruct j; cbn in H; try discriminate. congruence.
  - destruct j as [| | |f| |]; try discriminate. exists f. split; auto. split.
    + intros V F. destruct (number_to_nearest_f32 f V F) as (g & E & _ & G). rewrite E in H. inversion H; subst. exact G.
    + intros F. destruct f; try discriminate; cbn in H; congruence.
  - destruct j as [|v| | | |]; try discriminate. exists v. split; auto. cbn in H. apply collect_ok in H. revert H. now apply Forall2_impl.
  - destruct j; cbn in H; try (destruct (from_json (codec_of a) _) as [y| | |] eqn:E; cbn in H; [|discriminate..]; inversion H; subst; split; [discriminate|auto]). inversion H. auto.
  - destruct j as [o| | | | |]; try discriminate. exists o. split; auto. cbn [from_json c_pairs] in H. rewrite pairs_members in H. now apply member_value.
  - destruct j as [o| | | | |]; try discriminate. exists o. split; auto. cbn [from_json c_map] in H. rewrite map_members in H.
    destruct (collect _ _) as [l| | |] eqn:E; cbn in H; try discriminate. inversion H; subst. apply (insert_all_spec k a). now apply member_value.
Qed.

(** Examples: the kind, an element in the middle, a key before its value, an older value of a repeated key. *)
Definition dup_doc : json := JObj [(lit "1", (JBool true, [JNull])); (lit "x", (JStr [], []))].
Example conversion_error_examples :
  fails (TVec (TInt I8)) (JArr [JNum (S754_zero false); JBool true; JNull]) (kind_error (JBool true) "i8.") /\
  from_json (codec_of (TPairs (KInt I8) TBool)) dup_doc = Err (kind_error JNull "bool.") /\
  from_json (codec_of (TMap (KInt I8) TBool)) dup_doc = Err (key_error (lit "x")) /\
  fits (TMap KString (TOption TJson)) dup_doc.
Proof.
  split; [|split; [|split]]; try (vm_compute; reflexivity).
  - apply fails_with_the_first_error. vm_compute. reflexivity.
  - apply converts_iff_fits. vm_compute. eauto.
Qed.

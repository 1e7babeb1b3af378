(** Properties of types that contain themselves (C78). *)
From Verif Require Import Base F64 Json Parse Print Ops Convert Derive SpecGrammar SpecLenient SpecValue SpecConvert SpecErrors SpecDerive MapProofs CanonProofs
  ConvertNumProofs ConvertProofs PropsConvert PropsErrors PropsDerive Types SpecTypes.
From Coq Require Import Permutation Lia.
Open Scope N_scope.

(** * The generated code over lists of fields *)
Fixpoint member_jsons (env : str -> codec val) (fs : list rfield) (l : list val) : list (str * json) :=
  match fs, l with
  | f :: fs, x :: l => (if r_ignored f then [] else [(r_key f, to_json (codec_in env (r_type f)) x)]) ++ member_jsons env fs l
  | _, _ => []
  end.
Fixpoint member_reads (env : str -> codec val) (fs : list rfield) (o : hmap) : res (list val) :=
  match fs with
  | [] => Ok []
  | f :: fs =>
      if r_ignored f then let? rest := member_reads env fs o in Ok (r_default f :: rest)
      else match hm_get (r_key f) o with
           | Some (v, _) => let? x := from_json (codec_in env (r_type f)) v in let? rest := member_reads env fs o in Ok (x :: rest)
           | None => missing_key (r_key f)
           end
  end.
Lemma to_tuple_jsons env fs : forall l,
  match to_tuple env fs l with
  | Some x => List.length l = List.length fs /\ field_jsons (map (field_in env) fs) x = member_jsons env fs l
  | None => List.length l <> List.length fs
  end.
Proof.
  induction fs as [|f fs IH]; intros [|y l]; cbn [to_tuple]; try (cbn; auto; discriminate). specialize (IH l).
  destruct (to_tuple env fs l) as [x|]; cbn [option_map].
  - destruct IH as [A B]. split; [cbn; congruence|]. cbn. now rewrite B.
  - cbn. lia.
Qed.
Lemma struct_to_json env d v : to_json (struct_codec env d) v =
  match v with
  | VStruct l => if Nat.eqb (List.length l) (List.length (d_fields d)) then JObj (pairs_object k_string c_json (member_jsons env (d_fields d) l) []) else JNull
  | _ => JNull
  end.
Proof.
  unfold struct_codec, as_val. cbn [to_json]. destruct v as [| | | | | | | | |l]; auto. pose proof (to_tuple_jsons env (d_fields d) l) as H.
  destruct (to_tuple env (d_fields d) l) as [x|].
  - destruct H as [A B]. rewrite A, Nat.eqb_refl, derived_to_json, B. reflexivity.
  - destruct (Nat.eqb_spec (List.length l) (List.length (d_fields d))); [contradiction|reflexivity].
Qed.
Lemma read_fields_list env fs o : rmap (of_tuple env fs) (read_fields (map (field_in env) fs) o) = member_reads env fs o.
Proof.
  induction fs as [|f fs IH]; [reflexivity|]. cbn [map read_fields member_reads field_in f_ignored f_key f_codec f_default f_type].
  destruct (r_ignored f).
  - rewrite <- IH. destruct (read_fields (map (field_in env) fs) o); reflexivity.
  - destruct (hm_get (r_key f) o) as [[v w]|]; [|reflexivity]. destruct (from_json (codec_in env (r_type f)) v); cbn [bind]; try reflexivity.
    rewrite <- IH. destruct (read_fields (map (field_in env) fs) o); reflexivity.
Qed.
Lemma struct_from_json env d j : from_json (struct_codec env d) j =
  match j with JObj o => rmap VStruct (member_reads env (d_fields d) o) | _ => cannot_convert j (d_name d ++ lit ".") end.
Proof.
  unfold struct_codec, as_val. cbn [from_json derived]. destruct j as [o| | | | |]; try reflexivity. rewrite <- read_fields_list.
  destruct (read_fields (map (field_in env) (d_fields d)) o); reflexivity.
Qed.

(** * Depth *)
Lemma max_in {A} (f : A -> nat) l x : In x l -> (f x <= fold_right (fun y n => Nat.max (f y) n) O l)%nat.
Proof. induction l as [|y l IH]; [intros []|]. intros [->|H]; cbn; [lia|]. apply IH in H. lia. Qed.
Lemma entry_depth o k v l : In (k, (v, l)) o -> (jdepth v < jdepth (JObj o))%nat /\ forall x, In x l -> (jdepth x < jdepth (JObj o))%nat.
Proof.
  intros H. apply (max_in (fun e : entry => Nat.max (jdepth (fst (snd e))) (fold_right (fun x n => Nat.max (jdepth x) n) O (snd (snd e))))) in H. cbn [fst snd] in H.
  cbn [jdepth]. split; [lia|]. intros x Hx. apply (max_in jdepth) in Hx. lia.
Qed.
Lemma element_depth v x : In x v -> (jdepth x < jdepth (JArr v))%nat.
Proof. intros H. apply (max_in jdepth) in H. cbn [jdepth]. lia. Qed.
Lemma get_depth o k v l : hm_get k o = Some (v, l) -> (jdepth v < jdepth (JObj o))%nat.
Proof. intros H. apply hm_get_In in H. exact (proj1 (entry_depth o k v l H)). Qed.
Lemma members_depth o s j : In (s, j) (members o) -> (jdepth j < jdepth (JObj o))%nat.
Proof.
  unfold members. intros H. apply in_flat_map in H as ([k [v l]] & H & Hin). apply in_map_iff in Hin as (x & [= <- <-] & Hx). cbn [fst snd] in Hx.
  destruct (entry_depth o k v l H) as [A B]. apply in_app_or in Hx as [Hx|[<-|[]]]; auto. apply B. now apply in_rev.
Qed.
Lemma newest_depth o s j : In (s, j) (newest o) -> (jdepth j < jdepth (JObj o))%nat.
Proof. unfold newest. intros H. apply in_map_iff in H as ([k [v l]] & [= <- <-] & H). exact (proj1 (entry_depth o k v l H)). Qed.

(** * Conversions of what is in a value *)
Lemma collect_ext {A B} (f g : A -> res B) l : (forall a, In a l -> f a = g a) -> collect f l = collect g l.
Proof. induction l as [|a l IH]; intros H; cbn; auto. rewrite (H a) by now left. rewrite IH; auto. intros; apply H; now right. Qed.
Lemma fold_left_ext_in {A B} (f g : B -> A -> B) l : (forall b a, In a l -> f b a = g b a) -> forall b, fold_left f l b = fold_left g l b.
Proof. induction l as [|a l IH]; intros H b; cbn; auto. rewrite (H b a) by now left. apply IH. intros; apply H; now right. Qed.
Lemma pairs_from {K V} (kc : key_codec K) (c : codec V) o : from_json (c_pairs kc c) (JObj o) = collect (member_of kc c) (members o).
Proof. cbn [from_json c_pairs]. apply pairs_members. Qed.
Lemma map_from {K V} (eqb : K -> K -> bool) (kc : key_codec K) (c : codec V) o :
  from_json (c_map eqb kc c) (JObj o) = let? l := collect (member_of kc c) (newest o) in Ok (insert_all eqb l []).
Proof. cbn [from_json c_map]. apply map_members. Qed.

Lemma to_agree (P : str -> Prop) env env' m : (forall n v, P n -> (vdepth v <= m)%nat -> to_json (env n) v = to_json (env' n) v) ->
  forall t v, (forall n, In n (mentions t) -> P n) -> (vdepth v <= m)%nat -> to_json (codec_in env t) v = to_json (codec_in env' t) v.
Proof.
  intros H t. induction t as [| | |w| | |a IH|a IH|k a IH|k a IH|n]; intros v M D; try reflexivity; try (apply H; [apply M; now left|exact D]); specialize (fun v => IH v M); destruct v as [| | | | | |l|[x|]|l|]; try reflexivity; cbn [codec_in as_val to_json c_vec c_option c_pairs c_map]; cbn [vdepth] in D.
  - f_equal. apply map_ext_in. intros x Hx. apply IH. apply (max_in vdepth) in Hx. lia.
  - apply IH. lia.
  - f_equal. apply fold_left_ext_in. intros o kv Hx. apply (max_in (fun kv => vdepth (snd kv))) in Hx. rewrite IH; [reflexivity|lia].
  - f_equal. apply fold_left_ext_in. intros o kv Hx. apply (max_in (fun kv => vdepth (snd kv))) in Hx. rewrite IH; [reflexivity|lia].
Qed.
Lemma from_agree (P : str -> Prop) env env' m : (forall n j, P n -> (jdepth j <= m)%nat -> from_json (env n) j = from_json (env' n) j) ->
  forall t j, (forall n, In n (mentions t) -> P n) -> (jdepth j <= m)%nat -> from_json (codec_in env t) j = from_json (codec_in env' t) j.
Proof.
  intros H t. induction t as [| | |w| | |a IH|a IH|k a IH|k a IH|n]; intros j M D; try reflexivity; try (apply H; [apply M; now left|exact D]); specialize (fun j => IH j M); cbn [codec_in as_val from_json].
  - destruct j as [|v| | | |]; try reflexivity. cbn [c_vec from_json]. f_equal. apply collect_ext. intros x Hx. apply IH. apply element_depth in Hx. lia.
  - cbn [c_option from_json]. destruct j; try reflexivity; now rewrite IH.
  - destruct j as [o| | | | |]; try reflexivity. rewrite !pairs_from. f_equal. apply collect_ext. intros [s j] Hx. apply members_depth in Hx. unfold member_of. cbn [fst snd]. rewrite IH; [reflexivity|lia].
  - destruct j as [o| | | | |]; try reflexivity. rewrite !map_from. do 2 f_equal. apply collect_ext. intros [s j] Hx. apply newest_depth in Hx. unfold member_of. cbn [fst snd]. rewrite IH; [reflexivity|lia].
Qed.
Lemma struct_to_agree (P : str -> Prop) env env' m d v : (forall f n, In f (d_fields d) -> In n (mentions (r_type f)) -> P n) ->
  (forall n v, P n -> (vdepth v <= m)%nat -> to_json (env n) v = to_json (env' n) v) -> (vdepth v <= S m)%nat ->
  to_json (struct_codec env d) v = to_json (struct_codec env' d) v.
Proof.
  intros M H D. rewrite !struct_to_json. destruct v as [| | | | | | | | |l]; try reflexivity. destruct (Nat.eqb _ _); [|reflexivity]. f_equal. f_equal.
  cbn [vdepth] in D. assert (Dl : forall x, In x l -> (vdepth x <= m)%nat) by (intros x Hx; apply (max_in vdepth) in Hx; lia). clear D.
  revert M. generalize (d_fields d). intros fs. revert l Dl. induction fs as [|f fs IH]; intros [|x l] Dl M; try reflexivity. cbn [member_jsons].
  rewrite (IH l); [|intros; apply Dl; now right|intros g n Hg; apply M; now right]. destruct (r_ignored f); auto.
  rewrite (to_agree P env env' m H); [reflexivity|intros n; apply M; now left|apply Dl; now left].
Qed.
Lemma struct_from_agree (P : str -> Prop) env env' m d j : (forall f n, In f (d_fields d) -> In n (mentions (r_type f)) -> P n) ->
  (forall n j, P n -> (jdepth j <= m)%nat -> from_json (env n) j = from_json (env' n) j) -> (jdepth j <= S m)%nat ->
  from_json (struct_codec env d) j = from_json (struct_codec env' d) j.
Proof.
  intros M H D. rewrite !struct_from_json. destruct j as [o| | | | |]; try reflexivity. f_equal. revert M. generalize (d_fields d). intros fs. induction fs as [|f fs IH]; intros M; [reflexivity|].
  cbn [member_reads]. rewrite IH by (intros g n Hg; apply M; now right). destruct (r_ignored f); auto. destruct (hm_get (r_key f) o) as [[v w]|] eqn:G; auto.
  apply get_depth in G. rewrite (from_agree P env env' m H); [reflexivity|intros n; apply M; now left|lia].
Qed.

Lemma scalar_to env d v : vdepth v = O -> to_json (struct_codec env d) v = JNull.
Proof. intros D. rewrite struct_to_json. destruct v; try reflexivity. discriminate. Qed.
Lemma unfolded_to p : forall fuel fuel' n v, (vdepth v < fuel)%nat -> (vdepth v < fuel')%nat -> to_json (unfolded p fuel n) v = to_json (unfolded p fuel' n) v.
Proof.
  induction fuel as [|m IH]; intros [|m'] n v D D'; try lia. cbn [unfolded]. destruct (declared p n) as [d|]; [|reflexivity].
  destruct (vdepth v) as [|dv] eqn:E; [now rewrite !scalar_to|]. apply (struct_to_agree (fun _ => True) _ _ dv); auto; [|lia]. intros n' v' _ Dv. apply IH; lia.
Qed.
Lemma scalar_from env d j : jdepth j = O -> from_json (struct_codec env d) j = cannot_convert j (d_name d ++ lit ".").
Proof. intros D. rewrite struct_from_json. destruct j; try reflexivity. discriminate. Qed.
Lemma unfolded_from p : forall fuel fuel' n j, (jdepth j < fuel)%nat -> (jdepth j < fuel')%nat -> from_json (unfolded p fuel n) j = from_json (unfolded p fuel' n) j.
Proof.
  induction fuel as [|m IH]; intros [|m'] n j D D'; try lia. cbn [unfolded]. destruct (declared p n) as [d|]; [|reflexivity].
  destruct (jdepth j) as [|dv] eqn:E; [now rewrite !scalar_from|]. apply (struct_from_agree (fun _ => True) _ _ dv); auto; [|lia]. intros n' j' _ Dv. apply IH; lia.
Qed.

(** * The conversions are the generated code, and nothing else is *)
Theorem conversions_are_the_generated_code p : generated p (struct_conversions p).
Proof.
  intros n d Hd. split.
  - intros v. cbn [struct_conversions to_json unfolded]. rewrite Hd. destruct (vdepth v) as [|m] eqn:E; [now rewrite !scalar_to|]. apply (struct_to_agree (fun _ => True) _ _ m); auto; [|lia].
    intros n' v' _ D. cbn [struct_conversions to_json]. apply unfolded_to; lia.
  - intros j. cbn [struct_conversions from_json unfolded]. rewrite Hd. destruct (jdepth j) as [|m] eqn:E; [now rewrite !scalar_from|]. apply (struct_from_agree (fun _ => True) _ _ m); auto; [|lia].
    intros n' j' _ D. cbn [struct_conversions from_json]. apply unfolded_from; lia.
Qed.
(** Implementations that are the generated code agree with these: on every value and every JSON value. *)
Theorem the_generated_code_determines_the_conversions p env : compiles p -> generated p env ->
  forall t, closed p t -> (forall v, to_json (codec_in env t) v = to_json (conversions p t) v) /\ (forall j, from_json (codec_in env t) j = from_json (conversions p t) j).
Proof.
  intros C G. set (P := fun n => exists d, declared p n = Some d).
  assert (T : forall m n v, P n -> (vdepth v <= m)%nat -> to_json (env n) v = to_json (struct_conversions p n) v).
  { induction m as [|m IH]; intros n v [d Hd] D; destruct (G n d Hd) as [G1 _]; destruct (conversions_are_the_generated_code p n d Hd) as [H1 _]; rewrite G1, H1.
    - rewrite !scalar_to; auto; lia.
    - apply (struct_to_agree P _ _ m); auto. intros f n' Hf. now apply (C n d f). }
  assert (F : forall m n j, P n -> (jdepth j <= m)%nat -> from_json (env n) j = from_json (struct_conversions p n) j).
  { induction m as [|m IH]; intros n j [d Hd] D; destruct (G n d Hd) as [_ G1]; destruct (conversions_are_the_generated_code p n d Hd) as [_ H1]; rewrite G1, H1.
    - rewrite !scalar_from; auto; lia.
    - apply (struct_from_agree P _ _ m); auto. intros f n' Hf. now apply (C n d f). }
  intros t Ct. split.
  - intros v. apply (to_agree P _ _ (vdepth v)); auto. intros n' v' Pn D. now apply (T (vdepth v)).
  - intros j. apply (from_agree P _ _ (jdepth j)); auto. intros n' j' Pn D. now apply (F (jdepth j)).
Qed.

(** * Round trips *)
Lemma Forall2_len {A B} (R : A -> B -> Prop) l l' : Forall2 R l l' -> List.length l = List.length l'.
Proof. induction 1; cbn; congruence. Qed.
Lemma same_obj_inv o j : same (JObj o) j -> exists o', j = JObj o'.
Proof. inversion 1; eauto. Qed.
Lemma kval_show_of k x : kval_show (kval_of k x) = show (key_codec_of k) x.
Proof. destruct k; reflexivity. Qed.
Lemma key_of_reads_back k x : key_of k x -> reads_back (kval_codec k) x.
Proof.
  intros (y & L & ->). unfold reads_back. cbn [kval_codec show read]. rewrite kval_show_of. now rewrite (key_reads_back k y L).
Qed.
Lemma kval_eqb_decides : decides kval_eqb.
Proof.
  intros [s|b|c|z|f] [s'|b'|c'|z'|f']; cbn [kval_eqb]; try (split; discriminate).
  - rewrite (key_eqb_decides KString s s'). split; congruence.
  - rewrite (key_eqb_decides KBool b b'). split; congruence.
  - rewrite (key_eqb_decides KChar c c'). split; congruence.
  - rewrite (key_eqb_decides (KInt U8) z z'). split; congruence.
  - rewrite (key_eqb_decides KF64 f f'). split; congruence.
Qed.
Lemma as_val_round_trips {T} (inj : T -> val) proj (c : codec T) eqv (R : val -> val -> Prop) v x : proj v = Some x -> round_trips c eqv x ->
  (forall y, eqv x y -> R v (inj y)) -> round_trips (as_val inj proj c) R v.
Proof.
  intros E H Q j Hj. unfold as_val in *. cbn [to_json from_json] in *. rewrite E in Hj. destruct (H j Hj) as (y & Ey & Qy). rewrite Ey. cbn. eauto.
Qed.
Lemma round_trips_ext {T} (c c' : codec T) eqv x : to_json c x = to_json c' x -> (forall j, from_json c j = from_json c' j) -> round_trips c' eqv x -> round_trips c eqv x.
Proof. intros E F H j Hj. rewrite E in Hj. rewrite F. auto. Qed.
Lemma used_keys_in env d : used_keys (map (field_in env) (d_fields d)) = keys_used d.
Proof. unfold used_keys, keys_used. induction (d_fields d) as [|f fs IH]; cbn; auto. destruct (r_ignored f); cbn; now rewrite IH. Qed.
(** A value of a program's type is null in JSON exactly if it looks so. *)
Lemma struct_not_null p n d l : declared p n = Some d -> List.length l = List.length (d_fields d) -> to_json (struct_conversions p n) (VStruct l) <> JNull.
Proof. intros Hd E. rewrite (proj1 (conversions_are_the_generated_code p n d Hd)), struct_to_json, E, Nat.eqb_refl. discriminate. Qed.
Lemma null_in_json p : forall t v, belongs p t v -> to_json (conversions p t) v = JNull -> is_null v.
Proof.
  unfold conversions. induction t as [| | |w| | |a IH|a IH|k a IH|k a IH|n]; intros v B E; inversion B; subst; cbn [codec_in as_val to_json c_json c_string c_bool c_int c_f64 c_f32 c_vec c_option c_pairs c_map] in E; try discriminate; cbn; auto.
  apply (struct_not_null p n d l) in E; auto. symmetry. eapply Forall2_len; eauto.
Qed.

Lemma round_trip_at p : distinct_keys p -> forall m t v, (vdepth v <= m)%nat -> belongs p t v -> kept p t v -> round_trips (conversions p t) (alike p t) v.
Proof.
  intros K. induction m as [m IHm] using lt_wf_ind. intros t v D B S.
  assert (IH : forall t x, (vdepth x < vdepth v)%nat -> belongs p t x -> kept p t x -> round_trips (conversions p t) (alike p t) x).
  { intros t' x Dx. apply (IHm (vdepth x)); lia. } clear IHm D m. unfold conversions in *.
  destruct B as [j L|s L|b|w z L|f L|f L|a l L|a|a x L|k a l L|k a l M L|n d l Hd L]; cbn [codec_in].
  - apply (as_val_round_trips _ _ _ same _ _ j); auto using json_round_trip. intros y. apply a_json.
  - apply (as_val_round_trips _ _ _ eq _ _ s); auto using string_round_trip. intros y <-. apply a_string.
  - apply (as_val_round_trips _ _ _ eq _ _ b); auto using bool_round_trip. intros y <-. apply a_bool.
  - apply (as_val_round_trips _ _ _ eq _ _ z); auto; [|intros y <-; apply a_int]. apply integer_round_trip_iff; auto. inversion S; subst; auto. exfalso. intuition discriminate.
  - apply (as_val_round_trips _ _ _ eq _ _ f); auto using f64_round_trip. intros y <-. apply a_f64.
  - apply (as_val_round_trips _ _ _ eq _ _ f); auto using f32_round_trip. intros y <-. apply a_f32.
  - apply (as_val_round_trips _ _ _ (Forall2 (alike p a)) _ _ l); auto; [|intros y; apply a_vec]. apply vec_round_trip.
    inversion S as [|? ? S'| | | | | |? ? S']; subst; [|exfalso; intuition discriminate]. rewrite Forall_forall in *. intros x Hx. apply IH; auto. apply (max_in vdepth) in Hx. cbn [vdepth]. lia.
  - apply (as_val_round_trips _ _ _ (option_eqv (alike p a)) _ _ None); auto; [now apply option_round_trips|]. intros [y|]; cbn; [tauto|]. intros _. apply a_none.
  - inversion S as [| | |? ? S' N| | | |? ? S']; subst; [|exfalso; intuition discriminate]. apply (as_val_round_trips _ _ _ (option_eqv (alike p a)) _ _ (Some x)); auto.
    + apply option_round_trips. split; [apply IH; auto; cbn [vdepth]; lia|]. intros E. apply N. now apply (null_in_json p a).
    + intros [y|]; cbn; [|tauto]. apply a_some.
  - inversion S as [| | | |? ? ? S'| | |? ? S']; subst; [|exfalso; intuition discriminate].
    apply (as_val_round_trips _ _ _ (pairs_eqv kval_eqb (alike p a)) _ _ l); auto; [|intros y; apply a_pairs]. apply pairs_round_trip; [apply kval_eqb_decides|].
    rewrite Forall_forall in *. intros kv Hkv. destruct (L kv Hkv). split; [now apply key_of_reads_back|]. apply IH; auto. apply (max_in (fun kv => vdepth (snd kv))) in Hkv. cbn [vdepth]. lia.
  - inversion S as [| | | | |? ? ? S'| |? ? S']; subst; [|exfalso; intuition discriminate].
    apply (as_val_round_trips _ _ _ (map_eqv kval_eqb (alike p a)) _ _ l); auto.
    + apply map_round_trip; auto; [apply kval_eqb_decides|]. rewrite Forall_forall in *. intros kv Hkv. destruct (L kv Hkv). split; [now apply key_of_reads_back|]. apply IH; auto.
      apply (max_in (fun kv => vdepth (snd kv))) in Hkv. cbn [vdepth]. lia.
    + intros y [My Q]. apply a_map; auto; intros x; specialize (Q x).
      * intros w E. rewrite E in Q. destruct (lookup kval_eqb x y) as [w'|]; [|contradiction]. eauto.
      * intros E. rewrite E in Q. now destruct (lookup kval_eqb x y).
  - inversion S as [| | | | | |? d' ? Hd' S'|? ? S']; subst; [|exfalso; intuition discriminate]. assert (d' = d) by congruence. subst d'. clear Hd'.
    destruct (conversions_are_the_generated_code p n d Hd) as [G1 G2]. apply (round_trips_ext _ (struct_codec (struct_conversions p) d)); auto. clear G1 G2.
    destruct (to_tuple (struct_conversions p) (d_fields d) l) as [x|] eqn:E.
    2: { pose proof (to_tuple_jsons (struct_conversions p) (d_fields d) l) as H. rewrite E in H. apply Forall2_len in L. congruence. }
    pose proof (to_tuple_jsons (struct_conversions p) (d_fields d) l) as T. rewrite E in T. destruct T as [_ T].
    destruct (K n d Hd) as [N _]. destruct (derived_members (d_name d) _ x (eq_ind_r (fun ks => NoDup ks) N (used_keys_in (struct_conversions p) d))) as (o & Eo & So & G).
    intros j Hj. unfold struct_codec at 1 in Hj. cbn [as_val to_json] in Hj. rewrite E, Eo in Hj.
    destruct (same_obj_inv _ _ Hj) as [o' ->]. pose proof (same_get o o' (keys_sorted_NoDup _ So) Hj) as SG. rewrite struct_from_json.
    assert (R : exists l', member_reads (struct_conversions p) (d_fields d) o' = Ok l' /\ fields_alike p (d_fields d) l l').
    { assert (W : forall k v, In (k, v) (member_jsons (struct_conversions p) (d_fields d) l) -> exists w r, hm_get k o' = Some (w, r) /\ same v w).
      { intros k v Hin. specialize (SG k). rewrite G in SG. assert (Lk : lookup str_eqb k (field_jsons _ x) = Some v).
        { apply (lookup_some str_eqb str_dec); [|now rewrite T]. unfold is_map. rewrite field_jsons_keys, used_keys_in. exact N. }
        rewrite Lk in SG. cbn in SG. destruct (hm_get k o') as [[w r]|]; [|contradiction]. exists w, r. split; auto. now destruct SG. }
      assert (Dl : forall y, In y l -> (vdepth y < vdepth (VStruct l))%nat) by (intros y Hy; apply (max_in vdepth) in Hy; cbn [vdepth]; lia).
      revert Dl W. clear - L S' IH. revert L S'. generalize (vdepth (VStruct l)), IH. intros dv IH' L. revert IH'. generalize (d_fields d), L. clear. intros fs L. 
      induction L as [|f y fs l By L IHl]; intros IH S' Dl W; [exists []; split; [reflexivity|constructor]|].
      inversion S' as [|? ? ? ? Sy S2]; subst. destruct IHl as (l' & El & Ql); auto.
      { intros z Hz. apply Dl. now right. } { intros k v Hin. apply W. cbn [member_jsons]. apply in_or_app. now right. }
      cbn [member_reads]. destruct (r_ignored f) eqn:Ig.
      - rewrite El. cbn. exists (r_default f :: l'). split; auto. now apply fa_ignored.
      - destruct (W (r_key f) (to_json (codec_in (struct_conversions p) (r_type f)) y)) as (w & r & Gw & Sw); [cbn [member_jsons]; rewrite Ig; now left|].
        rewrite Gw. destruct (IH (r_type f) y (Dl y (or_introl eq_refl)) By (Sy eq_refl) w Sw) as (y' & Ey & Qy). rewrite Ey. cbn [bind]. rewrite El. cbn.
        exists (y' :: l'). split; auto. now apply fa_kept. }
    destruct R as (l' & El & Ql). rewrite El. cbn. exists (VStruct l'). split; auto. now apply (a_struct p n d).
Qed.
(** A value that can be kept in JSON is given back by the conversions of its type, whatever order the hash maps iterate in. *)
Theorem recursive_values_round_trip p t v : distinct_keys p -> belongs p t v -> kept p t v -> round_trips (conversions p t) (alike p t) v.
Proof. intros K. now apply (round_trip_at p K (vdepth v)). Qed.

(** ** As text *)
Lemma kval_scalar k x : key_of k x -> scalar_str (kval_show x) = true.
Proof. intros (y & L & ->). rewrite kval_show_of. now apply key_scalar. Qed.
Lemma legal_at p : distinct_keys p -> forall m t v, (vdepth v <= m)%nat -> belongs p t v -> legal (to_json (conversions p t) v).
Proof.
  intros K. induction m as [m IHm] using lt_wf_ind. intros t v D B.
  assert (IH : forall t x, (vdepth x < vdepth v)%nat -> belongs p t x -> legal (to_json (conversions p t) x)).
  { intros t' x Dx. apply (IHm (vdepth x)); lia. } clear IHm D m. unfold conversions in *.
  destruct B as [j L|s L|b|w z L|f L|f L|a l L|a|a x L|k a l L|k a l M L|n d l Hd L]; cbn [codec_in as_val to_json c_json c_string c_bool c_int c_f64 c_f32 c_vec c_option c_pairs c_map].
  - exact L.
  - now constructor.
  - constructor.
  - constructor. exact (proj1 (of_Z_rounds z)).
  - now constructor.
  - constructor. now apply f64_of_f32_exact.
  - constructor. rewrite Forall_forall in *. intros y Hy. apply in_map_iff in Hy as (x & <- & Hx). apply IH; auto. apply (max_in vdepth) in Hx. cbn [vdepth]. lia.
  - constructor.
  - apply IH; auto.
  - assert (L' : Forall (fun kv => scalar_str (kval_show (fst kv)) = true /\ legal (to_json (codec_in (struct_conversions p) a) (snd kv))) l).
    { rewrite Forall_forall in *. intros kv Hkv. destruct (L kv Hkv). split; [now apply (kval_scalar k)|]. apply IH; auto. apply (max_in (fun kv => vdepth (snd kv))) in Hkv. cbn [vdepth]. lia. }
    destruct (fold_legal (fun o kv => object_insert o (show (kval_codec k) (fst kv)) (to_json (codec_in (struct_conversions p) a) (snd kv))) _
      (fun o kv H Ho => object_insert_legal _ _ _ (proj1 H) (proj2 H) Ho) l L' []); [split; auto; constructor|]. now apply legal_obj_sorted.
  - assert (L' : Forall (fun kv => scalar_str (kval_show (fst kv)) = true /\ legal (to_json (codec_in (struct_conversions p) a) (snd kv))) l).
    { rewrite Forall_forall in *. intros kv Hkv. destruct (L kv Hkv). split; [now apply (kval_scalar k)|]. apply IH; auto. apply (max_in (fun kv => vdepth (snd kv))) in Hkv. cbn [vdepth]. lia. }
    destruct (fold_legal (fun o kv => hm_insert (show (kval_codec k) (fst kv)) (to_json (codec_in (struct_conversions p) a) (snd kv), []) o)
      (fun kv => scalar_str (kval_show (fst kv)) = true /\ legal (to_json (codec_in (struct_conversions p) a) (snd kv)))) with (l := l) (o := @nil entry); auto.
    + intros o kv H Ho. apply insert_legal; auto. split; [exact (proj1 H)|]. split; cbn; [exact (proj2 H)|constructor].
    + now apply legal_obj_sorted.
  - destruct (conversions_are_the_generated_code p n d Hd) as [G1 _]. rewrite G1. unfold struct_codec. cbn [as_val to_json].
    destruct (to_tuple (struct_conversions p) (d_fields d) l) as [x|] eqn:E; [|constructor]. destruct (K n d Hd) as [_ Sk]. apply derived_legal; [now rewrite used_keys_in|].
    assert (Dl : forall y, In y l -> (vdepth y < vdepth (VStruct l))%nat) by (intros y Hy; apply (max_in vdepth) in Hy; cbn [vdepth]; lia).
    clear - L IH E Dl. revert IH Dl E. generalize (vdepth (VStruct l)). intros dv IH. revert x. induction L as [|f y fs l By L IHl]; intros x Dl E; [exact I|].
    cbn [to_tuple] in E. destruct (to_tuple (struct_conversions p) fs l) as [z|] eqn:Ez; [|discriminate]. cbn in E. injection E as <-. cbn [map each_field fst snd]. split.
    + intros _. cbn [field_in f_codec]. apply IH; auto. apply Dl. now left.
    + apply IHl; auto. intros y' Hy'. apply Dl. now right.
Qed.
Theorem recursive_text_round_trip order order' p t v : reorders order -> reorders order' -> distinct_keys p -> belongs p t v -> kept p t v ->
  finite (to_json (conversions p t) v) = true ->
  if balanced (to_json (conversions p t) v)
  then exists w, decode order' (conversions p t) (encode order (conversions p t) v) = Ok w /\ alike p t v w
  else exists e, decode order' (conversions p t) (encode order (conversions p t) v) = Err e.
Proof.
  intros R R' K B S F. apply decode_encode_any; auto; [now apply (legal_at p K (vdepth v))|now apply recursive_values_round_trip].
Qed.

(** * Errors *)
Lemma total_at p : compiles p -> forall m t j, closed p t -> (jdepth j <= m)%nat ->
  (exists x, from_json (conversions p t) j = Ok x) \/ (exists e, from_json (conversions p t) j = Err e).
Proof.
  intros C. induction m as [m IHm] using lt_wf_ind. intros t j Ct D.
  assert (IH : forall t i, closed p t -> (jdepth i < jdepth j)%nat -> (exists x, from_json (conversions p t) i = Ok x) \/ (exists e, from_json (conversions p t) i = Err e)).
  { intros t' i Ct' Di. apply (IHm (jdepth i)); auto; lia. } clear IHm. unfold conversions in *.
  assert (M : forall {T} (inj : T -> val) (proj : val -> option T) (c : codec T), ((exists x, from_json c j = Ok x) \/ (exists e, from_json c j = Err e)) ->
    (exists x, from_json (as_val inj proj c) j = Ok x) \/ (exists e, from_json (as_val inj proj c) j = Err e)).
  { intros T inj proj c [[x E]|[e E]]; cbn; rewrite E; cbn; eauto. }
  assert (MK : forall k a s i, closed p a -> (jdepth i < jdepth j)%nat ->
    (exists b, member_of (kval_codec k) (codec_in (struct_conversions p) a) (s, i) = Ok b) \/ (exists e, member_of (kval_codec k) (codec_in (struct_conversions p) a) (s, i) = Err e)).
  { intros k a s i Ca Di. unfold member_of, read_key. cbn [fst snd]. destruct (read (kval_codec k) s) as [x|]; cbn [bind]; [|unfold fail; cbn; eauto].
    destruct (IH a i Ca Di) as [[y ->]|[e ->]]; cbn; eauto. }
  induction t as [| | |w| | |a IHt|a IHt|k a IHt|k a IHt|n]; cbn [codec_in].
  - apply M. apply (conversions_are_total TJson).
  - apply M. apply (conversions_are_total TString).
  - apply M. apply (conversions_are_total TBool).
  - apply M. apply (conversions_are_total (TInt w)).
  - apply M. apply (conversions_are_total TF64).
  - apply M. apply (conversions_are_total TF32).
  - apply M. destruct j as [|v| | | |]; cbn [c_vec from_json]; unfold cannot_convert, fail; eauto. apply collect_total. intros x Hx. apply IH; auto. now apply element_depth.
  - apply M. cbn [c_option from_json]. destruct j; eauto; destruct (IHt Ct) as [[x ->]|[e ->]]; cbn; eauto.
  - apply M. destruct j as [o| | | | |]; try (cbn; unfold cannot_convert, fail; eauto; fail). rewrite pairs_from. apply collect_total. intros [s i] Hx. apply MK; auto. now apply members_depth in Hx.
  - apply M. destruct j as [o| | | | |]; try (cbn; unfold cannot_convert, fail; eauto; fail). rewrite map_from.
    destruct (collect_total (member_of (kval_codec k) (codec_in (struct_conversions p) a)) (newest o)) as [[l ->]|[e ->]]; cbn; eauto.
    intros [s i] Hx. apply MK; auto. now apply newest_depth in Hx.
  - destruct (Ct n) as [d Hd]; [now left|]. rewrite (proj2 (conversions_are_the_generated_code p n d Hd)), struct_from_json.
    destruct j as [o| | | | |]; try (unfold cannot_convert, fail; eauto; fail).
    assert (Q : (exists l, member_reads (struct_conversions p) (d_fields d) o = Ok l) \/ (exists e, member_reads (struct_conversions p) (d_fields d) o = Err e)).
    { assert (Cf : forall f, In f (d_fields d) -> closed p (r_type f)) by (intros f; now apply (C n d)). revert Cf. generalize (d_fields d). intros fs. clear - IH.
      induction fs as [|f fs IHfs]; intros Cf; cbn [member_reads]; eauto. specialize (IHfs (fun g Hg => Cf g (or_intror Hg))). destruct (r_ignored f).
      - destruct IHfs as [[l ->]|[e ->]]; cbn; eauto.
      - destruct (hm_get (r_key f) o) as [[v w]|] eqn:G; [|unfold missing_key, fail; eauto]. apply get_depth in G.
        destruct (IH (r_type f) v (Cf f (or_introl eq_refl)) G) as [[x ->]|[e ->]]; cbn; eauto. destruct IHfs as [[l ->]|[e ->]]; cbn; eauto. }
    destruct Q as [[l ->]|[e ->]]; cbn; eauto.
Qed.
(** Converting any JSON value to any type of the program ends, and without a panic. *)
Theorem recursive_conversions_are_total p t : compiles p -> closed p t -> total (conversions p t).
Proof. intros C Ct j. now apply (total_at p C (jdepth j)). Qed.
(** An object converts to the struct whose fields are what its members convert to, and nothing else does. *)
Lemma member_reads_ok env fs o : forall l, member_reads env fs o = Ok l <->
  Forall2 (fun f x => if r_ignored f then x = r_default f else exists w, member (r_key f) o = Some w /\ from_json (codec_in env (r_type f)) w = Ok x) fs l.
Proof.
  induction fs as [|f fs IH]; intros l; cbn [member_reads].
  - split; [intros [= <-]; constructor|]. now inversion 1.
  - assert (T : forall (P : val -> Prop), (exists x r, l = x :: r /\ P x /\ member_reads env fs o = Ok r) <->
      (exists x r, l = x :: r /\ P x /\ Forall2 (fun f x => if r_ignored f then x = r_default f else exists w, member (r_key f) o = Some w /\ from_json (codec_in env (r_type f)) w = Ok x) fs r)).
    { intros P. split; intros (x & r & E & Px & H); exists x, r; (split; [exact E|]); (split; [exact Px|]); now apply IH. }
    assert (F2 : forall P : rfield -> val -> Prop, Forall2 P (f :: fs) l <-> exists x r, l = x :: r /\ P f x /\ Forall2 P fs r).
    { intros P. split; [inversion 1; subst; eauto|]. intros (x & r & -> & A & B). now constructor. }
    rewrite F2, <- (T (fun x => if r_ignored f then x = r_default f else exists w, member (r_key f) o = Some w /\ from_json (codec_in env (r_type f)) w = Ok x)), member_get.
    destruct (r_ignored f).
    + destruct (member_reads env fs o) as [r| | |]; cbn; (split; [intros H; try discriminate; injection H as <-; eauto|]); intros (x & r' & -> & -> & [= <-]). reflexivity.
    + destruct (hm_get (r_key f) o) as [[v w]|]; cbn [option_map fst].
      * destruct (from_json (codec_in env (r_type f)) v) as [x| | |] eqn:Ex; cbn [bind]; [|split; [discriminate|intros (x & r' & _ & (w' & [= <-] & H) & _); congruence]..].
        destruct (member_reads env fs o) as [r| | |]; cbn; (split; [intros H; try discriminate; injection H as <-; eauto 10|]); intros (x' & r' & -> & (w' & [= <-] & H) & [= <-]). congruence.
      * unfold missing_key, fail. split; [discriminate|]. intros (x & r & _ & (w & H & _) & _). discriminate.
Qed.
Theorem recursive_struct_reads p n d j v : declared p n = Some d ->
  (from_json (conversions p (RStruct n)) j = Ok v <->
   exists o l, j = JObj o /\ v = VStruct l /\
     Forall2 (fun f x => if r_ignored f then x = r_default f else exists w, member (r_key f) o = Some w /\ from_json (conversions p (r_type f)) w = Ok x) (d_fields d) l).
Proof.
  intros Hd. unfold conversions at 1. cbn [codec_in]. rewrite (proj2 (conversions_are_the_generated_code p n d Hd)), struct_from_json.
  destruct j as [o| | | | |]; [|split; [discriminate|intros (? & ? & ? & _); discriminate]..]. split.
  - destruct (member_reads (struct_conversions p) (d_fields d) o) as [l| | |] eqn:E; try discriminate. cbn. intros [= <-]. exists o, l. split; auto. split; auto. now apply member_reads_ok.
  - intros (o' & l & [= <-] & -> & H). apply member_reads_ok in H. now rewrite H.
Qed.
Theorem recursive_struct_fails p n d j e : declared p n = Some d ->
  (from_json (conversions p (RStruct n)) j = Err e <->
   ((forall o, j <> JObj o) /\ e = mkError ConvertError (lit "cannot convert " ++ kind_name j ++ lit " to " ++ d_name d ++ lit ".")) \/
   exists o fs1 f fs2, j = JObj o /\ d_fields d = fs1 ++ f :: fs2 /\
     Forall (fun g => r_ignored g = true \/ exists w x, member (r_key g) o = Some w /\ from_json (conversions p (r_type g)) w = Ok x) fs1 /\
     r_ignored f = false /\
     ((member (r_key f) o = None /\ e = mkError MissingKey (lit "missing key """ ++ r_key f ++ lit """.")) \/
      exists w, member (r_key f) o = Some w /\ from_json (conversions p (r_type f)) w = Err e)).
Proof.
  intros Hd. unfold conversions at 1. cbn [codec_in]. rewrite (proj2 (conversions_are_the_generated_code p n d Hd)).
  assert (E : from_json (struct_codec (struct_conversions p) d) j = Err e <-> from_json (derived (d_name d) (map (field_in (struct_conversions p)) (d_fields d))) j = Err e).
  { unfold struct_codec. cbn [as_val from_json]. destruct (from_json (derived _ _) j); cbn; split; congruence. }
  rewrite E, derived_fails. apply or_iff_compat_l. split.
  - intros (o & gs1 & g & gs2 & -> & Eg & A & B). apply map_eq_app in Eg as (fs1 & r & E1 & <- & Er). destruct r as [|f fs2]; [discriminate|]. cbn in Er. injection Er as <- <-.
    exists o, fs1, f, fs2. split; auto. split; auto. split; [|destruct B as [B1 B2]; split; auto]. rewrite Forall_forall in *. intros g Hg. exact (A _ (in_map (field_in (struct_conversions p)) _ _ Hg)).
  - intros (o & fs1 & f & fs2 & -> & Ef & A & B1 & B2). exists o, (map (field_in (struct_conversions p)) fs1), (field_in (struct_conversions p) f), (map (field_in (struct_conversions p)) fs2).
    split; auto. split; [rewrite Ef, map_app; reflexivity|]. split; [|split; auto]. rewrite Forall_forall in *.
    intros g Hg. apply in_map_iff in Hg as (h & <- & Hh). exact (A _ Hh).
Qed.

(** * Examples: trees, and two structs that contain each other *)
Definition node_decl : decl := mkDecl (lit "Node") [
  mkRField (lit "label") (lit "label") false RString (VStr []);
  mkRField (lit "children") (lit "kids") false (RVec (RStruct (lit "Node"))) (VVec []);
  mkRField (lit "cache") (lit "cache") true (RInt U8) (VInt 0)].
Definition dir_decl : decl := mkDecl (lit "Dir") [mkRField (lit "files") (lit "files") false (RMap KString (RStruct (lit "File"))) (VMap [])].
Definition file_decl : decl := mkDecl (lit "File") [
  mkRField (lit "size") (lit "size") false (RInt U64) (VInt 0);
  mkRField (lit "mounted") (lit "mounted") false (ROption (RVec (RStruct (lit "Dir")))) (VOpt None)].
Definition sample_prog : prog := [node_decl; dir_decl; file_decl].
Definition leaf (s : string) : val := VStruct [VStr (lit s); VVec []; VInt 0].
Definition tree : val := VStruct [VStr (lit "root"); VVec [leaf "a"; VStruct [VStr (lit "b"); VVec [leaf "c"]; VInt 7]]; VInt 200].
Definition dir : val := VStruct [VMap [(KvStr (lit "f"), VStruct [VInt 12; VOpt (Some (VVec [VStruct [VMap []]]))]); (KvStr (lit "e"), VStruct [VInt 0; VOpt None])]].
Lemma sample_declared n d : declared sample_prog n = Some d -> In d sample_prog /\ n = d_name d.
Proof. unfold declared. intros H. apply find_some in H as [A B]. split; auto. now apply str_eqb_eq. Qed.
Example sample_prog_ok : compiles sample_prog /\ distinct_keys sample_prog /\ closed sample_prog (RVec (RStruct (lit "Dir"))).
Proof.
  split; [|split].
  - intros n d f Hd Hf. apply sample_declared in Hd as [Hd _]. cbn in Hd.
    destruct Hd as [<-|[<-|[<-|[]]]]; cbn in Hf; repeat destruct Hf as [<-|Hf]; try destruct Hf; intros m Hm; cbn in Hm; repeat destruct Hm as [<-|Hm]; try destruct Hm; cbn; eauto.
  - intros n d Hd. apply sample_declared in Hd as [Hd _]. cbn in Hd.
    destruct Hd as [<-|[<-|[<-|[]]]]; cbn; (split; [repeat constructor; cbn; intuition discriminate|repeat constructor]).
  - intros m Hm. cbn in Hm. destruct Hm as [<-|[]]. cbn. eauto.
Qed.
Ltac belong := repeat (first [apply b_vec|apply b_none|apply b_some|apply b_string; reflexivity|apply b_int; split; vm_compute; discriminate
  |apply b_map; [unfold is_map; cbn; repeat constructor; cbn; intuition discriminate|]
  |eapply b_struct; [reflexivity|cbn [d_fields node_decl dir_decl file_decl]]|apply Forall_nil|apply Forall_cons|apply Forall2_nil|apply Forall2_cons|split; [eexists (_ : key KString); split; [|reflexivity]; reflexivity|]]; cbn [fst snd r_type]).
Example tree_belongs : belongs sample_prog (RStruct (lit "Node")) tree.
Proof. unfold tree, leaf. belong. Qed.
Example dir_belongs : belongs sample_prog (RStruct (lit "Dir")) dir.
Proof. unfold dir. belong. Qed.
Ltac keep := repeat (first [apply k_vec|apply k_none|apply k_some; [|intros []]|apply k_map|apply k_scalar; auto; fail
  |apply k_int; apply integer_round_trip_iff; [split; vm_compute; discriminate|apply small_integers_round_trip; [split; vm_compute; discriminate|vm_compute; discriminate]]
  |eapply k_struct; [reflexivity|cbn [d_fields node_decl dir_decl file_decl]]|apply Forall_nil|apply Forall_cons|apply Forall2_nil|apply Forall2_cons; [let H := fresh in intros H; first [discriminate H|clear H]|]]; cbn [fst snd r_type]).
Example tree_kept : kept sample_prog (RStruct (lit "Node")) tree.
Proof. unfold tree, leaf. keep. Qed.
Example dir_kept : kept sample_prog (RStruct (lit "Dir")) dir.
Proof. unfold dir. keep. Qed.
(** The text of the tree and of the directory, and what is read back: the ignored field has its default. *)
Example tree_text :
  let c := conversions sample_prog (RStruct (lit "Node")) in
  encode (fun j => j) c tree =
    lit "{""kids"": [{""kids"": [], ""label"": ""a""}, {""kids"": [{""kids"": [], ""label"": ""c""}], ""label"": ""b""}], ""label"": ""root""}" /\
  decode (fun j => j) c (encode (fun j => j) c tree) =
    Ok (VStruct [VStr (lit "root"); VVec [leaf "a"; VStruct [VStr (lit "b"); VVec [leaf "c"]; VInt 0]]; VInt 0]) /\
  decode (fun j => j) c (lit "{""label"": ""x"", ""kids"": [{""label"": ""y"", ""kids"": [3]}]}") = Err (mkError ConvertError (lit "cannot convert number to Node.")).
Proof. vm_compute. auto. Qed.
Example dir_text :
  let c := conversions sample_prog (RStruct (lit "Dir")) in
  finite (to_json c dir) = true /\ balanced (to_json c dir) = true /\
  decode (fun j => j) c (encode (fun j => j) c dir) = Ok (VStruct [VMap [(KvStr (lit "e"), VStruct [VInt 0; VOpt None]);
    (KvStr (lit "f"), VStruct [VInt 12; VOpt (Some (VVec [VStruct [VMap []]]))])]]).
Proof. vm_compute. auto. Qed.

(** The text functions get, set and del work on stretches of the text (C89). *)
From Verif Require Import Base F64 Utf8 Json Parse Print Ops Path Convert SpecGrammar SpecPath SpecValue SpecConvert SpecSpan MapProofs PathProofs PreserveProofs StringProofs NumberProofs ScanProofs GrammarProofs CanonProofs PrintProofs CommuteProofs
  PropsParse PropsPrint PropsPath PropsConvert PropsText PropsSpan.
Open Scope N_scope.

(** The value the path leads to is the only one of its key (or an array element). *)
Definition only_value (p : list finder) (j : json) : Prop :=
  forall c k y, p = c ++ [Key k] -> walk c j = Some y -> exists v, values_at k y = [v].

Lemma steps_last p : exists c f, steps p = c ++ [f].
Proof. destruct (exists_last (steps_nonempty p)) as (c & f & ->). eauto. Qed.
Lemma edit_app c d g j : edit (c ++ d) g j = edit c (edit d g) j.
Proof. revert j. induction c as [|f c IH]; intros j; [reflexivity|]. cbn [app edit]. destruct (step f j); auto. now rewrite IH. Qed.
(** Setting an existing value that is alone is writing through the reference. *)
Lemma upd_is_edit p w j x : steps p <> [] -> only_value (steps p) j -> walk (steps p) j = Some x -> upd (steps p) w j = edit (steps p) (fun _ => w) j.
Proof.
  destruct (steps_last p) as (c & f & E). intros _. rewrite E. intros O W. rewrite walk_app in W. destruct (walk c j) as [y|] eqn:Ec; [|discriminate].
  rewrite upd_edit by congruence. rewrite edit_app. apply (edit_ext c _ _ j y Ec). cbn [walk upd edit] in *. destruct (step f y) as [z|] eqn:Es; [|discriminate].
  destruct f as [k|i], y as [o|v| | | |]; try discriminate.
  - destruct (O c k _ eq_refl Ec) as [v Hv]. rewrite values_at_get in Hv. rewrite step_key in Es. cbn [make repl]. destruct (hm_get k o) as [[u l]|]; [|discriminate].
    destruct l as [|b l]; [reflexivity|]. cbn [rev] in Hv. destruct (rev l) as [|? [|]]; discriminate.
  - rewrite step_index in Es. apply vec_get_some in Es. cbn [make repl elems]. f_equal. unfold vlen.
    assert (L : (N.to_nat i < List.length v)%nat) by (apply nth_error_Some; congruence). now rewrite (proj2 (N.leb_gt _ _)) by lia.
Qed.
Lemma no_overflow vmax p j x : walk p j = Some x -> over vmax p j = false.
Proof.
  intros W. destruct (over vmax p j) eqn:E; auto. apply over_overflows in E as (c & i & d & -> & _ & H).
  change (Index i :: d) with ([Index i] ++ d) in W. rewrite app_assoc, walk_app, H in W. discriminate.
Qed.
Lemma reached q j x : p_find q j = Ok x -> exists put, p_find_mut q j = Ok (x, put).
Proof. rewrite <- find_mut_agrees_with_find. destruct (p_find_mut q j) as [[y put]| | |]; try discriminate. intros [= ->]. eauto. Qed.
Lemma get_path j p x : get j p = Ok x -> p <> [] /\ exists q, parse_path p = Ok q /\ p_find q j = Ok x.
Proof. unfold get. destruct p as [|a p]; [discriminate|]. destruct (parse_path (a :: p)) as [q| | |]; try discriminate. intros H. split; [discriminate|eauto]. Qed.

Lemma value_supported n t x : VV n t x -> SupportedText t x.
Proof.
  intros H. exists [], t, []. split; [constructor|]. split; [constructor|]. split; [|now rewrite app_nil_r]. destruct n; [now apply inner_outer|exact H].
Qed.

Section Stretches.
  Variable order : json -> json.
  Hypothesis R : reorders order.

  (** Reading: the value has a stretch of the text; [get] is [decode] of that stretch, at every type. *)
  Theorem text_get_decodes_a_stretch s j p x : SupportedText s j -> get j p = Ok x ->
    exists pre t post, s = pre ++ t ++ post /\ SupportedText t x /\ forall T (c : codec T), text_get order c s p = decode order c t.
  Proof.
    intros H G. pose proof (parse_supported_text _ _ H) as Ej. destruct (get_path _ _ _ G) as (_ & q & _ & F). destruct (reached _ _ _ F) as [put Fm].
    destruct (reach_span (Some q) _ _ _ _ H Fm) as (n & pre & t & post & -> & Ht & _). exists pre, t, post. split; auto. split; [now apply value_supported in Ht|].
    intros T c. unfold text_get, decode. rewrite Ej, (supported_value _ _ _ Ht). cbn [bind]. now rewrite G.
  Qed.
  (** Writing at an existing place: [set] replaces the stretch by the encoding of the value, and formats the text. *)
  Theorem text_set_replaces_a_stretch vmax s j p q x : SupportedText s j -> scalar_str s = true -> scalar_str p = true ->
    get j p = Ok x -> parse_path p = Ok q -> only_value (steps q) j ->
    exists pre t post, s = pre ++ t ++ post /\ SupportedText t x /\
      forall T (c : codec T) v, legal (to_json c v) -> finite (to_json c v) = true -> balanced_in (to_json c v) = true ->
        exists j', parse (pre ++ encode order c v ++ post) = Ok j' /\ text_set order vmax c s p v = Ok (to_string j').
  Proof.
    intros H Hs Hp G Pq O. pose proof (parse_supported_text _ _ H) as Ej. destruct (get_path _ _ _ G) as (Np & q' & Pq' & F). rewrite Pq in Pq'. injection Pq' as <-.
    destruct (parsed_values_well_formed _ _ Hs Ej) as [Wj _]. destruct (reached _ _ _ F) as [put Fm].
    destruct (reach_span (Some q) _ _ _ _ H Fm) as (n & pre & t & post & Es & Ht & W).
    exists pre, t, post. split; auto. split; [now apply value_supported in Ht|]. intros T c v L Fv B. set (w := to_json c v) in *. exists (put (canon w)).
    pose proof (proj1 (find_navigates q j x) F) as Wq. destruct (find_mut_edit _ _ _ _ Fm) as [_ P]. split.
    - apply parse_supported_text, W. unfold encode. fold w. rewrite (print_order order R w L). apply inner_outer. now apply printed_values_are_parts.
    - unfold text_set. rewrite Ej. cbn [bind]. unfold set. destruct p as [|a p]; [congruence|]. rewrite Pq. fold w.
      assert (U : forall y, p_update vmax q j y = (upd (steps q) y j, Ok y)).
      { intros y. pose proof (p_update_upd vmax q j y (wf_skeys _ Wj)) as U. now rewrite (no_overflow vmax _ _ _ Wq) in U. }
      rewrite U. cbn [bind].
      pose proof (canon_same w) as S. pose proof (same_upd (steps q) _ _ S j) as Su.
      assert (Ue : upd (steps q) (canon w) j = put (canon w)) by (rewrite P; eapply upd_is_edit; eauto; apply steps_nonempty).
      pose proof (update_keeps_well_formed _ _ _ _ _ _ Wj (canon_legal_wf w L) (path_keys_scalar _ _ Hp Pq) (U (canon w))) as Wu.
      assert (Lu : legal (upd (steps q) w j)) by (eapply same_legal; [apply same_sym; exact Su|now apply wf_legal]).
      rewrite (print_order order R _ Lu), <- Ue. f_equal. apply printing_ignores_iteration_order; auto. now apply legal_iff in Lu.
  Qed.
  (** Where the path leads: the container, and what [discard] does there. *)
  Lemma discard_reaches q : forall j x, p_find q j = Ok x -> exists at_ f y put, reach at_ j = Ok (y, put) /\ (exists c, steps q = c ++ [f] /\ walk c j = Some y) /\ f_find f y = Ok x /\
    fst (p_discard q j) = put (fst (f_discard f y)).
  Proof.
    induction q as [f|f q IH]; intros j x F; cbn [p_find] in F.
    - exists None, f, j, (fun y => y). split; [reflexivity|]. split; [exists []; auto|]. auto.
    - destruct (f_find f j) as [y| | |] eqn:Ef; try discriminate. cbn [bind] in F. destruct (IH y x F) as (at_ & g & z & put & Hr & (c & Ec & Wc) & Hg & Hd).
      rewrite <- f_find_mut_find in Ef. destruct (f_find_mut f j) as [[y' put1]| | |] eqn:Em; try discriminate. injection Ef as ->.
      pose proof (find_mut_edit (PEnd f) _ _ _ Em) as [Wf _]. cbn [steps walk] in Wf.
      exists (Some (match at_ with None => PEnd f | Some r => PNext f r end)), g, z, (fun w => put1 (put w)).
      split; [|split; [|split; [exact Hg|]]].
      + destruct at_ as [r|]; cbn [reach p_find_mut] in *; rewrite Em.
        * cbn [bind]. now rewrite Hr.
        * now injection Hr as -> <-.
      + exists (f :: c). cbn [steps app walk]. rewrite Ec. split; auto. destruct (step f j); [|discriminate]. now injection Wf as ->.
      + cbn [p_discard]. rewrite Em. destruct (p_discard q y) as [i r]. cbn [fst] in *. now rewrite Hd.
  Qed.
  (** Deleting: [del] cuts a stretch out, with one comma, and formats the text. *)
  Theorem text_del_cuts_a_stretch s j p q x : SupportedText s j -> scalar_str s = true -> get j p = Ok x -> parse_path p = Ok q -> only_value (steps q) j ->
    exists a m b j', s = a ++ m ++ b /\ parse (a ++ b) = Ok j' /\ text_del order s p = Ok (to_string j').
  Proof.
    intros H Hs G Pq O. pose proof (parse_supported_text _ _ H) as Ej. destruct (get_path _ _ _ G) as (Np & q' & Pq' & F). rewrite Pq in Pq'. injection Pq' as <-.
    destruct (parsed_values_well_formed _ _ Hs Ej) as [Wj _].
    destruct (discard_reaches _ _ _ F) as (at_ & f & y & put & Hr & (c & Ec & Wc) & Hf & Hd).
    assert (X : exists a m b, s = a ++ m ++ b /\ parse (a ++ b) = Ok (put (fst (f_discard f y)))).
    { destruct f as [k|i]; cbn [f_find] in Hf; destruct y as [o|v| | | |]; try discriminate.
      - destruct (O c k _ Ec Wc) as [v Hv]. rewrite values_at_get in Hv. destruct (hm_get k o) as [[u l]|] eqn:Ek; [|discriminate].
        destruct l as [|b0 l]; [|cbn [rev] in Hv; destruct (rev l) as [|? [|]]; discriminate].
        destruct (deleting_is_cutting at_ s j o put k u H Hr Ek) as (a & m & b & E1 & E2). exists a, m, b. split; auto. rewrite E2. cbn [delete f_discard]. now rewrite Ek.
      - cbn [f_discard]. unfold vec_get in Hf. destruct (i <? vlen v) eqn:Ei; [|discriminate]. 
        destruct (removing_is_cutting at_ s j v put i H Hr (proj1 (N.ltb_lt _ _) Ei)) as (a & m & b & E1 & E2). exists a, m, b. split; auto. rewrite E2. cbn [remove]. rewrite Ei.
        destruct (nth_error v (N.to_nat i)); [reflexivity|discriminate]. }
    destruct X as (a & m & b & E1 & E2). exists a, m, b, (put (fst (f_discard f y))). split; auto. split; auto.
    unfold text_del. rewrite Ej. cbn [bind]. pose proof (del_returns_get j p) as D. unfold del in *. destruct p as [|a0 p]; [congruence|]. rewrite Pq in *.
    pose proof (discard_keeps_well_formed q j Wj) as W'. rewrite <- Hd. destruct (p_discard q j) as [j' r]. cbn [fst snd] in *. rewrite G in D. subst r. cbn [bind].
    rewrite (print_order order R); auto. now apply wf_legal.
  Qed.
End Stretches.
(** A case for all three: the text [[1, {"k": "v"}]] with white space around it, and the path [#1.k]. *)
Definition spaced : str := lit " [1, {""k"": ""v""}] ".
Example stretches_case :
  SupportedText spaced doc /\ get doc (lit "#1.k") = Ok (JStr (lit "v")) /\
  (exists q, parse_path (lit "#1.k") = Ok q /\ only_value (steps q) doc) /\
  spaced = lit " [1, {""k"": " ++ lit """v""" ++ lit "}] " /\
  text_get id_order c_string spaced (lit "#1.k") = decode id_order c_string (lit """v""") /\
  parse (lit " [1, {""k"": " ++ encode id_order c_bool true ++ lit "}] ") = Ok (JArr [JNum (dec_to_f64 false 1 0); JObj [(lit "k", (JBool true, []))]]) /\
  text_set id_order (2 ^ 60) c_bool spaced (lit "#1.k") true = Ok (lit "[1, {""k"": true}]") /\
  parse (lit " [1, {" ++ lit "}] ") = Ok (JArr [JNum (dec_to_f64 false 1 0); JObj []]) /\
  text_del id_order spaced (lit "#1.k") = Ok (lit "[1, {}]").
Proof.
  split; [exact supported_example|]. split; [vm_compute; reflexivity|].
  split; [exists (PNext (Index 1) (PEnd (Key (lit "k")))); split; [vm_compute; reflexivity|]|].
  - intros c k y E W. cbn [steps] in E. destruct c as [|f c]; [discriminate|]. injection E as <- E. destruct c as [|g c]; [|destruct c; discriminate].
    injection E as <-. vm_compute in W. injection W as <-. eexists. vm_compute. reflexivity.
  - split; [reflexivity|]. repeat split; vm_compute; reflexivity.
Qed.
(** [only_value] is needed: of a key that was written twice, [set] and [del] remove the older value too, which has a stretch of its own. *)
Theorem repeated_keys_have_several_stretches :
  let s := lit "{""k"": 0, ""k"": 1}" in
  exists j, SupportedText s j /\ get j (lit "k") = Ok (JNum (dec_to_f64 false 1 0)) /\
  (exists j', parse (lit "{""k"": 0, ""k"": true}") = Ok j' /\ to_string j' = lit "{""k"": 0, ""k"": true}") /\
  text_set id_order (2 ^ 60) c_bool s (lit "k") true = Ok (lit "{""k"": true}") /\
  text_del id_order s (lit "k") = Ok (lit "{}").
Proof.
  cbn zeta. set (j := JObj [(lit "k", (JNum (dec_to_f64 false 1 0), [JNum (dec_to_f64 false 0 0)]))]). exists j.
  split; [|split; [vm_compute; reflexivity|split; [eexists; (split; [vm_compute; reflexivity|vm_compute; reflexivity])|split; vm_compute; reflexivity]]].
  assert (E : lit "{""k"": 0, ""k"": 1}" = to_string j) by (vm_compute; reflexivity). rewrite E.
  assert (J : JsonText (to_string j) j) by (apply printed_text_is_valid_json; vm_compute; reflexivity).
  apply (valid_text_accepted_iff _ _ J). vm_compute. reflexivity.
Qed.

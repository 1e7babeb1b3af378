(** Texts can be assembled and taken apart (C84). *)
From Verif Require Import Base F64 Utf8 Json Parse Print SpecGrammar SpecLenient SpecJoin SpecValue MapProofs Utf8Proofs StringProofs NumberProofs ScanProofs GrammarProofs LenientProofs PrintProofs PropsParse PropsPrint CanonProofs.
Open Scope N_scope.

(** * Where a piece ends *)
Lemma skim_stops (stop drop : N -> Prop) c : stop c -> ~ drop c -> c <> 92 -> ~ drop 92 -> forall d q t p,
  Skim stop drop d q t p 0 false -> forall u p2 d2 q2, ~ Skim stop drop d q (t ++ c :: u) p2 d2 q2.
Proof.
  intros Hs Hd Hc H92. intros d q t p H. remember 0%Z as z eqn:Ez. remember false as b eqn:Eb.
  induction H as [d q|c0 t p d' q' Hc0 H IH|d q c0 t p d' q' Hc0 Hn H IH|d q e t p d' q' H IH]; intros u p2 d2 q2 K; cbn [app] in K.
  - subst. inversion K; subst; tauto.
  - inversion K; subst; try tauto.
    eapply (IH eq_refl eq_refl); eauto.
  - inversion K; subst; try tauto. eapply (IH eq_refl eq_refl); eauto.
  - inversion K; subst; try tauto. eapply (IH eq_refl eq_refl); eauto.
Qed.
Lemma skim_functional (stop drop : N -> Prop) : ~ drop 92 -> forall d q t p d1 q1, Skim stop drop d q t p d1 q1 ->
  forall p2 d2 q2, Skim stop drop d q t p2 d2 q2 -> p2 = p.
Proof.
  intros H92 d q t p d1 q1 H.
  induction H as [d q|c0 t p d' q' Hc0 H IH|d q c0 t p d' q' Hc0 Hn H IH|d q e t p d' q' H IH]; intros p2 d2 q2 K; inversion K; subst; try tauto;
    repeat f_equal; eauto.
Qed.
Lemma piece_unique (stop drop : N -> Prop) c t p t1 p1 u u1 : stop c -> ~ drop c -> c <> 92 -> ~ drop 92 ->
  Piece stop drop t p -> Piece stop drop t1 p1 -> t1 ++ c :: u1 = t ++ c :: u -> t1 = t /\ p1 = p /\ u1 = u.
Proof.
  intros Hs Hd Hc H92 H H1 E. assert (Et : t1 = t).
  { apply app_eq_app in E as [l [[E1 E2]|[E1 E2]]].
    - destruct l as [|x l]. { now rewrite app_nil_r in E1. } cbn in E2. injection E2 as <- _.
      subst t1. exfalso. exact (skim_stops stop drop c Hs Hd Hc H92 _ _ _ _ H _ _ _ _ H1).
    - destruct l as [|x l]. { now rewrite app_nil_r in E1. } cbn in E2. injection E2 as <- _.
      subst t. exfalso. exact (skim_stops stop drop c Hs Hd Hc H92 _ _ _ _ H1 _ _ _ _ H). }
  subst t1. split; auto. split; [eapply skim_functional; eauto|]. apply app_inv_head in E. now injection E.
Qed.
Lemma value_functional s v v' : LValue s v -> LValue s v' -> v = v'.
Proof.
  intros H H'. pose proof (proj1 lenient_parse _ _ H (Datatypes.S (List.length s)) (le_n _)) as A.
  pose proof (proj1 lenient_parse _ _ H' (Datatypes.S (List.length s)) (le_n _)) as B. congruence.
Qed.
Lemma comma_stops : array_stop 44 /\ ~ ws_char 44 /\ 44 <> 92 /\ ~ ws_char 92.
Proof. unfold array_stop, ws_char; cbn. intuition discriminate. Qed.
Lemma colon_stops : key_stop 58 /\ ~ ws_char 58 /\ 58 <> 92 /\ ~ ws_char 92.
Proof. unfold key_stop, ws_char; cbn. intuition discriminate. Qed.
Lemma member_stops : value_stop 44 /\ ~ value_drop 44 /\ 44 <> 92 /\ ~ value_drop 92.
Proof. unfold value_stop, value_drop, ws_char; cbn. intuition discriminate. Qed.

(** * Elements and members side by side *)
Lemma elements_app t vs : LElements t vs -> forall t' vs', LElements t' vs' -> LElements (beside t t') (vs ++ vs').
Proof.
  unfold beside. induction 1 as [t p v HP HV|t p v t1 vs HP HV HL IH]; intros t' vs' H'.
  - cbn [app]. eapply l_elems; eauto.
  - rewrite <- !app_assoc. cbn [app]. eapply l_elems; eauto. now apply IH.
Qed.
Lemma members_app t vs : LMembers t vs -> forall t' vs', LMembers t' vs' -> LMembers (beside t t') (vs ++ vs').
Proof.
  unfold beside. induction 1 as [tk pk k t p v HK HKV HP HV|tk pk k t p v t1 vs HK HKV HP HV HL IH]; intros t' vs' H'.
  - rewrite <- !app_assoc. cbn [app]. eapply (l_members tk pk k t p v t' vs'); eauto.
  - rewrite <- !app_assoc. eapply (l_members tk pk k t p v); eauto.
Qed.
Lemma elements_split t vs : LElements t vs -> forall t' ws, LElements (beside t t') ws -> exists vs', ws = vs ++ vs' /\ LElements t' vs'.
Proof.
  destruct comma_stops as (A1 & A2 & A3 & A4). unfold beside.
  induction 1 as [t p v HP HV|t p v t1 vs HP HV HL IH]; intros t' ws H'.
  - inversion H' as [x q w HQ HW Ex|x q w y ws' HQ HW HL' Ex].
    + subst. exfalso. exact (skim_stops _ _ _ A1 A2 A3 A4 _ _ _ _ HP _ _ _ _ HQ).
    + destruct (piece_unique array_stop ws_char 44 t p x q t' y) as (-> & -> & ->); auto.
      exists ws'. split; auto. cbn. f_equal. eapply value_functional; eauto.
  - rewrite <- app_assoc in H'. inversion H' as [x q w HQ HW Ex|x q w y ws' HQ HW HL' Ex].
    + subst. exfalso. exact (skim_stops _ _ _ A1 A2 A3 A4 _ _ _ _ HP _ _ _ _ HQ).
    + destruct (piece_unique array_stop ws_char 44 t p x q (t1 ++ [44] ++ t') y) as (-> & -> & ->); auto.
      apply IH in HL' as (vs' & -> & HL2). exists vs'. split; auto. cbn. f_equal. eapply value_functional; eauto.
Qed.
Lemma members_split t vs : LMembers t vs -> forall t' ws, LMembers (beside t t') ws -> exists vs', ws = vs ++ vs' /\ LMembers t' vs'.
Proof.
  destruct member_stops as (A1 & A2 & A3 & A4). destruct colon_stops as (B1 & B2 & B3 & B4). unfold beside.
  assert (Key : forall tk pk k tk1 pk1 k1 u u1, Piece key_stop ws_char tk pk -> LValue pk (JStr k) -> Piece key_stop ws_char tk1 pk1 -> LValue pk1 (JStr k1) ->
    tk1 ++ 58 :: u1 = tk ++ 58 :: u -> tk1 = tk /\ k1 = k /\ u1 = u).
  { intros tk pk k tk1 pk1 k1 u u1 P1 V1 P2 V2 E. destruct (piece_unique key_stop ws_char 58 tk pk tk1 pk1 u u1) as (-> & -> & ->); auto.
    split; auto. split; auto. pose proof (value_functional _ _ _ V1 V2) as X. now injection X. }
  induction 1 as [tk pk k t p v HK HKV HP HV|tk pk k t p v t1 vs HK HKV HP HV HL IH]; intros t' ws H'; rewrite <- ?app_assoc in H'; cbn [app] in H'.
  - inversion H' as [tk1 pk1 k1 t2 q w HK1 HKV1 HQ HW Ex|tk1 pk1 k1 t2 q w y ws' HK1 HKV1 HQ HW HL' Ex]; cbn [app] in Ex.
    + apply (Key _ _ _ _ _ _ _ _ HK HKV HK1 HKV1) in Ex as (-> & -> & ->). exfalso. exact (skim_stops _ _ _ A1 A2 A3 A4 _ _ _ _ HP _ _ _ _ HQ).
    + apply (Key _ _ _ _ _ _ _ _ HK HKV HK1 HKV1) in Ex as (-> & -> & Ex).
      destruct (piece_unique value_stop value_drop 44 t p t2 q t' y) as (-> & -> & ->); auto.
      exists ws'. split; auto. cbn. f_equal. f_equal. eapply value_functional; eauto.
  - inversion H' as [tk1 pk1 k1 t2 q w HK1 HKV1 HQ HW Ex|tk1 pk1 k1 t2 q w y ws' HK1 HKV1 HQ HW HL' Ex]; cbn [app] in Ex.
    + apply (Key _ _ _ _ _ _ _ _ HK HKV HK1 HKV1) in Ex as (-> & -> & ->). exfalso. exact (skim_stops _ _ _ A1 A2 A3 A4 _ _ _ _ HP _ _ _ _ HQ).
    + apply (Key _ _ _ _ _ _ _ _ HK HKV HK1 HKV1) in Ex as (-> & -> & Ex). rewrite <- ?app_assoc in Ex. cbn [app] in Ex.
      destruct (piece_unique value_stop value_drop 44 t p t2 q (t1 ++ [44] ++ t') y) as (-> & -> & ->); auto.
      apply IH in HL' as (vs' & -> & HL2). exists vs'. split; auto. cbn. f_equal. f_equal. eapply value_functional; eauto.
Qed.

(** * Between brackets there is nothing to trim *)
Lemma ends_unique a b t t0 w : a = t ++ [b] -> a = t0 ++ [b] ++ w -> ~ ws_char b -> ws w -> w = [] /\ t0 = t.
Proof.
  intros -> E Hb Hw. destruct w as [|x w] using rev_ind.
  - rewrite app_nil_r in E. apply app_inj_tail in E as [-> _]. auto.
  - rewrite !app_assoc in E. apply app_inj_tail in E as [_ ->]. apply Forall_app in Hw as [_ Hw]. inversion Hw; subst. contradiction.
Qed.
Lemma number_head s neg m e : LaxNumber s neg m e -> exists c r, s = c :: r /\ (c = 45 \/ digit c).
Proof.
  intros H. destruct H as [s neg m e H|[] d ds f fd x xe]; [eapply Number_head; eauto| |]; cbn [app]; eexists _, _; split; eauto. right; unfold digit; lia.
Qed.
Lemma lenient_in_brackets t v : LenientText (in_brackets t) v -> LValue (in_brackets t) v.
Proof.
  intros (w1 & u & w2 & H1 & H2 & E & _ & _ & HL). unfold in_brackets in *.
  destruct w1 as [|x w1].
  - cbn [app] in E. destruct u as [|y u]. { exfalso. eapply LValue_nonempty; eauto. }
    injection E as E1 E2. subst y.
    destruct w2 as [|y w2] using rev_ind; [now rewrite app_nil_r in E2; subst|].
    rewrite app_assoc in E2. apply app_inj_tail in E2 as [_ <-]. apply Forall_app in H2 as [_ H2]. inversion H2 as [|? ? Hx]; subst.
    unfold ws_char in Hx; cbn in Hx; lia.
  - injection E as E1 _. subst x. inversion H1 as [|? ? Hx]; subst. unfold ws_char in Hx; cbn in Hx; lia.
Qed.
Lemma lenient_in_braces t v : LenientText (in_braces t) v -> LValue (in_braces t) v.
Proof.
  intros (w1 & u & w2 & H1 & H2 & E & _ & _ & HL). unfold in_braces in *.
  destruct w1 as [|x w1].
  - cbn [app] in E. destruct u as [|y u]. { exfalso. eapply LValue_nonempty; eauto. }
    injection E as E1 E2. subst y.
    destruct w2 as [|y w2] using rev_ind; [now rewrite app_nil_r in E2; subst|].
    rewrite app_assoc in E2. apply app_inj_tail in E2 as [_ <-]. apply Forall_app in H2 as [_ H2]. inversion H2 as [|? ? Hx]; subst.
    unfold ws_char in Hx; cbn in Hx; lia.
  - injection E as E1 _. subst x. inversion H1 as [|? ? Hx]; subst. unfold ws_char in Hx; cbn in Hx; lia.
Qed.
Lemma scalar_in_brackets t : scalar_str t = true -> scalar_str (in_brackets t) = true.
Proof. unfold in_brackets, scalar_str. intros H. rewrite !forallb_app, H. reflexivity. Qed.
Lemma scalar_in_braces t : scalar_str t = true -> scalar_str (in_braces t) = true.
Proof. unfold in_braces, scalar_str. intros H. rewrite !forallb_app, H. reflexivity. Qed.
Lemma scalar_beside t t' : scalar_str t = true -> scalar_str t' = true -> scalar_str (beside t t') = true.
Proof. unfold beside, scalar_str. intros H H'. rewrite !forallb_app, H, H'. reflexivity. Qed.
Lemma ok_lenient s v : scalar_str s = true -> parse s = Ok v -> LenientText s v.
Proof. intros H. now apply parse_iff_lenient. Qed.

(** What a bracketed text denotes, by its inside. *)
Lemma array_inside t v : scalar_str t = true ->
  (parse (in_brackets t) = Ok v <-> (exists vs, LElements t vs /\ v = JArr vs) \/ ((t = [] \/ exists r, t = 93 :: r) /\ v = JArr [])).
Proof.
  intros Hs. split.
  - intros H. apply ok_lenient in H; [|now apply scalar_in_brackets]. apply lenient_in_brackets in H. unfold in_brackets in H.
    inversion H as [E0|E0|E0|s neg m e HN HF E0|raw cs w HC Hw E0|x E0|t0 vs w HL Hw E0|x E0|t0 ms o w HL HG Hw E0].
    + apply number_head in HN as (c & r & Ec & Hc). cbn [app] in Ec. injection Ec as Ec _. subst c. unfold digit in Hc. lia.
    + right. split; auto. destruct t as [|c t]; cbn [app] in E0; [auto|]. injection E0 as -> _. eauto.
    + left. exists vs. split; auto.
      destruct (ends_unique (t ++ [93]) 93 t t0 w) as [-> ->]; auto. unfold ws_char; cbn; lia.
  - intros [(vs & HL & ->)|[Ht ->]].
    + apply parse_iff_lenient; [now apply scalar_in_brackets|]. unfold in_brackets. exists [], ([91] ++ t ++ [93]), [].
      split; [constructor|]. split; [constructor|]. split; [now rewrite app_nil_r|]. cbn [app]. split; [unfold ws_char; cbn; lia|].
      split. { cbn [rev]. rewrite rev_app_distr. cbn. unfold ws_char; cbn; lia. }
      apply (l_arr t vs []); auto. constructor.
    + apply parse_iff_lenient; [now apply scalar_in_brackets|]. unfold in_brackets. exists [], ([91] ++ t ++ [93]), [].
      split; [constructor|]. split; [constructor|]. split; [now rewrite app_nil_r|]. cbn [app]. split; [unfold ws_char; cbn; lia|].
      split. { cbn [rev]. rewrite rev_app_distr. cbn. unfold ws_char; cbn; lia. }
      destruct Ht as [->|[r ->]]; [apply (l_arr0 [])|apply (l_arr0 (r ++ [93]))].
Qed.
Lemma object_inside t v : scalar_str t = true ->
  (parse (in_braces t) = Ok v <-> (exists ms o, LMembers t ms /\ Groups ms o /\ v = JObj o) \/ ((t = [] \/ exists r, t = 125 :: r) /\ v = JObj [])).
Proof.
  intros Hs. split.
  - intros H. apply ok_lenient in H; [|now apply scalar_in_braces]. apply lenient_in_braces in H. unfold in_braces in H.
    inversion H as [E0|E0|E0|s neg m e HN HF E0|raw cs w HC Hw E0|x E0|t0 vs w HL Hw E0|x E0|t0 ms o w HL HG Hw E0].
    + apply number_head in HN as (c & r & Ec & Hc). cbn [app] in Ec. injection Ec as Ec _. subst c. unfold digit in Hc. lia.
    + right. split; auto. destruct t as [|c t]; cbn [app] in E0; [auto|]. injection E0 as -> _. eauto.
    + left. exists ms, o.
      destruct (ends_unique (t ++ [125]) 125 t t0 w) as [-> ->]; auto. unfold ws_char; cbn; lia.
  - intros [(ms & o & HL & HG & ->)|[Ht ->]].
    + apply parse_iff_lenient; [now apply scalar_in_braces|]. unfold in_braces. exists [], ([123] ++ t ++ [125]), [].
      split; [constructor|]. split; [constructor|]. split; [now rewrite app_nil_r|]. cbn [app]. split; [unfold ws_char; cbn; lia|].
      split. { cbn [rev]. rewrite rev_app_distr. cbn. unfold ws_char; cbn; lia. }
      apply (l_obj t ms o []); auto. constructor.
    + apply parse_iff_lenient; [now apply scalar_in_braces|]. unfold in_braces. exists [], ([123] ++ t ++ [125]), [].
      split; [constructor|]. split; [constructor|]. split; [now rewrite app_nil_r|]. cbn [app]. split; [unfold ws_char; cbn; lia|].
      split. { cbn [rev]. rewrite rev_app_distr. cbn. unfold ws_char; cbn; lia. }
      destruct Ht as [->|[r ->]]; [apply (l_obj0 [])|apply (l_obj0 (r ++ [125]))].
Qed.
Lemma elements_nonempty t vs : LElements t vs -> vs <> [] /\ t <> [].
Proof.
  intros H. split; [destruct H; discriminate|]. destruct H as [t p v HP HV|t p v t' vs HP HV HL].
  - intros ->. inversion HP; subst. now apply LValue_nonempty in HV.
  - destruct t; discriminate.
Qed.
Lemma members_nonempty t ms : LMembers t ms -> ms <> [] /\ t <> [].
Proof. intros H. split; [destruct H; discriminate|]. destruct H; destruct tk; discriminate. Qed.
Lemma groups_nonempty ms o : Groups ms o -> ms <> [] -> o <> [].
Proof.
  intros [_ H] Hn ->. destruct ms as [|[k v] ms]; [congruence|]. specialize (H k). cbn in H. unfold values_of in H. cbn [filter fst] in H.
  rewrite str_eqb_refl in H. discriminate.
Qed.
Lemma values_of_app k ms ms' : values_of k (ms ++ ms') = values_of k ms ++ values_of k ms'.
Proof. unfold values_of. now rewrite filter_app, map_app. Qed.
Lemma merges_groups ms o ms' o' r : Groups ms o -> Groups ms' o' -> (merges o o' r <-> Groups (ms ++ ms') r).
Proof.
  intros [_ G] [_ G']. unfold merges, Groups.
  split; intros [A B]; (split; [exact A|]); intros k; specialize (B k); rewrite B, values_of_app, G, G'; reflexivity.
Qed.

(** * C84 *)
(** Two array texts without their outer brackets, with a comma in between and brackets around: their elements one after the other;
    and if the first part is an array text, nothing else is accepted. *)
Theorem arrays_are_joined t vs t' r : scalar_str t = true -> scalar_str t' = true -> parse (in_brackets t) = Ok (JArr vs) -> vs <> [] ->
  (parse (in_brackets (beside t t')) = Ok r <-> exists vs', vs' <> [] /\ parse (in_brackets t') = Ok (JArr vs') /\ r = JArr (vs ++ vs')).
Proof.
  intros Hs Hs' H Hn. apply array_inside in H; auto. destruct H as [(vs0 & HL & E)|[_ E]]; [|congruence]. injection E as <-.
  assert (Hh : ~ (beside t t' = [] \/ exists x, beside t t' = 93 :: x)).
  { pose proof (elements_head_not _ _ HL) as A. destruct (elements_nonempty _ _ HL) as [_ B]. unfold beside.
    intros [E|[x E]]; destruct t as [|c t]; cbn in E; try discriminate; try (now destruct B). injection E as -> E. now apply (A t). }
  rewrite array_inside by now apply scalar_beside. split.
  - intros [(ws & HW & ->)|[X _]]; [|tauto]. apply (elements_split _ _ HL) in HW as (vs' & -> & HL').
    exists vs'. split; [now apply elements_nonempty in HL'|]. split; auto. apply array_inside; eauto.
  - intros (vs' & Hn' & H' & ->). apply array_inside in H'; auto. destruct H' as [(vs1 & HL' & E)|[_ E]]; [|congruence]. injection E as <-.
    left. exists (vs ++ vs'). split; auto. now apply elements_app.
Qed.
Theorem objects_are_joined t o t' r : scalar_str t = true -> scalar_str t' = true -> parse (in_braces t) = Ok (JObj o) -> o <> [] ->
  (parse (in_braces (beside t t')) = Ok r <-> exists o' m, o' <> [] /\ parse (in_braces t') = Ok (JObj o') /\ merges o o' m /\ r = JObj m).
Proof.
  intros Hs Hs' H Hn. apply object_inside in H; auto. destruct H as [(ms & o0 & HL & HG & E)|[_ E]]; [|congruence]. injection E as <-.
  assert (Hh : ~ (beside t t' = [] \/ exists x, beside t t' = 125 :: x)).
  { pose proof (members_head_not _ _ HL) as A. destruct (members_nonempty _ _ HL) as [_ B]. unfold beside.
    intros [E|[x E]]; destruct t as [|c t]; cbn in E; try discriminate; try (now destruct B). injection E as -> E. now apply (A t). }
  rewrite object_inside by now apply scalar_beside. split.
  - intros [(ws & m & HW & HG' & ->)|[X _]]; [|tauto]. apply (members_split _ _ HL) in HW as (ms' & -> & HL').
    exists (build [] ms'), m. pose proof (Groups_build ms') as HB. split; [eapply groups_nonempty; eauto; now apply members_nonempty in HL'|].
    split; [apply object_inside; eauto 6|]. split; auto. eapply merges_groups; eauto.
  - intros (o' & m & Hn' & H' & HM & ->). apply object_inside in H'; auto. destruct H' as [(ms' & o1 & HL' & HG' & E)|[_ E]]; [|congruence]. injection E as <-.
    left. exists (ms ++ ms'), m. split; [now apply members_app|]. split; auto. eapply merges_groups; eauto.
Qed.
(** There is exactly one such object; a key's main value is the later text's if it has the key. *)
Theorem merged_object_is_unique o o' : keys_sorted o = true -> keys_sorted o' = true -> exists r, merges o o' r /\ forall r', merges o o' r' -> r' = r.
Proof.
  intros Ho Ho'. 
  set (members := fun o : hmap => flat_map (fun e => map (pair (fst e)) (rev (snd (snd e)) ++ [fst (snd e)])) o).
  assert (G : forall o, keys_sorted o = true -> Groups (members o) o).
  { intros m Hm. split; auto. intros k. induction m as [|[k' [v l]] m IH]; [reflexivity|].
    pose proof (keys_sorted_NoDup _ Hm) as ND. apply keys_sorted_cons in Hm as [Hb Hm]. cbn [hm_get members flat_map fst snd].
    rewrite values_of_app. 
    assert (V : forall x ls, values_of k (map (pair x) ls) = if str_eqb k x then ls else []).
    { intros x ls. unfold values_of. induction ls as [|y ls IHl]; cbn [map filter fst]; [now destruct (str_eqb k x)|].
      destruct (str_eqb k x) eqn:E; cbn [map snd]; rewrite ?IHl; auto. }
    rewrite V. change (flat_map (fun e => map (pair (fst e)) (rev (snd (snd e)) ++ [fst (snd e)])) m) with (members m). rewrite <- IH by auto.
    destruct (str_eqb k k') eqn:E; [|reflexivity]. apply str_eqb_eq in E as ->. rewrite below_get by auto. cbn. now rewrite app_nil_r. }
  exists (build [] (members o ++ members o')). split.
  - eapply merges_groups; eauto. apply Groups_build.
  - intros r' HM. eapply merges_groups in HM; eauto. eapply Groups_unique; eauto. apply Groups_build.
Qed.
Theorem later_text_wins o o' r k v l : merges o o' r -> hm_get k o' = Some (v, l) -> exists l', hm_get k r = Some (v, l').
Proof.
  intros [_ M] H. specialize (M k). rewrite H in M. cbn in M. destruct (hm_get k r) as [[w l']|]; cbn in M.
  - rewrite app_assoc in M. apply app_inj_tail in M as [_ ->]. eauto.
  - symmetry in M. apply app_eq_nil in M as [_ M]. apply app_eq_nil in M as [_ M]. discriminate.
Qed.
Theorem absent_key_stays o o' r k : merges o o' r -> hm_get k o' = None -> hm_get k r = hm_get k o.
Proof. intros [_ M] H. specialize (M k). rewrite H, app_nil_r in M. now apply entry_values_inj. Qed.

(** An array text is the texts of its elements with commas in between, and this is the only way to take it apart. *)
Lemma scalar_beside_inv t t' : scalar_str (beside t t') = true -> scalar_str t = true /\ scalar_str t' = true.
Proof. unfold beside. intros H. apply scalar_app in H as [A B]. apply scalar_app in B as [_ B]. auto. Qed.
Lemma one_element_lenient t v : scalar_str t = true -> (one_element t v <-> LElements t [v]).
Proof.
  intros Hs. unfold one_element. rewrite array_inside by auto. split.
  - intros [(vs & HL & E)|[_ E]]; [|discriminate]. now injection E as <-.
  - eauto.
Qed.
Lemma groups_single k v o : Groups [(k, v)] o -> o = [(k, (v, []))].
Proof.
  intros G. eapply Groups_unique; [exact G|]. pose proof (Groups_build [(k, v)]) as B. exact B.
Qed.
Lemma groups_singleton k v ms : Groups ms [(k, (v, []))] -> ms = [(k, v)].
Proof.
  intros [_ G]. assert (A : Forall (fun m => fst m = k) ms).
  { apply Forall_forall. intros [k' v'] Hin. cbn. pose proof (G k') as E. cbn [hm_get] in E. destruct (str_eqb k' k) eqn:Ek; [now apply str_eqb_eq in Ek|].
    cbn in E. symmetry in E. unfold values_of in E. apply map_eq_nil in E. exfalso.
    assert (X : In (k', v') (filter (fun m => str_eqb k' (fst m)) ms)) by (apply filter_In; split; auto; cbn; apply str_eqb_refl). rewrite E in X. exact X. }
  specialize (G k). cbn in G. rewrite str_eqb_refl in G. cbn in G. unfold values_of in G.
  assert (F : filter (fun m => str_eqb k (fst m)) ms = ms).
  { clear G. induction A as [|m ms Hm A IH]; cbn; auto. rewrite Hm, str_eqb_refl, IH. reflexivity. }
  rewrite F in G. destruct ms as [|[k1 v1] [|m2 ms]]; try discriminate. inversion A; subst. cbn in *. now injection G as ->.
Qed.
Lemma one_member_lenient t m : scalar_str t = true -> (one_member t m <-> LMembers t [m]).
Proof.
  intros Hs. destruct m as [k v]. unfold one_member. cbn [fst snd]. rewrite object_inside by auto. split.
  - intros [(ms & o & HL & G & E)|[_ E]]; [|discriminate]. injection E as <-. apply groups_singleton in G as ->. exact HL.
  - intros HL. left. exists [(k, v)], [(k, (v, []))]. split; auto. split; auto. exact (Groups_build [(k, v)]).
Qed.

Theorem array_texts_come_apart t v vs : scalar_str t = true ->
  (parse (in_brackets t) = Ok (JArr (v :: vs)) <->
   exists t1 ts, t = separated t1 ts /\ one_element t1 v /\ Forall2 one_element ts vs).
Proof.
  intros Hs. split.
  - intros H. apply array_inside in H; auto. destruct H as [(vs0 & HL & E)|[_ E]]; [|discriminate]. injection E as <-.
    remember (v :: vs) as l eqn:El. revert v vs El. induction HL as [t p x HP HV|t p x t1 l HP HV HL IH]; intros v vs El.
    + injection El as -> <-. exists t, []. split; auto. split; auto. apply one_element_lenient; auto. eapply l_elem; eauto.
    + injection El as -> ->. fold (beside t t1) in Hs. apply scalar_beside_inv in Hs as [A B].
      destruct (elements_nonempty _ _ HL) as [Hn _]. destruct vs as [|v' vs]; [congruence|].
      destruct (IH B v' vs eq_refl) as (t2 & ts & -> & H1 & H2). exists t, (t2 :: ts). split; auto. split; [|now constructor].
      apply one_element_lenient; auto. eapply l_elem; eauto.
  - intros (t1 & ts & -> & H1 & H2). revert t1 v H1 Hs. induction H2 as [|t2 v2 ts vs HE H2 IH]; intros t1 v H1 Hs; [exact H1|].
    cbn [separated] in *. apply scalar_beside_inv in Hs as [A B]. apply (arrays_are_joined t1 [v] _ _ A B H1); [discriminate|].
    exists (v2 :: vs). split; [discriminate|]. split; auto.
Qed.
Theorem array_texts_come_apart_one_way t1 ts t1' ts' vs vs' v v' : separated t1 ts = separated t1' ts' -> scalar_str (separated t1 ts) = true ->
  one_element t1 v -> Forall2 one_element ts vs -> one_element t1' v' -> Forall2 one_element ts' vs' -> t1 = t1' /\ ts = ts'.
Proof.
  intros E Hs H1 H2 H1' H2'. revert t1' v' ts' vs' H1' H2' t1 v H1 Hs E. destruct comma_stops as (A1 & A2 & A3 & A4).
  assert (P : forall t v, scalar_str t = true -> one_element t v -> exists p, Piece array_stop ws_char t p).
  { intros t x Hs H. apply one_element_lenient in H; auto. inversion H as [? p ? HP|? ? ? ? ? ? ? HL]; subst; eauto. now apply elements_nonempty in HL. }
  induction H2 as [|t2 v2 ts vs HE H2 IH]; intros t1' v' ts' vs' H1' H2' t1 v H1 Hs E.
  - destruct H2' as [|t2' v2' ts' vs' HE' H2']; cbn [separated] in E; auto. subst t1. exfalso. destruct (scalar_beside_inv _ _ Hs) as [B _].
    apply P in H1 as [p HP]; auto. apply P in H1' as [p' HP']; auto. exact (skim_stops _ _ _ A1 A2 A3 A4 _ _ _ _ HP' _ _ _ _ HP).
  - cbn [separated] in *. pose proof Hs as Hs'. rewrite E in Hs'. destruct (scalar_beside_inv _ _ Hs) as [B C].
    destruct H2' as [|t2' v2' ts' vs' HE' H2']; cbn [separated] in *.
    + exfalso. subst t1'. apply P in H1 as [p HP]; auto. apply P in H1' as [p' HP']; auto. exact (skim_stops _ _ _ A1 A2 A3 A4 _ _ _ _ HP _ _ _ _ HP').
    + destruct (scalar_beside_inv _ _ Hs') as [B' C']. apply P in H1 as [p HP]; auto. apply P in H1' as [p' HP']; auto.
      destruct (piece_unique array_stop ws_char 44 t1' p' t1 p (separated t2' ts') (separated t2 ts)) as (-> & -> & E2); auto.
      destruct (IH t2' v2' ts' vs' HE' H2' t2 v2 HE C) as [-> ->]; auto.
Qed.
Theorem object_texts_come_apart t o : scalar_str t = true -> o <> [] ->
  (parse (in_braces t) = Ok (JObj o) <->
   exists t1 ts m ms, t = separated t1 ts /\ one_member t1 m /\ Forall2 one_member ts ms /\ Groups (m :: ms) o).
Proof.
  intros Hs Hn. rewrite object_inside by auto. split.
  - intros [(ms & o1 & HL & G & E)|[_ E]]; [|congruence]. injection E as <-. clear Hn. revert G. generalize o as oo.
    assert (A : exists t1 ts m ms', ms = m :: ms' /\ t = separated t1 ts /\ one_member t1 m /\ Forall2 one_member ts ms').
    { induction HL as [tk pk k t p x HK HKV HP HV|tk pk k t p x t1 l HK HKV HP HV HL IH].
      - exists (tk ++ [58] ++ t), [], (k, x), []. split; auto. split; auto. split; auto. apply one_member_lenient; auto. eapply l_member; eauto.
      - assert (E : tk ++ [58] ++ t ++ [44] ++ t1 = beside (tk ++ [58] ++ t) t1) by (unfold beside; now rewrite <- !app_assoc).
        rewrite E in *. apply scalar_beside_inv in Hs as [A B]. destruct (IH B) as (t2 & ts & m & ms' & -> & -> & H1 & H2).
        exists (tk ++ [58] ++ t), (t2 :: ts), (k, x), (m :: ms'). split; auto. split; auto. split; [|now constructor].
        apply one_member_lenient; auto. eapply l_member; eauto. }
    destruct A as (t1 & ts & m & ms' & -> & -> & H1 & H2). intros oo G. exists t1, ts, m, ms'. auto.
  - intros (t1 & ts & m & ms & -> & H1 & H2 & G). left. exists (m :: ms), o. split; auto. clear G Hn.
    revert t1 m H1 Hs. induction H2 as [|t2 v2 ts vs HE H2 IH]; intros t1 v H1 Hs; cbn [separated] in *.
    + now apply one_member_lenient in H1.
    + apply scalar_beside_inv in Hs as [A B]. apply (members_app t1 [v]); [now apply one_member_lenient in H1|]. now apply IH.
Qed.

Lemma to_string_scalar j : legal j -> scalar_str (to_string j) = true.
Proof.
  intros L. pose proof (canon_same j) as S. rewrite (printing_ignores_iteration_order j (canon j)) by (auto; now apply legal_iff in L).
  pose proof (printed_text_is_printable_ascii (canon j) (canon_legal_wf j L)) as H. unfold scalar_str. apply forallb_forall.
  intros c Hc. rewrite Forall_forall in H. apply H in Hc. unfold printable in Hc. unfold is_scalar. lia.
Qed.
(** Printed values may be put together by hand. *)
Lemma printed_element v : legal v -> finite v = true -> balanced_in v = true -> one_element (to_string v) (canon v).
Proof.
  intros L F B. assert (LA : legal (JArr [v])) by (constructor; auto).
  pose proof (print_parse_legal (JArr [v]) LA) as P. cbn [finite forallb balanced balanced_in] in P. rewrite F, B in P. exact (P eq_refl).
Qed.
Lemma printed_member k v : scalar_str k = true -> balanced_str k = true -> legal v -> finite v = true -> balanced_in v = true ->
  one_member (key_and_value (to_string (JStr k)) (to_string v)) (k, canon v).
Proof.
  intros Hk Bk L F B. assert (LA : legal (JObj [(k, (v, []))])).
  { constructor; [repeat constructor; cbn; tauto|]. constructor; [|constructor]. cbn. auto. }
  pose proof (print_parse_legal _ LA) as P. cbn [finite forallb balanced balanced_in fst snd] in P. rewrite F, B, Bk in P. specialize (P eq_refl).
  unfold one_member. cbn [fst snd].
  assert (E : in_braces (key_and_value (to_string (JStr k)) (to_string v)) = to_string (JObj [(k, (v, []))])).
  { unfold in_braces, key_and_value. cbn. unfold entry_text. cbn [map rev flat_map app]. reflexivity. }
  rewrite E. exact P.
Qed.
Theorem printed_values_assemble v vs : Forall (fun v => legal v /\ finite v = true /\ balanced_in v = true) (v :: vs) ->
  parse (in_brackets (separated (to_string v) (map to_string vs))) = Ok (JArr (map canon (v :: vs))).
Proof.
  intros H. inversion H as [|? ? (L & F & B) H']; subst. cbn [map]. apply array_texts_come_apart.
  - revert v L F B H. induction H' as [|w ws (Lw & Fw & Bw) H' IH]; intros v L F B H; cbn [map separated]; [now apply to_string_scalar|].
    apply scalar_beside; [now apply to_string_scalar|]. apply IH; auto.
  - eexists _, _. split; [reflexivity|]. split; [now apply printed_element|].
    clear H. induction H' as [|w ws (Lw & Fw & Bw) H' IH]; cbn [map]; constructor; auto. now apply printed_element.
Qed.
Theorem printed_members_assemble m ms : Forall (fun m => scalar_str (fst m) = true /\ balanced_str (fst m) = true /\ legal (snd m) /\ finite (snd m) = true /\ balanced_in (snd m) = true) (m :: ms) ->
  let text (m : str * json) := key_and_value (to_string (JStr (fst m))) (to_string (snd m)) in
  exists o, parse (in_braces (separated (text m) (map text ms))) = Ok (JObj o) /\ Groups (map (fun m => (fst m, canon (snd m))) (m :: ms)) o.
Proof.
  intros H text. pose proof (Groups_build (map (fun m => (fst m, canon (snd m))) (m :: ms))) as G. eexists. split; [|exact G].
  inversion H as [|? ? (Sk & Bk & L & F & B) H']; subst.
  assert (T : forall m : str * json, scalar_str (fst m) = true -> legal (snd m) -> scalar_str (text m) = true).
  { intros x A C. unfold text, key_and_value. unfold scalar_str. rewrite !forallb_app. fold (scalar_str (to_string (JStr (fst x)))) (scalar_str (to_string (snd x))).
    rewrite !to_string_scalar by (auto; now constructor). reflexivity. }
  apply object_texts_come_apart.
  - clear G Bk F B H. revert m Sk L. induction H' as [|w ws (Sw & Bw & Lw & Fw & Bw') H' IH]; intros m Sk L; cbn [map separated]; [now apply T|].
    apply scalar_beside; [now apply T|]. now apply IH.
  - eapply groups_nonempty; [exact G|]. discriminate.
  - exists (text m), (map text ms), (fst m, canon (snd m)), (map (fun m => (fst m, canon (snd m))) ms). split; auto. split; [now apply printed_member|].
    split; [|exact G]. clear H G. induction H' as [|w ws (Sw & Bw & Lw & Fw & Bw') H' IH]; cbn [map]; constructor; auto. now apply printed_member.
Qed.

(** Cases that meet the hypotheses. *)
Example arrays_are_joined_case :
  parse (in_brackets (lit "1, [2, ""x""] ")) = Ok (JArr [JNum (dec_to_f64 false 1 0); JArr [JNum (dec_to_f64 false 2 0); JStr (lit "x")]]) /\
  parse (in_brackets (beside (lit "1, [2, ""x""] ") (lit " null"))) = Ok (JArr [JNum (dec_to_f64 false 1 0); JArr [JNum (dec_to_f64 false 2 0); JStr (lit "x")]; JNull]).
Proof. split; vm_compute; reflexivity. Qed.
Example objects_are_joined_case :
  parse (in_braces (beside (lit """a"": 1, ""b"": 2") (lit """a"": null"))) =
  Ok (JObj [(lit "a", (JNull, [JNum (dec_to_f64 false 1 0)])); (lit "b", (JNum (dec_to_f64 false 2 0), []))]).
Proof. vm_compute. reflexivity. Qed.
(** Not every accepted text can be put between brackets, and an empty container is not a part. *)
Theorem accepted_texts_need_not_nest : exists t v, parse t = Ok v /\ ~ one_element t v /\ (exists e, parse (in_brackets t) = Err e).
Proof.
  exists (lit """["""), (JStr (lit "[")). split; [vm_compute; reflexivity|].
  assert (E : exists e, parse (in_brackets (lit """[""")) = Err e) by (eexists; vm_compute; reflexivity).
  split; [|exact E]. destruct E as [e E]. unfold one_element. rewrite E. discriminate.
Qed.
Theorem empty_parts_do_not_join : parse (in_brackets []) = Ok (JArr []) /\ (exists e, parse (in_brackets (beside [] (lit "1"))) = Err e) /\ (exists e, parse (in_brackets (beside (lit "1") [])) = Err e).
Proof. split; [vm_compute; reflexivity|]. split; eexists; vm_compute; reflexivity. Qed.

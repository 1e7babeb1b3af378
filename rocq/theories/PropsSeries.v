(** A series of edits of a text is one parse, the edits, and one print (C90). *)
From Verif Require Import Base F64 Json Parse Print Ops Path Convert SpecGrammar SpecPath SpecValue SpecConvert SpecSeries MapProofs PathProofs PreserveProofs CanonProofs LenientProofs PrintProofs
  PropsParse PropsPrint PropsPath PropsConvert PropsText.
Open Scope N_scope.

(** What an edit keeps: the document can be printed and read. *)
Definition sound (j : json) : Prop := wf j = true /\ finite j = true /\ balanced_in j = true.
Lemma sound_reads j : sound j -> parse (to_string j) = Ok j.
Proof. intros (W & F & B). apply print_parse_round_trip; auto. unfold balanced. destruct j; auto. Qed.
Lemma del_discard p j j' x : del j p = (j', Ok x) -> exists q, j' = fst (p_discard q j).
Proof.
  unfold del. destruct p as [|a p]; [discriminate|]. destruct (parse_path (a :: p)) as [q| | |]; try discriminate. intros H. exists q. now rewrite H.
Qed.
Lemma edit_sound vmax j e j' x : sound j -> fine_edit e -> edit_doc vmax j e = (j', Ok x) -> sound j'.
Proof.
  intros (W & F & B) Hf H. destruct e as [p w|p]; cbn [edit_doc fine_edit] in *.
  - destruct Hf as (Sp & Hk & Ww & Fw & Bw). unfold set in H. destruct p as [|a p]; [discriminate|]. destruct (parse_path (a :: p)) as [q| | |] eqn:Ep; try discriminate.
    destruct (update_ok _ _ _ _ _ _ W H) as (Ho & Ej & Ex). split; [|split].
    + eapply update_keeps_well_formed; [exact W|exact Ww|exact (path_keys_scalar _ _ Sp Ep)|exact H].
    + eapply update_keeps_finite; [exact W|exact F|exact Ww|exact Fw|exact H].
    + rewrite Ej. apply (all_balanced (upd (steps q) w j)). apply all_upd; try (apply all_balanced; auto using wf_skeys).
      apply forallb_forall. intros [k|i] Hi; [cbn [keyed]; eauto|reflexivity].
  - destruct (del_discard _ _ _ _ H) as [q ->]. split; [|split].
    + now apply discard_keeps_well_formed.
    + now apply discard_keeps_finite.
    + apply (all_balanced (fst (p_discard q j))). apply all_discard. apply all_balanced. auto using wf_skeys.
Qed.

Section Series.
  Variable order : json -> json.
  Hypothesis R : reorders order.
  Variable vmax : N.

  Lemma edit_text_doc s j e : parse s = Ok j -> sound j -> fine_edit e ->
    edit_text order vmax s e = match edit_doc vmax j e with (j', Ok _) => Ok (to_string j') | (_, Err x) => Err x | (_, Panic) => Panic | (_, Fuel) => Fuel end.
  Proof.
    intros Ej Sj Hf. assert (X : forall j' x, edit_doc vmax j e = (j', Ok x) -> to_string (order j') = to_string j').
    { intros j' x H. apply (print_order order R). apply wf_legal. now destruct (edit_sound _ _ _ _ _ Sj Hf H). }
    destruct e as [p w|p]; cbn [edit_text edit_doc] in *.
    - unfold text_set. rewrite Ej. cbn [bind to_json c_json]. destruct (set vmax j p w) as [j' [x| | |]]; cbn [bind]; auto. f_equal. eauto.
    - unfold text_del. rewrite Ej. cbn [bind]. destruct (del j p) as [j' [x| | |]]; cbn [bind]; auto. f_equal. eauto.
  Qed.
  Lemma edit_texts_docs es : forall s j, parse s = Ok j -> sound j -> Forall fine_edit es ->
    match edit_docs vmax es j with
    | Ok j' => sound j' /\ edit_texts order vmax es s = Ok (match es with [] => s | _ => to_string j' end)
    | Err x => edit_texts order vmax es s = Err x | Panic => edit_texts order vmax es s = Panic | Fuel => edit_texts order vmax es s = Fuel
    end.
  Proof.
    induction es as [|e es IH]; intros s j Ej Sj Hf; cbn [edit_docs edit_texts]; [auto|]. inversion Hf as [|? ? He Hes]; subst.
    rewrite (edit_text_doc s j e Ej Sj He). destruct (edit_doc vmax j e) as [j1 [x| | |]] eqn:Ed; cbn [bind]; auto.
    pose proof (edit_sound _ _ _ _ _ Sj He Ed) as S1. specialize (IH (to_string j1) j1 (sound_reads _ S1) S1 Hes).
    destruct (edit_docs vmax es j1) as [j2| | |] eqn:E2; auto. destruct IH as [S2 ->]. split; auto.
    destruct es; [|reflexivity]. cbn [edit_docs] in E2. now injection E2 as ->.
  Qed.
  Lemma start s j : scalar_str s = true -> parse s = Ok j -> balanced_in j = true -> sound j.
  Proof. intros Hs Ej B. destruct (parsed_values_well_formed _ _ Hs Ej). now split. Qed.

  (** The text after the series: that of the edited document; failures are those of the edits in memory. *)
  Theorem text_edits_are_document_edits es s j : scalar_str s = true -> parse s = Ok j -> balanced_in j = true -> Forall fine_edit es -> es <> [] ->
    edit_texts order vmax es s = rmap to_string (edit_docs vmax es j).
  Proof.
    intros Hs Ej B Hf N. pose proof (edit_texts_docs es s j Ej (start _ _ Hs Ej B) Hf) as H. destruct (edit_docs vmax es j) as [j'| | |]; cbn [rmap]; auto.
    destruct H as [_ ->]. destruct es; [congruence|reflexivity].
  Qed.
  (** Reading after the series is reading in the edited document, at every type. *)
  Theorem reading_after_text_edits es s j t : scalar_str s = true -> parse s = Ok j -> balanced_in j = true -> Forall fine_edit es ->
    edit_texts order vmax es s = Ok t -> exists j', edit_docs vmax es j = Ok j' /\ parse t = Ok j' /\
      forall T (c : codec T) p, text_get order c t p = (let? x := get j' p in convert c (order x)).
  Proof.
    intros Hs Ej B Hf Ht. pose proof (edit_texts_docs es s j Ej (start _ _ Hs Ej B) Hf) as H. destruct (edit_docs vmax es j) as [j'| | |] eqn:E; try congruence.
    destruct H as [S' H]. rewrite H in Ht. injection Ht as <-.
    assert (P : parse (match es with [] => s | _ => to_string j' end) = Ok j'). { destruct es; [|now apply sound_reads]. cbn [edit_docs] in E. now injection E as <-. }
    exists j'. split; auto. split; auto. intros T c p. unfold text_get. rewrite P. reflexivity.
  Qed.
  (** Values of every type: setting a value is setting its Json value. *)
  Theorem text_set_of_any_type {T} (c : codec T) s p v : text_set order vmax c s p v = edit_text order vmax s (Put p (to_json c v)).
  Proof. reflexivity. Qed.
End Series.

(** A case: three edits of one text. *)
Definition three_edits : list edit_at := [Put (lit "c.d") (JArr [JNull]); Drop (lit "a.#0"); Put (lit "a.#2") (JBool true)].
Example series_case :
  Forall fine_edit three_edits /\ (exists j, parse sample_text = Ok j /\ balanced_in j = true) /\
  edit_texts id_order (2 ^ 60) three_edits sample_text = Ok (lit "{""a"": [{""b"": null}, null, true], ""c"": {""d"": [null]}}") /\
  edit_texts id_order (2 ^ 60) (three_edits ++ [Drop (lit "x"); Put (lit "y") JNull]) sample_text = edit_texts id_order (2 ^ 60) [Drop (lit "x")] (lit "{}").
Proof.
  split; [|split; [eexists; (split; [vm_compute; reflexivity|vm_compute; reflexivity])|split; vm_compute; reflexivity]].
  assert (K : forall p q0, parse_path p = Ok q0 -> forallb (fun f => match f with Key k => balanced_str k | Index _ => true end) (steps q0) = true ->
    forall q k, parse_path p = Ok q -> In (Key k) (steps q) -> balanced_str k = true).
  { intros p q0 E F q k E' Hi. rewrite E in E'. injection E' as <-. rewrite forallb_forall in F. exact (F _ Hi). }
  repeat constructor; eapply K; vm_compute; reflexivity.
Qed.
(** A string with an unbalanced bracket ends the series: the next edit of the text fails, that of the document does not. *)
Theorem unbalanced_edits_end_the_series :
  let es := [Put (lit "k") (JStr (lit "[")); Put (lit "k") JNull] in
  edit_docs (2 ^ 60) es (JObj []) = Ok (JObj [(lit "k", (JNull, []))]) /\ exists e, edit_texts id_order (2 ^ 60) es (lit "{}") = Err e.
Proof. split; [vm_compute; reflexivity|]. eexists. vm_compute. reflexivity. Qed.

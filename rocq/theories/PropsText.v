(** The functions on texts: get, set, del (C28). *)
From Verif Require Import Base F64 Json Parse Print Ops Path Convert SpecGrammar SpecLenient SpecPath SpecValue SpecConvert MapProofs PathProofs PathTextProofs PreserveProofs CanonProofs LenientProofs PrintProofs
  PropsParse PropsPrint PropsPath PropsConvert PropsErrors.
Open Scope N_scope.

(** * Writing two values that are the same *)
Lemma same_insert k x x' l o : same x x' -> same (JObj (hm_insert k (x, l) o)) (JObj (hm_insert k (x', l) o)).
Proof.
  intros S. apply same_obj with (hm_insert k (x, l) o); [reflexivity|].
  assert (R : forall o : hmap, Forall2 same_entry o o).
  { intros q. apply Forall2_same_list. apply Forall_forall. intros e _. split; auto. split; [apply same_refl|]. apply Forall2_same_list. apply Forall_forall. intros; apply same_refl. }
  assert (E : same_entry (k, (x, l)) (k, (x', l))).
  { split; auto. split; auto. cbn. apply Forall2_same_list. apply Forall_forall. intros; apply same_refl. }
  induction o as [|[k' v'] o IH]; cbn [hm_insert]; [constructor; auto|].
  specialize (R ((k', v') :: o)). destruct (str_cmp k k'); inversion R; subst; constructor; auto.
Qed.
Lemma same_vec_set i x x' v : same x x' -> Forall2 same (vec_set i x v) (vec_set i x' v).
Proof.
  intros S. revert i. induction v as [|y v IH]; intros [|i]; cbn; auto; constructor; auto using same_refl.
  apply Forall2_same_list, Forall_forall. intros; apply same_refl.
Qed.
Lemma same_make f x x' j : same x x' -> same (make f x j) (make f x' j).
Proof. intros S. destruct f; cbn [make]; [now apply same_insert|]. constructor. now apply same_vec_set. Qed.
Lemma same_repl f x x' j : same x x' -> same (repl f x j) (repl f x' j).
Proof.
  intros S. destruct f as [k|i], j; cbn [repl]; auto using same_refl.
  - destruct (hm_get k o) as [[? l]|]; auto using same_refl. now apply same_insert.
  - constructor. now apply same_vec_set.
Qed.
Lemma same_upd p x x' : same x x' -> forall j, same (upd p x j) (upd p x' j).
Proof.
  intros S. induction p as [|f q IH]; intros j; [exact S|]. destruct q as [|g q].
  - cbn [upd]. now apply same_make.
  - rewrite !(upd_cons f (g :: q)) by discriminate. destruct (step f j); auto using same_repl, same_make.
Qed.

(** * Keys of a path text *)
Lemma Seg_scalar raw c : Seg raw c -> scalar_str raw = true -> scalar_str c = true.
Proof. induction 1 as [|raw c H IH|x raw c Hx H IH]; cbn; auto; intros E; rewrite ?andb_true_iff in *; intuition auto. Qed.
Lemma PathText_scalar s cs : PathText s cs -> scalar_str s = true -> Forall (fun c => scalar_str c = true) cs.
Proof.
  induction 1 as [raw c H|raw c s cs H _ HP IH]; intros E.
  - constructor; auto. eapply Seg_scalar; eauto.
  - apply scalar_app in E as [E1 E2]. apply scalar_app in E2 as [_ E2]. constructor; auto. eapply Seg_scalar; eauto.
Qed.
Lemma path_keys_scalar s p : scalar_str s = true -> parse_path s = Ok p -> forall k, In (Key k) (steps p) -> scalar_str k = true.
Proof.
  intros Hs H k Hk. apply path_text_meaning in H as (cs & HP & HF). apply PathText_scalar in HP; auto.
  clear Hs. induction HF as [|c f cs fs Hc HF IH]; [destruct Hk|]. inversion HP; subst. destruct Hk as [->|Hk]; auto.
  inversion Hc; subst; auto.
Qed.

(** * C28 *)
Section TextOps.
  Variables order order' : json -> json.
  Hypothesis R : reorders order.
  Hypothesis R' : reorders order'.

  Lemma print_order j : legal j -> to_string (order j) = to_string j.
  Proof. intros L. symmetry. apply printing_ignores_iteration_order; [now apply legal_iff in L|apply R]. Qed.

  (** [set] on a text: parses, sets, prints.  The new text parses back to exactly the edited document, or not at all. *)
  Lemma text_set_inv vmax {T} (c : codec T) t p x t' : scalar_str t = true -> scalar_str p = true -> legal (to_json c x) ->
    text_set order vmax c t p x = Ok t' ->
    exists j v j', parse t = Ok j /\ same (to_json c x) v /\ wf v = true /\ set vmax j p v = (j', Ok v) /\ wf j' = true /\ t' = to_string j' /\
      (finite (to_json c x) = true -> finite j' = true /\ (balanced j' = true /\ parse t' = Ok j' \/ balanced j' = false /\ exists e, parse t' = Err e)).
  Proof.
    intros Ht Hp L H. unfold text_set in H. destruct (parse t) as [j| | |] eqn:Ej; try discriminate. cbn [bind] in H.
    destruct (parsed_values_well_formed _ _ Ht Ej) as [Wj Fj]. set (w := to_json c x) in *. pose proof (canon_same w) as S. pose proof (canon_legal_wf w L) as Wv.
    exists j, (canon w). unfold set in *. destruct p as [|a p]; [discriminate|]. destruct (parse_path (a :: p)) as [q| | |] eqn:Ep; try discriminate.
    destruct (p_update vmax q j w) as [j1 r1] eqn:E1. destruct r1 as [r1| | |]; try discriminate. destruct (update_ok _ _ _ _ _ _ Wj E1) as (Ho & -> & ->).
    pose proof (p_update_upd vmax q j (canon w) (wf_skeys _ Wj)) as U. rewrite Ho in U. exists (upd (steps q) (canon w) j).
    pose proof (update_keeps_well_formed _ _ _ _ _ _ Wj Wv (path_keys_scalar _ _ Hp Ep) U) as Wu.
    pose proof (same_upd (steps q) _ _ S j) as Su.
    assert (Lu : legal (upd (steps q) w j)) by (eapply same_legal; [apply same_sym; exact Su|now apply wf_legal]).
    cbn [bind] in H. rewrite print_order in H by auto.
    assert (Et : to_string (upd (steps q) w j) = to_string (upd (steps q) (canon w) j)) by (apply printing_ignores_iteration_order; auto; now apply legal_iff in Lu).
    injection H as <-. rewrite Et. do 6 (split; auto). intros Fw.
    assert (Fu : finite (upd (steps q) (canon w) j) = true) by (eapply update_keeps_finite; [exact Wj|exact Fj|exact Wv| |exact U]; now rewrite <- (finite_same _ _ S)).
    split; auto. now apply printed_never_misread.
  Qed.
  (** Reading back what was set gives it back, unless the new text is rejected as a whole. *)
  Theorem text_get_after_set vmax {T} (c : codec T) eqv t p x t' : scalar_str t = true -> scalar_str p = true ->
    legal (to_json c x) -> finite (to_json c x) = true -> round_trips c eqv x ->
    text_set order vmax c t p x = Ok t' ->
    (exists y, text_get order' c t' p = Ok y /\ eqv x y) \/ (exists e, parse t' = Err e /\ text_get order' c t' p = Err e).
  Proof.
    intros Ht Hp L F RT H. destruct (text_set_inv _ _ _ _ _ _ Ht Hp L H) as (j & v & j' & Ej & S & Wv & Es & Wj' & -> & P).
    destruct (P F) as [_ [[_ E]|[_ [e E]]]]; unfold text_get; rewrite E; cbn [bind]; [left|right; eauto].
    destruct (parsed_values_well_formed _ _ Ht Ej) as [Wj _]. destruct (set_then_get _ _ _ _ _ _ Wj Es) as [G _]. rewrite G. cbn [bind].
    unfold convert. apply RT. eapply same_trans; [exact S|apply R'].
  Qed.
  (** At a place beside the path, every read is as before. *)
  Theorem text_set_keeps_others vmax {T U} (c : codec T) (d : codec U) t p q x t' ps qs j y : scalar_str t = true -> scalar_str p = true ->
    legal (to_json c x) -> finite (to_json c x) = true -> text_set order vmax c t p x = Ok t' ->
    parse_path p = Ok ps -> q <> [] -> parse_path q = Ok qs -> diverges (steps ps) (steps qs) ->
    parse t = Ok j -> get j q = Ok y ->
    text_get order' d t' q = text_get order' d t q \/ (exists e, parse t' = Err e /\ text_get order' d t' q = Err e).
  Proof.
    intros Ht Hp L F H Pp Nq Pq D Ej Gq. destruct (text_set_inv _ _ _ _ _ _ Ht Hp L H) as (j0 & v & j' & Ej0 & S & Wv & Es & Wj' & -> & P).
    rewrite Ej in Ej0. injection Ej0 as <-.
    destruct (P F) as [_ [[_ E]|[_ [e E]]]]; unfold text_get; rewrite E; cbn [bind]; [left|right; eauto]. rewrite Ej. cbn [bind]. rewrite Gq.
    destruct (parsed_values_well_formed _ _ Ht Ej) as [Wj _]. assert (G : get j' q = Ok y); [|now rewrite G].
    apply get_navigates in Gq as (_ & qs' & Pq' & W). rewrite Pq in Pq'. injection Pq' as <-. apply get_navigates. split; auto. exists qs. split; auto.
    unfold set in Es. destruct p as [|a p]; [discriminate|]. rewrite Pp in Es. eapply update_keeps_other_locations; eauto.
  Qed.
  (** [set] fails with the error of the text or of the path; it panics only if an array would have to grow beyond [vmax] elements. *)
  Theorem text_set_outcome vmax {T} (c : codec T) t p x : scalar_str t = true ->
    (forall e, text_set order vmax c t p x = Err e <-> parse t = Err e \/ exists j, parse t = Ok j /\ (p = [] \/ bad_segment p) /\ get j p = Err e) /\
    (text_set order vmax c t p x = Panic <-> exists j ps, parse t = Ok j /\ p <> [] /\ parse_path p = Ok ps /\ overflows vmax (steps ps) j) /\
    text_set order vmax c t p x <> Fuel.
  Proof.
    intros Ht. unfold text_set. destruct (parse_is_total t) as [[j Ej]|[e Ej]]; rewrite Ej; cbn [bind].
    2:{ repeat split; try discriminate.
        - intros [= ->]. auto.
        - intros [H|(j & H & _)]; congruence.
        - intros (j & ps & H & _). discriminate. }
    destruct (parsed_values_well_formed _ _ Ht Ej) as [Wj _]. unfold set, get. destruct p as [|a p].
    { cbn [bind]. unfold empty_path, fail. cbn [bind]. repeat split; try discriminate.
      - intros H. right. exists j. split; auto. split; auto. now inversion H.
      - intros [H|(j0 & H & _ & H')]; [discriminate|]. now inversion H'.
      - intros (j0 & ps & _ & H & _). congruence. }
    destruct (parse_path_cases (a :: p)) as [(q & Ep & Hb)|(e & Ep & K & Hb)]; rewrite Ep; cbn [bind].
    - destruct (update_outcome vmax q j (to_json c x) Wj) as [A B].
      assert (D : overflows vmax (steps q) j \/ ~ overflows vmax (steps q) j) by (rewrite <- over_overflows; destruct (over vmax (steps q) j); auto; right; discriminate).
      destruct D as [D|D]; [destruct (B D) as [j' E]|destruct (A D) as [j' E]]; rewrite E; cbn [bind]; repeat split; try discriminate.
      + intros [H|(j0 & H & [H'|H'] & _)]; try discriminate. contradiction.
      + intros _. exists j, q. repeat split; auto. discriminate.
      + intros [H|(j0 & H & [H'|H'] & _)]; try discriminate. contradiction.
      + intros (j0 & ps & H1 & _ & H2 & H3). inversion H1; inversion H2; subst. contradiction.
    - repeat split; try discriminate.
      + intros [= ->]. right. exists j. auto.
      + intros [H|(j0 & H & _ & H')]; [discriminate|]. congruence.
      + intros (j0 & ps & _ & _ & H & _). discriminate.
  Qed.

  (** [del] on a text succeeds exactly when [get] finds something, with the same error otherwise. *)
  Theorem text_del_outcome t p :
    (forall e, text_del order t p = Err e <-> text_get order c_json t p = Err e) /\
    ((exists t', text_del order t p = Ok t') <-> exists x, text_get order c_json t p = Ok x) /\
    text_del order t p <> Panic /\ text_del order t p <> Fuel.
  Proof.
    unfold text_del, text_get. destruct (parse_is_total t) as [[j Ej]|[e Ej]]; rewrite Ej; cbn [bind].
    - pose proof (del_returns_get j p) as D. destruct (del j p) as [j' r]. cbn [snd] in D. subst r.
      destruct (get_never_panics j p) as [[x E]|[e E]]; rewrite E; cbn [bind convert c_json from_json].
      + (split; [split; discriminate|]); (split; [split; eauto|]); split; discriminate.
      + (split; [split; congruence|]); (split; [split; intros [? H]; discriminate H|]); split; discriminate.
    - (split; [split; congruence|]); (split; [split; intros [? H]; discriminate H|]); split; discriminate.
  Qed.
  (** The new text is that of the document without the value; it is readable if the old document prints to a readable text. *)
  Theorem text_del_result t p t' : scalar_str t = true -> text_del order t p = Ok t' ->
    exists j x j', parse t = Ok j /\ del j p = (j', Ok x) /\ wf j' = true /\ t' = to_string j' /\
      (balanced j' = true /\ parse t' = Ok j' \/ balanced j' = false /\ exists e, parse t' = Err e) /\
      (balanced_in j = true -> parse t' = Ok j').
  Proof.
    intros Ht H. unfold text_del in H. destruct (parse t) as [j| | |] eqn:Ej; try discriminate. cbn [bind] in H.
    destruct (parsed_values_well_formed _ _ Ht Ej) as [Wj Fj]. destruct (del j p) as [j' r] eqn:Ed. destruct r as [x| | |]; try discriminate. cbn in H.
    assert (Q : exists q, j' = fst (p_discard q j)). { unfold del in Ed. destruct p as [|a p]; [discriminate|]. destruct (parse_path (a :: p)) as [q| | |]; try discriminate. exists q. now rewrite Ed. }
    destruct Q as [q ->]. pose proof (discard_keeps_well_formed q j Wj) as W'. pose proof (discard_keeps_finite q j Wj Fj) as F'.
    rewrite print_order in H by now apply wf_legal. injection H as <-. exists j, x, (fst (p_discard q j)). repeat split; auto.
    - now apply printed_never_misread.
    - intros B. assert (B' : balanced_in (fst (p_discard q j)) = true).
      { apply (all_balanced (fst (p_discard q j))). apply all_discard. apply all_balanced. auto using wf_skeys. }
      assert (B2 : balanced (fst (p_discard q j)) = true) by (unfold balanced; destruct (fst (p_discard q j)); auto).
      destruct (printed_never_misread _ W' F') as [[_ P]|[P _]]; [exact P|congruence].
  Qed.
End TextOps.
Definition id_order : json -> json := fun j => j.
Definition sample_text : str := lit "{""a"": [1, {""b"": null}], ""c"": true}".
Example text_ops_examples :
  text_set id_order (2 ^ 60) (codec_of (TVec TString)) sample_text (lit "a.#3") [lit "x"] = Ok (lit "{""a"": [1, {""b"": null}, null, [""x""]], ""c"": true}") /\
  text_get id_order c_bool sample_text (lit "c") = Ok true /\
  text_del id_order sample_text (lit "a.#0") = Ok (lit "{""a"": [{""b"": null}], ""c"": true}") /\
  legal_value (TVec TString) [lit "x"] /\ survives (TVec TString) [lit "x"] /\
  diverges [Key (lit "a"); Index 3] [Key (lit "c")].
Proof.
  split; [vm_compute; reflexivity|]. split; [vm_compute; reflexivity|]. split; [vm_compute; reflexivity|].
  split; [constructor; [reflexivity|constructor]|]. split; [constructor; [exact I|constructor]|]. exists [], (Key (lit "a")), (Key (lit "c")), [Index 3], []. split; [reflexivity|]. split; [reflexivity|]. split; [discriminate|reflexivity].
Qed.
(** The rejected case: a bracket in a string that is not at the root. *)
Example set_then_unreadable : exists t' e, text_set id_order (2 ^ 60) c_string (lit "{}") (lit "k") (lit "[") = Ok t' /\ parse t' = Err e.
Proof.
  exists (lit "{""k"": ""[""}"). assert (H : match parse (lit "{""k"": ""[""}") with Err _ => true | _ => false end = true) by (vm_compute; reflexivity).
  destruct (parse (lit "{""k"": ""[""}")) as [|e| |]; try discriminate. exists e. split; auto.
Qed.

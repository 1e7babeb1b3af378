(** The parser on RFC 8259 texts. *)
From Verif Require Import Base F64 Utf8 Json Parse Print SpecGrammar MapProofs Utf8Proofs StringProofs NumberProofs ScanProofs.
From Coq Require Import ZifyBool ZifyNat ZifyN.

(** ** Trimming *)
Lemma trim_start_ws w s : ws w -> trim_start (w ++ s) = trim_start s.
Proof. induction 1 as [|c w H _ IH]; cbn; auto. apply is_whitespace_ws in H. now rewrite H. Qed.
Lemma ws_rev w : ws w -> ws (rev w).
Proof. unfold ws. apply Forall_rev. Qed.
Lemma trim_start_app s w : ws w -> trim_start (s ++ w) = trim_start s ++ w \/ (ws s /\ trim_start (s ++ w) = [] /\ trim_start s = []).
Proof.
  intros Hw. induction s as [|c s IH]; cbn.
  - right. split; [constructor|]. split; auto. rewrite <- (app_nil_r w), trim_start_ws; auto.
  - destruct (is_whitespace c) eqn:E; auto. destruct IH as [IH|(H1 & H2 & H3)]; auto. right; split; auto.
    constructor; auto. now apply is_whitespace_ws.
Qed.
Lemma trim_ws_ext w1 s w2 : ws w1 -> ws w2 -> trim_ws (w1 ++ s ++ w2) = trim_ws s.
Proof.
  intros H1 H2. unfold trim_ws. rewrite trim_start_ws by auto.
  destruct (trim_start_app s w2 H2) as [->|(_ & -> & ->)]; auto.
  rewrite rev_app_distr, trim_start_ws by now apply ws_rev. reflexivity.
Qed.
Definition nonws_ends (t : str) : Prop :=
  (exists c r, t = c :: r /\ ~ ws_char c) /\ (exists r c, t = r ++ [c] /\ ~ ws_char c).
Lemma trim_ws_id t : nonws_ends t -> trim_ws t = t.
Proof.
  intros [(c & r & E1 & H1) (r' & c' & E2 & H2)]. unfold trim_ws.
  assert (F : forall c r, ~ ws_char c -> trim_start (c :: r) = c :: r).
  { intros c0 r0 H. cbn. rewrite if_false; auto. rewrite <- is_whitespace_ws in H. destruct (is_whitespace c0); congruence. }
  rewrite E1, F by auto. rewrite <- E1, E2, rev_app_distr. cbn [rev app]. rewrite F by auto. cbn [rev].
  now rewrite rev_involutive.
Qed.
Lemma parse_ws w1 s w2 : ws w1 -> ws w2 -> parse (w1 ++ s ++ w2) = parse s.
Proof. intros H1 H2. unfold parse. now rewrite trim_ws_ext. Qed.

(** ** The grammar with a flag telling whether the text is in the supported part *)
Inductive GValue : bool -> bool -> str -> json -> Prop :=
| g_null n : GValue n true (lit "null") JNull
| g_true n : GValue n true (lit "true") (JBool true)
| g_false n : GValue n true (lit "false") (JBool false)
| g_num n s neg m e : Number s neg m e -> is_finite (dec_to_f64 neg m e) = true ->
    GValue n true s (JNum (dec_to_f64 neg m e))
| g_str n raw c : Chars raw c ->
    GValue n (negb n || (net raw =? 0)%Z) ([34] ++ raw ++ [34]) (JStr c)
| g_arr0 n : GValue n true ([91] ++ [] ++ [93]) (JArr [])
| g_arr0w n w : ws w -> w <> [] -> GValue n false ([91] ++ w ++ [93]) (JArr [])
| g_arr n g s vs : GElements g s vs -> GValue n g ([91] ++ s ++ [93]) (JArr vs)
| g_obj0 n : GValue n true ([123] ++ [] ++ [125]) (JObj [])
| g_obj0w n w : ws w -> w <> [] -> GValue n false ([123] ++ w ++ [125]) (JObj [])
| g_obj n g s ms o : GMembers g s ms -> Groups ms o -> GValue n g ([123] ++ s ++ [125]) (JObj o)
with GElements : bool -> str -> list json -> Prop :=
| ge_one g w1 s w2 v : ws w1 -> GValue true g s v -> ws w2 -> GElements g (w1 ++ s ++ w2) [v]
| ge_cons g w1 s w2 v g' s' vs : ws w1 -> GValue true g s v -> ws w2 -> GElements g' s' vs ->
    GElements (g && g') (w1 ++ s ++ w2 ++ [44] ++ s') (v :: vs)
with GMembers : bool -> str -> list (str * json) -> Prop :=
| gm_one g w1 raw k w2 w3 s w4 v : ws w1 -> Chars raw k -> ws w2 -> ws w3 ->
    GValue true g s v -> ws w4 ->
    GMembers ((net raw =? 0)%Z && g) (w1 ++ ([34] ++ raw ++ [34]) ++ w2 ++ [58] ++ w3 ++ s ++ w4) [(k, v)]
| gm_cons g w1 raw k w2 w3 s w4 v g' s' ms : ws w1 -> Chars raw k -> ws w2 -> ws w3 ->
    GValue true g s v -> ws w4 -> GMembers g' s' ms ->
    GMembers ((net raw =? 0)%Z && g && g') (w1 ++ ([34] ++ raw ++ [34]) ++ w2 ++ [58] ++ w3 ++ s ++ w4 ++ [44] ++ s') ((k, v) :: ms).

Scheme Value_mind := Minimality for Value Sort Prop
  with Elements_mind := Minimality for Elements Sort Prop
  with Members_mind := Minimality for Members Sort Prop.
Combined Scheme grammar_mind from Value_mind, Elements_mind, Members_mind.
Scheme GValue_mind := Minimality for GValue Sort Prop
  with GElements_mind := Minimality for GElements Sort Prop
  with GMembers_mind := Minimality for GMembers Sort Prop.
Combined Scheme ggrammar_mind from GValue_mind, GElements_mind, GMembers_mind.

Lemma grammar_flag eo so :
  (forall n s v, Value eo so n s v -> exists g, GValue n g s v) /\
  (forall s vs, Elements eo so s vs -> exists g, GElements g s vs) /\
  (forall s ms, Members eo so s ms -> exists g, GMembers g s ms).
Proof.
  apply grammar_mind; intros;
    repeat match goal with H : exists g, _ |- _ => destruct H as [? H] end;
    try solve [eexists; econstructor; eauto].
  - destruct w; [exists true; apply g_arr0|exists false; apply g_arr0w; auto; discriminate].
  - destruct w; [exists true; apply g_obj0|exists false; apply g_obj0w; auto; discriminate].
Qed.
Lemma flag_true :
  (forall n g s v, GValue n g s v -> g = true -> Value no_space balanced_raw n s v) /\
  (forall g s vs, GElements g s vs -> g = true -> Elements no_space balanced_raw s vs) /\
  (forall g s ms, GMembers g s ms -> g = true -> Members no_space balanced_raw s ms).
Proof.
  apply ggrammar_mind; intros; repeat match goal with H : _ && _ = true |- _ => apply andb_true_iff in H as [? ?] end;
    try discriminate; try solve [econstructor; eauto].
  - apply v_str; auto. intros ->. unfold balanced_raw. cbn in *. lia.
  - apply v_arr0; [constructor|reflexivity].
  - apply v_obj0; [constructor|reflexivity].
  - apply m_one; auto. unfold balanced_raw; lia.
  - apply m_cons; auto. unfold balanced_raw; lia.
Qed.
Lemma flag_any :
  (forall n g s v, GValue n g s v -> Value anything anything n s v) /\
  (forall g s vs, GElements g s vs -> Elements anything anything s vs) /\
  (forall g s ms, GMembers g s ms -> Members anything anything s ms).
Proof.
  apply ggrammar_mind; intros; try solve [econstructor; eauto; exact I].
  - apply v_str; auto. intros; exact I.
  - apply v_arr0; [constructor|exact I].
  - apply v_obj0; [constructor|exact I].
Qed.

(** ** First and last characters *)
Definition value_start (c : N) : Prop :=
  c = 110 \/ c = 116 \/ c = 102 \/ c = 45 \/ digit c \/ c = 34 \/ c = 91 \/ c = 123.
Lemma value_head n g s v : GValue n g s v -> exists c r, s = c :: r /\ value_start c.
Proof.
  unfold value_start. destruct 1; try (eexists _, _; split; [reflexivity|]; tauto).
  destruct (Number_head _ _ _ _ H) as (c & r & -> & Hc). exists c, r. split; auto. tauto.
Qed.
Lemma num_char_nonws c : num_char c -> ~ ws_char c.
Proof. unfold num_char, digit, ws_char. cbn. lia. Qed.
Lemma value_ends n g s v : GValue n g s v -> nonws_ends s.
Proof.
  intros H. split.
  - destruct (value_head _ _ _ _ H) as (c & r & -> & Hc). exists c, r; split; auto.
    unfold value_start, digit, ws_char in *. cbn. lia.
  - destruct H; try (rewrite app_assoc; eexists _, _; split; [reflexivity|]; unfold ws_char; cbn; lia).
    + exists (lit "nul"), 108. split; auto. unfold ws_char; cbn; lia.
    + exists (lit "tru"), 101. split; auto. unfold ws_char; cbn; lia.
    + exists (lit "fals"), 101. split; auto. unfold ws_char; cbn; lia.
    + destruct (Number_head _ _ _ _ H) as (c & r & -> & _).
      pose proof (Number_chars _ _ _ _ H) as Hc.
      destruct (exists_last (l := c :: r)) as (r' & c' & E); [discriminate|].
      exists r', c'. split; auto. rewrite E in Hc. apply Forall_app in Hc as [_ Hc]. inversion Hc; subst.
      now apply num_char_nonws.
Qed.
Lemma elements_head g s vs : GElements g s vs -> exists c r, s = c :: r /\ c <> 93 /\ c <> 125.
Proof.
  assert (A : forall w t, ws w -> (exists c r, t = c :: r /\ value_start c) -> exists c r, w ++ t = c :: r /\ c <> 93 /\ c <> 125).
  { intros [|c w] t Hw (c' & r & -> & Hc); cbn [app].
    - exists c', r. unfold value_start, digit in Hc. split; auto; split; lia.
    - exists c, (w ++ c' :: r). inversion Hw as [|? ? Hwc]; subst. unfold ws_char in Hwc; cbn in Hwc. split; auto; split; lia. }
  destruct 1 as [g w1 s w2 v H1 Hv H2|g w1 s w2 v g' s' vs H1 Hv H2 H]; apply A; auto;
    destruct (value_head _ _ _ _ Hv) as (c & r & -> & Hc); cbn [app]; eauto.
Qed.
Lemma members_head g s ms : GMembers g s ms -> exists c r, s = c :: r /\ c <> 93 /\ c <> 125.
Proof.
  assert (A : forall w t, ws w -> exists c r, w ++ 34 :: t = c :: r /\ c <> 93 /\ c <> 125).
  { intros [|c w] t Hw; cbn [app].
    - eexists _, _; split; [reflexivity|]. split; lia.
    - eexists _, _; split; [reflexivity|]. inversion Hw as [|? ? Hwc]; subst. unfold ws_char in Hwc; cbn in Hwc. split; lia. }
  destruct 1; cbn [app]; apply A; auto.
Qed.

(** ** Scanning tokens *)
Lemma Verb_cons_other i j c s i' j' : c <> 34 -> c <> 91 -> c <> 123 -> c <> 93 -> c <> 125 -> c <> 92 ->
    ((i = 0 /\ j = 0)%Z -> ~ ws_char c /\ c <> 44 /\ c <> 58) -> Verb i j s i' j' -> Verb i j (c :: s) i' j'.
Proof. intros; apply vb_other; auto. Qed.

Lemma Verb_plain i j s : Forall (fun c => c <> 34 /\ c <> 91 /\ c <> 123 /\ c <> 93 /\ c <> 125 /\ c <> 92 /\
    ~ ws_char c /\ c <> 44 /\ c <> 58) s -> Verb i j s i j.
Proof.
  induction 1 as [|c s (H1 & H2 & H3 & H4 & H5 & H6 & H7 & H8 & H9) _ IH]; [apply vb_nil|].
  apply vb_other; auto.
Qed.
Lemma Verb_number i s neg m e : Number s neg m e -> Verb i 0 s i 0.
Proof.
  intros H. apply Verb_plain. apply Number_chars in H. revert H. apply Forall_impl.
  intros c H. pose proof (num_char_nonws _ H). unfold num_char, digit in H. repeat split; auto; lia.
Qed.
Lemma Verb_ws i w : i <> 0%Z -> ws w -> Verb i 0 w i 0.
Proof.
  intros Hi. induction 1 as [|c w H _ IH]; [apply vb_nil|].
  unfold ws_char in H; cbn in H. apply vb_other; auto; lia.
Qed.

Lemma net_app s t : net (s ++ t) = (net s + net t)%Z.
Proof. induction s as [|c s IH]; cbn [app net]; lia. Qed.

Lemma Verb_hex i h u s i' j' : four_hex h u -> Verb i 1 s i' j' -> Verb i 1 (h ++ s) i' j'.
Proof.
  intros (a & b & c & d & x & y & z & w & -> & H1 & H2 & H3 & H4 & _) H. cbn [app].
  unfold hexdig in *. repeat (apply vb_other; try lia). auto.
Qed.
Lemma net_hex h u : four_hex h u -> net h = 0%Z.
Proof.
  intros (a & b & c & d & x & y & z & w & -> & H1 & H2 & H3 & H4 & _). unfold hexdig in *. cbn [net].
  repeat (rewrite if_false by lia). reflexivity.
Qed.
Lemma Verb_chars raw c : Chars raw c -> forall i t i' j', Verb (i + net raw) 1 t i' j' -> Verb i 1 (raw ++ t) i' j'.
Proof.
  induction 1 as [|c raw s Hc H IH|e c raw s He H IH|h u raw s Hh Hu H IH|h hi l lo raw s Hh Hl Hhi Hlo H IH];
    intros i t i' j' Ht; cbn [app].
  - cbn in Ht. now rewrite Z.add_0_r in Ht.
  - cbn [net] in Ht. unfold unescaped in Hc.
    destruct ((c =? 91) || (c =? 123)) eqn:E1.
    { apply vb_open; [lia|]. apply IH. replace (i + 1 + net raw)%Z with (i + (1 + net raw))%Z by lia. exact Ht. }
    destruct ((c =? 93) || (c =? 125)) eqn:E2.
    { apply vb_close; [lia|lia|]. apply IH. replace (i - 1 + net raw)%Z with (i + (-1 + net raw))%Z by lia. exact Ht. }
    apply vb_other; try lia. apply IH. rewrite Z.add_0_l in Ht. exact Ht.
  - apply vb_esc. apply IH. cbn [net] in Ht.
    assert (He' : net [e] = 0%Z).
    { unfold simple_escape in He; cbn in He. repeat (destruct He as [[= <- <-]|He]; [reflexivity|]). destruct He. }
    cbn [net] in He'. rewrite Z.add_0_r in He'. rewrite He' in Ht. exact Ht.
  - apply vb_esc. rewrite <- app_assoc. eapply Verb_hex; eauto. apply IH.
    cbn [net N.eqb Pos.eqb orb] in Ht. rewrite net_app, (net_hex _ _ Hh) in Ht. exact Ht.
  - apply vb_esc. rewrite <- app_assoc. eapply Verb_hex; eauto. cbn [app]. apply vb_esc. rewrite <- app_assoc.
    eapply Verb_hex; eauto. apply IH.
    cbn [net N.eqb Pos.eqb orb] in Ht. rewrite net_app, (net_hex _ _ Hh) in Ht.
    cbn [net N.eqb Pos.eqb orb] in Ht. rewrite net_app, (net_hex _ _ Hl) in Ht. exact Ht.
Qed.
Lemma Verb_string raw c i : Chars raw c -> Verb i 0 ([34] ++ raw ++ [34]) (i + net raw) 0.
Proof.
  intros H. cbn [app]. apply vb_quote. cbn [Z.leb Z.compare Z.add]. eapply Verb_chars; eauto.
  apply vb_quote. apply vb_nil.
Qed.

(** ** Supported values are copied verbatim *)
Lemma Verb_values :
  (forall n g s v, GValue n g s v -> n = true -> g = true -> forall i, (0 <= i)%Z -> Verb i 0 s i 0) /\
  (forall g s vs, GElements g s vs -> g = true -> forall i, (1 <= i)%Z -> Verb i 0 s i 0) /\
  (forall g s ms, GMembers g s ms -> g = true -> forall i, (1 <= i)%Z -> Verb i 0 s i 0).
Proof.
  apply ggrammar_mind.
  - intros. apply Verb_plain. repeat (apply Forall_cons; [unfold ws_char; cbn; lia|]). constructor.
  - intros. apply Verb_plain. repeat (apply Forall_cons; [unfold ws_char; cbn; lia|]). constructor.
  - intros. apply Verb_plain. repeat (apply Forall_cons; [unfold ws_char; cbn; lia|]). constructor.
  - intros. eapply Verb_number; eauto.
  - intros n raw c H -> Hg i Hi. cbn in Hg. replace i with (i + net raw)%Z at 2 by lia. eapply Verb_string; eauto.
  - intros n _ _ i Hi. cbn [app]. apply vb_open; auto. apply vb_close; [auto|lia|].
    replace (i + 1 - 1)%Z with i by lia. apply vb_nil.
  - discriminate.
  - intros n g s vs _ IH _ Hg i Hi. cbn [app]. apply vb_open; auto. eapply Verb_app; [apply IH; auto; lia|].
    apply vb_close; [auto|lia|]. replace (i + 1 - 1)%Z with i by lia. apply vb_nil.
  - intros n _ _ i Hi. cbn [app]. apply vb_open; auto. apply vb_close; [auto|lia|].
    replace (i + 1 - 1)%Z with i by lia. apply vb_nil.
  - discriminate.
  - intros n g s vs o _ IH _ _ Hg i Hi. cbn [app]. apply vb_open; auto. eapply Verb_app; [apply IH; auto; lia|].
    apply vb_close; [auto|lia|]. replace (i + 1 - 1)%Z with i by lia. apply vb_nil.
  - intros g w1 s w2 v H1 _ IH H2 Hg i Hi. eapply Verb_app; [apply Verb_ws; auto; lia|].
    eapply Verb_app; [apply IH; auto; lia|]. apply Verb_ws; auto; lia.
  - intros g w1 s w2 v g' s' vs H1 _ IH H2 _ IH' Hg i Hi. apply andb_true_iff in Hg as [Hg Hg'].
    eapply Verb_app; [apply Verb_ws; auto; lia|]. eapply Verb_app; [apply IH; auto; lia|].
    eapply Verb_app; [apply Verb_ws; auto; lia|]. cbn [app]. apply vb_other; try lia. apply IH'; auto.
  - intros g w1 raw k w2 w3 s w4 v H1 Hr H2 H3 _ IH H4 Hg i Hi. apply andb_true_iff in Hg as [Hr0 Hg].
    eapply Verb_app; [apply Verb_ws; auto; lia|].
    eapply Verb_app; [eapply Verb_string; eauto|]. replace (i + net raw)%Z with i by lia.
    eapply Verb_app; [apply Verb_ws; auto; lia|]. cbn [app]. apply vb_other; try lia.
    eapply Verb_app; [apply Verb_ws; auto; lia|]. eapply Verb_app; [apply IH; auto; lia|]. apply Verb_ws; auto; lia.
  - intros g w1 raw k w2 w3 s w4 v g' s' ms H1 Hr H2 H3 _ IH H4 _ IH' Hg i Hi.
    apply andb_true_iff in Hg as [Hg Hg']. apply andb_true_iff in Hg as [Hr0 Hg].
    eapply Verb_app; [apply Verb_ws; auto; lia|].
    eapply Verb_app; [eapply Verb_string; eauto|]. replace (i + net raw)%Z with i by lia.
    eapply Verb_app; [apply Verb_ws; auto; lia|]. cbn [app]. apply vb_other; try lia.
    eapply Verb_app; [apply Verb_ws; auto; lia|]. eapply Verb_app; [apply IH; auto; lia|].
    eapply Verb_app; [apply Verb_ws; auto; lia|]. cbn [app]. apply vb_other; try lia. apply IH'; auto.
Qed.

(** ** Objects built by successive insertion *)
Definition build (m : hmap) (ms : list (str * json)) : hmap :=
  fold_left (fun m kv => object_insert m (fst kv) (snd kv)) ms m.
Lemma build_sorted ms : forall m, keys_sorted m = true -> keys_sorted (build m ms) = true.
Proof.
  induction ms as [|[k v] ms IH]; intros m H; [exact H|]. cbn [build fold_left fst snd].
  apply IH. now apply object_insert_sorted.
Qed.
Lemma build_values ms : forall m k, keys_sorted m = true ->
  entry_values (hm_get k (build m ms)) = entry_values (hm_get k m) ++ values_of k ms.
Proof.
  induction ms as [|[k' v] ms IH]; intros m k Hm.
  - cbn. now rewrite app_nil_r.
  - change (build m ((k', v) :: ms)) with (build (object_insert m k' v) ms). rewrite IH by now apply object_insert_sorted.
    rewrite object_insert_get by auto. unfold values_of. cbn [filter fst snd].
    destruct (str_eqb k k') eqn:E; auto. apply str_eqb_eq in E as ->. cbn [map entry_values].
    destruct (hm_get k' m) as [[w l]|]; cbn [rev app snd entry_values]; rewrite <- ?app_assoc; auto.
Qed.
Lemma entry_values_inj e e' : entry_values e = entry_values e' -> e = e'.
Proof.
  destruct e as [[v l]|], e' as [[v' l']|]; cbn; auto.
  - intros H. apply app_inj_tail in H as [H ->]. apply (f_equal (@rev _)) in H. rewrite !rev_involutive in H. now subst.
  - intros H. symmetry in H. now apply app_cons_not_nil in H.
  - intros H. now apply app_cons_not_nil in H.
Qed.
Lemma Groups_build ms : Groups ms (build [] ms).
Proof. split; [now apply build_sorted|]. intros k. now rewrite build_values. Qed.
Lemma Groups_unique ms o o' : Groups ms o -> Groups ms o' -> o = o'.
Proof.
  intros [H1 H2] [H1' H2']. apply hm_ext; auto. intros k. apply entry_values_inj. now rewrite H2, H2'.
Qed.

(** ** Supported texts are parsed to their value *)
Lemma parse_head_str n raw c : Chars raw c -> (0 < n)%nat -> parse_ n ([34] ++ raw ++ [34]) = Ok (JStr c).
Proof.
  intros H Hn. destruct n as [|n]; [lia|]. rewrite <- (app_nil_r [34]) at 2. cbn [parse_ app N.eqb Pos.eqb orb].
  apply (parse_string_ok raw c []); auto. constructor.
Qed.

Lemma parse_supported :
  (forall n g s v, GValue n g s v -> g = true -> forall N, (List.length s < N)%nat -> parse_ N s = Ok v) /\
  (forall g s vs, GElements g s vs -> g = true -> forall N acc, (List.length s < N)%nat ->
     arr_loop (parse_ N) 0 0 [] acc (s ++ [93]) = Ok (JArr (acc ++ vs))) /\
  (forall g s ms, GMembers g s ms -> g = true -> forall N m, (List.length s < N)%nat ->
     obj_loop (parse_ N) 0 0 [] [] true m (s ++ [125]) = Ok (JObj (build m ms))).
Proof.
  apply ggrammar_mind.
  - intros n _ [|N] HN; [inversion HN|]. reflexivity.
  - intros n _ [|N] HN; [inversion HN|]. reflexivity.
  - intros n _ [|N] HN; [inversion HN|]. reflexivity.
  - intros n s neg m e H Hf _ [|N] HN; [inversion HN|]. cbn [parse_].
    destruct (Number_head _ _ _ _ H) as (c & r & -> & Hc).
    rewrite if_false by (unfold digit in Hc; lia). rewrite if_false by (unfold digit in Hc; lia).
    rewrite if_true. { eapply parse_number_ok; eauto. }
    apply orb_true_iff. destruct Hc as [->|Hc]; [left; lia|right; now apply is_digit_digit].
  - intros n raw c H _ N HN. apply parse_head_str; auto. lia.
  - intros n _ [|N] HN; [inversion HN|]. reflexivity.
  - discriminate.
  - intros n g s vs H IH Hg [|N] HN; [inversion HN|]. rewrite !app_length in HN. cbn in HN.
    cbn [parse_ app N.eqb Pos.eqb orb is_digit N.leb N.compare Pos.compare Pos.compare_cont andb].
    unfold parse_array. cbn [tl].
    destruct (elements_head _ _ _ H) as (c & r & E & Hc & _).
    rewrite if_false by (rewrite E; cbn; lia). rewrite IH; auto. lia.
  - intros n _ [|N] HN; [inversion HN|]. reflexivity.
  - discriminate.
  - intros n g s ms o H IH Ho Hg [|N] HN; [inversion HN|]. rewrite !app_length in HN. cbn in HN.
    cbn [parse_ app N.eqb Pos.eqb orb is_digit N.leb N.compare Pos.compare Pos.compare_cont andb].
    unfold parse_object. cbn [tl].
    destruct (members_head _ _ _ H) as (c & r & E & _ & Hc).
    rewrite if_false by (rewrite E; cbn; lia). rewrite IH; auto; [|lia].
    f_equal. f_equal. eapply Groups_unique; eauto using Groups_build.
  - intros g w1 s w2 v H1 Hv IH H2 Hg N acc HN. rewrite !app_length in HN.
    rewrite <- !app_assoc, arr_ws by auto.
    erewrite arr_verb by (eapply (proj1 Verb_values); eauto; lia).
    rewrite arr_ws by auto. cbn [app]. apply arr_close. apply IH; auto. lia.
  - intros g w1 s w2 v g' s' vs H1 Hv IH H2 Hs IH' Hg N acc HN. apply andb_true_iff in Hg as [Hg Hg'].
    rewrite !app_length in HN. cbn in HN. rewrite <- !app_assoc, arr_ws by auto.
    erewrite arr_verb by (eapply (proj1 Verb_values); eauto; lia).
    rewrite arr_ws by auto. cbn [app]. destruct (value_head _ _ _ _ Hv) as (c & r & E & _).
    rewrite (arr_comma _ _ _ _ v).
    + rewrite IH' by (auto; lia). now rewrite <- app_assoc.
    + apply IH; auto. lia.
    + rewrite E. discriminate.
    + destruct (elements_head _ _ _ Hs) as (c' & r' & -> & Hc' & _). cbn. auto.
  - intros g w1 raw k w2 w3 s w4 v H1 Hr H2 H3 Hv IH H4 Hg N m HN. apply andb_true_iff in Hg as [Hr0 Hg].
    rewrite !app_length in HN. cbn [List.length] in HN. rewrite <- (app_assoc w1), obj_ws by auto.
    rewrite <- (app_assoc ([34] ++ raw ++ [34])).
    erewrite obj_verb_k by (eapply Verb_string; eauto). replace (0 + net raw)%Z with 0%Z by lia.
    rewrite <- !app_assoc, obj_ws by auto. cbn [app]. rewrite obj_colon, obj_ws by auto.
    erewrite obj_verb_v by (eapply (proj1 Verb_values); eauto; lia).
    rewrite obj_ws by auto. cbn [app]. eapply obj_close.
    + apply (parse_head_str N raw k); auto. lia.
    + apply IH; auto. lia.
  - intros g w1 raw k w2 w3 s w4 v g' s' ms H1 Hr H2 H3 Hv IH H4 Hs IH' Hg N m HN.
    apply andb_true_iff in Hg as [Hg Hg']. apply andb_true_iff in Hg as [Hr0 Hg].
    rewrite !app_length in HN. cbn [List.length] in HN. rewrite <- (app_assoc w1), obj_ws by auto.
    rewrite <- (app_assoc ([34] ++ raw ++ [34])).
    erewrite obj_verb_k by (eapply Verb_string; eauto). replace (0 + net raw)%Z with 0%Z by lia.
    rewrite <- !app_assoc, obj_ws by auto. cbn [app]. rewrite obj_colon, obj_ws by auto.
    erewrite obj_verb_v by (eapply (proj1 Verb_values); eauto; lia).
    rewrite obj_ws by auto. cbn [app]. destruct (value_head _ _ _ _ Hv) as (c & r & E & _).
    rewrite (obj_comma _ _ _ _ _ k v).
    + rewrite IH' by (auto; lia). reflexivity.
    + apply (parse_head_str N raw k); auto. lia.
    + apply IH; auto. lia.
    + discriminate.
    + rewrite E. discriminate.
    + destruct (members_head _ _ _ Hs) as (c' & r' & -> & _ & Hc'). cbn. auto.
Qed.

(** ** Unsupported texts are rejected *)
Definition Dead (p : str) : Prop := forall N x, not_ok (parse_ N (p ++ x)).

Lemma closed_string N raw c : Chars raw c -> closed_piece (parse_ N) ([34] ++ raw ++ [34]).
Proof.
  intros H y Hy. destruct N as [|N]; [exact I|]. cbn [parse_ app N.eqb Pos.eqb orb].
  pose proof (parse_string_trailing raw c y H Hy) as P. rewrite <- app_assoc. exact P.
Qed.

Definition BadValue (s : str) : Prop := exists p q, s = p ++ q /\ p <> [] /\
  ((Dead p /\ forall i, (0 <= i)%Z -> exists i' j', Verb i 0 p i' j')
   \/ exists raw c, p = [34] ++ raw ++ [34] /\ Chars raw c /\ net raw <> 0%Z).
Definition BadElements (s : str) : Prop := exists p q, s = p ++ q /\
  (exists c p', p = c :: p' /\ c <> 93 /\ c <> 125) /\
  (forall i, (1 <= i)%Z -> exists i' j', Verb i 0 p i' j') /\
  (forall N acc x, not_ok (arr_loop (parse_ N) 0 0 [] acc (p ++ x))).
Definition BadMembers (s : str) : Prop := exists p q, s = p ++ q /\
  (exists c p', p = c :: p' /\ c <> 93 /\ c <> 125) /\
  (forall i, (1 <= i)%Z -> exists i' j', Verb i 0 p i' j') /\
  (forall N m x, not_ok (obj_loop (parse_ N) 0 0 [] [] true m (p ++ x))).

(** The same for a piece of an array element or member value. *)
Lemma bad_in_array s : BadValue s -> exists p q, s = p ++ q /\ p <> [] /\
  (forall i, (0 <= i)%Z -> exists i' j', Verb i 0 p i' j') /\
  (forall N acc x, not_ok (arr_loop (parse_ N) 0 0 [] acc (p ++ x))) /\
  (forall N k m x, not_ok (obj_loop (parse_ N) 0 0 k [] false m (p ++ x))).
Proof.
  intros (p & q & -> & Hp & [[HD HV]|(raw & c & -> & Hc & Hn)]).
  - exists p, q. split; [|split; [|split; [|split]]]; auto.
    + intros N acc x. destruct (HV 0%Z) as (i' & j' & HV'); [lia|]. rewrite (arr_verb _ _ _ _ _ _ HV').
      apply arr_dead. intros y. apply HD.
    + intros N k m x. destruct (HV 0%Z) as (i' & j' & HV'); [lia|]. rewrite (obj_verb_v _ _ _ _ _ _ HV').
      apply obj_dead_v. intros y. apply HD.
  - exists ([34] ++ raw ++ [34]), q. split; [|split; [|split; [|split]]]; auto.
    + intros i Hi. eexists _, _. eapply Verb_string; eauto.
    + intros N acc x. rewrite (arr_verb _ _ _ _ _ _ (Verb_string raw c 0 Hc)).
      apply arr_closed; [lia|]. eapply closed_string; eauto.
    + intros N k m x. rewrite (obj_verb_v _ _ _ _ _ _ (Verb_string raw c 0 Hc)).
      apply obj_closed_v; [lia|]. eapply closed_string; eauto.
Qed.

Lemma ws_prefix_head w p : ws w -> p <> [] -> (forall c p', p = c :: p' -> c <> 93 /\ c <> 125) ->
  exists c p', w ++ p = c :: p' /\ c <> 93 /\ c <> 125.
Proof.
  intros Hw Hp H. destruct w as [|c w]; cbn [app].
  - destruct p as [|c p]; [congruence|]. exists c, p. split; auto. eapply H; eauto.
  - eexists _, _; split; [reflexivity|]. inversion Hw as [|? ? Hwc]; subst. unfold ws_char in Hwc; cbn in Hwc. split; lia.
Qed.
Lemma value_prefix_head n g s v p q : GValue n g s v -> s = p ++ q -> p <> [] ->
  forall c p', p = c :: p' -> c <> 93 /\ c <> 125.
Proof.
  intros H -> Hp c p' ->. destruct (value_head _ _ _ _ H) as (c' & r & E & Hc). cbn in E. injection E as <- _.
  unfold value_start, digit in Hc. split; lia.
Qed.

Lemma Dead_array p : (exists c p', p = c :: p' /\ c <> 93 /\ c <> 125) ->
  (forall N acc x, not_ok (arr_loop (parse_ N) 0 0 [] acc (p ++ x))) -> Dead (91 :: p).
Proof.
  intros (c & p' & -> & Hc & _) H [|N] x; [exact I|].
  cbn [parse_ app N.eqb Pos.eqb orb is_digit N.leb N.compare Pos.compare Pos.compare_cont andb].
  unfold parse_array. cbn [tl]. rewrite if_false by lia. apply (H N [] x).
Qed.
Lemma Dead_object p : (exists c p', p = c :: p' /\ c <> 93 /\ c <> 125) ->
  (forall N m x, not_ok (obj_loop (parse_ N) 0 0 [] [] true m (p ++ x))) -> Dead (123 :: p).
Proof.
  intros (c & p' & -> & _ & Hc) H [|N] x; [exact I|].
  cbn [parse_ app N.eqb Pos.eqb orb is_digit N.leb N.compare Pos.compare Pos.compare_cont andb].
  unfold parse_object. cbn [tl]. rewrite if_false by lia. apply (H N [] x).
Qed.
Lemma parse_nil_not_ok N : not_ok (parse_ N []).
Proof. destruct N; exact I. Qed.
Lemma ws_head w t : ws w -> w <> [] -> exists c p', w ++ t = c :: p' /\ c <> 93 /\ c <> 125.
Proof.
  intros Hw Hn. destruct w as [|c w]; [congruence|]. eexists _, _; split; [reflexivity|].
  inversion Hw as [|? ? Hwc]; subst. unfold ws_char in Hwc; cbn in Hwc. split; lia.
Qed.

Lemma unsupported :
  (forall n g s v, GValue n g s v -> g = false -> BadValue s) /\
  (forall g s vs, GElements g s vs -> g = false -> BadElements s) /\
  (forall g s ms, GMembers g s ms -> g = false -> BadMembers s).
Proof.
  apply ggrammar_mind; try discriminate.
  - intros n raw c H Hg. apply orb_false_iff in Hg as [_ Hg]. exists ([34] ++ raw ++ [34]), [].
    split; [now rewrite app_nil_r|]. split; [discriminate|]. right. exists raw, c. repeat split; auto. lia.
  - intros n w Hw Hn _. exists ([91] ++ w ++ [93]), []. split; [now rewrite app_nil_r|]. split; [discriminate|]. left. split.
    + apply Dead_array. { now apply ws_head. }
      intros N acc x. rewrite <- app_assoc, arr_ws by auto. cbn. pose proof (parse_nil_not_ok N).
      destruct (parse_ N []); cbn in *; auto; tauto.
    + intros i Hi. exists i, 0%Z. cbn [app]. apply vb_open; auto. eapply Verb_app; [apply Verb_ws; auto; lia|].
      apply vb_close; [auto|lia|]. replace (i + 1 - 1)%Z with i by lia. apply vb_nil.
  - intros n g s vs H IH Hg. destruct (IH Hg) as (p & q & -> & Hh & HV & HD).
    exists ([91] ++ p), (q ++ [93]). split; [now rewrite <- !app_assoc|]. split; [discriminate|]. left. split.
    + now apply Dead_array.
    + intros i Hi. destruct (HV (i + 1)%Z) as (i' & j' & HV'); [lia|]. exists i', j'. apply vb_open; auto.
  - intros n w Hw Hn _. exists ([123] ++ w ++ [125]), []. split; [now rewrite app_nil_r|]. split; [discriminate|]. left. split.
    + apply Dead_object. { now apply ws_head. }
      intros N m x. rewrite <- app_assoc, obj_ws by auto. cbn [app obj_loop].
      cbn [N.eqb Pos.eqb andb orb negb Z.eqb fst snd]. apply obj_dead_k. intros y. cbn [app]. destruct N; exact I.
    + intros i Hi. exists i, 0%Z. cbn [app]. apply vb_open; auto. eapply Verb_app; [apply Verb_ws; auto; lia|].
      apply vb_close; [auto|lia|]. replace (i + 1 - 1)%Z with i by lia. apply vb_nil.
  - intros n g s ms o H IH Ho Hg. destruct (IH Hg) as (p & q & -> & Hh & HV & HD).
    exists ([123] ++ p), (q ++ [125]). split; [now rewrite <- !app_assoc|]. split; [discriminate|]. left. split.
    + now apply Dead_object.
    + intros i Hi. destruct (HV (i + 1)%Z) as (i' & j' & HV'); [lia|]. exists i', j'. apply vb_open; auto.
  - intros g w1 s w2 v H1 Hv IH H2 Hg. destruct (bad_in_array _ (IH Hg)) as (p & q & E & Hp & HV & HA & _).
    exists (w1 ++ p), (q ++ w2). split; [rewrite E, <- !app_assoc; auto|]. split; [|split].
    + apply ws_prefix_head; auto. eapply value_prefix_head; eauto.
    + intros i Hi. destruct (HV i) as (i' & j' & HV'); [lia|]. exists i', j'.
      eapply Verb_app; [apply Verb_ws; auto; lia|auto].
    + intros N acc x. rewrite <- app_assoc, arr_ws by auto. apply HA.
  - intros g w1 s w2 v g' s' vs H1 Hv IH H2 Hs IH' Hg. destruct g.
    + destruct (IH' Hg) as (p & q & E & Hh & HV & HD).
      exists (w1 ++ s ++ w2 ++ [44] ++ p), q. split; [rewrite E, <- !app_assoc; auto|]. split; [|split].
      * apply ws_prefix_head; auto; destruct (value_head _ _ _ _ Hv) as (c & r & -> & Hc); [discriminate|].
        cbn [app]. intros ? ? [= <- _]. unfold value_start, digit in Hc. split; lia.
      * intros i Hi. destruct (HV i) as (i' & j' & HV'); [lia|]. exists i', j'.
        eapply Verb_app; [apply Verb_ws; auto; lia|]. eapply Verb_app; [eapply (proj1 Verb_values); eauto; lia|].
        eapply Verb_app; [apply Verb_ws; auto; lia|]. cbn [app]. apply vb_other; try lia. auto.
      * intros N acc x. rewrite <- !app_assoc, arr_ws by auto.
        erewrite arr_verb by (eapply (proj1 Verb_values); eauto; lia). rewrite arr_ws by auto. cbn [app].
        destruct (arr_comma_any (parse_ N) s acc (p ++ x)) as [H|[v' ->]]; auto.
    + destruct (bad_in_array _ (IH eq_refl)) as (p & q & E & Hp & HV & HA & _).
      exists (w1 ++ p), (q ++ w2 ++ [44] ++ s'). split; [rewrite E, <- !app_assoc; auto|]. split; [|split].
      * apply ws_prefix_head; auto. eapply value_prefix_head; eauto.
      * intros i Hi. destruct (HV i) as (i' & j' & HV'); [lia|]. exists i', j'.
        eapply Verb_app; [apply Verb_ws; auto; lia|auto].
      * intros N acc x. rewrite <- app_assoc, arr_ws by auto. apply HA.
  - intros g w1 raw k w2 w3 s w4 v H1 Hr H2 H3 Hv IH H4 Hg. destruct (Z.eqb_spec (net raw) 0) as [Hr0|Hr0].
    + destruct (bad_in_array _ (IH Hg)) as (p & q & E & Hp & HV & _ & HO).
      exists (w1 ++ ([34] ++ raw ++ [34]) ++ w2 ++ [58] ++ w3 ++ p), (q ++ w4).
      split; [rewrite E, <- !app_assoc; auto|]. split; [|split].
      * apply ws_prefix_head; auto; [discriminate|]. intros ? ? [= <- _]. split; lia.
      * intros i Hi. destruct (HV i) as (i' & j' & HV'); [lia|]. exists i', j'.
        eapply Verb_app; [apply Verb_ws; auto; lia|].
        eapply Verb_app; [eapply Verb_string; eauto|]. replace (i + net raw)%Z with i by lia.
        eapply Verb_app; [apply Verb_ws; auto; lia|]. cbn [app]. apply vb_other; try lia.
        eapply Verb_app; [apply Verb_ws; auto; lia|]. auto.
      * intros N m x. rewrite <- (app_assoc w1), obj_ws by auto. rewrite <- (app_assoc ([34] ++ raw ++ [34])).
        erewrite obj_verb_k by (eapply Verb_string; eauto). replace (0 + net raw)%Z with 0%Z by lia.
        rewrite <- !app_assoc, obj_ws by auto. cbn [app]. rewrite obj_colon, obj_ws by auto. apply HO.
    + exists (w1 ++ ([34] ++ raw ++ [34])), (w2 ++ [58] ++ w3 ++ s ++ w4).
      split; [rewrite <- !app_assoc; auto|]. split; [|split].
      * apply ws_prefix_head; auto; [discriminate|]. intros ? ? [= <- _]. split; lia.
      * intros i Hi. eexists _, _. eapply Verb_app; [apply Verb_ws; auto; lia|]. eapply Verb_string; eauto.
      * intros N m x. rewrite <- (app_assoc w1), obj_ws by auto.
        erewrite obj_verb_k by (eapply Verb_string; eauto). apply obj_closed_k; [lia|]. eapply closed_string; eauto.
  - intros g w1 raw k w2 w3 s w4 v g' s' ms H1 Hr H2 H3 Hv IH H4 Hs IH' Hg.
    destruct (Z.eqb_spec (net raw) 0) as [Hr0|Hr0]; [destruct g|].
    + destruct (IH' Hg) as (p & q & E & Hh & HV & HD).
      exists (w1 ++ ([34] ++ raw ++ [34]) ++ w2 ++ [58] ++ w3 ++ s ++ w4 ++ [44] ++ p), q.
      split; [rewrite E, <- !app_assoc; auto|]. split; [|split].
      * apply ws_prefix_head; auto; [discriminate|]. intros ? ? [= <- _]. split; lia.
      * intros i Hi. destruct (HV i) as (i' & j' & HV'); [lia|]. exists i', j'.
        eapply Verb_app; [apply Verb_ws; auto; lia|].
        eapply Verb_app; [eapply Verb_string; eauto|]. replace (i + net raw)%Z with i by lia.
        eapply Verb_app; [apply Verb_ws; auto; lia|]. cbn [app]. apply vb_other; try lia.
        eapply Verb_app; [apply Verb_ws; auto; lia|]. eapply Verb_app; [eapply (proj1 Verb_values); eauto; lia|].
        eapply Verb_app; [apply Verb_ws; auto; lia|]. cbn [app]. apply vb_other; try lia. auto.
      * intros N m x. rewrite <- (app_assoc w1), obj_ws by auto. rewrite <- (app_assoc ([34] ++ raw ++ [34])).
        erewrite obj_verb_k by (eapply Verb_string; eauto). replace (0 + net raw)%Z with 0%Z by lia.
        rewrite <- !app_assoc, obj_ws by auto. cbn [app]. rewrite obj_colon, obj_ws by auto.
        erewrite obj_verb_v by (eapply (proj1 Verb_values); eauto; lia). rewrite obj_ws by auto. cbn [app].
        match goal with |- not_ok (obj_loop _ _ _ ?k ?v _ _ _) =>
          destruct (obj_comma_any (parse_ N) k v m (p ++ x)) as [H|[v' H]] end; auto.
        rewrite H; auto.
    + destruct (bad_in_array _ (IH eq_refl)) as (p & q & E & Hp & HV & _ & HO).
      exists (w1 ++ ([34] ++ raw ++ [34]) ++ w2 ++ [58] ++ w3 ++ p), (q ++ w4 ++ [44] ++ s').
      split; [rewrite E, <- !app_assoc; auto|]. split; [|split].
      * apply ws_prefix_head; auto; [discriminate|]. intros ? ? [= <- _]. split; lia.
      * intros i Hi. destruct (HV i) as (i' & j' & HV'); [lia|]. exists i', j'.
        eapply Verb_app; [apply Verb_ws; auto; lia|].
        eapply Verb_app; [eapply Verb_string; eauto|]. replace (i + net raw)%Z with i by lia.
        eapply Verb_app; [apply Verb_ws; auto; lia|]. cbn [app]. apply vb_other; try lia.
        eapply Verb_app; [apply Verb_ws; auto; lia|]. auto.
      * intros N m x. rewrite <- (app_assoc w1), obj_ws by auto. rewrite <- (app_assoc ([34] ++ raw ++ [34])).
        erewrite obj_verb_k by (eapply Verb_string; eauto). replace (0 + net raw)%Z with 0%Z by lia.
        rewrite <- !app_assoc, obj_ws by auto. cbn [app]. rewrite obj_colon, obj_ws by auto. apply HO.
    + exists (w1 ++ ([34] ++ raw ++ [34])), (w2 ++ [58] ++ w3 ++ s ++ w4 ++ [44] ++ s').
      split; [rewrite <- !app_assoc; auto|]. split; [|split].
      * apply ws_prefix_head; auto; [discriminate|]. intros ? ? [= <- _]. split; lia.
      * intros i Hi. eexists _, _. eapply Verb_app; [apply Verb_ws; auto; lia|]. eapply Verb_string; eauto.
      * intros N m x. rewrite <- (app_assoc w1), obj_ws by auto.
        erewrite obj_verb_k by (eapply Verb_string; eauto). apply obj_closed_k; [lia|]. eapply closed_string; eauto.
Qed.

(** ** The parser on RFC texts: the flag decides *)
Lemma bad_top g s v : GValue false g s v -> g = false -> forall N, not_ok (parse_ N s).
Proof.
  intros H Hg N. destruct (proj1 unsupported _ _ _ _ H Hg) as (p & q & E & Hp & [[HD _]|(raw & c & E' & Hc & Hn)]).
  - rewrite E. apply HD.
  - exfalso. rewrite E' in E. clear E'. remember false as n eqn:En in H.
    destruct H; try discriminate; subst n; cbn in Hg, E; discriminate.
Qed.

Lemma parse_rfc g w1 t w2 v : ws w1 -> ws w2 -> GValue false g t v ->
  if g then parse (w1 ++ t ++ w2) = Ok v else exists e, parse (w1 ++ t ++ w2) = Err e.
Proof.
  intros H1 H2 H. rewrite parse_ws by auto. unfold parse. rewrite trim_ws_id by (eapply value_ends; eauto).
  destruct g.
  - eapply (proj1 parse_supported); eauto.
  - pose proof (bad_top _ _ _ H eq_refl (S (List.length t))) as Hb.
    pose proof (parse_total_ (S (List.length t)) t ltac:(lia)) as Ht.
    destruct (parse_ _ t) as [| e| |]; cbn in *; try tauto. eauto.
Qed.

Lemma supported_flag :
  (forall n s v, Value no_space balanced_raw n s v -> GValue n true s v) /\
  (forall s vs, Elements no_space balanced_raw s vs -> GElements true s vs) /\
  (forall s ms, Members no_space balanced_raw s ms -> GMembers true s ms).
Proof.
  apply grammar_mind; intros; try solve [econstructor; eauto].
  - assert (E : negb n || (net raw =? 0)%Z = true).
    { destruct n; auto. cbn. apply Z.eqb_eq. apply H0; auto. }
    rewrite <- E. apply g_str; auto.
  - unfold no_space in *; subst. apply g_arr0.
  - unfold no_space in *; subst. apply g_obj0.
  - apply (ge_cons true _ _ _ _ true); auto.
  - unfold balanced_raw in *. replace true with ((net raw =? 0)%Z && true) by (rewrite andb_true_r; lia).
    apply gm_one; auto.
  - unfold balanced_raw in *. replace true with ((net raw =? 0)%Z && true && true) by (rewrite !andb_true_r; lia).
    apply gm_cons; auto.
Qed.
Theorem parse_supported_text s v : SupportedText s v -> parse s = Ok v.
Proof.
  intros (w1 & t & w2 & H1 & H2 & H & ->). apply (parse_rfc true); auto. now apply supported_flag.
Qed.

Theorem parse_unsupported_text s v : JsonText s v -> ~ SupportedText s v -> exists e, parse s = Err e.
Proof.
  intros (w1 & t & w2 & H1 & H2 & H & ->) Hn.
  destruct (proj1 (grammar_flag _ _) _ _ _ H) as [[] Hg].
  - exfalso. apply Hn. exists w1, t, w2. repeat split; auto. eapply (proj1 flag_true); eauto.
  - apply (parse_rfc false) with (v := v); auto.
Qed.

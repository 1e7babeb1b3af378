(** Properties of [Json::to_string] (C09 - C13, C40). *)
From Verif Require Import Base F64 Utf8 Json Parse Print Ops Path SpecGrammar SpecLenient SpecNumber SpecValue
  MapProofs Utf8Proofs StringProofs NumberProofs ScanProofs GrammarProofs DecProofs PrintProofs UnambigProofs.
From Coq Require Import ZifyBool ZifyNat ZifyN Permutation.
Open Scope N_scope.
Notation is_finite := F64.is_finite.

(** * C09, C10 *)
Theorem print_parse_round_trip j : wf j = true -> finite j = true -> balanced j = true -> parse (to_string j) = Ok j.
Proof. intros Hw Hf Hb. pose proof (print_parse j Hw Hf) as H. now rewrite Hb in H. Qed.
Theorem printed_never_misread j : wf j = true -> finite j = true ->
  (balanced j = true /\ parse (to_string j) = Ok j) \/ (balanced j = false /\ exists e, parse (to_string j) = Err e).
Proof. intros Hw Hf. pose proof (print_parse j Hw Hf) as H. destruct (balanced j); auto. Qed.
Definition sample : json := JObj
  [(lit "a[]", (JArr [JNum (dec_to_f64 true 15 (-1)); JStr [0x1F600; 34; 10; 127]; JNull], [JBool true]));
   (lit "b", (JObj [], []))].
Example sample_ok : wf sample = true /\ finite sample = true /\ balanced sample = true /\ parse (to_string sample) = Ok sample.
Proof. vm_compute. auto. Qed.
Definition sample_unbalanced : json := JArr [JStr (lit "]")].
Example sample_unbalanced_ok : wf sample_unbalanced = true /\ finite sample_unbalanced = true /\ balanced sample_unbalanced = false.
Proof. vm_compute. auto. Qed.

(** * C11 *)
Definition printable (c : N) : Prop := 0x20 <= c <= 0x7E.
Lemma hex_printable u : u <= 0xFFFF -> Forall printable (hex u).
Proof.
  intros H. destruct (hex_ok u H) as (h & -> & (a & b & c & d & x & y & z & w & -> & H1 & H2 & H3 & H4 & _)).
  unfold hexdig, printable in *. repeat (apply Forall_cons); try lia. constructor.
Qed.
Lemma escape_char_printable c : is_scalar c = true -> Forall printable (escape_char c).
Proof.
  intros Hc. unfold is_scalar in Hc. unfold escape_char.
  assert (P2 : forall a b, printable a -> printable b -> Forall printable [a; b]) by (intros; repeat apply Forall_cons; auto).
  repeat match goal with |- context [if ?b then _ else _] => destruct b eqn:?E; [try (apply P2; unfold printable; lia)|] end.
  - apply hex_printable. lia.
  - apply Forall_cons; [unfold printable; lia|constructor].
  - apply hex_printable. lia.
  - apply Forall_app; split; apply hex_printable.
    + rewrite N.shiftr_div_pow2. change (2 ^ 10) with 1024.
      assert ((c - 0x10000) / 1024 < 1024) by (apply N.div_lt_upper_bound; lia). lia.
    + assert (H : N.land (c - 0x10000) 1023 < 1024).
      { change 1023 with (N.ones 10). rewrite N.land_ones. change (2 ^ 10) with 1024. apply N.mod_lt. discriminate. }
      lia.
Qed.
Lemma escape_printable s : scalar_str s = true -> Forall printable (escape s).
Proof.
  intros H. unfold escape. repeat (apply Forall_app; split); try (apply Forall_cons; [unfold printable; lia|constructor]).
  apply Forall_flat_map, Forall_forall. intros c Hc. apply escape_char_printable. unfold scalar_str in H. rewrite forallb_forall in H. auto.
Qed.
Lemma lit_printable (s : string) : forallb (fun c => (0x20 <=? c) && (c <=? 0x7E)) (lit s) = true -> Forall printable (lit s).
Proof. intros H. apply Forall_forall. rewrite forallb_forall in H. intros c Hc. specialize (H c Hc). unfold printable. lia. Qed.
Lemma f64_printable f : valid_f64 f = true -> Forall printable (f64_to_string f).
Proof.
  intros V. destruct (is_finite f) eqn:F.
  - destruct (f64_to_string_number f V F) as (s & m & e & H & _). apply Number_chars in H. revert H. apply Forall_impl.
    unfold num_char, digit, printable. lia.
  - destruct f as [[]|[]| |]; try discriminate; cbn; repeat (apply Forall_cons; [unfold printable; lia|]); constructor.
Qed.
Lemma join_printable sep l : Forall printable sep -> Forall (Forall printable) l -> Forall printable (join sep l).
Proof.
  intros Hs. induction 1 as [|x l Hx H IH]; [constructor|]. destruct l as [|y l]; [exact Hx|].
  rewrite join_cons by discriminate. repeat (apply Forall_app; split); auto.
Qed.
Theorem printed_text_is_printable_ascii j : wf j = true -> Forall printable (to_string j).
Proof.
  assert (P1 : forall c, printable c -> Forall printable [c]) by (intros; apply Forall_cons; auto).
  assert (PC : Forall printable comma_sp) by (repeat apply Forall_cons; unfold printable; try lia; constructor).
  assert (PK : Forall printable colon_sp) by (repeat apply Forall_cons; unfold printable; try lia; constructor).
  induction j as [o IH|v IH|s|f|[]|] using json_ind; intros Hw.
  - cbn [to_string]. repeat (apply Forall_app; split); try (apply P1; unfold printable; lia).
    apply join_printable; auto. apply Forall_map.
    cbn [wf] in Hw. apply andb_true_iff in Hw as [_ Hw]. rewrite forallb_forall in Hw. rewrite Forall_forall in IH.
    assert (A : Forall (fun x : str * str => Forall printable (snd x))
      (map (fun e => (fst e, entry_text (fst e) (to_string (fst (snd e))) (map to_string (snd (snd e))))) o)).
    { apply Forall_map, Forall_forall. intros [k [v l]] Hin. cbn [fst snd]. specialize (Hw _ Hin). cbn [fst snd] in Hw.
      apply andb_true_iff in Hw as [Hk Hw]. apply andb_true_iff in Hw as [Hv Hl]. destruct (IH _ Hin) as [IHv IHl]. cbn [fst snd] in IHv, IHl.
      pose proof (escape_printable k Hk) as Hek. unfold entry_text. set (ek := escape k) in *. clearbody ek. rewrite Forall_forall in IHl. rewrite forallb_forall in Hl. repeat (apply Forall_app; split); auto.
      apply Forall_flat_map, Forall_forall. intros t Ht. apply in_rev, in_map_iff in Ht as (x & <- & Hx).
      repeat (apply Forall_app; split); auto. }
    rewrite Forall_forall in A |- *. intros x Hx. apply A. eapply Permutation_in; [apply sort_by_key_perm|auto].
  - cbn [to_string wf] in *. repeat (apply Forall_app; split); try (apply P1; unfold printable; lia).
    apply join_printable; auto. apply Forall_map. rewrite Forall_forall in *. rewrite forallb_forall in Hw. auto.
  - apply escape_printable. exact Hw.
  - apply f64_printable. exact Hw.
  - apply lit_printable; reflexivity.
  - apply lit_printable; reflexivity.
  - apply lit_printable; reflexivity.
Qed.
Example printable_example : wf sample = true. Proof. vm_compute. auto. Qed.

(** * C12: printing does not depend on hash map order. *)
Lemma sort_perm_eq {V} (a b : list (str * V)) : NoDup (map fst a) -> Permutation a b -> sort_by_key a = sort_by_key b.
Proof.
  intros Hn Hp. apply sorted_perm_eq.
  - now apply sort_by_key_sorted.
  - apply sort_by_key_sorted. eapply Permutation_NoDup; [|exact Hn]. now apply Permutation_map.
  - rewrite !sort_by_key_perm. exact Hp.
Qed.
Theorem printing_ignores_iteration_order j : forall j', unique_keys j -> same j j' -> to_string j = to_string j'.
Proof.
  assert (L : forall v, Forall (fun j => forall j', unique_keys j -> same j j' -> to_string j = to_string j') v ->
     forall v', Forall unique_keys v -> Forall2 same v v' -> map to_string v = map to_string v').
  { intros v IH v' Hu H. induction H as [|x y v v' Hxy H IH2]; auto. inversion IH; inversion Hu; subst. cbn. f_equal; auto. }
  induction j as [o IH|v IH|s|f|b|] using json_ind; intros j' Hu Hs; inversion Hs as [? p o' Hperm H2| | | | |]; subst; auto.
  - inversion Hu as [? Hn Hf| | | | |]; subst. cbn [to_string]. do 2 f_equal. f_equal. f_equal.
    set (render := fun e : entry => (fst e, entry_text (fst e) (to_string (fst (snd e))) (map to_string (snd (snd e))))).
    assert (E : map render p = map render o').
    { assert (Hp : Forall (Pentry (fun j => forall j', unique_keys j -> same j j' -> to_string j = to_string j')) p)
        by (eapply Permutation_Forall; eauto).
      assert (Hq : Forall (fun e => unique_keys (fst (snd e)) /\ Forall unique_keys (snd (snd e))) p) by (eapply Permutation_Forall; eauto).
      clear - Hp Hq H2 L. induction H2 as [|e e' p o' (Hk & Hv & Hl) H2 IH2]; auto. inversion Hp as [|? ? [P1 P2]]; inversion Hq as [|? ? [Q1 Q2]]; subst.
      cbn [map]. f_equal; auto. unfold render. rewrite Hk. f_equal. f_equal; auto. }
    rewrite <- E. apply sort_perm_eq.
    + rewrite map_map. cbn [render fst]. exact Hn.
    + now apply Permutation_map.
  - inversion Hu; subst. cbn [to_string]. do 2 f_equal. f_equal. auto.
Qed.
Lemma keys_sorted_ascending {V} (o : list (str * V)) : keys_sorted o = true -> ascending (map fst o).
Proof.
  intros H i. revert o H. induction i as [|i IH]; intros [|[k v] o] H j a b Hij Ha Hb; try discriminate;
    (destruct j as [|j]; [lia|]); apply keys_sorted_cons in H as [Hbel H]; cbn in *.
  - injection Ha as <-. apply nth_error_In in Hb. apply in_map_iff in Hb as (e & <- & He).
    unfold below in Hbel. rewrite Forall_forall in Hbel. auto.
  - apply (IH o H j a b); auto. lia.
Qed.
(** The members of an object are printed in ascending key order; duplicates of a key oldest first. *)
Theorem printed_members_ascending o : NoDup (map fst o) ->
  exists o', Permutation o o' /\ ascending (map fst o') /\
    to_string (JObj o) = [123] ++ join [44; 32] (flat_map (fun e =>
      map (fun v => escape (fst e) ++ [58; 32] ++ to_string v) (rev (snd (snd e)) ++ [fst (snd e)])) o') ++ [125].
Proof.
  intros Hn. exists (sort_by_key o). split; [symmetry; apply sort_by_key_perm|].
  pose proof (sort_by_key_sorted o Hn) as Hs. split; [now apply keys_sorted_ascending|].
  assert (E : to_string (JObj o) = to_string (JObj (sort_by_key o))).
  { cbn [to_string]. do 2 f_equal. f_equal. f_equal. apply sort_perm_eq.
    - now rewrite map_map.
    - apply Permutation_map. symmetry. apply sort_by_key_perm. }
  rewrite E, object_text by auto. do 2 f_equal. unfold members. rewrite flat_map_concat_map, concat_map, map_map, <- flat_map_concat_map.
  unfold comma_sp. f_equal. apply flat_map_ext. intros e. unfold entry_members. rewrite map_map. reflexivity.
Qed.
Example order_example : let a := (lit "a", (JNull, [])) in let b := (lit "b", (JBool true, [])) in
  unique_keys (JObj [a; b]) /\ same (JObj [a; b]) (JObj [b; a]) /\ JObj [a; b] <> JObj [b; a].
Proof.
  cbn. split; [|split].
  - constructor; [|repeat constructor]. repeat constructor; cbn; intuition discriminate.
  - eapply same_obj; [apply perm_swap|]. repeat constructor.
  - discriminate.
Qed.

(** * C13 *)
Theorem printed_text_is_valid_json j : wf j = true -> finite j = true -> JsonText (to_string j) j.
Proof. apply print_json_text. Qed.
(** For NaN and the infinities it is not. *)
Theorem nan_and_infinity_print_invalid_json f : is_finite f = false -> forall v, ~ JsonText (to_string (JNum f)) v.
Proof.
  intros Hf v (w1 & t & w2 & H1 & H2 & H & E). destruct (avalue_head _ _ _ H) as (c & t' & -> & Hc).
  assert (Hi : exists d r, f64_to_string f = d :: r /\ ((d = 45 /\ r = lit "inf") \/ d = 78 \/ d = 105)).
  { destruct f as [[]|[]| |[]]; try discriminate; cbn; eexists _, _; (split; [reflexivity|]); auto. }
  destruct Hi as (d & r & Ed & Hd). cbn [to_string] in E. rewrite Ed in E.
  destruct H1 as [|x w1 Hx H1].
  - cbn in E. injection E as <- E. destruct Hd as [[-> Hr]|Hd].
    + rewrite Hr in E. clear Hr Ed. inversion H as [| | |n s neg m e HN| | | | |]; subst. inversion HN as [neg' i f' fd x xe Hi Hfr Hx Es]; subst.
      destruct neg; cbn in Es.
      * injection Es as Es. destruct Hi as [|d ds Hd1 Hd2]; cbn in Es; subst t'; cbn in E; discriminate + (injection E as <- _; lia).
      * destruct Hi as [|d ds Hd1 Hd2]; cbn in Es; injection Es; intros; lia.
    + unfold value_start, digit in Hc. lia.
  - cbn in E. injection E as <- E. unfold ws_char in Hx. cbn in Hx. lia.
Qed.

(** * C40 *)
Theorem to_string_injective j j' : wf j = true -> finite j = true -> wf j' = true -> finite j' = true ->
  to_string j = to_string j' -> j = j'.
Proof.
  intros W F W' F' E. eapply json_text_unambiguous; [now apply print_json_text|]. rewrite E. now apply print_json_text.
Qed.
(** Every text denotes at most one value. *)
Theorem text_denotes_one_value s v v' : JsonText s v -> JsonText s v' -> v = v'.
Proof. apply json_text_unambiguous. Qed.

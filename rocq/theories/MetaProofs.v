(** Proofs about sequences of attributes, their texts, and looking things up in them. *)
From Verif Require Import Base F64 Json Convert SpecGrammar SpecLenient SpecNumber NumberProofs SpecConvert KeyProofs Tokens SpecAttr SpecTokens TokenProofs AttrProofs DeclProofs Items Meta SpecMeta.
From Coq Require Import Reals Floats.SpecFloat.
Local Open Scope N_scope.

(** * Nothing else is read *)
Lemma comma_parts_join cur ts : sep_by 44 (comma_parts cur ts) = cur ++ ts /\ comma_parts cur ts <> [].
Proof.
  revert cur. induction ts as [|t r IH]; intros cur; cbn [comma_parts]; [now rewrite app_nil_r|].
  destruct (is_punct 44 t) eqn:E.
  - split; [|discriminate]. destruct (IH []) as [H1 H2]. destruct (comma_parts [] r) as [|p ps] eqn:Ec; [easy|]. rewrite <- Ec in *.
    replace (sep_by 44 (cur :: comma_parts [] r)) with (cur ++ Punct 44 :: sep_by 44 (comma_parts [] r)) by (rewrite Ec; reflexivity).
    rewrite H1. destruct t as [|c| |]; try discriminate. cbn in E. apply N.eqb_eq in E as ->. reflexivity.
  - destruct (IH (cur ++ [t])) as [H1 H2]. now rewrite H1, <- app_assoc.
Qed.
Lemma clear_app a b : clear_literals (a ++ b) <-> clear_literals a /\ clear_literals b.
Proof.
  unfold clear_literals. rewrite flat_map_app. split.
  - intros H. split; intros raw Hr; apply H, in_or_app; auto.
  - intros [H1 H2] raw Hr. apply in_app_or in Hr as [Hr|Hr]; auto.
Qed.
Lemma clear_cons t r : clear_literals (t :: r) <-> clear_literals [t] /\ clear_literals r.
Proof. apply (clear_app [t] r). Qed.
Lemma clear_sep l : clear_literals (sep_by 44 l) -> Forall clear_literals l.
Proof.
  induction l as [|a [|b l] IH]; intros H; constructor; auto.
  - change (clear_literals (a ++ Punct 44 :: sep_by 44 (b :: l))) in H. now apply clear_app in H as [H _].
  - change (clear_literals (a ++ Punct 44 :: sep_by 44 (b :: l))) in H. apply clear_app in H as [_ H]. apply clear_cons in H as [_ H]. auto.
Qed.
Lemma clear_group d ts : clear_literals [Group d ts] -> clear_literals ts.
Proof. unfold clear_literals. cbn [flat_map literals_in]. now rewrite app_nil_r. Qed.
Lemma clear_lit t v : clear_literals [t] -> parse_lit t = Some v -> exists l, lexical l /\ clear l /\ literal_tok l = t.
Proof.
  intros H E. destruct t as [s|c|raw|d ts]; try discriminate.
  - cbn [parse_lit] in E. destruct (str_eqb s (lit "true")) eqn:E1; [|destruct (str_eqb s (lit "false")) eqn:E2; [|discriminate]].
    + apply str_eqb_eq in E1 as ->. now exists (KBool true).
    + apply str_eqb_eq in E2 as ->. now exists (KBool false).
  - apply H. now left.
Qed.
Lemma clear_neg t v : clear_literals [t] -> parse_negative t = Some v -> exists l, lexical l /\ clear l /\ literal_tok l = t.
Proof. intros H E. unfold parse_negative in E. destruct (parse_lit t) eqn:E'; [|discriminate]. eapply clear_lit; eauto. Qed.
Lemma pair_mark_inv t e : pair_mark t = Some e -> exists c : bool, t = Punct (if c then 58 else 61).
Proof.
  unfold pair_mark. destruct t as [|c| |]; try discriminate. cbn [is_punct]. destruct (N.eqb_spec c 61) as [-> |]; [now exists false|].
  destruct (N.eqb_spec c 58) as [-> |]; [now exists true|discriminate].
Qed.
Lemma only_items fuel : forall ts i, clear_literals ts -> parse_item fuel ts = Some i -> exists m, meta_good m /\ meta_toks m = ts.
Proof.
  induction fuel as [|fuel IH]; intros ts i HL H; [discriminate|]. cbn [parse_item] in H.
  destruct ts as [|a [|b [|c [|d [|? ?]]]]]; [discriminate| | | | |].
  - destruct a as [s| |raw|]; try discriminate.
    + destruct (parse_lit (Ident s)) as [v|] eqn:E.
      * destruct (clear_lit _ _ HL E) as (l & Hl & Hc & El). exists (WValue (Plain l)). split; [now repeat constructor|]. cbn. now rewrite El.
      * exists (WWord s). split; [|reflexivity]. constructor. intros [X|[X|[]]]; subst s; discriminate.
    + destruct (parse_lit (Literal raw)) as [v|] eqn:E; [|discriminate]. destruct (clear_lit _ _ HL E) as (l & Hl & Hc & El). exists (WValue (Plain l)).
      split; [now repeat constructor|]. cbn. now rewrite El.
  - assert (H' : (if is_punct 45 a then option_map MLiteral (parse_negative b)
                  else match a, b with Ident s, Group _ inner => if nonempty inner then option_map (MGroup s) (all_some (parse_item fuel) (filter nonempty (comma_parts [] inner))) else None
                                     | _, _ => None end) = Some i).
    { destruct a; exact H. }
    clear H. destruct (is_punct 45 a) eqn:Ea.
    + destruct (parse_negative b) as [v|] eqn:E; [|discriminate]. apply clear_cons in HL as [_ HL]. destruct (clear_neg _ _ HL E) as (l & Hl & Hc & El).
      exists (WValue (Minus l)). split; [now repeat constructor|]. cbn. rewrite El. destruct a as [|c| |]; try discriminate. cbn in Ea. apply N.eqb_eq in Ea as ->. reflexivity.
    + destruct a as [s| | |]; try discriminate. destruct b as [| | |dl inner]; try discriminate. destruct (nonempty inner); [|discriminate].
      destruct (all_some (parse_item fuel) (filter nonempty (comma_parts [] inner))) as [items|] eqn:E; [|discriminate]. apply all_some_iff in E.
      apply clear_cons in HL as [_ HL]. apply clear_group in HL. pose proof (comma_parts_join [] inner) as [J _]. cbn [app] in J. rewrite <- J in HL. apply clear_sep in HL.
      assert (X : exists parts, map part_toks parts = comma_parts [] inner /\ Forall meta_good (somes parts)).
      { clear - E HL IH. revert items E. induction HL as [|p ps Hp _ IHp]; intros items E; [exists []; split; [reflexivity|constructor]|].
        cbn [filter] in E. destruct p as [|t p]; cbn [nonempty] in E.
        - destruct (IHp items E) as (parts & H1 & H2). exists (None :: parts). split; [cbn; now rewrite H1|exact H2].
        - inversion E as [|? i ? items' E1 E2]; subst. destruct (IHp items' E2) as (parts & H1 & H2). destruct (IH _ _ Hp E1) as (m & Hm & Em).
          exists (Some m :: parts). split; [cbn [map part_toks]; now rewrite H1, Em|]. cbn. constructor; auto. }
      destruct X as (parts & H1 & H2). exists (WGroup s dl parts). split; [now constructor|]. rewrite meta_toks_group, H1, J. reflexivity.
  - assert (H' : (let! eq := pair_mark b in match a with Ident s => option_map (fun l => MPair s l eq) (parse_lit c) | _ => None end) = Some i).
    { destruct a; exact H. }
    clear H. destruct (pair_mark b) as [e|] eqn:Eb; [|discriminate]. cbn [obind] in H'. destruct a as [s| | |]; try discriminate.
    destruct (parse_lit c) as [v|] eqn:E; [|discriminate]. apply clear_cons in HL as [_ HL]. apply clear_cons in HL as [_ HL].
    destruct (clear_lit _ _ HL E) as (l & Hl & Hc & El). apply pair_mark_inv in Eb as [cl ->]. exists (WPair s cl (Plain l)). split; [now repeat constructor|]. cbn. now rewrite El.
  - assert (H' : (let! eq := pair_mark b in match a with Ident s => if is_punct 45 c then option_map (fun l => MPair s l eq) (parse_negative d) else None | _ => None end) = Some i).
    { destruct a; exact H. }
    clear H. destruct (pair_mark b) as [e|] eqn:Eb; [|discriminate]. cbn [obind] in H'. destruct a as [s| | |]; try discriminate.
    destruct (is_punct 45 c) eqn:Ec; [|discriminate]. destruct (parse_negative d) as [v|] eqn:E; [|discriminate].
    apply clear_cons in HL as [_ HL]. apply clear_cons in HL as [_ HL]. apply clear_cons in HL as [_ HL].
    destruct (clear_neg _ _ HL E) as (l & Hl & Hc & El). apply pair_mark_inv in Eb as [cl ->]. exists (WPair s cl (Minus l)). split; [now repeat constructor|]. cbn. rewrite El.
    destruct c as [|c| |]; try discriminate. cbn in Ec. apply N.eqb_eq in Ec as ->. reflexivity.
  - exfalso. destruct a; discriminate.
Qed.
(** * Sequences *)
Lemma take_outer ms rest : no_meta rest -> take_while meta_token (flat_map attr_toks ms ++ rest) = flat_map attr_toks ms.
Proof.
  intros H. induction ms as [|a ms IH]; cbn [flat_map app attr_toks take_while].
  - destruct rest as [|t r]; [reflexivity|]. cbn in H. cbn. now rewrite H.
  - change (meta_token (Punct 35)) with true. change (meta_token (Group Bracket (meta_toks a))) with true. cbn iota.
    fold (flat_map attr_toks ms). now rewrite IH.
Qed.
Lemma meta_loop_outer ms l : Forall meta_good ms -> (meta_loop (flat_map attr_toks ms) = Some l <-> Forall2 item_is ms l).
Proof.
  intros H. revert l. induction H as [|m ms Hm _ IH]; intros l.
  - cbn. split; [intros [= <-]; constructor|inversion 1; reflexivity].
  - cbn [flat_map app attr_toks meta_loop is_punct N.eqb Pos.eqb]. split.
    + destruct (parse_meta_item (meta_toks m)) as [i|] eqn:E; [|discriminate]. cbn [obind]. destruct (meta_loop (flat_map attr_toks ms)) as [is|] eqn:E'; [|discriminate].
      cbn [obind]. intros [= <-]. constructor; [now apply item_read in E|now apply IH].
    + inversion 1 as [|? i ? is H1 H2]; subst. apply item_read in H1; auto. rewrite H1. cbn [obind]. apply IH in H2. rewrite H2. reflexivity.
Qed.
Lemma Forall2_len {A B} (R : A -> B -> Prop) l l' : Forall2 R l l' -> List.length l = List.length l'.
Proof. induction 1; cbn; auto. Qed.
Lemma parse_meta_outer ms rest l : ms <> [] -> Forall meta_good ms -> no_meta rest -> (parse_meta (flat_map attr_toks ms ++ rest) = Some l <-> Forall2 item_is ms l).
Proof.
  intros Hne Hg Hr. unfold parse_meta.
  replace (skip_while (fun t => negb (meta_token t)) (flat_map attr_toks ms ++ rest)) with (flat_map attr_toks ms ++ rest) by (destruct ms; [easy|reflexivity]).
  rewrite take_outer by auto. assert (L : List.length (filter (is_punct 35) (flat_map attr_toks ms)) = List.length ms).
  { clear. induction ms as [|a l IH]; [reflexivity|]. cbn [flat_map attr_toks app filter is_punct N.eqb Pos.eqb List.length]. now rewrite IH. }
  rewrite L. pose proof (meta_loop_outer ms) as M. destruct (flat_map attr_toks ms ++ rest) eqn:E; [destruct ms; [easy|discriminate]|]. clear E. split.
  - destruct (meta_loop (flat_map attr_toks ms)) as [is|] eqn:E'; [|discriminate]. cbn [obind]. destruct (Nat.eqb _ _); [|discriminate]. intros [= <-]. now apply M.
  - intros H. pose proof (Forall2_len _ _ _ H) as Hl. apply M in H; auto. rewrite H. cbn [obind]. now rewrite <- Hl, Nat.eqb_refl.
Qed.

(** * Texts *)
Lemma literal_text l v : literal_is l v -> lit_text v = [literal_tok l].
Proof. destruct 1; reflexivity. Qed.
Lemma value_text v x : value_is v x -> lit_text x = value_toks (unsigned v).
Proof. destruct 1 as [l x H|l n raw H|l f raw H]; apply literal_text in H; exact H. Qed.
Lemma item_text m : forall i, item_is m i -> meta_item_text i = meta_toks (meta_out m).
Proof.
  induction m as [w|v|k c v|w d parts IH] using rmeta_rec; intros i H; inversion H as [|? ? V|? ? ? ? V|? ? ? ? N1 N2 F]; subst; cbn [meta_item_text meta_out].
  - reflexivity.
  - now apply value_text.
  - cbn [meta_toks]. now apply value_text in V as ->.
  - rewrite meta_toks_group, join_sep, map_map. cbn [part_toks]. do 3 f_equal. f_equal. clear - IH F. revert l F.
    assert (E : flat_map (fun p => match p with Some m => [meta_out m] | None => [] end) parts = map meta_out (somes parts)).
    { clear. unfold somes. induction parts as [|[m|] parts IH]; cbn [flat_map map app]; auto. now rewrite IH. }
    rewrite E, map_map. clear E. induction IH as [|m ms Hm _ IHm]; intros l F; inversion F; subst; cbn [map]; [reflexivity|]. rewrite Hm by auto. f_equal. auto.
Qed.
Lemma item_fun : forall l v v', literal_is l v -> lexical l -> clear l -> literal_is l v' -> v = v'.
Proof. intros l v v' H1 Hl Hc H2. apply literal_read in H1, H2; auto. congruence. Qed.
Lemma steady_out m : steady m = true -> forall i, item_is m i -> item_is (meta_out m) i.
Proof.
  induction m as [w|v|k c v|w d parts IH] using rmeta_rec; intros S i H; [auto| | |].
  - now destruct v.
  - now destruct v.
  - inversion H as [| | |? ? ? l N1 N2 F]; subst. apply steady_group in S as [Hne Hall]. rewrite meta_out_group. constructor.
    + now destruct (somes parts).
    + now destruct (somes parts).
    + rewrite somes_some. clear - IH F Hall. revert l F. induction IH as [|m ms Hm _ IHm]; intros l F; inversion F; subst; cbn [map]; constructor; inversion Hall; subst; auto.
Qed.
Lemma good_out m : meta_good m -> meta_good (meta_out m).
Proof.
  induction m as [w|v|k c v|w d parts IH] using rmeta_rec; intros H; inversion H as [|? Hv|? ? ? Hv|? ? ? Hall]; subst; auto.
  - constructor. now destruct v.
  - constructor. now destruct v.
  - rewrite meta_out_group. constructor. rewrite somes_some. apply Forall_map. rewrite Forall_forall in *. auto.
Qed.

(** * Lookups *)
Lemma nth_filter {A} (p : A -> bool) (P : A -> Prop) l : (forall a, p a = true <-> P a) -> forall n x, nth_error (filter p l) n = Some x <-> Pick P n l x.
Proof.
  intros Hp. induction l as [|a l IH]; intros n x; cbn [filter].
  - split; [now destruct n|inversion 1].
  - destruct (p a) eqn:E.
    + assert (Pa : P a) by now apply Hp. destruct n as [|n]; cbn [nth_error].
      * split; [intros [= ->]; now constructor|]. inversion 1; subst; [reflexivity|contradiction].
      * rewrite IH. split; [now constructor|]. inversion 1; subst; [auto|contradiction].
    + assert (Pa : ~ P a) by (intros X; apply Hp in X; congruence). rewrite IH. split; [now constructor|]. inversion 1; subst; [contradiction..|auto].
Qed.
Lemma find_first {A} (p : A -> bool) (P : A -> Prop) l : (forall a, p a = true <-> P a) -> forall x, find p l = Some x <-> First P l x.
Proof.
  intros Hp x. unfold First. rewrite <- (nth_filter p P l Hp). induction l as [|a l IH]; cbn [find filter]; [split; discriminate|].
  destruct (p a); [reflexivity|exact IH].
Qed.
Lemma Nth_satisfies {A} (P : A -> Prop) n l x : Pick P n l x -> P x.
Proof. induction 1; auto. Qed.
Lemma simple_iff x : simple_item x = true <-> a_word x \/ a_value x.
Proof. unfold a_word, a_value. destruct x; cbn; split; eauto; try discriminate; intros [[? [=]]|[? [=]]]. Qed.
Lemma has_key_iff k x : has_key k x = true <-> a_pair k x.
Proof. unfold a_pair. destruct x; cbn; try (split; [discriminate|intros (? & ? & [=])]). rewrite str_eqb_eq. split; [intros ->; eauto|intros (? & ? & [= -> _ _]); auto]. Qed.
Lemma has_name_iff g x : has_name g x = true <-> a_group g x.
Proof. unfold a_group. destruct x; cbn; try (split; [discriminate|intros (? & [=])]). rewrite str_eqb_eq. split; [intros ->; eauto|intros (? & [= -> _]); auto]. Qed.
Lemma get_found ix : forall m f, meta_get ix m = Some f <-> Found ix m f.
Proof.
  induction ix as [n|k|g i IH|g]; intros m f; cbn [meta_get].
  - split.
    + destruct (nth_error _ _) as [x|] eqn:E; [|discriminate]. intros [= <-]. constructor. now apply (nth_filter _ _ m simple_iff) in E.
    + inversion 1 as [? ? x H0| | |]; subst. apply (nth_filter _ _ m simple_iff) in H0. now rewrite H0.
  - pose proof (find_first _ _ m (has_key_iff k)) as F. split.
    + destruct (find (has_key k) m) as [x|] eqn:E; [|discriminate]. pose proof (proj1 (F x) eq_refl) as E0. pose proof (Nth_satisfies _ _ _ _ E0) as (l & e & ->). intros [= <-]. now apply (found_key k m l e).
    + inversion 1 as [|? ? l e H0| |]; subst. apply F in H0. now rewrite H0.
  - pose proof (find_first _ _ m (has_name_iff g)) as F. split.
    + destruct (find (has_name g) m) as [x|] eqn:E; [|discriminate]. pose proof (proj1 (F x) eq_refl) as E0. pose proof (Nth_satisfies _ _ _ _ E0) as (l & ->). intros H. apply IH in H. now apply (found_in g i m l).
    + inversion 1 as [| | |? ? ? inner ? H0 H1]; subst. apply F in H0. rewrite H0. now apply IH.
  - pose proof (find_first _ _ m (has_name_iff g)) as F. split.
    + destruct (find (has_name g) m) as [x|] eqn:E; [|discriminate]. pose proof (proj1 (F x) eq_refl) as E0. pose proof (Nth_satisfies _ _ _ _ E0) as (l & ->). intros [= <-]. now constructor.
    + inversion 1 as [| |? ? inner H0|]; subst. apply F in H0. now rewrite H0.
Qed.
Lemma find_insert {V} k k' (v : V) m : map_find k (map_insert str_eqb k' v m) = if str_eqb k k' then Some v else map_find k m.
Proof.
  induction m as [|[k1 v1] m IH]; cbn [map_insert map_find].
  - now destruct (str_eqb k k').
  - destruct (str_eqb k' k1) eqn:E1; cbn [map_find].
    + apply str_eqb_eq in E1 as ->. now destruct (str_eqb k k1).
    + rewrite IH. destruct (str_eqb k k1) eqn:E2; [|reflexivity]. apply str_eqb_eq in E2 as ->. destruct (str_eqb k1 k') eqn:E3; [|reflexivity].
      apply str_eqb_eq in E3 as ->. assert (str_eqb k' k' = true) by now apply str_eqb_eq. congruence.
Qed.
Lemma insert_keys {V} k (v : V) m x : In x (map fst (map_insert str_eqb k v m)) -> x = k \/ In x (map fst m).
Proof.
  induction m as [|[k1 v1] m IH]; cbn [map_insert map fst In]; [intuition|]. destruct (str_eqb k k1); cbn [map fst In]; intuition.
Qed.
Lemma insert_map {V} k (v : V) m : is_map m -> is_map (map_insert str_eqb k v m).
Proof.
  unfold is_map. induction m as [|[k1 v1] m IH]; cbn [map_insert map fst]; intros H; [repeat constructor; auto|]. inversion H; subst.
  destruct (str_eqb k k1) eqn:E; cbn [map fst]; constructor; auto. intros X. apply insert_keys in X as [-> |X]; [|auto].
  assert (str_eqb k k = true) by now apply str_eqb_eq. congruence.
Qed.
Lemma collect_snoc {V} l k (v : V) : collect_map (l ++ [(k, v)]) = map_insert str_eqb k v (collect_map l).
Proof. unfold collect_map. now rewrite fold_left_app. Qed.
Lemma collect_is_map {V} (l : list (str * V)) : is_map (collect_map l).
Proof. induction l as [|[k v] l IH] using rev_ind; [constructor|]. rewrite collect_snoc. now apply insert_map. Qed.
Lemma Last_snoc {A} (P : A -> Prop) l a x : Last P (l ++ [a]) x <-> (P a /\ x = a) \/ (~ P a /\ Last P l x).
Proof.
  unfold Last. rewrite rev_app_distr. cbn [rev app]. split.
  - inversion 1; subst; auto.
  - intros [[H ->]|[H1 H2]]; now constructor.
Qed.
Lemma collect_last {V} (f : meta_item -> option (str * V)) m : forall k v,
  map_find k (collect_map (filter_map f m)) = Some v <-> exists x, f x = Some (k, v) /\ Last (fun y => exists w, f y = Some (k, w)) m x.
Proof.
  induction m as [|a m IH] using rev_ind; intros k v.
  - cbn. split; [discriminate|]. intros (x & _ & H). inversion H.
  - unfold filter_map. rewrite flat_map_app. cbn [flat_map]. fold (filter_map f m). rewrite app_nil_r. destruct (f a) as [[k' v']|] eqn:E.
    + rewrite collect_snoc, find_insert. destruct (str_eqb k k') eqn:Ek.
      * apply str_eqb_eq in Ek as ->. split.
        -- intros [= ->]. exists a. split; auto. apply Last_snoc. left. split; eauto.
        -- intros (x & Hx & H). apply Last_snoc in H as [[_ ->]|[H _]]; [congruence|]. elim H. eauto.
      * rewrite IH. assert (N : ~ exists w, f a = Some (k, w)).
        { intros [w Hw]. rewrite E in Hw. injection Hw as -> _. assert (str_eqb k k = true) by now apply str_eqb_eq. congruence. }
        split; intros (x & Hx & H); exists x; (split; [auto|]); [apply Last_snoc; auto|]. apply Last_snoc in H as [[H _]|[_ H]]; [contradiction|auto].
    + rewrite app_nil_r, IH. assert (N : ~ exists w, f a = Some (k, w)) by (intros [w Hw]; congruence).
      split; intros (x & Hx & H); exists x; (split; [auto|]); [apply Last_snoc; auto|]. apply Last_snoc in H as [[H _]|[_ H]]; [contradiction|auto].
Qed.
Lemma Nth_ext {A} (P Q : A -> Prop) n l x : (forall a, P a <-> Q a) -> Pick P n l x -> Pick Q n l x.
Proof. intros E. induction 1; constructor; auto; try (now apply E); intros X; apply E in X; auto. Qed.
Lemma filter_map_nth {B} (f : meta_item -> option B) m : forall n b, nth_error (filter_map f m) n = Some b <-> exists x, f x = Some b /\ Pick (fun y => exists c, f y = Some c) n m x.
Proof.
  induction m as [|a m IH]; intros n b.
  - cbn. split; [now destruct n|]. intros (x & _ & H). inversion H.
  - unfold filter_map. cbn [flat_map]. fold (filter_map f m). destruct (f a) as [c|] eqn:E; cbn [app].
    + destruct n as [|n]; cbn [nth_error].
      * split; [intros [= ->]; exists a; split; auto; constructor; eauto|]. intros (x & Hx & H). inversion H; subst; [congruence|]. exfalso; match goal with X : ~ _ |- _ => apply X end; eauto.
      * rewrite IH. split; intros (x & Hx & H); exists x; (split; [auto|]); [constructor; eauto|]. inversion H; subst; auto. exfalso; match goal with X : ~ _ |- _ => apply X end; eauto.
    + rewrite IH. assert (N : ~ exists c, f a = Some c) by (intros [c X]; congruence).
      split; intros (x & Hx & H); exists x; (split; [auto|]); [now constructor|]. inversion H; subst; auto; contradiction.
Qed.

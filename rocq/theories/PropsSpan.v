(** Values of a document and the stretches of its text (C85). *)
From Verif Require Import Base F64 Utf8 Json Parse Print Ops Path SpecGrammar SpecSpan SpecValue MapProofs Utf8Proofs PathProofs StringProofs NumberProofs ScanProofs GrammarProofs LenientProofs PrintProofs CanonProofs PropsParse PropsPrint PropsJoin.
Open Scope N_scope.
Notation VV := (Value no_space balanced_raw).
Notation EE := (Elements no_space balanced_raw).
Notation MM := (Members no_space balanced_raw).

Ltac norm R := cbn [app]; repeat (rewrite <- app_assoc; cbn [app]); cbn [app] in R; repeat (rewrite <- app_assoc in R; cbn [app] in R); exact R.
(** * One level *)
Lemma element_span s vs : EE s vs -> forall i x, nth_error vs i = Some x -> exists pre t post, s = pre ++ t ++ post /\ VV true t x /\
  forall t' w, VV true t' w -> EE (pre ++ t' ++ post) (vec_set i w vs).
Proof.
  induction 1 as [w1 s w2 v H1 HV H2|w1 s w2 v s' vs H1 HV H2 HE IH]; intros i x Hi.
  - destruct i as [|i]; [|destruct i; discriminate]. injection Hi as <-. exists w1, s, w2. split; auto. split; auto.
    intros t' w Hw. cbn [vec_set]. now apply e_one.
  - destruct i as [|i].
    + injection Hi as <-. exists w1, s, (w2 ++ [44] ++ s'). split; auto. split; auto. intros t' w Hw. cbn [vec_set]. now apply e_cons.
    + destruct (IH i x Hi) as (pre & t & post & -> & Ht & F). exists (w1 ++ s ++ w2 ++ [44] ++ pre), t, post.
      split; [now rewrite <- !app_assoc|]. split; auto. intros t' w Hw. cbn [vec_set].
      replace ((w1 ++ s ++ w2 ++ [44] ++ pre) ++ t' ++ post) with (w1 ++ s ++ w2 ++ [44] ++ (pre ++ t' ++ post)) by now rewrite <- !app_assoc.
      apply e_cons; auto.
Qed.
Lemma values_of_cons k k' x ms : values_of k ((k', x) :: ms) = if str_eqb k k' then x :: values_of k ms else values_of k ms.
Proof. unfold values_of. cbn [filter fst]. now destruct (str_eqb k k'). Qed.
Lemma member_span s ms : MM s ms -> forall k L x, values_of k ms = L ++ [x] -> exists pre t post m1 m2, s = pre ++ t ++ post /\ VV true t x /\
  ms = m1 ++ (k, x) :: m2 /\ values_of k m2 = [] /\
  forall t' w, VV true t' w -> MM (pre ++ t' ++ post) (m1 ++ (k, w) :: m2).
Proof.
  induction 1 as [w1 raw k' w2 w3 s w4 v H1 HC HS H2 H3 HV H4|w1 raw k' w2 w3 s w4 v s' ms H1 HC HS H2 H3 HV H4 HM IH]; intros k L x E; rewrite values_of_cons in E.
  - destruct (str_eqb k k') eqn:Ek; [|destruct L; discriminate]. apply str_eqb_eq in Ek as <-.
    destruct L as [|y L]; [|destruct L; discriminate]. injection E as <-.
    exists (w1 ++ ([34] ++ raw ++ [34]) ++ w2 ++ [58] ++ w3), s, w4, [], []. split; [now rewrite <- !app_assoc|]. split; auto. split; auto. split; auto.
    intros t' w Hw. cbn [app]. pose proof (m_one _ _ w1 raw k w2 w3 t' w4 w H1 HC HS H2 H3 Hw H4) as R. norm R.
  - destruct (values_of k ms) as [|y L'] eqn:Em.
    + destruct (str_eqb k k') eqn:Ek; [|destruct L; discriminate]. apply str_eqb_eq in Ek as <-.
      destruct L as [|z L]; [|destruct L; discriminate]. injection E as <-.
      exists (w1 ++ ([34] ++ raw ++ [34]) ++ w2 ++ [58] ++ w3), s, (w4 ++ [44] ++ s'), [], ms. split; [now rewrite <- !app_assoc|]. split; auto. split; auto. split; auto.
      intros t' w Hw. pose proof (m_cons _ _ w1 raw k w2 w3 t' w4 w s' ms H1 HC HS H2 H3 Hw H4 HM) as R. norm R.
    + assert (E' : exists L2, y :: L' = L2 ++ [x]).
      { destruct (str_eqb k k'); [|eauto]. destruct L as [|z L]; [discriminate|]. injection E as _ E. eauto. }
      destruct E' as [L2 E2]. destruct (IH k L2 x (eq_trans Em E2)) as (pre & t & post & m1 & m2 & -> & Ht & -> & Hm & F).
      exists (w1 ++ ([34] ++ raw ++ [34]) ++ w2 ++ [58] ++ w3 ++ s ++ w4 ++ [44] ++ pre), t, post, ((k', v) :: m1), m2.
      split; [now rewrite <- !app_assoc|]. split; auto. split; auto. split; auto.
      intros t' w Hw. pose proof (m_cons _ _ w1 raw k' w2 w3 s w4 v _ _ H1 HC HS H2 H3 HV H4 (F t' w Hw)) as R.
      norm R.
Qed.
Lemma groups_write k x w l ms1 ms2 o : Groups (ms1 ++ (k, x) :: ms2) o -> values_of k ms2 = [] -> hm_get k o = Some (x, l) ->
  Groups (ms1 ++ (k, w) :: ms2) (hm_insert k (w, l) o).
Proof.
  intros [Hs G] Hm Ho. split; [now apply hm_insert_sorted|]. intros k'. rewrite hm_get_insert by auto. specialize (G k').
  rewrite values_of_app, values_of_cons in *. destruct (str_eqb k' k) eqn:E; [|exact G].
  apply str_eqb_eq in E as ->. rewrite Ho, Hm in G. cbn [entry_values] in *. rewrite Hm. apply app_inj_tail in G as [-> _]. reflexivity.
Qed.
Lemma step_span n t0 j f x put : VV n t0 j -> f_find_mut f j = Ok (x, put) -> exists pre t post, t0 = pre ++ t ++ post /\ VV true t x /\
  forall t' w, VV true t' w -> VV n (pre ++ t' ++ post) (put w).
Proof.
  intros HV Hf. destruct f as [k|i].
  - destruct j as [o| | | | |]; try discriminate. cbn [f_find_mut] in Hf. destruct (hm_get k o) as [[y l]|] eqn:Ek; [|discriminate]. injection Hf as -> <-.
    inversion HV as [| | | | | |  |? w Hw He Ex|? s ms ? HM HG Ex]; subst; [discriminate|].
    pose proof (proj2 HG k) as E. rewrite Ek in E. cbn [entry_values] in E. symmetry in E.
    destruct (member_span _ _ HM k _ _ E) as (pre & t & post & m1 & m2 & -> & Ht & -> & Hm & F).
    exists ([123] ++ pre), t, (post ++ [125]). split; [now rewrite <- !app_assoc|]. split; auto. intros t' w Hw.
    replace (([123] ++ pre) ++ t' ++ post ++ [125]) with ([123] ++ (pre ++ t' ++ post) ++ [125]) by now rewrite <- !app_assoc.
    apply (v_obj _ _ n _ (m1 ++ (k, w) :: m2)); [now apply F|]. eapply groups_write; eauto.
  - destruct j as [|v| | | |]; try discriminate. cbn [f_find_mut] in Hf. destruct (vec_get i v) as [y|] eqn:Ei; [|discriminate]. injection Hf as -> <-.
    apply vec_get_some in Ei.
    inversion HV as [| | | | |? w Hw He Ex|? s vs HE Ex| |]; subst; [now destruct (N.to_nat i)|].
    destruct (element_span _ _ HE _ _ Ei) as (pre & t & post & -> & Ht & F).
    exists ([91] ++ pre), t, (post ++ [93]). split; [now rewrite <- !app_assoc|]. split; auto. intros t' w Hw.
    replace (([91] ++ pre) ++ t' ++ post ++ [93]) with ([91] ++ (pre ++ t' ++ post) ++ [93]) by now rewrite <- !app_assoc.
    apply v_arr. now apply F.
Qed.

(** * Any depth *)
Lemma path_span p : forall n t0 j x put, VV n t0 j -> p_find_mut p j = Ok (x, put) -> exists pre t post, t0 = pre ++ t ++ post /\ VV true t x /\
  forall t' w, VV true t' w -> VV n (pre ++ t' ++ post) (put w).
Proof.
  induction p as [f|f q IH]; intros n t0 j x put HV H; cbn [p_find_mut] in H; [eapply step_span; eauto|].
  destruct (f_find_mut f j) as [[y put1]| | |] eqn:Ef; try discriminate. cbn [bind] in H.
  destruct (p_find_mut q y) as [[z put2]| | |] eqn:Eq; try discriminate. injection H as <- <-.
  destruct (step_span _ _ _ _ _ _ HV Ef) as (pre & t & post & -> & Ht & F).
  destruct (IH _ _ _ _ _ Ht Eq) as (pre2 & t2 & post2 & -> & Ht2 & F2).
  exists (pre ++ pre2), t2, (post2 ++ post). split; [now rewrite <- !app_assoc|]. split; auto.
  intros t' w Hw. replace ((pre ++ pre2) ++ t' ++ post2 ++ post) with (pre ++ (pre2 ++ t' ++ post2) ++ post) by now rewrite <- !app_assoc. auto.
Qed.
Lemma inner_outer n t x : VV true t x -> VV n t x.
Proof. intros H. inversion H; subst; try (constructor; auto; fail). econstructor; eauto. Qed.
Lemma reach_span at_ s j x put : SupportedText s j -> reach at_ j = Ok (x, put) -> exists n pre t post, s = pre ++ t ++ post /\ VV n t x /\
  forall t' w, VV n t' w -> SupportedText (pre ++ t' ++ post) (put w).
Proof.
  intros (w1 & t0 & w2 & H1 & H2 & HV & ->) H. destruct at_ as [p|]; cbn [reach] in H.
  - destruct (path_span _ _ _ _ _ _ HV H) as (pre & t & post & -> & Ht & F).
    exists true, (w1 ++ pre), t, (post ++ w2). split; [now rewrite <- !app_assoc|]. split; auto.
    intros t' w Hw. exists w1, (pre ++ t' ++ post), w2. repeat split; auto. now rewrite <- !app_assoc.
  - injection H as <- <-. exists false, w1, t0, w2. split; auto. split; auto. intros t' w Hw. exists w1, t', w2. auto.
Qed.
Lemma supported_value n t x : VV n t x -> parse t = Ok x.
Proof.
  intros H. apply parse_supported_text. exists [], t, []. split; [constructor|]. split; [constructor|]. split; [|now rewrite app_nil_r].
  destruct n; [now apply inner_outer|exact H].
Qed.

(** * C85 *)
(** Every value of a document has a stretch of the text; what is written there is the value. *)
Theorem values_have_their_text at_ s j x put : SupportedText s j -> reach at_ j = Ok (x, put) ->
  exists pre t post, s = pre ++ t ++ post /\ parse t = Ok x /\
    forall t' w, Part t' w -> parse (pre ++ t' ++ post) = Ok (put w).
Proof.
  intros HT H. destruct (reach_span _ _ _ _ _ HT H) as (n & pre & t & post & -> & Ht & F).
  exists pre, t, post. split; auto. split; [now apply supported_value in Ht|]. intros t' w Hw. apply parse_supported_text, F. now apply inner_outer.
Qed.

Lemma array_text n t vs : VV n t (JArr vs) -> (vs = [] /\ t = [91; 93]) \/ (exists s, t = [91] ++ s ++ [93] /\ EE s vs).
Proof. intros H. inversion H as [| | | | |? w Hw He Ex|? s vs0 HE Ex| |]; subst; [left|right; eauto]. unfold no_space in He. subst. auto. Qed.
Lemma object_text n t o : VV n t (JObj o) -> (o = [] /\ t = [123; 125]) \/ (exists s ms, t = [123] ++ s ++ [125] /\ MM s ms /\ Groups ms o).
Proof. intros H. inversion H as [| | | | | |  |? w Hw He Ex|? s ms ? HM HG Ex]; subst; [left|right; eauto 6]. unfold no_space in He. subst. auto. Qed.
Lemma elements_more s vs : EE s vs -> forall t' w, VV true t' w -> EE (s ++ [44] ++ t') (vs ++ [w]).
Proof.
  induction 1 as [w1 s w2 v H1 HV H2|w1 s w2 v s' vs H1 HV H2 HE IH]; intros t' w Hw.
  - replace ((w1 ++ s ++ w2) ++ [44] ++ t') with (w1 ++ s ++ w2 ++ [44] ++ ([] ++ t' ++ [])) by (now rewrite app_nil_r, <- !app_assoc).
    cbn [app]. apply (e_cons _ _ w1 s w2 v ([] ++ t' ++ []) [w]); auto. apply e_one; auto; constructor.
  - replace ((w1 ++ s ++ w2 ++ [44] ++ s') ++ [44] ++ t') with (w1 ++ s ++ w2 ++ [44] ++ (s' ++ [44] ++ t')) by now rewrite <- !app_assoc.
    apply e_cons; auto.
Qed.
Lemma elements_cut s vs : EE s vs -> forall i, (i < List.length vs)%nat -> exists a m b, s = a ++ m ++ b /\
  (a ++ b = [] /\ vec_remove i vs = [] \/ EE (a ++ b) (vec_remove i vs)).
Proof.
  induction 1 as [w1 s w2 v H1 HV H2|w1 s w2 v s' vs H1 HV H2 HE IH]; intros i Hi; cbn in Hi.
  - assert (i = 0%nat) as -> by lia. exists [], (w1 ++ s ++ w2), []. split; [now rewrite app_nil_r|]. left. auto.
  - destruct i as [|i].
    + exists [], (w1 ++ s ++ w2 ++ [44]), s'. split; [now rewrite <- !app_assoc|]. right. exact HE.
    + destruct (IH i) as (a & m & b & -> & [[E1 E2]|E]); [lia| |].
      * exists (w1 ++ s ++ w2), ([44] ++ a ++ m ++ b), []. split; [now rewrite app_nil_r, <- !app_assoc|]. right.
        cbn [vec_remove]. rewrite E2, app_nil_r. now apply e_one.
      * exists (w1 ++ s ++ w2 ++ [44] ++ a), m, b. split; [now rewrite <- !app_assoc|]. right. cbn [vec_remove].
        replace ((w1 ++ s ++ w2 ++ [44] ++ a) ++ b) with (w1 ++ s ++ w2 ++ [44] ++ (a ++ b)) by now rewrite <- !app_assoc. now apply e_cons.
Qed.
Lemma members_more s ms : MM s ms -> forall raw k t' w, Chars raw k -> balanced_raw raw -> VV true t' w -> MM (s ++ [44] ++ member raw t') (ms ++ [(k, w)]).
Proof.
  induction 1 as [w1 raw0 k' w2 w3 s w4 v H1 HC HS H2 H3 HV H4|w1 raw0 k' w2 w3 s w4 v s' ms H1 HC HS H2 H3 HV H4 HM IH]; intros raw k t' w C B Hw.
  - assert (X : MM (member raw t') [(k, w)]).
    { pose proof (m_one no_space balanced_raw [] raw k [] [] t' [] w) as R. unfold member. specialize (R (Forall_nil _) C B (Forall_nil _) (Forall_nil _) Hw (Forall_nil _)). rewrite app_nil_r in R. norm R. }
    pose proof (m_cons _ _ w1 raw0 k' w2 w3 s w4 v _ _ H1 HC HS H2 H3 HV H4 X) as R. norm R.
  - pose proof (m_cons _ _ w1 raw0 k' w2 w3 s w4 v _ _ H1 HC HS H2 H3 HV H4 (IH raw k t' w C B Hw)) as R.
    norm R.
Qed.
Lemma members_cut s ms : MM s ms -> forall k x, values_of k ms = [x] -> exists a m b, s = a ++ m ++ b /\
  (a ++ b = [] /\ ms = [(k, x)] \/ exists m1 m2, ms = m1 ++ (k, x) :: m2 /\ MM (a ++ b) (m1 ++ m2)).
Proof.
  induction 1 as [w1 raw k' w2 w3 s w4 v H1 HC HS H2 H3 HV H4|w1 raw k' w2 w3 s w4 v s' ms H1 HC HS H2 H3 HV H4 HM IH]; intros k x E; rewrite values_of_cons in E.
  - destruct (str_eqb k k') eqn:Ek; [|discriminate]. apply str_eqb_eq in Ek as <-. injection E as <-.
    exists [], (w1 ++ ([34] ++ raw ++ [34]) ++ w2 ++ [58] ++ w3 ++ s ++ w4), []. split; [now rewrite app_nil_r|]. left. auto.
  - destruct (str_eqb k k') eqn:Ek.
    + apply str_eqb_eq in Ek as <-. injection E as <- _.
      exists [], (w1 ++ ([34] ++ raw ++ [34]) ++ w2 ++ [58] ++ w3 ++ s ++ w4 ++ [44]), s'. split; [now rewrite <- !app_assoc|].
      right. exists [], ms. auto.
    + destruct (IH k x E) as (a & m & b & -> & [[E1 ->]|(m1 & m2 & -> & F)]).
      * exists (w1 ++ ([34] ++ raw ++ [34]) ++ w2 ++ [58] ++ w3 ++ s ++ w4), ([44] ++ a ++ m ++ b), []. split; [now rewrite app_nil_r, <- !app_assoc|].
        right. exists [(k', v)], []. split; auto. rewrite app_nil_r. now apply m_one.
      * exists (w1 ++ ([34] ++ raw ++ [34]) ++ w2 ++ [58] ++ w3 ++ s ++ w4 ++ [44] ++ a), m, b. split; [now rewrite <- !app_assoc|].
        right. exists ((k', v) :: m1), m2. split; auto.
        pose proof (m_cons _ _ w1 raw k' w2 w3 s w4 v _ _ H1 HC HS H2 H3 HV H4 F) as R. norm R.
Qed.

(** Pushing an element is writing it before the closing bracket. *)
Theorem pushing_is_writing at_ s j vs put : SupportedText s j -> reach at_ j = Ok (JArr vs, put) ->
  exists a b, s = a ++ b /\ forall t' w, Part t' w -> parse (a ++ comma_unless vs ++ t' ++ b) = Ok (put (fst (push (JArr vs) w))).
Proof.
  intros HT H. destruct (reach_span _ _ _ _ _ HT H) as (n & pre & t & post & -> & Ht & F).
  apply array_text in Ht as [[-> ->]|(s & -> & HE)].
  - exists (pre ++ [91]), ([93] ++ post). split; [now rewrite <- !app_assoc|]. intros t' w Hw. apply parse_supported_text. cbn [comma_unless app push fst].
    replace ((pre ++ [91]) ++ t' ++ 93 :: post) with (pre ++ ([91] ++ ([] ++ t' ++ []) ++ [93]) ++ post) by (now rewrite app_nil_r, <- !app_assoc).
    apply F. apply v_arr. apply e_one; auto; constructor.
  - exists (pre ++ [91] ++ s), ([93] ++ post). split; [now rewrite <- !app_assoc|]. intros t' w Hw. apply parse_supported_text. cbn [push fst].
    assert (E : comma_unless vs = [44]) by (destruct HE; reflexivity). rewrite E.
    replace ((pre ++ [91] ++ s) ++ [44] ++ t' ++ [93] ++ post) with (pre ++ ([91] ++ (s ++ [44] ++ t') ++ [93]) ++ post) by now rewrite <- !app_assoc.
    apply F. apply v_arr. now apply elements_more.
Qed.
(** Removing an element is cutting its text out, with one comma. *)
Theorem removing_is_cutting at_ s j vs put i : SupportedText s j -> reach at_ j = Ok (JArr vs, put) -> i < vlen vs ->
  exists a m b, s = a ++ m ++ b /\ parse (a ++ b) = Ok (put (fst (remove (JArr vs) i))).
Proof.
  intros HT H Hi. destruct (reach_span _ _ _ _ _ HT H) as (n & pre & t & post & -> & Ht & F). unfold vlen in Hi.
  cbn [remove]. rewrite (proj2 (N.ltb_lt _ _)) by exact Hi. cbn [fst].
  apply array_text in Ht as [[-> ->]|(s & -> & HE)]; [cbn in Hi; lia|].
  destruct (elements_cut _ _ HE (N.to_nat i)) as (a & m & b & -> & C); [lia|].
  exists (pre ++ [91] ++ a), m, (b ++ [93] ++ post). split; [now rewrite <- !app_assoc|]. apply parse_supported_text.
  replace ((pre ++ [91] ++ a) ++ b ++ [93] ++ post) with (pre ++ ([91] ++ (a ++ b) ++ [93]) ++ post) by now rewrite <- !app_assoc.
  apply F. destruct C as [[-> ->]|C]; [apply v_arr0; [constructor|reflexivity]|now apply v_arr].
Qed.
(** Appending a member is writing it before the closing brace. *)
Theorem appending_is_writing at_ s j o put : SupportedText s j -> reach at_ j = Ok (JObj o, put) ->
  exists a b, s = a ++ b /\ forall raw k t' w, Chars raw k -> balanced_raw raw -> Part t' w ->
    parse (a ++ comma_unless o ++ member raw t' ++ b) = Ok (put (fst (append (JObj o) k w))).
Proof.
  intros HT H. destruct (reach_span _ _ _ _ _ HT H) as (n & pre & t & post & -> & Ht & F).
  apply object_text in Ht as [[-> ->]|(s & ms & -> & HM & HG)].
  - exists (pre ++ [123]), ([125] ++ post). split; [now rewrite <- !app_assoc|]. intros raw k t' w C B Hw. apply parse_supported_text. cbn [comma_unless app append add_option fst].
    replace ((pre ++ [123]) ++ member raw t' ++ 125 :: post) with (pre ++ ([123] ++ member raw t' ++ [125]) ++ post) by now rewrite <- !app_assoc.
    apply F. apply (v_obj _ _ n _ [(k, w)]); [|exact (Groups_build [(k, w)])].
    pose proof (m_one no_space balanced_raw [] raw k [] [] t' [] w) as R. unfold member. specialize (R (Forall_nil _) C B (Forall_nil _) (Forall_nil _) Hw (Forall_nil _)). rewrite app_nil_r in R. norm R.
  - exists (pre ++ [123] ++ s), ([125] ++ post). split; [now rewrite <- !app_assoc|]. intros raw k t' w C B Hw. apply parse_supported_text. cbn [append add_option fst].
    assert (E : comma_unless o = [44]). { destruct o; [|reflexivity]. exfalso. eapply groups_nonempty; eauto. destruct HM; discriminate. } rewrite E.
    replace ((pre ++ [123] ++ s) ++ [44] ++ member raw t' ++ [125] ++ post) with (pre ++ ([123] ++ (s ++ [44] ++ member raw t') ++ [125]) ++ post) by now rewrite <- !app_assoc.
    apply F. apply (v_obj _ _ n _ (ms ++ [(k, w)])); [now apply members_more|].
    destruct HG as [Hs G]. split; [now apply object_insert_sorted|]. intros k'. rewrite object_insert_get by auto. rewrite values_of_app, values_of_cons.
    destruct (str_eqb k' k) eqn:Ek; [|now rewrite <- G, app_nil_r]. apply str_eqb_eq in Ek as ->. rewrite <- G. cbn. destruct (hm_get k o) as [[? ?]|]; reflexivity.
Qed.
(** Deleting a key that occurs once is cutting its member out, with one comma. *)
Theorem deleting_is_cutting at_ s j o put k x : SupportedText s j -> reach at_ j = Ok (JObj o, put) -> hm_get k o = Some (x, []) ->
  exists a m b, s = a ++ m ++ b /\ parse (a ++ b) = Ok (put (fst (delete (JObj o) k))).
Proof.
  intros HT H Hk. destruct (reach_span _ _ _ _ _ HT H) as (n & pre & t & post & -> & Ht & F). cbn [delete fst].
  apply object_text in Ht as [[-> ->]|(s & ms & -> & HM & HG)]; [discriminate|].
  pose proof (proj2 HG k) as E. rewrite Hk in E. cbn in E. symmetry in E.
  destruct (members_cut _ _ HM k x E) as (a & m & b & -> & C).
  exists (pre ++ [123] ++ a), m, (b ++ [125] ++ post). split; [now rewrite <- !app_assoc|]. apply parse_supported_text.
  replace ((pre ++ [123] ++ a) ++ b ++ [125] ++ post) with (pre ++ ([123] ++ (a ++ b) ++ [125]) ++ post) by now rewrite <- !app_assoc.
  apply F.
  assert (G : forall m1 m2, ms = m1 ++ (k, x) :: m2 -> Groups (m1 ++ m2) (hm_remove k o)).
  { intros m1 m2 ->. destruct HG as [Hs G]. split; [now apply hm_remove_sorted|]. intros k'. rewrite hm_get_remove by auto.
    rewrite values_of_app, values_of_cons in E. rewrite str_eqb_refl in E.
    assert (X : values_of k m1 = [] /\ values_of k m2 = []).
    { destruct (values_of k m1) as [|y L]; [injection E; auto|]. destruct L; discriminate. }
    specialize (G k'). rewrite values_of_app, values_of_cons in G. rewrite values_of_app. destruct (str_eqb k' k) eqn:Ek; [|exact G].
    apply str_eqb_eq in Ek as ->. destruct X as [-> ->]. reflexivity. }
  destruct C as [[-> ->]|(m1 & m2 & Em & C)].
  - specialize (G [] [] eq_refl). rewrite (Groups_unique [] (hm_remove k o) []); auto; [|exact (Groups_build [])]. apply v_obj0; [constructor|reflexivity].
  - apply (v_obj _ _ n _ (m1 ++ m2)); auto.
Qed.
(** What can be written. *)
Theorem printed_values_are_parts w : legal w -> finite w = true -> balanced_in w = true -> Part (to_string w) (canon w).
Proof.
  intros L F B. unfold Part. pose proof (canon_same w) as S. assert (E : to_string w = to_string (canon w)) by (apply printing_ignores_iteration_order; [now apply legal_iff in L|auto]).
  rewrite E. rewrite (finite_same _ _ S) in F. pose proof (to_string_grammar (canon w) (canon_legal_wf w L) F true) as G.
  eapply (proj1 flag_true); [exact G|]. rewrite balanced_contents in *. now rewrite <- (contents_same _ _ _ _ _ S).
Qed.
(** Cases: a place two levels down, and edits there. *)
Definition doc : json := JArr [JNum (dec_to_f64 false 1 0); JObj [(lit "k", (JStr (lit "v"), []))]].
Definition at_k : option path := Some (PNext (Index 1) (PEnd (Key (lit "k")))).
Example values_have_their_text_case : SupportedText (lit " [1, {""k"": ""v""}] ") doc /\
  (exists put, reach at_k doc = Ok (JStr (lit "v"), put) /\ put JNull = JArr [JNum (dec_to_f64 false 1 0); JObj [(lit "k", (JNull, []))]]) /\
  Part (lit "null") JNull /\
  parse (lit " [1, {""k"": null}] ") = Ok (JArr [JNum (dec_to_f64 false 1 0); JObj [(lit "k", (JNull, []))]]).
Proof.
  split; [exact supported_example|]. split; [eexists; split; reflexivity|]. split; [constructor|]. vm_compute. reflexivity.
Qed.
Example edits_are_text_edits_case :
  (exists put, reach None doc = Ok (doc, put)) /\
  parse (lit " [1, {""k"": ""v""},null] ") = Ok (fst (push doc JNull)) /\
  parse (lit " [ {""k"": ""v""}] ") = Ok (fst (remove doc 0)) /\
  parse (lit " [1, {""k"": ""v"",""l"":null}] ") = Ok (JArr [JNum (dec_to_f64 false 1 0); fst (append (JObj [(lit "k", (JStr (lit "v"), []))]) (lit "l") JNull)]) /\
  parse (lit " [1, {}] ") = Ok (JArr [JNum (dec_to_f64 false 1 0); fst (delete (JObj [(lit "k", (JStr (lit "v"), []))]) (lit "k"))]).
Proof. split; [eexists; reflexivity|]. repeat split; vm_compute; reflexivity. Qed.
(** What is written must be able to stand inside a container: a string with an unbalanced bracket destroys the document, although it is JSON. *)
Theorem not_every_text_is_a_part : exists t w, JsonText t w /\ parse t = Ok w /\ ~ Part t w /\
  parse (lit " [1, {""k"": null}] ") = Ok (JArr [JNum (dec_to_f64 false 1 0); JObj [(lit "k", (JNull, []))]]) /\
  exists e, parse (lit " [1, {""k"": " ++ t ++ lit "}] ") = Err e.
Proof.
  exists (lit """[""") , (JStr (lit "[")). split; [|split; [vm_compute; reflexivity|split; [|split; [vm_compute; reflexivity|eexists; vm_compute; reflexivity]]]].
  - exists [], (lit """["""), []. split; [constructor|]. split; [constructor|]. split; [|reflexivity]. apply (v_str _ _ false (lit "[") (lit "[")); [plain|discriminate].
  - assert (G : forall b t v, VV b t v -> b = true -> v = JStr (lit "[") -> t <> lit """[""").
    { intros b t v [| | | |n raw c HC HS| | | |] Eb Ev Et; try discriminate Ev. specialize (HS Eb).
      change ([34] ++ raw ++ [34] = [34] ++ [91] ++ [34]) in Et. apply app_inv_head in Et. apply app_inj_tail in Et as [-> _]. discriminate HS. }
    intros H. exact (G _ _ _ H eq_refl eq_refl eq_refl).
Qed.

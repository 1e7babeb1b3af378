(** C56: when the iteration order of hash maps can be seen. *)
From Verif Require Import Base F64 Json Parse Print Ops Path Convert Derive SpecGrammar MapProofs SpecValue CanonProofs SpecConvert SpecDerive KeyProofs ConvertProofs PathTextProofs PropsConvert PropsDerive PropsParse SpecOrder.
From Coq Require Import Permutation Bool Lia.
Lemma F2_length {A B} (R : A -> B -> Prop) l l' : Forall2 R l l' -> List.length l = List.length l'.
Proof. induction 1; cbn; congruence. Qed.

(** ** Lookup never sees it. *)
Lemma f_find_agree f j j' : legal j -> same j j' -> agree same (f_find f j) (f_find f j').
Proof.
  intros L S. destruct f as [k|i]; cbn [f_find].
  - destruct S as [o p o' P F|v v' F| | | |]; try constructor. inversion L; subst.
    pose proof (same_get o o' ltac:(auto) (same_obj _ _ _ P F) k) as G. destruct (hm_get k o) as [[v l]|], (hm_get k o') as [[v' l']|]; try contradiction; constructor. apply G.
  - destruct S as [o p o' P F|v v' F| | | |]; try constructor. unfold vec_get. assert (E : vlen v = vlen v') by (unfold vlen; f_equal; eapply F2_length; eauto). rewrite E.
    destruct (i <? vlen v')%N; [|constructor]. generalize (N.to_nat i) as n. clear E L. induction F as [|x y l l' Sx F IH]; intros [|n]; cbn; try constructor; auto.
Qed.
Lemma f_find_legal f j x : legal j -> f_find f j = Ok x -> legal x.
Proof.
  intros L. destruct f as [k|i]; cbn [f_find]; destruct j as [o|v|s|g|b|]; try discriminate.
  - inversion L as [? N Fo| | | | |]; subst. destruct (hm_get k o) as [[y l]|] eqn:G; [|discriminate]. intros E; inversion E; subst. apply hm_get_In in G. rewrite Forall_forall in Fo. now apply Fo in G.
  - inversion L as [|? Fv| | | |]; subst. unfold vec_get. destruct (i <? vlen v)%N; [|discriminate]. destruct (nth_error v (N.to_nat i)) eqn:G; [|discriminate]. intros E; inversion E; subst.
    apply nth_error_In in G. rewrite Forall_forall in Fv. auto.
Qed.
Lemma p_find_agree p : forall j j', legal j -> same j j' -> agree same (p_find p j) (p_find p j').
Proof.
  induction p as [f|f p IH]; intros j j' L S; cbn [p_find]; [now apply f_find_agree|].
  pose proof (f_find_agree f j j' L S) as A. destruct (f_find f j) eqn:E; inversion A; subst; cbn [bind]; [|constructor]. apply IH; auto. eapply f_find_legal; eauto.
Qed.
(** Two values that are the same but for the order of their hash maps give the same results for every lookup, and the same text. *)
Theorem lookups_ignore_iteration_order j j' : legal j -> same j j' ->
  (forall p, agree same (get j p) (get j' p)) /\
  (forall f, agree same (p_find f j) (p_find f j')) /\
  (forall k, agree (Forall2 same) (index_and_merge j k) (index_and_merge j' k)) /\
  to_string j = to_string j'.
Proof.
  intros L S. split; [|split; [|split]].
  - intros p. unfold get. destruct p as [|c r] eqn:Ep; [constructor|]. rewrite <- Ep.
    destruct (parse_path_cases p) as [(q & E & _)|(e & E & _)]; rewrite E; cbn [bind]; [now apply p_find_agree|constructor].
  - intros p. now apply p_find_agree.
  - intros k. destruct S as [o p o' P F|v v' F| | | |]; try constructor. cbn [index_and_merge]. inversion L; subst.
    pose proof (same_get o o' ltac:(auto) (same_obj _ _ _ P F) k) as G. destruct (hm_get k o) as [[v l]|], (hm_get k o') as [[v' l']|]; try contradiction; constructor.
    destruct G as [A B]. cbn [fst snd] in *. apply Forall2_app; auto. clear - B. induction B; cbn; auto. apply Forall2_app; auto.
  - apply PropsPrint.printing_ignores_iteration_order; auto. now apply legal_iff.
Qed.

(** ** Conversions *)
Lemma agree_impl {A B} (R Q : A -> B -> Prop) x y : (forall a b, R a b -> Q a b) -> agree R x y -> agree Q x y.
Proof. intros H []; constructor; auto. Qed.
Lemma collect_agree {A B C D} (P : A -> C -> Prop) (R : B -> D -> Prop) (f : A -> res B) (g : C -> res D) l l' :
  (forall a c, In a l -> P a c -> agree R (f a) (g c)) -> Forall2 P l l' -> agree (Forall2 R) (collect f l) (collect g l').
Proof.
  intros H F. induction F as [|a c l l' Hac F IH]; cbn [collect]; [repeat constructor|].
  pose proof (H a c (or_introl eq_refl) Hac) as X. inversion X; subst; cbn [bind]; [|constructor].
  specialize (IH (fun a c Hi => H a c (or_intror Hi))). inversion IH; subst; cbn [bind]; constructor. now constructor.
Qed.
(** Without maps in the type, the conversion gives the same result whatever the order, errors included. *)
Theorem mapless_conversions_ignore_order t : mapless t -> forall j j', legal j -> same j j' -> agree (equal t) (from_json (codec_of t) j) (from_json (codec_of t) j').
Proof.
  induction t as [| | |i| | |a IH|a IH|k a _|k a _]; cbn [mapless]; intros M j j' L S; try contradiction.
  - constructor. exact S.
  - destruct S; cbn; constructor; reflexivity.
  - destruct S; cbn; constructor; reflexivity.
  - destruct S; cbn; constructor; reflexivity.
  - destruct S; cbn; constructor; reflexivity.
  - destruct S; cbn; constructor; reflexivity.
  - destruct S as [|v v' F| | | |]; cbn [codec_of c_vec from_json]; try constructor. inversion L as [|? Fv| | | |]; subst. rewrite Forall_forall in Fv.
    eapply collect_agree; [|exact F]. intros x y Hx Sx. apply IH; auto.
  - cbn [codec_of c_option from_json equal]. specialize (IH M j j' L S). destruct S; cbn [bind]; try (inversion IH; subst; cbn [bind]; constructor; assumption). now constructor.
Qed.

Lemma read_key_ok {K} (kc : key_codec K) s k : read_key kc s = Ok k <-> read kc s = Some k.
Proof. unfold read_key. destruct (read kc s); split; intros H; inversion H; auto. Qed.
Lemma pairs_of_entry_iff {K V} (kc : key_codec K) (c : codec V) e l : pairs_of_entry kc c e = Ok l <->
  exists k vs, read kc (fst e) = Some k /\ Forall2 (fun j v => from_json c j = Ok v) (entry_values e) vs /\ l = map (pair k) vs.
Proof.
  unfold pairs_of_entry. fold (entry_values e). rewrite collect_ok.
  assert (NE : entry_values e <> []) by (unfold entry_values; intros C; apply app_eq_nil in C; destruct C; discriminate).
  split.
  - intros F. destruct (read kc (fst e)) as [k|] eqn:R.
    + exists k, (map snd l). split; [auto|]. clear NE. induction F as [|j kv js l Hk F IH]; [repeat constructor|]. destruct IH as [IH1 IH2].
      unfold read_key in Hk. rewrite R in Hk. cbn [bind] in Hk. destruct (from_json c j) eqn:E; try discriminate. cbn [bind] in Hk. inversion Hk; subst. cbn [map snd]. split; [now constructor|congruence].
    + destruct F as [|j kv js l Hk F]; [congruence|]. unfold read_key in Hk. rewrite R in Hk. discriminate.
  - intros (k & vs & R & F & ->). clear NE. induction F as [|j v js vs Hv F IH]; [constructor|]. cbn [map]. constructor; auto.
    unfold read_key. rewrite R. cbn [bind]. rewrite Hv. reflexivity.
Qed.
Lemma map_of_entries_iff {K V} (eqb : K -> K -> bool) (kc : key_codec K) (c : codec V) o : forall m r, map_of_entries eqb kc c o m = Ok r <->
  exists kvs, Forall2 (fun (e : entry) kv => read kc (fst e) = Some (fst kv) /\ from_json c (fst (snd e)) = Ok (snd kv)) o kvs /\
    r = fold_left (fun m kv => map_insert eqb (fst kv) (snd kv) m) kvs m.
Proof.
  induction o as [|[mk [mj ml]] o IH]; intros m r; cbn [map_of_entries].
  - split; [intros E; inversion E; exists []; auto|]. intros (kvs & F & ->). inversion F; subst. reflexivity.
  - unfold read_key. destruct (read kc mk) as [k|] eqn:R; [cbn [bind]|].
    + destruct (from_json c mj) as [v|e| |] eqn:E; cbn [bind].
      * rewrite IH. split.
        -- intros (kvs & F & ->). exists ((k, v) :: kvs). split; [constructor; auto|reflexivity].
        -- intros (kvs & F & ->). inversion F as [|? [k' v'] ? kvs' [A B] F']; subst. cbn [fst snd] in *. rewrite R in A. rewrite E in B. inversion A; inversion B; subst. exists kvs'. auto.
      * split; [discriminate|]. intros (kvs & F & _). inversion F as [|? ? ? ? [A B] F']; subst. cbn in B. congruence.
      * split; [discriminate|]. intros (kvs & F & _). inversion F as [|? ? ? ? [A B] F']; subst. cbn in B. congruence.
      * split; [discriminate|]. intros (kvs & F & _). inversion F as [|? ? ? ? [A B] F']; subst. cbn in B. congruence.
    + split; [discriminate|]. intros (kvs & F & _). inversion F as [|? ? ? ? [A B] F']; subst. cbn in A. congruence.
Qed.
Lemma fold_fresh {K V} (eqb : K -> K -> bool) (kvs : list (K * V)) : decides eqb -> forall m, NoDup (map fst (m ++ kvs)) ->
  fold_left (fun m kv => map_insert eqb (fst kv) (snd kv) m) kvs m = m ++ kvs.
Proof.
  intros D. induction kvs as [|[k v] kvs IH]; intros m N; cbn [fold_left fst snd]; [now rewrite app_nil_r|].
  rewrite map_insert_fresh; auto.
  - rewrite IH; [now rewrite <- app_assoc|]. now rewrite <- app_assoc.
  - rewrite map_app in N. cbn [map fst] in N. apply NoDup_remove_2 in N. intros C. apply N. apply in_app_iff. now left.
Qed.
Lemma distinct_readings {K V} (kc : key_codec K) (o : hmap) (kvs : list (K * V)) : NoDup (map fst o) ->
  (forall k s s', In s (map fst o) -> In s' (map fst o) -> read kc s = Some k -> read kc s' = Some k -> s = s') ->
  Forall2 (fun (e : entry) kv => read kc (fst e) = Some (fst kv)) o kvs -> NoDup (map fst kvs).
Proof.
  intros N U F. induction F as [|e kv o kvs R F IH]; [constructor|]. cbn [map] in *. inversion N as [|? ? Hn Hd]; subst. constructor.
  - intros C. apply in_map_iff in C. destruct C as (kv' & E & Hin). apply Hn.
    assert (X : exists e', In e' o /\ read kc (fst e') = Some (fst kv')).
    { clear - F Hin. induction F as [|e0 kv0 o kvs R F IH]; [destruct Hin|]. destruct Hin as [<-|Hin]; [exists e0; split; [now left|auto]|]. destruct (IH Hin) as (e' & A & B). exists e'. split; [now right|auto]. }
    destruct X as (e' & Hi & R'). rewrite E in R'. rewrite (U (fst kv) (fst e) (fst e')); auto; [now apply in_map|now left|right; now apply in_map].
  - apply IH; auto. intros k s s' H H'. apply U; now right.
Qed.
Lemma flat_map_perm {A B} (G : A -> list B) o p : Permutation o p -> NoDup o -> (forall e e', In e o -> In e' o -> G e <> [] -> G e' <> [] -> e = e') ->
  flat_map G o = flat_map G p.
Proof.
  intros P. induction P as [|x o p P IH|x y o|o p q P IH P' IH']; intros N U; cbn [flat_map]; auto.
  - inversion N; subst. rewrite IH; auto. intros; apply U; auto; now right.
  - destruct (G x) as [|b bs] eqn:Ex; [now rewrite app_nil_l|]. destruct (G y) as [|c cs] eqn:Ey; [now rewrite app_nil_l|].
    inversion N as [|? ? Hn _]; subst. elim Hn. left. apply U; [right; now left|now left|congruence|congruence].
  - rewrite IH; auto. apply IH'; [eapply Permutation_NoDup; eauto|]. intros e e' H H'. apply U; (eapply Permutation_in; [apply Permutation_sym; exact P|]); auto.
Qed.
Lemma NoDup_of_map {A B} (f : A -> B) l : NoDup (map f l) -> NoDup l.
Proof. induction l as [|a l IH]; cbn; intros N; constructor; inversion N; subst; auto. intros C. apply H1. now apply in_map. Qed.

(** The general statement: whether a conversion succeeds does not depend on the order, and neither does the value, unless two keys of a
    map are read as the same key. *)
Lemma conversion_any_order t : forall j j', legal j -> same j j' -> forall x, from_json (codec_of t) j = Ok x ->
  exists y, from_json (codec_of t) j' = Ok y /\ (unambiguous t j -> equal t x y).
Proof.
  induction t as [| | |i| | |a IH|a IH|k a IH|k a IH]; intros j j' L S x E.
  1-6: match type of E with from_json (codec_of ?t) _ = _ => pose proof (mapless_conversions_ignore_order t I j j' L S) as A end; rewrite E in A; remember (Ok x) as r eqn:Er; match type of A with agree _ _ ?q => remember q as r' eqn:Er' end; destruct A as [x' y Q|e]; inversion Er; subst; eauto.
  - cbn [codec_of c_vec from_json] in *. destruct S as [|v v' F| | | |]; try discriminate. inversion L as [|? Fv| | | |]; subst. apply collect_ok in E.
    assert (X : exists y, collect (from_json (codec_of a)) v' = Ok y /\ (Forall (unambiguous a) v -> Forall2 (equal a) x y)).
    { clear L. revert x E. induction F as [|u u' v v' Su F IHF]; intros x E; inversion E as [|? x0 ? xs Ex Es]; subst.
      - exists []. split; [reflexivity|auto].
      - inversion Fv; subst. destruct (IH u u' ltac:(auto) Su x0 Ex) as (y0 & Ey & Qy), (IHF ltac:(auto) xs Es) as (ys & Eys & Qys).
        exists (y0 :: ys). cbn [collect]. rewrite Ey. cbn [bind]. rewrite Eys. split; [reflexivity|]. intros U. inversion U; subst. constructor; auto. }
    exact X.
  - cbn [codec_of c_option from_json] in *. destruct (match j with JNull => true | _ => false end) eqn:N.
    + destruct j; try discriminate. inversion S; subst. exists None. inversion E; subst. cbn. auto.
    + assert (E1 : (let? y := from_json (codec_of a) j in Ok (Some y)) = Ok x) by (destruct j; auto; discriminate).
      destruct (from_json (codec_of a) j) as [x0| | |] eqn:E0; try discriminate. cbn [bind] in E1. inversion E1; subst.
      destruct (IH j j' L S x0 E0) as (y & Ey & Q). exists (Some y). split; [|exact Q]. rewrite Ey. destruct S; try reflexivity. discriminate.
  - cbn [codec_of c_pairs from_json] in *. destruct S as [o p o' P F| | | | |]; try discriminate. inversion L as [? No Lo| | | | |]; subst.
    destruct (collect (pairs_of_entry (key_codec_of k) (codec_of a)) o) as [ls| | |] eqn:C; try discriminate. cbn [bind] in E. inversion E; subst. apply collect_ok in C.
    set (PE := pairs_of_entry (key_codec_of k) (codec_of a)) in *. set (FF := fun e : entry => match PE e with Ok l => l | _ => [] end).
    assert (Els : ls = map FF o) by (clear - C; induction C as [|e l o ls He C IH]; cbn; [auto|]; unfold FF at 1; rewrite He; congruence).
    assert (Ok_o : Forall (fun e => exists l, PE e = Ok l) o) by (clear - C; induction C; constructor; eauto).
    assert (Ok_p : Forall (fun e => exists l, PE e = Ok l) p) by (eapply Permutation_Forall; eauto).
    assert (Lp : Forall (fun e : entry => scalar_str (fst e) = true /\ legal (fst (snd e)) /\ Forall legal (snd (snd e))) p) by (eapply Permutation_Forall; eauto).
    assert (Step : forall e e', legal (fst (snd e)) /\ Forall legal (snd (snd e)) -> same_entry e e' -> forall l, PE e = Ok l ->
      exists l', PE e' = Ok l' /\ exists kk vs vs', read (key_codec_of k) (fst e) = Some kk /\ l = map (pair kk) vs /\ l' = map (pair kk) vs' /\
        (unambiguous a (fst (snd e)) /\ Forall (unambiguous a) (snd (snd e)) -> Forall2 (equal a) vs vs')).
    { intros e e' [Le1 Le2] SE l El. unfold PE in El. apply pairs_of_entry_iff in El. destruct El as (kk & vs & R & Fv & ->).
      pose proof (entry_values_same e e' SE) as SV.
      assert (LV : Forall legal (entry_values e)) by (unfold entry_values; apply Forall_app; split; [now apply Forall_rev|auto]).
      assert (X : exists vs', Forall2 (fun j v => from_json (codec_of a) j = Ok v) (entry_values e') vs' /\ (Forall (unambiguous a) (entry_values e) -> Forall2 (equal a) vs vs')).
      { clear - IH Fv SV LV. revert vs Fv. induction SV as [|u u' us us' Su SV IHS]; intros vs Fv; inversion Fv as [|? v ? vs0 Hv Hvs]; subst.
        - exists []. auto.
        - inversion LV; subst. destruct (IH u u' ltac:(auto) Su v Hv) as (y & Ey & Qy), (IHS ltac:(auto) vs0 Hvs) as (ys & Fy & Qys). exists (y :: ys). split; [now constructor|].
          intros U. inversion U; subst. constructor; auto. }
      destruct X as (vs' & Fv' & Q). exists (map (pair kk) vs'). split.
      - unfold PE. apply pairs_of_entry_iff. exists kk, vs'. destruct SE as (Ek & _). rewrite <- Ek. auto.
      - exists kk, vs, vs'. repeat split; auto. intros [U1 U2]. apply Q. unfold entry_values. apply Forall_app; split; [now apply Forall_rev|auto]. }
    assert (Ok_o' : Forall (fun e => exists l, PE e = Ok l) o').
    { clear - F Ok_p Lp Step. induction F as [|e e' p o' SE F IHF]; constructor; inversion Ok_p as [|? ? [l El] ?]; inversion Lp as [|? ? [_ Le] ?]; subst; auto.
      destruct (Step e e' Le SE l El) as (l' & El' & _). eauto. }
    assert (C' : collect PE o' = Ok (map FF o')).
    { apply collect_ok. clear - Ok_o'. induction Ok_o' as [|e o' [l El] Ok IH]; cbn; constructor; auto. unfold FF. now rewrite El. }
    rewrite C'. cbn [bind]. exists (List.concat (map FF o')). split; [reflexivity|]. cbn [unambiguous equal]. intros [U1 U2] key0. rewrite Els, <- !flat_map_concat_map.
    assert (Dec := key_eqb_decides k).
    assert (AK : forall (l : hmap), at_key (key_eqb k) key0 (flat_map FF l) = flat_map (fun e => at_key (key_eqb k) key0 (FF e)) l).
    { induction l as [|e l IHl]; [reflexivity|]. cbn [flat_map]. now rewrite at_key_app, IHl. }
    rewrite !AK.
    assert (EQ : flat_map (fun e => at_key (key_eqb k) key0 (FF e)) o = flat_map (fun e => at_key (key_eqb k) key0 (FF e)) p).
    { apply flat_map_perm; auto; [now apply NoDup_of_map in No|]. intros e e' He He' Ne Ne'.
      assert (RD : forall e, at_key (key_eqb k) key0 (FF e) <> [] -> read (key_codec_of k) (fst e) = Some key0).
      { clear - Dec. intros e Ne. unfold FF in Ne. destruct (PE e) as [l| | |] eqn:El; try (now elim Ne). unfold PE in El. apply pairs_of_entry_iff in El. destruct El as (kk & vs & R & _ & ->).
        destruct (at_key (key_eqb k) key0 (map (pair kk) vs)) as [|v r] eqn:A; [congruence|]. assert (In v (at_key (key_eqb k) key0 (map (pair kk) vs))) by (rewrite A; now left).
        apply (at_key_In _ Dec) in H. apply in_map_iff in H. destruct H as (? & H & _). inversion H; subst. exact R. }
      apply RD in Ne, Ne'. apply keys_are_read_as_these_texts in Ne, Ne'. assert (Ek : fst e = fst e') by (eapply U1; eauto; now apply in_map).
      destruct e as [k1 v1], e' as [k2 v2]. cbn in Ek. subst. apply nodup_get in He, He'; auto. congruence. }
    rewrite EQ. assert (U2p : Forall (fun e : entry => unambiguous a (fst (snd e)) /\ Forall (unambiguous a) (snd (snd e))) p) by (eapply Permutation_Forall; eauto).
    clear - F Ok_p Lp U2p Step. induction F as [|e e' p o' SE F IHF]; cbn [flat_map]; [constructor|].
    inversion Ok_p as [|? ? [l El] ?]; inversion Lp as [|? ? [_ Le] ?]; inversion U2p as [|? ? Ue ?]; subst. apply Forall2_app; auto.
    destruct (Step e e' Le SE l El) as (l' & El' & kk & vs & vs' & _ & -> & -> & Q). specialize (Q Ue). unfold FF. rewrite El, El'. clear - Q.
    unfold at_key. induction Q; cbn; [constructor|]. destruct (key_eqb k key0 kk); cbn; auto.
  - cbn [codec_of c_map from_json] in *. destruct S as [o p o' P F| | | | |]; try discriminate. inversion L as [? No Lo| | | | |]; subst.
    apply map_of_entries_iff in E. destruct E as (kvs & FK & ->).
    destruct (perm_Forall2 _ _ _ P _ FK) as (kvp & Pk & FKp).
    assert (Lp : Forall (fun e : entry => scalar_str (fst e) = true /\ legal (fst (snd e)) /\ Forall legal (snd (snd e))) p) by (eapply Permutation_Forall; eauto).
    assert (X : exists kvs', Forall2 (fun (e : entry) kv => read (key_codec_of k) (fst e) = Some (fst kv) /\ from_json (codec_of a) (fst (snd e)) = Ok (snd kv)) o' kvs' /\
       map fst kvp = map fst kvs' /\
       (Forall (fun e : entry => unambiguous a (fst (snd e))) p -> Forall2 (kv_eqv (equal a)) kvp kvs')).
    { clear - IH F FKp Lp. revert kvp FKp. induction F as [|e e' p o' (SE1 & SE2 & _) F IHF]; intros kvp FKp; inversion FKp as [|? kv ? kvs [R V] FK']; subst.
      - exists []. auto.
      - inversion Lp as [|? ? (_ & Le & _) ?]; subst. destruct (IHF ltac:(auto) _ FK') as (kvs' & A & B & C). destruct (IH _ _ Le SE2 _ V) as (y & Ey & Q).
        exists ((fst kv, y) :: kvs'). split; [constructor; auto; cbn; split; congruence|]. split; [cbn; congruence|]. intros U. inversion U; subst. constructor; auto. split; auto. }
    destruct X as (kvs' & FK' & EK & Q). exists (fold_left (fun m kv => map_insert (key_eqb k) (fst kv) (snd kv) m) kvs' []). split.
    + apply map_of_entries_iff. eauto.
    + cbn [unambiguous equal]. intros [U1 U2].
      assert (Nk : NoDup (map fst kvs)).
      { apply (distinct_readings (key_codec_of k) o kvs No).
        - intros x0 s s' H H' R R'. apply keys_are_read_as_these_texts in R, R'. eapply U1; eauto.
        - clear - FK. induction FK as [|? ? ? ? []]; constructor; auto. }
      assert (Nk' : NoDup (map fst kvs')) by (rewrite <- EK; eapply Permutation_NoDup; [apply Permutation_map; exact Pk|exact Nk]).
      assert (Dec := key_eqb_decides k). rewrite !fold_fresh by auto. cbn [app]. eapply map_eqv_of; eauto. apply Q.
      eapply Permutation_Forall; [exact P|]. revert U2. apply Forall_impl. tauto.
Qed.
Theorem conversions_ignore_order t j j' : legal j -> same j j' ->
  ((exists x, from_json (codec_of t) j = Ok x) <-> (exists y, from_json (codec_of t) j' = Ok y)) /\
  (forall x y, unambiguous t j -> from_json (codec_of t) j = Ok x -> from_json (codec_of t) j' = Ok y -> equal t x y).
Proof.
  intros L S. split; [split; intros [x E]|].
  - destruct (conversion_any_order t j j' L S x E) as (y & Ey & _). eauto.
  - destruct (conversion_any_order t j' j (same_legal _ _ S L) (same_sym _ _ S) x E) as (y & Ey & _). eauto.
  - intros x y U E E'. destruct (conversion_any_order t j j' L S x E) as (y' & Ey & Q). rewrite Ey in E'. inversion E'; subst. auto.
Qed.
(** Keys that are strings, booleans or characters are read as the same key only if they are the same text. *)
Theorem exact_keys_are_unambiguous t : exact_keys t -> forall j, unambiguous t j.
Proof.
  induction t as [| | |i| | |a IH|a IH|k a IH|k a IH]; cbn [exact_keys unambiguous]; intros X j; auto.
  - destruct j; auto. apply Forall_forall. auto.
  - destruct X as [Xk X]. destruct j; auto. split.
    + intros x s s' _ _. destruct k as [| | |i|]; try contradiction; cbn [key_text]; congruence.
    + apply Forall_forall. intros e _. split; [auto|]. apply Forall_forall. auto.
  - destruct X as [Xk X]. destruct j; auto. split.
    + intros x s s' _ _. destruct k as [| | |i|]; try contradiction; cbn [key_text]; congruence.
    + apply Forall_forall. intros e _. split; [auto|]. apply Forall_forall. auto.
Qed.
(** A derived conversion sees the order only if a field's conversion does. *)
Fixpoint fields_eqv (R : forall f, f_type f -> f_type f -> Prop) (fs : list field) : struct_value fs -> struct_value fs -> Prop :=
  match fs with
  | [] => fun _ _ => True
  | f :: r => fun x y => (if f_ignored f then fst x = fst y else R f (fst x) (fst y)) /\ fields_eqv R r (snd x) (snd y)
  end.
Theorem derived_conversions_ignore_order name fs (R : forall f, f_type f -> f_type f -> Prop) :
  (forall f, In f fs -> forall j j', legal j -> same j j' -> agree (R f) (from_json (f_codec f) j) (from_json (f_codec f) j')) ->
  forall j j', legal j -> same j j' -> agree (fields_eqv R fs) (from_json (derived name fs) j) (from_json (derived name fs) j').
Proof.
  intros H j j' L S. destruct S as [o p o' P F| | | | |]; cbn [derived from_json]; try constructor. inversion L as [? N Lo| | | | |]; subst.
  pose proof (same_get o o' N (same_obj _ _ _ P F)) as G. clear P F p. induction fs as [|f fs IH]; cbn [read_fields]; [now constructor|].
  specialize (IH (fun f Hf => H f (or_intror Hf))). cbn [fields_eqv]. destruct (f_ignored f) eqn:I.
  - inversion IH; subst; cbn [bind]; constructor; auto.
  - specialize (G (f_key f)). destruct (hm_get (f_key f) o) as [[v l]|] eqn:E, (hm_get (f_key f) o') as [[v' l']|]; try contradiction; [|constructor].
    cbn [fst] in G. destruct G as [G _]. assert (Lv : legal v) by (apply hm_get_In in E; rewrite Forall_forall in Lo; now apply Lo in E).
    pose proof (H f (or_introl eq_refl) v v' Lv G) as A. inversion A; subst; cbn [bind]; [|constructor]. inversion IH; subst; cbn [bind]; constructor; auto.
Qed.
(** What [decode] and [get] give for a text: the same on every run, except for what is said above. *)
Theorem decoding_ignores_order order order' t s : reorders order -> reorders order' -> scalar_str s = true ->
  (mapless t -> agree (equal t) (decode order (codec_of t) s) (decode order' (codec_of t) s)) /\
  ((exists x, decode order (codec_of t) s = Ok x) <-> (exists y, decode order' (codec_of t) s = Ok y)) /\
  (exact_keys t -> forall x y, decode order (codec_of t) s = Ok x -> decode order' (codec_of t) s = Ok y -> equal t x y).
Proof.
  intros O O' Hs. unfold decode, convert. destruct (parse s) as [j|e| |] eqn:E; cbn [bind].
  2:{ split; [constructor|]. split; [split; intros [x X]; discriminate|discriminate]. }
  2-3: exfalso; destruct (parse_is_total s) as [[? X]|[? X]]; congruence.
  assert (L : legal (order j)).
  { apply (same_legal j); auto. apply wf_legal. eapply parsed_values_well_formed; eauto. }
  assert (S : same (order j) (order' j)) by (eapply same_trans; [apply same_sym, O|apply O']).
  split; [|split].
  - intros M. now apply mapless_conversions_ignore_order.
  - now apply conversions_ignore_order.
  - intros X x y Ex Ey. eapply conversions_ignore_order; eauto. now apply exact_keys_are_unambiguous.
Qed.
(** The order can be seen: an object read as a map whose keys 1 and +1 are read as the same number, and an object with two faults. *)
Theorem order_is_visible_in_colliding_keys_and_errors :
  (exists j j', legal j /\ same j j' /\ let c := codec_of (TMap (KInt I32) TBool) in
     from_json c j = Ok [(1%Z, true)] /\ from_json c j' = Ok [(1%Z, false)]) /\
  (exists j j', legal j /\ same j j' /\ let c := codec_of (TMap KString TBool) in
     exists e e', from_json c j = Err e /\ from_json c j' = Err e' /\ e <> e').
Proof.
  split.
  - set (a := (lit "1", (JBool false, @nil json))). set (b := (lit "+1", (JBool true, @nil json))). exists (JObj [a; b]), (JObj [b; a]).
    split; [repeat constructor; cbn; intuition discriminate|]. split; [|split; reflexivity].
    eapply same_obj; [apply perm_swap|]. repeat constructor.
  - set (a := (lit "a", (JNull, @nil json))). set (b := (lit "b", (JArr [], @nil json))). exists (JObj [a; b]), (JObj [b; a]).
    split; [repeat constructor; cbn; intuition discriminate|]. split; [eapply same_obj; [apply perm_swap|]; repeat constructor|].
    eexists _, _. split; [reflexivity|]. split; [reflexivity|]. intros E. vm_compute in E. discriminate.
Qed.
Example order_hypotheses_met : let t := TMap KString (TVec (TPairs (KInt U8) TF64)) in
  let j := JObj [(lit "b", (JArr [JObj [(lit "7", (JNum (f64_of_Z 1), [JNum (f64_of_Z 2)])); (lit "10", (JNum (f64_of_Z 3), []))]], [])); (lit "a", (JArr [], []))] in
  legal j /\ unambiguous t j /\ exists x, from_json (codec_of t) j = Ok x /\ List.length x = 2%nat.
Proof.
  cbv zeta. split; [|split].
  - repeat (constructor; cbn); intuition discriminate.
  - cbn [unambiguous map fst snd]. split; [cbn [key_text]; congruence|].
    assert (forall x s s', In s [lit "7"; lit "10"] -> In s' [lit "7"; lit "10"] -> key_text (KInt U8) s x -> key_text (KInt U8) s' x -> s = s').
    { intros x s s' H H' R R'. apply keys_are_read_as_these_texts in R, R'. cbn [In] in H, H'. destruct H as [<-|[<-|[]]], H' as [<-|[<-|[]]]; auto; vm_compute in R, R'; congruence. }
    repeat constructor; auto.
  - eexists. split; [vm_compute; reflexivity|reflexivity].
Qed.

(** Conversions: containers. *)
From Verif Require Import Base F64 Json Convert SpecNumber SpecValue SpecConvert MapProofs CanonProofs.
From Coq Require Import Permutation Floats.SpecFloat.
Open Scope N_scope.

Lemma collect_ok {A B} (f : A -> res B) l bs : collect f l = Ok bs <-> Forall2 (fun a b => f a = Ok b) l bs.
Proof.
  revert bs. induction l as [|a l IH]; intros bs; cbn.
  - split; [intros H; inversion H; constructor|intros H; inversion H; reflexivity].
  - destruct (f a) as [b|e| |] eqn:E; cbn; try (split; [discriminate|intros H; inversion H; congruence]).
    destruct (collect f l) as [cs|e| |] eqn:C; cbn.
    + split.
      * intros H. inversion H; subst. constructor; auto. now apply IH.
      * intros H. inversion H as [|? b' ? bs' Hb Hl]; subst. rewrite E in Hb. inversion Hb; subst. apply IH in Hl. congruence.
    + split; [discriminate|]. intros H. inversion H as [|? b' ? bs' Hb Hl]; subst. apply IH in Hl. discriminate.
    + split; [discriminate|]. intros H. inversion H as [|? b' ? bs' Hb Hl]; subst. apply IH in Hl. discriminate.
    + split; [discriminate|]. intros H. inversion H as [|? b' ? bs' Hb Hl]; subst. apply IH in Hl. discriminate.
Qed.
Lemma collect_err {A B} (f : A -> res B) l e : collect f l = Err e <-> first_failure f l e.
Proof.
  induction l as [|a l IH]; cbn.
  - split; [discriminate|]. intros (l1 & x & l2 & E & _). now destruct l1.
  - split.
    + destruct (f a) as [b|e'| |] eqn:E; cbn; try discriminate.
      * destruct (collect f l) as [cs|e'| |]; cbn; try discriminate. intros H; inversion H; subst. destruct IH as [IH _].
        destruct (IH eq_refl) as (l1 & x & l2 & -> & Fx & F1). exists (a :: l1), x, l2. split; auto. split; auto. constructor; eauto.
      * intros H; inversion H; subst. exists [], a, l. auto.
    + intros (l1 & x & l2 & E & Fx & F1). destruct l1 as [|b l1]; inversion E; subst.
      * now rewrite Fx.
      * inversion F1 as [|? ? [y Hy] F1']; subst. rewrite Hy. cbn. assert (C : collect f (l1 ++ x :: l2) = Err e) by (apply IH; exists l1, x, l2; auto).
        now rewrite C.
Qed.
Lemma collect_total {A B} (f : A -> res B) l : (forall a, In a l -> (exists b, f a = Ok b) \/ (exists e, f a = Err e)) ->
  (exists bs, collect f l = Ok bs) \/ (exists e, collect f l = Err e).
Proof.
  induction l as [|a l IH]; intros H; cbn; eauto. destruct (H a (or_introl eq_refl)) as [[b ->]|[e ->]]; cbn; eauto.
  destruct IH as [[bs ->]|[e ->]]; cbn; eauto. intros x Hx. apply H. now right.
Qed.

(** * Vec *)
Lemma vec_round_trip {T} (c : codec T) eqv l : Forall (round_trips c eqv) l -> round_trips (c_vec c) (Forall2 eqv) l.
Proof.
  intros H j Hj. cbn in Hj. inversion Hj as [|v v' Hv| | | |]; subst. cbn.
  assert (E : exists bs, Forall2 (fun a b => from_json c a = Ok b) v' bs /\ Forall2 eqv l bs).
  { clear Hj. revert v' Hv. induction H as [|x l Hx H IH]; intros v' Hv; inversion Hv as [|? y ? w Hy Hw]; subst.
    - exists []. auto.
    - destruct (Hx _ Hy) as (b & Eb & Qb). destruct (IH _ Hw) as (bs & F1 & F2). exists (b :: bs). auto. }
  destruct E as (bs & F1 & F2). exists bs. split; auto. now apply collect_ok.
Qed.
(** * Option *)
Lemma option_round_trip {T} (c : codec T) eqv x : round_trips c eqv x -> to_json c x <> JNull -> round_trips (c_option c) (option_eqv eqv) (Some x).
Proof.
  intros H N j Hj. cbn in Hj. destruct (H j Hj) as (y & Ey & Qy). exists (Some y). split; auto. cbn.
  assert (Nj : j <> JNull). { intros ->. apply N. inversion Hj; auto. }
  destruct j; try congruence; now rewrite Ey.
Qed.

(** * Hash maps *)
Lemma hm_insert_perm {V} k (v : V) m : ~ In k (map fst m) -> Permutation (hm_insert k v m) ((k, v) :: m).
Proof.
  induction m as [|[k' v'] m IH]; intros H; cbn; auto. destruct (str_cmp k k') eqn:E; auto.
  - apply str_cmp_eq in E. subst. exfalso. apply H. now left.
  - rewrite IH; [apply perm_swap|]. intros C. apply H. now right.
Qed.
Lemma fold_insert_perm {A V} (f : A -> str) (g : A -> V) l : forall o, NoDup (map f l) -> (forall a, In a l -> ~ In (f a) (map fst o)) ->
  Permutation (fold_left (fun o a => hm_insert (f a) (g a) o) l o) (map (fun a => (f a, g a)) l ++ o).
Proof.
  induction l as [|a l IH]; intros o N D; cbn; auto. inversion N as [|? ? Na N']; subst.
  assert (P : Permutation (hm_insert (f a) (g a) o) ((f a, g a) :: o)) by (apply hm_insert_perm, D; now left).
  rewrite IH; auto.
  - rewrite P. symmetry. apply Permutation_middle.
  - intros b Hb C. eapply Permutation_in in C; [|apply Permutation_map, P]. destruct C as [C|C].
    + apply Na. cbn in C. rewrite C. now apply in_map.
    + apply (D b); auto. now right.
Qed.
Lemma shows_injective {K} (kc : key_codec K) ks : Forall (reads_back kc) ks -> NoDup ks -> NoDup (map (show kc) ks).
Proof.
  intros R N. induction N as [|k ks Hk N IH]; cbn; [constructor|]. inversion R as [|? ? Rk Rks]; subst. constructor; auto.
  intros C. apply in_map_iff in C as (k' & E & Hk'). rewrite Forall_forall in Rks. specialize (Rks _ Hk'). unfold reads_back in *. rewrite E in Rks. congruence.
Qed.
Lemma map_insert_fresh {K V} (eqb : K -> K -> bool) k (v : V) m : decides eqb -> ~ In k (map fst m) -> map_insert eqb k v m = m ++ [(k, v)].
Proof.
  intros D. induction m as [|[k' v'] m IH]; intros H; cbn; auto. destruct (eqb k k') eqn:E.
  - apply D in E. subst. exfalso. apply H. now left.
  - rewrite IH; auto. intros C. apply H. now right.
Qed.

Section Keyed.
  Context {K V : Type} (eqb : K -> K -> bool) (D : decides eqb).
  Lemma eqb_refl' k : eqb k k = true. Proof. now apply D. Qed.
  Lemma eqb_neq k k' : k <> k' -> eqb k k' = false.
  Proof. intros H. destruct (eqb k k') eqn:E; auto. apply D in E. contradiction. Qed.
  Lemma at_key_app k (a b : list (K * V)) : at_key eqb k (a ++ b) = at_key eqb k a ++ at_key eqb k b.
  Proof. unfold at_key. now rewrite filter_app, map_app. Qed.
  Lemma at_key_cons k k' v (l : list (K * V)) : at_key eqb k ((k', v) :: l) = if eqb k k' then v :: at_key eqb k l else at_key eqb k l.
  Proof. unfold at_key. cbn. now destruct (eqb k k'). Qed.
  Lemma at_key_notin k (l : list (K * V)) : ~ In k (map fst l) -> at_key eqb k l = [].
  Proof.
    induction l as [|[k' v] l IH]; intros H; auto. rewrite at_key_cons, eqb_neq.
    - apply IH. intros C; apply H; now right.
    - intros ->. apply H. now left.
  Qed.
  Lemma at_key_in k v (m : list (K * V)) : is_map m -> In (k, v) m -> at_key eqb k m = [v].
  Proof.
    unfold is_map. induction m as [|[k' v'] m IH]; intros N H; [destruct H|]. inversion N as [|? ? Nk N']; subst. rewrite at_key_cons. destruct H as [E|H].
    - inversion E; subst. rewrite eqb_refl'. now rewrite at_key_notin.
    - rewrite eqb_neq; auto. intros ->. apply Nk. cbn. change k' with (fst (k', v)). now apply in_map.
  Qed.
  Lemma at_key_In k v (l : list (K * V)) : In v (at_key eqb k l) <-> In (k, v) l.
  Proof.
    unfold at_key. rewrite in_map_iff. split.
    - intros ([k' v'] & E & H). cbn in E; subst. apply filter_In in H as [H E]. cbn in E. apply D in E. now subst.
    - intros H. exists (k, v). split; auto. apply filter_In. split; auto. apply eqb_refl'.
  Qed.
  Lemma lookup_some k v (m : list (K * V)) : is_map m -> (lookup eqb k m = Some v <-> In (k, v) m).
  Proof.
    intros N. unfold lookup. split.
    - destruct (at_key eqb k m) as [|w r] eqn:E; [discriminate|]. intros H; inversion H; subst. apply at_key_In. rewrite E. now left.
    - intros H. now rewrite (at_key_in k v m N H).
  Qed.
End Keyed.

Definition kv_eqv {K V} (eqv : V -> V -> Prop) (a b : K * V) : Prop := fst a = fst b /\ eqv (snd a) (snd b).
Lemma kv_keys {K V} (eqv : V -> V -> Prop) (q m : list (K * V)) : Forall2 (kv_eqv eqv) q m -> map fst q = map fst m.
Proof. induction 1 as [|a b q m [E _] H IH]; cbn; congruence. Qed.
Lemma kv_at_key {K V} eqb (eqv : V -> V -> Prop) k (q m : list (K * V)) : Forall2 (kv_eqv eqv) q m -> Forall2 eqv (at_key eqb k q) (at_key eqb k m).
Proof.
  induction 1 as [|[a x] [b y] q m [E Q] H IH]; [constructor|]. cbn in E, Q. subst. unfold at_key in *. cbn. destruct (eqb k b); cbn; auto.
Qed.
Lemma map_eqv_of {K V} (eqb : K -> K -> bool) eqv (m q m' : list (K * V)) : decides eqb -> is_map m -> Permutation m q -> Forall2 (kv_eqv eqv) q m' -> map_eqv eqb eqv m m'.
Proof.
  intros D N P F. assert (Nq : is_map q) by (unfold is_map; eapply Permutation_NoDup; [apply Permutation_map; eauto|auto]).
  split. { unfold is_map. rewrite <- (kv_keys _ _ _ F). exact Nq. }
  intros k. pose proof (kv_at_key eqb _ k _ _ F) as A.
  assert (E : lookup eqb k m = lookup eqb k q).
  { destruct (lookup eqb k m) as [v|] eqn:E1.
    - symmetry. apply lookup_some; auto. eapply Permutation_in; [exact P|]. now apply lookup_some in E1.
    - destruct (lookup eqb k q) as [v|] eqn:E2; auto. apply lookup_some in E2; auto. eapply Permutation_in in E2; [|symmetry; exact P].
      apply (lookup_some eqb D) in E2; auto. congruence. }
  rewrite E. unfold lookup. destruct A; cbn; auto.
Qed.
Lemma map_round_trip {K V} (eqb : K -> K -> bool) kc (c : codec V) eqv m : decides eqb -> is_map m ->
  Forall (fun kv => reads_back kc (fst kv) /\ round_trips c eqv (snd kv)) m -> round_trips (c_map eqb kc c) (map_eqv eqb eqv) m.
Proof.
  intros D N H j Hj. cbn in Hj. set (f := fun kv : K * V => (show kc (fst kv), (to_json c (snd kv), @nil json))).
  inversion Hj as [o p o' P F| | | | |]; subst.
  assert (P1 : Permutation (map f m) p).
  { etransitivity; [|exact P]. symmetry. etransitivity.
    - apply (fold_insert_perm (fun kv : K * V => show kc (fst kv)) (fun kv => (to_json c (snd kv), []))); [|auto].
      rewrite <- map_map. apply shows_injective; auto. apply Forall_map. revert H. apply Forall_impl. tauto.
    - rewrite app_nil_r. reflexivity. }
  apply Permutation_sym, Permutation_map_inv in P1 as (q & -> & Pq).
  assert (Hq : Forall (fun kv => reads_back kc (fst kv) /\ round_trips c eqv (snd kv)) q) by (eapply Permutation_Forall; eauto).
  assert (Nq : NoDup (map fst q)) by (eapply Permutation_NoDup; [apply Permutation_map; exact Pq|exact N]).
  assert (G : forall acc, (forall k, In k (map fst q) -> ~ In k (map fst acc)) -> exists m', map_of_entries eqb kc c o' acc = Ok (acc ++ m') /\ Forall2 (kv_eqv eqv) q m').
  { clear - D F Hq Nq. revert o' F. induction q as [|[k v] q IH]; intros o' F acc A; inversion F as [|? [mk [mj ml]] ? o2 (E1 & E2 & _) F2]; subst.
    - exists []. cbn. rewrite app_nil_r. auto.
    - cbn in E1, E2. inversion Hq as [|? ? [Rk Rv] Hq']; subst. inversion Nq as [|? ? Nk Nq']; subst. cbn in Rk, Rv. cbn [map_of_entries].
      destruct (Rv _ E2) as (v' & Ev & Qv). unfold read_key. rewrite Rk. cbn [bind]. rewrite Ev. cbn [bind].
      rewrite map_insert_fresh; auto; [|apply A; now left].
      destruct (IH Hq' Nq' _ F2 (acc ++ [(k, v')])) as (m' & Em & Fm).
      + intros k0 H0 C. rewrite map_app, in_app_iff in C. destruct C as [C|[C|[]]].
        * apply (A k0); auto. now right.
        * cbn in C. subst. contradiction.
      + exists ((k, v') :: m'). rewrite Em, <- app_assoc. split; auto. constructor; auto. split; auto. }
  destruct (G []) as (m' & Em & Fm); [auto|]. exists m'. split; [exact Em|]. eapply map_eqv_of; eauto.
Qed.

(** * Lists of pairs *)
Definition entry_values (e : entry) : list json := rev (snd (snd e)) ++ [fst (snd e)].
Definition pairs_object {K V} (kc : key_codec K) (c : codec V) (l : list (K * V)) (o : hmap) : hmap :=
  fold_left (fun o kv => object_insert o (show kc (fst kv)) (to_json c (snd kv))) l o.
Lemma str_dec : decides str_eqb. Proof. intros a b. apply str_eqb_eq. Qed.
Lemma pairs_object_spec {K V} (kc : key_codec K) (c : codec V) l : forall o, keys_sorted o = true ->
  keys_sorted (pairs_object kc c l o) = true /\
  forall s, match hm_get s (pairs_object kc c l o) with Some (v, r) => rev r ++ [v] | None => [] end =
    match hm_get s o with Some (v, r) => rev r ++ [v] | None => [] end ++ map (to_json c) (at_key str_eqb s (map (fun kv => (show kc (fst kv), snd kv)) l)).
Proof.
  induction l as [|[k v] l IH]; intros o S; cbn [pairs_object fold_left].
  - split; auto. intros s. cbn. now rewrite app_nil_r.
  - pose proof (object_insert_sorted o (show kc k) (to_json c v) S) as S1. destruct (IH _ S1) as [S2 G]. split; auto.
    intros s. unfold pairs_object in G. cbn [fst snd]. rewrite G. cbn [map fst snd]. rewrite at_key_cons.
    pose proof (object_insert_get o (show kc k) (to_json c v) s S) as H. destruct (str_eqb s (show kc k)) eqn:E.
    + apply str_eqb_eq in E. subst s. rewrite H. destruct (hm_get (show kc k) o) as [[w r]|]; cbn; rewrite <- ?app_assoc; reflexivity.
    + rewrite H. reflexivity.
Qed.
Lemma at_key_show {K V} (eqb : K -> K -> bool) (kc : key_codec K) (l : list (K * V)) k : decides eqb -> Forall (fun kv => reads_back kc (fst kv)) l -> reads_back kc k ->
  at_key str_eqb (show kc k) (map (fun kv => (show kc (fst kv), snd kv)) l) = at_key eqb k l.
Proof.
  intros D R Rk. induction R as [|[k' v] l Rk' R IH]; auto. cbn [map fst snd]. rewrite !at_key_cons, IH.
  destruct (eqb k k') eqn:E.
  - apply D in E. subst. now rewrite str_eqb_refl.
  - destruct (str_eqb (show kc k) (show kc k')) eqn:E2; auto. apply str_eqb_eq in E2. unfold reads_back in *. cbn in Rk'. rewrite E2 in Rk.
    assert (k = k') by congruence. subst. rewrite (eqb_refl' eqb D) in E. discriminate.
Qed.
Lemma pairs_entries {K V} (eqb : K -> K -> bool) (kc : key_codec K) (c : codec V) l : decides eqb -> Forall (fun kv => reads_back kc (fst kv)) l ->
  let o := pairs_object kc c l [] in
  NoDup (map fst o) /\
  (forall e, In e o -> exists k, In k (map fst l) /\ fst e = show kc k /\ reads_back kc k /\ entry_values e = map (to_json c) (at_key eqb k l)) /\
  (forall k, In k (map fst l) -> exists e, In e o /\ fst e = show kc k).
Proof.
  intros D R o. destruct (pairs_object_spec kc c l [] eq_refl) as [S G]. fold o in S, G. cbn [hm_get app] in G.
  split; [now apply keys_sorted_NoDup|]. split.
  - intros [s [v r]] He. cbn [fst]. specialize (G s). rewrite (hm_In_get _ _ _ S He) in G.
    assert (Hne : exists x, In x (at_key str_eqb s (map (fun kv => (show kc (fst kv), snd kv)) l))).
    { destruct (at_key str_eqb s _) as [|x w]; [|exists x; now left]. cbn in G. now destruct (rev r). }
    destruct Hne as [x Hx]. apply (at_key_In str_eqb str_dec) in Hx. apply in_map_iff in Hx as ([k y] & E & Hin). cbn in E. inversion E; subst.
    rewrite Forall_forall in R. pose proof (R _ Hin) as Rk. cbn in Rk. exists k. split; [change k with (fst (k, x)); now apply in_map|]. split; auto. split; auto.
    unfold entry_values. cbn [fst snd]. rewrite G. f_equal. apply at_key_show; auto. now apply Forall_forall.
  - intros k Hk. apply in_map_iff in Hk as ([k' v] & E & Hin). cbn in E. subst k'. specialize (G (show kc k)).
    destruct (hm_get (show kc k) o) as [[w r]|] eqn:Eg.
    + exists (show kc k, (w, r)). split; auto. now apply hm_get_In.
    + exfalso. rewrite (at_key_show eqb) in G; auto; [|rewrite Forall_forall in R; apply (R _ Hin)].
      assert (In v (at_key eqb k l)) by now apply at_key_In. destruct (at_key eqb k l); [auto|discriminate].
Qed.
Lemma entry_values_same e e' : same_entry e e' -> Forall2 same (entry_values e) (entry_values e').
Proof.
  intros (_ & V & L). unfold entry_values. apply Forall2_app; [|auto]. clear V. induction L; cbn; auto. apply Forall2_app; auto.
Qed.
Lemma pairs_of_entry_ok {K V} (kc : key_codec K) (c : codec V) eqv k vals e : reads_back kc k -> fst e = show kc k ->
  Forall2 same (map (to_json c) vals) (entry_values e) -> Forall (round_trips c eqv) vals ->
  exists pl, pairs_of_entry kc c e = Ok pl /\ Forall (fun kv => fst kv = k) pl /\ Forall2 eqv vals (map snd pl).
Proof.
  intros R E S H. unfold pairs_of_entry. fold (entry_values e).
  assert (Rk : read_key kc (fst e) = Ok k) by (unfold read_key; now rewrite E, R).
  revert S. generalize (entry_values e). induction H as [|x vals Hx H IH]; intros js S; inversion S as [|? j ? js' Sj Sjs]; subst.
  - exists []. cbn. auto.
  - destruct (IH _ Sjs) as (pl & Ep & Fp & Qp). destruct (Hx _ Sj) as (y & Ey & Qy). exists ((k, y) :: pl). cbn [collect]. rewrite Ep, Rk. cbn [bind]. rewrite Ey. cbn. auto.
Qed.
Lemma pairs_round_trip {K V} (eqb : K -> K -> bool) kc (c : codec V) eqv l : decides eqb ->
  Forall (fun kv => reads_back kc (fst kv) /\ round_trips c eqv (snd kv)) l -> round_trips (c_pairs kc c) (pairs_eqv eqb eqv) l.
Proof.
  intros D H j Hj. cbn in Hj. fold (pairs_object kc c l []) in Hj.
  assert (R : Forall (fun kv => reads_back kc (fst kv)) l) by (revert H; apply Forall_impl; tauto).
  destruct (pairs_entries eqb kc c l D R) as (N & A & B). cbn zeta in *.
  inversion Hj as [o p o' P F| | | | |]; subst.
  assert (A' : forall e, In e p -> exists k, In k (map fst l) /\ fst e = show kc k /\ reads_back kc k /\ entry_values e = map (to_json c) (at_key eqb k l)).
  { intros e He. apply A. eapply Permutation_in; [symmetry; exact P|exact He]. }
  assert (N' : NoDup (map fst p)) by (eapply Permutation_NoDup; [apply Permutation_map; exact P|exact N]).
  assert (G : exists ls, Forall2 (fun e' pl => pairs_of_entry kc c e' = Ok pl) o' ls /\
     Forall2 (fun e pl => exists k, In k (map fst l) /\ fst e = show kc k /\ reads_back kc k /\ Forall (fun kv => fst kv = k) pl /\ Forall2 eqv (at_key eqb k l) (map snd pl)) p ls).
  { clear - F A' H D. induction F as [|e e' p o' Se F IH].
    - exists []. auto.
    - destruct IH as (ls & F1 & F2); [intros; apply A'; now right|]. destruct (A' e) as (k & Hk & Ek & Rk & Ev); [now left|].
      destruct (pairs_of_entry_ok kc c eqv k (at_key eqb k l) e') as (pl & Ep & Fp & Qp); auto.
      + destruct Se as (E & _). congruence.
      + rewrite <- Ev. now apply entry_values_same.
      + apply Forall_forall. intros x Hx. apply (at_key_In eqb D) in Hx. rewrite Forall_forall in H. now apply (H (k, x)).
      + exists (pl :: ls). split; constructor; auto. exists k. auto. }
  destruct G as (ls & F1 & F2). exists (List.concat ls). split.
  { cbn. assert (E : collect (pairs_of_entry kc c) o' = Ok ls) by now apply collect_ok. now rewrite E. }
  assert (Z : forall k pl, Forall (fun kv : K * V => fst kv = k) pl -> at_key eqb k pl = map snd pl).
  { intros k pl Hp. unfold at_key. f_equal. induction Hp as [|[a b] pl Ea Hp IH]; auto. cbn in *. subst. rewrite (eqb_refl' eqb D). congruence. }
  assert (Zn : forall k k' pl, k <> k' -> Forall (fun kv : K * V => fst kv = k') pl -> at_key eqb k pl = []).
  { intros k k' pl Hne Hp. apply (at_key_notin eqb D). intros C. apply in_map_iff in C as (kv & E & Hin). rewrite Forall_forall in Hp. apply Hp in Hin. congruence. }
  assert (None : forall k (p : hmap) (ls : list (list (K * V))), Forall2 (fun (e : entry) pl => exists k, In k (map fst l) /\ fst e = show kc k /\ reads_back kc k /\ Forall (fun kv => fst kv = k) pl /\ Forall2 eqv (at_key eqb k l) (map snd pl)) p ls ->
     (forall e, In e p -> reads_back kc k -> fst e <> show kc k) -> reads_back kc k \/ ~ In k (map fst l) -> at_key eqb k (List.concat ls) = []).
  { clear - Zn. intros k p ls F Hn Hk. induction F as [|e pl p ls (k' & Hk' & Ek' & Rk' & Fp & _) F IH]; auto. cbn [List.concat]. rewrite at_key_app, (Zn k k'); auto.
    - cbn. apply IH. intros; apply Hn; auto. now right.
    - intros ->. destruct Hk as [Hk|Hk]; [|contradiction]. apply (Hn e); auto. now left. }
  intros k. destruct (in_dec (fun a b => match Bool.bool_dec (eqb a b) true with left e => left (proj1 (D a b) e) | right n => right (fun e => n (proj2 (D a b) e)) end) k (map fst l)) as [Hk|Hk].
  - assert (Rk : reads_back kc k). { apply in_map_iff in Hk as (kv & <- & Hin). rewrite Forall_forall in R. auto. }
    destruct (B k Hk) as (e & He & Ee). eapply Permutation_in in He; [|exact P].
    clear - F2 N' He Ee Rk Z None Zn. induction F2 as [|e1 pl p ls (k' & Hk' & Ek' & Rk' & Fp & Qp) F2 IH]; [destruct He|]. cbn [List.concat]. rewrite at_key_app.
    inversion N' as [|? ? N1 N2]; subst. destruct He as [->|He].
    + assert (k' = k) by (unfold reads_back in *; congruence). subst k'. rewrite (Z k pl Fp). rewrite (None k p ls F2); [now rewrite app_nil_r| |auto].
      intros e2 He2 _ E2. apply N1. rewrite Ee, <- E2. now apply in_map.
    + rewrite (Zn k k' pl); auto. intros ->. apply N1. rewrite Ek', <- Ee. now apply in_map.
  - rewrite (at_key_notin eqb D k l Hk). rewrite (None k p ls F2); auto. intros e He Rk E. destruct (A' e He) as (k' & Hk' & Ek' & Rk' & _).
    unfold reads_back in *. assert (k = k') by congruence. now subst.
Qed.

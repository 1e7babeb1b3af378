(** C54: [==] on values. *)
From Verif Require Import Base F64 Json Parse Print MapProofs SpecGrammar SpecNumber FloatProofs DecProofs SpecValue CanonProofs PropsPrint PropsParse Equality SpecEquality.
From Coq Require Import Permutation Bool Reals Floats.SpecFloat Lra Lia.
Local Open Scope N_scope.
Notation is_finite := F64.is_finite.

(** ** Numbers *)
Lemma sf_real_sign s m e : (sf_real (S754_finite s m e) < 0 <-> s = true)%R /\ (sf_real (S754_finite s m e) > 0 <-> s = false)%R.
Proof.
  assert (0 < IZR (Zpos m) * powerRZ 2 e)%R.
  { apply Rmult_lt_0_compat; [now apply IZR_lt|apply powerRZ_lt; lra]. }
  unfold sf_real. rewrite Rmult_assoc. destruct s; split; split; intros; try discriminate; auto; lra.
Qed.
Lemma SFeqb_spec f g : valid_f64 f = true -> valid_f64 g = true -> SFeqb f g = true <-> equal_numbers f g.
Proof.
  intros Vf Vg. unfold equal_numbers. split.
  - intros H. destruct f as [s|s| |s m e], g as [s'|s'| |s' m' e']; try (discriminate H); try (destruct s'; discriminate H); try (destruct s; discriminate H).
    + left. auto.
    + right. destruct s, s'; try discriminate H; eauto.
    + left. split; [auto|split; [auto|]]. assert (E : s = s' /\ m = m' /\ e = e'); [|now destruct E as (-> & -> & ->)].
      unfold SFeqb, SFcompare in H. destruct s, s'; try discriminate; destruct (Z.compare_spec e e'); try discriminate;
        destruct (Pos.compare_cont Eq m m') eqn:C; try discriminate; apply Pos.compare_eq in C; subst; auto.
  - intros [(Ff & Fg & E)|(s & -> & ->)]; [|destruct s; reflexivity].
    destruct f as [s|s| |s m e], g as [s'|s'| |s' m' e']; try discriminate.
    + reflexivity.
    + destruct (sf_real_sign s' m' e') as [A B]. change (sf_real (S754_zero s)) with 0%R in E. rewrite <- E in A, B.
      destruct s'; [destruct A as [_ A]; specialize (A eq_refl)|destruct B as [_ B]; specialize (B eq_refl)]; lra.
    + destruct (sf_real_sign s m e) as [A B]. change (sf_real (S754_zero s')) with 0%R in E. rewrite E in A, B.
      destruct s; [destruct A as [_ A]; specialize (A eq_refl)|destruct B as [_ B]; specialize (B eq_refl)]; lra.
    + assert (S : s = s').
      { destruct (sf_real_sign s m e) as [A B], (sf_real_sign s' m' e') as [A' B']. rewrite E in A, B. destruct s, s'; auto; exfalso; intuition (try discriminate; lra). }
      assert (X : S754_finite s m e = S754_finite s' m' e').
      { apply (sf_unique 53 1024); auto. }
      inversion X. unfold SFeqb, SFcompare. rewrite Z.compare_refl. change (Pos.compare_cont Eq m' m') with (Pos.compare m' m'). rewrite Pos.compare_refl. now destruct s'.
Qed.
Lemma equal_numbers_unsigned f g : valid_f64 f = true -> valid_f64 g = true -> equal_numbers f g <-> f <> S754_nan /\ unsigned_num f = unsigned_num g.
Proof.
  intros Vf Vg. rewrite <- SFeqb_spec by auto. split.
  - intros H. destruct f as [s|s| |s m e], g as [s'|s'| |s' m' e']; try (discriminate H); try (destruct s'; discriminate H); try (destruct s; discriminate H);
      (split; [discriminate|]).
    + reflexivity.
    + destruct s, s'; try discriminate H; reflexivity.
    + unfold SFeqb, SFcompare in H. destruct s, s'; try discriminate; destruct (Z.compare_spec e e'); try discriminate;
        destruct (Pos.compare_cont Eq m m') eqn:C; try discriminate; apply Pos.compare_eq in C; subst; auto.
  - intros [N E]. destruct f as [s|s| |s m e], g as [s'|s'| |s' m' e']; try discriminate E; try congruence.
    + reflexivity.
    + inversion E. now destruct s'.
    + inversion E. unfold SFeqb, SFcompare. rewrite Z.compare_refl. change (Pos.compare_cont Eq m' m') with (Pos.compare m' m'). rewrite Pos.compare_refl. now destruct s'.
Qed.

(** ** Values *)
Lemma list_eqb_spec (P : json -> json -> Prop) l : forall l', (forall a b, In a l -> In b l' -> json_eqb a b = true <-> P a b) ->
  list_eqb json_eqb l l' = true <-> Forall2 P l l'.
Proof.
  induction l as [|a l IH]; intros [|b l'] H; cbn [list_eqb].
  - split; auto.
  - split; [discriminate|inversion 1].
  - split; [discriminate|inversion 1].
  - cbn. change ((fix go (l l' : list json) : bool := match l, l' with [], [] => true | x :: r, y :: r' => json_eqb x y && go r r' | _, _ => false end) l l')
      with (list_eqb json_eqb l l'). rewrite andb_true_iff, IH by (intros; apply H; now right). rewrite H by (now left). split.
    + intros [A B]. now constructor.
    + inversion 1; auto.
Qed.
Lemma hm_get_NoDup {V} (o : list (str * V)) k v : NoDup (map fst o) -> hm_get k o = Some v <-> In (k, v) o.
Proof.
  induction o as [|[k' v'] o IH]; cbn [hm_get map fst In]; [split; [discriminate|tauto]|]. intros N. inversion N as [|? ? Hn Hd]; subst.
  destruct (str_eqb k k') eqn:E.
  - apply str_eqb_eq in E. subst. split; [intros H; inversion H; auto|]. intros [H|H]; [now inversion H|]. elim Hn. change k' with (fst (k', v)). now apply in_map.
  - rewrite IH by auto. split; [tauto|]. intros [H|H]; auto. inversion H; subst. rewrite (proj2 (str_eqb_eq k k) eq_refl) in E. discriminate.
Qed.
Lemma hm_get_none {V} (o : list (str * V)) k : hm_get k o = None <-> ~ In k (map fst o).
Proof.
  induction o as [|[k' v'] o IH]; cbn [hm_get map fst In]; [tauto|]. destruct (str_eqb k k') eqn:E.
  - apply str_eqb_eq in E. subst. split; [discriminate|]. intros H. elim H. now left.
  - rewrite IH. split; [|tauto]. intros H [X|X]; [|tauto]. subst. rewrite (proj2 (str_eqb_eq k k) eq_refl) in E. discriminate.
Qed.
(** [a == b] computes exactly the specified equality. *)
Theorem equality_decides a : forall b, legal a -> legal b -> json_eqb a b = true <-> equal a b.
Proof.
  induction a as [o IH|v IH|s|f|b0|] using json_ind; intros b La Lb.
  - inversion La as [? No Fo| | | | |]; subst. destruct b as [o'|v'|s'|f'|b'|]; try (split; [discriminate|inversion 1]).
    inversion Lb as [? No' Fo'| | | | |]; subst. cbn [json_eqb]. rewrite andb_true_iff, Nat.eqb_eq, forallb_forall.
    assert (Q : forall k v l v' l', In (k, (v, l)) o -> In (k, (v', l')) o' -> json_eqb v v' && list_eqb json_eqb l l' = true <-> equal v v' /\ Forall2 equal l l').
    { intros k v l v' l' H H'. rewrite Forall_forall in IH, Fo, Fo'. specialize (IH _ H). destruct (Fo _ H) as (_ & Lv & Ll), (Fo' _ H') as (_ & Lv' & Ll').
      destruct IH as [IHv IHl]. cbn [fst snd] in *. rewrite andb_true_iff, IHv by auto. rewrite (list_eqb_spec equal); [tauto|].
      rewrite Forall_forall in IHl, Ll, Ll'. intros; apply IHl; auto. }
    split.
    + intros [HL HA].
      assert (Inc : forall k, In k (map fst o) -> In k (map fst o')).
      { intros k H. apply in_map_iff in H. destruct H as ([k0 [v l]] & <- & Hin). specialize (HA _ Hin). cbn [fst snd] in *.
        destruct (hm_get k0 o') as [[v' l']|] eqn:G; [|discriminate]. apply hm_get_NoDup in G; auto. change k0 with (fst (k0, (v', l'))). now apply in_map. }
      constructor.
      * intros k. split; [apply Inc|]. apply (NoDup_length_incl No); [rewrite !map_length; lia|exact Inc].
      * intros k v l v' l' H H'. apply (Q k v l v' l'); auto. specialize (HA _ H). cbn [fst snd] in HA. apply hm_get_NoDup in H'; auto. rewrite H' in HA. exact HA.
    + inversion 1 as [? ? HK HV| | | | |]; subst. split.
      * rewrite <- (map_length fst o), <- (map_length fst o'). apply Permutation_length. now apply NoDup_Permutation.
      * intros [k [v l]] Hin. cbn [fst snd]. assert (Hk : In k (map fst o')) by (apply HK; change k with (fst (k, (v, l))); now apply in_map).
        apply in_map_iff in Hk. destruct Hk as ([k0 [v' l']] & <- & Hin'). cbn [fst] in *. rewrite (proj2 (hm_get_NoDup o' k0 (v', l') No') Hin').
        apply (Q k0 v l v' l'); auto. eapply HV; eauto.
  - inversion La as [|? Fv| | | |]; subst. destruct b as [o'|v'|s'|f'|b'|]; try (split; [discriminate|inversion 1]).
    inversion Lb as [|? Fv'| | | |]; subst. cbn [json_eqb]. rewrite (list_eqb_spec equal).
    + split; [now constructor|inversion 1; auto].
    + rewrite Forall_forall in IH, Fv, Fv'. intros; apply IH; auto.
  - destruct b as [o'|v'|s'|f'|b'|]; try (split; [discriminate|inversion 1]). cbn. rewrite str_eqb_eq. split; [intros ->; constructor|now inversion 1].
  - inversion La; inversion Lb; subst; try (split; [discriminate|inversion 1]; fail). cbn. rewrite SFeqb_spec by auto. split; [now constructor|now inversion 1].
  - destruct b as [o'|v'|s'|f'|b'|]; try (split; [discriminate|inversion 1]). cbn. rewrite eqb_true_iff. split; [intros ->; constructor|now inversion 1].
  - destruct b as [o'|v'|s'|f'|b'|]; try (split; [discriminate|inversion 1]). split; [constructor|reflexivity].
Qed.

(** ** It is an equivalence on values without NaN. *)
Lemma Forall2_sym_in (l : list json) : Forall (fun a => forall b, equal a b -> equal b a) l -> forall l', Forall2 equal l l' -> Forall2 equal l' l.
Proof. intros H. induction H; intros l' F; inversion F; subst; constructor; auto. Qed.
Lemma equal_sym a : forall b, equal a b -> equal b a.
Proof.
  induction a as [o IH|v IH|s|f|b0|] using json_ind; intros b H; inversion H as [o0 o' HK HV|? ? HF| |? g HN| |]; subst; try constructor; auto.
  - intros k. now rewrite HK.
  - intros k v l v' l' Hin Hin'. destruct (HV _ _ _ _ _ Hin' Hin) as [E F]. rewrite Forall_forall in IH. destruct (IH _ Hin') as [A B]. cbn [fst snd] in *.
    split; [auto|now apply Forall2_sym_in].
  - now apply Forall2_sym_in.
  - destruct HN as [(A & B & C)|(s & -> & ->)]; [left; auto|right; eauto].
Qed.
Lemma Forall2_trans_in (l : list json) : Forall (fun a => forall b c, equal a b -> equal b c -> equal a c) l ->
  forall l' l'', Forall2 equal l l' -> Forall2 equal l' l'' -> Forall2 equal l l''.
Proof. intros H. induction H; intros l' l'' F F'; inversion F; subst; inversion F'; subst; constructor; eauto. Qed.
Lemma equal_trans a : forall b c, equal a b -> equal b c -> equal a c.
Proof.
  induction a as [o IH|v IH|s|f|b0|] using json_ind; intros b c H H2; inversion H as [o0 o' HK HV|? ? HF| |? g HN| |]; subst;
    inversion H2 as [o1 o2 HK' HV'|? ? HF'| |? g' HN'| |]; subst; try constructor; auto.
  - intros k. now rewrite HK.
  - intros k v l v2 l2 Hin Hin2. assert (Hk : In k (map fst o')) by (apply HK; change k with (fst (k, (v, l))); now apply in_map).
    apply in_map_iff in Hk. destruct Hk as ([k0 [v1 l1]] & <- & Hin1). cbn [fst] in *.
    destruct (HV _ _ _ _ _ Hin Hin1) as [E F], (HV' _ _ _ _ _ Hin1 Hin2) as [E' F']. rewrite Forall_forall in IH. destruct (IH _ Hin) as [A B]. cbn [fst snd] in *.
    split; [eauto|eapply Forall2_trans_in; eauto].
  - eapply Forall2_trans_in; eauto.
  - destruct HN as [(A & B & C)|(s & -> & ->)], HN' as [(A' & B' & C')|(s' & E1 & E2)]; subst; try discriminate.
    + left. repeat split; auto. congruence.
    + right. eauto.
Qed.
Lemma equal_refl a : legal a -> equal a a <-> no_nan a.
Proof.
  assert (T : forall l, Forall (fun a => legal a -> equal a a <-> no_nan a) l -> Forall legal l -> Forall2 equal l l <-> Forall no_nan l).
  { intros l H. induction H; intros L; [split; auto|]. inversion L; subst. split; intros F; inversion F; subst; constructor; try tauto; try (apply IHForall; auto). }
  induction a as [o IH|v IH|s|f|b0|] using json_ind; intros L.
  - inversion L as [? No Fo| | | | |]; subst. split.
    + inversion 1 as [? ? HK HV| | | | |]; subst. constructor. rewrite Forall_forall in *. intros [k [v l]] Hin. cbn [fst snd].
      destruct (HV _ _ _ _ _ Hin Hin) as [A B], (IH _ Hin) as [C D], (Fo _ Hin) as (_ & E & F). cbn [fst snd] in *. split; [tauto|]. now apply (T l).
    + inversion 1 as [? HF| | | | |]; subst. constructor; [tauto|]. intros k v l v' l' Hin Hin'. rewrite Forall_forall in *.
      apply (hm_get_NoDup o k (v', l') No) in Hin'. pose proof Hin as G. apply (hm_get_NoDup o k (v, l) No) in G. rewrite G in Hin'. inversion Hin'; subst.
      destruct (IH _ Hin) as [C D], (Fo _ Hin) as (_ & E & F), (HF _ Hin) as [A B]. cbn [fst snd] in *. split; [tauto|]. now apply (T l').
  - inversion L; subst. specialize (T v IH H0). split; [inversion 1; constructor|inversion 1; constructor]; tauto.
  - split; constructor.
  - inversion L as [| | |? V| |]; subst. split.
    + inversion 1; subst. constructor. apply (equal_numbers_unsigned f f); auto.
    + inversion 1; subst. constructor. apply equal_numbers_unsigned; auto.
  - split; constructor.
  - split; constructor.
Qed.

(** [==] is symmetric and transitive, and a value equals itself exactly if it contains no NaN. *)
Theorem equality_is_an_equivalence a b c : legal a -> legal b -> legal c ->
  json_eqb a b = json_eqb b a /\
  (json_eqb a b = true -> json_eqb b c = true -> json_eqb a c = true) /\
  (json_eqb a a = true <-> no_nan a).
Proof.
  intros La Lb Lc. split; [|split].
  - apply eq_true_iff_eq. rewrite !equality_decides by auto. split; apply equal_sym.
  - rewrite !equality_decides by auto. apply equal_trans.
  - rewrite equality_decides by auto. now apply equal_refl.
Qed.

(** ** What it ignores: the order of hash maps and the sign of zeros, nothing else. *)
Lemma F2_unsigned (l : list json) : Forall (fun a => forall b, legal a -> legal b -> equal a b <-> no_nan a /\ same (unsigned a) (unsigned b)) l ->
  forall l', Forall legal l -> Forall legal l' -> Forall2 equal l l' <-> Forall no_nan l /\ Forall2 same (map unsigned l) (map unsigned l').
Proof.
  intros H. induction H as [|a l Ha Hl IH]; intros l' L L'.
  - split; [inversion 1; cbn; auto|]. intros [_ F]. destruct l'; [constructor|inversion F].
  - inversion L; subst. destruct l' as [|b l']; [split; [inversion 1|intros [_ F]; inversion F]|]. inversion L'; subst. split.
    + inversion 1; subst. destruct (proj1 (IH l' ltac:(auto) ltac:(auto)) ltac:(auto)) as [A B], (proj1 (Ha b ltac:(auto) ltac:(auto)) ltac:(auto)) as [C D].
      split; cbn; constructor; auto.
    + intros [N F]. inversion N; subst. cbn in F. inversion F; subst. constructor; [now apply Ha|]. apply IH; auto.
Qed.
Lemma align (o' : hmap) : forall o : hmap, NoDup (map fst o) -> NoDup (map fst o') -> (forall k, In k (map fst o) <-> In k (map fst o')) ->
  exists p, Permutation o p /\ map fst p = map fst o'.
Proof.
  induction o' as [|[k x'] o' IH]; intros o N N' HK.
  - destruct o as [|e o]; [exists []; auto|]. destruct (proj1 (HK (fst e))). cbn. now left.
  - cbn [map fst] in N'. inversion N' as [|? ? Hn Hd]; subst.
    assert (Hk : In k (map fst o)) by (apply HK; now left). apply in_map_iff in Hk. destruct Hk as ([k0 x] & E & Hin). cbn in E. subst k0.
    apply in_split in Hin. destruct Hin as (o1 & o2 & ->). pose proof (Permutation_middle o1 o2 (k, x)) as PM.
    assert (N2 : NoDup (map fst ((k, x) :: o1 ++ o2))) by (eapply Permutation_NoDup; [apply Permutation_map, Permutation_sym, PM|exact N]).
    cbn [map fst] in N2. inversion N2 as [|? ? Hn2 Hd2]; subst.
    destruct (IH (o1 ++ o2)) as (p & P & M); auto.
    + intros k0. assert (X : In k0 (map fst ((k, x) :: o1 ++ o2)) <-> In k0 (map fst ((k, x') :: o'))).
      { rewrite <- HK. split; apply Permutation_in; apply Permutation_map; [exact PM|now apply Permutation_sym]. }
      cbn [map fst In] in X. split; intros I; [destruct (proj1 X (or_intror I))|destruct (proj2 X (or_intror I))]; subst; auto; contradiction.
    + exists ((k, x) :: p). split; [|cbn; now rewrite M]. rewrite <- PM. now constructor.
Qed.
Lemma unsigned_keys (o : hmap) : map fst (map (fun e : entry => (fst e, (unsigned (fst (snd e)), map unsigned (snd (snd e))))) o) = map fst o.
Proof. rewrite map_map. now apply map_ext. Qed.
Lemma perm_map_inv {A B} (f : A -> B) l q : Permutation (map f l) q -> exists l', Permutation l l' /\ q = map f l'.
Proof. intros P. apply Permutation_sym, Permutation_map_inv in P. destruct P as (l' & -> & P). eauto. Qed.
Lemma pair_up (o o' : hmap) (p : hmap) : forall q : hmap, map fst p = map fst q -> incl p o -> incl q o' ->
  Forall2 (fun e e' : entry => In e o /\ In e' o' /\ fst e = fst e') p q.
Proof.
  induction p as [|e p IHp]; intros [|e' q] M Ip Iq; try discriminate; constructor; injection M as M1 M2.
  - split; [apply Ip; now left|]. split; [apply Iq; now left|exact M1].
  - apply IHp; auto; intros x Hx; [apply Ip|apply Iq]; now right.
Qed.
Theorem equality_ignores_only_order_and_zero_signs a : forall b, legal a -> legal b ->
  json_eqb a b = true <-> no_nan a /\ same (unsigned a) (unsigned b).
Proof.
  intros b La Lb. rewrite equality_decides by auto. revert b La Lb.
  induction a as [o IH|v IH|s|f|b0|] using json_ind; intros b La Lb.
  - inversion La as [? No Fo| | | | |]; subst. destruct b as [o'|v'|s'|f'|b'|]; try (split; [inversion 1|intros [_ S]; inversion S]; fail).
    inversion Lb as [? No' Fo'| | | | |]; subst. split.
    + inversion 1 as [? ? HK HV| | | | |]; subst. destruct (align o' o No No' HK) as (p & P & M).
      assert (X : Forall2 (fun e e' : entry => In e o /\ In e' o' /\ fst e = fst e') p o').
      { apply pair_up; auto using incl_refl. intros e. now apply Permutation_in, Permutation_sym. }
      split.
      * constructor. rewrite Forall_forall in *. intros [k [v l]] Hin. cbn [fst snd].
        assert (Hk : In k (map fst o')) by (apply HK; change k with (fst (k, (v, l))); now apply in_map).
        apply in_map_iff in Hk. destruct Hk as ([k0 [v' l']] & <- & Hin'). cbn [fst] in *. destruct (HV _ _ _ _ _ Hin Hin') as [E F].
        destruct (IH _ Hin) as [C D], (Fo _ Hin) as (_ & Lv & Ll), (Fo' _ Hin') as (_ & Lv' & Ll'). cbn [fst snd] in *.
        split; [now apply (C v')|now apply (F2_unsigned l D l')].
      * cbn [unsigned]. eapply same_obj; [apply Permutation_map, P|]. clear P M.
        induction X as [|[k [v l]] [k' [v' l']] p o1 (A & B & C) X IHX]; cbn [map]; constructor; auto. cbn [fst snd] in *. subst k'.
        rewrite Forall_forall in *. destruct (HV _ _ _ _ _ A B) as [E F]. destruct (IH _ A) as [G D], (Fo _ A) as (_ & Lv & Ll), (Fo' _ B) as (_ & Lv' & Ll'). cbn [fst snd] in *.
        split; [auto|]. split; [now apply G|now apply (F2_unsigned l D l')].
    + intros [N S]. inversion N as [? HN| | | | |]; subst. cbn [unsigned] in S. inversion S as [? p ? P F| | | | |]; subst.
      apply perm_map_inv in P. destruct P as (q & P & ->).
      assert (MK : map fst q = map fst o').
      { rewrite <- (unsigned_keys q), <- (unsigned_keys o'). clear - F. induction F as [|? ? ? ? (A & _)]; cbn; congruence. }
      assert (HK : forall k, In k (map fst o) <-> In k (map fst o')).
      { intros k. rewrite <- MK. split; apply Permutation_in, Permutation_map; [exact P|now apply Permutation_sym]. }
      constructor; auto. intros k v l v' l' Hin Hin'. rewrite Forall_forall in *.
      assert (X : same (unsigned v) (unsigned v') /\ Forall2 same (map unsigned l) (map unsigned l')).
      { assert (Hq : In (k, (v, l)) q) by (eapply Permutation_in; eauto). clear - F Hq Hin' No' MK.
        revert o' MK F Hin' No'. induction q as [|e q IHq]; intros [|e' o'] MK F Hin' No'; try (now destruct Hq); try discriminate.
        cbn [map] in *. inversion F as [|? ? ? ? (A & B & C) F']; subst. injection MK as M1 M2. inversion No' as [|? ? Hn Hd]; subst.
        destruct Hq as [->|Hq], Hin' as [->|Hin']; cbn [fst snd] in *; auto.
        - elim Hn. rewrite <- M1. change k with (fst (k, (v', l'))). now apply in_map.
        - elim Hn. rewrite <- M2. change k with (fst (k, (v, l))). now apply in_map.
        - eapply IHq; eauto. }
      destruct X as [X Y]. destruct (IH _ Hin) as [G D], (Fo _ Hin) as (_ & Lv & Ll), (Fo' _ Hin') as (_ & Lv' & Ll'), (HN _ Hin) as [U V]. cbn [fst snd] in *.
      split; [now apply G|now apply (F2_unsigned l D l')].
  - inversion La; subst. destruct b as [o'|v'|s'|f'|b'|]; try (split; [inversion 1|intros [_ S]; inversion S]; fail). inversion Lb; subst.
    pose proof (F2_unsigned v IH v' ltac:(auto) ltac:(auto)) as Q. split.
    + inversion 1; subst. destruct (proj1 Q) as [A B]; auto. split; [now constructor|]. cbn. now constructor.
    + intros [N S]. inversion N; subst. cbn in S. inversion S; subst. constructor. tauto.
  - split; [inversion 1; split; constructor|]. intros [_ S]. destruct b; inversion S; subst; constructor.
  - destruct b as [o'|v'|s'|f'|b'|]; try (split; [inversion 1|intros [_ S]; inversion S]; fail). inversion La; inversion Lb; subst.
    pose proof (equal_numbers_unsigned f f' ltac:(auto) ltac:(auto)) as Q. split.
    + inversion 1; subst. destruct (proj1 Q) as [A B]; auto. split; [now constructor|]. cbn. rewrite B. constructor.
    + intros [N S]. inversion N; subst. cbn in S. inversion S; subst. constructor. tauto.
  - split; [inversion 1; split; constructor|]. intros [_ S]. destruct b; inversion S; subst; constructor.
  - split; [inversion 1; split; constructor|]. intros [_ S]. destruct b; inversion S; subst; constructor.
Qed.

(** ** Printing and reading *)
Lemma finite_no_nan j : finite j = true -> no_nan j.
Proof.
  assert (T : forall l, Forall (fun j => finite j = true -> no_nan j) l -> forallb finite l = true -> Forall no_nan l).
  { intros l H. induction H; cbn; intros F; constructor; apply andb_true_iff in F; tauto. }
  induction j as [o IH|v IH|s|f|b0|] using json_ind; intros F; constructor; auto.
  - cbn [finite] in F. rewrite forallb_forall in F. rewrite Forall_forall in *. intros e He. specialize (F e He). apply andb_true_iff in F. destruct (IH e He). split; [tauto|apply T; tauto].
  - now intros ->.
Qed.
Lemma same_equal a b : legal a -> no_nan a -> same a b -> equal a b.
Proof.
  assert (U : forall a b, same a b -> same (unsigned a) (unsigned b)).
  { clear. assert (T : forall l, Forall (fun a => forall b, same a b -> same (unsigned a) (unsigned b)) l -> forall l', Forall2 same l l' -> Forall2 same (map unsigned l) (map unsigned l')).
    { intros l H. induction H; intros l' F; inversion F; subst; cbn; constructor; auto. }
    induction a as [o IH|v IH|s|f|b0|] using json_ind; intros b S; inversion S as [o0 p o1 P1 F1| | | | |]; subst; cbn [unsigned]; try constructor; auto.
    eapply same_obj; [apply Permutation_map, P1|]. assert (IHp : Forall (Pentry (fun a => forall b, same a b -> same (unsigned a) (unsigned b))) p) by (eapply Permutation_Forall; eauto).
    clear - F1 IHp T. induction F1 as [|e e' p q (K & V & L) F1 IH2]; cbn [map]; constructor; inversion IHp as [|? ? [A B]]; subst; auto. cbn [fst snd]. auto. }
  intros L N S. pose proof (same_legal _ _ S L) as L'. apply equality_decides; auto. apply equality_ignores_only_order_and_zero_signs; auto.
Qed.
(** A printed value that reads back reads back as an equal value; and finite values with the same text are equal. *)
Theorem equal_after_round_trip j : legal j -> finite j = true ->
  (forall j', parse (to_string j) = Ok j' -> json_eqb j j' = true /\ json_eqb j' j = true) /\
  (forall j', legal j' -> finite j' = true -> to_string j = to_string j' -> json_eqb j j' = true).
Proof.
  intros L F. pose proof (finite_no_nan j F) as N. split.
  - intros j' E. pose proof (print_parse_legal j L F) as P. destruct (balanced j); [|destruct P as [e P]; congruence].
    rewrite P in E. inversion E; subst. pose proof (canon_same j) as S. pose proof (same_legal _ _ S L) as L'.
    assert (Q : equal j (canon j)) by now apply same_equal. split; apply equality_decides; auto. now apply equal_sym.
  - intros j' L' F' E. apply equality_decides; auto. pose proof (canon_same j) as S. pose proof (canon_same j') as S'.
    assert (X : canon j = canon j').
    { apply to_string_injective; try (now apply canon_legal_wf); try (now rewrite <- (finite_same _ _ S)); try (now rewrite <- (finite_same _ _ S')).
      rewrite <- (printing_ignores_iteration_order j (canon j)), <- (printing_ignores_iteration_order j' (canon j')); auto; now apply legal_iff. }
    apply same_equal; auto. eapply same_trans; [exact S|]. rewrite X. now apply same_sym.
Qed.

(** Two different maps in memory, equal; [0] and [-0] are equal but print differently; NaN equals nothing. *)
Example equality_examples :
  let a := JObj [(lit "a", (JNum (S754_zero true), [JBool true])); (lit "b", (JArr [JNull], []))] in
  let b := JObj [(lit "b", (JArr [JNull], [])); (lit "a", (JNum (S754_zero false), [JBool true]))] in
  legal a /\ legal b /\ no_nan a /\ json_eqb a b = true /\ to_string a <> to_string b /\
  json_eqb (JNum S754_nan) (JNum S754_nan) = false /\
  json_eqb a (JObj [(lit "b", (JArr [JNull], [])); (lit "a", (JNum (S754_zero false), [JBool false]))]) = false /\
  json_eqb (JArr []) (JObj []) = false.
Proof.
  cbv zeta. split; [|split; [|split; [|vm_compute; intuition discriminate]]].
  - repeat (constructor; cbn); intuition discriminate.
  - repeat (constructor; cbn); intuition discriminate.
  - repeat (constructor; cbn); discriminate.
Qed.

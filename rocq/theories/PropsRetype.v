(** Values that are read at another type than they were written at (C88). *)
From Verif Require Import Base F64 Json Parse Print Convert Derive SpecGrammar SpecNumber SpecValue SpecConvert SpecErrors SpecDerive SpecEvolve SpecOrder SpecRetype MapProofs NumberProofs FloatProofs DecProofs CanonProofs PrintProofs
  PropsPrint ConvertNumProofs KeyProofs ConvertProofs PropsConvert PropsErrors PathTextProofs PropsOrder PropsDerive PropsEvolve.
From Coq Require Import Permutation Reals Floats.SpecFloat ZifyBool ZifyNat ZifyN Lia.
Local Close Scope R_scope.
Open Scope N_scope.
Notation is_finite := F64.is_finite.

(** * Lists of pairs in groups *)
Lemma last_of_snoc {V} (l : list V) v : last_of (l ++ [v]) = Some v.
Proof. unfold last_of. now rewrite rev_app_distr. Qed.
Lemma last_of_forall2 {A B} (R : A -> B -> Prop) l l' : Forall2 R l l' -> match last_of l, last_of l' with Some a, Some b => R a b | None, None => True | _, _ => False end.
Proof.
  intros F. destruct l as [|a0 r] using rev_ind.
  - inversion F; subst. exact I.
  - apply Forall2_app_inv_l in F as (l1 & t & F1 & F2 & ->). inversion F2 as [|? b ? t' Hab F3]; subst. inversion F3; subst. rewrite !last_of_snoc. auto.
Qed.
Lemma last_of_in {V} (l : list V) v : last_of l = Some v -> In v l.
Proof. unfold last_of. destruct (rev l) as [|w r] eqn:E; [discriminate|]. intros [= ->]. apply in_rev. rewrite E. now left. Qed.
Section Groups.
  Context {K V : Type} (eqb : K -> K -> bool) (D : decides eqb).
  Definition group (l : list (K * V)) (q : K) : list (K * V) := map (pair q) (at_key eqb q l).
  Definition group1 (l : list (K * V)) (q : K) : list (K * V) := match last_of (at_key eqb q l) with Some v => [(q, v)] | None => [] end.
  Lemma at_group q (l : list (K * V)) : at_key eqb q (group l q) = at_key eqb q l.
  Proof. unfold group. generalize (at_key eqb q l). induction l0 as [|v r IH]; auto. cbn [map]. rewrite at_key_cons, IH. now rewrite (eqb_refl' eqb D). Qed.
  Lemma at_group_other q q' (l : list (K * V)) : q <> q' -> at_key eqb q (group l q') = [].
  Proof. intros H. apply (at_key_notin eqb D). unfold group. rewrite map_map. intros C. apply in_map_iff in C as (? & E & _). cbn in E; congruence. Qed.
  Lemma at_groups (l : list (K * V)) ks q : NoDup ks -> at_key eqb q (flat_map (group l) ks) = if existsb (eqb q) ks then at_key eqb q l else [].
  Proof.
    induction 1 as [|k ks Hk N IH]; auto. cbn [flat_map existsb]. rewrite at_key_app, IH. destruct (eqb q k) eqn:E; cbn [orb].
    - apply D in E. subst k. rewrite at_group. replace (existsb (eqb q) ks) with false; [apply app_nil_r|].
      symmetry. apply not_true_is_false. intros C. apply existsb_exists in C as (k & Hin & E). apply D in E. now subst.
    - rewrite at_group_other; auto. intros ->. rewrite (eqb_refl' eqb D) in E. discriminate.
  Qed.
  Lemma groups_reordered (l : list (K * V)) ks : NoDup ks -> (forall q, In q (map fst l) -> In q ks) -> reordered eqb l (flat_map (group l) ks).
  Proof.
    intros N H q. rewrite at_groups by auto. destruct (existsb (eqb q) ks) eqn:E; auto. symmetry. apply (at_key_notin eqb D). intros C. apply H in C.
    assert (E2 : existsb (eqb q) ks = true); [|congruence]. apply existsb_exists. exists q. split; auto. apply (eqb_refl' eqb D).
  Qed.
  Lemma group1_keys (l : list (K * V)) q x : In x (map fst (group1 l q)) -> x = q.
  Proof. unfold group1. destruct (last_of _); cbn; intuition. Qed.
  Lemma groups1_keys (l : list (K * V)) ks x : In x (map fst (flat_map (group1 l) ks)) -> In x ks.
  Proof. induction ks as [|k ks IH]; cbn; auto. rewrite map_app, in_app_iff. intros [H|H]; auto. apply group1_keys in H. auto. Qed.
  Lemma groups_latest (l : list (K * V)) ks : NoDup ks -> (forall q, In q (map fst l) -> In q ks) -> latest eqb l (flat_map (group1 l) ks).
  Proof.
    intros N H. split.
    - unfold is_map. clear H. induction N as [|k ks Hk N IH]; cbn; [constructor|]. rewrite map_app. unfold group1 at 1. destruct (last_of (at_key eqb k l)); cbn; auto.
      constructor; auto. intros C. apply Hk. eapply groups1_keys; eauto.
    - assert (G : forall q, at_key eqb q (flat_map (group1 l) ks) = if existsb (eqb q) ks then match last_of (at_key eqb q l) with Some v => [v] | None => [] end else []).
      { clear H. induction N as [|k ks Hk N IH]; intros q; auto. cbn [flat_map existsb]. rewrite at_key_app, IH. destruct (eqb q k) eqn:E; cbn [orb].
        - apply D in E. subst k. replace (existsb (eqb q) ks) with false.
          + rewrite app_nil_r. unfold group1. destruct (last_of (at_key eqb q l)); auto. rewrite at_key_cons, (eqb_refl' eqb D). reflexivity.
          + symmetry. apply not_true_is_false. intros C. apply existsb_exists in C as (k & Hin & E). apply D in E. now subst.
        - rewrite (at_key_notin eqb D q (group1 l k)); auto. intros C. apply group1_keys in C. subst. rewrite (eqb_refl' eqb D) in E. discriminate. }
      intros q. unfold lookup. rewrite G. destruct (existsb (eqb q) ks) eqn:E.
      + destruct (last_of (at_key eqb q l)); auto.
      + rewrite (at_key_notin eqb D q l); auto. intros C. apply H in C.
        assert (E2 : existsb (eqb q) ks = true); [|congruence]. apply existsb_exists. exists q. split; auto. apply (eqb_refl' eqb D).
  Qed.
  Lemma reordered_in (l l' : list (K * V)) q v : reordered eqb l l' -> In (q, v) l' <-> In (q, v) l.
  Proof. intros H. rewrite <- !(at_key_In eqb D). now rewrite H. Qed.
  Lemma latest_in (l m : list (K * V)) q v : latest eqb l m -> In (q, v) m -> last_of (at_key eqb q l) = Some v.
  Proof. intros [M H] Hin. rewrite <- H. now apply (lookup_some eqb D). Qed.
  Lemma latest_in_source (l m : list (K * V)) q v : latest eqb l m -> In (q, v) m -> In (q, v) l.
  Proof. intros H Hin. apply (at_key_In eqb D). apply last_of_in. eapply latest_in; eauto. Qed.
  Lemma latest_same (l m m' : list (K * V)) q v : latest eqb l m -> latest eqb l m' -> In (q, v) m -> In (q, v) m'.
  Proof. intros H [M' H'] Hin. apply (lookup_some eqb D); auto. rewrite H'. eapply latest_in; eauto. Qed.
  Lemma permutation_reordered (m q : list (K * V)) : is_map m -> Permutation m q -> reordered eqb m q.
  Proof.
    intros M P x. assert (Mq : is_map q) by (unfold is_map in *; eapply Permutation_NoDup; [apply Permutation_map; exact P|exact M]).
    destruct (at_key eqb x m) as [|v r] eqn:E.
    - apply (at_key_notin eqb D). intros C. apply in_map_iff in C as ([k v] & Ek & Hin). cbn in Ek. subst k. eapply Permutation_in in Hin; [|symmetry; exact P].
      apply (at_key_In eqb D) in Hin. rewrite E in Hin. destruct Hin.
    - assert (Hin : In (x, v) m) by (apply (at_key_In eqb D); rewrite E; now left). rewrite (at_key_in eqb D x v m M Hin) in E. injection E as <-.
      apply (at_key_in eqb D); auto. eapply Permutation_in; eauto.
  Qed.
  Lemma map_latest (m : list (K * V)) : is_map m -> latest eqb m m.
  Proof.
    intros M. split; auto. intros q. unfold lookup. destruct (at_key eqb q m) as [|v r] eqn:E; auto.
    assert (Hin : In (q, v) m) by (apply (at_key_In eqb D); rewrite E; now left). rewrite (at_key_in eqb D q v m M Hin) in E. injection E as <-. reflexivity.
  Qed.
  Lemma permutation_latest (m q : list (K * V)) : is_map m -> Permutation m q -> latest eqb m q.
  Proof.
    intros M P. assert (Mq : is_map q) by (unfold is_map in *; eapply Permutation_NoDup; [apply Permutation_map; exact P|exact M]).
    split; auto. intros x. rewrite <- (permutation_reordered m q M P). apply (map_latest q Mq).
  Qed.
  Lemma insert_all_latest (l : list (K * V)) : latest eqb l (insert_all eqb l []).
  Proof.
    induction l as [|[k v] l IH] using rev_ind; [split; [constructor|reflexivity]|]. rewrite insert_all_snoc. destruct IH as [M H].
    split; [now apply map_insert_is_map|]. intros q. rewrite map_insert_lookup by auto. rewrite at_key_app, at_key_cons. destruct (eqb q k).
    - cbn. now rewrite last_of_snoc.
    - cbn. now rewrite app_nil_r.
  Qed.
End Groups.

(** * The members that a list of pairs or a map is written as *)
Definition stands {K V} (kc : key_codec K) (c : codec V) (kv : K * V) (m : str * json) : Prop := fst m = show kc (fst kv) /\ same (to_json c (snd kv)) (snd m).
Definition written_as {K V} (eqb : K -> K -> bool) (kc : key_codec K) (c : codec V) (l : list (K * V)) (o : hmap) : Prop :=
  (exists l0, reordered eqb l l0 /\ Forall2 (stands kc c) l0 (members o)) /\ (exists l0, latest eqb l l0 /\ Forall2 (stands kc c) l0 (newest o)).
Lemma pairs_written {K V} (eqb : K -> K -> bool) (kc : key_codec K) (c : codec V) l o : decides eqb -> Forall (fun kv => reads_back kc (fst kv)) l ->
  same (to_json (c_pairs kc c) l) (JObj o) -> written_as eqb kc c l o.
Proof.
  intros D R S. cbn in S. fold (pairs_object kc c l []) in S. destruct (pairs_entries eqb kc c l D R) as (N & A & B). cbn zeta in *.
  inversion S as [o1 p o' P F| | | | |]; subst.
  assert (N' : NoDup (map fst p)) by (eapply Permutation_NoDup; [apply Permutation_map; exact P|exact N]).
  assert (A' : forall e, In e p -> exists k, In k (map fst l) /\ fst e = show kc k /\ reads_back kc k /\ entry_values e = map (to_json c) (at_key eqb k l)).
  { intros e He. apply A. eapply Permutation_in; [symmetry; exact P|exact He]. }
  assert (B' : forall k, In k (map fst l) -> exists e, In e p /\ fst e = show kc k).
  { intros k Hk. destruct (B k Hk) as (e & He & Ee). exists e. split; auto. eapply Permutation_in; [exact P|exact He]. }
  assert (G : exists ks, Forall2 (fun (e : entry) k => fst e = show kc k /\ reads_back kc k /\ entry_values e = map (to_json c) (at_key eqb k l)) p ks).
  { clear - A'. induction p as [|e p IH]; [now exists []|]. destruct IH as [ks F]; [intros; apply A'; now right|]. destruct (A' e) as (k & _ & H); [now left|]. exists (k :: ks). auto. }
  destruct G as [ks G].
  assert (Nk : NoDup ks).
  { clear - N' G. induction G as [|e k p ks (E & Rk & _) G IH]; [constructor|]. inversion N'; subst. constructor; auto. intros C.
    match goal with H : ~ In _ _ |- _ => apply H end. clear - C G E. induction G as [|e1 k1 p ks (E1 & _) G IH]; [destruct C|]. destruct C as [->|C]; [left; congruence|right; auto]. }
  assert (Hk : forall q, In q (map fst l) -> In q ks).
  { intros q Hq. assert (Rq : reads_back kc q) by (apply in_map_iff in Hq as (kv & <- & Hin); rewrite Forall_forall in R; auto).
    destruct (B' q Hq) as (e & He & Ee). clear - G He Ee Rq. induction G as [|e1 k1 p ks (E1 & R1 & _) G IH]; [destruct He|]. destruct He as [->|He]; [left|right; auto].
    unfold reads_back in *. congruence. }
  assert (T : forall (e' : entry) k vals, fst e' = show kc k -> forall js, Forall2 same (map (to_json c) vals) js -> Forall2 (stands kc c) (map (pair k) vals) (map (pair (fst e')) js)).
  { clear. intros e' k vals E. induction vals as [|v vals IH]; intros js F; inversion F as [|? j ? js' Sj Sjs]; subst; cbn; constructor; auto. split; auto. }
  split.
  - exists (flat_map (group eqb l) ks). split; [now apply (groups_reordered eqb D)|].
    clear - F G T. revert o F. induction G as [|e k p ks (E & Rk & Ev) G IH]; intros o F; inversion F as [|? e' ? o2 Se F2]; subst; [constructor|].
    cbn [flat_map members]. apply Forall2_app; [|now apply IH]. apply entry_values_same in Se as Sv. rewrite Ev in Sv. destruct Se as (Ek & _). apply T; [congruence|exact Sv].
  - exists (flat_map (group1 eqb l) ks). split; [now apply (groups_latest eqb D)|].
    clear - F G. revert o F. induction G as [|e k p ks (E & Rk & Ev) G IH]; intros o F; inversion F as [|? e' ? o2 Se F2]; subst; [constructor|].
    cbn [flat_map newest map]. destruct Se as (Ek & Sv & _). unfold group1. unfold entry_values in Ev.
    assert (L : exists v, last_of (at_key eqb k l) = Some v /\ to_json c v = fst (snd e)).
    { destruct (at_key eqb k l) as [|v r] using rev_ind; [exfalso; cbn in Ev; destruct (rev (snd (snd e))); discriminate|]. clear IHr.
      rewrite map_app in Ev. apply app_inj_tail in Ev as [_ Ev]. exists v. rewrite last_of_snoc. auto. }
    destruct L as (v & -> & Ej). cbn. constructor; [|now apply IH]. split; cbn; [congruence|]. now rewrite Ej.
Qed.
Lemma map_written {K V} (eqb : K -> K -> bool) (kc : key_codec K) (c : codec V) m o : decides eqb -> is_map m -> Forall (fun kv => reads_back kc (fst kv)) m ->
  same (to_json (c_map eqb kc c) m) (JObj o) -> written_as eqb kc c m o.
Proof.
  intros D N H Hj. cbn in Hj. set (f := fun kv : K * V => (show kc (fst kv), (to_json c (snd kv), @nil json))).
  inversion Hj as [o1 p o' P F| | | | |]; subst.
  assert (P1 : Permutation (map f m) p).
  { etransitivity; [|exact P]. symmetry. etransitivity.
    - apply (fold_insert_perm (fun kv : K * V => show kc (fst kv)) (fun kv => (to_json c (snd kv), []))); [|auto].
      rewrite <- map_map. apply shows_injective; auto. now apply Forall_map.
    - rewrite app_nil_r. reflexivity. }
  apply Permutation_sym, Permutation_map_inv in P1 as (q & -> & Pq).
  assert (F' : Forall2 (stands kc c) q (members o) /\ Forall2 (stands kc c) q (newest o)).
  { clear - F. revert o F. induction q as [|kv q IH]; intros o F; inversion F as [|? [s [j w]] ? o2 (Ek & Sv & Sl) F2]; subst; [split; constructor|].
    cbn in Ek, Sv, Sl. inversion Sl; subst. destruct (IH _ F2) as [I1 I2]. split; constructor; auto; split; cbn; auto. }
  destruct F' as [F1 F2]. split; exists q; split; auto; [now apply permutation_reordered|now apply permutation_latest].
Qed.

(** * Reading succeeds with what the value may become *)
Definition plain (u : ty) : Prop := match u with TJson | TOption _ => False | _ => True end.
Lemma same_not_null a b : same a b -> a <> JNull -> b <> JNull.
Proof. intros S H ->. inversion S; subst; congruence. Qed.
Lemma option_read {T} (c : codec T) j y : j <> JNull -> from_json (c_option c) j = Ok y -> exists z, y = Some z /\ from_json c j = Ok z.
Proof. intros N E. cbn in E. destruct j; try congruence; (destruct (from_json c _) as [z| | |]; cbn in E; [|discriminate..]; injection E as <-; eauto). Qed.
Lemma not_null_read w j (core : forall u, denote u -> Prop) : same w j -> j <> JNull ->
  (forall u, plain u -> forall y, from_json (codec_of u) j = Ok y -> core u y) -> forall u y, from_json (codec_of u) j = Ok y -> not_null w core u y.
Proof.
  intros S N H u. induction u; intros y E; cbn [not_null]; try (apply H; [exact I|exact E]).
  - cbn in E. injection E as <-. exact S.
  - destruct (option_read _ _ _ N E) as (z & -> & Ez). auto.
Qed.
Lemma members_become k k' a b (R : denote a -> denote b -> Prop) l0 : forall ms ys, Forall2 (stands (key_codec_of k) (codec_of a)) l0 ms ->
  (forall kv j y, In kv l0 -> same (to_json (codec_of a) (snd kv)) j -> from_json (codec_of b) j = Ok y -> R (snd kv) y) ->
  collect (member_of (key_codec_of k') (codec_of b)) ms = Ok ys ->
  Forall2 (fun x y => key_becomes k k' (fst x) (fst y) /\ R (snd x) (snd y)) l0 ys.
Proof.
  intros ms ys F H E. apply collect_ok in E. revert ys E. induction F as [|x m l0 ms [Ek Sv] F IH]; intros ys E; inversion E as [|? y ? ys' Ey E2]; subst; constructor.
  - unfold member_of, read_key in Ey. destruct (read (key_codec_of k') (fst m)) as [q|] eqn:Er; [|discriminate]. cbn [bind] in Ey.
    destruct (from_json (codec_of b) (snd m)) as [v| | |] eqn:Ev; try discriminate. injection Ey as <-. cbn [fst snd]. split.
    + unfold key_becomes. rewrite <- Ek. now apply keys_are_read_as_these_texts.
    + eapply H; eauto. now left.
  - apply IH; auto. intros. eapply H; eauto. now right.
Qed.
(** The object of pairs or a map, at a type of pairs or a map. *)
Lemma keyed_read k a x o (R : forall b, denote a -> denote b -> Prop) : written_as (key_eqb k) (key_codec_of k) (codec_of a) x o ->
  (forall b kv j y, In kv x -> same (to_json (codec_of a) (snd kv)) j -> from_json (codec_of b) j = Ok y -> R b (snd kv) y) ->
  forall u, plain u -> forall y, from_json (codec_of u) (JObj o) = Ok y ->
    match u return denote u -> Prop with TPairs k' b => pairs_become (R b) x | TMap k' b => pairs_become_map (R b) x | _ => fun _ => False end y.
Proof.
  intros [(l0 & W0 & F0) (l1 & W1 & F1)] H u P y E. destruct u; try contradiction; try discriminate.
  - cbn [from_json codec_of c_pairs] in E. rewrite pairs_members in E. exists l0. split; auto. eapply members_become; eauto.
    intros [q v] j z Hin. apply (H _ (q, v)). now apply (reordered_in _ (key_eqb_decides k) _ _ _ _ W0).
  - cbn [from_json codec_of c_map] in E. rewrite map_members in E. destruct (collect _ _) as [ys| | |] eqn:C; try discriminate. injection E as <-.
    exists l1, ys. split; auto. split.
    + eapply members_become; eauto. intros [q v] j z Hin. apply (H _ (q, v)). now apply (latest_in_source _ (key_eqb_decides k) _ _ _ _ W1).
    + apply insert_all_latest, key_eqb_decides.
Qed.
Lemma legal_pairs_written k a x o : legal_value (TPairs k a) x -> same (to_json (codec_of (TPairs k a)) x) (JObj o) -> written_as (key_eqb k) (key_codec_of k) (codec_of a) x o.
Proof. intros L S. apply pairs_written; auto using key_eqb_decides. cbn in L. revert L. apply Forall_impl. intros kv [H _]. now apply key_reads_back. Qed.
Lemma legal_map_written k a x o : legal_value (TMap k a) x -> same (to_json (codec_of (TMap k a)) x) (JObj o) -> written_as (key_eqb k) (key_codec_of k) (codec_of a) x o.
Proof. intros [M L] S. apply map_written; auto using key_eqb_decides. revert L. apply Forall_impl. intros kv [H _]. now apply key_reads_back. Qed.
Lemma written_double t n f : legal_value t n -> as_double t n f -> to_json (codec_of t) n = JNum f.
Proof.
  destruct t; cbn [as_double legal_value codec_of to_json c_int c_f64 c_f32]; try contradiction; intros L A.
  - destruct A as [Nf Sf]. destruct (integer_to_nearest_double t n L) as (g & E & Ng & Sg). cbn in E. rewrite E. f_equal.
    pose proof (nearest_unique 53 1024 one53 _ _ (IZR n) g f Ng Nf) as Q. destruct Ng as (V & F & _), Nf as (V' & F' & _). apply (sf_unique 53 1024); auto. congruence.
  - now subst.
  - destruct A as [A1 A2]. f_equal. destruct (f64_of_f32_exact n L) as (V & F & Q & Sg). destruct (is_finite n) eqn:Fn.
    + destruct A1 as (V' & F' & Q' & S'); auto. apply (sf_unique 53 1024); auto; congruence.
    + rewrite A2 by reflexivity. destruct n; try discriminate; reflexivity.
Qed.
Lemma double_exists t n : legal_value t n -> match t with TInt _ | TF64 | TF32 => exists f, as_double t n f | _ => True end.
Proof.
  destruct t; cbn [as_double legal_value]; auto; intros L.
  - destruct (integer_to_nearest_double t n L) as (g & _ & H). eauto.
  - eauto.
  - exists (f64_of_f32 n). destruct (f64_of_f32_exact n L) as (V & F & Q & Sg). split; [rewrite F; auto|]. intros Fn. destruct n; try discriminate; reflexivity.
Qed.
Theorem what_is_read t : forall u x j y, legal_value t x -> same (to_json (codec_of t) x) j -> from_json (codec_of u) j = Ok y -> becomes t u x y.
Proof.
  induction t as [| | |w| | |a IH|a IH|k a IH|k a IH]; intros u x j y L S E; cbn [becomes].
  - exists j. split; auto. split; [apply converts_iff_fits; eauto|now apply converted_value].
  - inversion S; subst. now apply converted_value.
  - inversion S; subst. now apply converted_value.
  - destruct (double_exists (TInt w) x L) as [f A]. exists f. split; auto. rewrite (written_double (TInt w) x f L A) in S. inversion S; subst. now apply converted_value.
  - destruct (double_exists TF64 x L) as [f A]. exists f. split; auto. rewrite (written_double TF64 x f L A) in S. inversion S; subst. now apply converted_value.
  - destruct (double_exists TF32 x L) as [f A]. exists f. split; auto. rewrite (written_double TF32 x f L A) in S. inversion S; subst. now apply converted_value.
  - eapply not_null_read; eauto; [eapply same_not_null; eauto; discriminate|]. clear u y E. intros u P y E.
    cbn [to_json codec_of c_vec] in S. inversion S as [|v v' F| | | |]; subst. destruct u; try contradiction; try discriminate.
    cbn [from_json codec_of c_vec] in E. apply collect_ok in E. cbn [legal_value] in L. clear - IH L F E. revert v' y F E.
    induction L as [|z x Hz L IHx]; intros v' y F E; inversion F as [|? j ? v2 Sj F2]; subst; inversion E as [|? r ? y2 Er E2]; subst; constructor; eauto.
  - destruct x as [z|]; cbn [to_json codec_of c_option] in S.
    + apply (IH _ z j); auto.
    + inversion S; subst. now apply converted_value.
  - eapply not_null_read; eauto; [eapply same_not_null; eauto; discriminate|].
    assert (exists o, j = JObj o) as [o ->] by (cbn in S; inversion S; eauto). apply keyed_read; [now apply legal_pairs_written|].
    intros b [q v] j z Hin Sv Ev. eapply IH; eauto. cbn [legal_value] in L. rewrite Forall_forall in L. now apply (L (q, v)).
  - eapply not_null_read; eauto; [eapply same_not_null; eauto; discriminate|].
    assert (exists o, j = JObj o) as [o ->] by (cbn in S; inversion S; eauto). apply keyed_read; [now apply legal_map_written|].
    intros b [q v] j z Hin Sv Ev. eapply IH; eauto. cbn [legal_value] in L. destruct L as [_ L]. rewrite Forall_forall in L. now apply (L (q, v)).
Qed.

(** * What the value may become is read *)
Lemma not_null_fits w j (core : forall u, denote u -> Prop) : (forall u, plain u -> forall y, core u y -> fits u j) -> forall u y, not_null w core u y -> fits u j.
Proof.
  intros H u. induction u as [| | |w0| | |a IH|a IH|k a IH|k a IH]; intros y E; cbn [not_null] in E; try (eapply H; [exact I|exact E]).
  - rewrite fits_cases. split; destruct j; exact I.
  - rewrite fits_cases. split; [destruct j; exact I|]. destruct y as [z|]; [|contradiction]. right. eauto.
Qed.
Definition scalar (j : json) : Prop := match j with JObj _ | JArr _ => False | _ => True end.
Lemma reads_fits u : forall j y, scalar j -> reads u j y -> fits u j.
Proof.
  induction u as [| | |w| | |a IH|a IH|k a IH|k a IH]; intros j y Sj R; rewrite fits_cases; cbn [reads] in R.
  - split; [exact I|]. destruct j; exact I.
  - subst. split; exact I.
  - subst. split; exact I.
  - destruct R as (f & -> & _). split; exact I.
  - subst. split; exact I.
  - destruct R as (f & -> & _). split; exact I.
  - destruct R as (v & -> & F). contradiction.
  - split; [destruct j; exact I|]. destruct y as [z|]; [right; destruct R; eauto|left; auto].
  - destruct R as (o & -> & F). contradiction.
  - destruct R as (o & -> & F). contradiction.
Qed.
Lemma forall2_in_l {A B} (R : A -> B -> Prop) l l' a : Forall2 R l l' -> In a l -> exists b, In b l' /\ R a b.
Proof. induction 1 as [|x y l l' Hxy F IH]; intros []; [subst; exists y; split; auto; now left|]. destruct IH as (b & Hb & Rb); auto. exists b. split; auto. now right. Qed.
Lemma forall2_in_r {A B} (R : A -> B -> Prop) l l' b : Forall2 R l l' -> In b l' -> exists a, In a l /\ R a b.
Proof. induction 1 as [|x y l l' Hxy F IH]; intros []; [subst; exists x; split; auto; now left|]. destruct IH as (c & Hc & Rc); auto. exists c. split; auto. now right. Qed.
Lemma keyed_fits k a x o (R : forall b, denote a -> denote b -> Prop) : written_as (key_eqb k) (key_codec_of k) (codec_of a) x o ->
  (forall b kv j y, In kv x -> same (to_json (codec_of a) (snd kv)) j -> R b (snd kv) y -> fits b j) ->
  forall u, plain u -> forall y,
    match u return denote u -> Prop with TPairs k' b => pairs_become (R b) x | TMap k' b => pairs_become_map (R b) x | _ => fun _ => False end y -> fits u (JObj o).
Proof.
  intros [(l0 & W0 & F0) (l1 & W1 & F1)] H u P y E. pose proof (key_eqb_decides k) as D. rewrite fits_cases. destruct u as [| | |w| | |b|b|k' b|k' b]; try contradiction; (split; [exact I|]).
  - destruct E as (l & W & F). apply Forall_forall. intros m Hm. destruct (forall2_in_r _ _ _ _ F0 Hm) as ([q v] & Hin & Em & Sv). cbn [fst snd] in *.
    apply (reordered_in _ D _ _ _ _ W0) in Hin. assert (Hin' : In (q, v) l) by now apply (reordered_in _ D _ _ _ _ W).
    destruct (forall2_in_l _ _ _ _ F Hin') as ([q' v'] & _ & Kq & Rv). cbn [fst snd] in *. split; [exists q'; now rewrite Em|]. eapply (H b (q, v)); eauto.
  - destruct E as (l & l' & W & F & _). apply Forall_forall. intros m Hm. destruct (forall2_in_r _ _ _ _ F1 Hm) as ([q v] & Hin & Em & Sv). cbn [fst snd] in *.
    pose proof (latest_same _ D _ _ _ _ _ W1 W Hin) as Hin'. apply (latest_in_source _ D _ _ _ _ W1) in Hin.
    destruct (forall2_in_l _ _ _ _ F Hin') as ([q' v'] & _ & Kq & Rv). cbn [fst snd] in *. split; [exists q'; now rewrite Em|]. eapply (H b (q, v)); eauto.
Qed.
Lemma becomes_fits t : forall u x j y, legal_value t x -> same (to_json (codec_of t) x) j -> becomes t u x y -> fits u j.
Proof.
  induction t as [| | |w| | |a IH|a IH|k a IH|k a IH]; intros u x j y L S E; cbn [becomes] in E.
  - destruct E as (j' & S' & F & _). cbn in S, L. apply converts_iff_fits. apply converts_iff_fits in F as [z F].
    destruct (conversion_any_order u j' j (same_legal _ _ S' L) (same_trans _ _ _ (same_sym _ _ S') S) z F) as (y' & Ey & _). eauto.
  - inversion S; subst. apply reads_fits in E; [exact E|exact I].
  - inversion S; subst. apply reads_fits in E; [exact E|exact I].
  - destruct E as (f & A & R). rewrite (written_double (TInt w) x f L A) in S. inversion S; subst. apply reads_fits in R; [exact R|exact I].
  - destruct E as (f & A & R). rewrite (written_double TF64 x f L A) in S. inversion S; subst. apply reads_fits in R; [exact R|exact I].
  - destruct E as (f & A & R). rewrite (written_double TF32 x f L A) in S. inversion S; subst. apply reads_fits in R; [exact R|exact I].
  - revert E. apply not_null_fits. clear u y. intros u P y E. cbn [to_json codec_of c_vec] in S. inversion S as [|v v' F| | | |]; subst.
    rewrite fits_cases. destruct u; try contradiction; (split; [exact I|]). cbn [legal_value] in L. clear - IH L F E. revert v' y F E.
    induction L as [|z x Hz L IHx]; intros v' y F E; inversion F as [|? j ? v2 Sj F2]; subst; inversion E as [|? r ? y2 Er E2]; subst; constructor; eauto.
  - destruct x as [z|]; cbn [to_json codec_of c_option] in S.
    + apply (IH _ z j y); auto.
    + inversion S; subst. apply reads_fits in E; [exact E|exact I].
  - assert (exists o, j = JObj o) as [o ->] by (cbn in S; inversion S; eauto). revert E. apply not_null_fits, keyed_fits; [now apply legal_pairs_written|].
    intros b [q v] j z Hin Sv Ev. eapply IH; eauto. cbn [legal_value] in L. rewrite Forall_forall in L. now apply (L (q, v)).
  - assert (exists o, j = JObj o) as [o ->] by (cbn in S; inversion S; eauto). revert E. apply not_null_fits, keyed_fits; [now apply legal_map_written|].
    intros b [q v] j z Hin Sv Ev. eapply IH; eauto. cbn [legal_value] in L. destruct L as [_ L]. rewrite Forall_forall in L. now apply (L (q, v)).
Qed.
(** A value is read at the other type exactly when there is something that it may become. *)
Theorem reading_succeeds_iff t u x j : legal_value t x -> same (to_json (codec_of t) x) j ->
  ((exists y, from_json (codec_of u) j = Ok y) <-> (exists y, becomes t u x y)).
Proof.
  intros L S. split; intros [y E].
  - exists y. eapply what_is_read; eauto.
  - apply converts_iff_fits. eapply becomes_fits; eauto.
Qed.

(** * What it may become is determined *)
Lemma equal_json_same : equal TJson = same. Proof. reflexivity. Qed.
Fixpoint unkeyed (u : ty) : Prop := match u with TVec a | TOption a => unkeyed a | TPairs _ _ | TMap _ _ => False | _ => True end.
Lemma reads_equal u : forall j j' y y', unkeyed u \/ scalar j -> legal j -> same j j' -> reads u j y -> reads u j' y' -> equal u y y'.
Proof.
  induction u as [| | |w| | |a IH|a IH|k a IH|k a IH]; intros j j' y y' U L S R R'; cbn [reads equal] in *.
  - now subst.
  - subst. inversion S; auto.
  - subst. inversion S; auto.
  - destruct R as (f & -> & Hr & Hn & Hm & Hp & Hf), R' as (f' & -> & Hr' & Hn' & Hm' & Hp' & Hf'). inversion S; subst f'. clear S.
    destruct f as [s|[]| |s m e]; try (transitivity 0%Z; [|symmetry]; auto; fail); try (now rewrite Hm, Hm' by reflexivity); try (now rewrite Hp, Hp' by reflexivity); try (now rewrite Hn, Hn' by reflexivity).
    + destruct (Hf eq_refl) as (q & T & C), (Hf' eq_refl) as (q' & T' & C'). pose proof (truncates_unique _ _ _ T T'). subst q'. unfold clamped in *. lia.
    + destruct (Hf eq_refl) as (q & T & C), (Hf' eq_refl) as (q' & T' & C'). pose proof (truncates_unique _ _ _ T T'). subst q'. unfold clamped in *. lia.
  - subst. inversion S; auto.
  - destruct R as (f & -> & Hf & Hn), R' as (f' & -> & Hf' & Hn'). inversion S; subst f'. inversion L as [| | |fx V| |]; subst. destruct (is_finite f) eqn:F.
    + apply (rounds_unique 24 128 one24 _ _ (sign_of f) (sf_real f)); auto.
    + rewrite Hn, Hn' by reflexivity. reflexivity.
  - destruct U as [U|U]; [|destruct R as (v & -> & _); contradiction]. destruct R as (v & -> & F), R' as (v' & -> & F'). inversion S as [|? ? Fs| | | |]; subst. inversion L as [|? Fl| | | |]; subst.
    clear S L. revert v' y' Fs F' Fl. induction F as [|j x v y Hx F IHF]; intros v' y' Fs F' Fl; inversion Fs as [|? j' ? v2 Sj Fs2]; subst; inversion F' as [|? x' ? y2 Hx' F2]; subst; constructor.
    + inversion Fl; subst. eapply IH; eauto.
    + inversion Fl; subst. eauto.
  - destruct y as [z|], y' as [z'|]; cbn [option_eqv]; auto.
    + destruct R, R'. eapply IH; eauto.
    + destruct R as [N R]. subst j'. apply N. inversion S; auto.
    + subst j. destruct R' as [N R']. apply N. inversion S; auto.
  - destruct U as [[]|U]. destruct R as (o & -> & _). contradiction.
  - destruct U as [[]|U]. destruct R as (o & -> & _). contradiction.
Qed.
(** Equality of values of a type is transitive; it is symmetric between values whose maps are maps. *)
Lemma forall2_trans {A B C} (P : A -> B -> Prop) (Q : B -> C -> Prop) (R : A -> C -> Prop) l m n : (forall a b c, In a l -> P a b -> Q b c -> R a c) -> Forall2 P l m -> Forall2 Q m n -> Forall2 R l n.
Proof.
  intros H F. revert n. induction F as [|a b l m Hab F IH]; intros n G; inversion G as [|? c ? n' Hbc G']; subst; constructor.
  - eapply H; eauto. now left.
  - apply IH; auto. intros. eapply H; eauto. now right.
Qed.
Lemma forall2_flip {A B} (P : A -> B -> Prop) (Q : B -> A -> Prop) l m : (forall a b, In a l -> P a b -> Q b a) -> Forall2 P l m -> Forall2 Q m l.
Proof. intros H F. induction F as [|a b l m Hab F IH]; constructor; [apply H; auto; now left|apply IH; intros; apply H; auto; now right]. Qed.
Lemma option_trans {A} (R : A -> A -> Prop) a b c : (forall x y z, R x y -> R y z -> R x z) -> option_eqv R a b -> option_eqv R b c -> option_eqv R a c.
Proof. intros H. destruct a, b, c; cbn; try contradiction; eauto. Qed.
Lemma option_flip {A} (R : A -> A -> Prop) a b : (forall x y, a = Some x -> R x y -> R y x) -> option_eqv R a b -> option_eqv R b a.
Proof. intros H. destruct a, b; cbn; auto. Qed.
Fixpoint mapped (u : ty) : denote u -> Prop :=
  match u return denote u -> Prop with
  | TVec a => Forall (mapped a)
  | TOption a => fun y => match y with Some z => mapped a z | None => True end
  | TPairs k a => Forall (fun kv => mapped a (snd kv))
  | TMap k a => fun m => is_map m /\ Forall (fun kv => mapped a (snd kv)) m
  | _ => fun _ => True
  end.
Lemma typed_equal_trans u : forall a b c, equal u a b -> equal u b c -> equal u a c.
Proof.
  induction u as [| | |w| | |u IH|u IH|k u IH|k u IH]; intros a b c E F; cbn [equal] in *; try congruence.
  - eapply same_trans; eauto.
  - eapply forall2_trans; eauto.
  - destruct a, b, c; cbn in *; try contradiction; eauto.
  - intros q. eapply forall2_trans; eauto.
  - destruct E as [_ E], F as [M F]. split; auto. intros q. specialize (E q). specialize (F q).
    eapply option_trans; eauto.
Qed.
Lemma typed_equal_sym u : forall a b, mapped u a -> equal u a b -> equal u b a.
Proof.
  induction u as [| | |w| | |u IH|u IH|k u IH|k u IH]; intros a b M E; cbn [equal mapped] in *; try congruence.
  - now apply same_sym.
  - revert E. apply forall2_flip. rewrite Forall_forall in M. auto.
  - destruct a, b; cbn in *; try contradiction; auto.
  - intros q. specialize (E q). revert E. apply forall2_flip. intros x y Hx. apply (at_key_In _ (key_eqb_decides k)) in Hx. rewrite Forall_forall in M. apply IH, (M _ Hx).
  - destruct M as [M F], E as [M' E]. split; auto. intros q. specialize (E q). revert E. apply option_flip. intros v y L.
    apply (lookup_some _ (key_eqb_decides k)) in L; auto. rewrite Forall_forall in F. apply IH. exact (F _ L).
Qed.
Lemma last_member {k : key_ty} (ms : list (str * json)) z l1 s j l2 l1' s' j' l2' : key_text k s z -> key_text k s' z ->
  Forall (fun m => ~ key_text k (fst m) z) l2 -> Forall (fun m => ~ key_text k (fst m) z) l2' -> ms = l1 ++ (s, j) :: l2 -> ms = l1' ++ (s', j') :: l2' -> j = j'.
Proof.
  intros K K' F F' E E'. rewrite E in E'. clear ms E. revert l1' E'. induction l1 as [|m l1 IH]; intros [|m' l1'] E'; cbn in E'.
  - congruence.
  - injection E' as <- E'. exfalso. rewrite E' in F. apply Forall_app in F as [_ F]. inversion F; subst. cbn in *. contradiction.
  - injection E' as -> E'. exfalso. rewrite <- E' in F'. apply Forall_app in F' as [_ F']. inversion F'; subst. cbn in *. contradiction.
  - injection E' as -> E'. eauto.
Qed.
Lemma last_for_some {V} (k : key_ty) (R : json -> V -> Prop) ms x v y : last_for k R ms x v -> v = Some y -> exists j, R j y.
Proof. intros H ->. destruct H as (l1 & s & j & l2 & _ & _ & H & _). eauto. Qed.
Lemma last_for_same {V} (k : key_ty) (R : json -> V -> Prop) (Q : V -> V -> Prop) ms x v v' : (forall s j a b, In (s, j) ms -> R j a -> R j b -> Q a b) ->
  last_for k R ms x v -> last_for k R ms x v' -> option_eqv Q v v'.
Proof.
  intros T H H'. destruct v as [a|], v' as [b|]; cbn [option_eqv last_for] in *; auto.
  - destruct H as (l1 & s & j & l2 & E & K & V0 & F), H' as (l1' & s' & j' & l2' & E' & K' & V' & F'). assert (j = j') by (eapply last_member; [exact K|exact K'|exact F|exact F'|exact E|exact E']). subst j'.
    apply (T s j); auto. rewrite E. apply in_elt.
  - destruct H as (l1 & s & j & l2 & E & K & _ & _). rewrite E in H'. apply Forall_app in H' as [_ H']. inversion H'; subst. cbn in *. contradiction.
  - destruct H' as (l1 & s & j & l2 & E & K & _ & _). rewrite E in H. apply Forall_app in H as [_ H]. inversion H; subst. cbn in *. contradiction.
Qed.
Lemma reads_mapped u : forall j y, reads u j y -> mapped u y.
Proof.
  induction u as [| | |w| | |u IH|u IH|k u IH|k u IH]; intros j y R; cbn [reads mapped] in *; auto.
  - destruct R as (v & _ & F). induction F; constructor; eauto.
  - destruct y; auto. destruct R. eauto.
  - destruct R as (o & _ & F). induction F as [|? ? ? ? [_ H] F IHF]; constructor; eauto.
  - destruct R as (o & _ & M & H). split; auto. apply Forall_forall. intros [q v] Hin. apply (lookup_some _ (key_eqb_decides k)) in Hin; auto. destruct (last_for_some _ _ _ _ _ _ (H q) Hin) as [j' R]. eauto.
Qed.
Lemma pairs_same {V} (k : key_ty) (R : json -> V -> Prop) (Q : V -> V -> Prop) ms y y' q : (forall m a b, In m ms -> R (snd m) a -> R (snd m) b -> Q a b) ->
  Forall2 (fun m x => key_text k (fst m) (fst x) /\ R (snd m) (snd x)) ms y -> Forall2 (fun m x => key_text k (fst m) (fst x) /\ R (snd m) (snd x)) ms y' ->
  Forall2 Q (at_key (key_eqb k) q y) (at_key (key_eqb k) q y').
Proof.
  intros H F. revert y'. induction F as [|m x ms y [K1 V1] F IHF]; intros y' F'; inversion F' as [|? x' ? y2 [K2 V2] F2]; subst; [constructor|].
  assert (E : fst x = fst x') by (apply keys_are_read_as_these_texts in K1, K2; congruence). destruct x as [q1 v1], x' as [q2 v2]. cbn [fst snd] in *. subst q2.
  assert (G : Forall2 Q (at_key (key_eqb k) q y) (at_key (key_eqb k) q y2)) by (apply IHF; auto; intros; eapply H; eauto; now right).
  rewrite !at_key_cons. destruct (key_eqb k q q1); auto. constructor; auto. eapply H; eauto. now left.
Qed.
Lemma reads_one u : forall j y y', legal j -> reads u j y -> reads u j y' -> equal u y y'.
Proof.
  induction u as [| | |w| | |a IH|a IH|k a IH|k a IH]; intros j y y' L R R'; try (apply (reads_equal _ j j); [left; exact I|exact L|apply same_refl|exact R|exact R']); cbn [reads equal] in *.
  - destruct R as (v & -> & F), R' as (v' & [= <-] & F'). inversion L as [|? Fl| | | |]; subst. clear L. revert y' F'.
    induction F as [|j x v y Hx F IHF]; intros y' F'; inversion F' as [|? x' ? y2 Hx' F2]; subst; inversion Fl; subst; constructor; eauto.
  - destruct y as [z|], y' as [z'|]; cbn [option_eqv]; auto.
    + destruct R, R'. eapply IH; eauto.
    + destruct R. congruence.
    + destruct R'. congruence.
  - destruct R as (o & -> & F), R' as (o' & [= <-] & F'). inversion L as [? N Fo| | | | |]; subst. assert (Lm : Forall (fun m => legal (snd m)) (members o)).
    { clear - Fo. induction Fo as [|[s [v w]] o (_ & Lv & Lw) Fo IH]; [constructor|]. cbn [members flat_map]. apply Forall_app. split; auto. apply Forall_map. cbn [fst snd] in *.
      apply Forall_app. split; [now apply Forall_rev|auto]. }
    intros q. eapply pairs_same; [|exact F|exact F']. intros m z z' Hin. rewrite Forall_forall in Lm. apply IH. exact (Lm _ Hin).
  - destruct R as (o & -> & M & H), R' as (o' & [= <-] & M' & H'). split; auto. intros q. specialize (H q). specialize (H' q).
    revert H H'. apply last_for_same. intros s j z z' Hin. apply (IH j). inversion L as [? N Fo| | | | |]; subst.
    unfold newest in Hin. apply in_map_iff in Hin as (e & [= <- <-] & Hin). rewrite Forall_forall in Fo. apply (Fo _ Hin).
Qed.
Lemma json_reads_equal u x j j' y y' : unambiguous u x -> legal x -> same x j -> same x j' -> fits u j -> reads u j y -> reads u j' y' -> equal u y y'.
Proof.
  intros U L S S' F R R'. apply converts_iff_fits in F as [z Ez].
  destruct (conversion_any_order u j x (same_legal _ _ S L) (same_sym _ _ S) z Ez) as (z0 & E0 & _).
  destruct (conversion_any_order u x j L S z0 E0) as (z1 & E1 & Q1). assert (z1 = z) by congruence. subst z1.
  destruct (conversion_any_order u x j' L S' z0 E0) as (z' & E' & Q').
  pose proof (reads_one u j z y (same_legal _ _ S L) (converted_value _ _ _ Ez) R) as P1.
  pose proof (reads_one u j' z' y' (same_legal _ _ S' L) (converted_value _ _ _ E') R') as P2.
  pose proof (reads_mapped u _ _ (converted_value _ _ _ E0)) as M0.
  assert (Q : equal u z0 y) by (eapply typed_equal_trans; [exact (Q1 U)|exact P1]).
  eapply typed_equal_trans; [apply typed_equal_sym; [exact M0|exact Q]|]. eapply typed_equal_trans; [exact (Q' U)|exact P2].
Qed.
Lemma not_null_equal w (core : forall u, denote u -> Prop) : forall u,
  (forall v, under_options u = v -> plain v -> forall y y', core v y -> core v y' -> equal v y y') ->
  forall y y', not_null w core u y -> not_null w core u y' -> equal u y y'.
Proof.
  intros u. induction u as [| | |w0| | |a IH|a IH|k a IH|k a IH]; intros H y y' E E'; try (apply (H _ eq_refl I); [exact E|exact E']).
  - cbn in *. eapply same_trans; [apply same_sym; exact E|exact E'].
  - cbn [not_null] in *. destruct y as [z|], y' as [z'|]; try contradiction. cbn. apply IH; auto.
Qed.
Section Images.
  Context {k k' : key_ty} {A B : Type} (R : A -> B -> Prop) (Q : B -> B -> Prop).
  Let image (x : key k * A) (y : key k' * B) : Prop := key_becomes k k' (fst x) (fst y) /\ R (snd x) (snd y).
  Lemma key_becomes_unique q z z' : key_becomes k k' q z -> key_becomes k k' q z' -> z = z'.
  Proof. unfold key_becomes. intros H H'. apply keys_are_read_as_these_texts in H, H'. congruence. Qed.
  Lemma at_image l0 y q z : (forall x, In x l0 -> key_becomes k k' (fst x) z -> fst x = q) -> key_becomes k k' q z -> Forall2 image l0 y ->
    Forall2 R (at_key (key_eqb k) q l0) (at_key (key_eqb k') z y).
  Proof.
    intros H Hq F. pose proof (key_eqb_decides k) as D. pose proof (key_eqb_decides k') as D'.
    induction F as [|[q1 v] [z1 u] l0 y [K V] F IH]; [constructor|]. cbn [fst snd] in *. rewrite !at_key_cons.
    assert (IH' := IH (fun x Hx => H x (or_intror Hx))).
    destruct (key_eqb k q q1) eqn:E.
    - apply D in E. subst q1. rewrite (key_becomes_unique _ _ _ Hq K), (eqb_refl' _ D'). now constructor; auto; rewrite <- (key_becomes_unique _ _ _ Hq K).
    - destruct (key_eqb k' z z1) eqn:E'; auto. apply D' in E'. subst z1. exfalso. assert (Q1 : q1 = q) by (apply (H (q1, v)); [now left|exact K]). subst.
      rewrite (eqb_refl' _ D) in E. discriminate.
  Qed.
  Lemma at_no_image l0 y z : (forall x, In x l0 -> ~ key_becomes k k' (fst x) z) -> Forall2 image l0 y -> at_key (key_eqb k') z y = [].
  Proof.
    intros H F. pose proof (key_eqb_decides k') as D'. induction F as [|[q1 v] [z1 u] l0 y [K V] F IH]; auto. cbn [fst snd] in *. rewrite at_key_cons.
    destruct (key_eqb k' z z1) eqn:E'; [|apply IH; intros x Hx; apply H; now right]. apply D' in E'. subst z1. exfalso. apply (H (q1, v)); [now left|exact K].
  Qed.
End Images.
Section Determined.
  Context {k k' : key_ty} {A B : Type} (R : A -> B -> Prop) (Q : B -> B -> Prop) (l : list (key k * A)).
  Hypothesis AP : @apart_as k k' _ l.
  Hypothesis RQ : forall q v u u', In (q, v) l -> R v u -> R v u' -> Q u u'.
  Lemma becomes_decided z : (exists x, In x l /\ key_becomes k k' (fst x) z) \/ (forall x, In x l -> ~ key_becomes k k' (fst x) z).
  Proof.
    pose proof (key_eqb_decides k') as D'. clear AP RQ. induction l as [|[q v] r IH]; [right; intros x []|].
    destruct (read (key_codec_of k') (show (key_codec_of k) q)) as [w|] eqn:E; [destruct (key_eqb k' z w) eqn:Ez|].
    1: { apply D' in Ez. subst w. left. exists (q, v). split; [now left|]. now apply keys_are_read_as_these_texts. }
    all: destruct IH as [(x & Hx & Kx)|H]; [left; exists x; split; auto; now right|right; intros x [<-|Hx] C; [apply keys_are_read_as_these_texts in C; cbn [fst] in C; rewrite E in C|now apply (H x)]].
    - injection C as ->. rewrite (eqb_refl' _ D') in Ez. discriminate.
    - discriminate.
  Qed.
  Lemma values_agree vs us us' : (forall v, In v vs -> exists q, In (q, v) l) -> Forall2 R vs us -> Forall2 R vs us' -> Forall2 Q us us'.
  Proof.
    intros H F. revert us'. induction F as [|v u vs us Hv F IH]; intros us' F'; inversion F' as [|? u' ? us2 Hv' F2]; subst; constructor.
    - destruct (H v) as [q Hq]; [now left|]. eapply RQ; eauto.
    - apply IH; auto. intros w Hw. apply H. now right.
  Qed.
  Lemma pairs_determined y y' : pairs_become R l y -> pairs_become R l y' -> pairs_eqv (key_eqb k') Q y y'.
  Proof.
    intros (l0 & W & F) (l1 & W' & F') z. pose proof (key_eqb_decides k) as D. destruct (becomes_decided z) as [([q v] & Hx & Kx)|H].
    - cbn [fst] in Kx.
      assert (U : forall l2, reordered (key_eqb k) l l2 -> forall x, In x l2 -> key_becomes k k' (fst x) z -> fst x = q).
      { intros l2 W2 [q2 v2] Hin K2. apply (reordered_in _ D _ _ _ _ W2) in Hin. exact (AP _ _ _ Hin Hx K2 Kx). }
      apply (values_agree (at_key (key_eqb k) q l)).
      + intros w Hw. exists q. now apply (at_key_In _ D).
      + rewrite <- (W q). apply at_image; auto. now apply U.
      + rewrite <- (W' q). apply at_image; auto. now apply U.
    - assert (U : forall l2, reordered (key_eqb k) l l2 -> forall x, In x l2 -> ~ key_becomes k k' (fst x) z).
      { intros l2 W2 [q2 v2] Hin. apply (reordered_in _ D _ _ _ _ W2) in Hin. exact (H _ Hin). }
      rewrite (at_no_image R l0 y z (U _ W) F), (at_no_image R l1 y' z (U _ W') F'). constructor.
  Qed.
  Lemma map_determined y y' : pairs_become_map R l y -> pairs_become_map R l y' -> map_eqv (key_eqb k') Q y y'.
  Proof.
    intros (l0 & l1 & W & F & Y) (l0' & l1' & W' & F' & Y'). pose proof (key_eqb_decides k) as D. split; [apply Y'|]. intros z. destruct Y as [_ Y], Y' as [_ Y'].
    rewrite Y, Y'. assert (G : Forall2 Q (at_key (key_eqb k') z l1) (at_key (key_eqb k') z l1')).
    { destruct (becomes_decided z) as [([q v] & Hx & Kx)|H].
      - cbn [fst] in Kx.
        assert (U : forall l2, latest (key_eqb k) l l2 -> forall x, In x l2 -> key_becomes k k' (fst x) z -> fst x = q).
        { intros l2 W2 [q2 v2] Hin K2. apply (latest_in_source _ D _ _ _ _ W2) in Hin. exact (AP _ _ _ Hin Hx K2 Kx). }
        assert (E : at_key (key_eqb k) q l0' = at_key (key_eqb k) q l0).
        { destruct (at_key (key_eqb k) q l0) as [|w r] eqn:E0.
          - apply (at_key_notin _ D). intros C. apply in_map_iff in C as ([q1 v1] & E1 & Hin). cbn in E1. subst q1. apply (latest_same _ D _ _ _ _ _ W' W) in Hin.
            apply (at_key_In _ D) in Hin. rewrite E0 in Hin. destruct Hin.
          - assert (Hin : In (q, w) l0) by (apply (at_key_In _ D); rewrite E0; now left). rewrite (at_key_in _ D q w l0 (proj1 W) Hin) in E0. injection E0 as <-.
            apply (at_key_in _ D); [apply W'|]. exact (latest_same _ D _ _ _ _ _ W W' Hin). }
        apply (values_agree (at_key (key_eqb k) q l0)).
        + intros w Hw. exists q. apply (at_key_In _ D) in Hw. exact (latest_in_source _ D _ _ _ _ W Hw).
        + apply at_image; auto. now apply U.
        + rewrite <- E. apply at_image; auto. now apply U.
      - assert (U : forall l2, latest (key_eqb k) l l2 -> forall x, In x l2 -> ~ key_becomes k k' (fst x) z).
        { intros l2 W2 [q2 v2] Hin. apply (latest_in_source _ D _ _ _ _ W2) in Hin. exact (H _ Hin). }
        rewrite (at_no_image R l0 l1 z (U _ W) F), (at_no_image R l0' l1' z (U _ W') F'). constructor. }
    apply last_of_forall2 in G. destruct (last_of (at_key (key_eqb k') z l1)), (last_of (at_key (key_eqb k') z l1')); auto.
  Qed.
End Determined.
Lemma legal_double t x f : legal_value t x -> as_double t x f -> legal (JNum f).
Proof. intros L A. rewrite <- (written_double t x f L A). now apply to_json_legal. Qed.
Theorem what_it_becomes_is_determined t : forall u x y y', legal_value t x -> clear t u x -> becomes t u x y -> becomes t u x y' -> equal u y y'.
Proof.
  induction t as [| | |w| | |a IH|a IH|k a IH|k a IH]; intros u x y y' L C E E'; cbn [becomes clear] in *.
  - destruct E as (j & S & F & R), E' as (j' & S' & _ & R'). exact (json_reads_equal u x j j' y y' C L S S' F R R').
  - exact (reads_equal u (JStr x) (JStr x) y y' (or_intror I) (legal_str _ L) (same_refl _) E E').
  - exact (reads_equal u (JBool x) (JBool x) y y' (or_intror I) (legal_bool _) (same_refl _) E E').
  - destruct E as (f & A & R), E' as (f' & A' & R'). assert (E : f' = f) by (pose proof (written_double (TInt w) _ _ L A); pose proof (written_double (TInt w) _ _ L A'); congruence). subst f'.
    exact (reads_equal u (JNum f) (JNum f) y y' (or_intror I) (legal_double (TInt w) _ _ L A) (same_refl _) R R').
  - destruct E as (f & A & R), E' as (f' & A' & R'). assert (E : f' = f) by (pose proof (written_double TF64 _ _ L A); pose proof (written_double TF64 _ _ L A'); congruence). subst f'.
    exact (reads_equal u (JNum f) (JNum f) y y' (or_intror I) (legal_double TF64 _ _ L A) (same_refl _) R R').
  - destruct E as (f & A & R), E' as (f' & A' & R'). assert (E : f' = f) by (pose proof (written_double TF32 _ _ L A); pose proof (written_double TF32 _ _ L A'); congruence). subst f'.
    exact (reads_equal u (JNum f) (JNum f) y y' (or_intror I) (legal_double TF32 _ _ L A) (same_refl _) R R').
  - revert y y' E E'. apply not_null_equal. intros v Ev P y y' E E'. rewrite Ev in C. destruct v as [| | |w| | |b|b|k' b|k' b]; try contradiction.
    cbn [legal_value equal] in *. clear - IH L C E E'. revert y y' E E'. induction L as [|z x Hz L IHx]; intros y y' E E'; inversion E as [|? r ? y2 Er E2]; subst; inversion E' as [|? r' ? y2' Er' E2']; subst; constructor.
    + inversion C; subst. eapply IH; eauto.
    + inversion C; subst. eauto.
  - destruct x as [z|].
    + eapply IH; eauto.
    + exact (reads_equal u JNull JNull y y' (or_intror I) legal_null (same_refl _) E E').
  - revert y y' E E'. apply not_null_equal. intros v Ev P y y' E E'. rewrite Ev in C. cbn [legal_value] in L.
    destruct v as [| | |w| | |b|b|k' b|k' b]; try contradiction; destruct C as [C1 C2]; cbn [equal].
    + revert E E'. apply pairs_determined; auto. intros q v0 r r' Hin. rewrite Forall_forall in L, C2. apply IH; [apply (L _ Hin)|exact (C2 _ Hin)].
    + revert E E'. apply map_determined; auto. intros q v0 r r' Hin. rewrite Forall_forall in L, C2. apply IH; [apply (L _ Hin)|exact (C2 _ Hin)].
  - revert y y' E E'. apply not_null_equal. intros v Ev P y y' E E'. rewrite Ev in C. cbn [legal_value] in L. destruct L as [M L].
    destruct v as [| | |w| | |b|b|k' b|k' b]; try contradiction; destruct C as [C1 C2]; cbn [equal].
    + revert E E'. apply pairs_determined; auto. intros q v0 r r' Hin. rewrite Forall_forall in L, C2. apply IH; [apply (L _ Hin)|exact (C2 _ Hin)].
    + revert E E'. apply map_determined; auto. intros q v0 r r' Hin. rewrite Forall_forall in L, C2. apply IH; [apply (L _ Hin)|exact (C2 _ Hin)].
Qed.

(** * Values and texts *)
Theorem types_may_change t u x y j : legal_value t x -> clear t u x -> becomes t u x y -> same (to_json (codec_of t) x) j ->
  exists y', from_json (codec_of u) j = Ok y' /\ equal u y y'.
Proof.
  intros L C E S. assert (Y : exists y', from_json (codec_of u) j = Ok y') by (apply (reading_succeeds_iff t u x j); eauto). destruct Y as [y' Ey]. exists y'. split; auto.
  eapply what_it_becomes_is_determined; eauto. eapply what_is_read; eauto.
Qed.
Theorem other_types_fail t u x j : legal_value t x -> (forall y, ~ becomes t u x y) -> same (to_json (codec_of t) x) j ->
  exists e, from_json (codec_of u) j = Err e /\ kind e = ConvertError.
Proof.
  intros L N S. destruct (conversions_are_total u j) as [[y E]|[e E]].
  - exfalso. apply (N y). eapply what_is_read; eauto.
  - exists e. split; auto. eapply conversion_errors_are_convert_errors; eauto.
Qed.
Lemma written_text order order' t x : reorders order -> reorders order' -> legal_value t x -> finite (to_json (codec_of t) x) = true -> balanced (to_json (codec_of t) x) = true ->
  exists j, same (to_json (codec_of t) x) j /\ forall u, decode order' (codec_of u) (encode order (codec_of t) x) = from_json (codec_of u) j.
Proof.
  intros R R' L F B. pose proof (to_json_legal t x L) as Lj. rewrite encode_reorders by auto. pose proof (print_parse_legal _ Lj F) as P. rewrite B in P.
  exists (order' (canon (to_json (codec_of t) x))). split; [eapply same_trans; [apply canon_same|apply R']|]. intros u. unfold decode, convert. now rewrite P.
Qed.
(** The text that a value is written as, read at another type. *)
Theorem text_at_another_type order order' t u x : reorders order -> reorders order' -> legal_value t x ->
  finite (to_json (codec_of t) x) = true -> balanced (to_json (codec_of t) x) = true ->
  (forall y, decode order' (codec_of u) (encode order (codec_of t) x) = Ok y -> becomes t u x y) /\
  ((exists y, becomes t u x y) -> exists y, decode order' (codec_of u) (encode order (codec_of t) x) = Ok y) /\
  ((forall y, ~ becomes t u x y) -> exists e, decode order' (codec_of u) (encode order (codec_of t) x) = Err e /\ kind e = ConvertError) /\
  (clear t u x -> forall y, becomes t u x y -> exists y', decode order' (codec_of u) (encode order (codec_of t) x) = Ok y' /\ equal u y y').
Proof.
  intros R R' L F B. destruct (written_text order order' t x R R' L F B) as (j & S & E). rewrite E. split; [|split; [|split]].
  - intros y Ey. eapply what_is_read; eauto.
  - now apply reading_succeeds_iff.
  - intros N. eapply other_types_fail; eauto.
  - intros C y H. eapply types_may_change; eauto.
Qed.

(** * Some changes of type *)
(** Its own type gives the value back. *)
Theorem own_type_gives_it_back t x : legal_value t x -> survives t x -> exists y, becomes t t x y /\ equal t x y.
Proof.
  intros L S. destruct (values_round_trip t x L S _ (same_refl _)) as (y & E & Q). exists y. split; auto. eapply what_is_read; eauto. apply same_refl.
Qed.
(** A type becomes optional. *)
Theorem some_of_it t : forall u x y, to_json (codec_of t) x <> JNull -> becomes t u x y -> becomes t (TOption u) x (Some y).
Proof.
  induction t as [| | |w| | |a IH|a IH|k a IH|k a IH]; intros u x y N E; cbn [becomes not_null] in *; auto.
  - destruct E as (j & S & F & R). exists j. split; auto. assert (j <> JNull) by (eapply same_not_null; eauto). split; [rewrite fits_cases; split; [destruct j; exact I|now right]|split; auto].
  - split; [discriminate|auto].
  - split; [discriminate|auto].
  - destruct E as (f & A & R). exists f. split; auto. split; [discriminate|auto].
  - destruct E as (f & A & R). exists f. split; auto. split; [discriminate|auto].
  - destruct E as (f & A & R). exists f. split; auto. split; [discriminate|auto].
  - destruct x as [z|]; [|now contradiction N]. cbn in N. auto.
Qed.
(** And back, unless it is null. *)
Theorem out_of_some a u x y : becomes (TOption a) u (Some x) y <-> becomes a u x y.
Proof. reflexivity. Qed.
(** Everything can be read as [Json]. *)
Theorem everything_is_json t x : legal_value t x -> becomes t TJson x (to_json (codec_of t) x).
Proof. intros L. apply (what_is_read t TJson x (to_json (codec_of t) x)); auto using same_refl. Qed.
(** Integers move between types, clamped to the new one. *)
Theorem integers_are_clamped t t' n m : in_range t n -> (Z.abs n <= 2 ^ 53)%Z -> becomes (TInt t) (TInt t') n m <-> clamped (least t') (greatest t') n m.
Proof.
  intros Hn Hs. destruct (integer_to_nearest_double t n Hn) as (f & E & Nf & Sf). cbn in E. injection E as E.
  assert (Ex : sf_real f = IZR n) by (rewrite <- E; now apply of_Z_exact). pose proof (range_nonempty t') as Rg.
  cbn [becomes]. split.
  - intros (g & A & R). assert (g = f). { pose proof (written_double (TInt t) n g Hn A) as W. cbn in W. congruence. } subst g.
    cbn [reads] in R. destruct R as (f' & [= <-] & _ & _ & _ & _ & H). destruct Nf as (_ & Ff & _). destruct (H Ff) as (q & T & C). rewrite Ex in T.
    pose proof (truncates_unique _ _ _ T (truncates_IZR n)). now subst q.
  - intros C. exists f. split; [split; auto|]. cbn [reads]. exists f. destruct Nf as (Vf & Ff & _). split; auto. split; [unfold in_range, clamped in *; lia|].
    split; [intros ->; discriminate|]. split; [intros ->; discriminate|]. split; [intros ->; discriminate|]. intros _. exists n. split; auto. rewrite Ex. apply truncates_IZR.
Qed.
Theorem wider_integers t t' n : in_range t n -> (Z.abs n <= 2 ^ 53)%Z -> in_range t' n -> becomes (TInt t) (TInt t') n n.
Proof. intros H Hs H'. apply integers_are_clamped; auto. unfold clamped, in_range in *. lia. Qed.
(** An integer as a float, a float as a wider float. *)
Theorem integers_as_floats t n f : in_range t n -> becomes (TInt t) TF64 n f <-> (nearest_even 53 1024 (IZR n) f /\ sign_of f = (n <? 0)%Z).
Proof. intros H. cbn. split; [intros (g & A & [= ->]); auto|intros A; exists f; auto]. Qed.
Theorem floats_as_wider_floats g f : valid_f32 g = true -> is_finite g = true -> becomes TF32 TF64 g f <-> (valid_f64 f = true /\ is_finite f = true /\ sf_real f = sf_real g /\ sign_of f = sign_of g).
Proof. intros V F. cbn. rewrite F. split; [intros (h & [A _] & [= ->]); auto|intros A; exists f; split; auto; split; [auto|discriminate]]. Qed.
(** A list element by element; a map entry by entry, as a map, as pairs, with other keys. *)
Theorem lists_element_by_element a b x y : becomes (TVec a) (TVec b) x y <-> Forall2 (becomes a b) x y.
Proof. reflexivity. Qed.
Theorem maps_as_pairs k a b k' x y : is_map x ->
  Forall2 (fun p q => key_becomes k k' (fst p) (fst q) /\ becomes a b (snd p) (snd q)) x y -> becomes (TMap k a) (TPairs k' b) x y.
Proof. intros M F. cbn. exists x. split; auto. intros q. reflexivity. Qed.
Theorem maps_as_maps k a b k' x y : is_map x -> is_map y ->
  Forall2 (fun p q => key_becomes k k' (fst p) (fst q) /\ becomes a b (snd p) (snd q)) x y -> becomes (TMap k a) (TMap k' b) x y.
Proof. intros M M' F. cbn. exists x, y. split; [apply (map_latest _ (key_eqb_decides k)); exact M|]. split; auto. apply (map_latest _ (key_eqb_decides k')); exact M'. Qed.
(** Nothing else: no strings from numbers, no scalars from lists, null only at options. *)
Theorem kinds_do_not_mix s b :
  (forall w n, ~ becomes TString (TInt w) s n) /\ (forall c, ~ becomes TBool TString b c) /\
  (forall a l x, ~ becomes (TVec a) TF64 l x) /\ (forall n v, ~ becomes (TInt n) (TVec TJson) 0%Z v) /\ (forall x, ~ becomes (TOption TBool) TBool None x).
Proof.
  split; [intros w n (f & [=] & _)|]. split; [intros c [=]|]. split; [intros a l x []|]. split; [intros n v (f & A & w & [=] & _)|]. intros x [=].
Qed.

(** Examples. *)
Definition retype_from : ty := TMap (KInt I16) (TOption (TVec (TInt U16))).
Definition retype_to : ty := TPairs KString (TOption (TOption (TVec TF64))).
Definition retype_value : denote retype_from := [((-7)%Z, Some [300%Z; 2%Z]); (12%Z, None)].
Example retype_example : legal_value retype_from retype_value /\ clear retype_from retype_to retype_value /\
  finite (to_json (codec_of retype_from) retype_value) = true /\ balanced (to_json (codec_of retype_from) retype_value) = true /\
  (exists y, becomes retype_from retype_to retype_value y) /\
  from_json (codec_of retype_to) (to_json (codec_of retype_from) retype_value) = Ok [(lit "-7", Some (Some [f64_of_Z 300; f64_of_Z 2])); (lit "12", None)].
Proof.
  assert (L : legal_value retype_from retype_value).
  { cbn. split; [repeat constructor; cbn; intuition discriminate|]. unfold in_range. repeat constructor; vm_compute; discriminate. }
  split; auto. split.
  - cbn. split.
    + intros a b z Ha Hb H1 H2. unfold key_becomes in *. cbn in H1, H2, Ha, Hb. destruct Ha as [<-|[<-|[]]], Hb as [<-|[<-|[]]]; auto; rewrite H1 in H2; vm_compute in H2; discriminate.
    + repeat constructor.
  - split; [reflexivity|]. split; [reflexivity|]. split; [|vm_compute; reflexivity].
    apply (reading_succeeds_iff retype_from retype_to retype_value _ L (same_refl _)). vm_compute. eauto.
Qed.
(** The texts 1 and 01 are read as one key: what is read then depends on the order of the hash map. *)
Definition colliding : list (str * bool) := [(lit "1", true); (lit "01", false)].
Example colliding_keys : becomes (TMap KString TBool) (TMap (KInt U8) TBool) colliding [(1%Z, true)] /\
  becomes (TMap KString TBool) (TMap (KInt U8) TBool) colliding [(1%Z, false)] /\ ~ clear (TMap KString TBool) (TMap (KInt U8) TBool) colliding.
Proof.
  assert (L : legal_value (TMap KString TBool) colliding) by (cbn; split; repeat constructor; cbn; intuition discriminate).
  assert (S : same (to_json (codec_of (TMap KString TBool)) colliding) (JObj [(lit "01", (JBool false, [])); (lit "1", (JBool true, []))])) by apply same_refl.
  assert (S' : same (to_json (codec_of (TMap KString TBool)) colliding) (JObj [(lit "1", (JBool true, [])); (lit "01", (JBool false, []))])).
  { apply (same_obj _ [(lit "1", (JBool true, [])); (lit "01", (JBool false, []))]); [apply perm_swap|]. repeat constructor. }
  assert (B1 : becomes (TMap KString TBool) (TMap (KInt U8) TBool) colliding [(1%Z, true)]) by (eapply what_is_read; [exact L|exact S|vm_compute; reflexivity]).
  assert (B2 : becomes (TMap KString TBool) (TMap (KInt U8) TBool) colliding [(1%Z, false)]) by (eapply what_is_read; [exact L|exact S'|vm_compute; reflexivity]).
  split; auto. split; auto. intros C. pose proof (what_it_becomes_is_determined _ _ _ _ _ L C B1 B2) as Q. cbn in Q. destruct Q as [_ Q]. specialize (Q 1%Z). vm_compute in Q. discriminate.
Qed.

(** * Structs whose fields change their types *)
Theorem types_are_read_at t u v y : legal_value t v -> clear t u v -> becomes t u v y -> read_at (codec_of t) (codec_of u) v (equal u y).
Proof. intros L C B j S. eapply types_may_change; eauto. Qed.
Theorem fields_may_change_types name name' fs fs' x j (fine : forall f, f_type f -> Prop) : NoDup (used_keys fs) -> fields_read fs x fs' fine ->
  same (to_json (derived name fs) x) j ->
  exists x', from_json (derived name' fs') j = Ok x' /\ forall f' w, has fs' x' f' w -> if f_ignored f' then w = f_default f' else fine f' w.
Proof.
  intros N H S. destruct (derived_members name fs x N) as (o & E & So & G). rewrite E in S. assert (exists o', j = JObj o') as [o' ->] by (inversion S; eauto).
  pose proof (same_get o o' (keys_sorted_NoDup _ So) S) as SG.
  assert (M : is_map (field_jsons fs x)) by (unfold is_map; now rewrite field_jsons_keys).
  assert (Q : exists x', struct_reads o' fs' x' /\ each_field fine fs' x').
  { clear E. unfold fields_read in H. induction fs' as [|f' fs' IH]; [now exists tt|].
    destruct IH as (x' & R & F); [intros g Hg; apply H; now right|]. destruct (f_ignored f') eqn:Ig.
    - exists (f_default f', x'). cbn. rewrite Ig. split; [split; auto|split; [discriminate|auto]].
    - destruct (H f' (or_introl eq_refl) Ig) as (f & v & Hv & If & Ek & Rd). pose proof (has_field_jsons _ _ _ _ Hv If) as Hin.
      apply (lookup_some str_eqb str_dec _ _ _ M) in Hin. specialize (SG (f_key f)). rewrite G, Hin in SG. cbn in SG.
      destruct (hm_get (f_key f) o') as [[w r]|] eqn:Eg; [|contradiction]. destruct SG as [Sw _]. cbn in Sw. destruct (Rd _ Sw) as (u & Eu & Fu).
      exists (u, x'). cbn. rewrite Ig. split; [split; auto|split; auto]. exists w. split; auto. now rewrite <- Ek, member_get, Eg. }
  destruct Q as (x' & R & F). exists x'. split; [apply derived_reads; eauto|]. intros f' w C.
  induction C as [f' r w x'|g r u x' f' w C IH]; cbn in R, F; destruct R as [R1 R2], F as [F1 F2]; [|apply IH; auto; intros h Hh; apply H; now right].
  destruct (f_ignored f'); auto.
Qed.
(** The text that a struct is written as, read as a struct whose fields have other types. *)
Theorem documents_outlive_types order order' name name' fs fs' x (fine : forall f, f_type f -> Prop) : reorders order -> reorders order' -> NoDup (used_keys fs) ->
  legal (to_json (derived name fs) x) -> finite (to_json (derived name fs) x) = true -> balanced (to_json (derived name fs) x) = true -> fields_read fs x fs' fine ->
  exists x', decode order' (derived name' fs') (encode order (derived name fs) x) = Ok x' /\ forall f' w, has fs' x' f' w -> if f_ignored f' then w = f_default f' else fine f' w.
Proof.
  intros R R' N L F B H. pose proof (print_parse_legal _ L F) as P. rewrite B in P. unfold decode, convert. rewrite encode_reorders by auto. rewrite P. cbn [bind].
  apply (fields_may_change_types name name' fs fs' x _ fine N H). eapply same_trans; [apply canon_same|apply R'].
Qed.
(** A later program: the age is wider and optional, the scores are floats, the name is gone. *)
Definition old_fields : list field :=
  [mkField (lit "name") (lit "name") false str c_string []; mkField (lit "age") (lit "age") false Z (codec_of (TInt U8)) 0%Z;
   mkField (lit "scores") (lit "scores") false _ (codec_of (TVec (TInt I32))) []].
Definition new_fields : list field :=
  [mkField (lit "points") (lit "scores") false _ (codec_of (TVec TF64)) []; mkField (lit "age") (lit "age") false _ (codec_of (TOption (TInt U64))) None].
Definition old_value : struct_value old_fields := (lit "Ann", (40%Z, ([3%Z; (-1)%Z], tt))).
Example old_documents_are_read : exists x', decode canon (derived (lit "New") new_fields) (encode canon (derived (lit "Old") old_fields) old_value) = Ok x' /\
  forall f' w, has new_fields x' f' w -> if f_ignored f' then w = f_default f' else
    (f_key f' = lit "scores" -> to_json (f_codec f') w = JArr [JNum (f64_of_Z 3); JNum (f64_of_Z (-1))]) /\ (f_key f' = lit "age" -> to_json (f_codec f') w = JNum (f64_of_Z 40)).
Proof.
  apply (documents_outlive_types canon canon (lit "Old") (lit "New") old_fields new_fields old_value
    (fun f' w => (f_key f' = lit "scores" -> to_json (f_codec f') w = JArr [JNum (f64_of_Z 3); JNum (f64_of_Z (-1))]) /\ (f_key f' = lit "age" -> to_json (f_codec f') w = JNum (f64_of_Z 40)))).
  - apply reorders_canon.
  - apply reorders_canon.
  - cbn. repeat constructor; cbn; intuition discriminate.
  - vm_compute. repeat constructor; cbn; intuition discriminate.
  - reflexivity.
  - reflexivity.
  - intros f' [<-|[<-|[]]] _.
    + exists (mkField (lit "scores") (lit "scores") false _ (codec_of (TVec (TInt I32))) []), [3%Z; (-1)%Z]. split; [apply has_later, has_later, has_here|]. split; auto. split; auto.
      intros j S. cbn in S. inversion S as [|? v F| | | |]; subst. inversion F as [|? ? ? ? S1 F1]; subst. inversion F1 as [|? ? ? ? S2 F2]; subst. inversion F2; subst. inversion S1; subst. inversion S2; subst.
      cbn. eexists. split; [reflexivity|]. split; [reflexivity|discriminate].
    + exists (mkField (lit "age") (lit "age") false Z (codec_of (TInt U8)) 0%Z), 40%Z. split; [apply has_later, has_here|]. split; auto. split; auto.
      intros j S. cbn in S. inversion S; subst. exists (Some 40%Z). split; [vm_compute; reflexivity|]. split; [discriminate|reflexivity].
Qed.

(** What [ToJson] produces (C46). *)
From Verif Require Import Base F64 Json Convert SpecNumber SpecValue SpecConvert SpecErrors SpecWrites MapProofs CanonProofs ConvertNumProofs KeyProofs ConvertProofs PropsConvert.
From Coq Require Import Floats.SpecFloat.
Open Scope N_scope.
Notation is_finite := F64.is_finite.

Lemma members_at o s : keys_sorted o = true -> at_key str_eqb s (members o) = match hm_get s o with Some (v, r) => rev r ++ [v] | None => [] end.
Proof.
  intros S. pose proof (keys_sorted_NoDup _ S) as N.
  assert (A : forall k l, at_key str_eqb s (map (@pair str json k) l) = if str_eqb s k then l else []).
  { intros k l. induction l as [|x l IH]; cbn [map]; [now destruct (str_eqb s k)|]. rewrite at_key_cons, IH. now destruct (str_eqb s k). }
  assert (Z : forall m, ~ In s (map fst m) -> at_key str_eqb s (members m) = []).
  { intros m. induction m as [|[k e] m IH]; intros H; auto. cbn [members flat_map]. change (flat_map _ m) with (members m).
    rewrite at_key_app, A, IH by (intros C; apply H; now right). cbn [fst]. destruct (str_eqb s k) eqn:E; auto. apply str_eqb_eq in E. subst. exfalso. apply H. now left. }
  destruct (hm_get s o) as [[v r]|] eqn:G.
  - apply hm_get_In in G. clear S. induction o as [|[k e] o IH]; [destruct G|]. inversion N as [|? ? N1 N2]; subst. cbn [members flat_map]. change (flat_map _ o) with (members o).
    rewrite at_key_app, A. destruct G as [G|G].
    + inversion G; subst. cbn [fst snd]. rewrite str_eqb_refl, Z by auto. now rewrite app_nil_r.
    + cbn [fst snd]. destruct (str_eqb s k) eqn:E; [|now apply IH]. apply str_eqb_eq in E. subst. exfalso. apply N1. change k with (fst (k, (v, r))). now apply in_map.
  - apply Z. intros C. apply in_map_iff in C as ([k e] & E & C). cbn in E. subst. apply (hm_In_get _ _ _ S) in C. congruence.
Qed.
Lemma written_keys k (V : Type) (l : list (key k * V)) : Forall (fun kv => legal_key k (fst kv)) l ->
  Forall2 (key_written k) (map fst l) (map (fun kv => show (key_codec_of k) (fst kv)) l).
Proof. induction 1 as [|[x v] l H _ IH]; cbn; constructor; auto. now apply keys_are_written_as_these_texts. Qed.
Lemma combine_shown {K V} (f : K -> str) (l : list (K * V)) : combine (map (fun kv => f (fst kv)) l) (map snd l) = map (fun kv => (f (fst kv), snd kv)) l.
Proof. induction l as [|[k v] l IH]; cbn; congruence. Qed.
Lemma Forall2_at {K V} (eqb : K -> K -> bool) (k : K) (R : V -> json -> Prop) g (l : list (K * V)) : Forall (fun kv => R (snd kv) (g (snd kv))) l ->
  Forall2 R (at_key eqb k l) (map g (at_key eqb k l)).
Proof. unfold at_key. induction 1 as [|[x v] l H _ IH]; cbn; [constructor|]. destruct (eqb k x); cbn; auto. Qed.
Lemma map_object_spec {K V} (kc : key_codec K) (c : codec V) l : forall o, keys_sorted o = true -> NoDup (map (fun kv => show kc (fst kv)) l) ->
  (forall kv, In kv l -> hm_get (show kc (fst kv)) o = None) ->
  let o' := fold_left (fun o kv => hm_insert (show kc (fst kv)) (to_json c (snd kv), []) o) l o in
  keys_sorted o' = true /\
  forall s, match hm_get s o' with Some (v, r) => rev r ++ [v] | None => [] end =
    match hm_get s o with Some (v, r) => rev r ++ [v] | None => [] end ++ map (to_json c) (at_key str_eqb s (map (fun kv => (show kc (fst kv), snd kv)) l)).
Proof.
  induction l as [|[k v] l IH]; intros o S N F; cbn [fold_left map fst snd].
  - split; auto. intros s. cbn. now rewrite app_nil_r.
  - cbn [map fst] in N. inversion N as [|? ? N1 N2]; subst. pose proof (hm_insert_sorted (show kc k) (to_json c v, @nil json) o S) as S1.
    destruct (IH _ S1 N2) as [S2 G].
    { intros [k' v'] H. cbn. rewrite hm_get_insert by auto. destruct (str_eqb (show kc k') (show kc k)) eqn:E; [|apply (F (k', v')); now right].
      apply str_eqb_eq in E. exfalso. apply N1. rewrite <- E. apply (in_map (fun kv : K * V => show kc (fst kv)) _ _ H). }
    split; auto. intros s. cbn [fst snd]. rewrite G, at_key_cons, hm_get_insert by auto. destruct (str_eqb s (show kc k)) eqn:E; auto.
    apply str_eqb_eq in E. subst. specialize (F (k, v) (or_introl eq_refl)). cbn [fst] in F. rewrite F. reflexivity.
Qed.

(** * C46 *)
Theorem values_are_written_in_this_form t : forall x, legal_value t x -> writes t x (to_json (codec_of t) x).
Proof.
  induction t as [| | |w| | |a IH|a IH|k a IH|k a IH]; intros x L; cbn [codec_of legal_value writes to_json c_json c_string c_bool c_int c_f64 c_f32 c_vec c_option c_pairs c_map] in *; auto.
  - destruct (integer_to_nearest_double w x L) as (f & E & H). exists f. auto.
  - exists (f64_of_f32 x). split; auto. destruct (is_finite x) eqn:F.
    + destruct (f32_to_same_number x L F) as (f & E & V & H). cbn in E. inversion E; subst. repeat split; intros; try discriminate; auto; apply H.
    + destruct x as [|[]| |]; try discriminate; repeat split; intros; try discriminate; auto.
  - eexists. split; [reflexivity|]. induction L; cbn; constructor; auto.
  - destruct x; auto.
  - assert (Lk : Forall (fun kv => legal_key k (fst kv)) x) by (revert L; apply Forall_impl; tauto).
    destruct (pairs_object_spec (key_codec_of k) (codec_of a) x [] eq_refl) as [S G].
    exists (pairs_object (key_codec_of k) (codec_of a) x []), (map (fun kv => show (key_codec_of k) (fst kv)) x). split; [reflexivity|]. split; [now apply keys_sorted_NoDup|].
    split; [now apply written_keys|]. intros s. rewrite combine_shown, members_at, G by auto. cbn [hm_get app]. apply Forall2_at. apply Forall_map.
    revert L. apply Forall_impl. cbn. intros kv [_ H]. auto.
  - destruct L as [M L]. assert (Lk : Forall (fun kv => legal_key k (fst kv)) x) by (revert L; apply Forall_impl; tauto).
    destruct (map_object_spec (key_codec_of k) (codec_of a) x [] eq_refl) as [S G]; [|reflexivity|].
    { rewrite <- map_map. apply shows_injective; auto. apply Forall_map. revert Lk. apply Forall_impl. intros kv. apply key_reads_back. }
    eexists; exists (map (fun kv => show (key_codec_of k) (fst kv)) x). split; [reflexivity|]. split; [now apply keys_sorted_NoDup|].
    split; [now apply written_keys|]. intros s. rewrite combine_shown, members_at, G by auto. cbn [hm_get app]. apply Forall2_at. apply Forall_map.
    revert L. apply Forall_impl. cbn. intros kv [_ H]. auto.
Qed.
Example written_form_examples :
  legal_value (TPairs (KInt I8) TBool) [(-1, true); (2, false); (-1, false)]%Z /\
  to_json (codec_of (TPairs (KInt I8) TBool)) [(-1, true); (2, false); (-1, false)]%Z
  = JObj [(lit "-1", (JBool false, [JBool true])); (lit "2", (JBool false, []))].
Proof. split; [|reflexivity]. repeat constructor; cbn; lia. Qed.
Print Assumptions values_are_written_in_this_form.

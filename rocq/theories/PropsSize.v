(** How large values and texts get (C79). *)
From Verif Require Import Base F64 Json Parse Print Ops Path Convert SpecGrammar SpecLenient SpecValue SpecNumber SpecShortest SpecLayout SpecSize MapProofs GrammarProofs LenientProofs
  ShortestProofs PropsParse PropsPrint PropsLayout SpecPath PathProofs PropsPath SpecConvert CanonProofs PropsConvert PropsText SizeProofs.
From Coq Require Import Permutation Lia.
Local Close Scope R_scope.
Local Open Scope nat_scope.

(** * Sums over maps and vectors *)
Lemma sum_cons {A} (f : A -> nat) x l : list_sum (map f (x :: l)) = f x + list_sum (map f l).
Proof. reflexivity. Qed.
Lemma sum_app {A} (f : A -> nat) l l' : list_sum (map f (l ++ l')) = list_sum (map f l) + list_sum (map f l').
Proof. rewrite map_app, list_sum_app. reflexivity. Qed.
Lemma sum_perm {A} (f : A -> nat) l l' : Permutation l l' -> list_sum (map f l) = list_sum (map f l').
Proof. induction 1; rewrite ?sum_cons; lia. Qed.
Lemma sum_rev {A} (f : A -> nat) l : list_sum (map f (rev l)) = list_sum (map f l).
Proof. apply sum_perm. symmetry. apply Permutation_rev. Qed.
Lemma sum_in {A} (f : A -> nat) l x : In x l -> f x <= list_sum (map f l).
Proof. induction l as [|y l IH]; [intros []|]. rewrite sum_cons. intros [->|H]; [lia|]. apply IH in H. lia. Qed.
Lemma insert_sum {V} (f : str * V -> nat) k v m : keys_sorted m = true ->
  list_sum (map f (hm_insert k v m)) + match hm_get k m with Some v' => f (k, v') | None => 0 end = list_sum (map f m) + f (k, v).
Proof.
  induction m as [|[k' v'] m IH]; intros S. { cbn. lia. }
  apply keys_sorted_cons in S as [B S]. cbn [hm_insert hm_get]. rewrite str_eqb_cmp. destruct (str_cmp k k') eqn:E; rewrite ?sum_cons.
  - apply str_cmp_eq in E as ->. lia.
  - rewrite (below_get k m); [lia|]. eapply below_trans; eauto.
  - specialize (IH S). lia.
Qed.
Lemma remove_sum {V} (f : str * V -> nat) k m :
  list_sum (map f (hm_remove k m)) + match hm_get k m with Some v' => f (k, v') | None => 0 end = list_sum (map f m).
Proof.
  induction m as [|[k' v'] m IH]. { reflexivity. }
  cbn [hm_remove hm_get]. rewrite str_eqb_cmp. destruct (str_cmp k k') eqn:E; rewrite ?sum_cons; [|lia..]. apply str_cmp_eq in E as ->. lia.
Qed.
Lemma set_sum (f : json -> nat) x y v : forall i, nth_error v i = Some x -> list_sum (map f (vec_set i y v)) + f x = list_sum (map f v) + f y.
Proof.
  induction v as [|z v IH]; intros [|i] H; try discriminate; cbn [vec_set nth_error] in *; rewrite !sum_cons.
  - injection H as ->. lia.
  - apply IH in H. lia.
Qed.
Lemma remove_at_sum (f : json -> nat) x v : forall i, nth_error v i = Some x -> list_sum (map f (vec_remove i v)) + f x = list_sum (map f v).
Proof.
  induction v as [|z v IH]; intros [|i] H; try discriminate; cbn [vec_remove nth_error] in *; rewrite !sum_cons.
  - injection H as ->. lia.
  - apply IH in H. lia.
Qed.

(** The members of an entry. *)
Definition entry_weight (e : entry) : nat :=
  (1 + bytes (fst e) + weight (fst (snd e))) + list_sum (map (fun v => 1 + bytes (fst e) + weight v) (snd (snd e))).
Definition map_weight (o : hmap) : nat := list_sum (map entry_weight o).
Lemma weight_obj o : weight (JObj o) = S (map_weight o).
Proof. reflexivity. Qed.
Lemma weight_arr v : weight (JArr v) = S (list_sum (map weight v)).
Proof. reflexivity. Qed.
Lemma weight_pos j : 1 <= weight j.
Proof. destruct j; cbn [weight]; lia. Qed.
Definition member_weight (m : str * json) : nat := 1 + bytes (fst m) + weight (snd m).
Lemma entry_members e : entry_weight e = list_sum (map member_weight (entry_list e)).
Proof. destruct e as [k [v l]]. unfold entry_weight, entry_list. cbn [fst snd]. rewrite map_map, sum_app, sum_rev, sum_cons. cbn [map list_sum fold_right]. unfold member_weight. cbn [fst snd]. lia. Qed.
Lemma flat_sum {A B} (f : B -> nat) (g : A -> list B) l : list_sum (map f (flat_map g l)) = list_sum (map (fun a => list_sum (map f (g a))) l).
Proof. induction l as [|a l IH]; auto. cbn [flat_map]. rewrite sum_app, sum_cons, IH. reflexivity. Qed.
Lemma map_members_weight o : map_weight o = list_sum (map member_weight (flat_map entry_list o)).
Proof. rewrite flat_sum. unfold map_weight. f_equal. apply map_ext. apply entry_members. Qed.
Lemma object_insert_weight o k v : keys_sorted o = true -> map_weight (object_insert o k v) = map_weight o + 1 + bytes k + weight v.
Proof.
  intros S. unfold object_insert, map_weight. destruct (hm_get k o) as [[x l]|] eqn:G.
  - pose proof (insert_sum entry_weight k (v, x :: l) o S) as H. rewrite G in H. unfold entry_weight in H at 2 4. cbn [fst snd] in H. rewrite sum_cons in H. lia.
  - pose proof (insert_sum entry_weight k (v, []) o S) as H. rewrite G in H. unfold entry_weight in H at 3. cbn [fst snd map list_sum fold_right] in H. lia.
Qed.
Lemma build_weight ms : forall o, keys_sorted o = true -> map_weight (build o ms) = map_weight o + list_sum (map member_weight ms).
Proof.
  induction ms as [|[k v] ms IH]; intros o S. { cbn [build map fold_left]. change (list_sum []) with 0. lia. }
  change (build o ((k, v) :: ms)) with (build (object_insert o k v) ms). rewrite IH by now apply object_insert_sorted. rewrite object_insert_weight, sum_cons by auto.
  unfold member_weight. cbn [fst snd]. lia.
Qed.
Lemma groups_weight ms o : Groups ms o -> map_weight o = list_sum (map member_weight ms).
Proof. intros G. rewrite (Groups_unique ms o (build [] ms) G (Groups_build ms)). now rewrite build_weight. Qed.

(** * Parsing: no more in the value than in the text *)
Lemma bytes_cons c s : bytes (c :: s) = char_bytes c + bytes s.
Proof. reflexivity. Qed.
Lemma bytes_app a b : bytes (a ++ b) = bytes a + bytes b.
Proof. apply sum_app. Qed.
Lemma char_bytes_pos c : 1 <= char_bytes c <= 4.
Proof. unfold char_bytes. destruct (c <? 0x80)%N, (c <? 0x800)%N, (c <? 0x10000)%N; lia. Qed.
Lemma bytes_length s : List.length s <= bytes s.
Proof. induction s as [|c s IH]; cbn [List.length]; [auto|]. rewrite bytes_cons. pose proof (char_bytes_pos c). lia. Qed.
Lemma skim_bytes stop drop d q t p d' q' : Skim stop drop d q t p d' q' -> bytes p <= bytes t.
Proof. induction 1; rewrite ?bytes_cons; lia. Qed.
Lemma chars_bytes raw s : Chars raw s -> bytes s <= bytes raw.
Proof.
  induction 1 as [|c raw s U _ IH|e c raw s E _ IH|h u raw s H N _ IH|h hi l lo raw s H L Hr Lr _ IH]; auto; rewrite !bytes_cons.
  - lia.
  - assert (char_bytes c = 1) as -> by (cbn in E; repeat destruct E as [[= <- <-]|E]; try destruct E; reflexivity). pose proof (char_bytes_pos e). lia.
  - rewrite bytes_app. destruct H as (a & b & c & d & _ & _ & _ & _ & -> & _). rewrite !bytes_cons. pose proof (char_bytes_pos a). pose proof (char_bytes_pos b). pose proof (char_bytes_pos c).
    pose proof (char_bytes_pos d). pose proof (char_bytes_pos u). lia.
  - rewrite !bytes_app, !bytes_cons, bytes_app. destruct H as (a & b & c & d & _ & _ & _ & _ & -> & _). rewrite !bytes_cons. pose proof (char_bytes_pos a). pose proof (char_bytes_pos b).
    pose proof (char_bytes_pos c). pose proof (char_bytes_pos d). match goal with |- char_bytes ?u + _ <= _ => pose proof (char_bytes_pos u) end. lia.
Qed.
Lemma number_bytes s neg m e : LaxNumber s neg m e -> 1 <= bytes s.
Proof.
  assert (P : forall a c b, 1 <= bytes (a ++ c :: b)) by (intros; rewrite bytes_app, bytes_cons; pose proof (char_bytes_pos c); lia).
  intros [? ? ? ? [neg' i f fd x xe I F X]|]; [|apply P]. destruct I; apply (P _ _ (_ ++ _)).
Qed.
Lemma lenient_weight : (forall t v, LValue t v -> weight v <= bytes t) /\
  (forall t vs, LElements t vs -> list_sum (map weight vs) <= bytes t) /\
  (forall t ms, LMembers t ms -> list_sum (map member_weight ms) <= bytes t).
Proof.
  apply lenient_mind; intros.
  - cbn. lia.
  - cbn. lia.
  - cbn. lia.
  - cbn [weight]. eapply number_bytes; eauto.
  - rewrite !bytes_app. apply chars_bytes in H. cbn [weight]. change (bytes [34%N]) with 1. lia.
  - rewrite bytes_app. cbn. lia.
  - rewrite !bytes_app, weight_arr. change (bytes [91%N]) with 1. lia.
  - rewrite bytes_app. cbn. lia.
  - rewrite !bytes_app, weight_obj, (groups_weight ms o) by auto. change (bytes [123%N]) with 1. lia.
  - rewrite sum_cons. cbn [map list_sum fold_right]. apply skim_bytes in H. lia.
  - rewrite sum_cons, !bytes_app. apply skim_bytes in H. lia.
  - rewrite sum_cons, !bytes_app. cbn [map list_sum fold_right]. unfold member_weight. cbn [fst snd]. apply skim_bytes in H, H2. cbn [weight] in *. lia.
  - rewrite sum_cons, !bytes_app. unfold member_weight at 1. cbn [fst snd]. apply skim_bytes in H, H2. cbn [weight] in *. lia.
Qed.
(** A parsed value holds no more than its text has bytes. *)
Theorem parsing_does_not_amplify s v : scalar_str s = true -> parse s = Ok v -> weight v <= bytes s.
Proof.
  intros S P. apply parse_iff_lenient in P as (w1 & t & w2 & _ & _ & -> & _ & _ & L); auto. apply lenient_weight in L. rewrite !bytes_app. lia.
Qed.
Example nothing_larger_possible : parse (lit "[1,2]") = Ok (JArr [JNum (dec_to_f64 false 1 0); JNum (dec_to_f64 false 2 0)]) /\
  weight (JArr [JNum (dec_to_f64 false 1 0); JNum (dec_to_f64 false 2 0)]) = 3 /\ weight (JNum (dec_to_f64 false 7 0)) = bytes (lit "7").
Proof. vm_compute. auto. Qed.

(** * Printing *)
Lemma unit_length u t : unit_text u t -> List.length t = 6.
Proof. now destruct 1. Qed.
Lemma char_length c t : char_text c t -> char_bytes c <= List.length t <= 6 * char_bytes c.
Proof.
  pose proof (char_bytes_pos c) as B. destruct 1 as [c e I|c _ R|c t _ R U|hi lo t t' _ _ U U'].
  - cbn in I. repeat destruct I as [[= <- <-]|I]; try destruct I; cbn; lia.
  - assert (char_bytes c = 1) as -> by (unfold char_bytes; destruct (N.ltb_spec c 0x80); lia). cbn. lia.
  - rewrite (unit_length _ _ U). lia.
  - rewrite app_length, (unit_length _ _ U), (unit_length _ _ U').
    match goal with |- context [char_bytes ?u] => assert (char_bytes u = 4) as ->; [unfold char_bytes; destruct (N.ltb_spec u 0x80), (N.ltb_spec u 0x800), (N.ltb_spec u 0x10000); lia|lia] end.
Qed.
Lemma string_length s t : string_text s t -> 2 + bytes s <= List.length t <= 2 + 6 * bytes s.
Proof.
  destruct 1 as [t H]. rewrite !app_length. change (List.length [34%N]) with 1. induction H as [|c s t ts C _ IH]; [cbn; lia|]. rewrite app_length, bytes_cons. apply char_length in C. lia.
Qed.
Lemma listed_length ts : list_sum (map (@List.length N) ts) <= List.length (listed ts) <= list_sum (map (fun t => 2 + List.length t) ts).
Proof.
  induction ts as [|t [|t' ts] IH]; [cbn; lia|cbn; lia|].
  change (listed (t :: t' :: ts)) with (t ++ [44; 32]%N ++ listed (t' :: ts)). rewrite !app_length. change (List.length [44; 32]%N) with 2. rewrite !(sum_cons _ t). lia.
Qed.
Lemma numbers_members o : numbers (JObj o) = list_sum (map (fun m => numbers (snd m)) (flat_map entry_list o)).
Proof.
  rewrite flat_sum. cbn [numbers]. f_equal. apply map_ext. intros [k [v l]]. unfold entry_list. cbn [fst snd]. rewrite map_map, sum_app, sum_rev. cbn [map list_sum fold_right snd].
  change (map (fun x : json => numbers x) l) with (map numbers l). lia.
Qed.
Lemma flat_perm {A B} (g : A -> list B) l l' : Permutation l l' -> Permutation (flat_map g l) (flat_map g l').
Proof. apply Permutation_flat_map. Qed.
Lemma printed_size j : legal j -> forall t, prints j t -> weight j <= List.length t /\ List.length t + 2 <= 7 * weight j + 322 * numbers j.
Proof.
  induction j as [o IH|v IH|s|f|[]|] using json_ind; intros L t P; inversion P as [| | |? ? Nt|? ? St|? ts F|? o1 ts Pm As F]; subst; try (cbn; lia).
  - rewrite weight_obj, numbers_members, map_members_weight. rewrite (sum_perm _ _ _ (flat_perm entry_list _ _ Pm)), (sum_perm (fun m => numbers (snd m)) _ _ (flat_perm entry_list _ _ Pm)).
    assert (M : Forall (fun m : str * json => forall t, prints (snd m) t -> weight (snd m) <= List.length t /\ List.length t + 2 <= 7 * weight (snd m) + 322 * numbers (snd m)) (flat_map entry_list o1)).
    { apply Forall_flat_map, Forall_forall. intros [k [v l]] Hin. apply (Permutation_in _ (Permutation_sym Pm)) in Hin. inversion L as [? _ Lf| | | | |]; subst. rewrite Forall_forall in IH, Lf.
      destruct (IH _ Hin) as [Iv Il]. destruct (Lf _ Hin) as (_ & Lv & Ll). cbn [fst snd] in *. unfold entry_list. cbn [fst snd]. apply Forall_forall. intros m Hm. apply in_map_iff in Hm as (x & <- & Hx).
      cbn [snd]. apply in_app_or in Hx as [Hx|[<-|[]]]; auto. apply in_rev in Hx. rewrite Forall_forall in Il, Ll. auto. }
    clear IH L P Pm As. rewrite !app_length. change (List.length [123%N]) with 1. change (List.length [125%N]) with 1. pose proof (listed_length ts) as Ls.
    assert (list_sum (map member_weight (flat_map entry_list o1)) <= list_sum (map (@List.length N) ts) /\
      list_sum (map (fun t => 2 + List.length t) ts) <= 7 * list_sum (map member_weight (flat_map entry_list o1)) + 322 * list_sum (map (fun m => numbers (snd m)) (flat_map entry_list o1))); [|lia].
    clear Ls. induction F as [|m t ms ts (kt & vt & Kt & Vt & ->) F IHF]; [cbn; lia|]. inversion M as [|? ? Mm Mr]; subst. destruct (IHF Mr) as [I1 I2]. rewrite !sum_cons.
    destruct (Mm vt Vt) as [A B]. apply string_length in Kt. rewrite !app_length. change (List.length [58; 32]%N) with 2. unfold member_weight at 1 3. lia.
  - rewrite weight_arr. cbn [numbers]. rewrite !app_length. change (List.length [91%N]) with 1. change (List.length [93%N]) with 1. pose proof (listed_length ts) as Ls.
    assert (list_sum (map weight v) <= list_sum (map (@List.length N) ts) /\
      list_sum (map (fun t => 2 + List.length t) ts) <= 7 * list_sum (map weight v) + 322 * list_sum (map numbers v)); [|lia].
    inversion L as [|? Lv| | | |]; subst. clear Ls L P. induction F as [|x t v ts Px F IHF]; [cbn; lia|]. inversion IH; inversion Lv; subst. destruct IHF as [I1 I2]; auto. rewrite !sum_cons.
    assert (weight x <= List.length t /\ List.length t + 2 <= 7 * weight x + 322 * numbers x) by auto. lia.
  - apply string_length in St. cbn [weight numbers]. lia.
  - inversion L; subst. assert (List.length t <= 327) by (eapply number_length; eauto). cbn [weight numbers]. split; [|lia].
    destruct t; [|cbn; lia]. inversion Nt as [| | |s m e d k t' Sd (ip & fp & -> & Ip & _) E]; subst; destruct s; try discriminate; destruct Ip; discriminate.
Qed.
(** The text of a value is not shorter than what the value holds, and at most seven times as long, not counting at most 322 characters more for every number. *)
Theorem printing_is_linear j : legal j -> weight j <= List.length (to_string j) /\ List.length (to_string j) + 2 <= 7 * weight j + 322 * numbers j.
Proof. intros L. apply (printed_size j L). now apply printed_layout. Qed.
Example printing_bounds_are_reached : let j := JNum (dec_to_f64 true 22250738585072014 (-324)) in
  List.length (to_string j) + 2 = 7 * weight j + 322 * numbers j /\ List.length (to_string (JBool false)) + 2 = 7 * weight (JBool false).
Proof. vm_compute. auto. Qed.

(** * Reading and writing at a path *)
Definition sorted_here (j : json) : Prop := match j with JObj o => keys_sorted o = true | _ => True end.
Lemma wf_here j : wf j = true -> sorted_here j.
Proof. destruct j; cbn; auto. intros H. now apply andb_true_iff in H. Qed.
Lemma vec_get_nth i v x : vec_get i v = Some x -> nth_error v (N.to_nat i) = Some x.
Proof. unfold vec_get. now destruct (i <? vlen v)%N. Qed.
Lemma f_find_wf f j x : wf j = true -> f_find f j = Ok x -> wf x = true.
Proof.
  destruct f as [k|i], j as [o|v| | | |]; try discriminate; cbn [f_find].
  - destruct (hm_get k o) as [[y l]|] eqn:G; [|discriminate]. intros W [= <-]. cbn in W. apply andb_true_iff in W as [_ W]. apply hm_get_In in G. rewrite forallb_forall in W. apply W in G. cbn in G.
    rewrite !andb_true_iff in G. tauto.
  - destruct (vec_get i v) as [y|] eqn:G; [|discriminate]. intros W [= <-]. apply vec_get_nth, nth_error_In in G. cbn in W. rewrite forallb_forall in W. auto.
Qed.
Lemma f_find_mut_find f j x put : f_find_mut f j = Ok (x, put) -> f_find f j = Ok x.
Proof.
  destruct f as [k|i], j as [o|v| | | |]; try discriminate; cbn [f_find f_find_mut].
  - destruct (hm_get k o) as [[y l]|]; [|discriminate]. now intros [= <- _].
  - destruct (vec_get i v) as [y|]; [|discriminate]. now intros [= <- _].
Qed.
Lemma f_find_weight f j x : f_find f j = Ok x -> weight x < weight j.
Proof.
  destruct f as [k|i], j as [o|v| | | |]; try discriminate; cbn [f_find].
  - destruct (hm_get k o) as [[y l]|] eqn:G; [|discriminate]. intros [= <-]. apply hm_get_In, (sum_in entry_weight) in G. rewrite weight_obj. unfold map_weight. unfold entry_weight in G at 1. cbn [fst snd] in G. lia.
  - destruct (vec_get i v) as [y|] eqn:G; [|discriminate]. intros [= <-]. apply vec_get_nth, nth_error_In, (sum_in weight) in G. rewrite weight_arr. lia.
Qed.
(** What is found holds less than the whole. *)
Theorem found_values_are_smaller p : forall j x, p_find p j = Ok x -> weight x < weight j.
Proof.
  induction p as [f|f p IH]; intros j x; cbn [p_find]; [apply f_find_weight|]. destruct (f_find f j) as [y| | |] eqn:E; try discriminate. cbn [bind]. intros H. apply IH in H. apply f_find_weight in E. lia.
Qed.
Lemma f_find_mut_weight f j x put y : sorted_here j -> f_find_mut f j = Ok (x, put) -> weight (put y) + weight x = weight j + weight y.
Proof.
  destruct f as [k|i], j as [o|v| | | |]; try discriminate; cbn [f_find_mut sorted_here]; intros S.
  - destruct (hm_get k o) as [[z l]|] eqn:G; [|discriminate]. intros [= <- <-]. rewrite !weight_obj. unfold map_weight. pose proof (insert_sum entry_weight k (y, l) o S) as H. rewrite G in H.
    unfold entry_weight in H at 2 4. cbn [fst snd] in H. lia.
  - destruct (vec_get i v) as [z|] eqn:G; [|discriminate]. intros [= <- <-]. rewrite !weight_arr. apply vec_get_nth in G. pose proof (set_sum weight z y v _ G). lia.
Qed.
(** Writing through [find_mut] exchanges one value for the other. *)
Theorem writing_exchanges p : forall j x put y, wf j = true -> p_find_mut p j = Ok (x, put) -> weight (put y) + weight x = weight j + weight y.
Proof.
  induction p as [f|f p IH]; intros j x put y W; cbn [p_find_mut]; [apply f_find_mut_weight; now apply wf_here|].
  destruct (f_find_mut f j) as [[i p1]| | |] eqn:E; try discriminate. cbn [bind]. destruct (p_find_mut p i) as [[z p2]| | |] eqn:E2; try discriminate. cbn [bind]. intros [= <- <-].
  pose proof (f_find_wf _ _ _ W (f_find_mut_find _ _ _ _ E)) as Wi. apply (IH i z p2 y Wi) in E2. apply (f_find_mut_weight _ _ _ _ (p2 y) (wf_here _ W)) in E. lia.
Qed.
(** What a deletion returns is no longer in the document. *)
Lemma f_discard_weight f j j' x : f_discard f j = (j', Ok x) -> weight j' + weight x <= weight j.
Proof.
  destruct f as [k|i], j as [o|v| | | |]; try discriminate; cbn [f_discard].
  - destruct (hm_get k o) as [[y l]|] eqn:G; [|discriminate]. intros [= <- <-]. rewrite !weight_obj. unfold map_weight. pose proof (remove_sum entry_weight k o) as H. rewrite G in H.
    unfold entry_weight in H at 2. cbn [fst snd] in H. lia.
  - destruct (i <? vlen v)%N; [|discriminate]. destruct (nth_error v (N.to_nat i)) as [y|] eqn:G; [|discriminate]. intros [= <- <-]. rewrite !weight_arr.
    pose proof (remove_at_sum weight y v _ G). lia.
Qed.
Theorem deletion_takes_away p : forall j j' x, wf j = true -> p_discard p j = (j', Ok x) -> weight j' + weight x <= weight j.
Proof.
  induction p as [f|f p IH]; intros j j' x W; cbn [p_discard]; [apply f_discard_weight|].
  destruct (f_find_mut f j) as [[i p1]| | |] eqn:E; try discriminate. destruct (p_discard p i) as [i' r] eqn:E2. intros [= <- ->].
  pose proof (f_find_wf _ _ _ W (f_find_mut_find _ _ _ _ E)) as Wi. apply (IH i i' x Wi) in E2. apply (f_find_mut_weight _ _ _ _ i' (wf_here _ W)) in E. lia.
Qed.
(** Setting adds the value and what the path needs. *)
Lemma nulls_sum n : list_sum (map weight (repeat JNull n)) = n.
Proof. induction n as [|n IH]; auto. cbn [repeat]. rewrite sum_cons, IH. reflexivity. Qed.
Lemma f_update_weight vmax f j x j' r : sorted_here j -> f_update vmax f j x = (j', r) ->
  weight j' + 1 <= weight j + weight x + step_weight f /\ sorted_here j' /\ (forall y put, r = Ok (y, put) -> f_find_mut f j' = Ok (y, put) /\ y = x).
Proof.
  intros Sh. destruct f as [k|i]; cbn [f_update step_weight].
  - set (o := match j with JObj o => o | _ => [] end). assert (So : keys_sorted o = true) by (destruct j; auto). assert (Wo : S (map_weight o) <= weight j) by (destruct j; [apply Nat.le_refl|apply weight_pos..]).
    replace (match j with JObj o0 => JObj (hm_insert k (x, []) o0) | _ => JObj (hm_insert k (x, []) []) end) with (JObj (hm_insert k (x, []) o)) by (destruct j; reflexivity).
    intros [= <- <-]. split; [|split].
    + rewrite weight_obj. unfold map_weight in *. pose proof (insert_sum entry_weight k (x, []) o So) as H. unfold entry_weight in H at 4. cbn [fst snd map list_sum fold_right] in H. lia.
    + now apply hm_insert_sorted.
    + intros y put. cbn [f_find_mut]. rewrite hm_get_insert by auto. rewrite str_eqb_cmp, str_cmp_refl. intros [= <- <-]. auto.
  - set (v := match j with JArr v => v | _ => [] end). assert (Wv : S (list_sum (map weight v)) <= weight j) by (destruct j; [apply weight_pos|apply Nat.le_refl|apply weight_pos..]).
    assert (K : forall w, (i < vlen w)%N -> list_sum (map weight w) <= list_sum (map weight v) + 1 + N.to_nat i ->
      match f_find_mut (Index i) (JArr w) with
      | Ok (_, put) => let j1 := put x in (j1, match f_find_mut (Index i) j1 with Ok r => Ok r | Err _ => Panic | Panic => Panic | Fuel => Fuel end)
      | _ => (JArr w, Panic)
      end = (j', r) -> weight j' + 1 <= weight j + weight x + (1 + N.to_nat i) /\ sorted_here j' /\ (forall y put, r = Ok (y, put) -> f_find_mut (Index i) j' = Ok (y, put) /\ y = x)).
    { intros w Lw Sw. assert (exists z, nth_error w (N.to_nat i) = Some z) as [z Z].
      { destruct (nth_error w (N.to_nat i)) as [z|] eqn:E; eauto. apply nth_error_None in E. unfold vlen in Lw. lia. }
      cbn [f_find_mut]. unfold vec_get at 1. rewrite (proj2 (N.ltb_lt _ _) Lw), Z. cbv beta zeta iota. cbn [f_find_mut].
      pose proof (set_sum weight z x w _ Z) as H. pose proof (weight_pos z). intros [= <- <-]. split; [|split; [exact I|]]. { rewrite weight_arr. lia. }
      intros y put. destruct (vec_get i (vec_set (N.to_nat i) x w)) as [y'|] eqn:G; [|discriminate]. intros [= <- <-]. split; auto. apply vec_get_nth in G.
      clear - G Z. revert G Z. generalize (N.to_nat i). intros n. revert n. induction w as [|a w IH]; intros [|n] G Z; try discriminate; cbn in *; [congruence|eauto]. }
    assert (P : (vlen v <= i)%N -> (i < vlen (resize i v))%N /\ list_sum (map weight (resize i v)) <= list_sum (map weight v) + 1 + N.to_nat i).
    { intros L. unfold resize. rewrite sum_app, nulls_sum. unfold vlen in *. rewrite app_length, repeat_length. lia. }
    assert (Q : forall b : bool, match (if b then None else Some (resize i v)) with
      | None => (j, Panic)
      | Some w => match f_find_mut (Index i) (JArr w) with
        | Ok (_, put) => let j1 := put x in (j1, match f_find_mut (Index i) j1 with Ok r => Ok r | Err _ => Panic | Panic => Panic | Fuel => Fuel end)
        | _ => (JArr w, Panic)
        end end = (j', r) -> (vlen v <= i)%N ->
      weight j' + 1 <= weight j + weight x + (1 + N.to_nat i) /\ sorted_here j' /\ (forall y put, r = Ok (y, put) -> f_find_mut (Index i) j' = Ok (y, put) /\ y = x)).
    { intros b H L. destruct b; [injection H as <- <-; pose proof (weight_pos x); split; [lia|]; split; [exact Sh|discriminate]|]. revert H. now apply K; apply P. }
    destruct j as [o|v0|s|f|b|]; try (intros H; revert H; intros H; apply (Q _ H); cbn; lia).
    destruct (N.leb_spec (vlen v0) i) as [L|L]; [intros H; now apply (Q _ H)|]. apply K; [exact L|]. unfold v. lia.
Qed.
Theorem setting_adds_what_is_named vmax p : forall j x j' r, wf j = true -> p_update vmax p j x = (j', r) -> weight j' <= weight j + weight x + path_weight p.
Proof.
  assert (G : forall j x j' r, skeys j = true -> p_update vmax p j x = (j', r) -> weight j' <= weight j + weight x + path_weight p).
  2:{ intros j x j' r W. apply G. now apply wf_skeys. }
  assert (H0 : forall j, skeys j = true -> sorted_here j) by (intros []; cbn; auto; intros H; now apply andb_true_iff in H).
  induction p as [f|f p IH]; intros j x j' r W; cbn [p_update path_weight].
  - destruct (f_update vmax f j x) as [j1 r1] eqn:E. intros [= <- _]. apply f_update_weight in E as [A _]; auto. lia.
  - destruct (f_find f j) as [y0| | |] eqn:Ef.
    1:{ destruct (f_find_mut f j) as [[i put]| | |] eqn:E; try (intros [= <- _]; lia). destruct (p_update vmax p i x) as [i' r'] eqn:E2. intros [= <- _].
        assert (Wi : skeys i = true).
        { apply f_find_mut_find in E. destruct f as [k|n], j as [o|v| | | |]; try discriminate; cbn [f_find] in E.
          - apply (step_skeys (Key k) (JObj o)); auto. rewrite step_key. now destruct (hm_get k o) as [[z l]|]; try discriminate; injection E as ->.
          - apply (step_skeys (Index n) (JArr v)); auto. rewrite step_index. now destruct (vec_get n v) as [z|]; try discriminate; injection E as ->. }
        apply IH in E2; auto. apply (f_find_mut_weight _ _ _ _ i' (H0 _ W)) in E. lia. }
    all: destruct (f_update vmax f j JNull) as [j1 r1] eqn:E; apply f_update_weight in E as (A & S1 & B); auto; change (weight JNull) with 1 in A.
    all: destruct r1 as [[i put]| | |]; try (intros [= <- _]; lia).
    all: destruct (B _ _ eq_refl) as [E ->]; destruct (p_update vmax p JNull x) as [i' r'] eqn:E2; intros [= <- _]; apply IH in E2; auto; apply (f_find_mut_weight _ _ _ _ i' S1) in E; change (weight JNull) with 1 in *; lia.
Qed.
(** An index alone can make a document as large as one likes. *)
Theorem an_index_costs_its_value vmax i x : (i + 1 <= vmax)%N -> exists j', p_update vmax (PEnd (Index i)) JNull x = (j', Ok x) /\ weight j' = 1 + N.to_nat i + weight x.
Proof.
  intros L. cbn [p_update f_update]. destruct (N.ltb_spec vmax (i + 1)); [lia|]. unfold resize, vlen. cbn [app List.length N.of_nat]. rewrite N.sub_0_r.
  replace (N.to_nat (i + 1)) with (S (N.to_nat i)) by lia.
  assert (G : forall y n, vec_get i (vec_set (N.to_nat i) y (repeat JNull n)) = if (N.to_nat i <? n) then Some y else None).
  { intros y n. unfold vec_get, vlen. assert (Len : forall k m, List.length (vec_set k y (repeat JNull m)) = m) by (intros k m; revert k; induction m as [|m IH]; intros [|k]; cbn; rewrite ?repeat_length, ?IH; auto).
    rewrite Len. destruct (Nat.ltb_spec (N.to_nat i) n) as [Hn|Hn]; destruct (N.ltb_spec i (N.of_nat n)); try lia; auto.
    clear - Hn. revert n Hn. generalize (N.to_nat i). intros k. induction k as [|k IH]; intros [|n] Hn; cbn; auto; try lia. apply IH. lia. }
  cbn [f_find_mut]. unfold vec_get at 1. unfold vlen. rewrite repeat_length. destruct (N.ltb_spec i (N.of_nat (S (N.to_nat i)))); [|lia].
  rewrite nth_error_repeat by lia. cbv beta zeta iota. cbn [f_find_mut]. rewrite G. destruct (Nat.ltb_spec (N.to_nat i) (S (N.to_nat i))); [|lia].
  eexists. split; [reflexivity|]. rewrite weight_arr.
  assert (N0 : nth_error (repeat JNull (S (N.to_nat i))) (N.to_nat i) = Some JNull) by (apply nth_error_repeat; lia).
  pose proof (set_sum weight JNull x _ _ N0) as Sum. rewrite nulls_sum in Sum. change (weight JNull) with 1 in Sum. lia.
Qed.
(** The editing methods, in the same terms. *)
Theorem methods_change_sizes j : wf j = true ->
  (forall k v j', append j k v = (j', Ok tt) -> weight j' = weight j + 1 + bytes k + weight v) /\
  (forall k v j', insert j k v = (j', Ok tt) -> weight j' <= weight j + 1 + bytes k + weight v) /\
  (forall k j', delete j k = (j', Ok tt) -> weight j' <= weight j) /\
  (forall v j', push j v = (j', Ok tt) -> weight j' = weight j + weight v) /\
  (forall i j', remove j i = (j', Ok tt) -> weight j' < weight j) /\
  (forall i v j', replace j i v = (j', Ok tt) -> weight j' < weight j + weight v) /\
  (forall k vs, index_and_merge j k = Ok vs -> list_sum (map weight vs) < weight j).
Proof.
  intros W. apply wf_here in W. destruct j as [o|v0| | | |]; (split; [|split; [|split; [|split; [|split; [|split]]]]]); try discriminate; cbn [sorted_here] in W.
  - intros k v j' [= <-]. rewrite !weight_obj, object_insert_weight by auto. lia.
  - intros k v j' [= <-]. rewrite !weight_obj. unfold map_weight. pose proof (insert_sum entry_weight k (v, []) o W) as H. unfold entry_weight in H at 4. cbn [fst snd map list_sum fold_right] in H. lia.
  - intros k j' [= <-]. rewrite !weight_obj. unfold map_weight. pose proof (remove_sum entry_weight k o). lia.
  - intros k vs. cbn [index_and_merge]. destruct (hm_get k o) as [[x l]|] eqn:G; [|discriminate]. intros [= <-]. rewrite sum_app, sum_rev. cbn [map list_sum fold_right].
    apply hm_get_In, (sum_in entry_weight) in G. rewrite weight_obj. unfold map_weight. unfold entry_weight in G at 1. cbn [fst snd] in G.
    assert (list_sum (map weight l) <= list_sum (map (fun v => 1 + bytes k + weight v) l)); [|lia]. clear. induction l as [|y l IH]; auto. rewrite !sum_cons. lia.
  - intros v j' [= <-]. rewrite !weight_arr, sum_app. cbn [map list_sum fold_right]. lia.
  - intros i j'. cbn [remove]. destruct (N.ltb_spec i (vlen v0)) as [L|]; [|discriminate]. intros [= <-]. rewrite !weight_arr.
    destruct (nth_error v0 (N.to_nat i)) as [z|] eqn:Z. { pose proof (remove_at_sum weight z v0 _ Z). pose proof (weight_pos z). lia. }
    apply nth_error_None in Z. unfold vlen in L. lia.
  - intros i v j'. cbn [replace]. destruct (vec_get i v0) as [z|] eqn:G; [|discriminate]. intros [= <-]. rewrite !weight_arr. apply vec_get_nth in G. pose proof (set_sum weight z v v0 _ G). pose proof (weight_pos z). lia.
Qed.

(** * Texts *)
Lemma same_weight a : forall b, same a b -> weight a = weight b.
Proof.
  induction a as [o IH|v IH|s|f|b0|] using json_ind; intros b H; inversion H as [o0 p o1 P F|? v' F| | | |]; subst; auto.
  - rewrite !weight_obj. unfold map_weight. rewrite (sum_perm _ _ _ P). f_equal. assert (IHp : Forall (Pentry (fun j => forall b, same j b -> weight j = weight b)) p) by (rewrite Forall_forall in *; intros e He; apply IH; eapply Permutation_in; [symmetry; exact P|exact He]).
    clear - F IHp. induction F as [|e e' p o1 (E & Sv & Sl) F IHF]; auto. inversion IHp as [|? ? [Iv Il] Ir]; subst. rewrite !sum_cons, (IHF Ir). f_equal. unfold entry_weight. rewrite E, (Iv _ Sv). f_equal.
    clear - Sl Il. induction Sl as [|x x' l l' Sx Sl IHl]; auto. inversion Il; subst. rewrite !sum_cons, IHl; auto.
  - rewrite !weight_arr. f_equal. clear H. induction F as [|x x' v v' Sx F IHF]; auto. inversion IH; subst. rewrite !sum_cons, IHF; auto.
Qed.
Lemma numbers_weight j : numbers j <= weight j.
Proof.
  induction j as [o IH|v IH|s|f|b|] using json_ind; try (cbn; lia).
  - rewrite weight_obj, numbers_members, map_members_weight. apply Nat.le_le_succ_r.
    assert (M : Forall (fun m : str * json => numbers (snd m) <= weight (snd m)) (flat_map entry_list o)).
    { apply Forall_flat_map. rewrite Forall_forall in *. intros [k [v l]] He. destruct (IH _ He) as [Iv Il]. cbn [fst snd] in *. unfold entry_list. cbn [fst snd]. rewrite Forall_forall in *.
      intros m Hm. apply in_map_iff in Hm as (x & <- & Hx). cbn [snd]. apply in_app_or in Hx as [Hx|[<-|[]]]; auto. apply in_rev in Hx. auto. }
    induction M as [|m ms Hm M IHM]; auto. rewrite !sum_cons. unfold member_weight at 1. lia.
  - rewrite weight_arr. cbn [numbers]. apply Nat.le_le_succ_r. induction IH as [|x v Hx IH IHv]; auto. rewrite !sum_cons. lia.
Qed.
Lemma printed_length j : legal j -> List.length (to_string j) + 2 <= 329 * weight j.
Proof. intros L. destruct (printing_is_linear j L) as [_ H]. pose proof (numbers_weight j). lia. Qed.
(** Printing what was parsed makes a text longer by a constant factor at most. *)
Theorem reprinting_is_linear s v : scalar_str s = true -> parse s = Ok v -> List.length (to_string v) + 2 <= 329 * bytes s.
Proof.
  intros S P. pose proof (parsing_does_not_amplify s v S P). destruct (parsed_values_well_formed s v S P) as [W _]. pose proof (printed_length v (wf_legal _ W)). lia.
Qed.
(** So do the functions on texts, up to the value that is set and the path. *)
Theorem text_set_is_linear order vmax {T} (c : codec T) t p q x t' : reorders order -> scalar_str t = true -> scalar_str p = true -> legal (to_json c x) -> parse_path p = Ok q ->
  text_set order vmax c t p x = Ok t' -> List.length t' + 2 <= 329 * (bytes t + weight (to_json c x) + path_weight q).
Proof.
  intros R St Sp L Pq H. destruct (text_set_inv order R vmax c t p x t' St Sp L H) as (j & v & j' & Pj & Sv & Wv & E & W' & -> & _).
  pose proof (parsing_does_not_amplify t j St Pj). destruct (parsed_values_well_formed t j St Pj) as [W _]. pose proof (printed_length j' (wf_legal _ W')).
  rewrite (same_weight _ _ Sv). unfold set in E. destruct p as [|a p]; [discriminate|]. rewrite Pq in E. apply setting_adds_what_is_named in E; auto. lia.
Qed.
Theorem text_del_is_linear order t p t' : reorders order -> scalar_str t = true -> text_del order t p = Ok t' -> List.length t' + 2 <= 329 * bytes t.
Proof.
  intros R St. unfold text_del. destruct (parse t) as [j| | |] eqn:Pj; try discriminate. cbn [bind]. pose proof (parsing_does_not_amplify t j St Pj). destruct (parsed_values_well_formed t j St Pj) as [W _].
  unfold del. destruct p as [|a p]; [discriminate|]. destruct (parse_path (a :: p)) as [q| | |]; try discriminate.
  pose proof (discard_keeps_well_formed q j W) as W'. destruct (p_discard q j) as [j' r] eqn:E. destruct r as [x| | |]; try discriminate. cbn [bind fst] in *. intros [= <-].
  rewrite (print_order order R) by now apply wf_legal. apply deletion_takes_away in E; auto. pose proof (printed_length j' (wf_legal _ W')). lia.
Qed.
(** Any encoded value: its text is linear in its JSON form. *)
Theorem encoding_is_linear order {T} (c : codec T) x : reorders order -> legal (to_json c x) ->
  weight (to_json c x) <= List.length (encode order c x) /\ List.length (encode order c x) + 2 <= 7 * weight (to_json c x) + 322 * numbers (to_json c x).
Proof. intros R L. rewrite encode_reorders by auto. now apply printing_is_linear. Qed.
Definition sized : json := JObj [(lit "a", (JArr [JNull; JStr [233; 0x1F600]%N], [JBool true]))].
Definition sized_text : str := lit "{""a"":true,""a"":[null,""" ++ [233; 0x1F600]%N ++ lit """]}".
Definition sized_path : path := PNext (Key (lit "a")) (PEnd (Index 4)).
Example sizes_example : wf sized = true /\ parse sized_text = Ok sized /\ weight sized = 15 /\ bytes sized_text = 30 /\ List.length (to_string sized) = 46 /\
  path_weight sized_path = 8 /\ snd (p_update 1000 sized_path sized JNull) = Ok JNull /\ weight (fst (p_update 1000 sized_path sized JNull)) = 18 /\
  match p_find_mut (PEnd (Key (lit "a"))) sized with Ok (x, put) => weight x = 9 /\ weight (put JNull) = 7 | _ => False end /\
  match text_del (fun j => j) sized_text (lit "a.#1") with Ok t => t = lit "{""a"": true, ""a"": [null]}" | _ => False end.
Proof. split; [reflexivity|]. split; [vm_compute; reflexivity|]. split; [reflexivity|]. split; [vm_compute; reflexivity|]. split; [vm_compute; reflexivity|]. split; [reflexivity|].
  split; [vm_compute; reflexivity|]. split; [vm_compute; reflexivity|]. split; vm_compute; auto. Qed.
Example text_set_example : reorders (fun j => j) /\ legal (to_json c_bool true) /\ (exists q, parse_path (lit "a.#3") = Ok q /\ path_weight q = 7) /\
  text_set (fun j => j) 1000 c_bool sized_text (lit "a.#3") true = Ok (lit "{""a"": true, ""a"": [null, ""\u00E9\uD83D\uDE00"", null, true]}").
Proof. split; [intros j; apply same_refl|]. split; [constructor|]. split; [eexists; split; reflexivity|]. vm_compute. reflexivity. Qed.

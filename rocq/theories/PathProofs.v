(** Navigation, update and deletion along paths. *)
From Verif Require Import Base F64 Json Ops Path SpecGrammar SpecPath MapProofs Utf8Proofs.
From Coq Require Import ZifyBool ZifyNat ZifyN.
Open Scope N_scope.

(** ** Vectors *)
Lemma vec_get_nth i v : vec_get i v = (if i <? N.of_nat (List.length v) then nth_error v (N.to_nat i) else None).
Proof. reflexivity. Qed.
Lemma vec_get_some i v x : vec_get i v = Some x <-> nth_error v (N.to_nat i) = Some x.
Proof.
  unfold vec_get, vlen. destruct (N.ltb_spec i (N.of_nat (List.length v))); [tauto|].
  split; [discriminate|]. intros E. assert (nth_error v (N.to_nat i) <> None) as L by congruence.
  apply nth_error_Some in L. lia.
Qed.
Lemma vec_get_none i v : vec_get i v = None <-> N.of_nat (List.length v) <= i.
Proof.
  unfold vec_get, vlen. destruct (N.ltb_spec i (N.of_nat (List.length v))) as [H|H].
  - split; [|lia]. intros E. apply nth_error_None in E. lia.
  - tauto.
Qed.
Lemma vec_set_length i x v : List.length (vec_set i x v) = List.length v.
Proof. revert i; induction v as [|y v IH]; intros [|i]; cbn; auto. Qed.
Lemma vec_set_nth i x v k : (i < List.length v)%nat ->
  nth_error (vec_set i x v) k = if Nat.eqb k i then Some x else nth_error v k.
Proof.
  revert i k; induction v as [|y v IH]; intros i k H; [cbn in H; lia|].
  destruct i as [|i], k as [|k]; cbn; auto. apply IH. cbn in H; lia.
Qed.
Lemma vec_set_same i x v : nth_error v i = Some x -> vec_set i x v = v.
Proof. revert i; induction v as [|y v IH]; intros [|i] H; cbn in *; try congruence. f_equal; auto. Qed.
Lemma vec_set_set i x y v : vec_set i y (vec_set i x v) = vec_set i y v.
Proof. revert i; induction v as [|z v IH]; intros [|i]; cbn; auto. f_equal; auto. Qed.
Lemma vec_set_In i x v y : In y (vec_set i x v) -> y = x \/ In y v.
Proof. revert i; induction v as [|z v IH]; intros [|i]; cbn; intuition. destruct (IH _ H0); auto. Qed.
Lemma vec_remove_spec i v : vec_remove i v = firstn i v ++ skipn (S i) v.
Proof. revert i; induction v as [|y v IH]; intros [|i]; cbn; auto. f_equal. rewrite IH. reflexivity. Qed.

(** ** Hash map lookup as a search *)
Lemma find_get (V : Type) k (o : list (str * V)) : find (fun e => str_eqb k (fst e)) o = option_map (fun v => (k, v)) (hm_get k o).
Proof.
  induction o as [|[k' v] o IH]; cbn; auto. destruct (str_eqb k k') eqn:E; auto. apply str_eqb_eq in E as ->. reflexivity.
Qed.
Lemma step_key k o : step (Key k) (JObj o) = option_map fst (hm_get k o).
Proof. cbn. rewrite find_get. now destruct (hm_get k o). Qed.
Lemma step_index i v : step (Index i) (JArr v) = vec_get i v.
Proof. reflexivity. Qed.
Lemma values_at_get k o : values_at k (JObj o) = match hm_get k o with Some (v, l) => rev l ++ [v] | None => [] end.
Proof. cbn. rewrite find_get. now destruct (hm_get k o) as [[v l]|]. Qed.

(** ** find *)
Lemma f_find_step f j : match step f j with
  | Some x => f_find f j = Ok x
  | None => exists e, f_find f j = Err e /\ kind e = step_error f j end.
Proof.
  destruct f as [k|i]; destruct j as [o|v|s|n|b|]; try (cbn; eexists; split; reflexivity).
  - rewrite step_key. cbn [f_find]. destruct (hm_get k o) as [[x l]|]; cbn; auto. eexists; split; reflexivity.
  - rewrite step_index. cbn [f_find]. destruct (vec_get i v); auto. eexists; split; reflexivity.
Qed.
Lemma f_find_mut_find f j : rmap fst (f_find_mut f j) = f_find f j.
Proof.
  destruct f as [k|i], j as [o|v|s|n|b|]; cbn; auto.
  - destruct (hm_get k o) as [[x l]|]; reflexivity.
  - destruct (vec_get i v); reflexivity.
Qed.
Lemma p_find_walk p : forall j, match walk (steps p) j with
  | Some x => p_find p j = Ok x
  | None => exists e c f d y, p_find p j = Err e /\ steps p = c ++ f :: d /\ walk c j = Some y /\ step f y = None /\ kind e = step_error f y
  end.
Proof.
  induction p as [f|f q IH]; intros j; cbn [steps walk p_find]; pose proof (f_find_step f j) as H; destruct (step f j) as [y|] eqn:E.
  - exact H.
  - destruct H as (e & H & K). exists e, [], f, [], j. auto.
  - rewrite H. cbn [bind]. specialize (IH y). destruct (walk (steps q) y) as [x|]; auto.
    destruct IH as (e & c & g & d & z & H1 & H2 & H3 & H4 & H5). exists e, (f :: c), g, d, z. rewrite H2. repeat split; auto. cbn. now rewrite E.
  - destruct H as (e & H & K). rewrite H. exists e, [], f, (steps q), j. cbn. auto.
Qed.
Lemma p_find_mut_find p : forall j, rmap fst (p_find_mut p j) = p_find p j.
Proof.
  induction p as [f|f q IH]; intros j; cbn [p_find p_find_mut]; [apply f_find_mut_find|].
  rewrite <- f_find_mut_find. destruct (f_find_mut f j) as [[y put]| | |]; cbn; auto.
  rewrite <- IH. destruct (p_find_mut q y) as [[x put']| | |]; reflexivity.
Qed.

(** ** discard *)
Lemma f_discard_find f j : snd (f_discard f j) = f_find f j.
Proof.
  destruct f as [k|i], j as [o|v|s|n|b|]; cbn; auto.
  - destruct (hm_get k o) as [[x l]|]; reflexivity.
  - unfold vec_get. destruct (N.ltb_spec i (vlen v)) as [H|H]; auto. destruct (nth_error v (N.to_nat i)) eqn:E; auto.
    apply nth_error_None in E. unfold vlen in H. lia.
Qed.
Lemma p_discard_find p : forall j, snd (p_discard p j) = p_find p j.
Proof.
  induction p as [f|f q IH]; intros j; cbn [p_discard p_find]; [apply f_discard_find|].
  rewrite <- f_find_mut_find. destruct (f_find_mut f j) as [[y put]| | |]; cbn; auto.
  rewrite <- IH. destruct (p_discard q y); reflexivity.
Qed.

(** ** Writing one step down *)
(** What [find_mut]'s write-back does: replace the child a step leads to. *)
Definition keys_ok (j : json) : Prop := match j with JObj o => keys_sorted o = true | _ => True end.
Definition repl (f : finder) (x : json) (j : json) : json :=
  match f, j with
  | Key k, JObj o => match hm_get k o with Some (_, l) => JObj (hm_insert k (x, l) o) | None => j end
  | Index i, JArr v => JArr (vec_set (N.to_nat i) x v)
  | _, _ => j
  end.
Lemma f_find_mut_step f j y : step f j = Some y -> exists put, f_find_mut f j = Ok (y, put) /\ forall x, put x = repl f x j.
Proof.
  destruct f as [k|i], j as [o|v|s|n|b|]; try discriminate.
  - rewrite step_key. cbn [f_find_mut repl]. destruct (hm_get k o) as [[z l]|]; [|discriminate]. intros [= ->]. eauto.
  - rewrite step_index. cbn [f_find_mut repl]. intros ->. eauto.
Qed.
Lemma finder_eq_dec (a b : finder) : {a = b} + {a <> b}.
Proof. decide equality; [apply list_eq_dec|]; apply N.eq_dec. Qed.

Lemma step_repl f x j y g : keys_ok j -> step f j = Some y -> step g (repl f x j) = if finder_eq_dec f g then Some x else step g j.
Proof.
  destruct f as [k|i], j as [o|v|s|n|b|]; try discriminate; intros Hk.
  - rewrite step_key. cbn [repl]. destruct (hm_get k o) as [[z l]|] eqn:E; [|discriminate]. intros [= ->].
    destruct g as [k'|i']; [|destruct (finder_eq_dec _ _); [discriminate|reflexivity]].
    rewrite !step_key, hm_get_insert by exact Hk. destruct (finder_eq_dec (Key k) (Key k')) as [[= <-]|Hn].
    + now rewrite str_eqb_refl.
    + destruct (str_eqb k' k) eqn:E'; auto. apply str_eqb_eq in E' as ->. congruence.
  - rewrite step_index. cbn [repl]. intros E.
    destruct g as [k'|i']; [destruct (finder_eq_dec _ _); [discriminate|reflexivity]|].
    rewrite !step_index. apply vec_get_some in E.
    assert (L : (N.to_nat i < List.length v)%nat) by (apply nth_error_Some; congruence).
    unfold vec_get, vlen. rewrite vec_set_length, vec_set_nth by auto.
    destruct (finder_eq_dec (Index i) (Index i')) as [[= <-]|Hn].
    + rewrite Nat.eqb_refl. now rewrite if_true by lia.
    + destruct (Nat.eqb_spec (N.to_nat i') (N.to_nat i)); auto. exfalso. apply Hn. f_equal. lia.
Qed.
Lemma values_repl f x j y k : keys_ok j -> step f j = Some y ->
  values_at k (repl f x j) = if finder_eq_dec f (Key k) then removelast (values_at k j) ++ [x] else values_at k j.
Proof.
  destruct f as [k'|i], j as [o|v|s|n|b|]; try discriminate; intros Hk.
  - rewrite step_key. cbn [repl]. destruct (hm_get k' o) as [[z l]|] eqn:E; [|discriminate]. intros [= ->].
    rewrite !values_at_get, hm_get_insert by exact Hk. destruct (finder_eq_dec (Key k') (Key k)) as [[= <-]|Hn].
    + rewrite str_eqb_refl, E, removelast_last. reflexivity.
    + destruct (str_eqb k k') eqn:E'; auto. apply str_eqb_eq in E' as ->. congruence.
  - intros _. destruct (finder_eq_dec _ _); [discriminate|reflexivity].
Qed.
Lemma repl_same f j y : keys_ok j -> step f j = Some y -> repl f y j = j.
Proof.
  destruct f as [k|i], j as [o|v|s|n|b|]; try discriminate; intros Hk.
  - rewrite step_key. cbn [repl]. destruct (hm_get k o) as [[z l]|] eqn:E; [|discriminate]. intros [= ->].
    rewrite hm_insert_same by auto. reflexivity.
  - rewrite step_index. intros E. cbn. apply vec_get_some in E. now rewrite vec_set_same.
Qed.
Lemma repl_repl f x x' j y : keys_ok j -> step f j = Some y -> repl f x' (repl f x j) = repl f x' j.
Proof.
  destruct f as [k|i], j as [o|v|s|n|b|]; try discriminate; intros Hk.
  - rewrite step_key. cbn [repl]. destruct (hm_get k o) as [[z l]|] eqn:E; [|discriminate]. intros _.
    cbn [repl]. rewrite hm_get_insert, str_eqb_refl by auto. f_equal. now apply hm_insert_insert.
  - intros _. cbn. now rewrite vec_set_set.
Qed.

(** Well-formedness of keys at all levels, preserved by everything. *)
Fixpoint skeys (j : json) : bool :=
  match j with
  | JObj o => keys_sorted o && forallb (fun e => skeys (fst (snd e)) && forallb skeys (snd (snd e))) o
  | JArr v => forallb skeys v
  | _ => true
  end.
Lemma skeys_ok j : skeys j = true -> keys_ok j.
Proof. destruct j; cbn; auto. rewrite andb_true_iff. tauto. Qed.
Lemma wf_skeys j : wf j = true -> skeys j = true.
Proof.
  induction j as [o IH|v IH|s|f|b|] using json_ind; cbn [wf skeys]; auto.
  - rewrite !andb_true_iff. intros [Hs Ho]. split; auto. rewrite forallb_forall in *. rewrite Forall_forall in IH. intros e He.
    specialize (Ho e He). destruct (IH e He) as [I1 I2]. rewrite !andb_true_iff in Ho. destruct Ho as (_ & H1 & H2).
    rewrite andb_true_iff. split; auto. rewrite forallb_forall in *. rewrite Forall_forall in I2. auto.
  - rewrite !forallb_forall. rewrite Forall_forall in IH. auto.
Qed.
Lemma step_In f j y : step f j = Some y -> match j with
  | JObj o => exists e, In e o /\ y = fst (snd e)
  | JArr v => In y v
  | _ => False end.
Proof.
  destruct f as [k|i], j as [o|v|s|n|b|]; try discriminate.
  - rewrite step_key. destruct (hm_get k o) as [[z l]|] eqn:E; [|discriminate]. intros [= ->].
    apply hm_get_In in E. eexists; split; eauto.
  - rewrite step_index. intros E. apply vec_get_some in E. eapply nth_error_In; eauto.
Qed.
Lemma step_skeys f j y : skeys j = true -> step f j = Some y -> skeys y = true.
Proof.
  intros H E. apply step_In in E. destruct j as [o|v|s|n|b|]; try contradiction; cbn in H.
  - apply andb_true_iff in H as [_ H]. rewrite forallb_forall in H. destruct E as (e & He & ->). apply H in He. now apply andb_true_iff in He as [He _].
  - rewrite forallb_forall in H. auto.
Qed.
Lemma step_wf f j y : wf j = true -> step f j = Some y -> wf y = true.
Proof.
  intros H E. apply step_In in E. destruct j as [o|v|s|n|b|]; try contradiction; cbn in H.
  - apply andb_true_iff in H as [_ H]. rewrite forallb_forall in H. destruct E as (e & He & ->). apply H in He.
    rewrite !andb_true_iff in He. tauto.
  - rewrite forallb_forall in H. auto.
Qed.
Lemma walk_wf c : forall j y, wf j = true -> walk c j = Some y -> wf y = true.
Proof.
  induction c as [|f c IH]; intros j y H; cbn. { now intros [= <-]. }
  destruct (step f j) as [z|] eqn:E; [|discriminate]. apply IH. eapply step_wf; eauto.
Qed.
Lemma walk_skeys c : forall j y, skeys j = true -> walk c j = Some y -> skeys y = true.
Proof.
  induction c as [|f c IH]; intros j y H; cbn. { now intros [= <-]. }
  destruct (step f j) as [z|] eqn:E; [|discriminate]. apply IH. eapply step_skeys; eauto.
Qed.
Lemma walk_app c d j : walk (c ++ d) j = match walk c j with Some y => walk d y | None => None end.
Proof. revert j; induction c as [|f c IH]; intros j; cbn; auto. destruct (step f j); auto. Qed.

(** ** Editing the value at a location *)
Fixpoint edit (c : list finder) (g : json -> json) (j : json) : json :=
  match c with
  | [] => g j
  | f :: c' => match step f j with Some y => repl f (edit c' g y) j | None => j end
  end.
Lemma edit_walk c g : forall j y, skeys j = true -> walk c j = Some y -> walk c (edit c g j) = Some (g y).
Proof.
  induction c as [|f c IH]; intros j y Hs; cbn. { now intros [= <-]. }
  destruct (step f j) as [z|] eqn:E; [|discriminate]. intros H.
  rewrite (step_repl f _ j z f) by (auto using skeys_ok). destruct (finder_eq_dec f f); [|congruence].
  apply IH; auto. eapply step_skeys; eauto.
Qed.
Lemma edit_apart g d a b c' q : a <> b -> forall j, skeys j = true ->
  walk (d ++ b :: q) (edit (d ++ a :: c') g j) = walk (d ++ b :: q) j.
Proof.
  intros Hab. induction d as [|f d IH]; intros j Hs; cbn.
  - destruct (step a j) as [z|] eqn:E; auto. rewrite (step_repl a _ j z b) by auto using skeys_ok.
    destruct (finder_eq_dec a b); [congruence|reflexivity].
  - destruct (step f j) as [z|] eqn:E; [|now rewrite E].
    rewrite (step_repl f _ j z f) by auto using skeys_ok. destruct (finder_eq_dec f f); [|congruence].
    apply IH. eapply step_skeys; eauto.
Qed.
(** All members of an object passed on the way. *)
Lemma edit_passed g d a c' : forall j z y, skeys j = true -> walk d j = Some z -> step a z = Some y ->
  exists z', walk d (edit (d ++ a :: c') g j) = Some z' /\ z' = repl a (edit c' g y) z.
Proof.
  induction d as [|f d IH]; intros j z y Hs; cbn.
  - intros [= ->] E. rewrite E. eauto.
  - destruct (step f j) as [u|] eqn:E; [|discriminate]. intros H Ea.
    rewrite (step_repl f _ j u f) by auto using skeys_ok. destruct (finder_eq_dec f f); [|congruence].
    apply IH; auto. eapply step_skeys; eauto.
Qed.

(** [discard] edits the parent. *)
Lemma p_discard_edit p c f : steps p = c ++ [f] -> forall j, walk (steps p) j <> None ->
  fst (p_discard p j) = edit c (fun y => fst (f_discard f y)) j.
Proof.
  revert c; induction p as [g|g q IH]; intros c E j H; cbn [steps p_discard] in *.
  - destruct c as [|x [|]]; try discriminate. injection E as <-. reflexivity.
  - destruct c as [|x c]. { injection E as -> E. destruct q; discriminate. } injection E as <- E.
    cbn [walk] in H. cbn [edit]. destruct (step g j) as [y|] eqn:Es; [|congruence].
    destruct (f_find_mut_step _ _ _ Es) as (put & -> & Hput). rewrite <- (IH c E y H).
    destruct (p_discard q y). cbn. apply Hput.
Qed.
Lemma p_discard_err p : forall j, skeys j = true -> walk (steps p) j = None -> fst (p_discard p j) = j.
Proof.
  induction p as [f|f q IH]; intros j Hs H; cbn [steps walk p_discard] in *.
  - pose proof (f_find_step f j) as F. destruct (step f j); [discriminate|]. destruct F as (e & F & _).
    rewrite <- f_discard_find in F. destruct f as [k|i], j as [o|v|s|n|b|]; cbn in *; auto.
    + destruct (hm_get k o) as [[]|]; auto. discriminate.
    + destruct (i <? vlen v); auto. destruct (nth_error v (N.to_nat i)); auto. discriminate.
  - destruct (step f j) as [y|] eqn:Es.
    + destruct (f_find_mut_step _ _ _ Es) as (put & -> & Hput). pose proof (IH y (step_skeys _ _ _ Hs Es) H) as E.
      destruct (p_discard q y) as [y' r]. cbn in *. subst y'. rewrite Hput. apply repl_same; auto using skeys_ok.
    + pose proof (f_find_step f j) as F. rewrite Es in F. destruct F as (e & F & _). rewrite <- f_find_mut_find in F.
      destruct (f_find_mut f j) as [[]| | |]; try discriminate; reflexivity.
Qed.

(** ** Creating a child *)
Definition elems (j : json) : list json := match j with JArr v => v | _ => [] end.
Definition make (f : finder) (x : json) (j : json) : json :=
  match f with
  | Key k => JObj (hm_insert k (x, []) (match j with JObj o => o | _ => [] end))
  | Index i => JArr (vec_set (N.to_nat i) x
                       (if vlen (elems j) <=? i then resize i (elems j) else elems j))
  end.
Lemma resize_length i v : vlen v <= i -> List.length (resize i v) = N.to_nat (i + 1).
Proof. unfold resize, vlen. intros H. rewrite app_length, repeat_length. lia. Qed.
Lemma sized_length i v : (N.to_nat i < List.length (if (vlen v <=? i)%N then resize i v else v))%nat.
Proof. destruct (N.leb_spec (vlen v) i); [rewrite resize_length by auto|unfold vlen in *]; lia. Qed.
Lemma sized_nth i v k : nth_error (if vlen v <=? i then resize i v else v) k =
  match nth_error v k with Some y => Some y | None => if (Nat.leb k (N.to_nat i)) then Some JNull else None end.
Proof.
  destruct (N.leb_spec (vlen v) i) as [H|H]; unfold vlen in *.
  - unfold resize. destruct (nth_error v k) as [y|] eqn:E.
    + rewrite nth_error_app1; auto. apply nth_error_Some. congruence.
    + apply nth_error_None in E. rewrite nth_error_app2 by auto.
      destruct (Nat.leb_spec k (N.to_nat i)).
      * rewrite nth_error_repeat; auto. unfold vlen. lia.
      * apply nth_error_None. rewrite repeat_length. unfold vlen. lia.
  - destruct (nth_error v k) as [y|] eqn:E; auto. apply nth_error_None in E.
    destruct (Nat.leb_spec k (N.to_nat i)); auto. lia.
Qed.
Lemma step_index_elems i j : step (Index i) j = vec_get i (elems j).
Proof. destruct j; cbn; auto; now destruct i. Qed.
Lemma vec_get_is_nth i v : vec_get i v = nth_error v (N.to_nat i).
Proof.
  destruct (nth_error v (N.to_nat i)) as [x|] eqn:E; [now apply vec_get_some|]. apply vec_get_none. apply nth_error_None in E. lia.
Qed.
Definition obj_of (j : json) : hmap := match j with JObj o => o | _ => [] end.
Lemma obj_of_sorted j : keys_ok j -> keys_sorted (obj_of j) = true.
Proof. destruct j; cbn; auto. Qed.
Lemma step_key_obj k j : step (Key k) j = option_map fst (hm_get k (obj_of j)).
Proof. destruct j; cbn; auto. rewrite find_get. now destruct (hm_get k o). Qed.

Lemma step_make f x j g : keys_ok j -> same_sort f g = true -> step g (make f x j) =
  if finder_eq_dec f g then Some x else
  match step g j with Some y => Some y | None =>
    match f, g with Index i, Index i' => if i' <? i then Some JNull else None | _, _ => None end end.
Proof.
  intros Hk Hs. destruct f as [k|i], g as [k'|i']; try discriminate Hs.
  - rewrite step_key_obj, step_key_obj. cbn [make obj_of]. fold (obj_of j). rewrite hm_get_insert by now apply obj_of_sorted.
    destruct (finder_eq_dec (Key k) (Key k')) as [[= <-]|Hn]; [now rewrite str_eqb_refl|].
    destruct (str_eqb k' k) eqn:E; [apply str_eqb_eq in E; congruence|]. destruct (hm_get k' (obj_of j)) as [[]|]; reflexivity.
  - rewrite !step_index_elems. cbn [make elems]. rewrite !vec_get_is_nth. rewrite vec_set_nth by apply sized_length.
    destruct (finder_eq_dec (Index i) (Index i')) as [[= <-]|Hn]; [now rewrite Nat.eqb_refl|].
    destruct (Nat.eqb_spec (N.to_nat i') (N.to_nat i)) as [E|E]; [exfalso; apply Hn; f_equal; lia|].
    rewrite sized_nth. destruct (nth_error (elems j) (N.to_nat i')); auto.
    destruct (N.ltb_spec i' i), (Nat.leb_spec (N.to_nat i') (N.to_nat i)); auto; lia.
Qed.
Lemma step_make_same f x j : keys_ok j -> step f (make f x j) = Some x.
Proof. intros H. rewrite step_make; auto; [|now destruct f]. destruct (finder_eq_dec f f); congruence. Qed.
Lemma values_make k x j k' : keys_ok j -> values_at k' (make (Key k) x j) = if str_eqb k' k then [x] else values_at k' j.
Proof.
  intros H. cbn [make]. fold (obj_of j). rewrite values_at_get, hm_get_insert by now apply obj_of_sorted.
  destruct (str_eqb k' k); auto. destruct j; cbn [obj_of]; auto. now rewrite values_at_get.
Qed.
Lemma make_keys f x j : keys_ok j -> keys_ok (make f x j).
Proof. intros H. destruct f; cbn; auto. fold (obj_of j). apply hm_insert_sorted. now apply obj_of_sorted. Qed.
Lemma make_make f x y j : keys_ok j -> make f y (make f x j) = make f y j.
Proof.
  intros H. destruct f as [k|i]; cbn [make].
  - fold (obj_of j). f_equal. apply hm_insert_insert. now apply obj_of_sorted.
  - cbn [elems]. f_equal. pose proof (sized_length i (elems j)) as L.
    set (v := if vlen (elems j) <=? i then _ else _) in *. unfold vlen at 1. rewrite vec_set_length.
    rewrite (proj2 (N.leb_gt _ _)) by lia. apply vec_set_set.
Qed.
Lemma make_repl f x y j : keys_ok j -> repl f y (make f x j) = make f y j.
Proof.
  intros H. destruct f as [k|i]; cbn [make repl].
  - fold (obj_of j). rewrite hm_get_insert, str_eqb_refl by now apply obj_of_sorted. f_equal. apply hm_insert_insert. now apply obj_of_sorted.
  - f_equal. apply vec_set_set.
Qed.
(** Making over a replaced child. *)
Lemma repl_make f x y j z : keys_ok j -> step f j = Some z -> make f y (repl f x j) = make f y j.
Proof.
  destruct f as [k|i], j as [o|v|s|n|b|]; try discriminate; intros Hk.
  - rewrite step_key. cbn [repl]. destruct (hm_get k o) as [[w l]|]; [|discriminate]. intros _. cbn [make]. f_equal. now apply hm_insert_insert.
  - rewrite step_index. intros E. apply vec_get_some in E. cbn [repl make elems]. f_equal. unfold vlen. rewrite vec_set_length.
    assert (L : (N.to_nat i < List.length v)%nat) by (apply nth_error_Some; congruence).
    rewrite (proj2 (N.leb_gt _ _)) by lia. apply vec_set_set.
Qed.

(** ** update *)
Fixpoint upd (p : list finder) (x : json) (j : json) : json :=
  match p with
  | [] => x
  | f :: q => match q with
              | [] => make f x j
              | _ :: _ => match step f j with
                          | Some y => repl f (upd q x y) j
                          | None => make f (upd q x JNull) j
                          end
              end
  end.
Section Update.
Variable vmax : N.
Definition over1 (f : finder) (j : json) : bool :=
  match f with Index i => (vmax <=? i) && match step f j with None => true | Some _ => false end | Key _ => false end.
Lemma f_update_make f j x : keys_ok j ->
  if over1 f j then exists j', f_update vmax f j x = (j', Panic)
  else exists put, f_update vmax f j x = (make f x j, Ok (x, put)) /\ forall z, put z = make f z j.
Proof.
  intros Hk. destruct f as [k|i]; cbn [over1 f_update make].
  - set (j' := match j with JObj o => JObj (hm_insert k (x, []) o) | _ => JObj (hm_insert k (x, []) []) end).
    assert (E : j' = JObj (hm_insert k (x, []) (obj_of j))) by (unfold j'; now destruct j).
    fold (obj_of j). rewrite E. cbn [f_find_mut]. rewrite hm_get_insert, str_eqb_refl by now apply obj_of_sorted.
    eexists; split; [reflexivity|]. intros z. cbn. f_equal. apply hm_insert_insert. now apply obj_of_sorted.
  - rewrite step_index_elems.
    assert (F : forall v, (N.to_nat i < List.length v)%nat -> f_find_mut (Index i) (JArr v) =
       Ok (nth (N.to_nat i) v JNull, fun y => JArr (vec_set (N.to_nat i) y v))).
    { intros v L. cbn [f_find_mut]. rewrite vec_get_is_nth, (nth_error_nth' v JNull) by auto. reflexivity. }
    assert (S : forall v, (N.to_nat i < List.length v)%nat ->
      (let (j', r) := match f_find_mut (Index i) (JArr v) with
          | Ok (_, put) => let j' := put x in (j', match f_find_mut (Index i) j' with Ok r => Ok r | Err _ => Panic | Panic => Panic | Fuel => Fuel end)
          | _ => (JArr v, Panic) end in (j', r)) = (JArr (vec_set (N.to_nat i) x v), Ok (x, fun y => JArr (vec_set (N.to_nat i) y (vec_set (N.to_nat i) x v))))).
    { intros v L. rewrite (F v L). cbv zeta. rewrite F by now rewrite vec_set_length.
      f_equal. f_equal. f_equal. apply nth_error_nth. rewrite vec_set_nth by auto. now rewrite Nat.eqb_refl. }
    set (sized := match j with JArr v => _ | _ => _ end).
    assert (E : sized = if vlen (elems j) <=? i then (if vmax <? i + 1 then None else Some (resize i (elems j))) else Some (elems j)).
    { unfold sized. destruct j; cbn [elems]; auto; now destruct i. }
    rewrite E. destruct (N.leb_spec (vlen (elems j)) i) as [H|H].
    + rewrite (proj2 (vec_get_none _ _)) by auto. rewrite andb_true_r.
      destruct (N.ltb_spec vmax (i + 1)), (N.leb_spec vmax i); try lia.
      * eauto.
      * specialize (S (resize i (elems j))). rewrite resize_length in S by auto.
        destruct (match f_find_mut (Index i) (JArr (resize i (elems j))) with Ok _ => _ | _ => _ end) eqn:Em.
        rewrite S by lia. eexists; split; [reflexivity|]. intros z. cbn. f_equal. apply vec_set_set.
    + assert (L : (N.to_nat i < List.length (elems j))%nat) by (unfold vlen in H; lia).
      rewrite vec_get_is_nth, (nth_error_nth' _ JNull) by auto. rewrite andb_false_r.
      specialize (S (elems j) L). destruct (match f_find_mut (Index i) (JArr (elems j)) with Ok _ => _ | _ => _ end) eqn:Em.
      rewrite S. eexists; split; [reflexivity|]. intros z. cbn. f_equal. apply vec_set_set.
Qed.
Fixpoint over (p : list finder) (j : json) : bool :=
  match p with
  | [] => false
  | f :: q => over1 f j || over q (match step f j with Some y => y | None => JNull end)
  end.
Lemma skeys_null : skeys JNull = true. Proof. reflexivity. Qed.
Lemma walk_null c i : walk (c ++ [Index i]) JNull = None.
Proof. destruct c as [|[]]; reflexivity. Qed.
Lemma over_overflows p : forall j, over p j = true <-> overflows vmax p j.
Proof.
  induction p as [|f q IH]; intros j; cbn [over].
  - split; [discriminate|]. intros ([|] & i & d & E & _); discriminate.
  - rewrite orb_true_iff, IH. split.
    + intros [H|(c & i & d & -> & Hi & Hw)].
      * destruct f as [k|i]; [discriminate|]. cbn [over1] in H. apply andb_true_iff in H as [Hi H].
        exists [], i, q. split; auto. split; [lia|]. cbn [app walk]. destruct (step (Index i) j); [discriminate|auto].
      * exists (f :: c), i, d. split; auto. split; auto. cbn [app walk]. destruct (step f j); auto.
    + intros ([|g c] & i & d & E & Hi & Hw); injection E as -> ->.
      * left. cbn [over1]. cbn [app walk] in Hw. destruct (step (Index i) j); [discriminate|]. lia.
      * right. exists c, i, d. split; auto. split; auto. cbn [app walk] in Hw. destruct (step g j); auto using walk_null.
Qed.
Lemma upd_cons f q x j : q <> [] -> upd (f :: q) x j =
  match step f j with Some y => repl f (upd q x y) j | None => make f (upd q x JNull) j end.
Proof. destruct q; [congruence|]. reflexivity. Qed.
Lemma steps_nonempty p : steps p <> [].
Proof. destruct p; discriminate. Qed.
Lemma p_update_upd p : forall j x, skeys j = true ->
  if over (steps p) j then exists j', p_update vmax p j x = (j', Panic)
  else p_update vmax p j x = (upd (steps p) x j, Ok x).
Proof.
  induction p as [f|f q IH]; intros j x Hs; cbn [steps p_update over].
  - rewrite orb_false_r. pose proof (f_update_make f j x (skeys_ok _ Hs)) as H. destruct (over1 f j).
    + destruct H as (j' & ->). cbn. eauto.
    + destruct H as (put & -> & _). reflexivity.
  - rewrite upd_cons by apply steps_nonempty. pose proof (f_find_step f j) as F. destruct (step f j) as [y|] eqn:Es.
    + rewrite F. destruct (f_find_mut_step _ _ _ Es) as (put & -> & Hput).
      assert (O : over1 f j = false). { destruct f; auto. cbn [over1]. rewrite Es. apply andb_false_r. } rewrite O. cbn [orb].
      pose proof (IH y x (step_skeys _ _ _ Hs Es)) as I. destruct (over (steps q) y).
      * destruct I as (y' & ->). eauto.
      * rewrite I. now rewrite Hput.
    + destruct F as (e & -> & _). pose proof (f_update_make f j JNull (skeys_ok _ Hs)) as H. destruct (over1 f j).
      * destruct H as (j' & ->). cbn [orb]. eauto.
      * destruct H as (put & -> & Hput). cbn [orb]. pose proof (IH JNull x eq_refl) as I. destruct (over (steps q) JNull).
        -- destruct I as (y' & ->). eauto.
        -- rewrite I. now rewrite Hput.
Qed.
End Update.

Lemma upd_walk p x : forall j, skeys j = true -> walk p (upd p x j) = Some x.
Proof.
  induction p as [|f q IH]; intros j Hs; [reflexivity|]. destruct q as [|g q].
  - cbn [upd walk]. rewrite step_make_same by auto using skeys_ok. reflexivity.
  - rewrite upd_cons by discriminate. cbn [walk]. destruct (step f j) as [y|] eqn:E.
    + rewrite (step_repl f _ j y f) by auto using skeys_ok. destruct (finder_eq_dec f f); [|congruence].
      apply IH. eapply step_skeys; eauto.
    + rewrite step_make_same by auto using skeys_ok. apply IH. reflexivity.
Qed.
Lemma upd_upd p x y : forall j, skeys j = true -> upd p y (upd p x j) = upd p y j.
Proof.
  induction p as [|f q IH]; intros j Hs; [reflexivity|]. destruct q as [|g q].
  - cbn [upd]. apply make_make. auto using skeys_ok.
  - rewrite !(upd_cons f (g :: q)) by discriminate. destruct (step f j) as [z|] eqn:E.
    + rewrite (step_repl f _ j z f) by auto using skeys_ok. destruct (finder_eq_dec f f); [|congruence].
      rewrite (repl_repl f _ _ j z) by auto using skeys_ok. f_equal. apply IH. eapply step_skeys; eauto.
    + rewrite step_make_same by auto using skeys_ok. rewrite make_repl by auto using skeys_ok. f_equal. now apply IH.
Qed.
(** What [upd] does to a location that leaves the path at a step of the same sort. *)
Lemma upd_apart d a b p' q x : a <> b -> same_sort a b = true -> forall j, skeys j = true ->
  walk (d ++ b :: q) (upd (d ++ a :: p') x j) =
  match walk (d ++ [b]) j with
  | Some _ => walk (d ++ b :: q) j
  | None => match a, b with Index i, Index i' => if i' <? i then walk q JNull else None | _, _ => None end
  end.
Proof.
  intros Hab Hss. induction d as [|f d IH]; intros j Hs; cbn [app].
  - set (t := match p' with [] => x | _ => match step a j with Some y => upd p' x y | None => upd p' x JNull end end).
    assert (E : upd (a :: p') x j = match p', step a j with _ :: _, Some _ => repl a t j | _, _ => make a t j end).
    { unfold t. destruct p' as [|g p']; [reflexivity|]. rewrite upd_cons by discriminate. now destruct (step a j). }
    rewrite E. cbn [walk].
    assert (M : match step b (make a t j) with Some y => walk q y | None => None end =
      match match step b j with Some y => Some y | None => None end with
      | Some _ => match step b j with Some y => walk q y | None => None end
      | None => match a, b with Index i, Index i' => if i' <? i then walk q JNull else None | _, _ => None end end).
    { rewrite step_make by auto using skeys_ok. destruct (finder_eq_dec a b); [congruence|]. destruct (step b j); auto.
      destruct a as [|i], b as [|i']; auto. now destruct (i' <? i). }
    destruct p' as [|g p']; [exact M|]. destruct (step a j) as [y|] eqn:Ea; [|exact M].
    rewrite (step_repl a _ j y b) by auto using skeys_ok. destruct (finder_eq_dec a b); [congruence|]. destruct (step b j) as [z|] eqn:Eb; auto.
    destruct a as [|i], b as [|i']; auto. destruct (N.ltb_spec i' i); auto. exfalso.
    rewrite step_index_elems in Ea, Eb. apply vec_get_none in Eb. rewrite vec_get_is_nth in Ea.
    assert (L : (N.to_nat i < List.length (elems j))%nat) by (apply nth_error_Some; congruence). lia.
  - rewrite upd_cons by (destruct d; discriminate). cbn [walk]. destruct (step f j) as [y|] eqn:E.
    + rewrite (step_repl f _ j y f) by auto using skeys_ok. destruct (finder_eq_dec f f); [|congruence].
      apply IH. eapply step_skeys; eauto.
    + rewrite step_make_same by auto using skeys_ok. rewrite IH by reflexivity.
      replace (walk (d ++ [b]) JNull) with (@None json) by (destruct d as [|[]], b; reflexivity).
      destruct a as [|i], b as [|i']; auto.
Qed.

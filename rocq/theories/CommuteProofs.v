(** Edits of different places, one level at a time. *)
From Verif Require Import Base F64 Json Parse Ops Path SpecGrammar SpecPath MapProofs PathProofs PreserveProofs.
From Coq Require Import ZifyBool ZifyNat ZifyN.
Open Scope N_scope.

(** ** Hash maps *)
Lemma hm_insert_comm {V} k k' (u v : V) m : keys_sorted m = true -> k <> k' ->
  hm_insert k u (hm_insert k' v m) = hm_insert k' v (hm_insert k u m).
Proof.
  intros Hs Hk. apply hm_ext; auto using hm_insert_sorted. intros q. rewrite !hm_get_insert by auto using hm_insert_sorted.
  destruct (str_eqb q k) eqn:E, (str_eqb q k') eqn:E'; auto. apply str_eqb_eq in E, E'. congruence.
Qed.
Lemma hm_insert_remove_comm {V} k k' (u : V) m : keys_sorted m = true -> k <> k' ->
  hm_insert k u (hm_remove k' m) = hm_remove k' (hm_insert k u m).
Proof.
  intros Hs Hk. apply hm_ext; auto using hm_insert_sorted, hm_remove_sorted. intros q.
  rewrite hm_get_remove, !hm_get_insert, hm_get_remove by auto using hm_insert_sorted, hm_remove_sorted.
  destruct (str_eqb q k) eqn:E, (str_eqb q k') eqn:E'; auto. apply str_eqb_eq in E, E'. congruence.
Qed.
Lemma hm_remove_comm {V} k k' (m : list (str * V)) : keys_sorted m = true -> hm_remove k (hm_remove k' m) = hm_remove k' (hm_remove k m).
Proof.
  intros Hs. apply hm_ext; auto using hm_remove_sorted. intros q. rewrite !hm_get_remove by auto using hm_remove_sorted.
  now destruct (str_eqb q k), (str_eqb q k').
Qed.

(** ** One level *)
Definition put_key (k : str) (F : option (json * list json) -> json * list json) (j : json) : json :=
  JObj (hm_insert k (F (hm_get k (obj_of j))) (obj_of j)).
Definition sized (i : N) (v : list json) : list json := if vlen v <=? i then resize i v else v.
Definition put_index (i : N) (F : option json -> json) (j : json) : json :=
  JArr (vec_set (N.to_nat i) (F (nth_error (elems j) (N.to_nat i))) (sized i (elems j))).
Lemma put_key_comm k k' F G j : keys_ok j -> k <> k' -> put_key k F (put_key k' G j) = put_key k' G (put_key k F j).
Proof.
  intros Hk Hn. pose proof (obj_of_sorted _ Hk) as Hs. unfold put_key. cbn [obj_of]. rewrite !hm_get_insert by auto.
  apply str_eqb_neq in Hn as Hn'. rewrite Hn'. assert (Hn2 : k' <> k) by congruence. apply str_eqb_neq in Hn2. rewrite Hn2.
  f_equal. now apply hm_insert_comm.
Qed.
Lemma put_index_nth i F j n : nth_error (elems (put_index i F j)) n =
  if Nat.eqb n (N.to_nat i) then Some (F (nth_error (elems j) (N.to_nat i)))
  else match nth_error (elems j) n with Some y => Some y | None => if Nat.leb n (N.to_nat i) then Some JNull else None end.
Proof.
  unfold put_index. cbn [elems]. rewrite vec_set_nth by apply sized_length. destruct (Nat.eqb n (N.to_nat i)); auto. apply sized_nth.
Qed.
Lemma nth_ext_arr (v w : list json) : (forall n, nth_error v n = nth_error w n) -> v = w.
Proof.
  revert w; induction v as [|x v IH]; intros [|y w] H; auto; try (specialize (H 0%nat); discriminate).
  f_equal; [specialize (H 0%nat); now injection H|]. apply IH. intros n. exact (H (S n)).
Qed.
Lemma put_index_comm i i' F G j : F None = F (Some JNull) -> G None = G (Some JNull) -> i <> i' ->
  put_index i F (put_index i' G j) = put_index i' G (put_index i F j).
Proof.
  intros HF HG Hn.
  assert (N1 : Nat.eqb (N.to_nat i) (N.to_nat i') = false) by (apply Nat.eqb_neq; lia).
  assert (N2 : Nat.eqb (N.to_nat i') (N.to_nat i) = false) by (apply Nat.eqb_neq; lia).
  assert (E : elems (put_index i F (put_index i' G j)) = elems (put_index i' G (put_index i F j))).
  { apply nth_ext_arr. intros n. rewrite !put_index_nth, N1, N2.
    assert (HF' : F (match nth_error (elems j) (N.to_nat i) with Some y => Some y | None => if Nat.leb (N.to_nat i) (N.to_nat i') then Some JNull else None end)
      = F (nth_error (elems j) (N.to_nat i))).
    { destruct (nth_error (elems j) (N.to_nat i)); auto. destruct (Nat.leb _ _); auto. }
    assert (HG' : G (match nth_error (elems j) (N.to_nat i') with Some y => Some y | None => if Nat.leb (N.to_nat i') (N.to_nat i) then Some JNull else None end)
      = G (nth_error (elems j) (N.to_nat i'))).
    { destruct (nth_error (elems j) (N.to_nat i')); auto. destruct (Nat.leb (N.to_nat i') (N.to_nat i)); auto. }
    rewrite HF', HG'. destruct (Nat.eqb_spec n (N.to_nat i)) as [E1|E1]; destruct (Nat.eqb_spec n (N.to_nat i')) as [E2|E2]; [lia|reflexivity|reflexivity|].
    destruct (nth_error (elems j) n); auto. now destruct (Nat.leb n (N.to_nat i)), (Nat.leb n (N.to_nat i')). }
  unfold put_index in *. cbn [elems] in *. now rewrite E.
Qed.

(** Both ways to write one step down are of this form. *)
Definition key_fun (p : list finder) (x : json) (e : option (json * list json)) : json * list json :=
  match p with [] => (x, []) | _ => match e with Some (y, l) => (upd p x y, l) | None => (upd p x JNull, []) end end.
Definition index_fun (p : list finder) (x : json) (e : option json) : json :=
  match p with [] => x | _ => upd p x (match e with Some y => y | None => JNull end) end.
Lemma sized_same i v : (N.to_nat i < List.length v)%nat -> sized i v = v.
Proof. intros H. unfold sized, vlen. now rewrite (proj2 (N.leb_gt _ _)) by lia. Qed.
Lemma upd_key k p x j : upd (Key k :: p) x j = put_key k (key_fun p x) j.
Proof.
  destruct p as [|g p]; [reflexivity|]. rewrite upd_cons by discriminate. rewrite step_key_obj. unfold put_key, key_fun.
  destruct (hm_get k (obj_of j)) as [[y l]|] eqn:E; cbn [option_map fst].
  - destruct j as [o| | | | |]; try discriminate. cbn [obj_of] in E. cbn [repl obj_of]. now rewrite E.
  - reflexivity.
Qed.
Lemma upd_index i p x j : upd (Index i :: p) x j = put_index i (index_fun p x) j.
Proof.
  destruct p as [|g p]; [reflexivity|]. rewrite upd_cons by discriminate. rewrite step_index_elems, vec_get_is_nth. unfold put_index, index_fun.
  destruct (nth_error (elems j) (N.to_nat i)) as [y|] eqn:E.
  - destruct j as [|v| | | |]; cbn [elems] in E; try (now destruct (N.to_nat i)). cbn [repl elems]. rewrite sized_same; auto. apply nth_error_Some. congruence.
  - reflexivity.
Qed.
Definition over_fun (w : json) (e : option (json * list json)) : json * list json :=
  match e with Some (_, l) => (w, l) | None => (w, []) end.
Lemma repl_key k w j y : step (Key k) j = Some y -> repl (Key k) w j = put_key k (over_fun w) j.
Proof.
  rewrite step_key_obj. unfold put_key, over_fun. destruct j as [o| | | | |]; try discriminate. cbn [obj_of repl].
  now destruct (hm_get k o) as [[z l]|].
Qed.
Lemma repl_index i w j y : step (Index i) j = Some y -> repl (Index i) w j = put_index i (fun _ => w) j.
Proof.
  rewrite step_index_elems, vec_get_is_nth. intros E. destruct j as [|v| | | |]; cbn [elems] in E; try (now destruct (N.to_nat i)).
  unfold put_index. cbn [repl elems]. rewrite sized_same; auto. apply nth_error_Some. congruence.
Qed.
Lemma index_fun_null p x : index_fun p x None = index_fun p x (Some JNull).
Proof. now destruct p. Qed.

Definition apart (a b : finder) : Prop := a <> b /\ same_sort a b = true.
Lemma apart_sym a b : apart a b -> apart b a.
Proof. intros [H1 H2]. split; [congruence|]. now destruct a, b. Qed.
Lemma upd_comm1 a b p q x y j : apart a b -> keys_ok j -> upd (a :: p) x (upd (b :: q) y j) = upd (b :: q) y (upd (a :: p) x j).
Proof.
  intros [Hn Hs] Hk. destruct a as [k|i], b as [k'|i']; try discriminate.
  - rewrite !upd_key. apply put_key_comm; congruence.
  - rewrite !upd_index. apply put_index_comm; auto using index_fun_null. congruence.
Qed.
Lemma upd_repl_comm1 a b p x w z j : apart a b -> keys_ok j -> step b j = Some z ->
  upd (a :: p) x (repl b w j) = repl b w (upd (a :: p) x j).
Proof.
  intros Hab Hk Hz. assert (Hz' : step b (upd (a :: p) x j) = Some z).
  { pose proof (upd_apart [] a b p [] x (proj1 Hab) (proj2 Hab) j) as U. destruct Hab as [Hn Hs]. destruct a as [k|i], b as [k'|i']; try discriminate.
    - rewrite upd_key. unfold put_key. rewrite step_key, hm_get_insert by now apply obj_of_sorted. assert (N' : k' <> k) by congruence. apply str_eqb_neq in N'.
      rewrite N'. now rewrite step_key_obj in Hz.
    - rewrite upd_index, step_index_elems, vec_get_is_nth, put_index_nth. rewrite step_index_elems, vec_get_is_nth in Hz. rewrite Hz.
      destruct (Nat.eqb_spec (N.to_nat i') (N.to_nat i)); auto. assert (i = i') by lia. congruence. }
  destruct Hab as [Hn Hs]. destruct a as [k|i], b as [k'|i']; try discriminate.
  - rewrite (repl_key _ _ _ _ Hz), (repl_key _ _ _ _ Hz'), !upd_key. apply put_key_comm; congruence.
  - rewrite (repl_index _ _ _ _ Hz), (repl_index _ _ _ _ Hz'), !upd_index. apply put_index_comm; auto using index_fun_null. congruence.
Qed.
Lemma repl_repl_comm1 a b u w y z j : a <> b -> keys_ok j -> step a j = Some y -> step b j = Some z ->
  repl a u (repl b w j) = repl b w (repl a u j).
Proof.
  intros Hn Hk Hy Hz. assert (Hss : same_sort a b = true) by (destruct a, b, j; try discriminate; auto).
  assert (Hy' : step a (repl b w j) = Some y) by (rewrite (step_repl b w j z a) by auto; destruct (finder_eq_dec b a); [congruence|auto]).
  assert (Hz' : step b (repl a u j) = Some z) by (rewrite (step_repl a u j y b) by auto; destruct (finder_eq_dec a b); [congruence|auto]).
  destruct a as [k|i], b as [k'|i']; try discriminate.
  - rewrite (repl_key _ _ _ _ Hz), (repl_key _ _ _ _ Hz'), (repl_key _ _ _ _ Hy), (repl_key k u _ y) by (now rewrite <- (repl_key _ _ _ _ Hz)).
    rewrite (put_key_comm k k') by congruence. reflexivity.
  - rewrite (repl_index _ _ _ _ Hz), (repl_index _ _ _ _ Hz'), (repl_index _ _ _ _ Hy), (repl_index i u _ y) by (now rewrite <- (repl_index _ _ _ _ Hz)).
    rewrite (put_index_comm i i') by congruence. reflexivity.
Qed.

(** ** Whole paths *)
Lemma upd_pre d a p x j : upd (d ++ a :: p) x j = match d with
  | [] => upd (a :: p) x j
  | f :: d' => match step f j with Some y => repl f (upd (d' ++ a :: p) x y) j | None => make f (upd (d' ++ a :: p) x JNull) j end end.
Proof. destruct d as [|f d]; [reflexivity|]. cbn [app]. apply upd_cons. now destruct d. Qed.
Lemma step_upd_pre f d a p x j : keys_ok j -> step f (upd (f :: d ++ a :: p) x j) = Some (upd (d ++ a :: p) x (match step f j with Some y => y | None => JNull end)).
Proof.
  intros Hk. change (f :: d ++ a :: p) with ((f :: d) ++ a :: p). rewrite upd_pre. destruct (step f j) as [y|] eqn:E.
  - rewrite (step_repl f _ j y f) by auto. destruct (finder_eq_dec f f); congruence.
  - now apply step_make_same.
Qed.
Lemma child_skeys f j : skeys j = true -> skeys (match step f j with Some y => y | None => JNull end) = true.
Proof. intros H. destruct (step f j) eqn:E; auto. eapply step_skeys; eauto. Qed.
Theorem upd_comm d a b p q x y : apart a b -> forall j, skeys j = true ->
  upd (d ++ a :: p) x (upd (d ++ b :: q) y j) = upd (d ++ b :: q) y (upd (d ++ a :: p) x j).
Proof.
  intros Hab. induction d as [|f d IH]; intros j Hs; [now apply upd_comm1; auto using skeys_ok|].
  pose proof (skeys_ok _ Hs) as Hk. rewrite (upd_pre (f :: d) a p x (upd _ _ _)), (upd_pre (f :: d) b q y (upd _ _ _)). cbn [app].
  rewrite !step_upd_pre by auto. rewrite IH by now apply child_skeys.
  change (f :: d ++ b :: q) with ((f :: d) ++ b :: q). change (f :: d ++ a :: p) with ((f :: d) ++ a :: p). rewrite !(upd_pre (f :: d)).
  destruct (step f j) as [z|] eqn:E.
  - now rewrite !(repl_repl f _ _ j z) by auto.
  - now rewrite !make_repl by auto.
Qed.
(** One update does not change whether the other is possible. *)
Lemma over_upd vmax d a b p q x : apart a b -> forall j, skeys j = true -> over vmax (d ++ a :: p) j = false ->
  over vmax (d ++ b :: q) (upd (d ++ a :: p) x j) = over vmax (d ++ b :: q) j.
Proof.
  intros Hab. induction d as [|f d IH]; intros j Hs Ho.
  - cbn [app over] in *. apply orb_false_iff in Ho as [Ho _].
    pose proof (upd_apart [] a b p [] x (proj1 Hab) (proj2 Hab) j Hs) as U. cbn [app walk] in U.
    assert (E : step b (upd (a :: p) x j) = match step b j with Some y => Some y | None =>
       match a, b with Index i, Index i' => if i' <? i then Some JNull else None | _, _ => None end end).
    { destruct (step b (upd (a :: p) x j)), (step b j); congruence. }
    destruct (step b j) as [y|] eqn:Eb.
    + rewrite E. f_equal. destruct b; auto. cbn [over1]. now rewrite E, Eb.
    + destruct Hab as [Hn Hss]. destruct a as [k|i], b as [k'|i']; try discriminate.
      * now rewrite E.
      * rewrite E. destruct (N.ltb_spec i' i) as [L|L]; cbn [over1]; rewrite E, Eb; [|reflexivity].
        rewrite andb_false_r. cbn [over1] in Ho. rewrite step_index_elems in *. apply vec_get_none in Eb.
        rewrite (proj2 (vec_get_none i _)) in Ho by lia. rewrite andb_true_r in *. now replace (vmax <=? i') with false by lia.
  - cbn [app over]. pose proof (skeys_ok _ Hs) as Hk. rewrite step_upd_pre by auto. cbn [app over] in Ho. apply orb_false_iff in Ho as [O1 O2].
    rewrite IH; auto using child_skeys. f_equal. rewrite O1.
    destruct f; auto. cbn [over1]. rewrite step_upd_pre by auto. now rewrite andb_false_r.
Qed.

(** ** Editing and updating *)
Lemma edit_upd d a b p c g x : apart a b -> forall j, skeys j = true -> walk (d ++ b :: c) j <> None ->
  upd (d ++ a :: p) x (edit (d ++ b :: c) g j) = edit (d ++ b :: c) g (upd (d ++ a :: p) x j).
Proof.
  intros Hab. induction d as [|f d IH]; intros j Hs Hw; pose proof (skeys_ok _ Hs) as Hk.
  - cbn [app walk edit] in *. destruct (step b j) as [z|] eqn:Eb; [|congruence].
    pose proof (upd_apart [] a b p [] x (proj1 Hab) (proj2 Hab) j Hs) as U. cbn [app walk] in U. rewrite Eb in U.
    destruct (step b (upd (a :: p) x j)) as [z'|]; [|discriminate]. injection U as ->. now apply (upd_repl_comm1 a b p x _ z).
  - cbn [app walk] in Hw. destruct (step f j) as [z|] eqn:E; [|congruence]. rewrite (upd_pre (f :: d)). cbn [app edit].
    rewrite step_upd_pre, E by auto. rewrite (step_repl f _ j z f) by auto. destruct (finder_eq_dec f f); [|congruence].
    rewrite (repl_repl f _ _ j z) by auto. rewrite IH by (auto; eapply step_skeys; eauto).
    change (f :: d ++ a :: p) with ((f :: d) ++ a :: p). rewrite (upd_pre (f :: d)), E. now rewrite (repl_repl f _ _ j z) by auto.
Qed.
Lemma edit_edit_apart d a b c c' g h : a <> b -> forall j, skeys j = true -> walk (d ++ a :: c) j <> None -> walk (d ++ b :: c') j <> None ->
  edit (d ++ a :: c) g (edit (d ++ b :: c') h j) = edit (d ++ b :: c') h (edit (d ++ a :: c) g j).
Proof.
  intros Hab. induction d as [|f d IH]; intros j Hs Ha Hb; pose proof (skeys_ok _ Hs) as Hk.
  - cbn [app walk edit] in *. destruct (step a j) as [y|] eqn:Ea; [|congruence]. destruct (step b j) as [z|] eqn:Eb; [|congruence].
    rewrite (step_repl b _ j z a), (step_repl a _ j y b) by auto.
    destruct (finder_eq_dec b a); [congruence|]. destruct (finder_eq_dec a b); [congruence|]. rewrite Ea, Eb.
    now apply (repl_repl_comm1 a b _ _ y z).
  - cbn [app walk edit] in *. destruct (step f j) as [z|] eqn:E; [|congruence].
    rewrite !(step_repl f _ j z f) by auto. destruct (finder_eq_dec f f); [|congruence]. rewrite !(repl_repl f _ _ j z) by auto.
    f_equal. apply IH; auto. eapply step_skeys; eauto.
Qed.
(** Edits of one place, one after the other. *)
Lemma edit_edit c g h : forall j, skeys j = true -> walk c j <> None -> edit c g (edit c h j) = edit c (fun y => g (h y)) j.
Proof.
  induction c as [|f c IH]; intros j Hs Hw; [reflexivity|]. cbn [walk edit] in *. destruct (step f j) as [z|] eqn:E; [|congruence].
  rewrite !(step_repl f _ j z f) by auto using skeys_ok. destruct (finder_eq_dec f f); [|congruence]. rewrite (repl_repl f _ _ j z) by auto using skeys_ok.
  f_equal. apply IH; auto. eapply step_skeys; eauto.
Qed.
Lemma edit_ext c g h : forall j y, walk c j = Some y -> g y = h y -> edit c g j = edit c h j.
Proof.
  induction c as [|f c IH]; intros j y; cbn [walk edit]; [now intros [= ->]|]. destruct (step f j) as [z|]; [|discriminate].
  intros Hw E. now rewrite (IH z y Hw E).
Qed.
Lemma edit_id c : forall j, skeys j = true -> edit c (fun y => y) j = j.
Proof.
  induction c as [|f c IH]; intros j Hs; [reflexivity|]. cbn [edit]. destruct (step f j) as [z|] eqn:E; auto.
  rewrite IH by (eapply step_skeys; eauto). apply repl_same; auto using skeys_ok.
Qed.
Lemma edit_fix c g j y : skeys j = true -> walk c j = Some y -> g y = y -> edit c g j = j.
Proof. intros Hs Hw E. rewrite (edit_ext c g (fun y => y) j y Hw E). now apply edit_id. Qed.
(** Where the parent exists, updating edits it. *)
Lemma upd_edit c f p x : forall j, walk c j <> None -> upd (c ++ f :: p) x j = edit c (upd (f :: p) x) j.
Proof.
  induction c as [|g c IH]; intros j Hw; [reflexivity|]. rewrite upd_pre. cbn [walk edit] in *. destruct (step g j) as [z|]; [|congruence].
  now rewrite IH.
Qed.
Lemma over_edit vmax c f p : forall j y, walk c j = Some y -> over vmax (c ++ f :: p) j = over vmax (f :: p) y.
Proof.
  induction c as [|g c IH]; intros j y; [now intros [= ->]|]. cbn [walk app over]. destruct (step g j) as [z|] eqn:E; [|discriminate].
  intros Hw. rewrite (IH z y Hw). destruct g; auto. cbn [over1]. now rewrite E, andb_false_r.
Qed.

(** ** Edits of one member of an object *)
Definition alter (k : str) (F : option (json * list json) -> option (json * list json)) (o : hmap) : hmap :=
  match F (hm_get k o) with Some e => hm_insert k e o | None => hm_remove k o end.
Lemma alter_sorted k F o : keys_sorted o = true -> keys_sorted (alter k F o) = true.
Proof. intros H. unfold alter. destruct (F _); auto using hm_insert_sorted, hm_remove_sorted. Qed.
Lemma alter_get k F o k' : keys_sorted o = true -> hm_get k' (alter k F o) = if str_eqb k' k then F (hm_get k o) else hm_get k' o.
Proof. intros H. unfold alter. destruct (F (hm_get k o)); [now apply hm_get_insert|now apply hm_get_remove]. Qed.
Lemma alter_comm k k' F G o : keys_sorted o = true -> k <> k' -> alter k F (alter k' G o) = alter k' G (alter k F o).
Proof.
  intros Hs Hn. apply hm_ext; auto using alter_sorted. intros q. rewrite !alter_get by auto using alter_sorted.
  destruct (str_eqb q k) eqn:E, (str_eqb q k') eqn:E'; auto.
  - apply str_eqb_eq in E, E'. congruence.
  - apply str_eqb_neq in Hn. now rewrite Hn.
  - assert (H : k' <> k) by congruence. apply str_eqb_neq in H. now rewrite H.
Qed.
Lemma hm_remove_absent {V} k (o : list (str * V)) : keys_sorted o = true -> hm_get k o = None -> hm_remove k o = o.
Proof.
  intros Hs H. apply hm_ext; auto using hm_remove_sorted. intros q. rewrite hm_get_remove by auto. destruct (str_eqb q k) eqn:E; auto.
  apply str_eqb_eq in E as ->. auto.
Qed.
Definition on_members (A : hmap -> hmap) (y : json) : json := match y with JObj o => JObj (A o) | _ => y end.
Lemma edit_key k c g o : keys_sorted o = true ->
  edit (Key k :: c) g (JObj o) = JObj (alter k (fun e => match e with Some (y, l) => Some (edit c g y, l) | None => None end) o).
Proof.
  intros Hs. cbn [edit]. rewrite step_key. unfold alter. destruct (hm_get k o) as [[y l]|] eqn:E; cbn [option_map fst].
  - cbn [repl]. now rewrite E.
  - now rewrite hm_remove_absent.
Qed.
Lemma discard_key k o : keys_sorted o = true -> fst (f_discard (Key k) (JObj o)) = JObj (alter k (fun _ => None) o).
Proof. intros Hs. cbn [f_discard]. unfold alter. destruct (hm_get k o) as [[y l]|] eqn:E; cbn [fst]; auto. now rewrite hm_remove_absent. Qed.
Lemma update_key k p x o : upd (Key k :: p) x (JObj o) = JObj (alter k (fun e => Some (key_fun p x e)) o).
Proof. now rewrite upd_key. Qed.
Lemma edit_app c c' g j : edit (c ++ c') g j = edit c (edit c' g) j.
Proof. revert j; induction c as [|f c IH]; intros j; [reflexivity|]. cbn [app edit]. destruct (step f j); auto. now rewrite IH. Qed.
Lemma discard_at_key p d k p' j z : skeys j = true -> steps p = d ++ Key k :: p' -> walk (steps p) j = Some z ->
  exists F o, walk d j = Some (JObj o) /\ keys_sorted o = true /\ fst (p_discard p j) = edit d (on_members (alter k F)) j.
Proof.
  intros Hs Ep Hw. assert (Hd : exists o, walk d j = Some (JObj o)).
  { rewrite Ep, walk_app in Hw. destruct (walk d j) as [y|]; [|discriminate]. cbn [walk] in Hw. destruct y as [o| | | | |]; try discriminate. eauto. }
  destruct Hd as (o & Hd). pose proof (skeys_ok _ (walk_skeys _ _ _ Hs Hd)) as Ho. cbn in Ho.
  destruct (exists_last (l := Key k :: p')) as (c' & f & Ec); [discriminate|].
  assert (Ep' : steps p = (d ++ c') ++ [f]) by now rewrite <- app_assoc, <- Ec.
  assert (E : fst (p_discard p j) = edit d (edit c' (fun y => fst (f_discard f y))) j).
  { rewrite <- edit_app. apply p_discard_edit; auto. congruence. }
  rewrite E. destruct c' as [|g c'].
  - injection Ec as <- ->. exists (fun _ => None), o. split; auto. split; auto.
    apply (edit_ext d _ _ j _ Hd). cbn [edit on_members]. now apply discard_key.
  - injection Ec as <- Ec. exists (fun e => match e with Some (y, l) => Some (edit c' (fun y => fst (f_discard f y)) y, l) | None => None end), o.
    split; auto. split; auto. apply (edit_ext d _ _ j _ Hd). cbn [on_members]. now apply edit_key.
Qed.
Lemma discard_not_last p d a p' j z : steps p = d ++ a :: p' -> p' <> [] -> walk (steps p) j = Some z ->
  exists c f, p' = c ++ [f] /\ walk (d ++ a :: c) j <> None /\ fst (p_discard p j) = edit (d ++ a :: c) (fun y => fst (f_discard f y)) j.
Proof.
  intros Ep Hp Hw. destruct (exists_last Hp) as (c & f & Ec). exists c, f. split; auto.
  assert (Ep' : steps p = (d ++ a :: c) ++ [f]) by now rewrite <- app_assoc, Ep, Ec.
  split; [|apply p_discard_edit; auto; congruence]. rewrite Ep', walk_app in Hw. destruct (walk (d ++ a :: c) j); congruence.
Qed.
Lemma edit_skeys c g : forall j, skeys j = true -> (forall y, walk c j = Some y -> skeys (g y) = true) -> skeys (edit c g j) = true.
Proof.
  induction c as [|f c IH]; intros j Hs Hg; cbn [edit]; [now apply Hg|]. destruct (step f j) as [y|] eqn:E; auto.
  rewrite <- all_skeys_iff. apply all_repl; rewrite all_skeys_iff; auto. apply IH; [eapply step_skeys; eauto|]. intros z Hz. apply Hg. cbn [walk]. now rewrite E.
Qed.
Lemma discard_skeys p j : skeys j = true -> skeys (fst (p_discard p j)) = true.
Proof. intros H. rewrite <- all_skeys_iff in *. now apply all_discard. Qed.
Lemma upd_skeys p x j : skeys x = true -> skeys j = true -> skeys (upd p x j) = true.
Proof. intros Hx H. rewrite <- all_skeys_iff in *. apply all_upd; auto. apply forallb_forall. now intros []. Qed.
Lemma over_edit_apart vmax d a b p c g : a <> b -> forall j, skeys j = true -> walk (d ++ b :: c) j <> None ->
  over vmax (d ++ a :: p) (edit (d ++ b :: c) g j) = over vmax (d ++ a :: p) j.
Proof.
  intros Hab. induction d as [|f d IH]; intros j Hs Hw; pose proof (skeys_ok _ Hs) as Hk.
  - cbn [app walk edit over] in *. destruct (step b j) as [z|] eqn:Eb; [|congruence].
    assert (Es : step a (repl b (edit c g z) j) = step a j) by (rewrite (step_repl b _ j z a) by auto; destruct (finder_eq_dec b a); congruence).
    rewrite Es. f_equal. destruct a; auto. cbn [over1]. now rewrite Es.
  - cbn [app walk edit over] in *. destruct (step f j) as [z|] eqn:E; [|congruence].
    assert (Es : step f (repl f (edit (d ++ b :: c) g z) j) = Some (edit (d ++ b :: c) g z)).
    { rewrite (step_repl f _ j z f) by auto. destruct (finder_eq_dec f f); congruence. }
    rewrite Es, IH by (auto; eapply step_skeys; eauto). f_equal. destruct f; auto. cbn [over1]. now rewrite Es, E.
Qed.

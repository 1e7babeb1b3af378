(** Properties of paths: find, get, update, set, discard, del, indexing (C17 - C25, C38, C39, C41). *)
From Verif Require Import Base F64 Json Parse Ops Path SpecGrammar SpecPath MapProofs PathProofs PathTextProofs PreserveProofs.
From Coq Require Import ZifyBool ZifyNat ZifyN.
Open Scope N_scope.

(** The document of the examples: {"a": [1, {"b": null}], "a": true (older), "c.d": "x"}. *)
Definition doc : json := JObj
  [(lit "a", (JArr [JBool false; JObj [(lit "b", (JNull, []))]], [JBool true])); (lit "c.d", (JStr (lit "x"), []))].
Definition p_ab : path := PNext (Key (lit "a")) (PNext (Index 1) (PEnd (Key (lit "b")))).
Example doc_wf : wf doc = true /\ steps p_ab = [Key (lit "a"); Index 1; Key (lit "b")].
Proof. vm_compute. auto. Qed.

(** * C17 *)
Theorem find_navigates p j x : p_find p j = Ok x <-> walk (steps p) j = Some x.
Proof.
  pose proof (p_find_walk p j) as H. destruct (walk (steps p) j) as [y|].
  - rewrite H. split; congruence.
  - destruct H as (e & _ & _ & _ & _ & H & _). rewrite H. split; discriminate.
Qed.
Theorem find_error_of_first_impossible_step p j : walk (steps p) j = None ->
  exists e c f d y, steps p = c ++ f :: d /\ walk c j = Some y /\ step f y = None /\
    p_find p j = Err e /\ kind e = step_error f y.
Proof.
  intros E. pose proof (p_find_walk p j) as H. rewrite E in H. destruct H as (e & c & f & d & y & H). exists e, c, f, d, y. tauto.
Qed.
Theorem get_navigates j s x : get j s = Ok x <->
  s <> [] /\ exists p, parse_path s = Ok p /\ walk (steps p) j = Some x.
Proof.
  unfold get. destruct s as [|c s]. { split; [discriminate|]. intros [H _]. congruence. }
  destruct (parse_path (c :: s)) as [p| | |]; cbn [bind]; (split; [|intros (_ & p' & H & H'); try discriminate]).
  - intros H. split; [discriminate|]. exists p. split; auto. now apply find_navigates.
  - injection H as <-. now apply find_navigates.
  - discriminate.
  - discriminate.
  - discriminate.
Qed.
Example find_example : walk (steps p_ab) doc = Some JNull /\ get doc (lit "a.#1.b") = Ok JNull /\ get doc (lit "c\.d") = Ok (JStr (lit "x"))
  /\ walk [Key (lit "a"); Index 2; Key (lit "b")] doc = None.
Proof. vm_compute. auto. Qed.

(** * C18 *)
Lemma update_ok vmax p j x j' r : wf j = true -> p_update vmax p j x = (j', Ok r) ->
  over vmax (steps p) j = false /\ j' = upd (steps p) x j /\ r = x.
Proof.
  intros Hw H. pose proof (p_update_upd vmax p j x (wf_skeys _ Hw)) as U. destruct (over vmax (steps p) j).
  - destruct U as (j'' & U). rewrite U in H. discriminate.
  - rewrite U in H. now injection H as <- <-.
Qed.
Theorem update_then_find vmax p j x j' r : wf j = true -> p_update vmax p j x = (j', Ok r) -> p_find p j' = Ok x /\ r = x.
Proof.
  intros Hw H. destruct (update_ok _ _ _ _ _ _ Hw H) as (_ & -> & ->). split; auto.
  apply find_navigates, upd_walk. now apply wf_skeys.
Qed.
Theorem set_then_get vmax s j x j' r : wf j = true -> set vmax j s x = (j', Ok r) -> get j' s = Ok x /\ r = x.
Proof.
  unfold set, get. intros Hw H. destruct s as [|c s]; [discriminate|]. destruct (parse_path (c :: s)) as [p| | |]; try discriminate.
  cbn [bind]. now apply update_then_find with (vmax := vmax) (j := j).
Qed.
(** Parents of the written location: get finds the new sub-document, and below the location the written value. *)
Theorem update_then_find_below vmax p q j x j' r : wf j = true -> p_update vmax p j x = (j', Ok r) ->
  walk (steps p ++ q) j' = walk q x.
Proof.
  intros Hw H. destruct (update_ok _ _ _ _ _ _ Hw H) as (_ & -> & _). rewrite walk_app, upd_walk by now apply wf_skeys. reflexivity.
Qed.
Example set_example : exists j' r, set (2 ^ 60) doc (lit "a.#4.z\.z") (JBool true) = (j', Ok r) /\ get j' (lit "a.#3") = Ok JNull.
Proof. do 2 eexists. vm_compute. split; reflexivity. Qed.

(** * C19: the rest of the document. *)
(** A location that leaves the path keeps its value. *)
Theorem update_keeps_other_locations vmax p q j x j' r y : wf j = true -> p_update vmax p j x = (j', Ok r) ->
  diverges (steps p) q -> walk q j = Some y -> walk q j' = Some y.
Proof.
  intros Hw H (c & a & b & p' & q' & Ep & -> & Hab & Hss) Hy. destruct (update_ok _ _ _ _ _ _ Hw H) as (_ & -> & _).
  rewrite Ep, upd_apart by auto using wf_skeys. rewrite walk_app in Hy |- *. rewrite walk_app. destruct (walk c j) as [z|]; [|discriminate].
  cbn [walk] in *. destruct (step b z); [exact Hy|discriminate].
Qed.
(** Nothing appears beside the path but null padding before a new array element. *)
Theorem update_creates_only_padding vmax p q j x j' r y : wf j = true -> p_update vmax p j x = (j', Ok r) ->
  diverges (steps p) q -> walk q j = None -> walk q j' = Some y ->
  y = JNull /\ exists c i i' d, steps p = c ++ Index i :: d /\ q = c ++ [Index i'] /\ i' < i.
Proof.
  intros Hw H (c & a & b & p' & q' & Ep & -> & Hab & Hss) Hy Hn. destruct (update_ok _ _ _ _ _ _ Hw H) as (_ & -> & _).
  rewrite Ep, upd_apart in Hn by auto using wf_skeys.
  assert (E : match a, b with Index i, Index i' => if i' <? i then walk q' JNull else None | _, _ => None end = Some y).
  { destruct (walk (c ++ [b]) j) as [z|]; [congruence|exact Hn]. }
  destruct a as [|i], b as [|i']; try discriminate. destruct (N.ltb_spec i' i); [|discriminate].
  destruct q' as [|[]]; try discriminate. injection E as <-. split; auto. exists c, i, i', p'. auto.
Qed.
(** What the path passes: a missing or wrongly kinded value becomes an object or array, and in it only the step of the path is new. *)
Lemma upd_passed c f d x : forall j, skeys j = true -> walk c (upd (c ++ f :: d) x j) = Some (upd (f :: d) x (found c j)).
Proof.
  induction c as [|g c IH]; intros j Hs; [reflexivity|]. cbn [app]. rewrite upd_cons by (destruct c; discriminate).
  unfold found. cbn [walk]. destruct (step g j) as [y|] eqn:E.
  - rewrite (step_repl g _ j y g) by auto using skeys_ok. destruct (finder_eq_dec g g); [|congruence].
    rewrite IH; [reflexivity|]. eapply step_skeys; eauto.
  - rewrite step_make_same by auto using skeys_ok. rewrite IH by reflexivity.
    unfold found. now replace (match walk c JNull with Some y => y | None => JNull end) with JNull by (destruct c as [|[]]; reflexivity).
Qed.
Lemma found_skeys c j : skeys j = true -> skeys (found c j) = true.
Proof. intros H. unfold found. destruct (walk c j) eqn:E; auto. eapply walk_skeys; eauto. Qed.
Lemma upd_first f d x j : upd (f :: d) x j =
  match d, step f j with _ :: _, Some y => repl f (upd d x y) j | _ :: _, None => make f (upd d x JNull) j | [], _ => make f x j end.
Proof. destruct d; reflexivity. Qed.
Theorem update_passes_objects vmax p c k d j x j' r : wf j = true -> p_update vmax p j x = (j', Ok r) -> steps p = c ++ Key k :: d ->
  exists o v, walk c j' = Some (JObj o) /\
    (forall k', k' <> k -> values_at k' (JObj o) = values_at k' (found c j)) /\
    values_at k (JObj o) = match d with [] => [] | _ :: _ => removelast (values_at k (found c j)) end ++ [v] /\
    (d = [] -> v = x).
Proof.
  intros Hw H Ep. destruct (update_ok _ _ _ _ _ _ Hw H) as (_ & -> & _). apply wf_skeys in Hw. rewrite Ep.
  rewrite (upd_passed c (Key k) d x j Hw). pose proof (found_skeys c j Hw) as Hf. pose proof (skeys_ok _ Hf) as Hk.
  set (y := found c j) in *. rewrite upd_first.
  assert (M : forall v, exists o, make (Key k) v y = JObj o /\ forall k', values_at k' (JObj o) = if str_eqb k' k then [v] else values_at k' y).
  { intros v. exists (hm_insert k (v, []) (obj_of y)). split; [now destruct y|]. intros k'. rewrite <- values_make by auto. reflexivity. }
  destruct d as [|g d].
  - destruct (M x) as (o & -> & V). exists o, x. repeat split; auto.
    + intros k' Hk'. rewrite V. destruct (str_eqb k' k) eqn:E; auto. apply str_eqb_eq in E. contradiction.
    + now rewrite V, str_eqb_refl.
  - destruct (step (Key k) y) as [z|] eqn:Es.
    + set (v := upd (g :: d) x z). assert (R : exists o, repl (Key k) v y = JObj o).
      { destruct y as [o| | | | |]; try discriminate. cbn [repl]. destruct (hm_get k o) as [[? ?]|]; eauto. }
      destruct R as [o R]. rewrite R. exists o, v. rewrite <- R. split; auto. repeat split.
      * intros k' Hk'. rewrite (values_repl _ _ _ z) by auto. destruct (finder_eq_dec (Key k) (Key k')); congruence.
      * rewrite (values_repl _ _ _ z) by auto. destruct (finder_eq_dec (Key k) (Key k)); congruence.
      * discriminate.
    + destruct (M (upd (g :: d) x JNull)) as (o & -> & V). exists o, (upd (g :: d) x JNull). repeat split.
      * intros k' Hk'. rewrite V. destruct (str_eqb k' k) eqn:E; auto. apply str_eqb_eq in E. contradiction.
      * rewrite V, str_eqb_refl. rewrite step_key_obj in Es.
        replace (values_at k y) with (@nil json); [reflexivity|].
        destruct y as [o'| | | | |]; auto. rewrite values_at_get. cbn [obj_of] in Es. destruct (hm_get k o'); [discriminate|reflexivity].
      * discriminate.
Qed.
Theorem update_passes_arrays vmax p c i d j x j' r : wf j = true -> p_update vmax p j x = (j', Ok r) -> steps p = c ++ Index i :: d ->
  let old := elements_of (found c j) in
  exists v y, walk c j' = Some (JArr v) /\ nth_error v (N.to_nat i) = Some y /\ (d = [] -> y = x) /\
    List.length v = Nat.max (List.length old) (S (N.to_nat i)) /\
    forall n, n <> N.to_nat i -> (n < List.length v)%nat ->
      nth_error v n = Some (match nth_error old n with Some z => z | None => JNull end).
Proof.
  intros Hw H Ep. destruct (update_ok _ _ _ _ _ _ Hw H) as (_ & -> & _). apply wf_skeys in Hw. rewrite Ep.
  rewrite (upd_passed c (Index i) d x j Hw). pose proof (found_skeys c j Hw) as Hf.
  set (t := found c j) in *. cbv zeta. change (elements_of t) with (elems t). rewrite upd_first.
  set (ii := N.to_nat i).
  assert (M : forall y, let v := vec_set ii y (if vlen (elems t) <=? i then resize i (elems t) else elems t) in
     make (Index i) y t = JArr v /\ nth_error v ii = Some y /\ List.length v = Nat.max (List.length (elems t)) (S ii) /\
     forall n, n <> ii -> (n < List.length v)%nat -> nth_error v n = Some (match nth_error (elems t) n with Some z => z | None => JNull end)).
  { intros y. cbv zeta. pose proof (sized_length i (elems t)) as L. set (w := if vlen (elems t) <=? i then resize i (elems t) else elems t) in *.
    assert (Lw : List.length w = Nat.max (List.length (elems t)) (S ii)).
    { unfold w, ii. destruct (N.leb_spec (vlen (elems t)) i) as [Hl|Hl]; unfold vlen in Hl; [rewrite resize_length by (unfold vlen; lia); lia|lia]. }
    split; [reflexivity|]. split; [rewrite vec_set_nth by auto; now rewrite Nat.eqb_refl|].
    rewrite vec_set_length. split; auto. intros n Hn Hl. rewrite vec_set_nth by auto. destruct (Nat.eqb_spec n ii); [contradiction|].
    unfold w. rewrite sized_nth. destruct (nth_error (elems t) n) eqn:E; auto.
    apply nth_error_None in E. destruct (Nat.leb_spec n (N.to_nat i)); auto. unfold ii in Lw; lia. }
  assert (K : forall y, exists v y', Some (make (Index i) y t) = Some (JArr v) /\ nth_error v ii = Some y' /\ (d = [] -> y' = y) /\
    List.length v = Nat.max (List.length (elems t)) (S ii) /\
    forall n, n <> ii -> (n < List.length v)%nat -> nth_error v n = Some (match nth_error (elems t) n with Some z => z | None => JNull end)).
  { intros y. destruct (M y) as (-> & M2 & M3 & M4). eexists _, y. repeat split; eauto. }
  destruct d as [|g d]; [apply K|]. destruct (step (Index i) t) as [z|] eqn:Es.
  - destruct t as [|v| | | |]; try discriminate. rewrite step_index in Es. apply vec_get_some in Es. fold ii in Es. cbn [repl elems].
    assert (L : (ii < List.length v)%nat) by (apply nth_error_Some; congruence).
    exists (vec_set ii (upd (g :: d) x z) v), (upd (g :: d) x z). split; auto. split; [rewrite vec_set_nth by auto; now rewrite Nat.eqb_refl|].
    split; [discriminate|]. rewrite vec_set_length. split; [lia|]. intros n Hn Hl. rewrite vec_set_nth by auto.
    destruct (Nat.eqb_spec n ii); [contradiction|]. destruct (nth_error v n) eqn:E; auto. apply nth_error_None in E. lia.
  - destruct (K (upd (g :: d) x JNull)) as (v & y & K1 & K2 & _ & K4 & K5). exists v, y. repeat split; auto. discriminate.
Qed.
Example diverges_example : diverges (steps p_ab) [Key (lit "a"); Index 0] /\ walk [Key (lit "a"); Index 0] doc = Some (JBool false).
Proof. split; [|reflexivity]. exists [Key (lit "a")], (Index 1), (Index 0), [Key (lit "b")], []. repeat split; auto. discriminate. Qed.

(** * C20 *)
Theorem update_outcome vmax p j x : wf j = true ->
  (~ overflows vmax (steps p) j -> exists j', p_update vmax p j x = (j', Ok x)) /\
  (overflows vmax (steps p) j -> exists j', p_update vmax p j x = (j', Panic)).
Proof.
  intros Hw. pose proof (p_update_upd vmax p j x (wf_skeys _ Hw)) as U. rewrite <- over_overflows.
  destruct (over vmax (steps p) j); split; intros H; try congruence; eauto.
Qed.
(** With small indices there is no exception. *)
Corollary update_succeeds vmax p j x : wf j = true -> (forall i, In (Index i) (steps p) -> i < vmax) ->
  exists j', p_update vmax p j x = (j', Ok x).
Proof.
  intros Hw Hi. apply update_outcome; auto. intros (c & i & d & E & L & _). specialize (Hi i). rewrite E in Hi.
  assert (i < vmax) by (apply Hi, in_or_app; right; now left). lia.
Qed.
Example update_any_kind : exists j', p_update (2 ^ 60) p_ab (JStr (lit "not an object")) (JBool true) = (j', Ok (JBool true)).
Proof. eexists. vm_compute. reflexivity. Qed.

(** * C21 *)
Theorem discard_returns_find p j : snd (p_discard p j) = p_find p j.
Proof. apply p_discard_find. Qed.
Theorem del_returns_get j s : snd (del j s) = get j s.
Proof.
  unfold del, get. destruct s as [|c s]; auto. destruct (parse_path (c :: s)); cbn [bind snd]; auto. apply p_discard_find.
Qed.

(** * C22 *)
Lemma discard_ok p j j' x : p_discard p j = (j', Ok x) -> walk (steps p) j = Some x.
Proof. intros H. apply find_navigates. rewrite <- p_discard_find, H. reflexivity. Qed.
Theorem discard_removes p c f j j' x y : wf j = true -> p_discard p j = (j', Ok x) -> steps p = c ++ [f] -> walk c j = Some y ->
  exists y', walk c j' = Some y' /\
  match f with
  | Key k => values_at k y' = [] /\ (exists o, y' = JObj o) /\ forall k', k' <> k -> values_at k' y' = values_at k' y
  | Index i => exists v, y = JArr v /\ y' = JArr (firstn (N.to_nat i) v ++ skipn (S (N.to_nat i)) v)
  end.
Proof.
  intros Hw H Ep Hy. pose proof (discard_ok _ _ _ _ H) as Hf. apply wf_skeys in Hw.
  assert (E : j' = edit c (fun y => fst (f_discard f y)) j) by (rewrite <- (p_discard_edit p c f Ep) by congruence; now rewrite H).
  rewrite E, (edit_walk c _ j y) by auto. eexists. split; [reflexivity|].
  rewrite Ep, walk_app, Hy in Hf. cbn [walk] in Hf. destruct (step f y) as [z|] eqn:Es; [|discriminate]. injection Hf as <-.
  pose proof (skeys_ok _ (walk_skeys _ _ _ Hw Hy)) as Hk. destruct f as [k|i]; destruct y as [o|v| | | |]; try discriminate.
  - rewrite step_key in Es. cbn [f_discard]. destruct (hm_get k o) as [[u l]|] eqn:G; [|discriminate]. cbn [fst]. cbn in Hk.
    split; [|split; [eauto|]].
    + rewrite values_at_get, hm_get_remove, str_eqb_refl by auto. reflexivity.
    + intros k' Hk'. rewrite !values_at_get, hm_get_remove by auto. apply str_eqb_neq in Hk'. now rewrite Hk'.
  - rewrite step_index in Es. unfold vec_get in Es. cbn [f_discard]. destruct (i <? vlen v); [|discriminate]. rewrite Es. cbn [fst].
    exists v. split; auto. now rewrite vec_remove_spec.
Qed.
(** Everywhere else nothing changes. *)
Theorem discard_keeps_other_locations p c f j j' x d a b c' q : wf j = true -> p_discard p j = (j', Ok x) -> steps p = c ++ [f] ->
  c = d ++ a :: c' -> a <> b -> walk (d ++ b :: q) j' = walk (d ++ b :: q) j.
Proof.
  intros Hw H Ep Ec Hab. pose proof (discard_ok _ _ _ _ H) as Hf. apply wf_skeys in Hw.
  assert (E : j' = edit c (fun y => fst (f_discard f y)) j) by (rewrite <- (p_discard_edit p c f Ep) by congruence; now rewrite H).
  rewrite E, Ec. now apply edit_apart.
Qed.
(** The objects above the deleted location keep all their members, older duplicates included; only the member on the path changes. *)
Theorem discard_passes_objects p c f j j' x d k c' o : wf j = true -> p_discard p j = (j', Ok x) -> steps p = c ++ [f] ->
  c = d ++ Key k :: c' -> walk d j = Some (JObj o) ->
  exists o' v, walk d j' = Some (JObj o') /\ (forall k', k' <> k -> values_at k' (JObj o') = values_at k' (JObj o)) /\
    values_at k (JObj o') = removelast (values_at k (JObj o)) ++ [v].
Proof.
  intros Hw H Ep Ec Hd. pose proof (discard_ok _ _ _ _ H) as Hf. apply wf_skeys in Hw.
  assert (E : j' = edit c (fun y => fst (f_discard f y)) j) by (rewrite <- (p_discard_edit p c f Ep) by congruence; now rewrite H).
  rewrite Ep, Ec, <- app_assoc, walk_app, Hd in Hf. cbn [app walk] in Hf. destruct (step (Key k) (JObj o)) as [z|] eqn:Es; [|discriminate].
  destruct (edit_passed (fun y => fst (f_discard f y)) d (Key k) c' j _ z Hw Hd Es) as (z' & Hz & ->). rewrite E, Ec.
  pose proof (skeys_ok _ (walk_skeys _ _ _ Hw Hd)) as Hk. set (v := edit c' _ z) in *.
  assert (R : exists o', repl (Key k) v (JObj o) = JObj o') by (cbn [repl]; destruct (hm_get k o) as [[? ?]|]; eauto).
  destruct R as [o' R]. exists o', v. rewrite Hz, R. split; auto. rewrite <- R. split.
  - intros k' Hk'. rewrite (values_repl _ _ _ z) by auto. destruct (finder_eq_dec (Key k) (Key k')); congruence.
  - rewrite (values_repl _ _ _ z) by auto. destruct (finder_eq_dec (Key k) (Key k)); congruence.
Qed.
Example discard_example : exists j', p_discard p_ab doc = (j', Ok JNull) /\ walk [Key (lit "a"); Index 1] j' = Some (JObj []).
Proof. eexists. vm_compute. split; reflexivity. Qed.

(** * C23 *)
Theorem failed_discard_changes_nothing p j j' e : wf j = true -> p_discard p j = (j', Err e) -> j' = j.
Proof.
  intros Hw H. assert (E : walk (steps p) j = None).
  { destruct (walk (steps p) j) as [x|] eqn:E; auto. apply find_navigates in E. rewrite <- p_discard_find, H in E. discriminate. }
  apply p_discard_err in E; [|now apply wf_skeys]. rewrite H in E. exact E.
Qed.
Theorem failed_del_changes_nothing s j j' e : wf j = true -> del j s = (j', Err e) -> j' = j.
Proof.
  unfold del. intros Hw. destruct s as [|c s]; [congruence|]. destruct (parse_path (c :: s)); try congruence. now apply failed_discard_changes_nothing.
Qed.
Theorem failed_set_changes_nothing vmax s x j j' e : wf j = true -> set vmax j s x = (j', Err e) -> j' = j.
Proof.
  unfold set. intros Hw. destruct s as [|c s]; [congruence|]. destruct (parse_path (c :: s)) as [p| | |]; try congruence.
  pose proof (p_update_upd vmax p j x (wf_skeys _ Hw)) as U. destruct (over vmax (steps p) j).
  - destruct U as (? & ->). discriminate.
  - rewrite U. discriminate.
Qed.
Theorem failed_edit_changes_nothing (k : str) (i : N) (v j j' : json) (e : error) :
  In (j', Err e) [insert j k v; append j k v; delete j k; push j v; replace j i v; remove j i] -> j' = j.
Proof.
  unfold insert, append, add_option, delete, push, replace, remove, fail.
  intros H; repeat (destruct H as [H|H]); [..|contradiction]; destruct j; try congruence.
  - destruct (vec_get i v0); congruence.
  - destruct (i <? vlen v0); congruence.
Qed.
Example failed_examples : (exists e, p_discard (PEnd (Key (lit "zz"))) doc = (doc, Err e)) /\ (exists e, set 10 doc (lit "a.#x") JNull = (doc, Err e)) /\
  (exists e, push doc JNull = (doc, Err e)).
Proof. vm_compute. repeat split; eexists; reflexivity. Qed.

(** * C24 *)
Theorem path_text_meaning s p : parse_path s = Ok p <-> exists cs, PathText s cs /\ Forall2 StepText cs (steps p).
Proof. apply parse_path_ok. Qed.
Theorem paths_with_a_text p : (exists s, s <> [] /\ parse_path s = Ok p) <-> expressible (steps p).
Proof. apply expressible_iff. Qed.
Theorem path_macro_meaning f l : steps (path_macro f l) = f :: l.
Proof. apply path_macro_steps. Qed.
Example path_text_example : parse_path (lit "a.#1.\#2.c\.d.") =
  Ok (path_macro (Key (lit "a")) [Index 1; Key (lit "#2"); Key (lit "c.d"); Key []]).
Proof. vm_compute. reflexivity. Qed.
Example inexpressible_example : ~ expressible [Key (lit "a\"); Key (lit "b")].
Proof. cbn. intros [H _]. apply H. now exists (lit "a"). Qed.

(** * C25 *)
Lemma find_error_kind p j e : p_find p j = Err e -> kind e <> PathSyntaxError.
Proof.
  intros H. pose proof (p_find_walk p j) as W. destruct (walk (steps p) j); [congruence|].
  destruct W as (e' & c & f & d & y & H' & _ & _ & _ & K). rewrite H' in H. injection H as ->. rewrite K. destruct f, y; discriminate.
Qed.
Theorem get_path_syntax_error_iff j s :
  (exists e, get j s = Err e /\ kind e = PathSyntaxError) <-> s = [] \/ bad_segment s.
Proof.
  unfold get. destruct s as [|c s].
  - split; auto. intros _. eexists; split; reflexivity.
  - destruct (parse_path_cases (c :: s)) as [(p & -> & Hb)|(e & -> & K & Hb)]; cbn [bind].
    + split; [intros (e & H & K); now apply find_error_kind in H|]. intros [H|H]; [discriminate|contradiction].
    + split; auto. eauto.
Qed.
Theorem del_path_syntax_error_iff j s :
  (exists e, snd (del j s) = Err e /\ kind e = PathSyntaxError) <-> s = [] \/ bad_segment s.
Proof. rewrite del_returns_get. apply get_path_syntax_error_iff. Qed.
Theorem set_path_syntax_error_iff vmax j s x : wf j = true ->
  (exists e, snd (set vmax j s x) = Err e /\ kind e = PathSyntaxError) <-> s = [] \/ bad_segment s.
Proof.
  intros Hw. unfold set. destruct s as [|c s].
  - split; auto. intros _. eexists; split; reflexivity.
  - destruct (parse_path_cases (c :: s)) as [(p & -> & Hb)|(e & -> & K & Hb)]; cbn [snd].
    + pose proof (p_update_upd vmax p j x (wf_skeys _ Hw)) as U. split.
      * intros (e & H & K). destruct (over vmax (steps p) j); [destruct U as (j' & U)|]; rewrite U in H; discriminate.
      * intros [H|H]; [discriminate|contradiction].
    + split; auto. eauto.
Qed.
(** Reading a path and looking up never panic. *)
Theorem get_never_panics j s : (exists x, get j s = Ok x) \/ (exists e, get j s = Err e).
Proof.
  unfold get. destruct s as [|c s]; [right; eexists; reflexivity|].
  destruct (parse_path_cases (c :: s)) as [(p & -> & Hb)|(e & -> & K & Hb)]; cbn [bind]; eauto.
  pose proof (p_find_walk p j) as W. destruct (walk (steps p) j); eauto. destruct W as (e & _ & _ & _ & _ & W & _). eauto.
Qed.
Example bad_segment_example : bad_segment (lit "a.#1x") /\ ~ bad_segment (lit "a.#+18446744073709551615").
Proof.
  split.
  - exists [lit "a"; lit "#1x"], (lit "1x"). split; [|split; [cbn; auto|]].
    + apply path_text_split. reflexivity.
    + intros [n U]. apply usize_from_str_spec in U. discriminate.
  - intros (cs & t & H & Hi & U). apply path_text_split in H. cbn in H. subst cs. destruct Hi as [Hi|[Hi|[]]]; [discriminate|].
    injection Hi as <-. apply U. exists 18446744073709551615. apply usize_from_str_spec. vm_compute. reflexivity.
Qed.

(** * C38 *)
Theorem index_panics_iff_find_fails j f :
  (forall x, index j f = Ok x <-> step f j = Some x) /\ (index j f = Panic <-> step f j = None).
Proof.
  unfold index. cbn [path_new p_find]. pose proof (f_find_step f j) as H. destruct (step f j) as [y|].
  - rewrite H. cbn. split; [split; congruence|split; discriminate].
  - destruct H as (e & -> & _). cbn. split; [split; discriminate|split; auto].
Qed.
Theorem index_mut_panics_iff_find_fails j f :
  (forall x, (exists put, index_mut j f = Ok (x, put)) <-> step f j = Some x) /\ (index_mut j f = Panic <-> step f j = None).
Proof.
  unfold index_mut. cbn [path_new p_find_mut]. pose proof (f_find_mut_find f j) as M. pose proof (f_find_step f j) as H. destruct (step f j) as [y|].
  - rewrite H in M. destruct (f_find_mut f j) as [[z put]| | |]; try discriminate. injection M as ->. cbn.
    split; [|split; discriminate]. intros x. split; [intros [p [= -> _]]; auto|]. intros [= ->]. eauto.
  - destruct H as (e & H & _). rewrite H in M. destruct (f_find_mut f j) as [[z put]| | |]; try discriminate. cbn.
    split; [|split; auto]. intros x. split; [intros [p E]; discriminate|discriminate].
Qed.
Example index_example : index doc (Key (lit "c.d")) = Ok (JStr (lit "x")) /\ index doc (Index 0) = Panic.
Proof. vm_compute. auto. Qed.

(** * C39 *)
Theorem last_write_wins vmax p j x y j1 r : wf j = true -> wf x = true -> p_update vmax p j x = (j1, Ok r) ->
  p_update vmax p j1 y = p_update vmax p j y.
Proof.
  intros Hw Hx H. destruct (update_ok _ _ _ _ _ _ Hw H) as (Ho & -> & _). apply wf_skeys in Hw, Hx.
  assert (Hs : skeys (upd (steps p) x j) = true).
  { rewrite <- all_skeys_iff. apply all_upd; try now apply all_skeys_iff. apply forallb_forall. now intros []. }
  pose proof (p_update_upd vmax p j y Hw) as U. rewrite Ho in U. rewrite U.
  pose proof (p_update_upd vmax p (upd (steps p) x j) y Hs) as U2.
  assert (E : over vmax (steps p) (upd (steps p) x j) = false).
  { destruct (over vmax (steps p) (upd (steps p) x j)) eqn:E; auto. apply over_overflows in E as (c & i & d & E & _ & Hn).
    pose proof (upd_walk (steps p) x j Hw) as W. rewrite E in W at 1. replace (c ++ Index i :: d) with ((c ++ [Index i]) ++ d) in W by now rewrite <- app_assoc.
    rewrite walk_app, Hn in W. discriminate. }
  rewrite E in U2. rewrite U2. f_equal. now apply upd_upd.
Qed.
Theorem set_last_write_wins vmax s j x y j1 r : wf j = true -> wf x = true -> set vmax j s x = (j1, Ok r) ->
  set vmax j1 s y = set vmax j s y.
Proof.
  unfold set. intros Hw Hx. destruct s as [|c s]; [discriminate|]. destruct (parse_path (c :: s)) as [p| | |]; try discriminate.
  now apply last_write_wins.
Qed.

(** * C41: writing through find_mut / index_mut. *)
Lemma find_mut_edit p : forall j x put, p_find_mut p j = Ok (x, put) ->
  walk (steps p) j = Some x /\ forall z, put z = edit (steps p) (fun _ => z) j.
Proof.
  induction p as [f|f q IH]; intros j x put; cbn [p_find_mut steps walk edit].
  - intros E. pose proof (f_find_step f j) as Fs. rewrite <- f_find_mut_find, E in Fs. destruct (step f j) as [y|] eqn:Es.
    + injection Fs as <-. destruct (f_find_mut_step _ _ _ Es) as (put' & E' & Hput). rewrite E in E'. injection E' as <-. auto.
    + destruct Fs as (e & Fs & _). discriminate.
  - pose proof (f_find_step f j) as Fs. rewrite <- f_find_mut_find in Fs. destruct (step f j) as [y|] eqn:Es.
    + destruct (f_find_mut_step _ _ _ Es) as (put' & -> & Hput). cbn [bind]. destruct (p_find_mut q y) as [[u put2]| | |] eqn:E2; try discriminate.
      cbn [bind]. intros [= -> <-]. destruct (IH _ _ _ E2) as [W P]. split; auto. intros z. now rewrite Hput, P.
    + destruct Fs as (e & Fs & _). destruct (f_find_mut f j) as [[]| | |]; discriminate.
Qed.
Theorem find_mut_reads_and_writes p j x put z : wf j = true -> p_find_mut p j = Ok (x, put) ->
  p_find p j = Ok x /\ p_find p (put z) = Ok z /\ put x = j.
Proof.
  intros Hw H. destruct (find_mut_edit _ _ _ _ H) as [W P]. apply wf_skeys in Hw. split; [now apply find_navigates|].
  split.
  - apply find_navigates. rewrite P. rewrite (edit_walk _ _ j x); auto.
  - rewrite P. clear H P put z. revert j Hw W. generalize (steps p). clear p. induction l as [|f l IH]; intros j Hs W; cbn in *; [congruence|].
    destruct (step f j) as [y|] eqn:E; [|discriminate]. rewrite IH; auto; [|eapply step_skeys; eauto]. apply repl_same; auto using skeys_ok.
Qed.
Theorem find_mut_writes_only_there p j x put z d a b p' q : wf j = true -> p_find_mut p j = Ok (x, put) ->
  steps p = d ++ a :: p' -> a <> b -> walk (d ++ b :: q) (put z) = walk (d ++ b :: q) j.
Proof.
  intros Hw H Ep Hab. destruct (find_mut_edit _ _ _ _ H) as [_ P]. rewrite P, Ep. apply edit_apart; auto using wf_skeys.
Qed.
Theorem find_mut_keeps_members p j x put z d k p' : wf j = true -> p_find_mut p j = Ok (x, put) -> steps p = d ++ Key k :: p' ->
  exists o o' v, walk d j = Some (JObj o) /\ walk d (put z) = Some (JObj o') /\
    (forall k', k' <> k -> values_at k' (JObj o') = values_at k' (JObj o)) /\
    values_at k (JObj o') = removelast (values_at k (JObj o)) ++ [v].
Proof.
  intros Hw H Ep. destruct (find_mut_edit _ _ _ _ H) as [W P]. apply wf_skeys in Hw. rewrite Ep, walk_app in W.
  destruct (walk d j) as [t|] eqn:Hd; [|discriminate]. cbn [walk] in W. destruct (step (Key k) t) as [u|] eqn:Es; [|discriminate].
  destruct t as [o| | | | |]; try discriminate.
  destruct (edit_passed (fun _ => z) d (Key k) p' j _ u Hw Hd Es) as (z' & Hz & ->). rewrite P, Ep.
  pose proof (skeys_ok _ (walk_skeys _ _ _ Hw Hd)) as Hk. set (v := edit p' _ u) in *.
  assert (R : exists o', repl (Key k) v (JObj o) = JObj o') by (cbn [repl]; destruct (hm_get k o) as [[? ?]|]; eauto).
  destruct R as [o' R]. exists o, o', v. rewrite Hz, R. split; auto. split; auto. rewrite <- R. split.
  - intros k' Hk'. rewrite (values_repl _ _ _ u) by auto. destruct (finder_eq_dec (Key k) (Key k')); congruence.
  - rewrite (values_repl _ _ _ u) by auto. destruct (finder_eq_dec (Key k) (Key k)); congruence.
Qed.
(** find_mut succeeds exactly when find does, with the same error otherwise. *)
Theorem find_mut_agrees_with_find p j : rmap fst (p_find_mut p j) = p_find p j.
Proof. apply p_find_mut_find. Qed.
Example find_mut_example : exists put, p_find_mut p_ab doc = Ok (JNull, put) /\ p_find (PEnd (Key (lit "a"))) (put (JBool true)) =
  Ok (JArr [JBool false; JObj [(lit "b", (JBool true, []))]]).
Proof. eexists. split; [vm_compute; reflexivity|]. vm_compute. reflexivity. Qed.

(** * C42: editing keeps documents well formed. *)
Theorem update_keeps_well_formed vmax p j x j' r : wf j = true -> wf x = true ->
  (forall k, In (Key k) (steps p) -> scalar_str k = true) -> p_update vmax p j x = (j', Ok r) -> wf j' = true.
Proof.
  intros Hw Hx Hk H. destruct (update_ok _ _ _ _ _ _ Hw H) as (_ & -> & _). rewrite <- all_wf in *. apply all_upd; auto.
  apply forallb_forall. intros [k|i] Hi; [now apply Hk|reflexivity].
Qed.
Theorem update_keeps_finite vmax p j x j' r : wf j = true -> finite j = true -> wf x = true -> finite x = true ->
  p_update vmax p j x = (j', Ok r) -> finite j' = true.
Proof.
  intros Hw Hf Hx Hfx H. destruct (update_ok _ _ _ _ _ _ Hw H) as (_ & -> & _). apply wf_skeys in Hw, Hx.
  apply (all_finite (upd (steps p) x j)). apply all_upd; try now apply all_finite. apply forallb_forall. now intros [].
Qed.
Theorem discard_keeps_well_formed p j : wf j = true -> wf (fst (p_discard p j)) = true.
Proof. intros Hw. rewrite <- all_wf in *. now apply all_discard. Qed.
Theorem discard_keeps_finite p j : wf j = true -> finite j = true -> finite (fst (p_discard p j)) = true.
Proof. intros Hw Hf. apply (all_finite (fst (p_discard p j))). apply all_discard. apply all_finite. auto using wf_skeys. Qed.
Theorem edits_keep_well_formed (k : str) (i : N) (v j j' : json) : wf j = true -> wf v = true -> scalar_str k = true ->
  In j' (map fst [insert j k v; append j k v; delete j k; push j v; replace j i v; remove j i]) -> wf j' = true.
Proof.
  intros Hw Hv Hk H. rewrite <- all_wf in *.
  repeat (destruct H as [<-|H]); [apply all_ins|apply all_append|apply all_delete|apply all_push|apply all_replace|apply all_remove_at|contradiction]; auto.
Qed.

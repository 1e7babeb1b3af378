(** Exactly when lookups and edits fail, and with which error text (C44). *)
From Verif Require Import Base F64 Json Parse Ops Path SpecGrammar SpecValue SpecPath SpecMessages MapProofs DecProofs PathProofs PathTextProofs PreserveProofs PropsPath PropsOps.
Open Scope N_scope.

Lemma kind_name_word j : kind_name j = lit (kind_word j).
Proof. now destruct j. Qed.
Lemma show_written i : written i (show_N i).
Proof.
  destruct (show_N_ok i) as (D & F & G). split; auto. destruct (N.eq_dec i 0) as [->|Hi]; [constructor|].
  destruct G as (c & r & E & Hc); [lia|]. rewrite E in *. inversion F; subst. now constructor.
Qed.
Lemma error_eq e e' : kind e = kind e' -> msg e = msg e' -> e = e'.
Proof. destruct e, e'; cbn; intros; now subst. Qed.
Lemma show_N_pos_unique ds ds' : Forall digit ds -> Forall digit ds' -> List.length ds = List.length ds' -> decimal ds = decimal ds' -> ds = ds'.
Proof.
  revert ds'; induction ds as [|c ds IH]; intros [|c' ds'] F F' L E; cbn in L; try discriminate; auto. inversion F; inversion F'; subst.
  injection L as L. cbn [decimal] in E. rewrite L in E.
  assert (B : forall l, Forall digit l -> decimal l < 10 ^ N.of_nat (List.length l)).
  { clear. induction l as [|x l IH]; intros H; cbn [decimal List.length]; [cbn; lia|]. inversion H; subst. specialize (IH H3).
    rewrite Nat2N.inj_succ, N.pow_succ_r'. unfold digit in H2. nia. }
  pose proof (B ds H2) as B1. pose proof (B ds' H6) as B2. rewrite L in B1. unfold digit in *. set (T := 10 ^ N.of_nat (List.length ds')) in *.
  assert (c = c') by nia. subst. f_equal. apply IH; auto. nia.
Qed.
Lemma Int_digits ds : Int ds -> Forall digit ds.
Proof. destruct 1; repeat constructor; auto; unfold digit; lia. Qed.
Lemma written_unique i ds ds' : written i ds -> written i ds' -> ds = ds'.
Proof.
  intros [H1 E1] [H2 E2]. pose proof (Int_digits _ H1). pose proof (Int_digits _ H2).
  assert (B : forall l, Forall digit l -> decimal l < 10 ^ N.of_nat (List.length l)).
  { clear. induction l as [|x l IH]; intros H; cbn [decimal List.length]; [cbn; lia|]. inversion H; subst. specialize (IH H3).
    rewrite Nat2N.inj_succ, N.pow_succ_r'. unfold digit in H2. nia. }
  assert (G : forall l l', Int l -> Int l' -> decimal l = decimal l' -> (List.length l <= List.length l')%nat).
  { intros l l' Hl Hl' E. pose proof (B _ (Int_digits _ Hl')) as Hb. destruct Hl as [|d ds0 Hd Hds]; [destruct Hl'; cbn; lia|].
    destruct (Nat.le_gt_cases (List.length (d :: ds0)) (List.length l')) as [|L]; auto. exfalso. cbn [decimal List.length] in *.
    assert (10 ^ N.of_nat (List.length l') <= 10 ^ N.of_nat (List.length ds0)) by (apply N.pow_le_mono_r; lia). nia. }
  apply show_N_pos_unique; auto; [|congruence]. apply Nat.le_antisymm; apply G; auto; congruence.
Qed.

(** ** Lookups *)
Lemma f_find_fault f j e : f_find f j = Err e <-> step f j = None /\ step_fault f j e.
Proof.
  assert (S : forall P Q : Prop, (P <-> Q) -> (P <-> True /\ Q)) by tauto.
  assert (K : forall k m, (@fail json k m = Err e) <-> kind e = k /\ msg e = m).
  { intros k m. unfold fail. split; [intros [= <-]; auto|]. intros [<- <-]. now destruct e. }
  assert (W : forall k i a b, (@fail json k (a ++ show_N i ++ b) = Err e) <-> kind e = k /\ exists ds, written i ds /\ msg e = a ++ ds ++ b).
  { intros k i a b. rewrite K. split; [intros [H1 H2]; split; eauto using show_written|]. intros (H1 & ds & H2 & H3). split; auto.
    rewrite H3. do 2 f_equal. eapply written_unique; eauto using show_written. }
  destruct f as [k|i], j as [o|v|s|n|b|]; cbn [f_find step step_fault]; unfold bad_key, bad_index, missing_key, out_of_range;
    rewrite ?kind_name_word; try (first [rewrite W; tauto|rewrite K; tauto]).
  - rewrite find_get. destruct (hm_get k o) as [[x l]|]; cbn; [split; [discriminate|intros [? _]; discriminate]|]. unfold no_such_key.
    change (Err _ = Err e) with (@fail json MissingKey (lit "missing key """ ++ k ++ lit """.") = Err e). rewrite K. tauto.
  - unfold no_such_index. fold (vlen v). fold (vec_get i v). destruct (vec_get i v); [split; [discriminate|intros [? _]; discriminate]|]. rewrite W. tauto.
Qed.
Theorem find_error_text p j e : p_find p j = Err e <-> lookup_fault (steps p) j e.
Proof.
  split.
  - revert j; induction p as [f|f q IH]; intros j; cbn [p_find steps].
    + intros H. apply f_find_fault in H as [H1 H2]. exists [], f, [], j. auto.
    + pose proof (f_find_step f j) as S. destruct (step f j) as [y|] eqn:E.
      * rewrite S. cbn [bind]. intros H. destruct (IH _ H) as (c & g & d & z & H1 & H2 & H3 & H4). exists (f :: c), g, d, z. rewrite H1. repeat split; auto. cbn. now rewrite E.
      * destruct S as (e' & S & _). rewrite S. cbn [bind]. intros [= ->]. apply f_find_fault in S as [_ S]. exists [], f, (steps q), j. auto.
  - intros (c & f & d & y & H1 & H2 & H3 & H4). assert (F : f_find f y = Err e) by (apply f_find_fault; auto). clear H3 H4.
    revert j c H1 H2; induction p as [g|g q IH]; intros j [|g' c] H1 H2; cbn [steps app] in H1; injection H1; intros; subst; cbn [walk] in H2.
    + injection H2 as ->. exact F.
    + destruct c; discriminate.
    + injection H2 as ->. cbn [p_find]. now rewrite F.
    + cbn [p_find]. pose proof (f_find_step g' j) as S. destruct (step g' j) as [z|] eqn:E; [|discriminate]. rewrite S. cbn [bind]. eauto.
Qed.
Theorem find_mut_error_text p j e : p_find_mut p j = Err e <-> lookup_fault (steps p) j e.
Proof. rewrite <- find_error_text, <- p_find_mut_find. destruct (p_find_mut p j); cbn; split; congruence. Qed.
Theorem discard_error_text p j e : snd (p_discard p j) = Err e <-> lookup_fault (steps p) j e.
Proof. rewrite discard_returns_find. apply find_error_text. Qed.

(** ** Path texts *)
Lemma finder_of_err buf e : finder_of buf = Err e <-> exists t, buf = 35 :: t /\ (forall n, ~ usize_text t n) /\ kind e = PathSyntaxError /\ msg e = lit "error parsing """ ++ t ++ lit """ to usize.".
Proof.
  unfold finder_of. destruct buf as [|c s]. { split; [discriminate|intros (t & ? & _); discriminate]. }
  destruct (N.eqb_spec c HASH) as [->|H].
  - destruct (usize_from_str s) as [i|] eqn:E.
    + split; [discriminate|]. intros (t & [= ->] & H & _). exfalso. apply (H i). now apply usize_from_str_spec.
    + unfold fail. split.
      * intros [= <-]. exists s. repeat split; auto. intros n U. apply usize_from_str_spec in U. congruence.
      * intros (t & [= ->] & _ & K & M). f_equal. destruct e; cbn in *; now subst.
  - split; [destruct (c =? BSLASH); discriminate|]. intros (t & [= ? ?] & _). congruence.
Qed.
Lemma mapM_err {A B} (g : A -> res B) l e : mapM g l = Err e <-> exists l1 a l2, l = l1 ++ a :: l2 /\ Forall (fun x => exists y, g x = Ok y) l1 /\ g a = Err e.
Proof.
  induction l as [|a l IH]; cbn [mapM].
  - split; [discriminate|]. intros ([|] & ? & ? & ? & _); discriminate.
  - destruct (g a) as [b|e'| |] eqn:E; cbn [bind].
    + destruct (mapM g l) as [bs|e'| |]; cbn [bind]; (split; [intros H; try discriminate|]).
      * intros ([|x l1] & c & l2 & H & F & G); injection H as ? ?; subst; [congruence|]. inversion F; subst. assert (Ok bs = Err e) by (apply IH; eauto 8). discriminate.
      * assert (H' : Err e' = @Err (list B) e) by congruence. apply IH in H' as (l1 & c & l2 & -> & F & G). exists (a :: l1), c, l2. repeat split; auto. constructor; eauto.
      * intros ([|x l1] & c & l2 & H & F & G); injection H as ? ?; subst; [congruence|]. inversion F; subst. assert (Err e' = @Err (list B) e) by (apply IH; eauto 8). congruence.
      * intros ([|x l1] & c & l2 & H & F & G); injection H as ? ?; subst; [congruence|]. inversion F; subst. assert (Panic = @Err (list B) e) by (apply IH; eauto 8). discriminate.
      * intros ([|x l1] & c & l2 & H & F & G); injection H as ? ?; subst; [congruence|]. inversion F; subst. assert (Fuel = @Err (list B) e) by (apply IH; eauto 8). discriminate.
    + split; [intros [= ->]; exists [], a, l; auto|]. intros ([|x l1] & c & l2 & H & F & G); injection H as ? ?; subst; [congruence|]. inversion F as [|? ? [y Hy] _]; congruence.
    + split; [discriminate|]. intros ([|x l1] & c & l2 & H & F & G); injection H as ? ?; subst; [congruence|]. inversion F as [|? ? [y Hy] _]; congruence.
    + split; [discriminate|]. intros ([|x l1] & c & l2 & H & F & G); injection H as ? ?; subst; [congruence|]. inversion F as [|? ? [y Hy] _]; congruence.
Qed.
Lemma parse_path_err s e : parse_path s = Err e <-> kind e = PathSyntaxError /\ exists cs t ds, PathText s (cs ++ (35 :: t) :: ds) /\ (forall n, ~ usize_text t n) /\
      (forall u, In (35 :: u) cs -> exists n, usize_text u n) /\ msg e = lit "error parsing """ ++ t ++ lit """ to usize.".
Proof.
  unfold parse_path. rewrite (path_loop_split (List.length s)) by auto. pose proof (path_text_split s) as PT.
  destruct (splitf s) as [c cs]. cbn [app fst snd] in *. set (l := c :: cs) in *.
  assert (E0 : (let? vec := let? l0 := mapM finder_of l in Ok l0 in match vec with [] => empty_path | f :: r => Ok (fold_left path_append r (path_new f)) end) = Err e <-> mapM finder_of l = Err e).
  { destruct (mapM finder_of l) as [fs| | |] eqn:M; cbn [bind]; try (split; congruence). destruct fs; [|split; discriminate].
    apply mapM_ok in M. inversion M. }
  rewrite E0, mapM_err. split.
  - intros (l1 & a & l2 & El & F & G). apply finder_of_err in G as (t & -> & U & K & M). split; auto. exists l1, t, l2. repeat split; auto.
    + rewrite <- El. now apply PT.
    + intros u Hu. rewrite Forall_forall in F. destruct (F _ Hu) as [f Hf]. apply finder_of_ok in Hf. inversion Hf as [? n Hn| |? H2]; subst; eauto. now destruct (H2 u).
  - intros (K & l1 & t & l2 & P & U & F & M). apply PT in P. exists l1, (35 :: t), l2. repeat split; auto.
    + apply Forall_forall. intros x Hx. destruct (finder_of_cases x) as [|(e' & u & _ & _ & -> & U')]; auto. exfalso. apply U'. auto.
    + apply finder_of_err. eauto.
Qed.
Theorem get_error_text j s e : get j s = Err e <-> path_fault s e \/ exists p, s <> [] /\ parse_path s = Ok p /\ lookup_fault (steps p) j e.
Proof.
  unfold path_fault. split.
  - unfold get. destruct s as [|c s]. { intros [= <-]. left. split; auto. }
    remember (c :: s) as t. assert (t <> []) by (subst; discriminate). destruct (parse_path t) as [p|e'| |] eqn:E; cbn [bind].
    + intros H'. right. exists p. repeat split; auto. now apply find_error_text.
    + intros [= ->]. left. apply parse_path_err in E as [K E]. split; auto.
    + discriminate.
    + discriminate.
  - intros [[K [[-> M]|[Hs H]]]|(p & Hs & Hp & H)].
    + cbn. unfold empty_path, fail. f_equal. destruct e; cbn in *; now subst.
    + unfold get. assert (E : parse_path s = Err e) by (apply parse_path_err; auto). rewrite E. destruct s; [congruence|reflexivity].
    + unfold get. rewrite Hp. destruct s; [congruence|]. cbn [bind]. now apply find_error_text.
Qed.
Theorem del_error_text j s e : snd (del j s) = Err e <-> path_fault s e \/ exists p, s <> [] /\ parse_path s = Ok p /\ lookup_fault (steps p) j e.
Proof. rewrite del_returns_get. apply get_error_text. Qed.
(** [set] fails only for a faulty path text. *)
Theorem set_error_text vmax j s x e : wf j = true -> (snd (set vmax j s x) = Err e <-> path_fault s e).
Proof.
  intros Hw. unfold path_fault. unfold set. split.
  - destruct s as [|c s]. { intros [= <-]. split; auto. }
    remember (c :: s) as t. assert (Ht : t <> []) by (subst; discriminate). destruct (parse_path t) as [p|e'| |] eqn:E; cbn [snd]; try discriminate.
    + pose proof (p_update_upd vmax p j x (wf_skeys _ Hw)) as U. intros H. destruct (over vmax (steps p) j); [destruct U as (j' & U)|]; rewrite U in H; discriminate.
    + intros [= ->]. apply parse_path_err in E as [K E]. split; auto.
  - intros [K [[-> M]|[Hs H]]].
    + cbn. unfold empty_path, fail. f_equal. destruct e; cbn in *; now subst.
    + assert (E : parse_path s = Err e) by (apply parse_path_err; auto). rewrite E. destruct s; [congruence|reflexivity].
Qed.

(** ** Edits *)
Theorem object_op_error_text j op e : snd (run_object_op j op) = Err e <-> (forall o, j <> JObj o) /\ wrong_value "object" j e.
Proof.
  unfold wrong_value. split.
  - destruct j as [o| | | | |]; [destruct op; discriminate|..]; destruct op; intros [= <-]; (split; [discriminate|split; reflexivity]).
  - intros (H & K & M). assert (X : e = mkError (kind e) (msg e)) by now destruct e. rewrite X, K, M.
    destruct j as [o| | | | |]; [now destruct (H o)|..]; destruct op; reflexivity.
Qed.
Theorem merge_error_text j k e : index_and_merge j k = Err e <->
  ((forall o, j <> JObj o) /\ wrong_value "object" j e) \/ ((exists o, j = JObj o) /\ values_at k j = [] /\ no_such_key k e).
Proof.
  unfold wrong_value, no_such_key. assert (X : e = mkError (kind e) (msg e)) by now destruct e. split.
  - destruct j as [o| | | | |]; [|intros [= <-]; left; (split; [discriminate|split; reflexivity])..].
    cbn [index_and_merge]. rewrite values_at_get. destruct (hm_get k o) as [[v l]|]; [discriminate|]. intros [= <-]. right. repeat split; eauto.
  - intros [(H & K & M)|([o ->] & H & K & M)]; rewrite X, K, M.
    + destruct j as [o| | | | |]; [now destruct (H o)|..]; reflexivity.
    + cbn [index_and_merge]. rewrite values_at_get in H. destruct (hm_get k o) as [[v l]|]; [|reflexivity]. now apply app_eq_nil in H as [_ H].
Qed.
Theorem array_op_error_text j op e : snd (run_array_op j op) = Err e <->
  ((forall v, j <> JArr v) /\ wrong_value "array" j e) \/
  (exists v i x, j = JArr v /\ op = Replace i x /\ N.of_nat (List.length v) <= i /\ no_such_index i e).
Proof.
  unfold wrong_value, no_such_index. assert (X : e = mkError (kind e) (msg e)) by now destruct e. split.
  - destruct j as [|v| | | |]; try (destruct op; intros [= <-]; left; (split; [discriminate|split; reflexivity])).
    destruct op as [x|i x|i]; cbn [run_array_op push replace remove snd]; [discriminate| |].
    + destruct (vec_get i v) eqn:E; [discriminate|]. intros [= <-]. right. exists v, i, x. split; auto. split; auto. split.
      * unfold vec_get, vlen in E. destruct (N.ltb_spec i (N.of_nat (List.length v))); auto. apply nth_error_None in E. lia.
      * split; auto. eauto using show_written.
    + unfold vlen. destruct (i <? _); discriminate.
  - intros [(H & K & M)|(v & i & x & -> & -> & Hi & K & ds & W & M)]; rewrite X, K, M.
    + destruct j as [|v| | | |]; try (destruct op; reflexivity). now destruct (H v).
    + cbn [run_array_op replace]. unfold vec_get, vlen. rewrite (proj2 (N.ltb_ge _ _)) by lia. cbn [snd]. unfold fail. do 4 f_equal. eapply written_unique; eauto using show_written.
Qed.
Example message_examples :
  get doc (lit "a.#7") = Err (mkError IndexOutOfRange (lit "index 7 out of range.")) /\
  get doc (lit "a.b") = Err (mkError InvalidValueKind (lit "find value by key ""b"" error: invalid value kind, expect object, got array.")) /\
  get doc (lit "#x.#1.#y") = Err (mkError PathSyntaxError (lit "error parsing ""x"" to usize.")) /\
  snd (push doc JNull) = Err (mkError InvalidValueKind (lit "invalid value kind, expect array, got object.")) /\
  snd (replace (JArr [JNull]) 12 JNull) = Err (mkError IndexOutOfRange (lit "index 12 out of range.")).
Proof. vm_compute. auto 10. Qed.

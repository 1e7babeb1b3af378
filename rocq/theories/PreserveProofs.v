(** Updating, discarding and the other edits keep values well formed, finite and balanced. *)
From Verif Require Import Base F64 Json Parse Ops Path SpecGrammar SpecPath MapProofs PathProofs.
From Coq Require Import ZifyBool ZifyNat ZifyN.
Open Scope N_scope.

(** A family of hereditary predicates: keys satisfy [K], strings [S], numbers [F]. *)
Section Hereditary.
Variables (K S : str -> bool) (F : f64 -> bool).
Fixpoint all (j : json) : bool :=
  match j with
  | JObj o => keys_sorted o && forallb (fun e => K (fst e) && (all (fst (snd e)) && forallb all (snd (snd e)))) o
  | JArr v => forallb all v
  | JStr s => S s
  | JNum f => F f
  | JBool _ | JNull => true
  end.
Definition all_entry (e : entry) : bool := K (fst e) && (all (fst (snd e)) && forallb all (snd (snd e))).
Lemma all_obj o : all (JObj o) = true <-> keys_sorted o = true /\ forall e, In e o -> all_entry e = true.
Proof. cbn [all]. rewrite andb_true_iff, forallb_forall. reflexivity. Qed.
Lemma all_arr v : all (JArr v) = true <-> forall x, In x v -> all x = true.
Proof. cbn [all]. apply forallb_forall. Qed.
Lemma all_skeys j : all j = true -> skeys j = true.
Proof.
  induction j as [o IH|v IH|s|f|b|] using json_ind; auto.
  - rewrite all_obj. intros [Hs H]. cbn [skeys]. rewrite Hs. cbn. apply forallb_forall. intros e He. rewrite Forall_forall in IH. destruct (IH e He) as [I1 I2].
    specialize (H e He). unfold all_entry in H. rewrite !andb_true_iff in H. destruct H as (_ & H1 & H2).
    rewrite andb_true_iff. split; auto. rewrite Forall_forall in I2. rewrite forallb_forall in *. auto.
  - rewrite all_arr. intros H. cbn [skeys]. apply forallb_forall. rewrite Forall_forall in IH. auto.
Qed.
Lemma all_insert o k x l : all (JObj o) = true -> K k = true -> all x = true -> forallb all l = true -> all (JObj (hm_insert k (x, l) o)) = true.
Proof.
  rewrite !all_obj. intros [Hs H] Hk Hx Hl. split; [now apply hm_insert_sorted|]. intros e He.
  apply hm_insert_In in He as [->|He]; auto. unfold all_entry. cbn [fst snd]. now rewrite Hk, Hx, Hl.
Qed.
Lemma all_remove o k : all (JObj o) = true -> all (JObj (hm_remove k o)) = true.
Proof.
  rewrite !all_obj. intros [Hs H]. split; [now apply hm_remove_sorted|]. intros e He. apply H. eapply hm_remove_In; eauto.
Qed.
Lemma all_get o k x l : all (JObj o) = true -> hm_get k o = Some (x, l) -> K k = true /\ all x = true /\ forallb all l = true.
Proof.
  rewrite all_obj. intros [Hs H] E. apply hm_get_In in E. specialize (H _ E). unfold all_entry in H. rewrite !andb_true_iff in H. tauto.
Qed.
Lemma all_vec_set v i x : all (JArr v) = true -> all x = true -> all (JArr (vec_set i x v)) = true.
Proof. rewrite !all_arr. intros H Hx y Hy. apply vec_set_In in Hy as [->|Hy]; auto. Qed.
Lemma all_step f j y : all j = true -> step f j = Some y -> all y = true.
Proof.
  intros H. destruct f as [k|i], j as [o|v|s|n|b|]; try discriminate.
  - rewrite step_key. destruct (hm_get k o) as [[z l]|] eqn:E; [|discriminate]. intros [= <-]. now apply (all_get o k z l).
  - rewrite step_index. intros E. apply vec_get_some in E. apply nth_error_In in E. rewrite all_arr in H. auto.
Qed.
Lemma all_walk p : forall j y, all j = true -> walk p j = Some y -> all y = true.
Proof.
  induction p as [|f p IH]; intros j y H; cbn [walk]; [now intros [= <-]|]. destruct (step f j) as [z|] eqn:E; [|discriminate].
  apply IH. eapply all_step; eauto.
Qed.
Lemma all_repl f x j : all j = true -> all x = true -> all (repl f x j) = true.
Proof.
  intros H Hx. destruct f as [k|i], j as [o|v|s|n|b|]; auto; cbn [repl].
  - destruct (hm_get k o) as [[z l]|] eqn:E; auto. destruct (all_get _ _ _ _ H E) as (H1 & _ & H2). now apply all_insert.
  - now apply all_vec_set.
Qed.
Definition keyed (f : finder) : bool := match f with Key k => K k | Index _ => true end.
Lemma all_make f x j : keyed f = true -> all j = true -> all x = true -> all (make f x j) = true.
Proof.
  intros Hf H Hx. destruct f as [k|i]; cbn [make].
  - fold (obj_of j). apply all_insert; auto. destruct j; auto.
  - assert (He : all (JArr (elems j)) = true) by (destruct j; auto). apply all_vec_set; auto.
    destruct (vlen (elems j) <=? i); auto. rewrite all_arr in *. unfold resize. intros y Hy. apply in_app_or in Hy as [Hy|Hy]; auto.
    now apply repeat_spec in Hy as ->.
Qed.
Lemma all_upd p x : all x = true -> forallb keyed p = true -> forall j, all j = true -> all (upd p x j) = true.
Proof.
  intros Hx. induction p as [|f q IH]; intros Hp j Hj; [exact Hx|]. cbn [forallb] in Hp. apply andb_true_iff in Hp as [Hf Hq].
  destruct q as [|g q].
  - cbn [upd]. now apply all_make.
  - rewrite upd_cons by discriminate. destruct (step f j) as [y|] eqn:E.
    + apply all_repl; auto. apply IH; auto. eapply all_step; eauto.
    + apply all_make; auto.
Qed.
Lemma all_f_discard f j : all j = true -> all (fst (f_discard f j)) = true.
Proof.
  intros H. destruct f as [k|i], j as [o|v|s|n|b|]; auto; cbn [f_discard].
  - destruct (hm_get k o) as [[z l]|]; auto. now apply all_remove.
  - destruct (i <? vlen v); auto. destruct (nth_error v (N.to_nat i)); auto. cbn [fst]. rewrite vec_remove_spec, all_arr in *.
    intros x Hx. apply H. apply in_app_or in Hx as [Hx|Hx]; [rewrite <- (firstn_skipn (N.to_nat i) v); apply in_or_app; left; auto|rewrite <- (firstn_skipn (Datatypes.S (N.to_nat i)) v); apply in_or_app; right; auto].
Qed.
Lemma all_discard p : forall j, all j = true -> all (fst (p_discard p j)) = true.
Proof.
  induction p as [f|f q IH]; intros j H; cbn [p_discard]; [now apply all_f_discard|].
  pose proof (f_find_step f j) as Fs. destruct (step f j) as [y|] eqn:E.
  - destruct (f_find_mut_step _ _ _ E) as (put & -> & Hput). specialize (IH y (all_step _ _ _ H E)).
    destruct (p_discard q y) as [y' r]. cbn [fst] in *. rewrite Hput. now apply all_repl.
  - destruct Fs as (e & Fs & _). rewrite <- f_find_mut_find in Fs. destruct (f_find_mut f j) as [[]| | |]; auto. discriminate.
Qed.
Lemma all_find_mut_put p : forall j x put, all j = true -> p_find_mut p j = Ok (x, put) -> forall z, all z = true -> all (put z) = true.
Proof.
  induction p as [f|f q IH]; intros j x put H; cbn [p_find_mut].
  - intros E z Hz. pose proof (f_find_step f j) as Fs. rewrite <- f_find_mut_find in Fs. destruct (step f j) as [y|] eqn:Es.
    + destruct (f_find_mut_step _ _ _ Es) as (put' & E' & Hput). rewrite E' in E. injection E as <- <-. rewrite Hput. now apply all_repl.
    + destruct Fs as (e & Fs & _). rewrite E in Fs. discriminate.
  - pose proof (f_find_step f j) as Fs. rewrite <- f_find_mut_find in Fs. destruct (step f j) as [y|] eqn:Es.
    + destruct (f_find_mut_step _ _ _ Es) as (put' & -> & Hput). cbn [bind]. destruct (p_find_mut q y) as [[u put2]| | |] eqn:E2; try discriminate.
      cbn [bind]. intros [= -> <-] z Hz. rewrite Hput. apply all_repl; auto. exact (IH y x put2 (all_step _ _ _ H Es) E2 z Hz).
    + destruct Fs as (e & Fs & _). destruct (f_find_mut f j) as [[]| | |]; discriminate.
Qed.
Lemma all_append j k v : all j = true -> K k = true -> all v = true -> all (fst (append j k v)) = true.
Proof.
  intros H Hk Hv. unfold append, add_option. destruct j as [o| | | | |]; auto. cbn [fst]. unfold object_insert.
  destruct (hm_get k o) as [[x l]|] eqn:E; [|now apply all_insert]. destruct (all_get _ _ _ _ H E) as (_ & H1 & H2).
  apply all_insert; auto. cbn. now rewrite H1, H2.
Qed.
Lemma all_ins j k v : all j = true -> K k = true -> all v = true -> all (fst (insert j k v)) = true.
Proof. intros H Hk Hv. unfold insert, add_option. destruct j as [o| | | | |]; auto. cbn [fst]. now apply all_insert. Qed.
Lemma all_delete j k : all j = true -> all (fst (delete j k)) = true.
Proof. intros H. unfold delete. destruct j as [o| | | | |]; auto. now apply all_remove. Qed.
Lemma all_push j v : all j = true -> all v = true -> all (fst (push j v)) = true.
Proof.
  intros H Hv. unfold push. destruct j as [|w| | | |]; auto. cbn [fst]. rewrite all_arr in *. intros x Hx. apply in_app_or in Hx as [Hx|[<-|[]]]; auto.
Qed.
Lemma all_replace j i v : all j = true -> all v = true -> all (fst (replace j i v)) = true.
Proof. intros H Hv. unfold replace. destruct j as [|w| | | |]; auto. destruct (vec_get i w); auto. now apply all_vec_set. Qed.
Lemma all_remove_at j i : all j = true -> all (fst (remove j i)) = true.
Proof.
  intros H. pose proof (all_f_discard (Index i) j H) as D. unfold remove. destruct j as [|w| | | |]; auto. cbn [f_discard] in D.
  destruct (i <? vlen w) eqn:E; auto. cbn [fst]. destruct (nth_error w (N.to_nat i)) eqn:En; auto.
  apply nth_error_None in En. unfold vlen in E. lia.
Qed.
End Hereditary.
Lemma all_wf j : all scalar_str scalar_str valid_f64 j = wf j.
Proof. reflexivity. Qed.
Lemma all_and K S F K' S' F' j : all (fun k => K k && K' k) (fun s => S s && S' s) (fun f => F f && F' f) j = true <->
  all K S F j = true /\ all K' S' F' j = true.
Proof.
  induction j as [o IH|v IH|s|f|b|] using json_ind; try (cbn; rewrite ?andb_true_iff; tauto).
  - rewrite !all_obj. rewrite Forall_forall in IH.
    assert (E : forall e, In e o -> (all_entry (fun k => K k && K' k) (fun s => S s && S' s) (fun f => F f && F' f) e = true <->
       all_entry K S F e = true /\ all_entry K' S' F' e = true)).
    { intros e He. destruct (IH e He) as [I1 I2]. rewrite Forall_forall in I2. unfold all_entry. rewrite !andb_true_iff, I1, !forallb_forall.
      assert (X : (forall x, In x (snd (snd e)) -> all (fun k => K k && K' k) (fun s => S s && S' s) (fun f => F f && F' f) x = true) <->
        (forall x, In x (snd (snd e)) -> all K S F x = true) /\ (forall x, In x (snd (snd e)) -> all K' S' F' x = true)).
      { split; [intros H; split; intros x Hx; now apply (I2 x Hx), H|]. intros [H1 H2] x Hx. apply (I2 x Hx). auto. }
      rewrite X. tauto. }
    split; [intros [Hs H]; repeat split; auto; intros e He; now apply (E e He), H|]. intros [[Hs H1] [_ H2]]. split; auto. intros e He. apply (E e He). auto.
  - rewrite !all_arr. rewrite Forall_forall in IH. split; [intros H; split; intros x Hx; now apply (IH x Hx), H|]. intros [H1 H2] x Hx. apply (IH x Hx). auto.
Qed.

Definition yes {A} (_ : A) : bool := true.
Lemma all_finite j : all yes yes is_finite j = true <-> skeys j = true /\ finite j = true.
Proof.
  induction j as [o IH|v IH|s|f|b|] using json_ind; try (cbn; tauto).
  - cbn [all skeys finite]. rewrite !andb_true_iff, !forallb_forall. rewrite Forall_forall in IH. unfold yes at 1. split.
    + intros [Hs H]. repeat split; auto; intros e He; specialize (H e He); destruct (IH e He) as [I1 I2]; rewrite Forall_forall in I2;
        rewrite !andb_true_iff in *; rewrite !forallb_forall in *; destruct H as (_ & H1 & H2); apply I1 in H1; split; try tauto;
        intros x Hx; specialize (H2 x Hx); apply (I2 x Hx) in H2; tauto.
    + intros [[Hs H1] H2]. split; auto. intros e He. specialize (H1 e He). specialize (H2 e He). destruct (IH e He) as [I1 I2]. rewrite Forall_forall in I2.
      rewrite !andb_true_iff in *; rewrite !forallb_forall in *. destruct H1, H2. repeat split; auto; [apply I1; auto|]. intros x Hx. apply (I2 x Hx). auto.
  - cbn [all skeys finite]. rewrite !forallb_forall. rewrite Forall_forall in IH. split.
    + intros H. split; intros x Hx; specialize (H x Hx); apply (IH x Hx) in H; tauto.
    + intros [H1 H2] x Hx. apply (IH x Hx). auto.
Qed.
Lemma all_balanced j : all balanced_str balanced_str yes j = true <-> skeys j = true /\ balanced_in j = true.
Proof.
  induction j as [o IH|v IH|s|f|b|] using json_ind; try (cbn; tauto).
  - cbn [all skeys balanced_in]. rewrite !andb_true_iff, !forallb_forall. rewrite Forall_forall in IH. split.
    + intros [Hs H]. repeat split; auto; intros e He; specialize (H e He); destruct (IH e He) as [I1 I2]; rewrite Forall_forall in I2;
        rewrite !andb_true_iff in *; rewrite !forallb_forall in *; destruct H as (H0 & H1 & H2); apply I1 in H1; repeat split; try tauto;
        intros x Hx; specialize (H2 x Hx); apply (I2 x Hx) in H2; tauto.
    + intros [[Hs H1] H2]. split; auto. intros e He. specialize (H1 e He). specialize (H2 e He). destruct (IH e He) as [I1 I2]. rewrite Forall_forall in I2.
      rewrite !andb_true_iff in *; rewrite !forallb_forall in *. destruct H1, H2 as (? & ? & ?). repeat split; auto; [apply I1; auto|]. intros x Hx. apply (I2 x Hx). auto.
  - cbn [all skeys balanced_in]. rewrite !forallb_forall. rewrite Forall_forall in IH. split.
    + intros H. split; intros x Hx; specialize (H x Hx); apply (IH x Hx) in H; tauto.
    + intros [H1 H2] x Hx. apply (IH x Hx). auto.
Qed.
Lemma all_skeys_iff j : all yes yes yes j = true <-> skeys j = true.
Proof.
  split; [apply all_skeys|]. auto.
Qed.

(** String order and hash-map lemmas. *)
From Verif Require Import Base F64 Json Print.
From Coq Require Import Sorting.Sorted Sorting.Permutation.

Lemma str_cmp_refl a : str_cmp a a = Eq.
Proof. induction a as [|x a IH]; cbn; [auto|]. now rewrite N.compare_refl. Qed.

Lemma str_cmp_eq a b : str_cmp a b = Eq <-> a = b.
Proof.
  split; [|intros ->; apply str_cmp_refl].
  revert b; induction a as [|x a IH]; intros [|y b]; cbn; try congruence.
  destruct (N.compare_spec x y) as [->|H|H]; try congruence. intros H; now rewrite (IH b H).
Qed.

Lemma str_cmp_antisym a b : str_cmp b a = CompOpp (str_cmp a b).
Proof.
  revert b; induction a as [|x a IH]; intros [|y b]; cbn; auto.
  rewrite (N.compare_antisym x y). destruct (x ?= y); cbn; auto.
Qed.

Lemma str_cmp_lt_trans a b c : str_cmp a b = Lt -> str_cmp b c = Lt -> str_cmp a c = Lt.
Proof.
  revert b c; induction a as [|x a IH]; intros [|y b] [|z c]; cbn; try congruence.
  destruct (N.compare_spec x y) as [->|Hxy|Hxy]; try congruence.
  - destruct (N.compare_spec y z) as [->|Hyz|Hyz]; try congruence. apply IH.
  - intros _. destruct (N.compare_spec y z) as [->|Hyz|Hyz]; try congruence.
    + intros _. destruct (N.compare_spec x z); auto; lia.
    + intros _. destruct (N.compare_spec x z); auto; lia.
Qed.

Lemma str_cmp_lt_irrefl a : str_cmp a a <> Lt.
Proof. rewrite str_cmp_refl; congruence. Qed.

Lemma str_eqb_cmp a b : str_eqb a b = match str_cmp a b with Eq => true | _ => false end.
Proof.
  destruct (str_eqb a b) eqn:E.
  - apply str_eqb_eq in E as ->. now rewrite str_cmp_refl.
  - apply str_eqb_neq in E. destruct (str_cmp a b) eqn:C; auto. now apply str_cmp_eq in C.
Qed.

(** ** Sorted association lists *)
Section Maps.
Context {V : Type}.
Implicit Types (m : list (str * V)) (k : str) (v : V).

Definition below k m : Prop := Forall (fun e => str_cmp k (fst e) = Lt) m.

Lemma keys_sorted_cons k v m : keys_sorted ((k, v) :: m) = true <-> below k m /\ keys_sorted m = true.
Proof.
  cbn [keys_sorted]. rewrite andb_true_iff. split.
  - intros [H1 H2]; split; auto. revert k v H1; induction m as [|[k' v'] m IH]; intros k v H1.
    + constructor.
    + unfold str_ltb in H1. destruct (str_cmp k k') eqn:E; try congruence.
      constructor; [exact E|].
      cbn [keys_sorted] in H2. apply andb_true_iff in H2 as [H2 H3].
      specialize (IH H3 k' v' H2). unfold below in *. rewrite Forall_forall in *.
      intros e He. eapply str_cmp_lt_trans; eauto.
  - intros [H1 H2]; split; auto. destruct m as [|[k' v'] m]; auto.
    inversion H1 as [|? ? H]; subst. cbn in H. unfold str_ltb. now rewrite H.
Qed.

Lemma below_get k m : below k m -> hm_get k m = None.
Proof.
  induction 1 as [|[k' v'] m H _ IH]; cbn; auto. cbn in H. rewrite str_eqb_cmp, H. auto.
Qed.

Lemma below_trans k k' m : str_cmp k k' = Lt -> below k' m -> below k m.
Proof. intros H; apply Forall_impl; intros e He; eapply str_cmp_lt_trans; eauto. Qed.

Lemma hm_get_insert k v m k' : keys_sorted m = true ->
  hm_get k' (hm_insert k v m) = if str_eqb k' k then Some v else hm_get k' m.
Proof.
  induction m as [|[k1 v1] m IH]; intros Hs; cbn [hm_insert hm_get].
  - auto.
  - apply keys_sorted_cons in Hs as [Hb Hs].
    destruct (str_cmp k k1) eqn:E.
    + apply str_cmp_eq in E as ->. cbn [hm_get]. destruct (str_eqb k' k1); auto.
    + cbn [hm_get]. destruct (str_eqb k' k) eqn:E1; auto.
    + cbn [hm_get]. rewrite IH by auto. destruct (str_eqb k' k1) eqn:E1; auto.
      apply str_eqb_eq in E1 as ->. rewrite str_eqb_cmp, str_cmp_antisym, E. reflexivity.
Qed.

Lemma below_insert k0 k v m : str_cmp k0 k = Lt -> below k0 m -> below k0 (hm_insert k v m).
Proof.
  intros Hk; induction 1 as [|[k1 v1] m H Hm IH]; cbn [hm_insert].
  - repeat constructor; auto.
  - destruct (str_cmp k k1); repeat constructor; auto.
Qed.

Lemma hm_insert_sorted k v m : keys_sorted m = true -> keys_sorted (hm_insert k v m) = true.
Proof.
  induction m as [|[k1 v1] m IH]; intros Hs; cbn [hm_insert]; auto.
  pose proof Hs as Hs0. apply keys_sorted_cons in Hs as [Hb Hs].
  destruct (str_cmp k k1) eqn:E.
  - apply str_cmp_eq in E as ->. apply keys_sorted_cons; auto.
  - apply keys_sorted_cons; split; auto. constructor; [exact E|]. eapply below_trans; eauto.
  - apply keys_sorted_cons; split; auto. apply below_insert; auto.
    now rewrite str_cmp_antisym, E.
Qed.

Lemma hm_get_remove k m k' : keys_sorted m = true ->
  hm_get k' (hm_remove k m) = if str_eqb k' k then None else hm_get k' m.
Proof.
  induction m as [|[k1 v1] m IH]; intros Hs; cbn [hm_remove hm_get].
  - destruct (str_eqb k' k); auto.
  - apply keys_sorted_cons in Hs as [Hb Hs].
    destruct (str_eqb k k1) eqn:E.
    + apply str_eqb_eq in E as ->. destruct (str_eqb k' k1) eqn:E1; auto.
      apply str_eqb_eq in E1 as ->. now apply below_get.
    + cbn [hm_get]. rewrite IH by auto. destruct (str_eqb k' k1) eqn:E1; auto.
      apply str_eqb_eq in E1 as ->. destruct (str_eqb k1 k) eqn:E2; auto.
      apply str_eqb_eq in E2 as ->. rewrite str_eqb_refl in E; congruence.
Qed.

Lemma below_remove k0 k m : below k0 m -> below k0 (hm_remove k m).
Proof.
  induction 1 as [|[k1 v1] m H Hm IH]; cbn [hm_remove]; [constructor|].
  destruct (str_eqb k k1); auto. constructor; auto.
Qed.

Lemma hm_remove_sorted k m : keys_sorted m = true -> keys_sorted (hm_remove k m) = true.
Proof.
  induction m as [|[k1 v1] m IH]; intros Hs; cbn [hm_remove]; auto.
  apply keys_sorted_cons in Hs as [Hb Hs].
  destruct (str_eqb k k1); auto. apply keys_sorted_cons; split; auto. now apply below_remove.
Qed.

(** A sorted map is determined by its lookups. *)
Lemma hm_ext m m' : keys_sorted m = true -> keys_sorted m' = true ->
  (forall k, hm_get k m = hm_get k m') -> m = m'.
Proof.
  revert m'; induction m as [|[k v] m IH]; intros [|[k' v'] m'] Hs Hs' H.
  - auto.
  - specialize (H k'). cbn in H. rewrite str_eqb_refl in H. congruence.
  - specialize (H k). cbn in H. rewrite str_eqb_refl in H. congruence.
  - apply keys_sorted_cons in Hs as [Hb Hs], Hs' as [Hb' Hs'].
    assert (k = k') as ->.
    { pose proof (H k) as H1. pose proof (H k') as H2. cbn in H1, H2.
      rewrite str_eqb_refl in H1, H2.
      destruct (str_cmp k k') eqn:E.
      - now apply str_cmp_eq.
      - rewrite str_eqb_cmp, E in H1. rewrite below_get in H1; [congruence|].
        eapply below_trans; eauto.
      - rewrite (str_eqb_cmp k' k), str_cmp_antisym, E in H2. cbn in H2.
        rewrite below_get in H2; [congruence|].
        eapply below_trans; eauto. now rewrite str_cmp_antisym, E. }
    pose proof (H k') as H1. cbn in H1. rewrite str_eqb_refl in H1. injection H1 as ->.
    f_equal. apply IH; auto. intros k. specialize (H k). cbn in H.
    destruct (str_eqb k k') eqn:E; auto.
    apply str_eqb_eq in E as ->. rewrite !below_get by auto. auto.
Qed.

Lemma hm_get_In k v m : hm_get k m = Some v -> In (k, v) m.
Proof.
  induction m as [|[k' v'] m IH]; cbn; [congruence|].
  destruct (str_eqb k k') eqn:E.
  - apply str_eqb_eq in E as ->. intros [= ->]; auto.
  - auto.
Qed.

Lemma hm_In_get k v m : keys_sorted m = true -> In (k, v) m -> hm_get k m = Some v.
Proof.
  induction m as [|[k' v'] m IH]; cbn [In hm_get]; [tauto|].
  intros Hs [H|H].
  - injection H as -> ->. now rewrite str_eqb_refl.
  - apply keys_sorted_cons in Hs as [Hb Hs].
    unfold below in Hb. rewrite Forall_forall in Hb. specialize (Hb _ H). cbn in Hb.
    rewrite str_eqb_cmp, str_cmp_antisym, Hb. cbn. auto.
Qed.

Lemma hm_insert_In k v m e : In e (hm_insert k v m) -> e = (k, v) \/ In e m.
Proof.
  induction m as [|[k1 v1] m IH]; cbn [hm_insert].
  - intros [H|[]]; auto.
  - destruct (str_cmp k k1); cbn; intuition auto.
Qed.
Lemma hm_remove_In k m e : In e (hm_remove k m) -> In e m.
Proof.
  induction m as [|[k1 v1] m IH]; cbn [hm_remove]; auto.
  destruct (str_eqb k k1); cbn; intuition auto.
Qed.

Lemma hm_insert_same k v m : keys_sorted m = true -> hm_get k m = Some v -> hm_insert k v m = m.
Proof.
  intros Hs H. apply hm_ext; auto using hm_insert_sorted.
  intros k'. rewrite hm_get_insert by auto. destruct (str_eqb k' k) eqn:E; auto.
  apply str_eqb_eq in E as ->. auto.
Qed.
Lemma hm_insert_insert k v v' m : keys_sorted m = true ->
  hm_insert k v (hm_insert k v' m) = hm_insert k v m.
Proof.
  intros Hs. apply hm_ext; auto using hm_insert_sorted.
  intros k'. rewrite !hm_get_insert by auto using hm_insert_sorted. destruct (str_eqb k' k); auto.
Qed.

(** ** Sorting by key *)
Lemma insert_by_key_perm (x : str * V) l : Permutation (insert_by_key x l) (x :: l).
Proof.
  induction l as [|y l IH]; cbn; auto.
  destruct (str_cmp (fst x) (fst y)); auto.
  rewrite IH. apply perm_swap.
Qed.
Lemma sort_by_key_perm (l : list (str * V)) : Permutation (sort_by_key l) l.
Proof.
  induction l as [|x l IH]; cbn; auto. rewrite insert_by_key_perm. auto.
Qed.
Lemma insert_by_key_below (k0 : str) (x : str * V) l : str_cmp k0 (fst x) = Lt -> below k0 l -> below k0 (insert_by_key x l).
Proof.
  intros Hx; induction 1 as [|y l H Hl IH]; cbn; [repeat constructor; auto|].
  destruct (str_cmp (fst x) (fst y)); repeat constructor; auto.
Qed.
Lemma sort_by_key_sorted (l : list (str * V)) : NoDup (map fst l) -> keys_sorted (sort_by_key l) = true.
Proof.
  induction l as [|x l IH]; intros Hn; cbn [sort_by_key fold_right]; auto.
  cbn in Hn. inversion Hn as [|? ? Hni Hn']; subst. specialize (IH Hn').
  fold (sort_by_key l).
  assert (Hin : forall y, In y (sort_by_key l) -> fst y <> fst x).
  { intros y Hy Heq. apply Hni. rewrite <- Heq. apply in_map.
    eapply Permutation_in; [apply sort_by_key_perm|exact Hy]. }
  clear Hn Hni. revert IH Hin. generalize (sort_by_key l) as s.
  induction s as [|[k1 v1] s IHs]; intros Hs Hin; cbn [insert_by_key]; auto.
  - destruct x; reflexivity.
  - apply keys_sorted_cons in Hs as [Hb Hs]. cbn [fst].
    destruct (str_cmp (fst x) k1) eqn:E.
    + apply str_cmp_eq in E. exfalso. apply (Hin (k1, v1)); cbn; auto.
    + destruct x as [kx vx]. apply keys_sorted_cons. split; [|now apply keys_sorted_cons].
      constructor; auto. eapply below_trans; eauto.
    + apply keys_sorted_cons. split.
      * apply insert_by_key_below; auto. now rewrite str_cmp_antisym, E.
      * apply IHs; auto. intros y Hy; apply Hin; cbn; auto.
Qed.
Lemma sort_by_key_id (l : list (str * V)) : keys_sorted l = true -> sort_by_key l = l.
Proof.
  induction l as [|[k v] l IH]; intros Hs; auto.
  apply keys_sorted_cons in Hs as [Hb Hs]. cbn [sort_by_key fold_right]. fold (sort_by_key l).
  rewrite IH by auto. destruct Hb as [|[k1 v1] l H Hl]; auto.
  cbn [insert_by_key fst]. cbn in H. rewrite H. auto.
Qed.
Lemma keys_sorted_NoDup (m : list (str * V)) : keys_sorted m = true -> NoDup (map fst m).
Proof.
  induction m as [|[k v] m IH]; intros Hs; cbn; constructor.
  - apply keys_sorted_cons in Hs as [Hb _]. intros Hin. apply in_map_iff in Hin as [[k' v'] [Hk Hin]].
    cbn in Hk; subst. unfold below in Hb; rewrite Forall_forall in Hb. apply Hb in Hin. cbn in Hin.
    rewrite str_cmp_refl in Hin; congruence.
  - apply keys_sorted_cons in Hs as [_ Hs]. auto.
Qed.
Lemma sorted_perm_eq (m m' : list (str * V)) : keys_sorted m = true -> keys_sorted m' = true ->
  Permutation m m' -> m = m'.
Proof.
  intros Hs Hs' Hp. apply hm_ext; auto. intros k.
  destruct (hm_get k m) as [v|] eqn:E.
  - apply hm_get_In in E. symmetry. apply hm_In_get; auto. eapply Permutation_in; eauto.
  - destruct (hm_get k m') as [v|] eqn:E'; auto.
    apply hm_get_In in E'. apply (Permutation_in _ (Permutation_sym Hp)) in E'.
    apply hm_In_get in E'; auto. congruence.
Qed.
End Maps.

Lemma keys_sorted_map {V W} (f : str * V -> W) (m : list (str * V)) :
  keys_sorted (map (fun e => (fst e, f e)) m) = keys_sorted m.
Proof.
  induction m as [|[k v] m IH]; cbn [keys_sorted map fst]; auto.
  rewrite IH. destruct m as [|[k' v'] m]; auto.
Qed.

(** ** [object_insert] *)
Lemma object_insert_sorted m k j : keys_sorted m = true -> keys_sorted (object_insert m k j) = true.
Proof. intros H. unfold object_insert. destruct (hm_get k m) as [[? ?]|]; now apply hm_insert_sorted. Qed.
Lemma object_insert_get m k j k' : keys_sorted m = true ->
  hm_get k' (object_insert m k j) =
  if str_eqb k' k then Some (j, match hm_get k m with Some (v, l) => v :: l | None => [] end)
  else hm_get k' m.
Proof.
  intros H. unfold object_insert. destruct (hm_get k m) as [[? ?]|]; now rewrite hm_get_insert.
Qed.

(** Objects as ordered multimaps, arrays as sequences (C26, C27). *)
From Verif Require Import Base F64 Json Parse Ops Path SpecGrammar SpecPath MapProofs PathProofs PreserveProofs.
From Coq Require Import ZifyBool ZifyNat ZifyN.
Open Scope N_scope.

(** * C26 *)
(** The specification: a map from keys to the list of their values, oldest first. *)
Inductive object_op := Insert (k : str) (v : json) | Append (k : str) (v : json) | Delete (k : str).
Definition multimap := str -> list json.
Definition put (k : str) (l : list json) (m : multimap) : multimap := fun k' => if str_eqb k' k then l else m k'.
Definition spec_object_op (m : multimap) (o : object_op) : multimap :=
  match o with
  | Insert k v => put k [v] m
  | Append k v => put k (m k ++ [v]) m
  | Delete k => put k [] m
  end.
(** The code. *)
Definition run_object_op (j : json) (o : object_op) : json * res unit :=
  match o with Insert k v => insert j k v | Append k v => append j k v | Delete k => delete j k end.
(** A history: the value after it, and whether every operation returned Ok. *)
Fixpoint run_object (j : json) (l : list object_op) : json * bool :=
  match l with
  | [] => (j, true)
  | o :: r => match run_object_op j o with
              | (j', Ok _) => run_object j' r
              | (j', _) => (j', false)
              end
  end.
Lemma object_op_step o op : keys_sorted o = true -> exists o', run_object_op (JObj o) op = (JObj o', Ok tt) /\ keys_sorted o' = true /\
  forall k, values_at k (JObj o') = spec_object_op (fun k => values_at k (JObj o)) op k.
Proof.
  intros Hs. destruct op as [k v|k v|k]; cbn [run_object_op insert append delete add_option spec_object_op].
  - eexists; split; [reflexivity|]. split; [now apply hm_insert_sorted|]. intros k'. unfold put. rewrite values_at_get, hm_get_insert by auto.
    destruct (str_eqb k' k); auto. now rewrite values_at_get.
  - eexists; split; [reflexivity|]. split; [now apply object_insert_sorted|]. intros k'. unfold put. rewrite !values_at_get, object_insert_get by auto.
    destruct (str_eqb k' k) eqn:E; auto. apply str_eqb_eq in E as ->. destruct (hm_get k o) as [[x l]|]; reflexivity.
  - eexists; split; [reflexivity|]. split; [now apply hm_remove_sorted|]. intros k'. unfold put. rewrite values_at_get, hm_get_remove by auto.
    destruct (str_eqb k' k); auto. now rewrite values_at_get.
Qed.
Lemma spec_object_ext op m m' : (forall k, m k = m' k) -> forall k, spec_object_op m op k = spec_object_op m' op k.
Proof. intros H k. destruct op; cbn; unfold put; rewrite ?H; destruct (str_eqb k _); auto. Qed.
Lemma spec_run_ext l : forall m m', (forall k, m k = m' k) -> forall k, fold_left spec_object_op l m k = fold_left spec_object_op l m' k.
Proof. induction l as [|op l IH]; intros m m' H k; cbn; auto. apply IH. now apply spec_object_ext. Qed.
Theorem objects_are_multimaps l : forall o, keys_sorted o = true -> exists o', run_object (JObj o) l = (JObj o', true) /\ keys_sorted o' = true /\
  forall k, values_at k (JObj o') = fold_left spec_object_op l (fun k => values_at k (JObj o)) k.
Proof.
  induction l as [|op l IH]; intros o Hs; cbn [run_object fold_left].
  - exists o. auto.
  - destruct (object_op_step o op Hs) as (o1 & -> & Hs1 & H1). destruct (IH o1 Hs1) as (o2 & -> & Hs2 & H2).
    exists o2. repeat split; auto. intros k. rewrite H2. now apply spec_run_ext.
Qed.
(** Reading: index_and_merge lists the values of a key, find, get and indexing see the newest. *)
Theorem object_lookup o k :
  match values_at k (JObj o) with
  | [] => (exists e, index_and_merge (JObj o) k = Err e /\ kind e = MissingKey) /\ (exists e, f_find (Key k) (JObj o) = Err e /\ kind e = MissingKey)
  | _ :: _ => index_and_merge (JObj o) k = Ok (values_at k (JObj o)) /\ f_find (Key k) (JObj o) = Ok (last (values_at k (JObj o)) JNull)
  end.
Proof.
  rewrite values_at_get. cbn [index_and_merge f_find]. destruct (hm_get k o) as [[v l]|].
  - destruct (rev l ++ [v]) as [|y r] eqn:E; [symmetry in E; now apply app_cons_not_nil in E|]. rewrite <- E. split; auto. now rewrite last_last.
  - split; eexists; (split; [reflexivity|reflexivity]).
Qed.
(** An object is determined by its multimap. *)
Theorem object_determined_by_values o o' : wf (JObj o) = true -> wf (JObj o') = true ->
  (forall k, values_at k (JObj o) = values_at k (JObj o')) -> o = o'.
Proof.
  cbn [wf]. rewrite !andb_true_iff. intros [Hs _] [Hs' _] H. apply hm_ext; auto. intros k. specialize (H k). rewrite !values_at_get in H.
  destruct (hm_get k o) as [[v l]|], (hm_get k o') as [[v' l']|]; auto.
  - apply app_inj_tail in H as [H ->]. apply (f_equal (@rev json)) in H. rewrite !rev_involutive in H. now subst.
  - symmetry in H. now apply app_cons_not_nil in H.
  - now apply app_cons_not_nil in H.
Qed.
(** The object! macro. *)
Theorem object_macro_values l : exists o, object_macro l = JObj o /\ keys_sorted o = true /\ forall k, values_at k (JObj o) = values_of k l.
Proof.
  unfold object_macro. assert (G : forall l o, keys_sorted o = true -> exists o', fold_left (fun j kv => fst (append j (fst kv) (snd kv))) l (JObj o) = JObj o' /\
    keys_sorted o' = true /\ forall k, values_at k (JObj o') = values_at k (JObj o) ++ values_of k l).
  { clear l. induction l as [|[k v] l IH]; intros o Hs; cbn [fold_left fst snd].
    - exists o. repeat split; auto. intros k. unfold values_of. cbn. now rewrite app_nil_r.
    - destruct (object_op_step o (Append k v) Hs) as (o1 & E1 & Hs1 & H1). cbn [run_object_op] in E1. rewrite E1. cbn [fst].
      destruct (IH o1 Hs1) as (o2 & -> & Hs2 & H2). exists o2. repeat split; auto. intros k'. rewrite H2, H1. cbn [spec_object_op]. unfold put, values_of. cbn [filter fst].
      destruct (str_eqb k' k) eqn:E; [|auto]. apply str_eqb_eq in E as ->. cbn [map snd]. now rewrite <- app_assoc. }
  destruct (G l [] eq_refl) as (o & -> & Hs & H). exists o. repeat split; auto.
Qed.
Example object_history : run_object (JObj []) [Append (lit "k") JNull; Append (lit "k") (JBool true); Insert (lit "x") JNull; Delete (lit "x")] =
  (JObj [(lit "k", (JBool true, [JNull]))], true).
Proof. vm_compute. reflexivity. Qed.
(** On anything but an object these operations fail with InvalidValueKind and change nothing. *)
Theorem object_ops_need_objects j op : (forall o, j <> JObj o) -> exists e, run_object_op j op = (j, Err e) /\ kind e = InvalidValueKind.
Proof. intros H. destruct j; try (now destruct (H o)); destruct op; eexists; split; reflexivity. Qed.

(** * C27 *)
Inductive array_op := Push (x : json) | Replace (i : N) (x : json) | Remove (i : N).
Inductive outcome := Done | OutOfRange | Panics.
Definition spec_array_op (v : list json) (o : array_op) : list json * outcome :=
  match o with
  | Push x => (v ++ [x], Done)
  | Replace i x => if i <? N.of_nat (List.length v) then (firstn (N.to_nat i) v ++ x :: skipn (S (N.to_nat i)) v, Done) else (v, OutOfRange)
  | Remove i => if i <? N.of_nat (List.length v) then (firstn (N.to_nat i) v ++ skipn (S (N.to_nat i)) v, Done) else (v, Panics)
  end.
Definition run_array_op (j : json) (o : array_op) : json * res unit :=
  match o with Push x => push j x | Replace i x => replace j i x | Remove i => remove j i end.
Definition outcome_of (r : res unit) (o : outcome) : Prop :=
  match o with
  | Done => r = Ok tt
  | OutOfRange => exists e, r = Err e /\ kind e = IndexOutOfRange
  | Panics => r = Panic
  end.
Lemma vec_set_spec i x v : (i < List.length v)%nat -> vec_set i x v = firstn i v ++ x :: skipn (S i) v.
Proof. revert v; induction i as [|i IH]; intros [|y v] H; cbn in *; try lia; auto. f_equal. rewrite IH by lia. reflexivity. Qed.
Theorem array_op_is_list_op v op : exists r, run_array_op (JArr v) op = (JArr (fst (spec_array_op v op)), r) /\ outcome_of r (snd (spec_array_op v op)).
Proof.
  destruct op as [x|i x|i]; cbn [run_array_op push replace remove spec_array_op].
  - eexists; split; reflexivity.
  - unfold vec_get, vlen. destruct (N.ltb_spec i (N.of_nat (List.length v))) as [H|H].
    + destruct (nth_error v (N.to_nat i)) eqn:E; [|apply nth_error_None in E; lia]. rewrite vec_set_spec by lia. eexists; split; reflexivity.
    + eexists; split; [reflexivity|]. eexists; split; reflexivity.
  - unfold vlen. destruct (N.ltb_spec i (N.of_nat (List.length v))) as [H|H].
    + rewrite vec_remove_spec. eexists; split; reflexivity.
    + eexists; split; reflexivity.
Qed.
(** Histories: errors are survived, a panic ends the history. *)
Fixpoint spec_array (v : list json) (l : list array_op) : list json * bool :=
  match l with
  | [] => (v, true)
  | o :: r => match spec_array_op v o with (v', Panics) => (v', false) | (v', _) => spec_array v' r end
  end.
Fixpoint run_array (j : json) (l : list array_op) : json * bool :=
  match l with
  | [] => (j, true)
  | o :: r => match run_array_op j o with (j', Ok _) | (j', Err _) => run_array j' r | (j', _) => (j', false) end
  end.
Theorem arrays_are_sequences l : forall v, run_array (JArr v) l = (JArr (fst (spec_array v l)), snd (spec_array v l)).
Proof.
  induction l as [|op l IH]; intros v; cbn [run_array spec_array]; auto.
  destruct (array_op_is_list_op v op) as (r & -> & H). destruct (spec_array_op v op) as [v' []]; cbn [fst snd outcome_of] in *.
  - subst r. apply IH.
  - destruct H as (e & -> & _). apply IH.
  - subst r. reflexivity.
Qed.
Theorem array_ops_need_arrays j op : (forall v, j <> JArr v) -> exists e, run_array_op j op = (j, Err e) /\ kind e = InvalidValueKind.
Proof. intros H. destruct j; try (now destruct (H v)); destruct op; eexists; split; reflexivity. Qed.
Theorem array_macro_elements l : array_macro l = JArr l.
Proof.
  unfold array_macro. f_equal. assert (G : forall l v, fold_left (fun v (x : json) => v ++ [x]) l v = v ++ l).
  { clear l. induction l as [|x l IH]; intros v; cbn; [now rewrite app_nil_r|]. now rewrite IH, <- app_assoc. }
  apply G.
Qed.
Example array_history : run_array (JArr []) [Push JNull; Replace 0 (JBool true); Replace 7 JNull; Push JNull; Remove 0; Remove 5; Push JNull] = (JArr [JNull], false).
Proof. vm_compute. reflexivity. Qed.

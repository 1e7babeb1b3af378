(** C57: how deep the parser recurses. *)
From Verif Require Import Base F64 Utf8 Json Parse Print SpecGrammar MapProofs Utf8Proofs StringProofs NumberProofs ScanProofs PropsParse PropsPrint SpecLenient SpecDepth.
From Coq Require Import ZifyBool ZifyNat ZifyN.

(** ** The level of a text that is put together piece by piece *)
Definition lv (c : N) : Z := if (c =? 91) || (c =? 123) then 1%Z else if (c =? 93) || (c =? 125) then (-1)%Z else 0%Z.
Inductive built : str -> Z -> Z -> Prop :=
| b_nil : built [] 0 0
| b_chr a n h c : c <> 92 -> built a n h -> built (a ++ [c]) (n + lv c) (Z.max h (n + lv c))
| b_esc a n h e : built a n h -> built (a ++ [92; e]) n h.
Lemma height_nonneg s : (0 <= height s)%Z.
Proof.
  remember (List.length s) as n eqn:Hn. revert s Hn. induction n as [n IH] using lt_wf_ind. intros s ->. destruct s as [|c r]; cbn [height]; [lia|].
  destruct (c =? 92). { destruct r as [|e r]; [lia|]. eapply (IH (List.length r)); auto. cbn. lia. }
  assert (0 <= height r)%Z by (eapply (IH (List.length r)); auto; cbn; lia). destruct (_ || _); [lia|]. destruct (_ || _); lia.
Qed.
Lemma height_cons c s : c <> 92 -> height (c :: s) = Z.max 0 (lv c + height s).
Proof.
  intros H. cbn [height]. pose proof (height_nonneg s). replace (c =? 92) with false by (symmetry; apply N.eqb_neq; auto). unfold lv.
  destruct (_ || _); [lia|]. destruct (_ || _); lia.
Qed.
Lemma height_built a n h : built a n h -> (n <= h /\ 0 <= h)%Z /\ forall s, height (a ++ s) = Z.max h (n + height s).
Proof.
  induction 1 as [|a n h c Hc B [[Hn Hh] IH]|a n h e B [Hn IH]].
  - split; [lia|]. intros s. cbn. pose proof (height_nonneg s). lia.
  - split; [lia|]. intros s. rewrite <- app_assoc, IH. cbn [app]. rewrite height_cons by auto. pose proof (height_nonneg s). lia.
  - split; [lia|]. intros s. rewrite <- app_assoc, IH. reflexivity.
Qed.
Lemma height_of_built a n h : built a n h -> height a = h.
Proof. intros B. destruct (height_built a n h B) as [[H H'] E]. specialize (E []). rewrite app_nil_r in E. rewrite E. cbn. lia. Qed.

#[local] Arguments height : simpl never.
Section Loops.
Variable rec : str -> res json.
Variable H : Z.
Hypothesis Hrec : forall t, (height t <= H)%Z -> total (rec t).
Lemma built_total a n h : built a n h -> (h <= H)%Z -> total (rec a).
Proof. intros B L. apply Hrec. now rewrite (height_of_built _ _ _ B). Qed.
Lemma arr_depth s : forall i j inner acc h, built inner i h -> (h <= H)%Z -> (i + height s <= H)%Z -> total (arr_loop rec i j inner acc s).
Proof.
  remember (List.length s) as n eqn:Hn. revert s Hn. induction n as [n IH0] using lt_wf_ind. intros s -> i j inner acc h B Hh Hs.
  assert (IH : forall s' i j inner acc h, (List.length s' < List.length s)%nat -> built inner i h -> (h <= H)%Z -> (i + height s' <= H)%Z -> total (arr_loop rec i j inner acc s'))
    by (intros; eapply IH0; eauto). clear IH0.
  assert (Hr : total (rec inner)) by (eapply built_total; eauto).
  destruct s as [|c r]; cbn [arr_loop]; [exact I|].
  destruct ((c =? 93) && _). { destruct (rec inner); cbn in *; auto. pose proof (trailing_total ParseArrayError r). destruct (trailing _ _); cbn; auto. }
  destruct ((c =? 44) && _) eqn:Ec.
  { destruct inner; cbn; auto. destruct (match r with [] => _ | _ => _ end); cbn; auto.
    destruct (rec _); cbn in *; auto. assert (c = 44 /\ i = 0%Z) as [-> ->] by lia. rewrite height_cons in Hs by discriminate. change (lv 44) with 0%Z in Hs. pose proof (height_nonneg r).
    eapply IH; [cbn; lia|constructor|lia|lia]. }
  destruct (c =? 92) eqn:E92.
  { apply N.eqb_eq in E92. subst c. cbn [N.eqb Pos.eqb orb]. destruct r as [|e r1]; cbn; auto. eapply IH; [cbn; lia|apply b_esc; eauto|auto|exact Hs]. }
  apply N.eqb_neq in E92. rewrite height_cons in Hs by auto. pose proof (height_nonneg r) as Hp.
  pose proof (b_chr _ _ _ c E92 B) as B'. unfold lv in *.
  destruct (c =? 34) eqn:E34.
  { apply N.eqb_eq in E34. subst. cbn [N.eqb Pos.eqb orb] in *. rewrite Z.add_0_r in B'. eapply IH; [cbn; lia|exact B'|lia|lia]. }
  destruct ((c =? 91) || (c =? 123)). { eapply IH; [cbn; lia|exact B'|lia|lia]. }
  destruct ((c =? 93) || (c =? 125)). { eapply IH; [cbn; lia|exact B'|lia|lia]. }
  rewrite Z.add_0_r in B'. destruct ((i =? 0)%Z && (j =? 0)%Z && is_whitespace c); (eapply IH; [cbn; lia|eauto|lia|lia]).
Qed.
Lemma obj_depth s : forall i j k v (b : bool) m h h', (if b then built k i h /\ v = [] else exists nk, built k nk h /\ built v i h') -> (h <= H)%Z -> (h' <= H)%Z -> (0 <= H)%Z -> (i + height s <= H)%Z ->
  total (obj_loop rec i j k v b m s).
Proof.
  remember (List.length s) as n eqn:Hn. revert s Hn. induction n as [n IH0] using lt_wf_ind. intros s -> i j k v b m h h' B Hh Hh' H0 Hs.
  assert (IH : forall s' i j k v (b : bool) m h h', (List.length s' < List.length s)%nat -> (if b then built k i h /\ v = [] else exists nk, built k nk h /\ built v i h') -> (h <= H)%Z -> (h' <= H)%Z -> (0 <= H)%Z -> (i + height s' <= H)%Z ->
    total (obj_loop rec i j k v b m s')) by (intros; eapply IH0; eauto). clear IH0.
  assert (Hrk : total (rec k)) by (destruct b; [destruct B as [B _]|destruct B as (nk & B & _)]; eapply built_total; eauto).
  assert (Hrv : total (rec v)) by (destruct b; [destruct B as [_ ->]; apply (built_total [] 0 0); [constructor|lia]|destruct B as (nk & _ & B); eapply built_total; eauto]).
  destruct s as [|c r]; cbn [obj_loop]; [exact I|].
  destruct ((c =? 125) && _).
  { destruct (rec k) as [[]| | |]; cbn in *; auto. destruct (rec v); cbn in *; auto. pose proof (trailing_total ParseObjectError r). destruct (trailing _ _); cbn; auto. }
  destruct ((c =? 44) && _) eqn:Ec.
  { destruct k; cbn; auto. destruct v; cbn; auto. destruct (match r with [] => _ | _ => _ end); cbn; auto.
    destruct (rec (n :: k)) as [[]| | |]; cbn in *; auto. destruct (rec (n0 :: v)); cbn in *; auto.
    assert (c = 44 /\ i = 0%Z) as [-> ->] by lia. rewrite height_cons in Hs by discriminate. change (lv 44) with 0%Z in Hs. pose proof (height_nonneg r).
    apply (IH r 0%Z j [] [] true _ 0%Z 0%Z); try lia. split; [constructor|auto]. }
  destruct ((c =? 58) && _) eqn:E58.
  { assert (c = 58 /\ i = 0%Z) as [-> ->] by lia. rewrite height_cons in Hs by discriminate. change (lv 58) with 0%Z in Hs. pose proof (height_nonneg r).
    destruct b; [destruct B as [B ->]; apply (IH r 0%Z j k [] false m h 0%Z); try (cbn; lia); exists 0%Z; split; [auto|constructor]|apply (IH r 0%Z j k v false m h h'); auto; (cbn; lia)]. }
  assert (Step : forall i' j' x s', (List.length s' < S (List.length r))%nat -> (forall a n h0, built a n h0 -> n = i -> (h0 <= H)%Z -> exists h1, built (a ++ x) i' h1 /\ (h1 <= H)%Z) -> (i' + height s' <= H)%Z ->
     total (obj_loop rec i' j' (fst (if b then (k ++ x, v) else (k, v ++ x))) (snd (if b then (k ++ x, v) else (k, v ++ x))) b m s')).
  { intros i' j' x s' Hl Hb Hi. destruct b; cbn [fst snd].
    - destruct B as [B ->]. destruct (Hb _ _ _ B eq_refl Hh) as (h1 & B1 & L1). apply (IH s' i' j' _ [] true m h1 0%Z); auto.
    - destruct B as (nk & Bk & Bv). destruct (Hb _ _ _ Bv eq_refl Hh') as (h1 & B1 & L1). apply (IH s' i' j' _ _ false m h h1); eauto. }
  destruct (c =? 92) eqn:E92.
  { apply N.eqb_eq in E92. subst c. cbn [N.eqb Pos.eqb orb]. destruct r as [|e r1]; [exact I|]. apply Step; [cbn; lia| |exact Hs]. intros a n h0 Ba -> L. exists h0. split; auto. now apply b_esc. }
  apply N.eqb_neq in E92. rewrite height_cons in Hs by auto. pose proof (height_nonneg r) as Hp.
  assert (Chr : forall a n h0, built a n h0 -> n = i -> (h0 <= H)%Z -> exists h1, built (a ++ [c]) (i + lv c) h1 /\ (h1 <= H)%Z).
  { intros a n h0 Ba -> L. exists (Z.max h0 (i + lv c)). split; [now apply b_chr|]. lia. }
  unfold lv in Hs, Chr.
  destruct (c =? 34) eqn:E34.
  { apply N.eqb_eq in E34. subst. cbn [N.eqb Pos.eqb orb] in *. rewrite Z.add_0_r in Chr. apply Step; auto. lia. }
  destruct ((c =? 91) || (c =? 123)). { apply Step; auto. lia. }
  destruct ((c =? 93) || (c =? 125)). { apply Step; auto. lia. }
  rewrite Z.add_0_r in Chr. destruct ((i =? 0)%Z && (j =? 0)%Z && is_whitespace c); [|apply Step; auto; lia]. apply (IH r i j k v b m h h'); auto; (cbn; lia).
Qed.
End Loops.
Lemma parse_depth n : forall s, (height s < Z.of_nat n)%Z -> total (parse_ n s).
Proof.
  induction n as [|n IH]; intros s Hs; [pose proof (height_nonneg s); lia|]. cbn [parse_].
  destruct s as [|c r]; [exact I|].
  destruct (c =? 110). { unfold parse_null. destruct (str_eqb _ _); exact I. }
  destruct (_ || _). { unfold parse_boolean. destruct (str_eqb _ _); [exact I|]. destruct (str_eqb _ _); exact I. }
  destruct (_ || _). { apply parse_number_total. }
  destruct (c =? 34). { apply string_loop_total. }
  destruct (c =? 91) eqn:E.
  { apply N.eqb_eq in E. subst. rewrite height_cons in Hs by discriminate. change (lv 91) with 1%Z in Hs. unfold parse_array. cbn [tl]. destruct (match r with [] => _ | _ => _ end); [exact I|].
    apply (arr_depth _ (height r)) with (h := 0%Z); [intros; apply IH; lia|constructor|apply height_nonneg|lia]. }
  destruct (c =? 123) eqn:E'.
  { apply N.eqb_eq in E'. subst. rewrite height_cons in Hs by discriminate. change (lv 123) with 1%Z in Hs. unfold parse_object. cbn [tl]. destruct (match r with [] => _ | _ => _ end); [exact I|].
    pose proof (height_nonneg r). apply (obj_depth _ (height r)) with (h := 0%Z) (h' := 0%Z); [intros; apply IH; lia|split; [constructor|auto]|lia|lia|lia|lia]. }
  exact I.
Qed.

(** ** More fuel changes nothing *)
Definition below (x y : res json) : Prop := x = Fuel \/ x = y.
Lemma below_refl x : below x x. Proof. now right. Qed.
Lemma arr_below rec rec' s : (forall t, below (rec t) (rec' t)) -> forall i j inner acc, below (arr_loop rec i j inner acc s) (arr_loop rec' i j inner acc s).
Proof.
  intros Hr. remember (List.length s) as n eqn:Hn. revert s Hn. induction n as [n IH0] using lt_wf_ind. intros s -> i j inner acc.
  assert (IH : forall s' i j inner acc, (List.length s' < List.length s)%nat -> below (arr_loop rec i j inner acc s') (arr_loop rec' i j inner acc s')) by (intros; eapply IH0; eauto). clear IH0.
  destruct s as [|c r]; cbn [arr_loop]; [apply below_refl|].
  destruct ((c =? 93) && _). { destruct (Hr inner) as [E|E]; rewrite E; [now left|apply below_refl]. }
  destruct ((c =? 44) && _). { destruct inner; [apply below_refl|]. destruct (match r with [] => _ | _ => _ end); [apply below_refl|]. destruct (Hr (n :: inner)) as [E|E]; rewrite E; [now left|].
    destruct (rec' _); try apply below_refl. apply IH. cbn. lia. }
  destruct (c =? 34). { apply IH. cbn. lia. }
  destruct ((c =? 91) || _). { apply IH. cbn. lia. }
  destruct ((c =? 93) || _). { apply IH. cbn. lia. }
  destruct (c =? 92). { destruct r; [apply below_refl|]. apply IH. cbn. lia. }
  destruct (_ && is_whitespace c); apply IH; cbn; lia.
Qed.
Lemma obj_below rec rec' s : (forall t, below (rec t) (rec' t)) -> forall i j k v b m, below (obj_loop rec i j k v b m s) (obj_loop rec' i j k v b m s).
Proof.
  intros Hr. remember (List.length s) as n eqn:Hn. revert s Hn. induction n as [n IH0] using lt_wf_ind. intros s -> i j k v b m.
  assert (IH : forall s' i j k v b m, (List.length s' < List.length s)%nat -> below (obj_loop rec i j k v b m s') (obj_loop rec' i j k v b m s')) by (intros; eapply IH0; eauto). clear IH0.
  destruct s as [|c r]; cbn [obj_loop]; [apply below_refl|].
  destruct ((c =? 125) && _). { destruct (Hr k) as [E|E]; rewrite E; [now left|]. destruct (rec' k) as [[]| | |]; try apply below_refl. destruct (Hr v) as [E'|E']; rewrite E'; [now left|apply below_refl]. }
  destruct ((c =? 44) && _). { destruct k as [|k0 k]; [apply below_refl|]. destruct v as [|v0 v]; [apply below_refl|]. destruct (match r with [] => _ | _ => _ end); [apply below_refl|].
    destruct (Hr (k0 :: k)) as [E|E]; rewrite E; [now left|]. destruct (rec' (k0 :: k)) as [[]| | |]; try apply below_refl. destruct (Hr (v0 :: v)) as [E'|E']; rewrite E'; [now left|].
    destruct (rec' _); try apply below_refl. apply IH. cbn. lia. }
  destruct ((c =? 58) && _). { apply IH. cbn. lia. }
  destruct (c =? 34). { apply IH. cbn. lia. }
  destruct ((c =? 91) || _). { apply IH. cbn. lia. }
  destruct ((c =? 93) || _). { apply IH. cbn. lia. }
  destruct (c =? 92). { destruct r; [apply below_refl|]. apply IH. cbn. lia. }
  destruct (_ && is_whitespace c); apply IH; cbn; lia.
Qed.
Lemma parse_below n : forall m s, (n <= m)%nat -> below (parse_ n s) (parse_ m s).
Proof.
  induction n as [|n IH]; intros m s L; [now left|]. destruct m as [|m]; [lia|]. cbn [parse_]. destruct s as [|c r]; [apply below_refl|].
  destruct (c =? 110); [apply below_refl|]. destruct ((c =? 116) || _); [apply below_refl|]. destruct ((c =? 45) || _); [apply below_refl|]. destruct (c =? 34); [apply below_refl|].
  destruct (c =? 91). { unfold parse_array. destruct (match tl _ with [] => _ | _ => _ end); [apply below_refl|]. apply arr_below. intros t. apply IH. lia. }
  destruct (c =? 123). { unfold parse_object. destruct (match tl _ with [] => _ | _ => _ end); [apply below_refl|]. apply obj_below. intros t. apply IH. lia. }
  apply below_refl.
Qed.
Lemma total_not_fuel (x : res json) : total x -> x <> Fuel.
Proof. intros T ->. exact T. Qed.
Lemma parse_fuel_irrelevant n m s : parse_ n s <> Fuel -> parse_ m s <> Fuel -> parse_ n s = parse_ m s.
Proof.
  intros A B. destruct (Nat.le_ge_cases n m) as [L|L].
  - destruct (parse_below n m s L); congruence.
  - destruct (parse_below m n s L); congruence.
Qed.

(** ** A nested value needs as many calls *)
Definition nests (n : nat) (l : list json) : Prop := Forall (fun x => (nesting x <= n)%nat) l.
Definition nestm (n : nat) (o : hmap) : Prop := Forall (fun e : entry => (nesting (fst (snd e)) <= n)%nat /\ nests n (snd (snd e))) o.
Lemma fold_max_le {A} (f : A -> nat) l n : Forall (fun x => (f x <= n)%nat) l -> (fold_right (fun x n => Nat.max (f x) n) 0%nat l <= n)%nat.
Proof. induction 1; cbn; lia. Qed.
Lemma nesting_arr n v : nests n v -> (nesting (JArr v) <= S n)%nat.
Proof. intros F. cbn. apply le_n_S. now apply (fold_max_le nesting). Qed.
Lemma nesting_obj n o : nestm n o -> (nesting (JObj o) <= S n)%nat.
Proof.
  intros F. cbn. apply le_n_S. apply (fold_max_le (fun e : entry => Nat.max (nesting (fst (snd e))) (fold_right (fun x n => Nat.max (nesting x) n) 0%nat (snd (snd e))))).
  eapply Forall_impl; [|exact F]. intros e [A B]. apply (fold_max_le nesting) in B. cbn in *. lia.
Qed.
Lemma nestm_insert n m k x : nestm n m -> (nesting x <= n)%nat -> nestm n (object_insert m k x).
Proof.
  intros F L. unfold object_insert. apply Forall_forall. intros e I. unfold nestm in F. rewrite Forall_forall in F.
  destruct (hm_get k m) as [[y l]|] eqn:G; apply hm_insert_In in I; destruct I as [->|I]; auto; cbn.
  - apply hm_get_In in G. destruct (F _ G) as [A B]. cbn in *. split; [lia|]. constructor; auto.
  - split; [lia|constructor].
Qed.
Lemma arr_nest rec n s : (forall t x, rec t = Ok x -> (nesting x <= n)%nat) -> forall i j inner acc v, nests n acc -> arr_loop rec i j inner acc s = Ok v -> (nesting v <= S n)%nat.
Proof.
  intros Hr. remember (List.length s) as N eqn:Hn. revert s Hn. induction N as [N IH0] using lt_wf_ind. intros s -> i j inner acc v F.
  assert (IH : forall s' i j inner acc v, (List.length s' < List.length s)%nat -> nests n acc -> arr_loop rec i j inner acc s' = Ok v -> (nesting v <= S n)%nat) by (intros; eapply IH0; eauto). clear IH0.
  assert (IH' : forall s' i j inner acc, nests n acc -> (List.length s' < List.length s)%nat -> arr_loop rec i j inner acc s' = Ok v -> (nesting v <= S n)%nat) by eauto. clear IH.
  destruct s as [|c r]; cbn [arr_loop]; [discriminate|]. cbn [List.length] in IH'.
  destruct ((c =? 93) && _). { destruct (rec inner) eqn:E; try discriminate. destruct (trailing _ r); try discriminate. intros [= <-]. apply nesting_arr. apply Forall_app. split; auto. repeat constructor. eauto. }
  destruct ((c =? 44) && _). { destruct inner; [discriminate|]. destruct (match r with [] => _ | _ => _ end); [discriminate|]. destruct (rec _) eqn:E; try discriminate. apply IH'; [|lia]. apply Forall_app. split; auto. repeat constructor. eauto. }
  destruct (c =? 34). { apply IH'; auto. }
  destruct ((c =? 91) || _). { apply IH'; auto. }
  destruct ((c =? 93) || _). { apply IH'; auto. }
  destruct (c =? 92). { destruct r; [discriminate|]. apply IH'; auto. }
  destruct (_ && is_whitespace c); apply IH'; auto.
Qed.
Lemma obj_nest rec n s : (forall t x, rec t = Ok x -> (nesting x <= n)%nat) -> forall i j k x b m v, nestm n m -> obj_loop rec i j k x b m s = Ok v -> (nesting v <= S n)%nat.
Proof.
  intros Hr. remember (List.length s) as N eqn:Hn. revert s Hn. induction N as [N IH0] using lt_wf_ind. intros s -> i j k x b m v F.
  assert (IH' : forall s' i j k x b m, nestm n m -> (List.length s' < List.length s)%nat -> obj_loop rec i j k x b m s' = Ok v -> (nesting v <= S n)%nat) by (intros; eapply IH0; eauto). clear IH0.
  destruct s as [|c r]; cbn [obj_loop]; [discriminate|]. cbn [List.length] in IH'.
  destruct ((c =? 125) && _). { destruct (rec k) as [[]| | |]; try discriminate. destruct (rec x) eqn:E; try discriminate. destruct (trailing _ r); try discriminate. intros [= <-]. apply nesting_obj. apply nestm_insert; eauto. }
  destruct ((c =? 44) && _). { destruct k; [discriminate|]. destruct x; [discriminate|]. destruct (match r with [] => _ | _ => _ end); [discriminate|]. destruct (rec (n0 :: k)) as [[]| | |]; try discriminate.
    destruct (rec _) eqn:E; try discriminate. apply IH'; [|lia]. apply nestm_insert; eauto. }
  destruct ((c =? 58) && _). { apply IH'; auto. }
  destruct (c =? 34). { apply IH'; auto. }
  destruct ((c =? 91) || _). { apply IH'; auto. }
  destruct ((c =? 93) || _). { apply IH'; auto. }
  destruct (c =? 92). { destruct r; [discriminate|]. apply IH'; auto. }
  destruct (_ && is_whitespace c); apply IH'; auto.
Qed.
Definition flat (x : res json) : Prop := match x with Ok v => nesting v = 1%nat | _ => True end.
Lemma hex_step_flat u s k : (forall u' r, (List.length r < List.length s)%nat -> flat (k u' r)) -> flat (hex_step u s k).
Proof. intros H. unfold hex_step. destruct s as [|c r]; [exact I|]. destruct (parse_hex_digit c); try exact I. apply H. cbn. lia. Qed.
Lemma hex4_flat s k : (forall u' r, (List.length r < List.length s)%nat -> flat (k u' r)) -> flat (hex4 s k).
Proof. intros H. unfold hex4. repeat (apply hex_step_flat; intros). apply H. lia. Qed.
Lemma string_nest s : forall acc, flat (string_loop acc s).
Proof.
  remember (List.length s) as n eqn:Hn. revert s Hn.
  induction n as [n IH] using lt_wf_ind. intros s -> acc.
  destruct s as [|c r]; cbn [string_loop]; [exact I|].
  destruct (c =? 34). { destruct (trailing _ _); cbn; auto. }
  destruct (c =? 92).
  - destruct r as [|e r1]; [exact I|].
    repeat (match goal with |- flat (if ?b then _ else _) => destruct b end;
            [try (eapply IH; [|reflexivity]; cbn; lia)|]); [|exact I].
    apply hex4_flat. intros u r2 Hr2.
    assert (P : forall u' r', (List.length r' <= List.length r2)%nat -> flat (push_code u' acc (fun acc' => string_loop acc' r'))).
    { intros u' r' Hr'. unfold push_code. destruct (from_utf8 _); [|exact I].
      eapply IH; [|reflexivity]; cbn; lia. }
    destruct (_ && _); [|apply P; lia].
    destruct r2 as [|b [|u' r3]]; try exact I.
    destruct (_ && _); [|exact I].
    apply hex4_flat. intros u2 r4 Hr4. destruct (_ || _); [exact I|]. apply P. cbn in *; lia.
  - destruct (c <=? 31); [exact I|]. eapply IH; [|reflexivity]; cbn; lia.
Qed.
Lemma parse_nest n : forall s v, parse_ n s = Ok v -> (nesting v <= n)%nat.
Proof.
  induction n as [|n IH]; intros s v; [discriminate|]. cbn [parse_]. destruct s as [|c r]; [discriminate|].
  destruct (c =? 110). { unfold parse_null. destruct (str_eqb _ _); [|discriminate]. intros [= <-]. cbn. lia. }
  destruct ((c =? 116) || _). { unfold parse_boolean. destruct (str_eqb _ _); [intros [= <-]; cbn; lia|]. destruct (str_eqb _ _); [intros [= <-]; cbn; lia|discriminate]. }
  destruct ((c =? 45) || _). { unfold parse_number. destruct (valid_number _); [|discriminate]. destruct (f64_from_str _); [|discriminate]. destruct (is_finite _); [|discriminate]. intros [= <-]. cbn. lia. }
  destruct (c =? 34). { intros H. unfold parse_string in H. pose proof (string_nest (tl (c :: r)) []) as F. rewrite H in F. cbn in F. lia. }
  destruct (c =? 91). { unfold parse_array. destruct (match tl _ with [] => _ | _ => _ end); [intros [= <-]; cbn; lia|]. apply arr_nest; auto. constructor. }
  destruct (c =? 123). { unfold parse_object. destruct (match tl _ with [] => _ | _ => _ end); [intros [= <-]; cbn; lia|]. apply obj_nest; auto. constructor. }
  discriminate.
Qed.

(** ** C57 *)
Lemma is_ws_lv c : is_whitespace c = true -> c <> 92 /\ lv c = 0%Z.
Proof. unfold is_whitespace, lv. intros H. assert (c = 32 \/ c = 9 \/ c = 10 \/ c = 13) as [->|[->|[->| ->]]] by lia; split; (reflexivity || discriminate). Qed.
Lemma height_trim_start s : height (trim_start s) = height s.
Proof.
  induction s as [|c r IH]; auto. cbn [trim_start]. destruct (is_whitespace c) eqn:E; auto. destruct (is_ws_lv c E). rewrite height_cons by auto. pose proof (height_nonneg r). lia.
Qed.
Lemma height_ws w : forallb is_whitespace w = true -> height w = 0%Z.
Proof. induction w as [|c w IH]; auto. cbn [forallb]. rewrite andb_true_iff. intros [E F]. destruct (is_ws_lv c E). rewrite height_cons by auto. rewrite IH by auto. lia. Qed.
Lemma height_app_ws s : forall w, forallb is_whitespace w = true -> height (s ++ w) = height s.
Proof.
  remember (List.length s) as n eqn:Hn. revert s Hn. induction n as [n IH] using lt_wf_ind. intros s -> w F. destruct s as [|c r]; [exact (height_ws w F)|].
  destruct (N.eq_dec c 92) as [->|Hc].
  - destruct r as [|e r].
    + destruct w as [|e w]; auto. apply andb_true_iff in F as [_ F]. exact (height_ws w F).
    + cbn [app]. change (height (r ++ w) = height r). apply (IH (List.length r)); auto. cbn. lia.
  - cbn [app]. rewrite !height_cons by auto. now rewrite (IH (List.length r) ltac:(cbn; lia) r eq_refl w F).
Qed.
Lemma trim_start_split s : exists w, forallb is_whitespace w = true /\ s = w ++ trim_start s.
Proof. induction s as [|c r (w & F & E)]; [now exists []|]. cbn [trim_start]. destruct (is_whitespace c) eqn:Ec; [exists (c :: w); cbn; rewrite Ec, F, <- E; auto|now exists []]. Qed.
Lemma height_trim s : height (trim_ws s) = height s.
Proof.
  unfold trim_ws. rewrite <- (height_trim_start s). destruct (trim_start_split (rev (trim_start s))) as (w & F & E).
  assert (E' : trim_start s = rev (trim_start (rev (trim_start s))) ++ rev w) by (rewrite <- rev_app_distr, <- E; symmetry; apply rev_involutive).
  rewrite E' at 2. symmetry. apply height_app_ws. rewrite forallb_forall in *. intros x I. apply F. now apply in_rev.
Qed.
Lemma height_openings s : (height s <= Z.of_nat (openings s))%Z.
Proof.
  remember (List.length s) as n eqn:Hn. revert s Hn. induction n as [n IH] using lt_wf_ind. intros s ->. destruct s as [|c r]; [change (height []) with 0%Z; lia|].
  pose proof (IH (List.length r) ltac:(cbn; lia) r eq_refl) as A. unfold openings in *. destruct (N.eq_dec c 92) as [->|Hc].
  - destruct r as [|e r]; [change (height [92]) with 0%Z; lia|]. change (height (92 :: e :: r)) with (height r). pose proof (IH (List.length r) ltac:(cbn; lia) r eq_refl) as A'. cbn [filter N.eqb Pos.eqb orb].
    destruct (_ || _); cbn [List.length]; lia.
  - rewrite height_cons by auto. cbn [filter]. unfold lv. destruct (_ || _); cbn [List.length]; [lia|]. destruct (_ || _); lia.
Qed.
Lemma least (P : nat -> Prop) (D : forall n, {P n} + {~ P n}) n : P n -> exists m, P m /\ (m <= n)%nat /\ forall k, (k < m)%nat -> ~ P k.
Proof.
  induction n as [n IH] using lt_wf_ind. intros H. destruct (lt_dec 0 n) as [L|L]; [|exists n; repeat split; auto; intros; lia].
  assert (Q : (exists k, (k < n)%nat /\ P k) \/ forall k, (k < n)%nat -> ~ P k).
  { clear IH H L. induction n as [|n IH]; [right; intros; lia|]. destruct (D n) as [p|p]; [left; exists n; auto|]. destruct IH as [(k & A & B)|A]; [left; exists k; auto|].
    right. intros k Hk. destruct (Nat.eq_dec k n) as [->|]; auto. apply A. lia. }
  destruct Q as [(k & A & B)|A]; [|exists n; auto]. destruct (IH k A B) as (m & Pm & Hm & Q). exists m. repeat split; auto. lia.
Qed.
Lemma fuel_dec (x : res json) : {x <> Fuel} + {~ x <> Fuel}.
Proof. destruct x; [left|left|left|right]; congruence. Qed.

Lemma parse_trimmed s n : parse_ n (trim_ws s) <> Fuel -> parse_ n (trim_ws s) = parse s.
Proof. intros H. unfold parse. apply parse_fuel_irrelevant; auto. apply total_not_fuel. destruct (parse_is_total s) as [[v E]|[e E]]; unfold parse in E; rewrite E; exact I. Qed.

(** How many recursive calls are active at once while a text is read: that number exists, is at most one more than the height of the text, so at most one more than the
    number of opening brackets in it, and it is at least the nesting of the value read. *)
Theorem recursion_depth s : exists n, needs s n /\ (Z.of_nat n <= 1 + height s)%Z /\ (n <= 1 + openings s)%nat /\ forall v, parse s = Ok v -> (nesting v <= n)%nat.
Proof.
  pose proof (height_nonneg s) as Hp. pose proof (height_openings s) as Ho.
  destruct (least (fun n => parse_ n (trim_ws s) <> Fuel) (fun n => fuel_dec _) (Z.to_nat (1 + height s))) as (n & A & B & C).
  { apply total_not_fuel, parse_depth. rewrite height_trim. lia. }
  exists n. split; [|split; [lia|split; [lia|]]].
  - split; auto. intros m L. specialize (C m L). destruct (fuel_dec (parse_ m (trim_ws s))) as [D|D]; [contradiction|]. destruct (parse_ m (trim_ws s)); try reflexivity; exfalso; apply D; discriminate.
  - intros v E. apply (parse_nest n (trim_ws s)). rewrite parse_trimmed; auto.
Qed.
(** A parser allowed that many calls, or more, gives the answer of [Json::parse]; allowed fewer, it gives none. *)
Theorem enough_frames s n m : needs s n -> ((n <= m)%nat -> parse_ m (trim_ws s) = parse s) /\ ((m < n)%nat -> parse_ m (trim_ws s) = Fuel).
Proof.
  intros [A B]. split; [|auto]. intros L. destruct (parse_below n m (trim_ws s) L) as [E|E]; [contradiction|]. rewrite <- E. now apply parse_trimmed.
Qed.
Theorem needs_unique s n m : needs s n -> needs s m -> n = m.
Proof. intros [A B] [C D]. destruct (Nat.lt_trichotomy n m) as [L|[L|L]]; auto; exfalso; [apply A, D, L|apply C, B, L]. Qed.

(** There is no limit: n nested arrays need n or n + 1 calls. *)
Fixpoint arrays (n : nat) : json := match n with O => JArr [] | S m => JArr [arrays m] end.
Lemma arrays_text n : to_string (arrays n) = repeat 91 (S n) ++ repeat 93 (S n).
Proof.
  induction n as [|n IH]; [reflexivity|]. cbn [arrays to_string map join]. rewrite IH. replace (repeat 91 (S (S n))) with ([91] ++ repeat 91 (S n)) by reflexivity.
  rewrite <- !app_assoc. f_equal. f_equal. change [93] with (repeat 93 1). rewrite <- repeat_app. f_equal. lia.
Qed.
Lemma arrays_height n : forall a, height (repeat 91 n ++ repeat 93 a) = Z.of_nat n.
Proof.
  induction n as [|n IH]; intros a; cbn [repeat app].
  - induction a as [|a IH]; auto. cbn [repeat]. rewrite height_cons by discriminate. rewrite IH. reflexivity.
  - rewrite height_cons, IH by discriminate. change (lv 91) with 1%Z. lia.
Qed.
Lemma arrays_ok n : wf (arrays n) = true /\ finite (arrays n) = true /\ balanced (arrays n) = true /\ nesting (arrays n) = S n.
Proof. induction n as [|n (A & B & C & D)]; [cbn; auto|]. unfold balanced in *. cbn [arrays wf finite balanced_in forallb nesting fold_right]. rewrite A, B, D. destruct (arrays n) eqn:E; try (destruct n; discriminate). cbn [balanced_in]. cbn in C. rewrite ?C. cbn. repeat split; auto; lia. Qed.
Theorem recursion_is_not_bounded n : exists k, needs (repeat 91 (S n) ++ repeat 93 (S n)) k /\ (S n <= k <= S (S n))%nat.
Proof.
  destruct (recursion_depth (repeat 91 (S n) ++ repeat 93 (S n))) as (k & A & B & _ & C). exists k. split; auto. rewrite arrays_height in B. split; [|lia].
  destruct (arrays_ok n) as (W & F & Bl & <-). apply C. rewrite <- arrays_text. now apply print_parse_round_trip.
Qed.

(** Brackets inside strings count (the text is then rejected, or its pieces are not what they seem), and the bound is met. *)
Example depth_example :
  height (lit "{""a"": [1, {""b"": []}]}") = 4%Z /\ needs (lit "{""a"": [1, {""b"": []}]}") 4%nat /\ needs (lit "[[[1]]]") 4%nat /\ height (lit "[[[1]]]") = 3%Z /\
  height (lit "[""\[["", 1]") = 2%Z /\ needs (lit " 1 ") 1%nat.
Proof.
  assert (N : forall s n, (forallb (fun m => match parse_ m (trim_ws s) with Fuel => true | _ => false end) (seq 0 n) && match parse_ n (trim_ws s) with Fuel => false | _ => true end) = true -> needs s n).
  { intros s n H. apply andb_true_iff in H as [H H']. split; [destruct (parse_ n (trim_ws s)); congruence|]. intros m L. rewrite forallb_forall in H. specialize (H m). rewrite in_seq in H. specialize (H ltac:(lia)).
    destruct (parse_ m (trim_ws s)); congruence. }
  split; [vm_compute; reflexivity|]. split; [apply N; vm_compute; reflexivity|]. split; [apply N; vm_compute; reflexivity|]. split; [vm_compute; reflexivity|].
  split; [vm_compute; reflexivity|]. apply N; vm_compute; reflexivity.
Qed.

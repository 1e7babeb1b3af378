(** Edits of different places commute, and edits can be undone (C76, C77). *)
From Verif Require Import Base F64 Json Parse Ops Path SpecGrammar SpecPath MapProofs PathProofs PathTextProofs PreserveProofs PropsPath CommuteProofs.
From Coq Require Import ZifyBool ZifyNat ZifyN.
Open Scope N_scope.

(** * C76: edits of different places commute. *)
Lemma update_no_overflow vmax p j x : skeys j = true -> over vmax (steps p) j = false -> p_update vmax p j x = (upd (steps p) x j, Ok x).
Proof. intros Hs Ho. pose proof (p_update_upd vmax p j x Hs) as U. now rewrite Ho in U. Qed.
Theorem updates_commute vmax p q j x y j1 r1 j2 r2 : wf j = true -> wf x = true -> wf y = true -> diverges (steps p) (steps q) ->
  p_update vmax p j x = (j1, Ok r1) -> p_update vmax q j y = (j2, Ok r2) ->
  exists j', p_update vmax q j1 y = (j', Ok y) /\ p_update vmax p j2 x = (j', Ok x).
Proof.
  intros Hw Hx Hy (d & a & b & p' & q' & Ep & Eq & Hab & Hss) Hp Hq.
  destruct (update_ok _ _ _ _ _ _ Hw Hp) as (Op & -> & ->). destruct (update_ok _ _ _ _ _ _ Hw Hq) as (Oq & -> & ->).
  apply wf_skeys in Hw, Hx, Hy. pose proof (conj Hab Hss : apart a b) as A.
  exists (upd (steps q) y (upd (steps p) x j)). split.
  - apply update_no_overflow; [now apply upd_skeys|]. rewrite Ep, Eq in *. now rewrite over_upd.
  - rewrite Ep, Eq in *. rewrite <- (upd_comm d a b) by auto. rewrite <- Ep, <- Eq in *.
    apply update_no_overflow; [now apply upd_skeys|]. rewrite Ep, Eq in *. rewrite over_upd; auto using apart_sym.
Qed.
(** If they succeed in one order they succeed in the other. *)
Theorem updates_commute_in_sequence vmax p q j x y j1 r1 j2 r2 : wf j = true -> wf x = true -> wf y = true -> diverges (steps p) (steps q) ->
  p_update vmax p j x = (j1, Ok r1) -> p_update vmax q j1 y = (j2, Ok r2) ->
  exists j', p_update vmax q j y = (j', Ok y) /\ p_update vmax p j' x = (j2, Ok x).
Proof.
  intros Hw Hx Hy Hd Hp Hq. assert (E : exists j', p_update vmax q j y = (j', Ok y)).
  { destruct (update_ok _ _ _ _ _ _ Hw Hp) as (Op & E1 & _). apply wf_skeys in Hw, Hx. eexists. apply update_no_overflow; auto.
    pose proof (p_update_upd vmax q j1 y) as U. rewrite E1 in U, Hq. specialize (U (upd_skeys _ _ _ Hx Hw)).
    destruct Hd as (d & a & b & p' & q' & Ep & Eq & Hab & Hss). rewrite Ep, Eq, over_upd in U; [|split; auto|auto|now rewrite <- Ep].
    rewrite Eq. destruct (over vmax (d ++ b :: q') j); auto. destruct U as (? & U). rewrite <- Ep, Hq in U. discriminate. }
  destruct E as (j' & E). exists j'. split; auto. destruct (updates_commute _ _ _ _ _ _ _ _ _ _ Hw Hx Hy Hd Hp E) as (k & K1 & K2).
  rewrite K2. rewrite Hq in K1. now injection K1 as ->.
Qed.
Theorem sets_commute vmax s t p q j x y j1 r1 j2 r2 : wf j = true -> wf x = true -> wf y = true ->
  parse_path s = Ok p -> parse_path t = Ok q -> diverges (steps p) (steps q) ->
  set vmax j s x = (j1, Ok r1) -> set vmax j1 t y = (j2, Ok r2) ->
  exists j', set vmax j t y = (j', Ok y) /\ set vmax j' s x = (j2, Ok x).
Proof.
  intros Hw Hx Hy Es Et Hd. unfold set. destruct s as [|c s]; [discriminate|]. destruct t as [|c' t]; [discriminate|]. rewrite Es, Et.
  now apply updates_commute_in_sequence.
Qed.

Definition is_key (f : finder) : Prop := exists k, f = Key k.
Lemma discard_result p j z : walk (steps p) j = Some z -> p_discard p j = (fst (p_discard p j), Ok z).
Proof. intros H. apply find_navigates in H. rewrite <- p_discard_find in H. rewrite <- H. apply surjective_pairing. Qed.
(** Deleting the last step of a path out of an array moves the elements behind it, so there the paths must part before the last step. *)
Theorem update_and_discard_commute vmax p q d a b p' q' j x z ju r jd : wf j = true -> wf x = true ->
  steps p = d ++ a :: p' -> steps q = d ++ b :: q' -> a <> b -> same_sort a b = true -> is_key b \/ q' <> [] ->
  p_update vmax p j x = (ju, Ok r) -> p_discard q j = (jd, Ok z) ->
  exists j', p_discard q ju = (j', Ok z) /\ p_update vmax p jd x = (j', Ok x).
Proof.
  intros Hw Hx Ep Eq Hab Hss Hb Hp Hq.
  assert (Hd : diverges (steps p) (steps q)) by (exists d, a, b, p', q'; auto).
  pose proof (discard_ok _ _ _ _ Hq) as Wq. pose proof (update_keeps_other_locations _ _ _ _ _ _ _ _ Hw Hp Hd Wq) as Wu.
  destruct (update_ok _ _ _ _ _ _ Hw Hp) as (Op & -> & ->). apply wf_skeys in Hw, Hx.
  assert (Ejd : jd = fst (p_discard q j)) by now rewrite Hq.
  pose proof (discard_skeys q j Hw) as Hjd. rewrite <- Ejd in Hjd.
  assert (H : over vmax (steps p) jd = false /\ fst (p_discard q (upd (steps p) x j)) = upd (steps p) x jd).
  { destruct q' as [|g q'].
    - destruct Hb as [[k ->]|]; [|congruence]. destruct a as [k'|]; [|discriminate].
      destruct (discard_at_key q d k [] j z Hw Eq Wq) as (F & o & Wd & So & Ed).
      assert (K : k' <> k) by congruence.
      assert (Eu : upd (steps p) x j = edit d (on_members (alter k' (fun e => Some (key_fun p' x e)))) j).
      { rewrite Ep, upd_edit by congruence. apply (edit_ext d _ _ j _ Wd). apply update_key. }
      assert (Ed2 : forall h u, skeys h = true -> walk d h = Some (JObj u) -> keys_sorted u = true -> walk (steps q) h <> None -> fst (p_discard q h) = edit d (on_members (alter k (fun _ => None))) h).
      { intros h u Hh Wh Su Wz. rewrite (p_discard_edit q d (Key k) Eq h Wz). apply (edit_ext d _ _ h _ Wh). cbn [on_members]. now apply discard_key. }
      assert (Wuo : walk d (upd (steps p) x j) = Some (JObj (alter k' (fun e => Some (key_fun p' x e)) o))) by (rewrite Eu; now rewrite (edit_walk d _ j _ Hw Wd)).
      rewrite (Ed2 _ _ (upd_skeys _ _ _ Hx Hw) Wuo) by (auto using alter_sorted; congruence).
      assert (Ejd' : jd = edit d (on_members (alter k (fun _ => None))) j) by (rewrite Ejd; apply (Ed2 j o); auto; congruence).
      assert (Wdo : walk d jd = Some (JObj (alter k (fun _ => None) o))) by (rewrite Ejd'; now rewrite (edit_walk d _ j _ Hw Wd)).
      split.
      + rewrite Ep, (over_edit vmax d _ _ j _ Wd) in Op. rewrite Ep, (over_edit vmax d _ _ jd _ Wdo).
        rewrite <- Op. cbn [over over1]. rewrite !step_key, alter_get by auto. apply str_eqb_neq in K. now rewrite K.
      + assert (Eud : upd (steps p) x jd = edit d (on_members (alter k' (fun e => Some (key_fun p' x e)))) jd).
        { rewrite Ep, upd_edit by congruence. apply (edit_ext d _ _ jd _ Wdo). apply update_key. }
        rewrite Eud, Eu, Ejd'. rewrite !edit_edit by (auto; congruence). apply (edit_ext d _ _ j _ Wd). cbn [on_members]. f_equal.
        now apply alter_comm; auto.
    - destruct (discard_not_last q d b (g :: q') j z Eq) as (c & f & Ec & Wc & Ed); auto; [discriminate|].
      destruct (discard_not_last q d b (g :: q') (upd (steps p) x j) z Eq) as (c2 & f2 & Ec2 & Wc2 & Ed2); auto; [discriminate|].
      rewrite Ec in Ec2. apply app_inj_tail in Ec2 as [<- <-]. rewrite Ejd, Ed, Ed2, Ep. rewrite Ep in Op. split.
      + rewrite over_edit_apart; auto.
      + rewrite edit_upd; auto. split; auto. }
  destruct H as [Ho E]. exists (upd (steps p) x jd). split; [|now apply update_no_overflow].
  rewrite <- E. now apply discard_result.
Qed.
Theorem discards_commute p q d a b p' q' j y z jp jq : wf j = true ->
  steps p = d ++ a :: p' -> steps q = d ++ b :: q' -> a <> b -> is_key a \/ p' <> [] /\ q' <> [] ->
  p_discard p j = (jp, Ok y) -> p_discard q j = (jq, Ok z) ->
  exists j', p_discard q jp = (j', Ok z) /\ p_discard p jq = (j', Ok y).
Proof.
  intros Hw Ep Eq Hab Hc Hp Hq. pose proof (discard_ok _ _ _ _ Hp) as Wp. pose proof (discard_ok _ _ _ _ Hq) as Wq. apply wf_skeys in Hw.
  assert (Ejp : jp = fst (p_discard p j)) by now rewrite Hp. assert (Ejq : jq = fst (p_discard q j)) by now rewrite Hq.
  pose proof (discard_skeys p j Hw) as Hjp. pose proof (discard_skeys q j Hw) as Hjq. rewrite <- Ejp in Hjp. rewrite <- Ejq in Hjq.
  assert (H : walk (steps q) jp = Some z /\ walk (steps p) jq = Some y /\ fst (p_discard q jp) = fst (p_discard p jq)).
  { destruct Hc as [[k ->]|[Np Nq]].
    - assert (Kb : exists k', b = Key k').
      { rewrite Ep, walk_app in Wp. rewrite Eq, walk_app in Wq. destruct (walk d j) as [t|]; [|discriminate]. cbn [walk] in *.
        destruct b; eauto. destruct t; discriminate. }
      destruct Kb as [k' ->]. assert (K : k <> k') by congruence. assert (K' : k' <> k) by congruence.
      assert (L : forall w m w' h u o, skeys h = true -> steps w = d ++ Key m :: w' -> walk (steps w) h = Some u -> walk d h = Some (JObj o) ->
         walk d (fst (p_discard w h)) = Some (JObj (match (match w' with [] => None | _ => match hm_get m o with Some (y0, l) =>
            Some (edit (removelast w') (fun y1 => fst (f_discard (last w' (Key [])) y1)) y0, l) | None => None end end) with Some e => hm_insert m e o | None => hm_remove m o end))
         /\ fst (p_discard w h) = edit d (on_members (alter m (fun e => match w' with [] => None | _ => match e with Some (y0, l) =>
            Some (edit (removelast w') (fun y1 => fst (f_discard (last w' (Key [])) y1)) y0, l) | None => None end end))) h).
      { intros w m w' h u o Hh Ew Ww Wd. pose proof (skeys_ok _ (walk_skeys _ _ _ Hh Wd)) as So. cbn in So.
        assert (E : fst (p_discard w h) = edit d (on_members (alter m (fun e => match w' with [] => None | _ => match e with Some (y0, l) =>
            Some (edit (removelast w') (fun y1 => fst (f_discard (last w' (Key [])) y1)) y0, l) | None => None end end))) h).
        { destruct w' as [|g w'].
          - rewrite (p_discard_edit w d (Key m) Ew h) by congruence. apply (edit_ext d _ _ h _ Wd). now apply discard_key.
          - rewrite (p_discard_edit w (d ++ Key m :: removelast (g :: w')) (last (g :: w') (Key []))) by (try congruence; rewrite <- app_assoc; cbn [app]; rewrite <- app_removelast_last by discriminate; exact Ew).
            rewrite edit_app. apply (edit_ext d _ _ h _ Wd). now apply edit_key. }
        split; auto. rewrite E, (edit_walk d _ h _ Hh Wd). reflexivity. }
      assert (Wd : exists o, walk d j = Some (JObj o)).
      { rewrite Ep, walk_app in Wp. destruct (walk d j) as [t|]; [|discriminate]. cbn [walk] in *. destruct t; try discriminate. eauto. }
      destruct Wd as [o Wd]. pose proof (skeys_ok _ (walk_skeys _ _ _ Hw Wd)) as So. cbn in So.
      destruct (L p k p' j y o Hw Ep Wp Wd) as [Lp1 Lp2]. destruct (L q k' q' j z o Hw Eq Wq Wd) as [Lq1 Lq2]. rewrite <- Ejp in *. rewrite <- Ejq in *.
      assert (Wq' : walk (steps q) jp = Some z).
      { rewrite Eq, walk_app in *. rewrite Lp1. rewrite Wd in Wq. cbn [walk] in *. rewrite step_key in *.
        change (match match p' with [] => None | _ => _ end with Some e => hm_insert k e o | None => hm_remove k o end) with
          (alter k (fun e => match p' with [] => None | _ => match e with Some (y0, l) =>
            Some (edit (removelast p') (fun y1 => fst (f_discard (last p' (Key [])) y1)) y0, l) | None => None end end) o).
        rewrite alter_get by auto. apply str_eqb_neq in K'. now rewrite K'. }
      assert (Wp' : walk (steps p) jq = Some y).
      { rewrite Ep, walk_app in *. rewrite Lq1. rewrite Wd in Wp. cbn [walk] in *. rewrite step_key in *.
        change (match match q' with [] => None | _ => _ end with Some e => hm_insert k' e o | None => hm_remove k' o end) with
          (alter k' (fun e => match q' with [] => None | _ => match e with Some (y0, l) =>
            Some (edit (removelast q') (fun y1 => fst (f_discard (last q' (Key [])) y1)) y0, l) | None => None end end) o).
        rewrite alter_get by auto. apply str_eqb_neq in K. now rewrite K. }
      split; auto. split; auto.
      destruct (L q k' q' jp z _ Hjp Eq Wq' Lp1) as [_ ->]. destruct (L p k p' jq y _ Hjq Ep Wp' Lq1) as [_ ->].
      rewrite Lp2, Lq2. rewrite !edit_edit by (auto; congruence). apply (edit_ext d _ _ j _ Wd). cbn [on_members]. f_equal. apply alter_comm; auto.
    - destruct (discard_not_last p d a p' j y Ep Np Wp) as (c & f & Ec & Wc & Ed).
      destruct (discard_not_last q d b q' j z Eq Nq Wq) as (c' & f' & Ec' & Wc' & Ed').
      assert (Wq' : walk (steps q) jp = Some z) by (rewrite Ejp, Ed, Eq, edit_apart; auto; now rewrite <- Eq).
      assert (Wp' : walk (steps p) jq = Some y) by (rewrite Ejq, Ed', Ep, edit_apart; auto; now rewrite <- Ep).
      split; auto. split; auto.
      destruct (discard_not_last p d a p' jq y Ep Np Wp') as (c2 & f2 & Ec2 & _ & Ed2). rewrite Ec in Ec2. apply app_inj_tail in Ec2 as [<- <-].
      destruct (discard_not_last q d b q' jp z Eq Nq Wq') as (c3 & f3 & Ec3 & _ & Ed3). rewrite Ec' in Ec3. apply app_inj_tail in Ec3 as [<- <-].
      rewrite Ed2, Ed3, Ejp, Ejq, Ed, Ed'. apply edit_edit_apart; auto. }
  destruct H as (Wq' & Wp' & E). exists (fst (p_discard q jp)). split; [now apply discard_result|]. rewrite E. now apply discard_result.
Qed.
Definition without (m : N) (y : json) : json := match y with JArr v => JArr (vec_remove (N.to_nat m) v) | _ => y end.
(** Two elements of one array: the later one moves down by one when the earlier goes first. *)
Theorem deleting_elements_in_either_order p q q' d i k j y z jq jpq : wf j = true ->
  steps p = d ++ [Index i] -> steps q = d ++ [Index k] -> steps q' = d ++ [Index (k - 1)] -> i < k ->
  p_discard q j = (jq, Ok z) -> p_discard p jq = (jpq, Ok y) ->
  exists jp, p_discard p j = (jp, Ok y) /\ p_discard q' jp = (jpq, Ok z).
Proof.
  intros Hw Ep Eq Eq' Hik Hq Hp. pose proof (discard_ok _ _ _ _ Hq) as Wq. pose proof (discard_ok _ _ _ _ Hp) as Wp.
  apply wf_skeys in Hw. rewrite Eq, walk_app in Wq. destruct (walk d j) as [t|] eqn:Wd; [|discriminate]. cbn [walk] in Wq.
  destruct (step (Index k) t) as [z'|] eqn:Ez; [|discriminate]. injection Wq as ->.
  destruct t as [|v| | | |]; try discriminate. rewrite step_index in Ez. apply vec_get_some in Ez.
  assert (Lk : (N.to_nat k < List.length v)%nat) by (apply nth_error_Some; congruence).
  assert (D : forall h w m u, nth_error w (N.to_nat m) = Some u -> walk d h = Some (JArr w) -> skeys h = true -> forall e, steps e = d ++ [Index m] ->
     p_discard e h = (edit d (without m) h, Ok u)).
  { intros h w m u Hu Hh Sh e Ee. assert (We : walk (steps e) h = Some u).
    { rewrite Ee, walk_app, Hh. cbn [walk]. rewrite step_index, vec_get_is_nth, Hu. reflexivity. }
    rewrite (discard_result _ _ _ We). f_equal. rewrite (p_discard_edit e d (Index m) Ee h) by congruence. apply (edit_ext d _ _ h _ Hh).
    cbn [f_discard]. assert (L : (N.to_nat m < List.length w)%nat) by (apply nth_error_Some; congruence).
    unfold vlen. rewrite (proj2 (N.ltb_lt _ _)) by lia. rewrite Hu. reflexivity. }
  rewrite (D j v k z Ez Wd Hw q Eq) in Hq. injection Hq as <-.
  assert (S : forall m h w, skeys h = true -> walk d h = Some (JArr w) -> skeys (edit d (without m) h) = true).
  { intros m h w Sh Hh. apply edit_skeys; auto. intros y0 Hy0. rewrite Hh in Hy0. injection Hy0 as <-. cbn.
    pose proof (walk_skeys _ _ _ Sh Hh) as Sw. cbn in Sw. rewrite forallb_forall in *. intros x Hx. apply Sw. rewrite vec_remove_spec in Hx.
    apply in_app_or in Hx as [Hx|Hx]; [rewrite <- (firstn_skipn (N.to_nat m) w); apply in_or_app; now left|].
    rewrite <- (firstn_skipn (Datatypes.S (N.to_nat m)) w). apply in_or_app; now right. }
  assert (Wdq : walk d (edit d (without k) j) = Some (JArr (vec_remove (N.to_nat k) v))) by now rewrite (edit_walk d _ j _ Hw Wd).
  rewrite Ep, walk_app, Wdq in Wp. cbn [walk] in Wp. rewrite step_index, vec_get_is_nth in Wp.
  destruct (nth_error (vec_remove (N.to_nat k) v) (N.to_nat i)) as [y'|] eqn:Ey; [|discriminate]. injection Wp as ->.
  rewrite (D _ _ i y Ey Wdq (S k _ _ Hw Wd) p Ep) in Hp. injection Hp as <-.
  assert (N1 : forall m w n, nth_error (vec_remove m w) n = nth_error w (if Nat.ltb n m then n else Datatypes.S n)).
  { clear. intros m w. revert m. induction w as [|x w IH]; intros [|m] [|n]; cbn [vec_remove nth_error]; auto.
    - now destruct (Nat.ltb _ _).
    - rewrite IH. change (Nat.ltb (Datatypes.S n) (Datatypes.S m)) with (Nat.ltb n m). now destruct (Nat.ltb n m). }
  rewrite N1 in Ey. replace (Nat.ltb (N.to_nat i) (N.to_nat k)) with true in Ey by lia.
  exists (edit d (without i) j). split; [now apply (D j v)|].
  assert (Wdp : walk d (edit d (without i) j) = Some (JArr (vec_remove (N.to_nat i) v))) by now rewrite (edit_walk d _ j _ Hw Wd).
  assert (Ez' : nth_error (vec_remove (N.to_nat i) v) (N.to_nat (k - 1)) = Some z).
  { rewrite N1. replace (Nat.ltb (N.to_nat (k - 1)) (N.to_nat i)) with false by lia. now replace (Datatypes.S (N.to_nat (k - 1))) with (N.to_nat k) by lia. }
  rewrite (D _ _ (k - 1) z Ez' Wdp (S i _ _ Hw Wd) q' Eq'). f_equal. rewrite !edit_edit by (auto; congruence).
  apply (edit_ext d _ _ j _ Wd). cbn. f_equal. apply nth_ext_arr. intros n. rewrite !N1. f_equal.
  destruct (Nat.ltb_spec n (N.to_nat (k - 1))), (Nat.ltb_spec n (N.to_nat i));
    repeat match goal with |- context [Nat.ltb ?a ?b] => destruct (Nat.ltb_spec a b) end; lia.
Qed.
(** Edits of two members of one object. *)
Definition member_edits (k : str) (v : json) : list (json -> json * res unit) :=
  [fun j => insert j k v; fun j => append j k v; fun j => delete j k].
Theorem edits_of_different_members_commute k k' v v' f g j : wf j = true -> k <> k' -> In f (member_edits k v) -> In g (member_edits k' v') ->
  fst (g (fst (f j))) = fst (f (fst (g j))) /\ snd (g (fst (f j))) = snd (g j) /\ snd (f (fst (g j))) = snd (f j).
Proof.
  intros Hw Hk Hf Hg.
  assert (A : forall k v f, In f (member_edits k v) -> exists F, forall j, wf j = true -> fst (f j) = on_members (alter k F) j /\
     snd (f j) = match j with JObj _ => Ok tt | _ => wrong_kind (lit "object") j end).
  { clear. intros k v f [<-|[<-|[<-|[]]]].
    - exists (fun _ => Some (v, [])). intros [] _; split; reflexivity.
    - exists (fun e => Some (match e with Some (y, l) => (v, y :: l) | None => (v, []) end)). intros [o| | | | |] _; split; try reflexivity.
      cbn. unfold object_insert, alter. now destruct (hm_get k o) as [[y l]|].
    - exists (fun _ => None). intros [] _; split; reflexivity. }
  destruct (A _ _ _ Hf) as (F & AF). destruct (A _ _ _ Hg) as (G & AG).
  destruct j as [o| | | | |].
  2-6: destruct (AF _ Hw) as [F1 F2], (AG _ Hw) as [G1 G2]; cbn [on_members] in *; rewrite F1, G1, ?F1, ?G1; auto.
  apply wf_skeys in Hw as Hs. apply skeys_ok in Hs. cbn in Hs.
  assert (P : forall k v f, In f (member_edits k v) -> forall o, fst (f (JObj o)) = JObj (obj_of (fst (f (JObj o)))) /\ snd (f (JObj o)) = Ok tt).
  { clear. intros k v f [<-|[<-|[<-|[]]]] o; cbn; auto. }
  destruct (P _ _ _ Hf o) as [Pf1 Pf2], (P _ _ _ Hg o) as [Pg1 Pg2].
  rewrite Pf1, Pg1, (proj2 (P _ _ _ Hg _)), (proj2 (P _ _ _ Hf _)), Pf2, Pg2. split; [|auto].
  assert (A' : forall k v f, In f (member_edits k v) -> exists F, forall o, fst (f (JObj o)) = JObj (alter k F o)).
  { clear. intros k v f [<-|[<-|[<-|[]]]].
    - exists (fun _ => Some (v, [])). reflexivity.
    - exists (fun e => Some (match e with Some (y, l) => (v, y :: l) | None => (v, []) end)). intros o.
      cbn. unfold object_insert, alter. now destruct (hm_get k o) as [[y l]|].
    - exists (fun _ => None). reflexivity. }
  destruct (A' _ _ _ Hf) as (F' & AF'). destruct (A' _ _ _ Hg) as (G' & AG'). rewrite AF', AG'. cbn [obj_of]. rewrite AF', AG'. f_equal.
  apply alter_comm; auto.
Qed.
(** The parts of the hypotheses that cannot be left out. *)
Example order_of_kinds_matters : let j := JObj [] in
  fst (p_update 9 (PEnd (Index 0)) (fst (p_update 9 (PEnd (Key (lit "a"))) j JNull)) JNull) = JArr [JNull] /\
  fst (p_update 9 (PEnd (Key (lit "a"))) (fst (p_update 9 (PEnd (Index 0)) j JNull)) JNull) = JObj [(lit "a", (JNull, []))].
Proof. vm_compute. auto. Qed.
Example order_of_array_deletions_matters : let j := JArr [JNull; JBool true; JBool false] in
  fst (p_update 9 (PEnd (Index 1)) (fst (p_discard (PEnd (Index 0)) j)) JNull) = JArr [JBool true; JNull] /\
  fst (p_discard (PEnd (Index 0)) (fst (p_update 9 (PEnd (Index 1)) j JNull))) = JArr [JNull; JBool false].
Proof. vm_compute. auto. Qed.
Example commute_example : diverges (steps p_ab) [Key (lit "a"); Index 5; Key (lit "z")] /\
  (exists j1, p_update 9 p_ab doc (JBool true) = (j1, Ok (JBool true))) /\
  (exists j2, p_update 9 (PNext (Key (lit "a")) (PNext (Index 5) (PEnd (Key (lit "z"))))) doc JNull = (j2, Ok JNull)) /\
  (exists jd, p_discard (PEnd (Key (lit "c.d"))) doc = (jd, Ok (JStr (lit "x")))) /\ (exists jp, p_discard p_ab doc = (jp, Ok JNull)) /\
  steps p_ab = [] ++ Key (lit "a") :: [Index 1; Key (lit "b")].
Proof.
  split. { exists [Key (lit "a")], (Index 1), (Index 5), [Key (lit "b")], [Key (lit "z")]. repeat split; auto. discriminate. }
  vm_compute. repeat split; eexists; reflexivity.
Qed.

(** * C77: what was set can be deleted again, what was deleted can be set again. *)
Lemma walk_parent c f j z : walk (c ++ [f]) j = Some z -> exists y, walk c j = Some y /\ step f y = Some z.
Proof.
  rewrite walk_app. destruct (walk c j) as [y|]; [|discriminate]. cbn [walk]. intros H. exists y. split; auto. destruct (step f y); congruence.
Qed.
Lemma values_none k o : values_at k (JObj o) = [] -> hm_get k o = None.
Proof. rewrite values_at_get. destruct (hm_get k o) as [[y l]|]; auto. intros H. destruct (rev l); discriminate. Qed.
Lemma values_one k o x : values_at k (JObj o) = [x] -> hm_get k o = Some (x, []).
Proof.
  rewrite values_at_get. destruct (hm_get k o) as [[y l]|]; [|discriminate]. intros H. change [x] with ([] ++ [x]) in H. apply app_inj_tail in H as [H ->].
  destruct l as [|z l]; auto. cbn in H. now destruct (rev l).
Qed.
(** A new member of an existing object, a new last element of an existing array. *)
Definition fresh (f : finder) (y : json) : Prop :=
  match f with
  | Key k => (exists o, y = JObj o) /\ values_at k y = []
  | Index i => exists v, y = JArr v /\ i = N.of_nat (List.length v)
  end.
Theorem discard_undoes_update vmax p c f j y x j1 r : wf j = true -> wf x = true -> steps p = c ++ [f] -> walk c j = Some y -> fresh f y ->
  p_update vmax p j x = (j1, Ok r) -> p_discard p j1 = (j, Ok x).
Proof.
  intros Hw Hx Ep Wc Hf H. destruct (update_ok _ _ _ _ _ _ Hw H) as (_ & -> & _). apply wf_skeys in Hw, Hx.
  assert (W : walk (steps p) (upd (steps p) x j) = Some x) by now apply upd_walk.
  rewrite (discard_result _ _ _ W). f_equal. rewrite (p_discard_edit p c f Ep) by congruence. rewrite Ep, upd_edit by congruence.
  rewrite edit_edit by (auto; congruence). apply (edit_fix c _ j y); auto. pose proof (skeys_ok _ (walk_skeys _ _ _ Hw Wc)) as Hk.
  cbn [upd make]. destruct f as [k|i]; cbn [fresh] in Hf.
  - destruct Hf as [[o ->] Hv]. apply values_none in Hv. cbn in Hk. cbn [make f_discard]. rewrite hm_get_insert, str_eqb_refl by auto. cbn [fst]. f_equal.
    apply hm_ext; auto using hm_remove_sorted, hm_insert_sorted. intros k'. rewrite hm_get_remove, hm_get_insert by auto using hm_insert_sorted.
    destruct (str_eqb k' k) eqn:E; auto. apply str_eqb_eq in E as ->. auto.
  - destruct Hf as (v & -> & ->). cbn [make elems]. unfold vlen at 1. rewrite N.leb_refl. unfold resize, vlen.
    replace (N.to_nat (N.of_nat (List.length v) + 1 - N.of_nat (List.length v))) with 1%nat by lia. cbn [repeat]. rewrite Nnat.Nat2N.id.
    replace (vec_set (List.length v) x (v ++ [JNull])) with (v ++ [x]) by (clear; induction v; cbn; congruence).
    cbn [f_discard]. unfold vlen. rewrite app_length. cbn [List.length]. rewrite (proj2 (N.ltb_lt _ _)) by lia.
    rewrite Nnat.Nat2N.id, nth_error_app2, Nat.sub_diag by lia. cbn [nth_error fst]. f_equal. rewrite vec_remove_spec.
    rewrite firstn_app, firstn_all, Nat.sub_diag, skipn_all2 by (rewrite app_length; cbn; lia). cbn. now rewrite !app_nil_r.
Qed.
Theorem update_undoes_discard vmax p c f j y x j1 : wf j = true -> steps p = c ++ [f] -> walk c j = Some y ->
  match f with Key k => values_at k y = [x] | Index i => exists v, y = JArr v /\ N.of_nat (List.length v) = i + 1 /\ i < vmax end ->
  p_discard p j = (j1, Ok x) -> p_update vmax p j1 x = (j, Ok x).
Proof.
  intros Hw Ep Wc Hf H. pose proof (discard_ok _ _ _ _ H) as W. apply wf_skeys in Hw.
  assert (E1 : j1 = edit c (fun y => fst (f_discard f y)) j) by (rewrite <- (p_discard_edit p c f Ep) by congruence; now rewrite H).
  assert (S1 : skeys j1 = true) by (replace j1 with (fst (p_discard p j)) by (now rewrite H); now apply discard_skeys).
  assert (W1 : walk c j1 = Some (fst (f_discard f y))) by (rewrite E1; now rewrite (edit_walk c _ j _ Hw Wc)).
  pose proof (skeys_ok _ (walk_skeys _ _ _ Hw Wc)) as Hk. rewrite Ep in W. destruct (walk_parent _ _ _ _ W) as (y' & Wy & Es). rewrite Wc in Wy. injection Wy as <-.
  assert (G : over vmax [f] (fst (f_discard f y)) = false /\ make f x (fst (f_discard f y)) = y).
  { destruct f as [k|i].
    - destruct y as [o| | | | |]; try discriminate. apply values_one in Hf. cbn in Hk. split; [reflexivity|]. cbn [f_discard]. rewrite Hf. cbn [fst make]. f_equal.
      apply hm_ext; auto using hm_insert_sorted, hm_remove_sorted. intros k'. rewrite hm_get_insert, hm_get_remove by auto using hm_remove_sorted.
      destruct (str_eqb k' k) eqn:E; auto. apply str_eqb_eq in E as ->. auto.
    - destruct Hf as (v & -> & Hl & Hm). rewrite step_index, vec_get_is_nth in Es. cbn [f_discard]. unfold vlen. rewrite (proj2 (N.ltb_lt _ _)) by lia.
      rewrite Es. cbn [fst]. split.
      + cbn [over over1]. replace (vmax <=? i) with false by lia. reflexivity.
      + cbn [make elems]. rewrite vec_remove_spec. assert (K : (N.to_nat i < List.length v)%nat) by lia.
        rewrite (skipn_all2 v) by lia. rewrite app_nil_r. unfold vlen. rewrite firstn_length, Nat.min_l by lia.
        rewrite (proj2 (N.leb_le _ _)) by lia. unfold resize, vlen. rewrite firstn_length, Nat.min_l by lia.
        replace (N.to_nat (i + 1 - N.of_nat (N.to_nat i))) with 1%nat by lia. cbn [repeat]. f_equal. apply nth_ext_arr. intros n.
        rewrite vec_set_nth by (rewrite app_length, firstn_length; cbn; lia). destruct (Nat.eqb_spec n (N.to_nat i)) as [->|Hn]; auto.
        destruct (Nat.ltb_spec n (N.to_nat i)).
        * rewrite nth_error_app1 by (rewrite firstn_length; lia). clear -H0. revert v n H0. generalize (N.to_nat i). induction n as [|m IH]; intros v n H0; [lia|].
          destruct v, n; cbn; auto. apply IH. lia.
        * rewrite nth_error_app2 by (rewrite firstn_length; lia). rewrite firstn_length, Nat.min_l by lia.
          rewrite (proj2 (nth_error_None v n)) by lia. destruct (n - N.to_nat i)%nat as [|[|m]] eqn:En; cbn; auto; lia. }
  destruct G as [Go Gm]. rewrite update_no_overflow; auto.
  - f_equal. rewrite Ep, upd_edit by congruence. rewrite E1. rewrite edit_edit by (auto; congruence). now apply (edit_fix c _ j y).
  - rewrite Ep, (over_edit vmax c f [] j1 (fst (f_discard f y)) W1). exact Go.
Qed.
(** Setting a value to what it is changes nothing (setting drops older duplicates, so there must be none). *)
Theorem update_with_the_value_there vmax p c f j x : wf j = true -> steps p = c ++ [f] -> walk (steps p) j = Some x ->
  match f with Key k => forall y, walk c j = Some y -> values_at k y = [x] | Index _ => True end ->
  p_update vmax p j x = (j, Ok x).
Proof.
  intros Hw Ep W Hf. apply wf_skeys in Hw. rewrite Ep in W. destruct (walk_parent _ _ _ _ W) as (y & Wc & Es).
  pose proof (skeys_ok _ (walk_skeys _ _ _ Hw Wc)) as Hk. rewrite update_no_overflow; auto.
  - f_equal. rewrite Ep, upd_edit by congruence. apply (edit_fix c _ j y); auto. cbn [upd]. destruct f as [k|i].
    + specialize (Hf y Wc). destruct y as [o| | | | |]; try discriminate. apply values_one in Hf. cbn [make]. f_equal. now apply hm_insert_same.
    + destruct y as [|v| | | |]; try discriminate. rewrite step_index, vec_get_is_nth in Es. cbn [make elems].
      assert (L : (N.to_nat i < List.length v)%nat) by (apply nth_error_Some; congruence). unfold vlen. rewrite (proj2 (N.leb_gt _ _)) by lia.
      f_equal. now apply vec_set_same.
  - rewrite Ep, (over_edit vmax c f [] j y Wc). cbn [over]. rewrite orb_false_r. destruct f; auto. cbn [over1]. rewrite Es. apply andb_false_r.
Qed.
(** The same with path texts. *)
Theorem del_undoes_set vmax s p c f j y x j1 r : wf j = true -> wf x = true -> parse_path s = Ok p -> steps p = c ++ [f] -> walk c j = Some y -> fresh f y ->
  set vmax j s x = (j1, Ok r) -> del j1 s = (j, Ok x).
Proof.
  unfold set, del. intros Hw Hx Es. destruct s as [|ch s]; [discriminate|]. rewrite Es. now apply discard_undoes_update.
Qed.
Theorem set_undoes_del vmax s p c f j y x j1 : wf j = true -> parse_path s = Ok p -> steps p = c ++ [f] -> walk c j = Some y ->
  match f with Key k => values_at k y = [x] | Index i => exists v, y = JArr v /\ N.of_nat (List.length v) = i + 1 /\ i < vmax end ->
  del j s = (j1, Ok x) -> set vmax j1 s x = (j, Ok x).
Proof.
  unfold set, del. intros Hw Es. destruct s as [|ch s]; [discriminate|]. rewrite Es. now apply update_undoes_discard.
Qed.
(** The methods. *)
Theorem delete_undoes_insert j k v j1 : wf j = true -> values_at k j = [] ->
  In (j1, Ok tt) [insert j k v; append j k v] -> delete j1 k = (j, Ok tt).
Proof.
  intros Hw Hv H. apply wf_skeys, skeys_ok in Hw. destruct j as [o| | | | |]; try (destruct H as [H|[H|[]]]; discriminate). cbn in Hw.
  apply values_none in Hv. assert (E : j1 = JObj (hm_insert k (v, []) o)).
  { destruct H as [H|[H|[]]]; injection H as <-; auto. unfold object_insert. now rewrite Hv. }
  rewrite E. cbn. f_equal. f_equal. apply hm_ext; auto using hm_remove_sorted, hm_insert_sorted. intros k'.
  rewrite hm_get_remove, hm_get_insert by auto using hm_insert_sorted. destruct (str_eqb k' k) eqn:E'; auto. apply str_eqb_eq in E' as ->. auto.
Qed.
Theorem insert_undoes_delete j k x j1 : wf j = true -> values_at k j = [x] -> delete j k = (j1, Ok tt) ->
  insert j1 k x = (j, Ok tt) /\ append j1 k x = (j, Ok tt).
Proof.
  intros Hw Hv H. apply wf_skeys, skeys_ok in Hw. destruct j as [o| | | | |]; try discriminate. cbn in Hw. apply values_one in Hv. injection H as <-.
  assert (E : hm_insert k (x, []) (hm_remove k o) = o).
  { apply hm_ext; auto using hm_remove_sorted, hm_insert_sorted. intros k'. rewrite hm_get_insert, hm_get_remove by auto using hm_remove_sorted.
    destruct (str_eqb k' k) eqn:E'; auto. apply str_eqb_eq in E' as ->. auto. }
  cbn. unfold object_insert. rewrite hm_get_remove, str_eqb_refl by auto. now rewrite E.
Qed.
Theorem remove_undoes_push j x j1 : push j x = (j1, Ok tt) -> remove j1 (N.of_nat (List.length (elements_of j))) = (j, Ok tt).
Proof.
  destruct j as [|v| | | |]; try discriminate. intros [= <-]. cbn [remove elements_of]. unfold vlen. rewrite app_length. cbn [List.length].
  rewrite (proj2 (N.ltb_lt _ _)) by lia. rewrite Nnat.Nat2N.id, vec_remove_spec, firstn_app, firstn_all, Nat.sub_diag, skipn_all2 by (rewrite app_length; cbn; lia).
  cbn. now rewrite !app_nil_r.
Qed.
Theorem replace_undoes_replace j i x y j1 : step (Index i) j = Some y -> replace j i x = (j1, Ok tt) -> replace j1 i y = (j, Ok tt).
Proof.
  destruct j as [|v| | | |]; try discriminate. rewrite step_index. unfold replace. intros E. rewrite E. intros [= <-].
  rewrite vec_get_is_nth in *. assert (L : (N.to_nat i < List.length v)%nat) by (apply nth_error_Some; congruence).
  rewrite vec_set_nth, Nat.eqb_refl by auto. now rewrite vec_set_set, vec_set_same.
Qed.
Example undo_example : fresh (Key (lit "new")) doc /\ (exists y, walk [Key (lit "a")] doc = Some y /\ fresh (Index 2) y) /\
  values_at (lit "c.d") doc = [JStr (lit "x")] /\ (exists j1, p_discard (PEnd (Key (lit "c.d"))) doc = (j1, Ok (JStr (lit "x")))) /\
  (exists j1 r, set 9 doc (lit "a.#2") JNull = (j1, Ok r) /\ j1 <> doc).
Proof.
  split. { split; [now eexists|reflexivity]. } split. { eexists. split; [reflexivity|]. now eexists. } split; [reflexivity|].
  split; [vm_compute; now eexists|]. do 2 eexists. split; [vm_compute; reflexivity|]. discriminate.
Qed.
(** With older duplicates the deleted values do not all come back. *)
Example no_undo_of_duplicates : fst (p_update 9 (PEnd (Key (lit "a"))) (fst (p_discard (PEnd (Key (lit "a"))) doc)) (JArr [JBool false; JObj [(lit "b", (JNull, []))]])) <> doc.
Proof. vm_compute. discriminate. Qed.

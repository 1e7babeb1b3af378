(** The parser accepts exactly the lenient texts. *)
From Verif Require Import Base F64 Utf8 Json Parse Print SpecGrammar SpecLenient MapProofs Utf8Proofs StringProofs NumberProofs ScanProofs GrammarProofs.
From Coq Require Import ZifyBool ZifyNat ZifyN.
Open Scope N_scope.

Notation bz := Z.b2z.
Lemma toggle_bz q : toggle (bz q) = bz (negb q).
Proof. now destruct q. Qed.
Lemma bz_0 q : (bz q =? 0)%Z = negb q.
Proof. now destruct q. Qed.
Lemma ws_bool c : ws_char c -> c <> 34 /\ c <> 91 /\ c <> 123 /\ c <> 93 /\ c <> 125 /\ c <> 92 /\ c <> 44 /\ c <> 58.
Proof. unfold ws_char; cbn. lia. Qed.
Lemma net1 c : net [c] = (if ((c =? 91) || (c =? 123))%N then 1%Z else if ((c =? 93) || (c =? 125))%N then (-1)%Z else 0%Z).
Proof. cbn [net]. lia. Qed.

Lemma Skim_length stop drop d q t p d' q' : Skim stop drop d q t p d' q' -> (List.length p <= List.length t)%nat.
Proof. induction 1; cbn in *; lia. Qed.
Lemma Skim_scalar stop drop d q t p d' q' : Skim stop drop d q t p d' q' -> scalar_str t = true -> scalar_str p = true.
Proof. unfold scalar_str. induction 1; cbn [forallb]; rewrite ?andb_true_iff; tauto. Qed.

Section Rec.
Variable rec : str -> res json.

Lemma arr_skim d q t p d' q' : Skim array_stop ws_char d q t p d' q' -> forall inner acc r,
  arr_loop rec d (bz q) inner acc (t ++ r) = arr_loop rec d' (bz q') (inner ++ p) acc r.
Proof.
  induction 1 as [d q|c t p d' q' Hc H IH|d q c t p d' q' Hc Hn H IH|d q e t p d' q' H IH]; intros inner acc r; cbn [app].
  - now rewrite app_nil_r.
  - rewrite <- IH. destruct (ws_bool c Hc) as (?&?&?&?&?&?&?&?). apply is_whitespace_ws in Hc.
    cbn [arr_loop]. do 6 (rewrite if_false by lia). rewrite Hc. reflexivity.
  - replace (inner ++ c :: p) with ((inner ++ [c]) ++ p) by now rewrite <- app_assoc.
    rewrite <- IH. cbn [arr_loop]. rewrite bz_0, toggle_bz, net1.
    assert (Hs : ((d =? 0)%Z && negb q = true) -> c <> 93 /\ c <> 44 /\ is_whitespace c = false).
    { intros E. apply andb_true_iff in E as [E1 E2]. apply negb_true_iff in E2. apply Z.eqb_eq in E1.
      unfold array_stop in Hn. split; [|split].
      - intros ->. apply Hn. auto.
      - intros ->. apply Hn. auto.
      - destruct (is_whitespace c) eqn:Ew; auto. apply is_whitespace_ws in Ew. exfalso; apply Hn; auto. }
    destruct ((d =? 0)%Z && negb q) eqn:E.
    + destruct Hs as (H1 & H2 & H3); auto. rewrite if_false by lia. rewrite if_false by lia. rewrite H3. cbn [andb].
      destruct (N.eqb_spec c 34) as [->|]. { cbn [orb N.eqb Pos.eqb]. now rewrite Z.add_0_r. }
      destruct ((c =? 91) || (c =? 123)) eqn:Eo; [reflexivity|].
      destruct ((c =? 93) || (c =? 125)) eqn:Ec; [reflexivity|].
      rewrite if_false by lia. now rewrite Z.add_0_r.
    + rewrite !andb_false_r. rewrite andb_false_l.
      destruct (N.eqb_spec c 34) as [->|]. { cbn [orb N.eqb Pos.eqb]. now rewrite Z.add_0_r. }
      destruct ((c =? 91) || (c =? 123)) eqn:Eo; [reflexivity|].
      destruct ((c =? 93) || (c =? 125)) eqn:Ec; [reflexivity|].
      rewrite if_false by lia. now rewrite Z.add_0_r.
  - replace (inner ++ 92 :: e :: p) with ((inner ++ [92; e]) ++ p) by now rewrite <- app_assoc.
    rewrite <- IH. reflexivity.
Qed.

Lemma arr_inv s : forall d q inner acc v, arr_loop rec d (bz q) inner acc s = Ok v ->
  exists t p r x, s = t ++ r /\ Skim array_stop ws_char d q t p 0 false /\ rec (inner ++ p) = Ok x /\
   ((exists w, r = 93 :: w /\ ws w /\ v = JArr (acc ++ [x])) \/
    (exists r', r = 44 :: r' /\ arr_loop rec 0 0 [] (acc ++ [x]) r' = Ok v)).
Proof.
  remember (List.length s) as n eqn:Hn. revert s Hn.
  induction n as [n IH0] using lt_wf_ind. intros s -> d q inner acc v.
  assert (IH : forall s' d q inner acc v, (List.length s' < List.length s)%nat -> arr_loop rec d (bz q) inner acc s' = Ok v ->
   exists t p r x, s' = t ++ r /\ Skim array_stop ws_char d q t p 0 false /\ rec (inner ++ p) = Ok x /\
   ((exists w, r = 93 :: w /\ ws w /\ v = JArr (acc ++ [x])) \/
    (exists r', r = 44 :: r' /\ arr_loop rec 0 0 [] (acc ++ [x]) r' = Ok v))) by (intros; eapply IH0; eauto). clear IH0.
  destruct s as [|c r]; [discriminate|]. cbn [arr_loop]. rewrite bz_0, toggle_bz.
  destruct ((c =? 93) && ((d =? 0)%Z && negb q)) eqn:E1.
  { apply andb_true_iff in E1 as [Ec E1]. apply andb_true_iff in E1 as [Ed Eq]. apply N.eqb_eq in Ec as ->.
    apply Z.eqb_eq in Ed as ->. apply negb_true_iff in Eq as ->.
    destruct (rec inner) as [x| | |] eqn:Er; try discriminate. destruct (trailing _ r) eqn:Et; try discriminate.
    intros [= <-]. exists [], [], (93 :: r), x. rewrite app_nil_r. split; auto. split; [constructor|]. split; auto.
    left. exists r. split; auto. split; auto. eapply trailing_inv; eauto. }
  destruct ((c =? 44) && ((d =? 0)%Z && negb q)) eqn:E2.
  { apply andb_true_iff in E2 as [Ec E2]. apply andb_true_iff in E2 as [Ed Eq]. apply N.eqb_eq in Ec as ->.
    apply Z.eqb_eq in Ed as ->. apply negb_true_iff in Eq as ->.
    destruct inner as [|y inner]; [discriminate|].
    destruct (match r with [] => _ | _ => _ end); [discriminate|].
    destruct (rec (y :: inner)) as [x| | |] eqn:Er; try discriminate. intros H.
    exists [], [], (44 :: r), x. rewrite app_nil_r. split; auto. split; [constructor|]. split; auto. right. eauto. }
  assert (Keep : forall d' q', c <> 92 -> (d' = d + net [c])%Z -> q' = (if c =? 34 then negb q else q) ->
    (((d =? 0)%Z && negb q) && is_whitespace c = false) ->
    arr_loop rec d' (bz q') (inner ++ [c]) acc r = Ok v ->
    exists t p r0 x, c :: r = t ++ r0 /\ Skim array_stop ws_char d q t p 0 false /\ rec (inner ++ p) = Ok x /\
   ((exists w, r0 = 93 :: w /\ ws w /\ v = JArr (acc ++ [x])) \/
    (exists r', r0 = 44 :: r' /\ arr_loop rec 0 0 [] (acc ++ [x]) r' = Ok v))).
  { intros d' q' Hc -> -> Hw H. apply IH in H as (t & p & r0 & x & -> & HS & Hx & Hr); [|cbn; lia].
    exists (c :: t), (c :: p), r0, x. split; auto. split.
    - apply sk_keep; auto. intros (-> & -> & [[->| ->]|Hws]); cbn in *; try discriminate.
      apply is_whitespace_ws in Hws. congruence.
    - rewrite <- app_assoc in Hx. auto. }
  destruct (N.eqb_spec c 34) as [->|Hq].
  { apply Keep; try reflexivity; [discriminate|cbn; lia|now rewrite andb_false_r]. }
  destruct ((c =? 91) || (c =? 123)) eqn:Eo.
  { intros HH; eapply Keep; [| | | |exact HH]; [lia| |auto|]. { rewrite net1, Eo. reflexivity. }
    destruct (is_whitespace c) eqn:Ew; [|apply andb_false_r]. apply is_whitespace_ws, ws_bool in Ew. lia. }
  destruct ((c =? 93) || (c =? 125)) eqn:Ec.
  { intros HH; eapply Keep; [| | | |exact HH]; [lia| |auto|]. { rewrite net1, Eo, Ec. reflexivity. }
    destruct (is_whitespace c) eqn:Ew; [|apply andb_false_r]. apply is_whitespace_ws, ws_bool in Ew. lia. }
  destruct (N.eqb_spec c 92) as [->|Hb].
  { destruct r as [|e r1]; [discriminate|]. intros H.
    apply IH in H as (t & p & r0 & x & -> & HS & Hx & Hr); [|cbn; lia].
    exists (92 :: e :: t), (92 :: e :: p), r0, x. split; auto. split; [now apply sk_escape|].
    rewrite <- app_assoc in Hx. auto. }
  destruct (((d =? 0)%Z && negb q) && is_whitespace c) eqn:Ew.
  { apply andb_true_iff in Ew as [Ez Ew]. apply andb_true_iff in Ez as [Ed Eq].
    apply Z.eqb_eq in Ed as ->. apply negb_true_iff in Eq as ->. intros H.
    apply IH in H as (t & p & r0 & x & -> & HS & Hx & Hr); [|cbn; lia].
    exists (c :: t), p, r0, x. split; auto. split; auto. apply sk_drop; auto. now apply is_whitespace_ws. }
  apply Keep; auto. rewrite net1, Eo, Ec. lia.
Qed.

(** Objects: the value position. *)
Lemma obj_skim_v d q t p d' q' : Skim value_stop value_drop d q t p d' q' -> forall k v m r,
  obj_loop rec d (bz q) k v false m (t ++ r) = obj_loop rec d' (bz q') k (v ++ p) false m r.
Proof.
  induction 1 as [d q|c t p d' q' Hc H IH|d q c t p d' q' Hc Hn H IH|d q e t p d' q' H IH]; intros k v m r; cbn [app].
  - now rewrite app_nil_r.
  - rewrite <- IH. destruct Hc as [Hc| ->]; [|reflexivity].
    destruct (ws_bool c Hc) as (?&?&?&?&?&?&?&?). apply is_whitespace_ws in Hc.
    cbn [obj_loop]. do 7 (rewrite if_false by lia). rewrite Hc. reflexivity.
  - replace (v ++ c :: p) with ((v ++ [c]) ++ p) by now rewrite <- app_assoc.
    rewrite <- IH. cbn [obj_loop]. rewrite bz_0, toggle_bz, net1. cbn [negb fst snd].
    assert (Hs : ((d =? 0)%Z && negb q = true) -> c <> 125 /\ c <> 44 /\ c <> 58 /\ is_whitespace c = false).
    { intros E. apply andb_true_iff in E as [E1 E2]. apply negb_true_iff in E2. apply Z.eqb_eq in E1.
      unfold value_stop, value_drop in Hn. split; [|split; [|split]].
      - intros ->. apply Hn. auto.
      - intros ->. apply Hn. auto.
      - intros ->. apply Hn. auto.
      - destruct (is_whitespace c) eqn:Ew; auto. apply is_whitespace_ws in Ew. exfalso; apply Hn; auto. }
    destruct ((d =? 0)%Z && negb q) eqn:E.
    + destruct Hs as (H1 & H2 & H4 & H3); auto. rewrite if_false by lia. rewrite if_false by lia. rewrite if_false by lia.
      rewrite H3. cbn [andb].
      destruct (N.eqb_spec c 34) as [->|]. { cbn [orb N.eqb Pos.eqb]. now rewrite Z.add_0_r. }
      destruct ((c =? 91) || (c =? 123)) eqn:Eo; [reflexivity|].
      destruct ((c =? 93) || (c =? 125)) eqn:Ec; [reflexivity|].
      rewrite if_false by lia. now rewrite Z.add_0_r.
    + rewrite !andb_false_l, !andb_false_r.
      destruct (N.eqb_spec c 34) as [->|]. { cbn [orb N.eqb Pos.eqb]. now rewrite Z.add_0_r. }
      destruct ((c =? 91) || (c =? 123)) eqn:Eo; [reflexivity|].
      destruct ((c =? 93) || (c =? 125)) eqn:Ec; [reflexivity|].
      rewrite if_false by lia. now rewrite Z.add_0_r.
  - replace (v ++ 92 :: e :: p) with ((v ++ [92; e]) ++ p) by now rewrite <- app_assoc.
    rewrite <- IH. reflexivity.
Qed.
Lemma obj_skim_k d q t p d' q' : Skim key_stop ws_char d q t p d' q' -> forall k v m r,
  obj_loop rec d (bz q) k v true m (t ++ r) = obj_loop rec d' (bz q') (k ++ p) v true m r.
Proof.
  induction 1 as [d q|c t p d' q' Hc H IH|d q c t p d' q' Hc Hn H IH|d q e t p d' q' H IH]; intros k v m r; cbn [app].
  - now rewrite app_nil_r.
  - rewrite <- IH.
    destruct (ws_bool c Hc) as (?&?&?&?&?&?&?&?). apply is_whitespace_ws in Hc.
    cbn [obj_loop]. do 7 (rewrite if_false by lia). rewrite Hc. reflexivity.
  - replace (k ++ c :: p) with ((k ++ [c]) ++ p) by now rewrite <- app_assoc.
    rewrite <- IH. cbn [obj_loop]. rewrite bz_0, toggle_bz, net1. cbn [negb fst snd].
    rewrite !andb_false_r.
    assert (Hs : ((d =? 0)%Z && negb q = true) -> c <> 58 /\ is_whitespace c = false).
    { intros E. apply andb_true_iff in E as [E1 E2]. apply negb_true_iff in E2. apply Z.eqb_eq in E1.
      unfold key_stop in Hn. split.
      - intros ->. apply Hn. auto.
      - destruct (is_whitespace c) eqn:Ew; auto. apply is_whitespace_ws in Ew. exfalso; apply Hn; auto. }
    destruct ((d =? 0)%Z && negb q) eqn:E.
    + destruct Hs as (H4 & H3); auto. rewrite if_false by lia. rewrite H3. cbn [andb].
      destruct (N.eqb_spec c 34) as [->|]. { cbn [orb N.eqb Pos.eqb]. now rewrite Z.add_0_r. }
      destruct ((c =? 91) || (c =? 123)) eqn:Eo; [reflexivity|].
      destruct ((c =? 93) || (c =? 125)) eqn:Ec; [reflexivity|].
      rewrite if_false by lia. now rewrite Z.add_0_r.
    + rewrite !andb_false_l, !andb_false_r.
      destruct (N.eqb_spec c 34) as [->|]. { cbn [orb N.eqb Pos.eqb]. now rewrite Z.add_0_r. }
      destruct ((c =? 91) || (c =? 123)) eqn:Eo; [reflexivity|].
      destruct ((c =? 93) || (c =? 125)) eqn:Ec; [reflexivity|].
      rewrite if_false by lia. now rewrite Z.add_0_r.
  - replace (k ++ 92 :: e :: p) with ((k ++ [92; e]) ++ p) by now rewrite <- app_assoc.
    rewrite <- IH. reflexivity.
Qed.

Lemma obj_inv_k s : forall d q k v m x, obj_loop rec d (bz q) k v true m s = Ok x ->
  exists t p r, s = t ++ 58 :: r /\ Skim key_stop ws_char d q t p 0 false /\
    obj_loop rec 0 0 (k ++ p) v false m r = Ok x.
Proof.
  remember (List.length s) as n eqn:Hn. revert s Hn.
  induction n as [n IH0] using lt_wf_ind. intros s -> d q k v m x.
  assert (IH : forall s' d q k v m x, (List.length s' < List.length s)%nat -> obj_loop rec d (bz q) k v true m s' = Ok x ->
   exists t p r, s' = t ++ 58 :: r /\ Skim key_stop ws_char d q t p 0 false /\
    obj_loop rec 0 0 (k ++ p) v false m r = Ok x) by (intros; eapply IH0; eauto). clear IH0.
  destruct s as [|c r]; [discriminate|]. cbn [obj_loop negb]. rewrite bz_0, toggle_bz, !andb_false_r. cbn [fst snd].
  destruct ((c =? 58) && ((d =? 0)%Z && negb q)) eqn:E1.
  { apply andb_true_iff in E1 as [Ec E1]. apply andb_true_iff in E1 as [Ed Eq]. apply N.eqb_eq in Ec as ->.
    apply Z.eqb_eq in Ed as ->. apply negb_true_iff in Eq as ->. intros H.
    exists [], [], r. rewrite app_nil_r. split; auto. split; [constructor|]. auto. }
  assert (Keep : forall d' q', c <> 92 -> (d' = d + net [c])%Z -> q' = (if c =? 34 then negb q else q) ->
    (((d =? 0)%Z && negb q) && is_whitespace c = false) ->
    obj_loop rec d' (bz q') (k ++ [c]) v true m r = Ok x ->
    exists t p r0, c :: r = t ++ 58 :: r0 /\ Skim key_stop ws_char d q t p 0 false /\
    obj_loop rec 0 0 (k ++ p) v false m r0 = Ok x).
  { intros d' q' Hc -> -> Hw H. apply IH in H as (t & p & r0 & -> & HS & Hx); [|cbn; lia].
    exists (c :: t), (c :: p), r0. split; auto. split.
    - apply sk_keep; auto. intros (-> & -> & [->|Hws]); cbn in *; try discriminate.
      apply is_whitespace_ws in Hws. congruence.
    - rewrite <- app_assoc in Hx. auto. }
  destruct (N.eqb_spec c 34) as [->|Hq].
  { apply Keep; try reflexivity; [discriminate|cbn; lia|now rewrite andb_false_r]. }
  destruct ((c =? 91) || (c =? 123)) eqn:Eo.
  { intros HH; eapply Keep; [| | | |exact HH]; [lia| |auto|]. { rewrite net1, Eo. reflexivity. }
    destruct (is_whitespace c) eqn:Ew; [|apply andb_false_r]. apply is_whitespace_ws, ws_bool in Ew. lia. }
  destruct ((c =? 93) || (c =? 125)) eqn:Ec.
  { intros HH; eapply Keep; [| | | |exact HH]; [lia| |auto|]. { rewrite net1, Eo, Ec. reflexivity. }
    destruct (is_whitespace c) eqn:Ew; [|apply andb_false_r]. apply is_whitespace_ws, ws_bool in Ew. lia. }
  destruct (N.eqb_spec c 92) as [->|Hb].
  { destruct r as [|e r1]; [discriminate|]. intros H.
    apply IH in H as (t & p & r0 & -> & HS & Hx); [|cbn; lia].
    exists (92 :: e :: t), (92 :: e :: p), r0. split; auto. split; [now apply sk_escape|].
    rewrite <- app_assoc in Hx. auto. }
  destruct (((d =? 0)%Z && negb q) && is_whitespace c) eqn:Ew.
  { apply andb_true_iff in Ew as [Ez Ew]. apply andb_true_iff in Ez as [Ed Eq].
    apply Z.eqb_eq in Ed as ->. apply negb_true_iff in Eq as ->. intros H.
    apply IH in H as (t & p & r0 & -> & HS & Hx); [|cbn; lia].
    exists (c :: t), p, r0. split; auto. split; auto. apply sk_drop; auto. now apply is_whitespace_ws. }
  apply Keep; auto. rewrite net1, Eo, Ec. lia.
Qed.

Lemma obj_inv_v s : forall d q k v m y, obj_loop rec d (bz q) k v false m s = Ok y ->
  exists t p r key x, s = t ++ r /\ Skim value_stop value_drop d q t p 0 false /\ rec k = Ok (JStr key) /\ rec (v ++ p) = Ok x /\
   ((exists w, r = 125 :: w /\ ws w /\ y = JObj (object_insert m key x)) \/
    (exists r', r = 44 :: r' /\ obj_loop rec 0 0 [] [] true (object_insert m key x) r' = Ok y)).
Proof.
  remember (List.length s) as n eqn:Hn. revert s Hn.
  induction n as [n IH0] using lt_wf_ind. intros s -> d q k v m y.
  assert (IH : forall s' d q k v m y, (List.length s' < List.length s)%nat -> obj_loop rec d (bz q) k v false m s' = Ok y ->
   exists t p r key x, s' = t ++ r /\ Skim value_stop value_drop d q t p 0 false /\ rec k = Ok (JStr key) /\ rec (v ++ p) = Ok x /\
   ((exists w, r = 125 :: w /\ ws w /\ y = JObj (object_insert m key x)) \/
    (exists r', r = 44 :: r' /\ obj_loop rec 0 0 [] [] true (object_insert m key x) r' = Ok y)))
   by (intros; eapply IH0; eauto). clear IH0.
  destruct s as [|c r]; [discriminate|]. cbn [obj_loop negb]. rewrite bz_0, toggle_bz, !andb_true_r. cbn [fst snd].
  destruct ((c =? 125) && ((d =? 0)%Z && negb q)) eqn:E1.
  { apply andb_true_iff in E1 as [Ec E1]. apply andb_true_iff in E1 as [Ed Eq]. apply N.eqb_eq in Ec as ->.
    apply Z.eqb_eq in Ed as ->. apply negb_true_iff in Eq as ->.
    destruct (rec k) as [[]| | |] eqn:Ek; try discriminate.
    destruct (rec v) as [x| | |] eqn:Er; try discriminate. destruct (trailing _ r) eqn:Et; try discriminate.
    intros [= <-]. exists [], [], (125 :: r), s, x. rewrite app_nil_r. split; auto. split; [constructor|]. split; auto. split; auto.
    left. exists r. split; auto. split; auto. eapply trailing_inv; eauto. }
  destruct ((c =? 44) && ((d =? 0)%Z && negb q)) eqn:E2.
  { apply andb_true_iff in E2 as [Ec E2]. apply andb_true_iff in E2 as [Ed Eq]. apply N.eqb_eq in Ec as ->.
    apply Z.eqb_eq in Ed as ->. apply negb_true_iff in Eq as ->.
    destruct k as [|k0 k]; [discriminate|]. destruct v as [|v0 v]; [discriminate|].
    destruct (match r with [] => _ | _ => _ end); [discriminate|].
    destruct (rec (k0 :: k)) as [[]| | |] eqn:Ek; try discriminate.
    destruct (rec (v0 :: v)) as [x| | |] eqn:Er; try discriminate. intros H.
    exists [], [], (44 :: r), s, x. rewrite app_nil_r. split; auto. split; [constructor|]. split; auto. split; auto. right. eauto. }
  destruct ((c =? 58) && ((d =? 0)%Z && negb q)) eqn:E3.
  { apply andb_true_iff in E3 as [Ec E3]. apply andb_true_iff in E3 as [Ed Eq]. apply N.eqb_eq in Ec as ->.
    apply Z.eqb_eq in Ed as ->. apply negb_true_iff in Eq as ->. intros H.
    apply IH in H as (t & p & r0 & key & x & -> & HS & Hx); [|cbn; lia].
    exists (58 :: t), p, r0, key, x. split; auto. split; auto. apply sk_drop; auto. now right. }
  assert (Keep : forall d' q', c <> 92 -> (d' = d + net [c])%Z -> q' = (if c =? 34 then negb q else q) ->
    (((d =? 0)%Z && negb q) && is_whitespace c = false) ->
    obj_loop rec d' (bz q') k (v ++ [c]) false m r = Ok y ->
    exists t p r0 key x, c :: r = t ++ r0 /\ Skim value_stop value_drop d q t p 0 false /\ rec k = Ok (JStr key) /\ rec (v ++ p) = Ok x /\
   ((exists w, r0 = 125 :: w /\ ws w /\ y = JObj (object_insert m key x)) \/
    (exists r', r0 = 44 :: r' /\ obj_loop rec 0 0 [] [] true (object_insert m key x) r' = Ok y))).
  { intros d' q' Hc -> -> Hw H. apply IH in H as (t & p & r0 & key & x & -> & HS & Hk & Hx & Hr); [|cbn; lia].
    exists (c :: t), (c :: p), r0, key, x. split; auto. split.
    - apply sk_keep; auto. intros (-> & -> & [[->| ->]|[Hws| ->]]); cbn in *; try discriminate.
      apply is_whitespace_ws in Hws. congruence.
    - rewrite <- app_assoc in Hx. auto. }
  destruct (N.eqb_spec c 34) as [->|Hq].
  { apply Keep; try reflexivity; [discriminate|cbn; lia|now rewrite andb_false_r]. }
  destruct ((c =? 91) || (c =? 123)) eqn:Eo.
  { intros HH; eapply Keep; [| | | |exact HH]; [lia| |auto|]. { rewrite net1, Eo. reflexivity. }
    destruct (is_whitespace c) eqn:Ew; [|apply andb_false_r]. apply is_whitespace_ws, ws_bool in Ew. lia. }
  destruct ((c =? 93) || (c =? 125)) eqn:Ec.
  { intros HH; eapply Keep; [| | | |exact HH]; [lia| |auto|]. { rewrite net1, Eo, Ec. reflexivity. }
    destruct (is_whitespace c) eqn:Ew; [|apply andb_false_r]. apply is_whitespace_ws, ws_bool in Ew. lia. }
  destruct (N.eqb_spec c 92) as [->|Hb].
  { destruct r as [|e r1]; [discriminate|]. intros H.
    apply IH in H as (t & p & r0 & key & x & -> & HS & Hk & Hx & Hr); [|cbn; lia].
    exists (92 :: e :: t), (92 :: e :: p), r0, key, x. split; auto. split; [now apply sk_escape|].
    rewrite <- app_assoc in Hx. auto. }
  destruct (((d =? 0)%Z && negb q) && is_whitespace c) eqn:Ew.
  { apply andb_true_iff in Ew as [Ez Ew]. apply andb_true_iff in Ez as [Ed Eq].
    apply Z.eqb_eq in Ed as ->. apply negb_true_iff in Eq as ->. intros H.
    apply IH in H as (t & p & r0 & key & x & -> & HS & Hx); [|cbn; lia].
    exists (c :: t), p, r0, key, x. split; auto. split; auto. apply sk_drop; auto. left. now apply is_whitespace_ws. }
  apply Keep; auto. rewrite net1, Eo, Ec. lia.
Qed.

(** Whole containers, given what [rec] accepts. *)
Variable Hrec : forall t v, scalar_str t = true -> rec t = Ok v -> LValue t v.
Lemma scalar_app a b : scalar_str (a ++ b) = true -> scalar_str a = true /\ scalar_str b = true.
Proof. unfold scalar_str. rewrite forallb_app. apply andb_true_iff. Qed.
Lemma scalar_tail c b : scalar_str (c :: b) = true -> scalar_str b = true.
Proof. unfold scalar_str. cbn. rewrite andb_true_iff. tauto. Qed.

Lemma arr_all_inv s : scalar_str s = true -> forall acc v, arr_loop rec 0 0 [] acc s = Ok v ->
  exists t vs w, s = t ++ [93] ++ w /\ ws w /\ LElements t vs /\ v = JArr (acc ++ vs).
Proof.
  remember (List.length s) as n eqn:Hn. revert s Hn.
  induction n as [n IH] using lt_wf_ind. intros s -> Hs acc v H.
  destruct (arr_inv s 0 false [] acc v H) as (t & p & r & x & -> & HS & Hx & [(w & -> & Hw & ->)|(r' & -> & Hr)]).
  - apply scalar_app in Hs as [Hs _]. exists t, [x], w. repeat split; auto. eapply l_elem; eauto.
    apply Hrec; auto. eapply Skim_scalar; eauto.
  - apply scalar_app in Hs as [Hs Hs']. apply scalar_tail in Hs'.
    destruct (IH (List.length r')) with (s := r') (4 := Hr) as (t' & vs & w & -> & Hw & HL & ->); auto.
    { rewrite app_length. cbn. lia. }
    exists (t ++ [44] ++ t'), (x :: vs), w. split; [now rewrite <- !app_assoc|]. split; auto. split.
    + eapply l_elems; eauto. apply Hrec; auto. eapply Skim_scalar; eauto.
    + now rewrite <- app_assoc.
Qed.
Lemma obj_all_inv s : scalar_str s = true -> forall m v, obj_loop rec 0 0 [] [] true m s = Ok v ->
  exists t ms w, s = t ++ [125] ++ w /\ ws w /\ LMembers t ms /\ v = JObj (build m ms).
Proof.
  remember (List.length s) as n eqn:Hn. revert s Hn.
  induction n as [n IH] using lt_wf_ind. intros s -> Hs m v H.
  destruct (obj_inv_k s 0 false [] [] m v H) as (tk & pk & r & -> & HK & H').
  apply scalar_app in Hs as [Hsk Hs]. apply scalar_tail in Hs.
  destruct (obj_inv_v r 0 false _ [] m v H') as (t & p & r0 & key & x & -> & HS & Hk & Hx & [(w & -> & Hw & ->)|(r' & -> & Hr)]).
  - apply scalar_app in Hs as [Hs _]. exists (tk ++ [58] ++ t), [(key, x)], w.
    split; [now rewrite <- !app_assoc|]. repeat split; auto.
    eapply l_member; eauto; apply Hrec; eauto; eapply Skim_scalar; eauto.
  - apply scalar_app in Hs as [Hs Hs']. apply scalar_tail in Hs'.
    destruct (IH (List.length r')) with (s := r') (4 := Hr) as (t' & ms & w & -> & Hw & HL & ->); auto.
    { rewrite !app_length. cbn. rewrite app_length. cbn. lia. }
    exists (tk ++ [58] ++ t ++ [44] ++ t'), ((key, x) :: ms), w. split; [cbn; repeat (rewrite <- ?app_assoc; cbn); reflexivity|].
    split; auto. split; [|reflexivity].
    eapply l_members; eauto; apply Hrec; eauto; eapply Skim_scalar; eauto.
Qed.
End Rec.

Lemma parse_lenient n : forall s v, scalar_str s = true -> parse_ n s = Ok v -> LValue s v.
Proof.
  induction n as [|n IH]; intros s v Hs; [discriminate|]. cbn [parse_].
  destruct s as [|c r]; [discriminate|].
  destruct (N.eqb_spec c 110) as [->|].
  { unfold parse_null. destruct (str_eqb _ _) eqn:E; [|discriminate]. intros [= <-]. apply str_eqb_eq in E. rewrite E. constructor. }
  destruct ((c =? 116) || (c =? 102)) eqn:Eb.
  { unfold parse_boolean. destruct (str_eqb _ (lit "true")) eqn:E.
    - intros [= <-]. apply str_eqb_eq in E. rewrite E. constructor.
    - destruct (str_eqb _ (lit "false")) eqn:E'; [|discriminate]. intros [= <-]. apply str_eqb_eq in E'. rewrite E'. constructor. }
  destruct ((c =? 45) || is_digit c) eqn:En.
  { intros H. apply parse_number_iff in H as (neg & m & e & HL & Hf & ->). now constructor. }
  destruct (N.eqb_spec c 34) as [->|].
  { intros H. apply parse_string_inv in H as (raw & cs & w & E & HC & Hw & ->); auto. cbn [tl] in E. rewrite E.
    now apply (l_str raw cs w). }
  destruct (N.eqb_spec c 91) as [->|].
  { unfold parse_array. cbn [tl]. destruct r as [|d r].
    - discriminate.
    - destruct (N.eqb_spec d 93) as [->|]. { intros [= <-]. apply (l_arr0 r). }
      intros H. apply scalar_tail in Hs.
      destruct (arr_all_inv (parse_ n) IH _ Hs _ _ H) as (t & vs & w & -> & Hw & HL & ->).
      now apply (l_arr t vs w). }
  destruct (N.eqb_spec c 123) as [->|]; [|discriminate].
  { unfold parse_object. cbn [tl]. destruct r as [|d r].
    - discriminate.
    - destruct (N.eqb_spec d 125) as [->|]. { intros [= <-]. apply (l_obj0 r). }
      intros H. apply scalar_tail in Hs.
      destruct (obj_all_inv (parse_ n) IH _ Hs _ _ H) as (t & ms & w & -> & Hw & HL & ->).
      apply (l_obj t ms _ w); auto. apply Groups_build. }
Qed.

Scheme LValue_mind := Minimality for LValue Sort Prop
  with LElements_mind := Minimality for LElements Sort Prop
  with LMembers_mind := Minimality for LMembers Sort Prop.
Combined Scheme lenient_mind from LValue_mind, LElements_mind, LMembers_mind.

Lemma LValue_nonempty s v : LValue s v -> s <> [].
Proof.
  destruct 1; try discriminate. destruct H as [s neg m e H|[] d ds f fd x xe]; try discriminate.
  destruct (Number_head _ _ _ _ H) as (c & r & -> & _). discriminate.
Qed.
Lemma LValue_str s k : LValue s (JStr k) -> exists raw w, s = [34] ++ raw ++ [34] ++ w /\ Chars raw k /\ ws w.
Proof. intros H. inversion H; subst. eauto. Qed.
Lemma elements_head_not t vs : LElements t vs -> forall r, t <> 93 :: r.
Proof.
  assert (A : forall t p v, Piece array_stop ws_char t p -> LValue p v -> exists c r, t = c :: r /\ c <> 93).
  { intros t0 p v H Hv. apply LValue_nonempty in Hv. unfold Piece in H. inversion H; subst; try congruence.
    - eexists _, _; split; eauto. intros ->. unfold ws_char in *; cbn in *; lia.
    - eexists _, _; split; eauto. intros ->. match goal with H : ~ (_ /\ _) |- _ => apply H end. unfold array_stop; auto.
    - eexists _, _; split; eauto. lia. }
  destruct 1 as [t p v Hp Hv|t p v t' vs Hp Hv _]; intros r E; destruct (A _ _ _ Hp Hv) as (c & r' & -> & Hc); cbn in E; congruence.
Qed.
Lemma members_head_not t ms : LMembers t ms -> forall r, t <> 125 :: r.
Proof.
  assert (A : forall t p k, Piece key_stop ws_char t p -> LValue p (JStr k) -> exists c r, t = c :: r /\ c <> 125).
  { intros t0 p v H Hv. apply LValue_str in Hv as (raw & w & -> & _ & _). unfold Piece in H. inversion H; subst.
    - eexists _, _; split; eauto. intros ->. unfold ws_char in *; cbn in *; lia.
    - eexists _, _; split; eauto. lia. }
  destruct 1 as [tk pk k t p v Hk Hs _ _|tk pk k t p v t' ms Hk Hs _ _ _]; intros r E; destruct (A _ _ _ Hk Hs) as (c & r' & -> & Hc); cbn in E; congruence.
Qed.

Lemma lenient_parse :
  (forall s v, LValue s v -> forall N, (List.length s < N)%nat -> parse_ N s = Ok v) /\
  (forall t vs, LElements t vs -> forall N acc w, (List.length t < N)%nat -> ws w ->
     arr_loop (parse_ N) 0 0 [] acc (t ++ [93] ++ w) = Ok (JArr (acc ++ vs))) /\
  (forall t ms, LMembers t ms -> forall N m w, (List.length t < N)%nat -> ws w ->
     obj_loop (parse_ N) 0 0 [] [] true m (t ++ [125] ++ w) = Ok (JObj (build m ms))).
Proof.
  apply lenient_mind.
  - intros [|N] HN; [inversion HN|]. reflexivity.
  - intros [|N] HN; [inversion HN|]. reflexivity.
  - intros [|N] HN; [inversion HN|]. reflexivity.
  - intros s neg m e H Hf [|N] HN; [inversion HN|]. cbn [parse_].
    assert (Hh : exists c r, s = c :: r /\ (c = 45 \/ digit c)).
    { destruct H as [s neg m e H|[] d ds f fd x xe]; [eapply Number_head; eauto| |];
        cbn [app]; eexists _, _; split; eauto. right; unfold digit; lia. }
    destruct Hh as (c & r & -> & Hc).
    rewrite if_false by (unfold digit in Hc; lia). rewrite if_false by (unfold digit in Hc; lia).
    rewrite if_true. { apply parse_number_iff. eauto 10. }
    apply orb_true_iff. destruct Hc as [->|Hc]; [left; lia|right; now apply is_digit_digit].
  - intros raw c w HC Hw [|N] HN; [inversion HN|]. cbn [parse_ app N.eqb Pos.eqb orb].
    now apply (parse_string_ok raw c w).
  - intros x [|N] HN; [inversion HN|]. reflexivity.
  - intros t vs w HL IH Hw [|N] HN; [inversion HN|]. rewrite !app_length in HN. cbn [List.length] in HN.
    cbn [parse_ app N.eqb Pos.eqb orb is_digit N.leb N.compare Pos.compare Pos.compare_cont andb].
    unfold parse_array. cbn [tl]. rewrite if_false.
    + apply (IH N [] w); auto. lia.
    + pose proof (elements_head_not _ _ HL) as Hh. destruct t as [|c t]; cbn [app].
      * exfalso. inversion HL; subst.
        -- match goal with H : Piece _ _ [] _ |- _ => inversion H; subst end.
           match goal with H : LValue [] _ |- _ => apply LValue_nonempty in H; congruence end.
        -- destruct t; discriminate.
      * destruct (N.eqb_spec c 93) as [->|]; auto. exfalso; eapply Hh; eauto.
  - intros x [|N] HN; [inversion HN|]. reflexivity.
  - intros t ms o w HL IH Ho Hw [|N] HN; [inversion HN|]. rewrite !app_length in HN. cbn [List.length] in HN.
    cbn [parse_ app N.eqb Pos.eqb orb is_digit N.leb N.compare Pos.compare Pos.compare_cont andb].
    unfold parse_object. cbn [tl]. rewrite if_false.
    + etransitivity; [apply (IH N [] w); auto; lia|]. f_equal. f_equal. eapply Groups_unique; eauto using Groups_build.
    + pose proof (members_head_not _ _ HL) as Hh. destruct t as [|c t]; cbn [app].
      * exfalso. inversion HL; destruct tk; discriminate.
      * destruct (N.eqb_spec c 125) as [->|]; auto. exfalso; eapply Hh; eauto.
  - intros t p v HP HV IH N acc w HN Hw. pose proof (Skim_length _ _ _ _ _ _ _ _ HP).
    rewrite (arr_skim _ _ _ _ _ _ _ HP). cbn [bz app]. cbn [arr_loop N.eqb Pos.eqb Z.eqb andb].
    rewrite IH by lia. now rewrite trailing_ws.
  - intros t p v t' vs HP HV IH HL IH' N acc w HN Hw. pose proof (Skim_length _ _ _ _ _ _ _ _ HP).
    rewrite !app_length in HN. cbn [List.length] in HN.
    rewrite <- !app_assoc, (arr_skim _ _ _ _ _ _ _ HP). cbn [bz app].
    rewrite (arr_comma _ _ _ _ v).
    + etransitivity; [apply IH'; auto; lia|]. now rewrite <- app_assoc.
    + apply IH. lia.
    + eapply LValue_nonempty; eauto.
    + pose proof (elements_head_not _ _ HL) as Hh. destruct t' as [|c t']; cbn [app].
      * exfalso. inversion HL; subst.
        -- match goal with H : Piece _ _ [] _ |- _ => inversion H; subst end.
           match goal with H : LValue [] _ |- _ => apply LValue_nonempty in H; congruence end.
        -- destruct t0; discriminate.
      * intros ->. eapply Hh; eauto.
  - intros tk pk k t p v HK HKV IHk HP HV IH N m w HN Hw.
    pose proof (Skim_length _ _ _ _ _ _ _ _ HK). pose proof (Skim_length _ _ _ _ _ _ _ _ HP).
    rewrite !app_length in HN. cbn [List.length] in HN.
    rewrite <- !app_assoc, (obj_skim_k _ _ _ _ _ _ _ HK). cbn [bz app]. rewrite obj_colon.
    change (obj_loop (parse_ N) 0 0 pk [] false m (t ++ 125 :: w)) with (obj_loop (parse_ N) 0 (bz false) pk [] false m (t ++ 125 :: w)).
    rewrite (obj_skim_v _ _ _ _ _ _ _ HP). cbn [bz app obj_loop N.eqb Pos.eqb Z.eqb andb negb].
    rewrite IHk, IH by lia. now rewrite trailing_ws.
  - intros tk pk k t p v t' ms HK HKV IHk HP HV IH HL IH' N m w HN Hw.
    pose proof (Skim_length _ _ _ _ _ _ _ _ HK). pose proof (Skim_length _ _ _ _ _ _ _ _ HP).
    rewrite !app_length in HN. cbn [List.length] in HN.
    rewrite <- !app_assoc, (obj_skim_k _ _ _ _ _ _ _ HK). cbn [bz app]. rewrite obj_colon.
    match goal with |- obj_loop ?r 0 0 pk [] false m ?s = _ => change (obj_loop r 0 0 pk [] false m s) with (obj_loop r 0 (bz false) pk [] false m s) end.
    rewrite <- ?app_assoc. rewrite (obj_skim_v _ _ _ _ _ _ _ HP). cbn [bz app].
    rewrite (obj_comma _ _ _ _ _ k v).
    + apply IH'; auto; lia.
    + apply IHk. lia.
    + apply IH. lia.
    + eapply LValue_nonempty; eauto.
    + eapply LValue_nonempty; eauto.
    + pose proof (members_head_not _ _ HL) as Hh. destruct t' as [|c t']; cbn [app].
      * exfalso. inversion HL; destruct tk0; discriminate.
      * intros ->. eapply Hh; eauto.
Qed.

Lemma trim_start_spec s : exists w, ws w /\ s = w ++ trim_start s /\ match trim_start s with [] => True | c :: _ => ~ ws_char c end.
Proof.
  induction s as [|c s (w & Hw & E & H)]; cbn [trim_start]. { exists []. split; [constructor|auto]. }
  destruct (is_whitespace c) eqn:Ec.
  - exists (c :: w). split; [constructor; auto; now apply is_whitespace_ws|]. split; auto. cbn. now f_equal.
  - exists []. split; [constructor|]. split; auto. rewrite <- is_whitespace_ws. congruence.
Qed.
Lemma trim_ws_spec s : exists w1 w2, ws w1 /\ ws w2 /\ s = w1 ++ trim_ws s ++ w2 /\
  match trim_ws s with [] => True | c :: _ => ~ ws_char c end /\ match rev (trim_ws s) with [] => True | c :: _ => ~ ws_char c end.
Proof.
  unfold trim_ws. destruct (trim_start_spec s) as (w1 & H1 & E1 & N1). set (t := trim_start s) in *.
  destruct (trim_start_spec (rev t)) as (w2 & H2 & E2 & N2). set (u := trim_start (rev t)) in *.
  exists w1, (rev w2). split; auto. split; [now apply ws_rev|].
  assert (Et : t = rev u ++ rev w2) by (rewrite <- rev_app_distr, <- E2, rev_involutive; auto).
  split; [now rewrite <- Et|]. split; [|now rewrite rev_involutive].
  destruct (rev u) as [|c r] eqn:Er; auto. rewrite Et in N1. exact N1.
Qed.

Theorem parse_iff_lenient s v : scalar_str s = true -> (parse s = Ok v <-> LenientText s v).
Proof.
  intros Hs. split.
  - intros H. destruct (trim_ws_spec s) as (w1 & w2 & H1 & H2 & E & N1 & N2).
    exists w1, (trim_ws s), w2. repeat split; auto. unfold parse in H. eapply parse_lenient; eauto.
    rewrite E in Hs. apply scalar_app in Hs as [_ Hs]. now apply scalar_app in Hs as [Hs _].
  - intros (w1 & t & w2 & H1 & H2 & -> & N1 & N2 & HL). rewrite parse_ws by auto. unfold parse.
    assert (Et : trim_ws t = t).
    { apply trim_ws_id. pose proof (LValue_nonempty _ _ HL) as Hn. split.
      - destruct t as [|c r]; [congruence|]. eauto.
      - destruct (rev t) as [|c r] eqn:Er. { apply (f_equal (@rev _)) in Er. rewrite rev_involutive in Er. cbn in Er. congruence. }
        exists (rev r), c. split; auto. rewrite <- (rev_involutive t), Er. reflexivity. }
    rewrite Et. apply (proj1 lenient_parse); auto.
Qed.

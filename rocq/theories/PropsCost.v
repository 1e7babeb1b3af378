(** C59: how much of the text the parser reads, and how often. *)
From Verif Require Import Base F64 Utf8 Json Parse Cost SpecGrammar MapProofs Utf8Proofs StringProofs NumberProofs ScanProofs SpecDepth PropsDepth PropsParse32.
From Coq Require Import ZifyBool ZifyNat ZifyN.

(** ** Counting changes nothing *)
Lemma fst_tick {A} n (x : counted A) : fst (tick n x) = fst x. Proof. reflexivity. Qed.
Lemma fst_bind {A B} (x : counted A) (k : A -> counted B) : fst (bind_c x k) = match fst x with Ok a => fst (k a) | Err e => Err e | Panic => Panic | Fuel => Fuel end.
Proof. unfold bind_c. destruct (fst x); reflexivity. Qed.
Lemma fst_trailing k s : fst (trailing_c k s) = trailing k s.
Proof. induction s as [|c r IH]; auto. cbn [trailing_c trailing]. rewrite fst_tick. now destruct (is_whitespace c). Qed.
Lemma fst_arr rec rec' s : (forall t, fst (rec t) = rec' t) -> forall i j inner acc, fst (arr_loop_c rec i j inner acc s) = arr_loop rec' i j inner acc s.
Proof.
  intros Hr. remember (List.length s) as n eqn:Hn. revert s Hn. induction n as [n IH0] using lt_wf_ind. intros s -> i j inner acc.
  assert (IH : forall s' i j inner acc, (List.length s' < List.length s)%nat -> fst (arr_loop_c rec i j inner acc s') = arr_loop rec' i j inner acc s') by (intros; eapply IH0; eauto). clear IH0.
  destruct s as [|c r]; cbn [arr_loop arr_loop_c]; [reflexivity|]. cbn [List.length] in IH.
  destruct ((c =? 93) && _). { rewrite fst_tick, fst_bind, Hr. destruct (rec' inner); auto. rewrite fst_bind, fst_trailing. reflexivity. }
  destruct ((c =? 44) && _). { destruct inner; [reflexivity|]. destruct (match r with [] => _ | _ => _ end); [reflexivity|]. rewrite fst_tick, fst_bind, Hr. destruct (rec' _); auto. }
  destruct (c =? 34). { rewrite fst_tick. apply IH. lia. }
  destruct ((c =? 91) || _). { rewrite fst_tick. apply IH. lia. }
  destruct ((c =? 93) || _). { rewrite fst_tick. apply IH. lia. }
  destruct (c =? 92). { destruct r; [reflexivity|]. rewrite fst_tick. apply IH. cbn [List.length]. lia. }
  destruct (_ && is_whitespace c); rewrite fst_tick; apply IH; lia.
Qed.
Lemma fst_obj rec rec' s : (forall t, fst (rec t) = rec' t) -> forall i j k v on m, fst (obj_loop_c rec i j k v on m s) = obj_loop rec' i j k v on m s.
Proof.
  intros Hr. remember (List.length s) as n eqn:Hn. revert s Hn. induction n as [n IH0] using lt_wf_ind. intros s -> i j k v on m.
  assert (IH : forall s' i j k v on m, (List.length s' < List.length s)%nat -> fst (obj_loop_c rec i j k v on m s') = obj_loop rec' i j k v on m s') by (intros; eapply IH0; eauto). clear IH0.
  destruct s as [|c r]; cbn [obj_loop obj_loop_c]; [reflexivity|]. cbn [List.length] in IH.
  destruct ((c =? 125) && _). { rewrite fst_tick. pose proof (Hr k) as Hk. destruct (rec k) as [x n]. cbn [fst] in Hk. subst x. destruct (rec' k) as [[]| | |]; auto.
    rewrite fst_tick, fst_bind, Hr. destruct (rec' v); auto. rewrite fst_bind, fst_trailing. reflexivity. }
  destruct ((c =? 44) && _). { destruct k as [|k0 k]; [reflexivity|]. destruct v as [|v0 v]; [reflexivity|]. destruct (match r with [] => _ | _ => _ end); [reflexivity|]. rewrite fst_tick.
    pose proof (Hr (k0 :: k)) as Hk. destruct (rec (k0 :: k)) as [x n]. cbn [fst] in Hk. subst x. destruct (rec' (k0 :: k)) as [[]| | |]; auto. rewrite fst_tick, fst_bind, Hr. destruct (rec' _); auto. }
  destruct ((c =? 58) && _). { rewrite fst_tick. apply IH. lia. }
  destruct (c =? 34). { rewrite fst_tick. apply IH. lia. }
  destruct ((c =? 91) || _). { rewrite fst_tick. apply IH. lia. }
  destruct ((c =? 93) || _). { rewrite fst_tick. apply IH. lia. }
  destruct (c =? 92). { destruct r; [reflexivity|]. rewrite fst_tick. apply IH. cbn [List.length]. lia. }
  destruct (_ && is_whitespace c); rewrite fst_tick; apply IH; lia.
Qed.
Lemma fst_parse n : forall s, fst (parse_c n s) = parse_ n s.
Proof.
  induction n as [|n IH]; intros s; [reflexivity|]. cbn [parse_c parse_]. destruct s as [|c r]; [reflexivity|].
  destruct (c =? 110); [reflexivity|]. destruct (_ || _); [reflexivity|]. destruct (_ || _); [reflexivity|]. destruct (c =? 34); [reflexivity|].
  destruct (c =? 91). { unfold parse_array_c, parse_array. cbn [tl]. destruct (match r with [] => _ | _ => _ end); [reflexivity|]. rewrite fst_tick. now apply fst_arr. }
  destruct (c =? 123). { unfold parse_object_c, parse_object. cbn [tl]. destruct (match r with [] => _ | _ => _ end); [reflexivity|]. rewrite fst_tick. now apply fst_obj. }
  reflexivity.
Qed.

(** ** The bound *)
Notation len s := (N.of_nat (List.length s)).
Lemma snd_bind {A B} (x : counted A) (k : A -> counted B) n : (forall a, snd (k a) <= n) -> snd (bind_c x k) <= snd x + n.
Proof. intros H. unfold bind_c. destruct (fst x) as [a| | |]; cbn [tick fst snd]; [pose proof (H a); lia|lia|lia|lia]. Qed.
Lemma snd_tick {A} n (x : counted A) : snd (tick n x) = n + snd x. Proof. reflexivity. Qed.
Lemma snd_trailing k s : snd (trailing_c k s) <= len s.
Proof. induction s as [|c r IH]; [cbn; lia|]. cbn [trailing_c List.length]. rewrite snd_tick. destruct (is_whitespace c); cbn [snd]; lia. Qed.
Section Bound.
Variable rec : str -> counted json.
Variable H : Z.
Variable K : N.
Hypothesis Hrec : forall t, (height t <= H)%Z -> snd (rec t) <= K * len t.
Lemma rec_bound a n h : built a n h -> (h <= H)%Z -> snd (rec a) <= K * len a.
Proof. intros B L. apply Hrec. now rewrite (height_of_built _ _ _ B). Qed.
Lemma arr_cost s : forall i j inner acc h, built inner i h -> (h <= H)%Z -> (i + height s <= H)%Z ->
  snd (arr_loop_c rec i j inner acc s) <= len s + K * (len inner + len s).
Proof.
  remember (List.length s) as n eqn:Hn. revert s Hn. induction n as [n IH0] using lt_wf_ind. intros s -> i j inner acc h B Hh Hs.
  assert (IH : forall s' i j inner acc h, (List.length s' < List.length s)%nat -> built inner i h -> (h <= H)%Z -> (i + height s' <= H)%Z ->
    snd (arr_loop_c rec i j inner acc s') <= len s' + K * (len inner + len s')) by (intros; eapply IH0; eauto). clear IH0.
  assert (Hr : snd (rec inner) <= K * len inner) by (eapply rec_bound; eauto).
  destruct s as [|c r]; cbn [arr_loop_c]; [cbn; lia|]. cbn [List.length] in *. rewrite Nat2N.inj_succ.
  destruct ((c =? 93) && _).
  { rewrite snd_tick. pose proof (snd_bind (rec inner) (fun v => bind_c (trailing_c ParseArrayError r) (fun _ => (Ok (JArr (acc ++ [v])), 0))) (len r)) as Q.
    assert (snd (bind_c (rec inner) (fun v => bind_c (trailing_c ParseArrayError r) (fun _ => (Ok (JArr (acc ++ [v])), 0)))) <= snd (rec inner) + len r).
    { apply Q. intros a. pose proof (snd_bind (trailing_c ParseArrayError r) (fun _ => (Ok (JArr (acc ++ [a])), 0)) 0 ltac:(cbn; lia)) as Q'. pose proof (snd_trailing ParseArrayError r). lia. }
    nia. }
  destruct ((c =? 44) && _) eqn:Ec.
  { destruct inner; [cbn [snd]; lia|]. destruct (match r with [] => _ | _ => _ end); [cbn [snd]; lia|]. rewrite snd_tick.
    assert (c = 44 /\ i = 0%Z) as [-> ->] by lia. rewrite height_cons in Hs by discriminate. change (lv 44) with 0%Z in Hs. pose proof (height_nonneg r).
    pose proof (snd_bind (rec (n :: inner)) (fun v => arr_loop_c rec 0 j [] (acc ++ [v]) r) (len r + K * len r)) as Q.
    assert (Q' : forall a, snd (arr_loop_c rec 0 j [] (acc ++ [a]) r) <= len r + K * len r). { intros a. apply (IH r 0%Z j [] (acc ++ [a]) 0%Z); [lia|constructor|lia|lia]. }
    specialize (Q Q'). nia. }
  clear Ec. pose proof (height_nonneg r) as Hp.
  destruct (c =? 92) eqn:E92.
  { apply N.eqb_eq in E92. subst c. cbn [N.eqb Pos.eqb orb]. destruct r as [|e r1]; [cbn [snd]; lia|]. rewrite snd_tick. cbn [List.length] in *.
    assert (Q : snd (arr_loop_c rec i j (inner ++ [92; e]) acc r1) <= len r1 + K * (len (inner ++ [92; e]) + len r1)) by (eapply IH; [lia|apply b_esc; eauto|auto|exact Hs]).
    rewrite app_length in Q. cbn [List.length] in Q. replace (N.of_nat (List.length inner + 2)) with (len inner + 2) in Q by lia. nia. }
  apply N.eqb_neq in E92. rewrite height_cons in Hs by auto.
  pose proof (b_chr _ _ _ c E92 B) as B'. unfold lv in *.
  assert (Step : forall i' j' h', built (inner ++ [c]) i' h' -> (h' <= H)%Z -> (i' + height r <= H)%Z -> snd (tick 1 (arr_loop_c rec i' j' (inner ++ [c]) acc r)) <= N.succ (len r) + K * (len inner + N.succ (len r))).
  { intros i' j' h' Bi Li Hi. rewrite snd_tick. assert (Q : snd (arr_loop_c rec i' j' (inner ++ [c]) acc r) <= len r + K * (len (inner ++ [c]) + len r)) by (eapply IH; eauto).
    rewrite app_length in Q. cbn [List.length] in Q. replace (N.of_nat (List.length inner + 1)) with (len inner + 1) in Q by lia. nia. }
  destruct (c =? 34) eqn:E34.
  { apply N.eqb_eq in E34. subst. cbn [N.eqb Pos.eqb orb] in *. rewrite Z.add_0_r in B'. eapply Step; [exact B'|lia|lia]. }
  destruct ((c =? 91) || (c =? 123)). { eapply Step; [exact B'|lia|lia]. }
  destruct ((c =? 93) || (c =? 125)). { eapply Step; [exact B'|lia|lia]. }
  rewrite Z.add_0_r in B'. destruct ((i =? 0)%Z && (j =? 0)%Z && is_whitespace c); [|eapply Step; [exact B'|lia|lia]].
  rewrite snd_tick. assert (Q : snd (arr_loop_c rec i j inner acc r) <= len r + K * (len inner + len r)) by (eapply IH; [lia|eauto|lia|lia]). nia.
Qed.
Definition member_c (m : hmap) (k v : str) (next : hmap -> counted json) : counted json :=
        match rec k with
        | (Ok (JStr key), n) => tick n (bind_c (rec v) (fun x => next (object_insert m key x)))
        | (Panic, n) => (Panic, n) | (Fuel, n) => (Fuel, n)
        | (_, n) => (fail ParseObjectError (lit "error parsing key string."), n)
        end.
Lemma member_cost m k v next n : (forall m', snd (next m') <= n) -> snd (member_c m k v next) <= snd (rec k) + snd (rec v) + n.
Proof.
  intros Hn. unfold member_c. destruct (rec k) as [[[]| | |] c]; cbn [snd]; try lia. rewrite snd_tick.
  pose proof (snd_bind (rec v) (fun x => next (object_insert m s x)) n (fun a => Hn _)). lia.
Qed.
Lemma obj_cost s : forall i j k v (on : bool) m h h', (if on then built k i h /\ v = [] else exists nk, built k nk h /\ built v i h') -> (h <= H)%Z -> (h' <= H)%Z -> (0 <= H)%Z -> (i + height s <= H)%Z ->
  snd (obj_loop_c rec i j k v on m s) <= len s + K * (len k + len v + len s).
Proof.
  remember (List.length s) as n eqn:Hn. revert s Hn. induction n as [n IH0] using lt_wf_ind. intros s -> i j k v on m h h' B Hh Hh' H0 Hs.
  assert (IH : forall s' i j k v (on : bool) m h h', (List.length s' < List.length s)%nat -> (if on then built k i h /\ v = [] else exists nk, built k nk h /\ built v i h') -> (h <= H)%Z -> (h' <= H)%Z -> (0 <= H)%Z -> (i + height s' <= H)%Z ->
    snd (obj_loop_c rec i j k v on m s') <= len s' + K * (len k + len v + len s')) by (intros; eapply IH0; eauto). clear IH0.
  assert (Hrk : snd (rec k) <= K * len k) by (destruct on; [destruct B as [B _]|destruct B as (nk & B & _)]; eapply rec_bound; eauto).
  assert (Hrv : snd (rec v) <= K * len v) by (destruct on; [destruct B as [_ ->]; apply (rec_bound [] 0 0); [constructor|lia]|destruct B as (nk & _ & B); eapply rec_bound; eauto]).
  destruct s as [|c r]; cbn [obj_loop_c]; [cbn; lia|]. cbn [List.length] in *. rewrite Nat2N.inj_succ. pose proof (height_nonneg r) as Hp.
  destruct ((c =? 125) && _).
  { rewrite snd_tick. pose proof (member_cost m k v (fun m' => bind_c (trailing_c ParseObjectError r) (fun _ => (Ok (JObj m'), 0))) (len r)) as Q.
    unfold member_c in Q. match type of Q with ?P -> _ => assert (Q' : P) end.
    { intros m'. pose proof (snd_bind (trailing_c ParseObjectError r) (fun _ => (Ok (JObj m'), 0)) 0 ltac:(cbn; lia)) as Q'. pose proof (snd_trailing ParseObjectError r). lia. }
    specialize (Q Q'). nia. }
  destruct ((c =? 44) && _) eqn:Ec.
  { destruct k as [|k0 k]; [cbn [snd]; lia|]. destruct v as [|v0 v]; [cbn [snd]; lia|]. destruct (match r with [] => _ | _ => _ end); [cbn [snd]; lia|]. rewrite snd_tick.
    assert (c = 44 /\ i = 0%Z) as [-> ->] by lia. rewrite height_cons in Hs by discriminate. change (lv 44) with 0%Z in Hs.
    pose proof (member_cost m (k0 :: k) (v0 :: v) (fun m' => obj_loop_c rec 0 j [] [] true m' r) (len r + K * len r)) as Q.
    unfold member_c in Q. match type of Q with ?P -> _ => assert (Q' : P) end.
    { intros m'. pose proof (IH r 0%Z j [] [] true m' 0%Z 0%Z) as Q'. cbn [List.length] in Q'. replace (0 + 0 + len r) with (len r) in Q' by lia. apply Q'; try lia. split; [constructor|auto]. }
    specialize (Q Q'). cbn [List.length] in *. nia. }
  clear Ec.
  destruct ((c =? 58) && _) eqn:E58.
  { assert (c = 58 /\ i = 0%Z) as [-> ->] by lia. rewrite height_cons in Hs by discriminate. change (lv 58) with 0%Z in Hs. rewrite snd_tick.
    assert (Q : snd (obj_loop_c rec 0 j k v false m r) <= len r + K * (len k + len v + len r)).
    { destruct on; [destruct B as [B ->]; apply (IH r 0%Z j k [] false m h 0%Z); try lia; exists 0%Z; split; [auto|constructor]|apply (IH r 0%Z j k v false m h h'); auto; lia]. }
    nia. }
  clear E58.
  assert (Step : forall i' j' x s', (List.length s' < S (List.length r))%nat -> (forall a n h0, built a n h0 -> n = i -> (h0 <= H)%Z -> exists h1, built (a ++ x) i' h1 /\ (h1 <= H)%Z) -> (i' + height s' <= H)%Z ->
     snd (obj_loop_c rec i' j' (fst (if on then (k ++ x, v) else (k, v ++ x))) (snd (if on then (k ++ x, v) else (k, v ++ x))) on m s') <= len s' + K * (len k + len v + len x + len s')).
  { intros i' j' x s' Hl Hb Hi. destruct on; cbn [fst snd].
    - destruct B as [B ->]. destruct (Hb _ _ _ B eq_refl Hh) as (h1 & B1 & L1). pose proof (IH s' i' j' (k ++ x) [] true m h1 0%Z Hl (conj B1 eq_refl) L1 H0 H0 Hi) as Q.
      rewrite app_length, Nat2N.inj_add in Q. etransitivity; [exact Q|]. apply N.add_le_mono_l, N.mul_le_mono_l. lia.
    - destruct B as (nk & Bk & Bv). destruct (Hb _ _ _ Bv eq_refl Hh') as (h1 & B1 & L1). pose proof (IH s' i' j' k (v ++ x) false m h h1 Hl (ex_intro _ nk (conj Bk B1)) Hh L1 H0 Hi) as Q.
      rewrite app_length, Nat2N.inj_add in Q. etransitivity; [exact Q|]. apply N.add_le_mono_l, N.mul_le_mono_l. lia. }
  destruct (c =? 92) eqn:E92.
  { apply N.eqb_eq in E92. subst c. cbn [N.eqb Pos.eqb orb]. destruct r as [|e r1]; [cbn [snd]; lia|]. rewrite snd_tick.
    pose proof (Step i j [92; e] r1 ltac:(cbn; lia) ltac:(intros a n h0 Ba -> L; exists h0; split; auto; now apply b_esc) Hs) as Q. cbn [List.length] in *. nia. }
  apply N.eqb_neq in E92. rewrite height_cons in Hs by auto.
  assert (Chr : forall a n h0, built a n h0 -> n = i -> (h0 <= H)%Z -> exists h1, built (a ++ [c]) (i + lv c) h1 /\ (h1 <= H)%Z).
  { intros a n h0 Ba -> L. exists (Z.max h0 (i + lv c)). split; [now apply b_chr|]. lia. }
  unfold lv in Hs, Chr.
  assert (Step1 : forall i' j', (forall a n h0, built a n h0 -> n = i -> (h0 <= H)%Z -> exists h1, built (a ++ [c]) i' h1 /\ (h1 <= H)%Z) -> (i' + height r <= H)%Z ->
     snd (tick 1 (obj_loop_c rec i' j' (fst (if on then (k ++ [c], v) else (k, v ++ [c]))) (snd (if on then (k ++ [c], v) else (k, v ++ [c]))) on m r)) <= N.succ (len r) + K * (len k + len v + N.succ (len r))).
  { intros i' j' Ci Li. rewrite snd_tick. pose proof (Step i' j' [c] r ltac:(lia) Ci Li) as Q. cbn [List.length] in Q. nia. }
  destruct (c =? 34) eqn:E34.
  { apply N.eqb_eq in E34. subst. cbn [N.eqb Pos.eqb orb] in *. rewrite Z.add_0_r in Chr. apply Step1; auto. lia. }
  destruct ((c =? 91) || (c =? 123)). { apply Step1; auto. lia. }
  destruct ((c =? 93) || (c =? 125)). { apply Step1; auto. lia. }
  rewrite Z.add_0_r in Chr. destruct ((i =? 0)%Z && (j =? 0)%Z && is_whitespace c); [|apply Step1; auto; lia]. rewrite snd_tick.
  assert (Q : snd (obj_loop_c rec i j k v on m r) <= len r + K * (len k + len v + len r)) by (apply (IH r i j k v on m h h'); auto; lia). nia.
Qed.
End Bound.
Lemma parse_cost n : forall s, snd (parse_c n s) <= (Z.to_N (height s) + 2) * len s.
Proof.
  induction n as [|n IH]; intros s; [cbn; lia|]. pose proof (height_nonneg s) as Hs. cbn [parse_c]. destruct s as [|c r]; [cbn; lia|]. unfold twice.
  destruct (c =? 110); [cbn [snd]; nia|]. destruct (_ || _); [cbn [snd]; nia|]. destruct (_ || _); [cbn [snd]; nia|]. destruct (c =? 34); [cbn [snd]; nia|].
  pose proof (height_nonneg r) as Hr. assert (Hl : len (c :: r) = len r + 1) by (cbn [List.length]; lia).
  destruct (c =? 91) eqn:E.
  { apply N.eqb_eq in E. subst. rewrite height_cons in * by discriminate. change (lv 91) with 1%Z in *. rewrite Hl. unfold parse_array_c. cbn [tl]. destruct (match r with [] => _ | _ => _ end); [cbn [snd]; nia|].
    rewrite snd_tick. assert (Q : snd (arr_loop_c (parse_c n) 0 0 [] [] r) <= len r + (Z.to_N (height r) + 2) * (0 + len r)).
    { apply (arr_cost _ (height r)) with (h := 0%Z); [|constructor|lia|lia]. intros t Ht. etransitivity; [apply IH|]. apply N.mul_le_mono_r. pose proof (height_nonneg t). lia. }
    replace (Z.to_N (Z.max 0 (1 + height r))) with (Z.to_N (height r) + 1) by lia. nia. }
  destruct (c =? 123) eqn:E'.
  { apply N.eqb_eq in E'. subst. rewrite height_cons in * by discriminate. change (lv 123) with 1%Z in *. rewrite Hl. unfold parse_object_c. cbn [tl]. destruct (match r with [] => _ | _ => _ end); [cbn [snd]; nia|].
    rewrite snd_tick. assert (Q : snd (obj_loop_c (parse_c n) 0 0 [] [] true [] r) <= len r + (Z.to_N (height r) + 2) * (0 + 0 + len r)).
    { apply (obj_cost _ (height r)) with (h := 0%Z) (h' := 0%Z); [|split; [constructor|auto]|lia|lia|lia|lia]. intros t Ht. etransitivity; [apply IH|]. apply N.mul_le_mono_r. pose proof (height_nonneg t). lia. }
    replace (Z.to_N (Z.max 0 (1 + height r))) with (Z.to_N (height r) + 1) by lia. nia. }
  cbn [snd]. nia.
Qed.

(** ** Nested arrays *)
Lemma tick_tick {A} a b (x : counted A) : tick a (tick b x) = tick (a + b) x.
Proof. destruct x. unfold tick. cbn. f_equal. lia. Qed.
Lemma tick_0 {A} (x : counted A) : tick 0 x = x. Proof. destruct x. reflexivity. Qed.
Lemma arr_open_c rec n : forall i j inner acc r, arr_loop_c rec i j inner acc (repeat 91 n ++ r) = tick (N.of_nat n) (arr_loop_c rec (i + Z.of_nat n) j (inner ++ repeat 91 n) acc r).
Proof.
  induction n as [|n IH]; intros i j inner acc r; [cbn [repeat app Z.of_nat N.of_nat]; now rewrite tick_0, Z.add_0_r, app_nil_r|].
  cbn [repeat app]. cbn [arr_loop_c N.eqb Pos.eqb andb orb]. rewrite IH, <- app_assoc, tick_tick. cbn [app]. f_equal; [lia|]. f_equal. lia.
Qed.
Lemma arr_shut_c rec n : forall inner acc r, arr_loop_c rec (Z.of_nat n) 0 inner acc (repeat 93 n ++ r) = tick (N.of_nat n) (arr_loop_c rec 0 0 (inner ++ repeat 93 n) acc r).
Proof.
  induction n as [|n IH]; intros inner acc r; [cbn [repeat app Z.of_nat N.of_nat]; now rewrite tick_0, app_nil_r|].
  cbn [repeat app]. cbn [arr_loop_c N.eqb Pos.eqb]. replace (Z.of_nat (S n) =? 0)%Z with false by lia. cbn [andb orb].
  replace (Z.of_nat (S n) - 1)%Z with (Z.of_nat n) by lia. rewrite IH, <- app_assoc, tick_tick. cbn [app]. f_equal. lia.
Qed.
Lemma bind_c_le {A B} (x : counted A) (k : A -> counted B) : snd x <= snd (bind_c x k).
Proof. unfold bind_c. destruct (fst x); cbn [tick snd]; lia. Qed.
Definition brackets (n : nat) : str := repeat 91 n ++ repeat 93 n.
Lemma brackets_cost n : forall f, (n < f)%nat -> N.of_nat n * N.of_nat n <= snd (parse_c f (brackets (S n))).
Proof.
  induction n as [|n IH]; intros f Hf; [lia|]. destruct f as [|f]; [lia|]. specialize (IH f ltac:(lia)). unfold brackets.
  change (repeat 91 (S (S n)) ++ repeat 93 (S (S n))) with (91 :: repeat 91 (S n) ++ repeat 93 (S (S n))).
  cbn [parse_c N.eqb Pos.eqb orb andb is_digit N.leb N.compare Pos.compare Pos.compare_cont]. unfold parse_array_c. cbn [tl].
  change (match repeat 91 (S n) ++ repeat 93 (S (S n)) with [] => false | c :: _ => c =? 93 end) with false. cbv iota.
  rewrite snd_tick, arr_open_c, snd_tick, Z.add_0_l, (repeat_snoc 93), arr_shut_c, snd_tick. cbn [app].
  change ((91 :: repeat 91 n) ++ 93 :: repeat 93 n) with (brackets (S n)). fold (brackets (S n)).
  cbn [arr_loop_c N.eqb Pos.eqb andb Z.eqb]. rewrite snd_tick.
  pose proof (bind_c_le (parse_c f (brackets (S n))) (fun v => bind_c (trailing_c ParseArrayError []) (fun _ => (Ok (JArr ([] ++ [v])), 0)))) as Q. cbn [app] in Q.
  change (91 :: repeat 91 n ++ 93 :: repeat 93 n) with (brackets (S n)). set (q := snd (bind_c _ _)) in *. lia.
Qed.

(** ** C59 *)
(** The counting parser is the parser. *)
Theorem counting_changes_nothing s : fst (parse_counting s) = parse s.
Proof. apply fst_parse. Qed.
(** Each character is read at most as often as the text has levels, plus three times; in particular at most three times more often than the text has opening brackets. *)
Theorem reading_cost s : steps s <= (Z.to_N (height s) + 3) * len s /\ steps s <= (N.of_nat (openings s) + 3) * len s.
Proof.
  assert (Q : steps s <= (Z.to_N (height s) + 3) * len s).
  { unfold steps, parse_counting. rewrite snd_tick. pose proof (parse_cost (S (List.length (trim_ws s))) (trim_ws s)) as Q. rewrite height_trim in Q. pose proof (trim_length s) as L.
    assert ((Z.to_N (height s) + 2) * len (trim_ws s) <= (Z.to_N (height s) + 2) * len s) by (apply N.mul_le_mono_l; lia). lia. }
  split; [exact Q|]. etransitivity; [exact Q|]. apply N.mul_le_mono_r. pose proof (height_openings s). lia.
Qed.
(** So it is never more than quadratic in the length, and nested arrays make it quadratic. *)
Theorem reading_cost_is_quadratic : (forall s, steps s <= (len s + 3) * len s) /\ forall n, len (brackets n) = 2 * N.of_nat n /\ (N.of_nat n - 1) * (N.of_nat n - 1) <= steps (brackets n).
Proof.
  split.
  - intros s. destruct (reading_cost s) as [_ Q]. etransitivity; [exact Q|]. apply N.mul_le_mono_r. unfold openings. assert (F : (List.length (filter (fun c => ((c =? 91) || (c =? 123))%N) s) <= List.length s)%nat) by (clear; induction s as [|c s IH]; cbn; [lia|destruct (_ || _); cbn; lia]). lia.
  - intros n. split; [unfold brackets; rewrite app_length, !repeat_length; lia|]. destruct n as [|n]; [lia|]. unfold steps, parse_counting. rewrite snd_tick.
    assert (Tr : trim_ws (brackets (S n)) = brackets (S n)). { unfold brackets. rewrite (repeat_snoc 93). cbn [repeat app]. rewrite app_assoc. apply trim_id; reflexivity. }
    rewrite Tr. pose proof (brackets_cost n (S (List.length (brackets (S n))))) as Q. assert (List.length (brackets (S n)) = 2 * S n)%nat by (unfold brackets; rewrite app_length, !repeat_length; lia).
    specialize (Q ltac:(lia)). replace (N.of_nat (S n) - 1) with (N.of_nat n) by lia. lia.
Qed.
Example cost_example : steps (lit "[[[[]]]]") = 8 + 8 + 6 + 4 + 1 /\ steps (lit "[1, 2, [3]]") = 31 /\ height (lit "[1, 2, [3]]") = 2%Z.
Proof. vm_compute. auto. Qed.

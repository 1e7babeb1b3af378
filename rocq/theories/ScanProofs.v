(** The array and object scanners. *)
From Verif Require Import Base F64 Utf8 Json Parse Print SpecGrammar MapProofs Utf8Proofs StringProofs NumberProofs.
From Coq Require Import ZifyBool ZifyNat ZifyN.

Notation toggle j := (if (j <=? 0)%Z then (j + 1)%Z else (j - 1)%Z).

(** [Verb i j s i' j']: from counters [i], [j] the scanners copy all of [s] into the current piece,
    ending with counters [i'], [j']. *)
Inductive Verb : Z -> Z -> str -> Z -> Z -> Prop :=
| vb_nil i j : Verb i j [] i j
| vb_quote i j s i' j' : Verb i (toggle j) s i' j' -> Verb i j (34 :: s) i' j'
| vb_open i j c s i' j' : c = 91 \/ c = 123 -> Verb (i + 1) j s i' j' -> Verb i j (c :: s) i' j'
| vb_close i j c s i' j' : c = 93 \/ c = 125 -> ~ (i = 0 /\ j = 0)%Z -> Verb (i - 1) j s i' j' -> Verb i j (c :: s) i' j'
| vb_esc i j e s i' j' : Verb i j s i' j' -> Verb i j (92 :: e :: s) i' j'
| vb_other i j c s i' j' : c <> 34 -> c <> 91 -> c <> 123 -> c <> 93 -> c <> 125 -> c <> 92 ->
    ((i = 0 /\ j = 0)%Z -> ~ ws_char c /\ c <> 44 /\ c <> 58) -> Verb i j s i' j' -> Verb i j (c :: s) i' j'.

Lemma Verb_app i j s i1 j1 t i2 j2 : Verb i j s i1 j1 -> Verb i1 j1 t i2 j2 -> Verb i j (s ++ t) i2 j2.
Proof.
  induction 1; cbn [app]; intros H'; auto;
    [apply vb_quote|apply vb_open|apply vb_close|apply vb_esc|apply vb_other]; auto.
Qed.

Section Steps.
Variable rec : str -> res json.

Lemma arr_verb i j s i' j' : Verb i j s i' j' -> forall inner acc r,
  arr_loop rec i j inner acc (s ++ r) = arr_loop rec i' j' (inner ++ s) acc r.
Proof.
  induction 1 as [i j|i j s i' j' H IH|i j c s i' j' Hc H IH|i j c s i' j' Hc Hn H IH|i j e s i' j' H IH
                 |i j c s i' j' H1 H2 H3 H4 H5 H6 Hn H IH]; intros inner acc r; cbn [app].
  - now rewrite app_nil_r.
  - cbn [arr_loop]. change (34 =? 93) with false. change (34 =? 44) with false. cbn [andb N.eqb Pos.eqb].
    rewrite IH, <- app_assoc. reflexivity.
  - cbn [arr_loop]. rewrite if_false by lia. rewrite if_false by lia. rewrite if_false by lia. rewrite if_true by lia.
    rewrite IH, <- app_assoc. reflexivity.
  - cbn [arr_loop]. rewrite if_false by lia. rewrite if_false by lia. rewrite if_false by lia. rewrite if_false by lia.
    rewrite if_true by lia. rewrite IH, <- app_assoc. reflexivity.
  - cbn [arr_loop andb N.eqb Pos.eqb orb]. rewrite IH, <- app_assoc. reflexivity.
  - cbn [arr_loop]. rewrite if_false by lia. rewrite if_false by lia. rewrite if_false by lia. rewrite if_false by lia.
    rewrite if_false by lia. rewrite if_false by lia.
    rewrite if_false.
    + rewrite IH, <- app_assoc. reflexivity.
    + destruct (is_whitespace c) eqn:E; [|lia]. apply is_whitespace_ws in E.
      destruct ((i =? 0)%Z && (j =? 0)%Z) eqn:E0; auto. exfalso. assert (Hz : (i = 0 /\ j = 0)%Z) by lia. destruct (Hn Hz); auto.
Qed.

Lemma arr_ws w : ws w -> forall inner acc r, arr_loop rec 0 0 inner acc (w ++ r) = arr_loop rec 0 0 inner acc r.
Proof.
  induction 1 as [|c w Hc H IH]; intros inner acc r; cbn [app]; auto.
  cbn [arr_loop]. pose proof Hc as Hc'. apply is_whitespace_ws in Hc'.
  unfold ws_char in Hc; cbn in Hc. rewrite if_false by lia. rewrite if_false by lia. rewrite if_false by lia.
  rewrite if_false by lia. rewrite if_false by lia. rewrite if_false by lia.
  rewrite Hc'. cbn. apply IH.
Qed.

Lemma obj_verb_v i j s i' j' : Verb i j s i' j' -> forall k v m r,
  obj_loop rec i j k v false m (s ++ r) = obj_loop rec i' j' k (v ++ s) false m r.
Proof.
  induction 1 as [i j|i j s i' j' H IH|i j c s i' j' Hc H IH|i j c s i' j' Hc Hn H IH|i j e s i' j' H IH
                 |i j c s i' j' H1 H2 H3 H4 H5 H6 Hn H IH]; intros k v m r; cbn [app].
  - now rewrite app_nil_r.
  - cbn [obj_loop]. cbn [andb N.eqb Pos.eqb fst snd].
    rewrite IH, <- app_assoc. reflexivity.
  - cbn [obj_loop fst snd]. rewrite if_false by lia. rewrite if_false by lia. rewrite if_false by lia. rewrite if_false by lia.
    rewrite if_true by lia. rewrite IH, <- app_assoc. reflexivity.
  - cbn [obj_loop fst snd]. rewrite if_false by lia. rewrite if_false by lia. rewrite if_false by lia. rewrite if_false by lia.
    rewrite if_false by lia. rewrite if_true by lia. rewrite IH, <- app_assoc. reflexivity.
  - cbn [obj_loop andb N.eqb Pos.eqb orb fst snd]. rewrite IH, <- app_assoc. reflexivity.
  - cbn [obj_loop fst snd]. rewrite if_false by lia. rewrite if_false by lia. rewrite if_false by lia. rewrite if_false by lia.
    rewrite if_false by lia. rewrite if_false by lia. rewrite if_false by lia.
    rewrite if_false.
    + rewrite IH, <- app_assoc. reflexivity.
    + destruct (is_whitespace c) eqn:E; [|lia]. apply is_whitespace_ws in E.
      destruct ((i =? 0)%Z && (j =? 0)%Z) eqn:E0; auto. exfalso. assert (Hz : (i = 0 /\ j = 0)%Z) by lia. destruct (Hn Hz); auto.
Qed.
Lemma obj_verb_k i j s i' j' : Verb i j s i' j' -> forall k v m r,
  obj_loop rec i j k v true m (s ++ r) = obj_loop rec i' j' (k ++ s) v true m r.
Proof.
  induction 1 as [i j|i j s i' j' H IH|i j c s i' j' Hc H IH|i j c s i' j' Hc Hn H IH|i j e s i' j' H IH
                 |i j c s i' j' H1 H2 H3 H4 H5 H6 Hn H IH]; intros k v m r; cbn [app].
  - now rewrite app_nil_r.
  - cbn [obj_loop]. cbn [andb N.eqb Pos.eqb fst snd].
    rewrite IH, <- app_assoc. reflexivity.
  - cbn [obj_loop fst snd]. rewrite if_false by lia. rewrite if_false by lia. rewrite if_false by lia. rewrite if_false by lia.
    rewrite if_true by lia. rewrite IH, <- app_assoc. reflexivity.
  - cbn [obj_loop fst snd]. rewrite if_false by lia. rewrite if_false by lia. rewrite if_false by lia. rewrite if_false by lia.
    rewrite if_false by lia. rewrite if_true by lia. rewrite IH, <- app_assoc. reflexivity.
  - cbn [obj_loop andb N.eqb Pos.eqb orb fst snd]. rewrite IH, <- app_assoc. reflexivity.
  - cbn [obj_loop fst snd]. rewrite if_false by lia. rewrite if_false by lia. rewrite if_false by lia. rewrite if_false by lia.
    rewrite if_false by lia. rewrite if_false by lia. rewrite if_false by lia.
    rewrite if_false.
    + rewrite IH, <- app_assoc. reflexivity.
    + destruct (is_whitespace c) eqn:E; [|lia]. apply is_whitespace_ws in E.
      destruct ((i =? 0)%Z && (j =? 0)%Z) eqn:E0; auto. exfalso. assert (Hz : (i = 0 /\ j = 0)%Z) by lia. destruct (Hn Hz); auto.
Qed.
Lemma obj_ws w : ws w -> forall k v b m r,
  obj_loop rec 0 0 k v b m (w ++ r) = obj_loop rec 0 0 k v b m r.
Proof.
  induction 1 as [|c w Hc H IH]; intros k v b m r; cbn [app]; auto.
  cbn [obj_loop]. pose proof Hc as Hc'. apply is_whitespace_ws in Hc'.
  unfold ws_char in Hc; cbn in Hc. rewrite if_false by lia. rewrite if_false by lia. rewrite if_false by lia.
  rewrite if_false by lia. rewrite if_false by lia. rewrite if_false by lia. rewrite if_false by lia.
  rewrite Hc'. cbn. apply IH.
Qed.

(** *** Once the piece being collected cannot be parsed whatever follows, the whole is rejected. *)
Definition dead_piece (p : str) : Prop := forall y, not_ok (rec (p ++ y)).
Lemma dead_more p x : dead_piece p -> dead_piece (p ++ x).
Proof. intros H y. rewrite <- app_assoc. apply H. Qed.
Lemma dead_now p : dead_piece p -> not_ok (rec p).
Proof. intros H. rewrite <- (app_nil_r p). apply H. Qed.

Lemma arr_dead s : forall i j inner acc, dead_piece inner -> not_ok (arr_loop rec i j inner acc s).
Proof.
  remember (List.length s) as n eqn:Hn. revert s Hn.
  induction n as [n IH0] using lt_wf_ind. intros s -> i j inner acc H.
  assert (IH : forall s' i j inner acc, (List.length s' < List.length s)%nat -> dead_piece inner -> not_ok (arr_loop rec i j inner acc s'))
    by (intros; eapply IH0; eauto). clear IH0.
  pose proof (dead_now _ H) as Hr.
  destruct s as [|c r]; cbn; auto.
  destruct (_ && _). { destruct (rec inner); cbn in *; tauto. }
  destruct (_ && _).
  { destruct inner; cbn; auto. destruct (match r with [] => _ | _ => _ end); cbn; auto.
    destruct (rec _); cbn in *; tauto. }
  destruct (c =? 34); [apply IH; auto using dead_more|].
  destruct (_ || _); [apply IH; auto using dead_more|].
  destruct (_ || _); [apply IH; auto using dead_more|].
  destruct (c =? 92). { destruct r as [|e r1]; cbn; auto. apply IH; auto using dead_more. cbn; lia. }
  destruct (_ && _); apply IH; auto using dead_more.
Qed.
Lemma obj_dead_v s : forall i j k v m, dead_piece v -> not_ok (obj_loop rec i j k v false m s).
Proof.
  remember (List.length s) as n eqn:Hn. revert s Hn.
  induction n as [n IH0] using lt_wf_ind. intros s -> i j k v m H.
  assert (IH : forall s' i j k v m, (List.length s' < List.length s)%nat -> dead_piece v -> not_ok (obj_loop rec i j k v false m s'))
    by (intros; eapply IH0; eauto). clear IH0.
  pose proof (dead_now _ H) as Hr.
  destruct s as [|c r]; cbn; auto.
  destruct (_ && _). { destruct (rec k) as [[]| | |]; cbn in *; auto. destruct (rec v); cbn in *; tauto. }
  destruct (_ && _).
  { destruct k; cbn; auto. destruct v; cbn; auto. destruct (match r with [] => _ | _ => _ end); cbn; auto.
    destruct (rec (n :: k)) as [[]| | |]; cbn in *; auto. destruct (rec (n0 :: v)); cbn in *; tauto. }
  destruct (_ && _); [apply IH; auto using dead_more|].
  destruct (c =? 34); [apply IH; auto using dead_more|].
  destruct (_ || _); [apply IH; auto using dead_more|].
  destruct (_ || _); [apply IH; auto using dead_more|].
  destruct (c =? 92). { destruct r as [|e r1]; cbn; auto. apply IH; auto using dead_more. cbn; lia. }
  destruct (_ && _); apply IH; auto using dead_more.
Qed.
Lemma obj_dead_k s : forall i j k v b m, dead_piece k -> not_ok (obj_loop rec i j k v b m s).
Proof.
  remember (List.length s) as n eqn:Hn. revert s Hn.
  induction n as [n IH0] using lt_wf_ind. intros s -> i j k v b m H.
  assert (IH : forall s' i j k v b m, (List.length s' < List.length s)%nat -> dead_piece k -> not_ok (obj_loop rec i j k v b m s'))
    by (intros; eapply IH0; eauto). clear IH0.
  pose proof (dead_now _ H) as Hr.
  destruct s as [|c r]; cbn; auto.
  destruct (_ && _). { destruct (rec k) as [[]| | |]; cbn in *; tauto. }
  destruct (_ && _).
  { destruct k; cbn; auto. destruct v; cbn; auto. destruct (match r with [] => _ | _ => _ end); cbn; auto.
    destruct (rec (n :: k)) as [[]| | |]; cbn in *; tauto. }
  destruct (_ && _); [apply IH; auto using dead_more|].
  assert (P : forall x, dead_piece (fst (if b then (k ++ x, v) else (k, v ++ x))))
    by (intros x; destruct b; cbn; auto using dead_more).
  destruct (c =? 34); [apply IH; auto|].
  destruct (_ || _); [apply IH; auto|].
  destruct (_ || _); [apply IH; auto|].
  destruct (c =? 92). { destruct r as [|e r1]; cbn; auto. apply IH; auto. cbn; lia. }
  destruct (_ && _); apply IH; auto.
Qed.

(** *** A piece that is complete (only white space may follow) while a bracket is open. *)
Definition closed_piece (p : str) : Prop := forall y, ~ ws y -> not_ok (rec (p ++ y)).
Lemma closed_ws p c : ws_char c -> closed_piece p -> closed_piece (p ++ [c]).
Proof. intros Hc H y Hy. rewrite <- app_assoc. apply H. intros Hw. inversion Hw; auto. Qed.
Lemma closed_dead p x : ~ ws x -> closed_piece p -> dead_piece (p ++ x).
Proof.
  intros Hx H y. rewrite <- app_assoc. apply H. intros Hw. apply Hx. unfold ws in *.
  apply Forall_app in Hw; tauto.
Qed.
Lemma nws c x : ~ ws_char c -> ~ ws (c :: x).
Proof. intros H Hw. inversion Hw; auto. Qed.
Ltac nonws := apply nws; unfold ws_char; cbn; lia.

Lemma arr_closed i s : i <> 0%Z -> forall inner acc, closed_piece inner -> not_ok (arr_loop rec i 0 inner acc s).
Proof.
  intros Hi. induction s as [|c r IH]; intros inner acc H; cbn; auto.
  rewrite if_false by lia. rewrite if_false by lia.
  destruct (N.eqb_spec c 34) as [->|]. { apply arr_dead, closed_dead; auto. nonws. }
  destruct ((c =? 91) || (c =? 123)) eqn:?. { apply arr_dead, closed_dead; auto. nonws. }
  destruct ((c =? 93) || (c =? 125)) eqn:?. { apply arr_dead, closed_dead; auto. nonws. }
  destruct (N.eqb_spec c 92) as [->|]. { destruct r as [|e r1]; cbn; auto. apply arr_dead, closed_dead; auto. nonws. }
  rewrite if_false by lia.
  destruct (is_whitespace c) eqn:E.
  - apply IH, closed_ws; auto. now apply is_whitespace_ws.
  - apply arr_dead, closed_dead; auto. apply nws. rewrite <- is_whitespace_ws. congruence.
Qed.
Lemma obj_closed_v i s : i <> 0%Z -> forall k v m, closed_piece v -> not_ok (obj_loop rec i 0 k v false m s).
Proof.
  intros Hi. induction s as [|c r IH]; intros k v m H; cbn; auto.
  rewrite if_false by lia. rewrite if_false by lia. rewrite if_false by lia.
  destruct (N.eqb_spec c 34) as [->|]. { apply obj_dead_v, closed_dead; auto. nonws. }
  destruct ((c =? 91) || (c =? 123)) eqn:?. { apply obj_dead_v, closed_dead; auto. nonws. }
  destruct ((c =? 93) || (c =? 125)) eqn:?. { apply obj_dead_v, closed_dead; auto. nonws. }
  destruct (N.eqb_spec c 92) as [->|]. { destruct r as [|e r1]; cbn; auto. apply obj_dead_v, closed_dead; auto. nonws. }
  rewrite if_false by lia.
  destruct (is_whitespace c) eqn:E.
  - apply IH, closed_ws; auto. now apply is_whitespace_ws.
  - apply obj_dead_v, closed_dead; auto. apply nws. rewrite <- is_whitespace_ws. congruence.
Qed.
Lemma obj_closed_k i s : i <> 0%Z -> forall k v m, closed_piece k -> not_ok (obj_loop rec i 0 k v true m s).
Proof.
  intros Hi. induction s as [|c r IH]; intros k v m H; cbn; auto.
  rewrite if_false by lia. rewrite if_false by lia. rewrite if_false by lia.
  destruct (N.eqb_spec c 34) as [->|]. { apply obj_dead_k, closed_dead; auto. nonws. }
  destruct ((c =? 91) || (c =? 123)) eqn:?. { apply obj_dead_k, closed_dead; auto. nonws. }
  destruct ((c =? 93) || (c =? 125)) eqn:?. { apply obj_dead_k, closed_dead; auto. nonws. }
  destruct (N.eqb_spec c 92) as [->|]. { destruct r as [|e r1]; cbn; auto. apply obj_dead_k, closed_dead; auto. nonws. }
  rewrite if_false by lia.
  destruct (is_whitespace c) eqn:E.
  - apply IH, closed_ws; auto. now apply is_whitespace_ws.
  - apply obj_dead_k, closed_dead; auto. apply nws. rewrite <- is_whitespace_ws. congruence.
Qed.

(** *** Flushing *)
Lemma arr_comma inner acc r v : rec inner = Ok v -> inner <> [] ->
  (match r with c :: _ => c <> 93 | [] => True end) ->
  arr_loop rec 0 0 inner acc (44 :: r) = arr_loop rec 0 0 [] (acc ++ [v]) r.
Proof.
  intros H Hi Hr. cbn [arr_loop andb N.eqb Pos.eqb Z.eqb]. destruct inner; [congruence|].
  rewrite if_false by (destruct r; auto; lia). now rewrite H.
Qed.
Lemma arr_comma_any inner acc r : not_ok (arr_loop rec 0 0 inner acc (44 :: r)) \/
  exists v, arr_loop rec 0 0 inner acc (44 :: r) = arr_loop rec 0 0 [] (acc ++ [v]) r.
Proof.
  cbn [arr_loop andb N.eqb Pos.eqb Z.eqb]. destruct inner; cbn; auto.
  destruct (match r with [] => _ | _ => _ end); cbn; auto.
  destruct (rec _); cbn; eauto.
Qed.
Lemma obj_comma k v m r key x : rec k = Ok (JStr key) -> rec v = Ok x -> k <> [] -> v <> [] ->
  (match r with c :: _ => c <> 125 | [] => True end) ->
  obj_loop rec 0 0 k v false m (44 :: r) = obj_loop rec 0 0 [] [] true (object_insert m key x) r.
Proof.
  intros Hk Hv Hk0 Hv0 Hr. cbn [obj_loop andb N.eqb Pos.eqb Z.eqb negb]. destruct k; [congruence|]. destruct v; [congruence|].
  rewrite if_false by (destruct r; auto; lia). now rewrite Hk, Hv.
Qed.
Lemma obj_comma_any k v m r : not_ok (obj_loop rec 0 0 k v false m (44 :: r)) \/
  exists m', obj_loop rec 0 0 k v false m (44 :: r) = obj_loop rec 0 0 [] [] true m' r.
Proof.
  cbn [obj_loop andb N.eqb Pos.eqb Z.eqb negb]. destruct k; cbn; auto. destruct v; cbn; auto.
  destruct (match r with [] => _ | _ => _ end); cbn; auto.
  destruct (rec _) as [[]| | |]; cbn; eauto. destruct (rec _); cbn; eauto.
Qed.
Lemma obj_colon k v b m r : obj_loop rec 0 0 k v b m (58 :: r) = obj_loop rec 0 0 k v false m r.
Proof. reflexivity. Qed.
Lemma arr_close inner acc v : rec inner = Ok v -> arr_loop rec 0 0 inner acc [93] = Ok (JArr (acc ++ [v])).
Proof. intros H. cbn. now rewrite H. Qed.
Lemma obj_close k v m key x : rec k = Ok (JStr key) -> rec v = Ok x ->
  obj_loop rec 0 0 k v false m [125] = Ok (JObj (object_insert m key x)).
Proof. intros H H'. cbn. now rewrite H, H'. Qed.

(** *** Totality *)
Lemma arr_total L (Hrec : forall t, (List.length t <= L)%nat -> total (rec t)) s :
  forall i j inner acc, (List.length inner + List.length s <= L)%nat -> total (arr_loop rec i j inner acc s).
Proof.
  remember (List.length s) as n eqn:Hn. revert s Hn.
  induction n as [n IH0] using lt_wf_ind. intros s -> i j inner acc Hl.
  assert (IH : forall s' i j inner acc, (List.length s' < List.length s)%nat -> (List.length inner + List.length s' <= L)%nat -> total (arr_loop rec i j inner acc s'))
    by (intros; eapply IH0; eauto). clear IH0.
  assert (Hr : total (rec inner)) by (apply Hrec; lia).
  destruct s as [|c r]; cbn; auto. cbn in Hl.
  destruct (_ && _). { destruct (rec inner); cbn in *; auto. pose proof (trailing_total ParseArrayError r). destruct (trailing _ _); cbn; auto. }
  destruct (_ && _).
  { destruct inner; cbn; auto. destruct (match r with [] => _ | _ => _ end); cbn; auto.
    destruct (rec _); cbn in *; auto. apply IH; cbn; lia. }
  destruct (c =? 34); [apply IH; rewrite ?app_length; cbn; lia|].
  destruct (_ || _); [apply IH; rewrite ?app_length; cbn; lia|].
  destruct (_ || _); [apply IH; rewrite ?app_length; cbn; lia|].
  destruct (c =? 92). { destruct r as [|e r1]; cbn; auto. apply IH; rewrite ?app_length; cbn in *; lia. }
  destruct (_ && _); apply IH; rewrite ?app_length; cbn; lia.
Qed.
Lemma obj_total L (Hrec : forall t, (List.length t <= L)%nat -> total (rec t)) s :
  forall i j k v b m, (List.length k + List.length v + List.length s <= L)%nat -> total (obj_loop rec i j k v b m s).
Proof.
  remember (List.length s) as n eqn:Hn. revert s Hn.
  induction n as [n IH0] using lt_wf_ind. intros s -> i j k v b m Hl.
  assert (IH : forall s' i j k v b m, (List.length s' < List.length s)%nat -> (List.length k + List.length v + List.length s' <= L)%nat -> total (obj_loop rec i j k v b m s'))
    by (intros; eapply IH0; eauto). clear IH0.
  assert (Hrk : total (rec k)) by (apply Hrec; lia).
  assert (Hrv : total (rec v)) by (apply Hrec; lia).
  destruct s as [|c r]; cbn; auto. cbn in Hl.
  destruct (_ && _).
  { destruct (rec k) as [[]| | |]; cbn in *; auto. destruct (rec v); cbn in *; auto.
    pose proof (trailing_total ParseObjectError r). destruct (trailing _ _); cbn; auto. }
  destruct (_ && _).
  { destruct k; cbn; auto. destruct v; cbn; auto. destruct (match r with [] => _ | _ => _ end); cbn; auto.
    destruct (rec (n :: k)) as [[]| | |]; cbn in *; auto. destruct (rec (n0 :: v)); cbn in *; auto. apply IH; cbn; lia. }
  destruct (_ && _); [apply IH; cbn; lia|].
  assert (P : forall x, (List.length (fst (if b then (k ++ x, v) else (k, v ++ x))) +
    List.length (snd (if b then (k ++ x, v) else (k, v ++ x))) = List.length k + List.length v + List.length x)%nat)
    by (intros x; destruct b; cbn; rewrite app_length; lia).
  pose proof (P [c]) as P1. change (List.length [c]) with 1%nat in P1.
  destruct (c =? 34); [apply IH; cbn [List.length]; lia|].
  destruct (_ || _); [apply IH; cbn [List.length]; lia|].
  destruct (_ || _); [apply IH; cbn [List.length]; lia|].
  destruct (c =? 92). { destruct r as [|e r1]; cbn; auto. specialize (P [c; e]). cbn [List.length] in *. apply IH; cbn [List.length]; lia. }
  destruct (_ && _); apply IH; cbn [List.length]; lia.
Qed.
End Steps.

Lemma parse_total_ n : forall s, (List.length s < n)%nat -> total (parse_ n s).
Proof.
  induction n as [|n IH]; intros s Hs; [lia|]. cbn [parse_].
  destruct s as [|c r]; [exact I|]. cbn in Hs.
  destruct (c =? 110). { unfold parse_null. destruct (str_eqb _ _); exact I. }
  destruct (_ || _). { unfold parse_boolean. destruct (str_eqb _ _); [exact I|]. destruct (str_eqb _ _); exact I. }
  destruct (_ || _). { apply parse_number_total. }
  destruct (c =? 34). { apply string_loop_total. }
  destruct (c =? 91).
  { unfold parse_array. cbn [tl]. destruct (match r with [] => _ | _ => _ end); [exact I|].
    apply (arr_total _ (List.length r)); [intros; apply IH; lia|cbn; lia]. }
  destruct (c =? 123).
  { unfold parse_object. cbn [tl]. destruct (match r with [] => _ | _ => _ end); [exact I|].
    apply (obj_total _ (List.length r)); [intros; apply IH; lia|cbn; lia]. }
  exact I.
Qed.
Lemma parse_total s : total (parse s).
Proof. unfold parse. apply parse_total_. lia. Qed.

(** C58: the 32-bit bracket counters. *)
From Verif Require Import Base F64 Utf8 Json Parse Print Parse32 SpecGrammar MapProofs Utf8Proofs StringProofs NumberProofs ScanProofs PropsParse PropsPrint.
From Coq Require Import ZifyBool ZifyNat ZifyN.

Lemma norm_fits b z : (-2147483648 <= z <= 2147483647)%Z -> norm32 b z = Ok z.
Proof. intros H. unfold norm32. replace (fits32 z) with true; auto. unfold fits32. lia. Qed.

(** ** Short texts *)
Definition room (i : Z) (n : nat) : Prop := (-2147483648 <= i - Z.of_nat n /\ i + Z.of_nat n <= 2147483647)%Z.
Section Short.
Variable b : build.
Variables rec rec32 : str -> res json.
Variable L : nat.
Hypothesis Hrec : forall t, (List.length t <= L)%nat -> rec32 t = rec t.
Lemma arr_same s : forall i j inner acc, room i (List.length s) -> (0 <= j <= 1)%Z -> (List.length inner + List.length s <= L)%nat ->
  arr_loop32 b rec32 i j inner acc s = arr_loop rec i j inner acc s.
Proof.
  remember (List.length s) as n eqn:Hn. revert s Hn. induction n as [n IH0] using lt_wf_ind. intros s -> i j inner acc Hi Hj HL.
  assert (IH : forall s' i j inner acc, (List.length s' < List.length s)%nat -> room i (List.length s') -> (0 <= j <= 1)%Z -> (List.length inner + List.length s' <= L)%nat ->
    arr_loop32 b rec32 i j inner acc s' = arr_loop rec i j inner acc s') by (intros; eapply IH0; eauto). clear IH0.
  unfold room in *. destruct s as [|c r]; cbn [arr_loop arr_loop32]; [reflexivity|]. cbn [List.length] in *.
  destruct ((c =? 93) && _). { rewrite Hrec by lia. destruct (rec inner); reflexivity. }
  destruct ((c =? 44) && _). { destruct inner; [reflexivity|]. destruct (match r with [] => _ | _ => _ end); [reflexivity|]. rewrite Hrec by lia. destruct (rec _); cbn [bind]; auto.
    apply IH; cbn [List.length]; lia. }
  destruct (c =? 34). { rewrite norm_fits by (destruct (j <=? 0)%Z; lia). cbn [bind]. apply IH; rewrite ?app_length; cbn [List.length]; try lia. destruct (j <=? 0)%Z eqn:E; lia. }
  destruct ((c =? 91) || _). { rewrite norm_fits by lia. cbn [bind]. apply IH; rewrite ?app_length; cbn [List.length]; lia. }
  destruct ((c =? 93) || _). { rewrite norm_fits by lia. cbn [bind]. apply IH; rewrite ?app_length; cbn [List.length]; lia. }
  destruct (c =? 92). { destruct r; [reflexivity|]. cbn [List.length] in *. apply IH; rewrite ?app_length; cbn [List.length]; lia. }
  destruct (_ && is_whitespace c); apply IH; rewrite ?app_length; cbn [List.length]; lia.
Qed.
Lemma obj_same s : forall i j k v on m, room i (List.length s) -> (0 <= j <= 1)%Z -> (List.length k + List.length s <= L)%nat -> (List.length v + List.length s <= L)%nat ->
  obj_loop32 b rec32 i j k v on m s = obj_loop rec i j k v on m s.
Proof.
  remember (List.length s) as n eqn:Hn. revert s Hn. induction n as [n IH0] using lt_wf_ind. intros s -> i j k v on m Hi Hj Hk Hv.
  assert (IH : forall s' i j k v on m, (List.length s' < List.length s)%nat -> room i (List.length s') -> (0 <= j <= 1)%Z -> (List.length k + List.length s' <= L)%nat -> (List.length v + List.length s' <= L)%nat ->
    obj_loop32 b rec32 i j k v on m s' = obj_loop rec i j k v on m s') by (intros; eapply IH0; eauto). clear IH0.
  unfold room in *. destruct s as [|c r]; cbn [obj_loop obj_loop32]; [reflexivity|]. cbn [List.length] in *.
  destruct ((c =? 125) && _). { rewrite !Hrec by lia. destruct (rec k) as [[]| | |]; try reflexivity. }
  destruct ((c =? 44) && _). { destruct k as [|k0 k]; [reflexivity|]. destruct v as [|v0 v]; [reflexivity|]. destruct (match r with [] => _ | _ => _ end); [reflexivity|].
    rewrite !Hrec by (cbn [List.length] in *; lia). destruct (rec (k0 :: k)) as [[]| | |]; auto. destruct (rec _); cbn [bind]; auto. apply IH; cbn [List.length]; lia. }
  destruct ((c =? 58) && _). { apply IH; lia. }
  assert (F : forall x, (List.length (fst (if on then (k ++ x, v) else (k, v ++ x))) <= List.length k + List.length x)%nat) by (intros; destruct on; cbn; rewrite ?app_length; lia).
  assert (G : forall x, (List.length (snd (if on then (k ++ x, v) else (k, v ++ x))) <= List.length v + List.length x)%nat) by (intros; destruct on; cbn; rewrite ?app_length; lia).
  pose proof (F [c]). pose proof (G [c]). cbn [List.length] in *.
  destruct (c =? 34). { rewrite norm_fits by (destruct (j <=? 0)%Z; lia). cbn [bind]. apply IH; try lia. destruct (j <=? 0)%Z eqn:E; lia. }
  destruct ((c =? 91) || _). { rewrite norm_fits by lia. cbn [bind]. apply IH; lia. }
  destruct ((c =? 93) || _). { rewrite norm_fits by lia. cbn [bind]. apply IH; lia. }
  destruct (c =? 92). { destruct r as [|e r]; [reflexivity|]. pose proof (F [c; e]). pose proof (G [c; e]). cbn [List.length] in *. apply IH; lia. }
  destruct (_ && is_whitespace c); apply IH; lia.
Qed.
End Short.
Lemma parse_same b n : forall s, (Z.of_nat (List.length s) <= 2147483648)%Z -> parse32_ b n s = parse_ n s.
Proof.
  induction n as [|n IH]; intros s Hs; [reflexivity|]. cbn [parse32_ parse_]. destruct s as [|c r]; [reflexivity|]. cbn [List.length] in Hs.
  destruct (c =? 110); [reflexivity|]. destruct (_ || _); [reflexivity|]. destruct (_ || _); [reflexivity|]. destruct (c =? 34); [reflexivity|].
  destruct (c =? 91). { unfold parse_array32, parse_array. cbn [tl]. destruct (match r with [] => _ | _ => _ end); [reflexivity|].
    apply (arr_same _ _ _ (List.length r)); unfold room; cbn [List.length]; try lia. intros t Ht. apply IH. lia. }
  destruct (c =? 123). { unfold parse_object32, parse_object. cbn [tl]. destruct (match r with [] => _ | _ => _ end); [reflexivity|].
    apply (obj_same _ _ _ (List.length r)); unfold room; cbn [List.length]; try lia. intros t Ht. apply IH. lia. }
  reflexivity.
Qed.
Lemma trim_start_length s : (List.length (trim_start s) <= List.length s)%nat.
Proof. induction s as [|c r IH]; cbn; [lia|]. destruct (is_whitespace c); cbn; lia. Qed.
Lemma trim_length s : (List.length (trim_ws s) <= List.length s)%nat.
Proof. unfold trim_ws. rewrite rev_length. etransitivity; [apply trim_start_length|]. rewrite rev_length. apply trim_start_length. Qed.

(** ** Any text, debug build: the answer or a panic *)
Definition panics_or (x y : res json) : Prop := x = Panic \/ x = y.
Lemma po_refl x : panics_or x x. Proof. now right. Qed.
Lemma po_norm z (k k' : Z -> res json) : panics_or (k z) (k' z) -> panics_or (let? i := norm32 Debug z in k i) (k' z).
Proof. intros H. unfold norm32. destruct (fits32 z); cbn; auto. now left. Qed.
Lemma arr_debug rec rec' s : (forall t, panics_or (rec t) (rec' t)) -> forall i j inner acc, panics_or (arr_loop32 Debug rec i j inner acc s) (arr_loop rec' i j inner acc s).
Proof.
  intros Hr. remember (List.length s) as n eqn:Hn. revert s Hn. induction n as [n IH0] using lt_wf_ind. intros s -> i j inner acc.
  assert (IH : forall s' i j inner acc, (List.length s' < List.length s)%nat -> panics_or (arr_loop32 Debug rec i j inner acc s') (arr_loop rec' i j inner acc s')) by (intros; eapply IH0; eauto). clear IH0.
  destruct s as [|c r]; cbn [arr_loop arr_loop32]; [apply po_refl|]. cbn [List.length] in IH.
  destruct ((c =? 93) && _). { destruct (Hr inner) as [E|E]; rewrite E; [now left|]. destruct (rec' inner); apply po_refl. }
  destruct ((c =? 44) && _). { destruct inner; [apply po_refl|]. destruct (match r with [] => _ | _ => _ end); [apply po_refl|]. destruct (Hr (n :: inner)) as [E|E]; rewrite E; [now left|].
    destruct (rec' _); try apply po_refl. apply IH. lia. }
  destruct (c =? 34). { apply (po_norm _ _ (fun z => arr_loop rec' i z (inner ++ [c]) acc r)). apply IH. lia. }
  destruct ((c =? 91) || _). { apply (po_norm _ _ (fun z => arr_loop rec' z j (inner ++ [c]) acc r)). apply IH. lia. }
  destruct ((c =? 93) || _). { apply (po_norm _ _ (fun z => arr_loop rec' z j (inner ++ [c]) acc r)). apply IH. lia. }
  destruct (c =? 92). { destruct r; [apply po_refl|]. apply IH. cbn [List.length]. lia. }
  destruct (_ && is_whitespace c); apply IH; lia.
Qed.
Lemma obj_debug rec rec' s : (forall t, panics_or (rec t) (rec' t)) -> forall i j k v on m, panics_or (obj_loop32 Debug rec i j k v on m s) (obj_loop rec' i j k v on m s).
Proof.
  intros Hr. remember (List.length s) as n eqn:Hn. revert s Hn. induction n as [n IH0] using lt_wf_ind. intros s -> i j k v on m.
  assert (IH : forall s' i j k v on m, (List.length s' < List.length s)%nat -> panics_or (obj_loop32 Debug rec i j k v on m s') (obj_loop rec' i j k v on m s')) by (intros; eapply IH0; eauto). clear IH0.
  destruct s as [|c r]; cbn [obj_loop obj_loop32]; [apply po_refl|]. cbn [List.length] in IH.
  destruct ((c =? 125) && _). { destruct (Hr k) as [E|E]; rewrite E; [now left|]. destruct (rec' k) as [[]| | |]; try apply po_refl. destruct (Hr v) as [E'|E']; rewrite E'; [now left|].
    destruct (rec' v); apply po_refl. }
  destruct ((c =? 44) && _). { destruct k as [|k0 k]; [apply po_refl|]. destruct v as [|v0 v]; [apply po_refl|]. destruct (match r with [] => _ | _ => _ end); [apply po_refl|].
    destruct (Hr (k0 :: k)) as [E|E]; rewrite E; [now left|]. destruct (rec' (k0 :: k)) as [[]| | |]; try apply po_refl. destruct (Hr (v0 :: v)) as [E'|E']; rewrite E'; [now left|].
    destruct (rec' _); try apply po_refl. apply IH. lia. }
  destruct ((c =? 58) && _). { apply IH. lia. }
  destruct (c =? 34). { apply (po_norm _ _ (fun z => obj_loop rec' i z _ _ on m r)). apply IH. lia. }
  destruct ((c =? 91) || _). { apply (po_norm _ _ (fun z => obj_loop rec' z j _ _ on m r)). apply IH. lia. }
  destruct ((c =? 93) || _). { apply (po_norm _ _ (fun z => obj_loop rec' z j _ _ on m r)). apply IH. lia. }
  destruct (c =? 92). { destruct r; [apply po_refl|]. apply IH. cbn [List.length]. lia. }
  destruct (_ && is_whitespace c); apply IH; lia.
Qed.
Lemma parse_debug n : forall s, panics_or (parse32_ Debug n s) (parse_ n s).
Proof.
  induction n as [|n IH]; intros s; [apply po_refl|]. cbn [parse32_ parse_]. destruct s as [|c r]; [apply po_refl|].
  destruct (c =? 110); [apply po_refl|]. destruct (_ || _); [apply po_refl|]. destruct (_ || _); [apply po_refl|]. destruct (c =? 34); [apply po_refl|].
  destruct (c =? 91). { unfold parse_array32, parse_array. cbn [tl]. destruct (match r with [] => _ | _ => _ end); [apply po_refl|]. now apply arr_debug. }
  destruct (c =? 123). { unfold parse_object32, parse_object. cbn [tl]. destruct (match r with [] => _ | _ => _ end); [apply po_refl|]. now apply obj_debug. }
  apply po_refl.
Qed.

(** ** Any text, release build: never a panic *)
Lemma norm_release z : norm32 Release z = Ok (if fits32 z then z else wrap32 z).
Proof. unfold norm32. now destruct (fits32 z). Qed.
Section Release.
Variable rec : str -> res json.
Variable L : nat.
Hypothesis Hrec : forall t, (List.length t <= L)%nat -> total (rec t).
Lemma arr_release s : forall i j inner acc, (List.length inner + List.length s <= L)%nat -> total (arr_loop32 Release rec i j inner acc s).
Proof.
  remember (List.length s) as n eqn:Hn. revert s Hn. induction n as [n IH0] using lt_wf_ind. intros s -> i j inner acc HL.
  assert (IH : forall s' i j inner acc, (List.length s' < List.length s)%nat -> (List.length inner + List.length s' <= L)%nat -> total (arr_loop32 Release rec i j inner acc s')) by (intros; eapply IH0; eauto). clear IH0.
  assert (Hr : total (rec inner)) by (apply Hrec; lia).
  destruct s as [|c r]; cbn [arr_loop32]; [exact I|]. cbn [List.length] in *. rewrite !norm_release. cbn [bind].
  destruct ((c =? 93) && _). { destruct (rec inner); cbn in *; auto. pose proof (trailing_total ParseArrayError r). destruct (trailing _ r); cbn in *; auto. }
  destruct ((c =? 44) && _). { destruct inner; [exact I|]. destruct (match r with [] => _ | _ => _ end); [exact I|]. destruct (rec _); cbn [bind]; auto. apply IH; cbn [List.length]; lia. }
  destruct (c =? 34). { apply IH; rewrite ?app_length; cbn [List.length]; lia. }
  destruct ((c =? 91) || _). { apply IH; rewrite ?app_length; cbn [List.length]; lia. }
  destruct ((c =? 93) || _). { apply IH; rewrite ?app_length; cbn [List.length]; lia. }
  destruct (c =? 92). { destruct r; [exact I|]. cbn [List.length] in *. apply IH; rewrite ?app_length; cbn [List.length]; lia. }
  destruct (_ && is_whitespace c); apply IH; rewrite ?app_length; cbn [List.length]; lia.
Qed.
Lemma obj_release s : forall i j k v on m, (List.length k + List.length s <= L)%nat -> (List.length v + List.length s <= L)%nat -> total (obj_loop32 Release rec i j k v on m s).
Proof.
  remember (List.length s) as n eqn:Hn. revert s Hn. induction n as [n IH0] using lt_wf_ind. intros s -> i j k v on m Hk Hv.
  assert (IH : forall s' i j k v on m, (List.length s' < List.length s)%nat -> (List.length k + List.length s' <= L)%nat -> (List.length v + List.length s' <= L)%nat -> total (obj_loop32 Release rec i j k v on m s')) by (intros; eapply IH0; eauto). clear IH0.
  assert (Hrk : total (rec k)) by (apply Hrec; lia). assert (Hrv : total (rec v)) by (apply Hrec; lia).
  destruct s as [|c r]; cbn [obj_loop32]; [exact I|]. cbn [List.length] in *. rewrite !norm_release. cbn [bind].
  destruct ((c =? 125) && _). { destruct (rec k) as [[]| | |]; cbn in *; auto. destruct (rec v); cbn in *; auto. pose proof (trailing_total ParseObjectError r). destruct (trailing _ r); cbn in *; auto. }
  destruct ((c =? 44) && _). { destruct k as [|k0 k]; [exact I|]. destruct v as [|v0 v]; [exact I|]. destruct (match r with [] => _ | _ => _ end); [exact I|].
    destruct (rec (k0 :: k)) as [[]| | |]; auto. destruct (rec _); cbn [bind]; auto. apply IH; cbn [List.length]; lia. }
  destruct ((c =? 58) && _). { apply IH; lia. }
  assert (F : forall x, (List.length (fst (if on then (k ++ x, v) else (k, v ++ x))) <= List.length k + List.length x)%nat) by (intros; destruct on; cbn; rewrite ?app_length; lia).
  assert (G : forall x, (List.length (snd (if on then (k ++ x, v) else (k, v ++ x))) <= List.length v + List.length x)%nat) by (intros; destruct on; cbn; rewrite ?app_length; lia).
  pose proof (F [c]). pose proof (G [c]). cbn [List.length] in *.
  destruct (c =? 34). { apply IH; lia. }
  destruct ((c =? 91) || _). { apply IH; lia. }
  destruct ((c =? 93) || _). { apply IH; lia. }
  destruct (c =? 92). { destruct r as [|e r]; [exact I|]. pose proof (F [c; e]). pose proof (G [c; e]). cbn [List.length] in *. apply IH; lia. }
  destruct (_ && is_whitespace c); apply IH; lia.
Qed.
End Release.
Lemma parse_release n : forall s, (List.length s < n)%nat -> total (parse32_ Release n s).
Proof.
  induction n as [|n IH]; intros s Hs; [lia|]. cbn [parse32_]. destruct s as [|c r]; [exact I|]. cbn [List.length] in Hs.
  destruct (c =? 110). { unfold parse_null. destruct (str_eqb _ _); exact I. }
  destruct (_ || _). { unfold parse_boolean. destruct (str_eqb _ _); [exact I|]. destruct (str_eqb _ _); exact I. }
  destruct (_ || _). { apply parse_number_total. }
  destruct (c =? 34). { apply string_loop_total. }
  destruct (c =? 91). { unfold parse_array32. cbn [tl]. destruct (match r with [] => _ | _ => _ end); [exact I|]. apply (arr_release _ (List.length r)); [intros; apply IH; lia|cbn; lia]. }
  destruct (c =? 123). { unfold parse_object32. cbn [tl]. destruct (match r with [] => _ | _ => _ end); [exact I|]. apply (obj_release _ (List.length r)); [intros; apply IH; lia|cbn; lia|cbn; lia]. }
  exact I.
Qed.

(** ** Many brackets *)
Lemma wrap_fits z : (-2147483648 <= wrap32 z <= 2147483647)%Z.
Proof. unfold wrap32. pose proof (Z.mod_pos_bound (z + 2147483648) 4294967296 ltac:(lia)). lia. Qed.
Lemma wrap_id z : fits32 z = true -> wrap32 z = z.
Proof. unfold fits32, wrap32. intros H. rewrite Z.mod_small; lia. Qed.
Lemma wrap_wrap a b : wrap32 (wrap32 a + b) = wrap32 (a + b).
Proof.
  unfold wrap32. f_equal. replace ((a + 2147483648) mod 4294967296 - 2147483648 + b + 2147483648)%Z with ((a + 2147483648) mod 4294967296 + b)%Z by lia.
  rewrite Zplus_mod_idemp_l. f_equal. lia.
Qed.
Lemma wrap_idem a : wrap32 (wrap32 a) = wrap32 a.
Proof. pose proof (wrap_wrap a 0) as H. now rewrite !Z.add_0_r in H. Qed.
Lemma norm_release_wrap z : norm32 Release z = Ok (wrap32 z).
Proof. rewrite norm_release. destruct (fits32 z) eqn:E; auto. now rewrite wrap_id. Qed.
Lemma repeat_snoc {A} (x : A) n : repeat x (S n) = repeat x n ++ [x].
Proof. change [x] with (repeat x 1). rewrite <- repeat_app. f_equal. lia. Qed.
Lemma arr_brackets rec n : forall i j inner acc r, arr_loop rec i j inner acc (repeat 91 n ++ r) = arr_loop rec (i + Z.of_nat n) j (inner ++ repeat 91 n) acc r.
Proof.
  induction n as [|n IH]; intros i j inner acc r; [cbn [repeat app Z.of_nat]; now rewrite Z.add_0_r, app_nil_r|].
  cbn [repeat app]. cbn [arr_loop N.eqb Pos.eqb andb orb]. rewrite IH, <- app_assoc. cbn [app]. f_equal. lia.
Qed.
Lemma arr_brackets_release rec n : forall i j inner acc r, wrap32 i = i -> arr_loop32 Release rec i j inner acc (repeat 91 n ++ r) = arr_loop32 Release rec (wrap32 (i + Z.of_nat n)) j (inner ++ repeat 91 n) acc r.
Proof.
  induction n as [|n IH]; intros i j inner acc r Hi; [cbn [repeat app Z.of_nat]; now rewrite Z.add_0_r, app_nil_r, Hi|].
  cbn [repeat app]. cbn [arr_loop32 N.eqb Pos.eqb andb orb]. rewrite norm_release_wrap. cbn [bind].
  rewrite IH, wrap_wrap, <- app_assoc by apply wrap_idem. cbn [app]. do 2 f_equal. lia.
Qed.
Lemma arr_brackets_debug rec n : forall i j inner acc r, (2147483647 < i + Z.of_nat n)%Z -> (i <= 2147483647)%Z -> arr_loop32 Debug rec i j inner acc (repeat 91 n ++ r) = Panic.
Proof.
  induction n as [|n IH]; intros i j inner acc r H Hi; [lia|]. cbn [repeat app]. cbn [arr_loop32 N.eqb Pos.eqb andb orb]. unfold norm32. destruct (fits32 (i + 1)) eqn:E; [|reflexivity].
  cbn [bind]. apply IH; unfold fits32 in E; lia.
Qed.
Lemma trim_id c d s : is_whitespace c = false -> is_whitespace d = false -> trim_ws (c :: s ++ [d]) = c :: s ++ [d].
Proof.
  intros Hc Hd. unfold trim_ws. cbn [trim_start]. rewrite Hc. change (c :: s ++ [d]) with ((c :: s) ++ [d]). rewrite rev_app_distr. cbn [rev app trim_start]. rewrite Hd.
  change (d :: rev s ++ [c]) with ([d] ++ rev (c :: s)). rewrite <- (rev_involutive [d]) at 1. now rewrite <- rev_app_distr, rev_involutive.
Qed.

(** ** C58 *)
(** Texts of up to 2^31 characters are read as in the model with unbounded counters, in both kinds of build. *)
Theorem counters_do_not_overflow b s : (Z.of_nat (List.length s) <= 2 ^ 31)%Z -> parse32 b s = parse s.
Proof. intros H. unfold parse32, parse. apply parse_same. pose proof (trim_length s). lia. Qed.
(** Whatever the text, a debug build answers as the model does or panics; a release build never panics. *)
Theorem debug_build_answers_or_panics s : parse32 Debug s = parse s \/ parse32 Debug s = Panic /\ (2 ^ 31 < Z.of_nat (List.length s))%Z.
Proof.
  destruct (Z_le_gt_dec (Z.of_nat (List.length s)) (2 ^ 31)) as [L|L]; [left; now apply counters_do_not_overflow|].
  destruct (parse_debug (S (List.length (trim_ws s))) (trim_ws s)) as [E|E]; [right; split; [exact E|lia]|left; exact E].
Qed.
Theorem release_build_never_panics s : (exists v, parse32 Release s = Ok v) \/ (exists e, parse32 Release s = Err e).
Proof. pose proof (parse_release (S (List.length (trim_ws s))) (trim_ws s) ltac:(lia)) as T. unfold parse32. destruct (parse32_ _ _ _); cbn in T; eauto; contradiction. Qed.
(** The limit is exact: one character more and there is a text that makes a debug build panic. *)
Theorem one_bracket_too_many : exists s, Z.of_nat (List.length s) = (2 ^ 31 + 1)%Z /\ parse32 Debug s = Panic.
Proof.
  assert (E : exists n, Z.of_nat n = 2147483647%Z) by (exists (Z.to_nat 2147483647); lia). destruct E as [n Hn].
  exists (91 :: repeat 91 n ++ [91]). split; [cbn [List.length]; rewrite app_length, repeat_length; cbn [List.length]; lia|].
  unfold parse32. rewrite trim_id by reflexivity. generalize (List.length (91 :: repeat 91 n ++ [91])). intros f. cbn [parse32_ N.eqb Pos.eqb orb andb is_digit N.leb N.compare Pos.compare Pos.compare_cont].
  unfold parse_array32. cbn [tl]. change [91] with (repeat 91 1). rewrite <- repeat_app. replace (n + 1)%nat with (S n) by lia.
  change (match repeat 91 (S n) with [] => false | c :: _ => c =? 93 end) with false. cbv iota. rewrite <- (app_nil_r (repeat 91 (S n))). apply arr_brackets_debug; lia.
Qed.
(** Beyond the limit the three differ: an array of one string of 2^32 opening brackets is read correctly by a release build, makes a debug build panic, and is rejected
    if counters are unbounded (because of the brackets in the string). *)
Lemma escape_brackets n : flat_map escape_char (repeat 91 n) = repeat 91 n.
Proof. induction n as [|n IH]; auto. cbn [repeat flat_map]. rewrite IH. reflexivity. Qed.
Lemma string_brackets n r : string_loop [] (repeat 91 n ++ 34 :: r) = string_loop (repeat 91 n) (34 :: r).
Proof.
  assert (G : forall acc, string_loop acc (repeat 91 n ++ 34 :: r) = string_loop (acc ++ repeat 91 n) (34 :: r)); [|apply G].
  induction n as [|n IH]; intros acc; [cbn [repeat app]; now rewrite app_nil_r|]. cbn [repeat app]. rewrite string_loop_plain by (unfold unescaped; lia). rewrite IH, <- app_assoc. reflexivity.
Qed.
Theorem wrapped_counters_can_be_right : exists s v, JsonText s v /\ parse32 Release s = Ok v /\ parse32 Debug s = Panic /\ exists e, parse s = Err e.
Proof.
  assert (E : exists n, Z.of_nat n = 4294967296%Z) by (exists (Z.to_nat 4294967296); lia). destruct E as [n Hn].
  set (T := [91; 34] ++ repeat 91 n ++ [34; 93]).
  assert (Tr : trim_ws T = T). { assert (ET : T = 91 :: (34 :: repeat 91 n ++ [34]) ++ [93]) by (unfold T; cbn [app]; now rewrite <- app_assoc). rewrite ET. apply trim_id; reflexivity. }
  exists T, (JArr [JStr (repeat 91 n)]). split; [|split; [|split]].
  - assert (ET : T = to_string (JArr [JStr (repeat 91 n)])). { unfold T. cbn [to_string map join]. unfold escape. rewrite escape_brackets. cbn [app]. do 2 f_equal. now rewrite <- app_assoc. }
    rewrite ET. apply printed_text_is_valid_json; [|reflexivity]. cbn [wf forallb andb]. rewrite andb_true_r. clear. unfold scalar_str. induction n; auto.
  - unfold parse32. rewrite Tr. remember (List.length T) as f eqn:Hf. assert (Hp : (0 < f)%nat) by (subst f; cbn; lia). clear Hf. unfold T.
    cbn [parse32_ app N.eqb Pos.eqb orb andb is_digit N.leb N.compare Pos.compare Pos.compare_cont]. remember (parse32_ Release f) as rec eqn:Hrec.
    unfold parse_array32. cbn [tl N.eqb Pos.eqb]. cbn [arr_loop32 N.eqb Pos.eqb andb orb Z.eqb Z.leb Z.compare]. rewrite norm_release_wrap. cbn [bind].
    change (wrap32 (0 + 1)) with 1%Z. rewrite arr_brackets_release by reflexivity. rewrite Z.add_0_l, Hn. change (wrap32 4294967296) with 0%Z.
    cbn [arr_loop32 app N.eqb Pos.eqb andb orb Z.eqb Z.leb Z.compare]. rewrite norm_release_wrap. cbn [bind]. change (wrap32 (1 - 1)) with 0%Z.
    cbn [arr_loop32 app N.eqb Pos.eqb andb orb Z.eqb Z.leb Z.compare].
    assert (R : rec (34 :: repeat 91 n ++ [34]) = Ok (JStr (repeat 91 n))). { subst rec. destruct f as [|f]; [lia|]. cbn [parse32_ N.eqb Pos.eqb orb andb is_digit N.leb N.compare Pos.compare Pos.compare_cont]. unfold parse_string. cbn [tl]. rewrite string_brackets. apply (string_loop_end _ []). constructor. }
    cbn [app]. rewrite R. reflexivity.
  - unfold parse32. rewrite Tr. remember (List.length T) as f eqn:Hf. clear Hf. unfold T. cbn [parse32_ app N.eqb Pos.eqb orb andb is_digit N.leb N.compare Pos.compare Pos.compare_cont].
    unfold parse_array32. cbn [tl N.eqb Pos.eqb]. cbn [arr_loop32 N.eqb Pos.eqb andb orb Z.eqb Z.leb Z.compare]. rewrite norm_fits by lia. cbn [bind]. apply arr_brackets_debug; lia.
  - unfold parse. rewrite Tr. remember (List.length T) as f eqn:Hf. clear Hf. unfold T. cbn [parse_ app N.eqb Pos.eqb orb andb is_digit N.leb N.compare Pos.compare Pos.compare_cont].
    unfold parse_array. cbn [tl N.eqb Pos.eqb]. cbn [arr_loop N.eqb Pos.eqb andb orb Z.eqb Z.leb Z.compare]. rewrite arr_brackets. rewrite Z.add_0_l, Hn.
    cbn [arr_loop app N.eqb Pos.eqb andb orb Z.eqb Z.leb Z.compare]. eexists. reflexivity.
Qed.
Example counters_example : parse32 Debug (lit "[[1], {""a"": []}]") = parse (lit "[[1], {""a"": []}]") /\ (exists v, parse32 Debug (lit "[[1], {""a"": []}]") = Ok v).
Proof. split; [apply counters_do_not_overflow; vm_compute; discriminate|]. eexists. vm_compute. reflexivity. Qed.

(** What [to_string] prints. *)
From Verif Require Import Base F64 Utf8 Json Parse Print SpecGrammar MapProofs Utf8Proofs StringProofs NumberProofs ScanProofs GrammarProofs DecProofs.
From Coq Require Import ZifyBool ZifyNat ZifyN Permutation.
Open Scope N_scope.
Notation is_finite := F64.is_finite.

(** ** Hexadecimal escapes *)
Fixpoint nibbles (n : nat) (u : N) : str :=
  match n with O => [] | S n' => nth (N.to_nat (N.land u 15)) HEX_TABLE 0 :: nibbles n' (N.shiftr u 4) end.
Lemma nibbles_0 n : nibbles n 0 = repeat 48 n.
Proof. induction n as [|n IH]; cbn [nibbles repeat]; [auto|]. rewrite N.shiftr_0_l, IH. reflexivity. Qed.
Lemma hex_rev_nibbles n : forall fuel u, (n <= fuel)%nat -> u < 16 ^ N.of_nat n ->
  (List.length (hex_rev fuel u) <= n)%nat /\ hex_rev fuel u ++ repeat 48 (n - List.length (hex_rev fuel u)) = nibbles n u.
Proof.
  induction n as [|n IH]; intros fuel u Hf Hu.
  - assert (u = 0) by (cbn in Hu; lia). subst. destruct fuel; cbn; auto.
  - destruct fuel as [|f]; [lia|]. cbn [hex_rev]. destruct (N.ltb_spec 0 u) as [L|L].
    + assert (Hs : N.shiftr u 4 < 16 ^ N.of_nat n).
      { rewrite N.shiftr_div_pow2. apply N.div_lt_upper_bound; [discriminate|].
        rewrite Nat2N.inj_succ, N.pow_succ_r' in Hu. change (2 ^ 4) with 16. exact Hu. }
      destruct (IH f (N.shiftr u 4) ltac:(lia) Hs) as [I1 I2]. cbn [List.length]. split; [lia|].
      cbn [nibbles app Nat.sub]. now rewrite I2.
    + assert (u = 0) by lia. subst. rewrite nibbles_0. cbn. split; [lia|auto].
Qed.
Lemma hexdig_table d : d < 16 -> hexdig (nth (N.to_nat d) HEX_TABLE 0) d.
Proof.
  intros H. unfold hexdig.
  assert (C : d = 0 \/ d = 1 \/ d = 2 \/ d = 3 \/ d = 4 \/ d = 5 \/ d = 6 \/ d = 7 \/ d = 8 \/ d = 9 \/ d = 10
     \/ d = 11 \/ d = 12 \/ d = 13 \/ d = 14 \/ d = 15) by lia.
  Local Ltac table := match goal with |- context [nth ?n ?l ?d] => let x := eval vm_compute in (nth n l d) in change (nth n l d) with x end; lia.
  repeat (destruct C as [->|C]; [table|]). subst; table.
Qed.
Lemma hex_ok u : u <= 0xFFFF -> exists h, hex u = 92 :: 117 :: h /\ four_hex h u.
Proof.
  intros Hu.
  set (d0 := N.land u 15). set (d1 := N.land (N.shiftr u 4) 15). set (d2 := N.land (N.shiftr (N.shiftr u 4) 4) 15).
  set (d3 := N.land (N.shiftr (N.shiftr (N.shiftr u 4) 4) 4) 15).
  assert (L : forall x, N.land x 15 < 16).
  { intros x. change 15 with (N.ones 4). rewrite N.land_ones. apply N.mod_lt. discriminate. }
  set (g d := nth (N.to_nat d) HEX_TABLE 0).
  exists [g d3; g d2; g d1; g d0]. split.
  - unfold hex. destruct (N.eqb_spec u 0) as [->|Hz]; [reflexivity|].
    destruct (hex_rev_nibbles 4 16 u) as [H1 H2]; [lia| |]. { change (16 ^ N.of_nat 4) with 65536. lia. }
    cbn zeta. rewrite H2. reflexivity.
  - exists (g d3), (g d2), (g d1), (g d0), d3, d2, d1, d0. split; [reflexivity|].
    repeat split; try apply hexdig_table; try apply L.
    unfold d0, d1, d2, d3. change 15 with (N.ones 4). rewrite !N.land_ones, !N.shiftr_div_pow2.
    change (2 ^ 4) with 16.
    pose proof (N.div_mod u 16 ltac:(lia)). pose proof (N.div_mod (u / 16) 16 ltac:(lia)).
    pose proof (N.div_mod (u / 16 / 16) 16 ltac:(lia)).
    assert (u / 16 / 16 / 16 < 16).
    { apply N.div_lt_upper_bound; [lia|]. apply N.div_lt_upper_bound; [lia|]. apply N.div_lt_upper_bound; lia. }
    rewrite (N.mod_small (u / 16 / 16 / 16) 16) by auto. lia.
Qed.
Lemma net_hex_escape h u : four_hex h u -> net (92 :: 117 :: h) = 0%Z.
Proof. intros H. cbn [net]. rewrite (net_hex _ _ H). reflexivity. Qed.

(** ** Escaped strings *)
Lemma escape_char_ok c : is_scalar c = true ->
  (forall raw s, Chars raw s -> Chars (escape_char c ++ raw) (c :: s)) /\ net (escape_char c) = net [c].
Proof.
  intros Hc. unfold is_scalar in Hc. unfold escape_char.
  repeat match goal with
  | |- context [if (c =? ?x) then _ else _] =>
      destruct (N.eqb_spec c x) as [->|?];
      [split; [intros raw s H; apply ch_simple; [unfold simple_escape; cbn; tauto|exact H]|reflexivity]|]
  end.
  assert (U : c <= 0xFFFF -> ~ (0xD800 <= c <= 0xDFFF) -> ~ (0x20 <= c <= 0x7E) ->
    (forall raw s, Chars raw s -> Chars (hex c ++ raw) (c :: s)) /\ net (hex c) = net [c]).
  { intros H1 H2 H3. destruct (hex_ok c H1) as (h & -> & Hh). split.
    - intros raw s H. cbn [app]. now apply ch_unicode.
    - rewrite (net_hex_escape _ _ Hh). cbn [net]. repeat (rewrite if_false by lia). reflexivity. }
  destruct (N.leb_spec c 0x1F). { apply U; lia. }
  destruct (N.leb_spec c 0x7E).
  { split; auto. intros raw s Hr. cbn [app]. apply ch_plain; auto.
    unfold unescaped. lia. }
  destruct (N.leb_spec c 0xFFFF). { apply U; lia. }
  set (sg := c - 0x10000).
  assert (Hs : sg < 0x100000) by (unfold sg; lia).
  assert (E1 : N.shiftr sg 10 = sg / 1024) by (rewrite N.shiftr_div_pow2; reflexivity).
  assert (E2 : N.land sg 1023 = sg mod 1024) by (change 1023 with (N.ones 10); rewrite N.land_ones; reflexivity).
  rewrite E1, E2.
  pose proof (N.div_mod sg 1024 ltac:(lia)) as Dm. pose proof (N.mod_lt sg 1024 ltac:(lia)) as Dl.
  assert (Dh : sg / 1024 < 1024) by (apply N.div_lt_upper_bound; lia).
  destruct (hex_ok (sg / 1024 + 0xD800)) as (h & -> & Hh); [lia|].
  destruct (hex_ok (sg mod 1024 + 0xDC00)) as (l & -> & Hl); [lia|].
  split.
  - intros raw s H'. cbn [app]. rewrite <- app_assoc. cbn [app].
    replace c with (0x10000 + (sg / 1024 + 0xD800 - 0xD800) * 0x400 + (sg mod 1024 + 0xDC00 - 0xDC00)) by (unfold sg in *; lia).
    apply ch_pair; auto; lia.
  - rewrite net_app, (net_hex_escape _ _ Hh), (net_hex_escape _ _ Hl). cbn [net]. repeat (rewrite if_false by lia). reflexivity.
Qed.
Lemma escape_ok s : scalar_str s = true -> Chars (flat_map escape_char s) s /\ net (flat_map escape_char s) = net s.
Proof.
  unfold scalar_str. induction s as [|c s IH]; intros H; cbn [flat_map]; [split; [constructor|auto]|].
  cbn [forallb] in H. apply andb_true_iff in H as [Hc H]. destruct (IH H) as [I1 I2].
  destruct (escape_char_ok c Hc) as [E1 E2]. split; auto.
  rewrite net_app, E2, I2. cbn [net]. lia.
Qed.

(** ** Joining *)
Lemma join_cons sep x l : l <> [] -> join sep (x :: l) = x ++ sep ++ join sep l.
Proof. destruct l; [congruence|]. reflexivity. Qed.
Lemma join_app sep l l' : l <> [] -> l' <> [] -> join sep (l ++ l') = join sep l ++ sep ++ join sep l'.
Proof.
  intros Hl Hl'. induction l as [|x l IH]; [congruence|]. destruct l as [|y l].
  - cbn [app]. now rewrite join_cons.
  - cbn [app]. rewrite join_cons by discriminate. cbn [app] in IH. rewrite IH by discriminate.
    rewrite (join_cons sep x (y :: l)) by discriminate. now rewrite <- !app_assoc.
Qed.
Lemma join_concat sep (ll : list (list str)) : Forall (fun l => l <> []) ll ->
  join sep (map (join sep) ll) = join sep (List.concat ll).
Proof.
  induction 1 as [|l ll Hl H IH]; [reflexivity|]. destruct ll as [|l' ll].
  - cbn. now rewrite app_nil_r.
  - cbn [map List.concat] in *. rewrite join_cons by discriminate. rewrite IH.
    rewrite (join_app sep l); auto. inversion H; subst. intros E. apply app_eq_nil in E. tauto.
Qed.

Definition member_text (k t : str) : str := escape k ++ colon_sp ++ t.
Lemma entry_text_join k main dups :
  entry_text k main dups = join comma_sp (map (member_text k) (rev dups ++ [main])).
Proof.
  unfold entry_text. induction (rev dups) as [|t l IH]; [reflexivity|].
  cbn [flat_map app map]. rewrite join_cons by (destruct l; discriminate).
  rewrite <- IH. unfold member_text. now rewrite <- !app_assoc.
Qed.

(** The members printed for an object. *)
Definition entry_members (e : entry) : list (str * json) :=
  map (fun v => (fst e, v)) (rev (snd (snd e)) ++ [fst (snd e)]).
Definition members (o : hmap) : list (str * json) := flat_map entry_members o.

Lemma object_text o : keys_sorted o = true -> to_string (JObj o) =
  [LBRACE] ++ join comma_sp (map (fun kv => member_text (fst kv) (to_string (snd kv))) (members o)) ++ [RBRACE].
Proof.
  intros Hs. cbn [to_string]. rewrite sort_by_key_id by (rewrite keys_sorted_map; auto).
  rewrite map_map. cbn [snd].
  assert (E : map (fun e : entry => entry_text (fst e) (to_string (fst (snd e))) (map to_string (snd (snd e)))) o
            = map (join comma_sp) (map (fun e => map (fun kv => member_text (fst kv) (to_string (snd kv))) (entry_members e)) o)).
  { rewrite map_map. apply map_ext. intros [k [v l]]. cbn [fst snd]. rewrite entry_text_join. f_equal.
    unfold entry_members. cbn [fst snd]. rewrite <- map_rev, map_map. cbn [fst snd].
    rewrite !map_app, map_map. reflexivity. }
  rewrite E, join_concat.
  - unfold members. now rewrite flat_map_concat_map, concat_map, map_map.
  - apply Forall_forall. intros l Hl. apply in_map_iff in Hl as [e [<- _]]. unfold entry_members.
    destruct (rev (snd (snd e))); discriminate.
Qed.

Lemma values_of_app k a b : values_of k (a ++ b) = values_of k a ++ values_of k b.
Proof. unfold values_of. now rewrite filter_app, map_app. Qed.
Lemma values_of_entry k e : values_of k (entry_members e) = if str_eqb k (fst e) then rev (snd (snd e)) ++ [fst (snd e)] else [].
Proof.
  unfold entry_members, values_of. induction (rev (snd (snd e)) ++ [fst (snd e)]) as [|x l IH]; cbn [map filter fst snd].
  - now destruct (str_eqb k (fst e)).
  - destruct (str_eqb k (fst e)); cbn [map]; rewrite IH; auto.
Qed.
Lemma members_groups o : keys_sorted o = true -> Groups (members o) o.
Proof.
  intros Hs. split; auto. intros k. induction o as [|[k' [v l]] o IH]; [reflexivity|].
  apply keys_sorted_cons in Hs as [Hb Hs]. cbn [members flat_map hm_get]. fold (members o).
  rewrite values_of_app, values_of_entry. cbn [fst snd]. destruct (str_eqb k k') eqn:E.
  - apply str_eqb_eq in E as ->. rewrite <- IH by auto. rewrite below_get by auto. cbn [entry_values]. now rewrite app_nil_r.
  - now rewrite IH.
Qed.

(** ** The printed text is derivable in the grammar *)
Lemma ws_sp : ws [SP]. Proof. repeat (apply Forall_cons); [cbn; auto|constructor]. Qed.

Lemma elements_join (T : json -> str) (G : json -> bool) vs : vs <> [] ->
  Forall (fun v => GValue true (G v) (T v) v) vs ->
  forall w, ws w -> GElements (forallb G vs) (w ++ join comma_sp (map T vs)) vs.
Proof.
  intros Hn H. induction H as [|v vs Hv H IH]; [congruence|]. intros w Hw. destruct vs as [|v' vs].
  - cbn [forallb map join]. rewrite andb_true_r. rewrite <- (app_nil_r (T v)). apply ge_one; auto. constructor.
  - specialize (IH ltac:(discriminate) [SP] ws_sp). cbn [map]. rewrite join_cons by discriminate.
    change (forallb G (v :: v' :: vs)) with (G v && forallb G (v' :: vs)).
    change (comma_sp ++ join comma_sp (T v' :: map T vs)) with ([] ++ [44] ++ ([SP] ++ join comma_sp (map T (v' :: vs)))).
    apply ge_cons; auto. constructor.
Qed.
Lemma members_join (T : json -> str) (G : json -> bool) ms : ms <> [] ->
  Forall (fun kv => scalar_str (fst kv) = true /\ GValue true (G (snd kv)) (T (snd kv)) (snd kv)) ms ->
  forall w, ws w -> GMembers (forallb (fun kv => balanced_str (fst kv) && G (snd kv)) ms)
    (w ++ join comma_sp (map (fun kv => member_text (fst kv) (T (snd kv))) ms)) ms.
Proof.
  intros Hn H. induction H as [|[k v] ms [Hk Hv] H IH]; [congruence|]. intros w Hw. cbn [fst snd] in *.
  destruct (escape_ok k Hk) as [C N].
  assert (B : balanced_str k = (net (flat_map escape_char k) =? 0)%Z) by (rewrite N; reflexivity).
  destruct ms as [|m ms].
  - cbn [forallb map join fst snd]. rewrite andb_true_r, B. unfold member_text, escape, colon_sp.
    replace ((([QUOTE] ++ flat_map escape_char k ++ [QUOTE]) ++ [COLON; SP] ++ T v))
      with (([34] ++ flat_map escape_char k ++ [34]) ++ [] ++ [58] ++ [SP] ++ T v ++ []).
    { apply gm_one; auto using ws_sp; constructor. }
    rewrite app_nil_r. reflexivity.
  - specialize (IH ltac:(discriminate) [SP] ws_sp). rewrite map_cons. rewrite join_cons by discriminate.
    set (F := fun kv : str * json => balanced_str (fst kv) && G (snd kv)) in *.
    change (forallb F ((k, v) :: m :: ms)) with ((balanced_str k && G v) && forallb F (m :: ms)). rewrite B.
    set (Tm := fun kv : str * json => member_text (fst kv) (T (snd kv))) in *.
    match goal with |- GMembers _ ?t _ => replace t with
      (w ++ ([34] ++ flat_map escape_char k ++ [34]) ++ [] ++ [58] ++ [SP] ++ T v ++ [] ++ [44] ++ [SP] ++ join comma_sp (map Tm (m :: ms))) end.
    { apply gm_cons; auto using ws_sp; constructor. }
    generalize (join comma_sp (map Tm (m :: ms))). intros tail.
    unfold member_text, escape, colon_sp. cbn [fst snd]. rewrite <- !app_assoc. reflexivity.
Qed.

Lemma forallb_entry_members (F : str * json -> bool) (b : bool) (G : json -> bool) k v l :
  (forall x, F (k, x) = b && G x) -> forallb F (entry_members (k, (v, l))) = b && (G v && forallb G l).
Proof.
  intros H. unfold entry_members. cbn [fst snd].
  assert (A : forall l, forallb F (map (fun v => (k, v)) l) = match l with [] => true | _ => b && forallb G l end).
  { clear l v. induction l as [|x l IH]; auto. cbn [map forallb]. rewrite H, IH. destruct l; cbn; destruct b, (G x); auto. }
  rewrite A. destruct (rev l ++ [v]) eqn:E. { destruct (rev l); discriminate. } rewrite <- E.
  rewrite forallb_app. cbn [forallb]. rewrite andb_true_r.
  assert (R : forallb G (rev l) = forallb G l).
  { clear. induction l as [|x l IH]; auto. cbn [rev]. rewrite forallb_app, IH. cbn. rewrite andb_true_r. apply andb_comm. }
  rewrite R. f_equal. apply andb_comm.
Qed.
Lemma balanced_members o : balanced_in (JObj o) = forallb (fun kv => balanced_str (fst kv) && balanced_in (snd kv)) (members o).
Proof.
  cbn [balanced_in]. induction o as [|[k [v l]] o IH]; auto. cbn [members flat_map forallb]. fold (members o).
  rewrite forallb_app, <- IH. f_equal. cbn [fst snd]. symmetry. apply forallb_entry_members. reflexivity.
Qed.

Theorem to_string_grammar j : wf j = true -> finite j = true -> forall n,
  GValue n (if n then balanced_in j else balanced j) (to_string j) j.
Proof.
  assert (T : forall n j, (forall s, j <> JStr s) -> GValue n (balanced_in j) (to_string j) j ->
    GValue n (if n then balanced_in j else balanced j) (to_string j) j).
  { intros [] j0 H0; auto. destruct j0; auto. congruence. }
  induction j as [o IH|v IH|s|f|b|] using json_ind; intros Hw Hf n.
  - apply T; [discriminate|]. cbn [wf] in Hw. apply andb_true_iff in Hw as [Hs Hw]. cbn [finite] in Hf.
    rewrite object_text by auto. destruct o as [|e o]. { apply g_obj0. }
    rewrite balanced_members.
    apply g_obj with (ms := members (e :: o)); [|now apply members_groups].
    apply (members_join to_string balanced_in (members (e :: o))) with (w := []).
    + intros E. apply app_eq_nil in E as [E _]. unfold entry_members in E. destruct (rev (snd (snd e))); discriminate.
    + apply Forall_forall. intros [k x] Hx. apply in_flat_map in Hx as [[k' [v l]] [He Hx]].
      rewrite Forall_forall in IH. destruct (IH _ He) as [IH1 IH2].
      rewrite forallb_forall in Hw, Hf. specialize (Hw _ He). specialize (Hf _ He). cbn [fst snd] in *.
      apply andb_true_iff in Hw as [Hk Hw]. apply andb_true_iff in Hw as [Hwv Hwl]. apply andb_true_iff in Hf as [Hfv Hfl].
      unfold entry_members in Hx. apply in_map_iff in Hx as (x' & E & Hx). cbn [fst snd] in E, Hx. injection E as <- <-. split; auto.
      apply in_app_or in Hx as [Hx|[<-|[]]]; [|apply (IH1 Hwv Hfv true)].
      apply in_rev in Hx. rewrite Forall_forall in IH2. rewrite forallb_forall in Hwl, Hfl. apply (IH2 _ Hx (Hwl _ Hx) (Hfl _ Hx) true).
    + constructor.
  - apply T; [discriminate|]. cbn [wf finite to_string balanced_in] in *. destruct v as [|x v]; [apply g_arr0|].
    apply g_arr. apply (elements_join to_string balanced_in (x :: v)) with (w := []); [discriminate| |constructor].
    apply Forall_forall. intros y Hy. rewrite Forall_forall in IH. rewrite forallb_forall in Hw, Hf.
    apply (IH _ Hy (Hw _ Hy) (Hf _ Hy) true).
  - cbn [wf] in Hw. destruct (escape_ok s Hw) as [C N].
    assert (E : (if n then balanced_in (JStr s) else balanced (JStr s)) = negb n || (net (flat_map escape_char s) =? 0)%Z).
    { destruct n; cbn; auto. unfold balanced_str. now rewrite N. }
    rewrite E. now apply g_str.
  - apply T; [discriminate|]. cbn in *.
    destruct (f64_to_string_number f Hw Hf) as (s & m & e & Hn & <-). apply g_num; auto.
  - apply T; [discriminate|]. destruct b; constructor.
  - apply T; [discriminate|]. constructor.
Qed.

(** ** Consequences *)
Theorem print_parse j : wf j = true -> finite j = true ->
  if balanced j then parse (to_string j) = Ok j else exists e, parse (to_string j) = Err e.
Proof.
  intros Hw Hf. pose proof (to_string_grammar j Hw Hf false) as H. cbn in H.
  replace (to_string j) with ([] ++ to_string j ++ []) by apply app_nil_r.
  apply parse_rfc; auto; constructor.
Qed.
Theorem print_json_text j : wf j = true -> finite j = true -> JsonText (to_string j) j.
Proof.
  intros Hw Hf. exists [], (to_string j), []. split; [constructor|]. split; [constructor|]. split; [|now rewrite app_nil_r].
  eapply (proj1 flag_any). apply (to_string_grammar j Hw Hf false).
Qed.

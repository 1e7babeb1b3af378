(** The number reader against the RFC grammar. *)
From Verif Require Import Base F64 Json Parse SpecGrammar SpecLenient Utf8Proofs StringProofs.
From Coq Require Import ZifyBool ZifyNat ZifyN.

Lemma is_digit_digit c : is_digit c = true <-> digit c.
Proof. unfold is_digit, digit. lia. Qed.

Lemma digits_val_acc ds a : fold_left (fun acc c => 10 * acc + (c - 48)) ds a
  = a * 10 ^ N.of_nat (List.length ds) + decimal ds.
Proof.
  revert a; induction ds as [|d ds IH]; intros a; cbn [fold_left List.length decimal].
  - rewrite N.pow_0_r. lia.
  - rewrite IH. rewrite Nat2N.inj_succ, N.pow_succ_r'. lia.
Qed.
Lemma digits_val_decimal ds : digits_val ds = decimal ds.
Proof. unfold digits_val. rewrite digits_val_acc. lia. Qed.

Definition no_digit_head (s : str) : Prop := match s with c :: _ => ~ digit c | [] => True end.

Lemma span_digits_app ds r : Forall digit ds -> no_digit_head r -> span_digits (ds ++ r) = (ds, r).
Proof.
  intros H Hr; induction H as [|d ds Hd H IH]; cbn [app span_digits].
  - destruct r as [|c r]; auto. cbn in Hr. cbn. rewrite if_false; auto.
    rewrite <- is_digit_digit in Hr. destruct (is_digit c); congruence.
  - apply is_digit_digit in Hd. now rewrite Hd, IH.
Qed.
Lemma span_digits_inv s ds r : span_digits s = (ds, r) -> s = ds ++ r /\ Forall digit ds /\ no_digit_head r.
Proof.
  revert ds r; induction s as [|c s IH]; intros ds r; cbn [span_digits].
  - intros [= <- <-]. cbn; auto.
  - destruct (is_digit c) eqn:E.
    + destruct (span_digits s) as [d t] eqn:Es. intros [= <- <-].
      destruct (IH _ _ eq_refl) as (-> & H1 & H2). repeat split; auto. constructor; auto. now apply is_digit_digit.
    + intros [= <- <-]. repeat split; auto. cbn. rewrite <- is_digit_digit, E. congruence.
Qed.

Lemma digit_not_word d r w : digit d -> In w [lit "inf"; lit "infinity"; lit "nan"] ->
  str_eqb (map lower (d :: r)) w = false.
Proof.
  intros Hd Hw. assert (L : lower d = d) by (unfold lower, digit in *; rewrite if_false; lia).
  cbn [map]. rewrite L. unfold digit in Hd.
  cbn in Hw. destruct Hw as [<-|[<-|[<-|[]]]]; cbn [str_eqb];
  (rewrite (proj2 (N.eqb_neq _ _)); [reflexivity|lia]).
Qed.

(** The reader on a text that starts with a digit, after the sign. *)
Lemma f64_from_str_digits (neg : bool) d r : digit d ->
  f64_from_str ((if neg then [45] else []) ++ d :: r) =
  let '(ip, r1) := span_digits (d :: r) in
  let '(fp, r2) :=
    match r1 with
    | c :: r1' => if c =? DOT then span_digits r1' else ([], r1)
    | [] => ([], [])
    end in
  match read_exp r2 with
  | Some e => Some (dec_to_f64 neg (decimal (ip ++ fp)) (e - Z.of_nat (List.length fp)))
  | None => None
  end.
Proof.
  intros Hd. unfold f64_from_str.
  assert (E : split_sign ((if neg then [45] else []) ++ d :: r) = (neg, d :: r)).
  { destruct neg; cbn; auto. unfold digit in Hd. rewrite if_false by lia. now rewrite if_false by lia. }
  rewrite E. rewrite (digit_not_word d r (lit "inf")), (digit_not_word d r (lit "infinity")),
    (digit_not_word d r (lit "nan")) by (auto; cbn; auto).
  cbn [orb]. destruct (span_digits (d :: r)) as [ip r1] eqn:Es.
  assert (Hip : exists d' ip', ip = d' :: ip').
  { cbn [span_digits] in Es. apply is_digit_digit in Hd. rewrite Hd in Es.
    destruct (span_digits r). injection Es as <- <-. eauto. }
  destruct Hip as (d' & ip' & ->).
  destruct (match r1 with [] => _ | _ => _ end) as [fp r2]. cbn [app].
  rewrite <- digits_val_decimal. reflexivity.
Qed.

Lemma Exp_head x xe : Exp x xe -> no_digit_head x /\ (forall r, x <> 46 :: r).
Proof. destruct 1 as [|? ? [->| ->]|? ? [->| ->]|? ? [->| ->]]; split; cbn; try discriminate; unfold digit; try lia; auto. Qed.

Lemma read_exp_ok x xe : Exp x xe -> read_exp x = Some xe.
Proof.
  assert (A : forall ds, Forall digit ds -> span_digits ds = (ds, [])).
  { intros ds H. rewrite <- (app_nil_r ds) at 1. apply span_digits_app; cbn; auto. }
  assert (B : forall ds, ds <> [] -> Forall digit ds -> split_sign ds = (false, ds)).
  { intros [|d ds] H0 H; [congruence|]. inversion H as [|? ? H1]; subst. unfold digit in H1. cbn.
    rewrite if_false by lia. now rewrite if_false by lia. }
  destruct 1 as [|e ds He Hn Hd|e ds He Hn Hd|e ds He Hn Hd]; auto.
  - cbn [read_exp]. rewrite if_true by lia. rewrite B, A by auto. destruct ds; [congruence|].
    now rewrite digits_val_decimal.
  - cbn [read_exp]. rewrite if_true by lia. cbn [split_sign N.eqb Pos.eqb]. rewrite A by auto. destruct ds; [congruence|].
    now rewrite digits_val_decimal.
  - cbn [read_exp]. rewrite if_true by lia. cbn [split_sign N.eqb Pos.eqb]. rewrite A by auto. destruct ds; [congruence|].
    now rewrite digits_val_decimal.
Qed.
Lemma read_exp_inv x xe : read_exp x = Some xe -> Exp x xe.
Proof.
  destruct x as [|c r]; cbn [read_exp]. { intros [= <-]; constructor. }
  destruct ((c =? 101) || (c =? 69)) eqn:E; [|discriminate].
  assert (Hc : c = 101 \/ c = 69) by lia.
  destruct r as [|s r]; [discriminate|]. cbn [split_sign].
  destruct (N.eqb_spec s 45) as [->|H1]; [|destruct (N.eqb_spec s 43) as [->|H2]];
  match goal with |- context [span_digits ?r] => destruct (span_digits r) as [ds t] eqn:Es end;
  apply span_digits_inv in Es as (Er & Hd & _);
  (destruct ds as [|d ds]; [discriminate|]); (destruct t; [|discriminate]);
  rewrite app_nil_r in Er; intros [= <-]; rewrite digits_val_decimal.
  - subst r. constructor; auto; discriminate.
  - subst r. constructor; auto; discriminate.
  - rewrite Er. constructor; auto; discriminate.
Qed.

Lemma f64_from_str_parts (neg : bool) d i f fd x xe : Forall digit (d :: i) -> LaxFrac f fd -> Exp x xe ->
  f64_from_str ((if neg then [45] else []) ++ d :: i ++ f ++ x)
  = Some (dec_to_f64 neg (decimal (d :: i ++ fd)) (xe - Z.of_nat (List.length fd))).
Proof.
  intros Hi Hf Hx. pose proof (Exp_head _ _ Hx) as [Hx1 Hx2].
  inversion Hi as [|? ? Hd Hi']; subst.
  rewrite f64_from_str_digits by auto. change (d :: i ++ f ++ x) with ((d :: i) ++ f ++ x).
  destruct Hf as [|ds Hds].
  - cbn [app]. change (d :: i ++ x) with ((d :: i) ++ x). rewrite span_digits_app by auto.
    destruct x as [|c x].
    + apply read_exp_ok in Hx. cbn [read_exp] in *. injection Hx as <-. reflexivity.
    + rewrite (proj2 (N.eqb_neq c 46)) by (intros ->; eapply Hx2; eauto).
      now rewrite (read_exp_ok _ _ Hx).
  - rewrite span_digits_app by (auto; cbn; unfold digit; lia). cbn [app N.eqb Pos.eqb].
    rewrite span_digits_app by auto. now rewrite (read_exp_ok _ _ Hx).
Qed.

Lemma skip_digits_app ds r : Forall digit ds -> no_digit_head r -> skip_digits (ds ++ r) = r.
Proof.
  intros H Hr; induction H as [|d ds Hd H IH]; cbn [app skip_digits].
  - destruct r as [|c r]; auto. cbn in *. rewrite if_false; auto.
    rewrite <- is_digit_digit in Hr. destruct (is_digit c); congruence.
  - apply is_digit_digit in Hd. now rewrite Hd, IH.
Qed.

Lemma valid_number_sign (neg : bool) d r : digit d ->
  valid_number ((if neg then [45] else []) ++ d :: r) = valid_number (d :: r).
Proof.
  intros Hd. unfold valid_number. destruct neg; cbn [app N.eqb Pos.eqb]; auto.
  unfold digit in Hd. rewrite (if_false (d =? 45)) by lia. reflexivity.
Qed.

Lemma Frac_Lax f fd : Frac f fd -> LaxFrac f fd.
Proof. destruct 1; constructor; auto. Qed.

Lemma lax_number_ok s neg m e : LaxNumber s neg m e ->
  valid_number s = true /\ f64_from_str s = Some (dec_to_f64 neg m e).
Proof.
  destruct 1 as [s neg m e [neg' i f fd x xe Hi Hf Hx]|neg d ds f fd x xe Hd Hds Hf Hx].
  - destruct Hi as [|d ds Hd Hds].
    + split.
      * cbn [app]. rewrite valid_number_sign by (unfold digit; lia).
        pose proof (Exp_head _ _ Hx) as [Hx1 Hx2].
        unfold valid_number; cbn [N.eqb Pos.eqb]. destruct Hf as [|fs Hn Hfs]; cbn [app].
        -- destruct x as [|c x]; auto. rewrite (proj2 (N.eqb_neq c 46)); auto. intros ->; eapply Hx2; eauto.
        -- cbn [N.eqb Pos.eqb]. destruct fs as [|a fs]; [congruence|]. cbn [app]. inversion Hfs; subst.
           rewrite (proj2 (is_digit_digit a)) by auto. reflexivity.
      * cbn [app]. apply (f64_from_str_parts neg' 48 [] f fd x xe); auto using Frac_Lax.
        repeat constructor; unfold digit; lia.
    + assert (Hd' : digit d) by (unfold digit; lia). split.
      * cbn [app]. rewrite valid_number_sign by auto.
        pose proof (Exp_head _ _ Hx) as [Hx1 Hx2].
        unfold valid_number. rewrite (if_false (d =? 45)) by (unfold digit in Hd'; lia).
        rewrite (if_false (d =? 48)) by lia. rewrite (proj2 (is_digit_digit d)) by auto.
        change (d :: ds ++ f ++ x) with ((d :: ds) ++ f ++ x).
        rewrite skip_digits_app; [|now constructor|].
        2:{ destruct Hf; cbn [app]; auto. cbn; unfold digit; lia. }
        destruct Hf as [|fs Hn Hfs]; cbn [app].
        -- destruct x as [|c x]; auto. rewrite (proj2 (N.eqb_neq c 46)); auto. intros ->; eapply Hx2; eauto.
        -- cbn [N.eqb Pos.eqb]. destruct fs as [|a fs]; [congruence|]. cbn [app]. inversion Hfs; subst.
           rewrite (proj2 (is_digit_digit a)) by auto. reflexivity.
      * cbn [app]. apply (f64_from_str_parts neg' d ds f fd x xe); auto using Frac_Lax.
  - split.
    + rewrite valid_number_sign by (unfold digit; lia). unfold valid_number; cbn [N.eqb Pos.eqb].
      unfold digit in Hd. rewrite (if_false (d =? 46)) by lia. reflexivity.
    + change (48 :: d :: ds ++ f ++ x) with (48 :: (d :: ds) ++ f ++ x).
      rewrite (f64_from_str_parts neg 48 (d :: ds) f fd x xe); auto.
      repeat constructor; auto; unfold digit in *; lia.
Qed.

Lemma valid_number_head s : valid_number s = true ->
  exists (neg : bool) d r, s = (if neg then [45] else []) ++ d :: r /\ digit d.
Proof.
  assert (A : forall s1, match match s1 with
      | c :: r => if c =? 48 then Some r else if is_digit c then Some (skip_digits s1) else None
      | [] => None end with Some _ => True | None => False end -> exists d r, s1 = d :: r /\ digit d).
  { intros [|d r]; [tauto|]. destruct (N.eqb_spec d 48) as [->|H].
    - intros _; exists 48, r; split; auto; unfold digit; lia.
    - destruct (is_digit d) eqn:E; [|tauto]. intros _; exists d, r; split; auto. now apply is_digit_digit. }
  unfold valid_number. destruct s as [|c s].
  - discriminate.
  - destruct (N.eqb_spec c 45) as [->|Hc]; intros H.
    + destruct (A s) as (d & r & -> & Hd). { destruct (match s with [] => _ | _ => _ end); auto; discriminate. }
      exists true, d, r; auto.
    + destruct (A (c :: s)) as (d & r & E & Hd). { destruct (if c =? 48 then _ else _); auto; discriminate. }
      exists false, d, r; auto.
Qed.

Lemma lax_number_inv s f : valid_number s = true -> f64_from_str s = Some f ->
  exists neg m e, LaxNumber s neg m e /\ f = dec_to_f64 neg m e.
Proof.
  intros Hv Hf. destruct (valid_number_head _ Hv) as (neg & d & r & -> & Hd).
  rewrite valid_number_sign in Hv by auto.
  rewrite f64_from_str_digits in Hf by auto.
  destruct (span_digits (d :: r)) as [ip r1] eqn:Es.
  apply span_digits_inv in Es as (E & Hip & Hr1).
  destruct ip as [|d' ip]. { cbn in E; subst r1. cbn in Hr1. tauto. }
  injection E as <- ->. inversion Hip as [|? ? _ Hip']; subst.
  set (rest := match r1 with [] => _ | _ => _ end) in Hf.
  destruct rest as [fp r2] eqn:Er. subst rest.
  destruct (read_exp r2) as [xe|] eqn:Ex; [|discriminate]. apply read_exp_inv in Ex.
  injection Hf as <-.
  exists neg, (decimal ((d :: ip) ++ fp)), (xe - Z.of_nat (List.length fp))%Z. split; auto.
  assert (HF : exists ft, LaxFrac ft fp /\ r1 = ft ++ r2).
  { destruct r1 as [|c r1].
    - injection Er as <- <-. exists []; split; auto; constructor.
    - destruct (N.eqb_spec c 46) as [->|Hc].
      + apply span_digits_inv in Er as (-> & Hfp & _). exists (46 :: fp); split; auto. now constructor.
      + injection Er as <- <-. exists []; split; auto; constructor. }
  destruct HF as (ft & HF & ->).
  destruct (N.eqb_spec d 48) as [->|Hd0]; [destruct ip as [|d1 ip]|].
  - (* a single zero *)
    apply lax_rfc. change (48 :: [] ++ ft ++ r2) with ([48] ++ ft ++ r2). apply number; auto; [constructor|].
    destruct HF as [|ds Hds]; [constructor|]. constructor; auto. intros ->.
    unfold valid_number in Hv. cbn in Hv.
    pose proof (Exp_head _ _ Ex) as [Hx1 Hx2]. destruct r2 as [|c r2]; [discriminate|].
    cbn in Hx1. rewrite <- is_digit_digit in Hx1. destruct (is_digit c); [congruence|discriminate].
  - inversion Hip' as [|? ? Hd1 Hip'']; subst.
    pose proof (lax_zeros neg d1 ip ft fp r2 xe Hd1 Hip'' HF Ex) as L.
    assert (Ez : decimal ((48 :: d1 :: ip) ++ fp) = decimal (d1 :: ip ++ fp)).
    { change ((48 :: d1 :: ip) ++ fp) with (48 :: (d1 :: ip ++ fp)).
      generalize (d1 :: ip ++ fp) as l. intros l. cbn [decimal]. lia. }
    rewrite Ez. exact L.
  - apply lax_rfc. change (d :: ip ++ ft ++ r2) with ((d :: ip) ++ ft ++ r2). apply number; auto.
    + constructor; auto. unfold digit in Hd; lia.
    + destruct HF as [|ds Hds]; [constructor|]. constructor; auto. intros ->.
      unfold valid_number in Hv. unfold digit in Hd.
      rewrite (if_false (d =? 45)) in Hv by lia. rewrite (if_false (d =? 48)) in Hv by lia.
      rewrite (proj2 (is_digit_digit d)) in Hv by (unfold digit; lia).
      change (d :: ip ++ [46] ++ r2) with ((d :: ip) ++ [46] ++ r2) in Hv.
      rewrite skip_digits_app in Hv by (auto; cbn; unfold digit; lia). cbn [app N.eqb Pos.eqb] in Hv.
      pose proof (Exp_head _ _ Ex) as [Hx1 Hx2]. destruct r2 as [|c r2]; [discriminate|].
      cbn in Hx1. rewrite <- is_digit_digit in Hx1. destruct (is_digit c); [congruence|discriminate].
Qed.

Lemma parse_number_iff s v : parse_number s = Ok v <->
  exists neg m e, LaxNumber s neg m e /\ is_finite (dec_to_f64 neg m e) = true /\ v = JNum (dec_to_f64 neg m e).
Proof.
  unfold parse_number. split.
  - destruct (valid_number s) eqn:Hv; [|discriminate].
    destruct (f64_from_str s) as [f|] eqn:Hf; [|discriminate].
    destruct (is_finite f) eqn:Hfin; [|discriminate]. intros [= <-].
    destruct (lax_number_inv _ _ Hv Hf) as (neg & m & e & H & ->). eauto 10.
  - intros (neg & m & e & H & Hfin & ->). destruct (lax_number_ok _ _ _ _ H) as [-> ->].
    now rewrite Hfin.
Qed.
Lemma parse_number_ok s neg m e : Number s neg m e -> is_finite (dec_to_f64 neg m e) = true ->
  parse_number s = Ok (JNum (dec_to_f64 neg m e)).
Proof. intros H Hf. apply parse_number_iff. exists neg, m, e. split; auto. now constructor. Qed.
Lemma parse_number_total s : total (parse_number s).
Proof.
  unfold parse_number. destruct (valid_number s); cbn; auto.
  destruct (f64_from_str s); cbn; auto. destruct (is_finite _); cbn; auto.
Qed.

(** The first character of a number. *)
Lemma Number_head s neg m e : Number s neg m e -> exists c r, s = c :: r /\ (c = 45 \/ digit c).
Proof.
  destruct 1 as [neg i f fd x xe Hi Hf Hx]. destruct neg; [cbn [app]; eauto|].
  destruct Hi as [|d ds Hd Hds]; cbn [app].
  - eexists _, _; split; [reflexivity|]. right; unfold digit; lia.
  - eexists _, _; split; [reflexivity|]. right; unfold digit; lia.
Qed.

(** All characters of a number are sign, digit, dot, or exponent letters. *)
Definition num_char (c : N) : Prop := digit c \/ c = 43 \/ c = 45 \/ c = 46 \/ c = 101 \/ c = 69.
Lemma Number_chars s neg m e : Number s neg m e -> Forall num_char s.
Proof.
  assert (D : forall ds, Forall digit ds -> Forall num_char ds)
    by (intros ds; apply Forall_impl; unfold num_char; tauto).
  destruct 1 as [neg i f fd x xe Hi Hf Hx]. repeat (apply Forall_app; split).
  - destruct neg; repeat constructor; unfold num_char; tauto.
  - destruct Hi as [|d ds Hd Hds]; constructor; auto; unfold num_char, digit; lia.
  - destruct Hf; constructor; auto; unfold num_char; tauto.
  - destruct Hx as [|? ? He|? ? He|? ? He]; repeat (apply Forall_cons); auto; unfold num_char; tauto.
Qed.

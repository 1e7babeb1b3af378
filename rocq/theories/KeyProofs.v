(** The texts of map keys. *)
From Verif Require Import Base F64 Json Convert SpecGrammar SpecLenient SpecNumber SpecValue SpecConvert Utf8Proofs StringProofs NumberProofs FloatProofs DecProofs ConvertNumProofs.
From Coq Require Import Reals Floats.SpecFloat ZifyBool ZifyNat ZifyN.
Open Scope N_scope.
Notation is_finite := F64.is_finite.

(** ** Integers *)
Lemma digits_forallb ds : forallb is_digit ds = true <-> Forall digit ds.
Proof.
  rewrite forallb_forall, Forall_forall. split; intros H c Hc; apply is_digit_digit; auto. 
Qed.
Lemma signed_least t : int_signed t = true <-> (least t < 0)%Z.
Proof. destruct t; cbn; split; intros; try reflexivity; try discriminate; lia. Qed.
Definition read_digits (t : int_ty) (neg : bool) (ds : str) : option Z :=
  match ds with
  | [] => None
  | _ => if forallb is_digit ds then
           let n := if neg then (- Z.of_N (digits_val ds))%Z else Z.of_N (digits_val ds) in
           if ((int_min t <=? n) && (n <=? int_max t))%Z then Some n else None
         else None
  end.
Lemma read_digits_iff t neg ds n : read_digits t neg ds = Some n <->
  ds <> [] /\ Forall digit ds /\ in_range t n /\ n = (if neg then (- Z.of_N (decimal ds))%Z else Z.of_N (decimal ds)).
Proof.
  unfold read_digits, in_range. rewrite min_least, max_greatest, digits_val_decimal. destruct ds as [|d ds]; [split; [discriminate|intros [H _]; congruence]|].
  destruct (forallb is_digit (d :: ds)) eqn:E.
  - apply digits_forallb in E. cbn zeta. set (m := if neg then _ else _). destruct ((least t <=? m)%Z && (m <=? greatest t)%Z) eqn:B.
    + split; [intros [= <-]; repeat split; auto; try discriminate; lia|]. intros (_ & _ & _ & ->). reflexivity.
    + split; [discriminate|]. intros (_ & _ & R & ->). lia.
  - split; [discriminate|]. intros (_ & F & _). apply digits_forallb in F. congruence.
Qed.
Lemma read_int_iff t s n : read_int t s = Some n <-> int_text t s n.
Proof.
  unfold int_text.
  assert (E : read_int t s = match s with
    | c :: r => if c =? PLUS then read_digits t false r else if (c =? MINUS) && int_signed t then read_digits t true r else read_digits t false s
    | [] => None end).
  { unfold read_int. destruct s as [|c r]; auto. destruct (c =? PLUS); [reflexivity|]. now destruct ((c =? MINUS) && int_signed t). }
  rewrite E. clear E. destruct s as [|c r].
  - split; [discriminate|]. intros (ds & N & _ & _ & [[[H|H] _]|[H _]]); congruence.
  - change PLUS with 43. change MINUS with 45. destruct (N.eqb_spec c 43) as [->|N1].
    + rewrite read_digits_iff. split.
      * intros (H1 & H2 & H3 & H4). exists r. auto 10.
      * intros (ds & H1 & H2 & H3 & [[[<-|H] H4]|[H _]]); [|inversion H; subst; auto|discriminate].
        inversion H2 as [|? ? D _]; subst. unfold digit in D. lia.
    + destruct ((c =? 45) && int_signed t) eqn:B.
      * apply andb_prop in B as [B1 B2]. assert (c = 45) by lia. subst c. apply signed_least in B2. rewrite read_digits_iff. split.
        -- intros (H1 & H2 & H3 & H4). exists r. auto 10.
        -- intros (ds & H1 & H2 & H3 & [[[<-|H] H4]|[H [_ H4]]]); [|congruence|inversion H; subst; auto].
           inversion H2 as [|? ? D _]; subst. unfold digit in D. lia.
      * rewrite read_digits_iff. split.
        -- intros (H1 & H2 & H3 & H4). exists (c :: r). auto 10.
        -- intros (ds & H1 & H2 & H3 & [[[<-|H] H4]|[H [L H4]]]); [auto|congruence|]. inversion H; subst. apply signed_least in L. rewrite L in B. discriminate.
Qed.

(** ** Floats *)
Lemma lower_spells w r : Forall (fun d => 97 <= d <= 122) (lit w) -> (str_eqb (map lower r) (lit w) = true <-> spells r w).
Proof.
  unfold spells. generalize (lit w). intros l Hl. rewrite str_eqb_eq. revert r. induction Hl as [|d l Hd Hl IH]; intros [|c r]; cbn [map].
  - split; auto.
  - split; [discriminate|]. intros H; inversion H.
  - split; [discriminate|]. intros H; inversion H.
  - split.
    + intros [= E1 E2]. constructor; [|now apply IH]. unfold lower in E1. destruct ((65 <=? c) && (c <=? 90)) eqn:B; lia.
    + intros H. inversion H as [|? ? ? ? E1 E2]; subst. f_equal; [|now apply IH]. unfold lower. destruct ((65 <=? c) && (c <=? 90)) eqn:B; lia.
Qed.
Lemma words_lower w : In w ["inf"; "infinity"; "nan"]%string -> Forall (fun d => 97 <= d <= 122) (lit w).
Proof. intros [<-|[<-|[<-|[]]]]; cbn; repeat (apply Forall_cons; [lia|]); constructor. Qed.
Definition sign_text (sg : str) (neg : bool) : Prop := (sg = [] /\ neg = false) \/ (sg = [43] /\ neg = false) \/ (sg = [45] /\ neg = true).
Definition no_sign (r : str) : Prop := match r with c :: _ => c <> 43 /\ c <> 45 | [] => True end.
Lemma split_sign_inv s neg r : split_sign s = (neg, r) -> exists sg, s = sg ++ r /\ sign_text sg neg.
Proof.
  unfold split_sign, sign_text. destruct s as [|c s]; [intros [= <- <-]; exists []; auto|].
  destruct (N.eqb_spec c 45) as [->|]; [intros [= <- <-]; exists [45]; auto|]. destruct (N.eqb_spec c 43) as [->|]; [intros [= <- <-]; exists [43]; auto|].
  intros [= <- <-]; exists []; auto.
Qed.
Lemma split_sign_ok sg neg r : sign_text sg neg -> no_sign r -> split_sign (sg ++ r) = (neg, r).
Proof.
  intros [[-> ->]|[[-> ->]|[-> ->]]] H; try reflexivity. destruct r as [|c r]; auto. destruct H as [H1 H2]. cbn.
  rewrite (proj2 (N.eqb_neq c 45)), (proj2 (N.eqb_neq c 43)) by auto. reflexivity.
Qed.
Lemma spells_no_sign r w : In w ["inf"; "infinity"; "nan"]%string -> spells r w -> no_sign r.
Proof.
  intros H. apply words_lower in H. unfold spells. revert H. generalize (lit w). intros l Hl S. inversion S as [|c d r' l' E _]; subst; cbn; auto.
  inversion Hl; subst. lia.
Qed.
Lemma spells_false r w : In w ["inf"; "infinity"; "nan"]%string -> ~ spells r w -> str_eqb (map lower r) (lit w) = false.
Proof. intros H N. destruct (str_eqb _ _) eqn:E; auto. apply lower_spells in E; [contradiction|]. now apply words_lower. Qed.
Lemma spells_not_number i fr fd x xe w : In w ["inf"; "infinity"; "nan"]%string -> Forall digit i -> LaxFrac fr fd -> i ++ fd <> [] -> Exp x xe -> ~ spells (i ++ fr ++ x) w.
Proof.
  intros H Hi Hf N Hx S. apply words_lower in H. unfold spells in S. revert H S. generalize (lit w). intros l Hl S.
  destruct i as [|d i]; cbn in S.
  - destruct Hf as [|ds Hds]; [now apply N|]. cbn in S. inversion S as [|? ? ? ? E]; subst. inversion Hl; subst. lia.
  - inversion S as [|? ? ? ? E]; subst. inversion Hl; subst. inversion Hi as [|? ? D]; subst. unfold digit in D. lia.
Qed.
Definition read_number (neg : bool) (r : str) : option f64 :=
  let '(ip, r1) := span_digits r in
  let '(fp, r2) :=
    match r1 with
    | c :: r1' => if c =? DOT then span_digits r1' else ([], r1)
    | [] => ([], [])
    end in
  match ip ++ fp with
  | [] => None
  | ds =>
      match read_exp r2 with
      | Some e => Some (dec_to_f64 neg (digits_val ds) (e - Z.of_nat (List.length fp)))
      | None => None
      end
  end.
Lemma read_number_iff neg r f : read_number neg r = Some f <->
  exists i fr fd x xe, r = i ++ fr ++ x /\ Forall digit i /\ LaxFrac fr fd /\ i ++ fd <> [] /\ Exp x xe /\
       rounds_to 53 1024 neg (decimal_real neg (decimal (i ++ fd)) (xe - Z.of_nat (List.length fd))) f.
Proof.
  unfold read_number. split.
  - destruct (span_digits r) as [ip r1] eqn:E1. apply span_digits_inv in E1 as (-> & D1 & N1).
    assert (P : exists fr fp r2, (match r1 with c :: r1' => if c =? DOT then span_digits r1' else ([], r1) | [] => ([], []) end) = (fp, r2) /\ r1 = fr ++ r2 /\ LaxFrac fr fp).
    { destruct r1 as [|c r1]; [exists [], [], []; repeat split; constructor|]. change DOT with 46. destruct (N.eqb_spec c 46) as [->|].
      - destruct (span_digits r1) as [fp r2] eqn:E2. apply span_digits_inv in E2 as (-> & D2 & _). exists (46 :: fp), fp, r2. repeat split. now constructor.
      - exists [], [], (c :: r1). repeat split. constructor. }
    destruct P as (fr & fp & r2 & -> & -> & L). destruct (ip ++ fp) as [|d ds] eqn:E2; [discriminate|]. rewrite <- E2.
    destruct (read_exp r2) as [xe|] eqn:E3; [|discriminate]. intros [= <-]. apply read_exp_inv in E3.
    exists ip, fr, fp, r2, xe. do 5 (split; [solve [auto|congruence]|]). rewrite digits_val_decimal. apply dec_to_f64_rounds.
  - intros (i & fr & fd & x & xe & -> & D1 & L & N & X & R). pose proof (Exp_head _ _ X) as [X1 X2].
    assert (P : exists r1, span_digits (i ++ fr ++ x) = (i, r1) /\ (match r1 with c :: r1' => if c =? DOT then span_digits r1' else ([], r1) | [] => ([], []) end) = (fd, x)).
    { exists (fr ++ x). destruct L as [|ds Hds].
      - split; [now apply span_digits_app|]. cbn. destruct x as [|c x]; auto. change DOT with 46. rewrite (proj2 (N.eqb_neq c 46)); auto. intros ->. eapply X2; eauto.
      - split; [apply span_digits_app; cbn; auto; unfold digit; lia|]. cbn. now apply span_digits_app. }
    destruct P as (r1 & -> & ->). destruct (i ++ fd) as [|d ds] eqn:E; [congruence|]. rewrite (read_exp_ok _ _ X). f_equal. rewrite digits_val_decimal.
    eapply (rounds_unique 53 1024); eauto with typeclass_instances; [reflexivity|]. apply dec_to_f64_rounds.
Qed.
Lemma f64_from_str_iff s f : f64_from_str s = Some f <-> float_text s f.
Proof.
  assert (W : forall w, In w ["inf"; "infinity"; "nan"]%string -> forall r, str_eqb (map lower r) (lit w) = true <-> spells r w).
  { intros w H r. apply lower_spells. now apply words_lower. }
  assert (U : forall neg r, f64_from_str s = (if str_eqb (map lower r) (lit "inf") || str_eqb (map lower r) (lit "infinity") then Some (S754_infinity neg)
     else if str_eqb (map lower r) (lit "nan") then Some S754_nan else read_number neg r) \/ split_sign s <> (neg, r)).
  { intros neg r. unfold f64_from_str. destruct (split_sign s) as [neg' r'] eqn:E. destruct (Bool.bool_dec neg' neg) as [->|]; [|right; congruence].
    destruct (str_eqb r' r) eqn:E2; [apply str_eqb_eq in E2; subst; left; reflexivity|right]. intros [= ->]. rewrite str_eqb_refl in E2. discriminate. }
  split.
  - destruct (split_sign s) as [neg r] eqn:E. destruct (U neg r) as [->|]; [|contradiction]. apply split_sign_inv in E as (sg & -> & Hs).
    intros H. exists sg, neg, r. split; auto. split; auto.
    destruct (str_eqb (map lower r) (lit "inf")) eqn:E1; [left; apply W in E1; [|cbn; auto]; cbn in H; split; [auto|congruence]|].
    destruct (str_eqb (map lower r) (lit "infinity")) eqn:E2; [left; apply W in E2; [|cbn; auto]; cbn in H; split; [auto|congruence]|].
    destruct (str_eqb (map lower r) (lit "nan")) eqn:E3; [right; left; apply W in E3; [|cbn; auto]; cbn in H; split; [auto|congruence]|].
    right; right. cbn in H. now apply read_number_iff.
  - intros (sg & neg & r & Es & Hs & H).
    assert (N : no_sign r).
    { destruct H as [[[H|H] _]|[[H _]|H]]; try (eapply spells_no_sign; [|eauto]; cbn; auto; fail).
      destruct H as (i & fr & fd & x & xe & -> & D & L & Nn & X & _). destruct i as [|d i].
      - destruct L; [now destruct Nn|]. cbn. lia.
      - inversion D as [|? ? Dd]; subst. unfold digit in Dd. cbn. lia. }
    pose proof (split_sign_ok sg neg r Hs N) as E. rewrite <- Es in E. destruct (U neg r) as [->|]; [|contradiction].
    destruct H as [[[H|H] ->]|[[H ->]|H]].
    + apply W in H; [|cbn; auto]. now rewrite H.
    + apply W in H; [|cbn; auto]. rewrite H. now rewrite orb_true_r.
    + assert (~ spells r "inf" /\ ~ spells r "infinity") as [N1 N2].
      { unfold spells in *. cbn in H. split; intros C; inversion H as [|? ? ? ? A1 A2]; subst; inversion C as [|? ? ? ? B1 B2]; lia. }
      rewrite !spells_false by (cbn; auto). apply W in H; [|cbn; auto]. now rewrite H.
    + assert (Q : forall w, In w ["inf"; "infinity"; "nan"]%string -> ~ spells r w).
      { intros w Hw. destruct H as (i & fr & fd & x & xe & -> & D & L & Nn & X & _). eapply spells_not_number; eauto. }
      rewrite !spells_false by (try apply Q; cbn; auto). now apply read_number_iff.
Qed.

(** * C45: the texts read as keys, and the text a key is written as. *)
Theorem keys_are_read_as_these_texts k s x : read (key_codec_of k) s = Some x <-> key_text k s x.
Proof.
  destruct k as [| | |t|]; cbn [key_codec_of read k_string k_bool k_char k_int k_f64 key_text key] in *.
  - split; congruence.
  - destruct (str_eqb s (lit "true")) eqn:E1; [|destruct (str_eqb s (lit "false")) eqn:E2].
    + apply str_eqb_eq in E1. subst. split; [now intros [= <-]|]. now destruct x.
    + apply str_eqb_eq in E2. subst. split; [now intros [= <-]|]. now destruct x.
    + split; [discriminate|]. intros ->. destruct x; rewrite str_eqb_refl in *; discriminate.
  - destruct s as [|c [|d r]]; split; intros H; try discriminate; congruence.
  - apply read_int_iff.
  - apply f64_from_str_iff.
Qed.
Theorem keys_are_written_as_these_texts k x : legal_key k x -> key_written k x (show (key_codec_of k) x).
Proof.
  destruct k as [| | |t|]; cbn [key_codec_of show k_string k_bool k_char k_int k_f64 key_written key legal_key] in *; intros L; auto.
  - now destruct x.
  - unfold show_Z. assert (I : forall n, Int (show_N n) /\ decimal (show_N n) = n).
    { intros n. destruct (show_N_ok n) as (D & F & G). split; auto. destruct (N.eq_dec n 0) as [->|H]; [constructor|].
      destruct G as (c & r & E & Hc); [lia|]. rewrite E in *. constructor; auto. now inversion F. }
    destruct (Z.ltb_spec x 0).
    + exists (show_N (Z.to_N (- x))). destruct (I (Z.to_N (- x))) as [I1 I2]. repeat split; auto. rewrite I2. lia.
    + exists (show_N (Z.to_N x)). destruct (I (Z.to_N x)) as [I1 I2]. repeat split; auto. rewrite I2. lia.
  - assert (P : is_finite x = true -> exists m e, Number (f64_to_string x) (sign_of x) m e /\ rounds_to 53 1024 (sign_of x) (decimal_real (sign_of x) m e) x).
    { intros F. destruct (f64_to_string_number x L F) as (s & m & e & H & E).
      assert (S : s = sign_of x). { rewrite <- E. rewrite dec_sign. destruct x; try discriminate; destruct (dec_to_f64 false m e) eqn:Q; rewrite dec_sign, Q in E; cbn in *; congruence. }
      subst s. exists m, e. split; auto. pose proof (proj2 (dec_to_f64_rounds (sign_of x) m e)) as R. now rewrite E in R. }
    destruct x as [| [] | |]; try reflexivity; now apply P.
Qed.
Example key_text_examples :
  key_text (KInt I8) (lit "-0128") (-128)%Z /\ ~ (exists n, key_text (KInt U8) (lit "-1") n) /\ ~ (exists n, key_text (KInt U8) (lit "256") n) /\
  key_text (KInt U8) (lit "+7") 7%Z /\ key_text KF64 (lit "+.5e1") (dec_to_f64 false 5 0) /\ key_text KF64 (lit "-InF") (S754_infinity true).
Proof.
  repeat split; try (apply keys_are_read_as_these_texts; vm_compute; reflexivity);
  intros [n H]; apply keys_are_read_as_these_texts in H; vm_compute in H; discriminate.
Qed.
Print Assumptions keys_are_read_as_these_texts.
Print Assumptions keys_are_written_as_these_texts.

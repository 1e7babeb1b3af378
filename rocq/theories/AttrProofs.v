(** Proofs about single attributes. *)
From Verif Require Import Base F64 Json Convert SpecGrammar SpecLenient SpecNumber NumberProofs SpecConvert KeyProofs Tokens SpecAttr SpecTokens TokenProofs Items.
From Coq Require Import Reals Floats.SpecFloat.
Local Open Scope N_scope.

(** * Literals *)
Lemma ends_with_snoc p s : ends_with p (s ++ p) = true.
Proof. unfold ends_with. rewrite rev_app_distr. induction (rev p) as [|a r IH]; cbn; [reflexivity|]. now rewrite N.eqb_refl. Qed.
Lemma starts_with_app p s : starts_with p (p ++ s) = true.
Proof. induction p as [|a p IH]; cbn; [reflexivity|]. now rewrite N.eqb_refl. Qed.
(** A prefix is removed once if what follows does not begin with it. *)
Lemma trim_once p s : starts_with p s = false -> p <> [] -> trim_start_matches p (p ++ s) = s.
Proof.
  intros H Hp. unfold trim_start_matches. destruct p as [|a p]; [easy|].
  change (List.length ((a :: p) ++ s)) with (S (List.length (p ++ s))). cbn [trim_start]. rewrite starts_with_app.
  rewrite skipn_app, skipn_all2, Nat.sub_diag by lia. cbn [app skipn]. destruct (List.length (p ++ s)); [reflexivity|]. cbn. cbn in H. now rewrite H.
Qed.
Lemma trim_end_once p s : starts_with (rev p) (rev s) = false -> p <> [] -> trim_end_matches p (s ++ p) = s.
Proof.
  intros H Hp. unfold trim_end_matches. rewrite rev_app_distr, trim_once; auto; [apply rev_involutive|].
  intros E. apply Hp. now rewrite <- (rev_involutive p), E.
Qed.
Lemma starts_head c p s : starts_with (c :: p) s = true -> exists r, s = c :: r.
Proof. destruct s as [|d s]; [discriminate|]. cbn. intros H. apply andb_prop in H as [H _]. apply N.eqb_eq in H as <-. eauto. Qed.
Lemma not_starts_head c p s : ~ In c s -> starts_with (c :: p) s = false.
Proof. intros H. destruct (starts_with (c :: p) s) eqn:E; auto. apply starts_head in E as [r ->]. elim H. now left. Qed.
Lemma starts_in p s : starts_with p s = true -> forall c, In c p -> In c s.
Proof. revert s. induction p as [|a p IH]; [easy|]. intros [|b s]; [discriminate|]. cbn. intros H c. apply andb_prop in H as [H1 H2].
  apply N.eqb_eq in H1 as ->. intros [->|]; auto. Qed.
Lemma trim_nil p : p <> [] -> trim_start_matches p [] = [].
Proof. reflexivity. Qed.
Lemma head_not_quote body v : Unescape body v -> starts_with [34] body = false.
Proof. inversion 1; subst; try reflexivity. cbn [starts_with]. destruct (N.eqb_spec 34 c); [congruence|reflexivity]. Qed.
Lemma Unescape_plain s : ~ In 34 s -> ~ In 92 s -> Unescape s s.
Proof.
  induction s as [|c s IH]; intros H1 H2; constructor.
  - intros ->. apply H1. now left.
  - intros ->. apply H2. now left.
  - apply IH; intros X; [apply H1|apply H2]; now right.
Qed.
Lemma starts_up_to_quote p b t : ~ In 34 p -> ~ In 34 b -> starts_with (p ++ [34]) (b ++ 34 :: t) = true -> b = p.
Proof.
  revert b. induction p as [|a p IH]; intros [|c b] Hp Hb H; auto.
  - cbn [app starts_with] in H. apply andb_prop in H as [H _]. apply N.eqb_eq in H. elim Hb. now left.
  - cbn [app starts_with] in H. apply andb_prop in H as [H _]. apply N.eqb_eq in H. elim Hp. now left.
  - cbn [app starts_with] in H. apply andb_prop in H as [H1 H2]. apply N.eqb_eq in H1 as ->. f_equal. apply IH; [intros X; apply Hp; now right|intros X; apply Hb; now right|exact H2].
Qed.
Lemma not_in_hashes c n : c <> 35 -> ~ In c (repeat 35 n).
Proof. intros H X. apply repeat_spec in X. auto. Qed.
Lemma hashes_quote n m a b : repeat 35 n ++ 34 :: a = repeat 35 m ++ 34 :: b -> n = m /\ a = b.
Proof. revert m. induction n as [|n IH]; intros [|m] E; cbn in E; try discriminate; injection E as E; [auto|]. apply IH in E as [-> ->]. auto. Qed.
Lemma raw_quoted_inj n m a b : raw_quoted n a = raw_quoted m b -> n = m /\ a = b.
Proof.
  unfold raw_quoted, quoted. intros E. injection E as E. apply hashes_quote in E as [-> E]. split; auto.
  apply app_inv_tail in E. now apply app_inj_tail in E as [-> _].
Qed.
Lemma parse_plain_lit raw : plain_lit raw -> exists s, parse_lit (Literal raw) = Some (LString s raw) /\ forall v, StringLit raw v -> StringLit (quoted s) v.
Proof.
  intros [(body & v0 & -> & U & Hend)|(n & body & -> & Hn & Hq & Hb & Hr)].
  - exists body. split; [|auto]. unfold parse_lit. replace (fix_quotes byte_quotes (quoted body)) with (@None str) by reflexivity.
    cbn [fix_quotes string_quotes]. change (starts_with [34] (quoted body)) with true.
    replace (ends_with [34] (quoted body)) with true by (symmetry; apply (ends_with_snoc [34] (34 :: body))). cbn [andb].
    do 2 f_equal. destruct body as [|c body]; [reflexivity|].
    unfold quoted. change (34 :: (c :: body) ++ [34]) with ([34] ++ (c :: body) ++ [34]). rewrite trim_once; [|now apply head_not_quote in U|discriminate].
    apply trim_end_once; [|discriminate]. destruct (starts_with (rev [34]) (rev (c :: body))) eqn:E; auto. exfalso. apply Hend.
    apply starts_head in E as [r E]. exists (rev r). apply (f_equal (@rev N)) in E. rewrite rev_involutive in E. rewrite E. cbn. reflexivity.
  - exists body. split.
    + unfold parse_lit. replace (fix_quotes byte_quotes (raw_quoted n body)) with (@None str) by reflexivity.
      assert (E : raw_quoted n body = ((114 :: repeat 35 n ++ [34]) ++ body) ++ 34 :: repeat 35 n).
      { unfold raw_quoted, quoted. cbn [app]. f_equal. rewrite <- !app_assoc. reflexivity. }
      assert (T : trim_end_matches (34 :: repeat 35 n) (trim_start_matches (114 :: repeat 35 n ++ [34]) (raw_quoted n body)) = body).
      { rewrite E, <- app_assoc. rewrite trim_once.
        - apply trim_end_once; [|discriminate]. destruct (starts_with _ (rev body)) eqn:X; auto. exfalso. apply Hq, in_rev.
          apply (starts_in _ _ X). cbn. apply in_or_app. right. now left.
        - destruct (starts_with _ (body ++ _)) eqn:X; [|reflexivity]. exfalso. apply Hr.
          apply (starts_up_to_quote (114 :: repeat 35 n)) in X; auto. intros [|Y]; [discriminate|]. now apply not_in_hashes in Y.
        - discriminate. }
      assert (EE : ends_with (34 :: repeat 35 n) (raw_quoted n body) = true) by (rewrite E; apply ends_with_snoc).
      destruct n as [|[|[|n]]]; [| | |lia]; cbn [fix_quotes string_quotes repeat app] in *.
      * change (starts_with [34] (raw_quoted 0 body)) with false. change (starts_with [114; 34] (raw_quoted 0 body)) with true.
        rewrite EE. cbn [andb]. now rewrite T.
      * change (starts_with [34] (raw_quoted 1 body)) with false. change (starts_with [114; 34] (raw_quoted 1 body)) with false.
        change (starts_with [114; 35; 34] (raw_quoted 1 body)) with true. rewrite EE. cbn [andb]. now rewrite T.
      * change (starts_with [34] (raw_quoted 2 body)) with false. change (starts_with [114; 34] (raw_quoted 2 body)) with false.
        change (starts_with [114; 35; 34] (raw_quoted 2 body)) with false. change (starts_with [114; 35; 35; 34] (raw_quoted 2 body)) with true.
        rewrite EE. cbn [andb]. now rewrite T.
    + intros v H. inversion H as [b u U E|m b Hno E]; subst.
      apply (f_equal (cons 114)) in E. apply (raw_quoted_inj m n v body) in E as [-> ->]. constructor. now apply Unescape_plain.
Qed.

(** * Sequences with commas *)
Lemma comma_parts_skip a cur r : Forall (fun t => is_punct 44 t = false) a -> comma_parts cur (a ++ r) = comma_parts (cur ++ a) r.
Proof.
  intros H. revert cur. induction H as [|t a E _ IH]; intros cur; [now rewrite app_nil_r|]. cbn [app comma_parts]. rewrite E, IH, <- app_assoc. reflexivity.
Qed.
Lemma comma_parts_sep l cur : Forall (Forall (fun t => is_punct 44 t = false)) l -> l <> [] ->
  comma_parts cur (sep_by 44 l) = match l with a :: r => (cur ++ a) :: r | [] => [] end.
Proof.
  intros H. revert cur. induction H as [|a [|b l] Ha Hl IH]; intros cur Hne; [easy| |].
  - cbn [sep_by]. rewrite <- (app_nil_r a) at 1. now rewrite comma_parts_skip.
  - change (sep_by 44 (a :: b :: l)) with (a ++ Punct 44 :: sep_by 44 (b :: l)). rewrite comma_parts_skip by auto.
    cbn [comma_parts is_punct N.eqb Pos.eqb]. f_equal. now rewrite IH.
Qed.
Lemma depths_app a b : depths (a ++ b) = Nat.max (depths a) (depths b).
Proof. unfold depths. induction a as [|t a IH]; cbn [app fold_right]; [reflexivity|]. rewrite IH. lia. Qed.
Lemma depths_in c l a : In a l -> (depths a <= depths (sep_by c l))%nat.
Proof.
  induction l as [|x [|y l] IH]; [easy| |].
  - intros [-> |[]]. cbn [sep_by]. lia.
  - change (sep_by c (x :: y :: l)) with (x ++ Punct c :: sep_by c (y :: l)). rewrite depths_app.
    change (depths (Punct c :: sep_by c (y :: l))) with (Nat.max 0 (depths (sep_by c (y :: l)))).
    intros [-> |H]; [lia|]. apply IH in H. lia.
Qed.
(** * Quotes *)
Lemma starts_iff p s : starts_with p s = true <-> exists r, s = p ++ r.
Proof.
  split; [|intros [r ->]; apply starts_with_app]. revert s. induction p as [|a p IH]; intros s H; [now exists s|].
  destruct s as [|b s]; [discriminate|]. cbn in H. apply andb_prop in H as [H1 H2]. apply N.eqb_eq in H1 as ->. apply IH in H2 as [r ->]. now exists r.
Qed.
Lemma ends_iff p s : ends_with p s = true <-> exists r, s = r ++ p.
Proof.
  unfold ends_with. rewrite starts_iff. split; intros [r H].
  - exists (rev r). apply (f_equal (@rev N)) in H. now rewrite rev_involutive, rev_app_distr, rev_involutive in H.
  - exists (rev r). now rewrite H, rev_app_distr.
Qed.
Lemma clear_trim open body close : open <> [] -> close <> [] -> clear_text open body close -> (body = [] -> open = close \/ starts_with open close = false) ->
  trim_end_matches close (trim_start_matches open (open ++ body ++ close)) = body.
Proof.
  intros Ho Hc [-> |[H1 H2]] Hn.
  - cbn [app]. destruct (Hn eq_refl) as [-> |E].
    + assert (S : trim_start_matches close (close ++ close) = []).
      { unfold trim_start_matches. rewrite app_length. destruct close as [|a c]; [easy|]. set (cl := a :: c) in *.
        replace (List.length cl + List.length cl)%nat with (S (S (List.length c + List.length c))) by (cbn; lia). cbn [trim_start].
        rewrite starts_with_app, skipn_app, skipn_all2, Nat.sub_diag by lia. cbn [app skipn].
        replace (starts_with cl cl) with true by (symmetry; apply starts_iff; exists []; now rewrite app_nil_r).
        rewrite skipn_all2 by lia. now destruct (List.length c + List.length c)%nat. }
      now rewrite S.
    + rewrite trim_once by auto. change close with ([] ++ close) at 2. apply trim_end_once; auto. cbn. destruct (rev close) eqn:E'; [|reflexivity].
      apply (f_equal (@rev N)) in E'. rewrite rev_involutive in E'. easy.
  - rewrite trim_once; auto.
    + apply trim_end_once; auto. destruct (starts_with (rev close) (rev body)) eqn:E; auto. elim H2. now apply ends_iff.
    + destruct (starts_with open (body ++ close)) eqn:E; auto. elim H1. now apply starts_iff.
Qed.
Lemma starts_other a p b s : a <> b -> starts_with (a :: p) (b :: s) = false.
Proof. intros H. cbn. now rewrite (proj2 (N.eqb_neq a b)). Qed.

Definition text_open (bytes : bool) (raw : option nat) : bool := match raw with Some n => Nat.leb n 2 | None => true end.
Lemma hashes3 n : starts_with [35; 35; 34] (repeat 35 (S (S (S n))) ++ 34 :: []) = false.
Proof. reflexivity. Qed.
(** What is left after removing a suffix as often as it is there. *)
Lemma trim_start_parts fuel p s : exists k, s = List.concat (repeat p k) ++ trim_start fuel p s.
Proof.
  revert s. induction fuel as [|f IH]; intros s; [now exists O|]. cbn [trim_start]. destruct (starts_with p s) eqn:E; [|now exists O].
  apply starts_iff in E as [r ->]. rewrite skipn_app, skipn_all2, Nat.sub_diag by lia. cbn [app skipn]. destruct (IH r) as [k Hk]. exists (S k).
  cbn [repeat List.concat]. rewrite <- app_assoc. now f_equal.
Qed.
Lemma concat_repeat_snoc {A} (p : list A) k : List.concat (repeat p k) ++ p = p ++ List.concat (repeat p k).
Proof. induction k as [|k IH]; cbn; [now rewrite app_nil_r|]. now rewrite <- app_assoc, IH. Qed.
Lemma rev_concat_repeat {A} (p : list A) k : rev (List.concat (repeat (rev p) k)) = List.concat (repeat p k).
Proof. induction k as [|k IH]; cbn; [reflexivity|]. now rewrite rev_app_distr, rev_involutive, IH, concat_repeat_snoc. Qed.
Lemma trim_end_parts p s : exists k, s = trim_end_matches p s ++ List.concat (repeat p k).
Proof.
  unfold trim_end_matches, trim_start_matches. destruct (trim_start_parts (List.length (rev s)) (rev p) (rev s)) as [k H]. exists k.
  apply (f_equal (@rev N)) in H. now rewrite rev_involutive, rev_app_distr, rev_concat_repeat in H.
Qed.
Lemma fix_suffix_parts sufs s : exists p k, (k = O \/ In p sufs) /\ s = fix_suffix sufs s ++ List.concat (repeat (lit p) k).
Proof.
  induction sufs as [|x r IH]; cbn [fix_suffix].
  - exists ""%string, O. cbn. rewrite app_nil_r. auto.
  - destruct (ends_with (lit x) s).
    + destruct (trim_end_parts (lit x) s) as [k H]. exists x, k. split; [right; now left|exact H].
    + destruct IH as (p & k & [H| H] & E); exists p, k; (split; [|exact E]); [now left|right; now right].
Qed.
Definition ints : list string := ["u8"; "u16"; "u32"; "u64"; "u128"; "usize"; "i8"; "i16"; "i32"; "i64"; "i128"; "isize"]%string.
Definition floats : list string := ["f32"; "f64"]%string.
(** Texts that are no numbers *)
Definition number_head (c : N) : Prop := digit c \/ c = 43 \/ c = 45 \/ c = 46 \/ In c [73; 105; 78; 110].
Lemma float_head c s f : float_text (c :: s) f -> number_head c.
Proof.
  intros (sg & neg & r & E & Hs & H). destruct Hs as [[-> _]|[[-> _]|[-> _]]]; cbn [app] in E; [|injection E as -> _; unfold number_head; auto..].
  subst r. unfold number_head. destruct H as [[[H|H] _]|[[H _]|H]].
  - inversion H as [|? ? ? ? [X|X] _ E1 E2]; subst; cbn; lia.
  - inversion H as [|? ? ? ? [X|X] _ E1 E2]; subst; cbn; lia.
  - inversion H as [|? ? ? ? [X|X] _ E1 E2]; subst; cbn; lia.
  - destruct H as (i & fr & fd & x & xe & E & Hi & Hf & Hne & _). destruct Hi as [|d i Hd Hi].
    + inversion Hf; subst; [easy|]. cbn [app] in E. injection E as -> _. auto.
    + cbn [app] in E. injection E as -> _. auto.
Qed.
Lemma int_head t c s n : int_text t (c :: s) n -> number_head c.
Proof.
  intros (ds & Hne & Hd & _ & H). unfold number_head. destruct H as [[[E|E] _]|[E _]]; [subst; inversion Hd; auto|injection E as -> _; auto..].
Qed.
Lemma no_number c s t : ~ number_head c -> read_int t (c :: s) = None /\ f64_from_str (c :: s) = None.
Proof.
  intros H. split.
  - destruct (read_int t (c :: s)) eqn:E; auto. apply read_int_iff, int_head in E. easy.
  - destruct (f64_from_str (c :: s)) eqn:E; auto. apply f64_from_str_iff, float_head in E. easy.
Qed.
Lemma no_number_fixed c s t sufs : ~ number_head c -> read_int t (fix_suffix sufs (c :: s)) = None /\ f64_from_str (fix_suffix sufs (c :: s)) = None.
Proof.
  intros H. destruct (fix_suffix_parts sufs (c :: s)) as (p & k & _ & E). destruct (fix_suffix sufs (c :: s)) as [|d r]; [auto|].
  cbn [app] in E. injection E as <- _. now apply no_number.
Qed.
Lemma parse_lit_head c s : ~ number_head c -> fix_quotes byte_quotes (c :: s) = None -> fix_quotes string_quotes (c :: s) = None ->
  parse_lit (Literal (c :: s)) = None.
Proof.
  intros H E1 E2. cbn [parse_lit]. rewrite E1, E2. fold ints floats. rewrite (proj1 (no_number_fixed c s I32 ints H)), (proj2 (no_number_fixed c s I32 floats H)). reflexivity.
Qed.

Definition text_value (bytes : bool) (body raw : str) : lit_value := if bytes then LBytes body raw else LString body raw.
Lemma quotes_found (ps : list (str * str)) open close s : In (open, close) ps ->
  (forall p q, In (p, q) ps -> (p, q) <> (open, close) -> starts_with p s = false) -> starts_with open s = true -> ends_with close s = true ->
  fix_quotes ps s = Some (trim_end_matches close (trim_start_matches open s)).
Proof.
  induction ps as [|[p q] ps IH]; intros Hin Hno H1 H2; [easy|]. cbn [fix_quotes].
  destruct (list_eq_dec N.eq_dec p open) as [-> |Np]; [destruct (list_eq_dec N.eq_dec q close) as [-> |Nq]|].
  - now rewrite H1, H2.
  - assert (X : starts_with open s = false) by (apply (Hno open q); [now left|congruence]). congruence.
  - rewrite (Hno p q) by ((now left) || congruence). cbn [andb]. apply IH; auto.
    + destruct Hin as [[= -> ->]|]; [congruence|auto].
    + intros p' q' H. apply Hno. now right.
Qed.
Lemma quotes_none (ps : list (str * str)) s : (forall p q, In (p, q) ps -> starts_with p s = false) -> fix_quotes ps s = None.
Proof.
  induction ps as [|[p q] ps IH]; intros H; [reflexivity|]. cbn [fix_quotes]. rewrite (H p q) by now left. cbn [andb]. apply IH. intros. apply (H p0 q0). now right.
Qed.
Lemma text_read bytes raw body : clear (KText bytes raw body) ->
  parse_lit (Literal (written (KText bytes raw body))) =
  if text_open bytes raw then Some (text_value bytes body (written (KText bytes raw body))) else None.
Proof.
  intros Hc. cbn [clear] in Hc. set (w := written (KText bytes raw body)). assert (Ew : w = opening bytes raw ++ body ++ closing raw) by reflexivity.
  assert (T : trim_end_matches (closing raw) (trim_start_matches (opening bytes raw) w) = body).
  { rewrite Ew. apply clear_trim; auto; try discriminate.
    - unfold opening. destruct bytes, raw; discriminate.
    - intros _. unfold opening, closing. destruct bytes, raw; cbn [app]; try (right; now apply starts_other). now left. }
  assert (S : starts_with (opening bytes raw) w = true) by (rewrite Ew; apply starts_with_app).
  assert (En : ends_with (closing raw) w = true) by (rewrite Ew, app_assoc; apply ends_with_snoc).
  destruct (text_open bytes raw) eqn:O.
  - assert (F : fix_quotes (if bytes then byte_quotes else string_quotes) w = Some body).
    { rewrite <- T. destruct bytes, raw as [[|[|[|n]]]|]; try discriminate; cbn [opening closing repeat app] in *; (apply quotes_found; auto;
        [cbn; tauto|]; intros p q Hin Hne; rewrite Ew; cbn in Hin;
        repeat match goal with H : _ \/ _ |- _ => destruct H as [H|H] end; try contradiction; injection Hin as <- <-; try reflexivity; now elim Hne). }
    destruct bytes; cbn [parse_lit text_value]; [now rewrite F|].
    replace (fix_quotes byte_quotes w) with (@None str); [now rewrite F|]. symmetry. apply quotes_none. intros p q Hin. rewrite Ew. cbn in Hin.
    destruct raw as [n|]; cbn [opening app]; repeat match goal with H : _ \/ _ |- _ => destruct H as [H|H] end; try contradiction; injection Hin as <- <-; reflexivity.
  - destruct raw as [[|[|[|n]]]|]; try discriminate.
    assert (N : forall p q, In (p, q) (byte_quotes ++ string_quotes) -> starts_with p w = false).
    { intros p q Hin. rewrite Ew. cbn in Hin. destruct bytes; cbn [opening app repeat]; repeat match goal with H : _ \/ _ |- _ => destruct H as [H|H] end; try contradiction; injection Hin as <- <-; reflexivity. }
    assert (Hd : exists c s, w = c :: s /\ ~ number_head c).
    { rewrite Ew. destruct bytes; cbn [opening app]; eexists _, _; (split; [reflexivity|]); unfold number_head, digit; cbn; lia. }
    destruct Hd as (c & s & E & Hh). rewrite E in *. apply parse_lit_head; auto; apply quotes_none; intros p q Hin; apply (N p q), in_or_app; auto.
Qed.
Lemma byte_read body : clear (KByte body) -> body <> [] -> parse_lit (Literal (written (KByte body))) = Some (LBytes body (written (KByte body))).
Proof.
  intros Hc Hb. assert (F : fix_quotes byte_quotes (written (KByte body)) = Some body).
  { cbn [fix_quotes byte_quotes]. replace (starts_with [98; 39] (written (KByte body))) with true by (symmetry; apply (starts_with_app [98; 39])).
    replace (ends_with [39] (written (KByte body))) with true by (symmetry; cbn [written]; rewrite app_assoc; apply ends_with_snoc). cbn [andb]. f_equal.
    cbn [written]. apply clear_trim; auto; discriminate. }
  cbn [parse_lit]. now rewrite F.
Qed.
Lemma char_read body : parse_lit (Literal (written (KChar body))) = None.
Proof.
  cbn [written app]. apply parse_lit_head; try reflexivity. unfold number_head, digit. cbn. lia.
Qed.

(** * Numbers *)
Definition core_char (c : N) : Prop := digit c \/ In c [95; 46; 101; 69; 43; 45].
Lemma no_letter core c : Forall core_char core -> In c [117; 105; 102] -> ~ In c core.
Proof.
  intros H Hc Hin. rewrite Forall_forall in H. apply H in Hin. unfold core_char, digit in Hin. cbn in *. lia.
Qed.
Lemma starts_letter c p s : In c p -> ~ In c s -> starts_with p s = false.
Proof. intros H1 H2. destruct (starts_with p s) eqn:E; auto. elim H2. eapply starts_in; eauto. Qed.
Definition all_suffixes : list string := ints ++ floats.
Lemma suffix_letter x : In x all_suffixes -> exists c r, lit x = c :: r /\ In c [117; 105; 102].
Proof. intros H. cbn in H. repeat destruct H as [<-|H]; try contradiction; eexists _, _; (split; [reflexivity|cbn; auto]). Qed.
Lemma ends_core core x : Forall core_char core -> In x all_suffixes -> ends_with (lit x) core = false.
Proof.
  intros H Hx. destruct (suffix_letter x Hx) as (c & r & E & Hc). unfold ends_with. apply (starts_letter c).
  - rewrite E. apply -> in_rev. now left.
  - rewrite <- in_rev. now apply no_letter.
Qed.
Lemma ends_suffix core x suf : Forall core_char core -> In x all_suffixes -> In suf all_suffixes -> ends_with (lit x) (core ++ lit suf) = String.eqb x suf.
Proof.
  intros H Hx Hs. unfold ends_with. rewrite rev_app_distr. assert (N : forall c, In c [117; 105; 102] -> ~ In c (rev core)) by (intros c Hc; rewrite <- in_rev; now apply no_letter).
  revert N. generalize (rev core). intros t N. cbn in Hx, Hs.
  repeat destruct Hx as [<-|Hx]; try contradiction; repeat destruct Hs as [<-|Hs]; try contradiction; try reflexivity; vm_compute lit; cbn [rev app starts_with N.eqb Pos.eqb andb String.eqb Ascii.eqb Bool.eqb]; try reflexivity;
    (eapply starts_letter; [|apply N; left; reflexivity]; cbn; tauto) || (eapply starts_letter; [|apply N; right; left; reflexivity]; cbn; tauto) || (eapply starts_letter; [|apply N; right; right; left; reflexivity]; cbn; tauto).
Qed.
Lemma trim_suffix core suf : Forall core_char core -> In suf all_suffixes -> trim_end_matches (lit suf) (core ++ lit suf) = core.
Proof.
  intros H Hs. pose proof (ends_core core suf H Hs) as E. apply trim_end_once; auto. destruct (suffix_letter suf Hs) as (c & r & -> & _). discriminate.
Qed.
(** The suffix, if it is one of the list, is taken off. *)
Lemma fix_suffix_none sufs core : Forall core_char core -> incl sufs all_suffixes -> fix_suffix sufs core = core.
Proof.
  intros H Hi. induction sufs as [|x r IH]; [reflexivity|]. cbn [fix_suffix]. rewrite ends_core by (auto; apply Hi; now left). apply IH. intros y Hy. apply Hi. now right.
Qed.
Lemma fix_suffix_some sufs core suf : Forall core_char core -> incl sufs all_suffixes -> In suf all_suffixes ->
  fix_suffix sufs (core ++ lit suf) = if existsb (fun x => String.eqb x suf) sufs then core else core ++ lit suf.
Proof.
  intros H Hi Hs. induction sufs as [|x r IH]; [reflexivity|]. cbn [fix_suffix existsb]. rewrite ends_suffix by (auto; apply Hi; now left).
  destruct (String.eqb_spec x suf) as [-> |]; cbn [orb]; [now apply trim_suffix|]. apply IH. intros y Hy. apply Hi. now right.
Qed.
Lemma incl_ints : incl ints all_suffixes.
Proof. intros x H. apply in_or_app. now left. Qed.
Lemma incl_floats : incl floats all_suffixes.
Proof. intros x H. apply in_or_app. now right. Qed.

(** The characters of numbers that begin with a digit. *)
Lemma int_text_digits t c s n : digit c -> int_text t (c :: s) n -> Forall digit (c :: s) /\ n = Z.of_N (decimal (c :: s)) /\ in_range t n.
Proof.
  intros Hc (ds & Hne & Hd & Hr & H). unfold digit in Hc. destruct H as [[[<-|E] Hn]|[E _]]; [auto|injection E as -> _; lia..].
Qed.
Lemma Exp_chars x xe : Exp x xe -> Forall core_char x.
Proof.
  assert (D : forall ds, Forall digit ds -> Forall core_char ds) by (intros ds; apply Forall_impl; unfold core_char; auto).
  destruct 1 as [|e ds He Hne H|e ds He Hne H|e ds He Hne H]; repeat apply Forall_cons; auto; try (unfold core_char; cbn; intuition (auto; lia)).
Qed.
Lemma float_text_parts c s f : digit c -> float_text (c :: s) f ->
  exists i fr fd x xe, c :: s = i ++ fr ++ x /\ i <> [] /\ Forall digit i /\ LaxFrac fr fd /\ Exp x xe /\
    rounds_to 53 1024 false (decimal_real false (decimal (i ++ fd)) (xe - Z.of_nat (List.length fd))) f.
Proof.
  intros Hc (sg & neg & r & E & Hs & H). unfold digit in Hc. destruct Hs as [[-> ->]|[[-> _]|[-> _]]]; cbn [app] in E; [|injection E as -> _; lia..].
  subst r. destruct H as [[[H|H] _]|[[H _]|H]]; [inversion H as [|? ? ? ? [X|X] _ E1 E2]; subst; lia..|].
  destruct H as (i & fr & fd & x & xe & E & Hi & Hf & Hne & Hx & R). exists i, fr, fd, x, xe. refine (conj E (conj _ (conj Hi (conj Hf (conj Hx R))))).
  intros ->. cbn [app] in *. inversion Hf; subst; [easy|]. cbn [app] in E. injection E as -> _. lia.
Qed.
Lemma float_text_chars c s f : digit c -> float_text (c :: s) f -> Forall (fun c => core_char c /\ c <> 95) (c :: s).
Proof.
  intros Hc H. apply float_text_parts in H as (i & fr & fd & x & xe & -> & _ & Hi & Hf & Hx & _); auto.
  assert (D : forall ds, Forall digit ds -> Forall (fun c => core_char c /\ c <> 95) ds) by (intros ds; apply Forall_impl; unfold core_char, digit; intros; split; auto; lia).
  apply Forall_app. split; [auto|]. apply Forall_app. split.
  - inversion Hf; subst; repeat apply Forall_cons; auto; try (unfold core_char; cbn; intuition (auto; lia)).
  - inversion Hx; subst; repeat apply Forall_cons; auto; try (unfold core_char; cbn; intuition (auto; lia)).
Qed.
Definition nondigit_head (l : str) : Prop := match l with c :: _ => ~ digit c | [] => True end.
Lemma span_unique a b r s : Forall digit a -> Forall digit b -> nondigit_head r -> nondigit_head s -> a ++ r = b ++ s -> a = b /\ r = s.
Proof.
  intros Ha. revert b. induction Ha as [|x a Hx Ha IH]; intros b Hb Hr Hs E.
  - destruct Hb as [|y b Hy Hb]; [auto|]. cbn [app] in E. subst r. cbn in Hr. contradiction.
  - destruct Hb as [|y b Hy Hb]; cbn [app] in E.
    + subst s. cbn in Hs. contradiction.
    + injection E as -> E. apply IH in E as [-> ->]; auto.
Qed.
Lemma Exp_head x xe : Exp x xe -> x = [] \/ exists e r, x = e :: r /\ (e = 101 \/ e = 69).
Proof. destruct 1; eauto 10. Qed.
Lemma parts_unique i frac exp i' fr' fd' x' xe' :
  Forall digit i -> (frac = [] \/ exists r, frac = 46 :: r /\ Forall digit r) -> (exp = [] \/ exists e r, exp = e :: r /\ (e = 101 \/ e = 69)) ->
  Forall digit i' -> LaxFrac fr' fd' -> Exp x' xe' -> i ++ frac ++ exp = i' ++ fr' ++ x' -> i = i' /\ frac = fr' /\ exp = x'.
Proof.
  intros Hi Hf He Hi' Hf' Hx' E. apply Exp_head in Hx'.
  assert (HE : forall x, x = [] \/ (exists e r, x = e :: r /\ (e = 101 \/ e = 69)) -> nondigit_head x /\ forall r, x <> 46 :: r).
  { intros x [-> |(e & r & -> & H)]; (split; [cbn; auto|]); unfold digit; intros; try discriminate; cbn; try lia. intros X. injection X. lia. }
  destruct (HE _ He) as [N1 M1]. destruct (HE _ Hx') as [N2 M2].
  apply span_unique in E as [-> E]; auto.
  - split; [reflexivity|]. destruct Hf as [-> |(r & -> & Hr)]; destruct Hf' as [|ds' Hds']; cbn [app] in E.
    + auto.
    + elim (M1 _ E).
    + symmetry in E. elim (M2 _ E).
    + injection E as E. apply span_unique in E as [-> ->]; auto.
  - destruct Hf as [-> |(r & -> & _)]; [exact N1|]. cbn. unfold digit. lia.
  - destruct Hf'; [exact N2|]. cbn. unfold digit. lia.
Qed.
Lemma digit_no_line l : Forall digit_or_line l -> ~ In 95 l -> Forall digit l.
Proof. intros H Hn. rewrite Forall_forall in *. intros c Hc. destruct (H c Hc) as [| ->]; [auto|contradiction]. Qed.
Lemma line_core l : Forall digit_or_line l -> Forall core_char l.
Proof. apply Forall_impl. unfold core_char. cbn. intros c [|]; auto. Qed.
Lemma suffix_cases s : In s ([] :: int_suffixes ++ float_suffixes) -> s = [] \/ (exists x, s = lit x /\ In x ints) \/ (exists x, s = lit x /\ In x floats).
Proof.
  intros [<-|H]; [auto|]. right. apply in_app_or in H as [H|H]; [left|right]; apply in_map_iff in H as (x & <- & H); eauto.
Qed.
Lemma exists_string x l : existsb (fun y => String.eqb y x) l = true <-> In x l.
Proof. rewrite existsb_exists. split; [intros (y & H & E); apply String.eqb_eq in E as ->; auto|intros H; exists x; now rewrite String.eqb_refl]. Qed.
Lemma ints_not_floats x : In x ints -> ~ In x floats.
Proof. intros H X. cbn in X. repeat destruct X as [<-|X]; try contradiction; apply exists_string in H; vm_compute in H; discriminate. Qed.
Lemma num_quotes d s : digit d -> fix_quotes byte_quotes (d :: s) = None /\ fix_quotes string_quotes (d :: s) = None.
Proof.
  intros H. unfold digit in H. split; apply quotes_none; intros p q Hin; cbn in Hin; repeat destruct Hin as [Hin|Hin]; try contradiction; injection Hin as <- <-; apply starts_other; lia.
Qed.
Lemma has_letter core x : In x all_suffixes -> exists c, In c (core ++ lit x) /\ In c [117; 105; 102].
Proof. intros H. destruct (suffix_letter x H) as (c & r & -> & Hc). exists c. split; [apply in_or_app; right; now left|auto]. Qed.
Lemma letter_none d s x : digit d -> In x all_suffixes -> read_int I32 ((d :: s) ++ lit x) = None /\ f64_from_str ((d :: s) ++ lit x) = None.
Proof.
  intros Hd Hx. destruct (has_letter (d :: s) x Hx) as (c & Hin & Hc). cbn [app] in *. split.
  - destruct (read_int I32 _) eqn:E; auto. apply read_int_iff, int_text_digits in E as (E & _); auto. rewrite Forall_forall in E. apply E in Hin. unfold digit in Hin. cbn in Hc. lia.
  - destruct (f64_from_str _) eqn:E; auto. apply f64_from_str_iff, float_text_chars in E; auto. rewrite Forall_forall in E. apply E in Hin as [Hin _].
    unfold core_char, digit in Hin. cbn in Hin, Hc. lia.
Qed.
Lemma int_not_float x : In x ints -> ~ In (lit x) ([] :: float_suffixes).
Proof. intros H X. cbn in H. repeat destruct H as [<-|H]; try contradiction; cbn in X; repeat destruct X as [X|X]; try contradiction; discriminate. Qed.
Lemma float_not_int x : In x floats -> ~ In (lit x) ([] :: int_suffixes).
Proof. intros H X. cbn in H. repeat destruct H as [<-|H]; try contradiction; cbn in X; repeat destruct X as [X|X]; try contradiction; discriminate. Qed.
Lemma float_not_nil x : In x floats -> lit x <> [].
Proof. intros H. cbn in H. repeat destruct H as [<-|H]; try contradiction; discriminate. Qed.
Lemma num_read i frac exp suffix v : lexical (KNum i frac exp suffix) ->
  (parse_lit (Literal (written (KNum i frac exp suffix))) = Some v <-> literal_is (KNum i frac exp suffix) v).
Proof.
  intros (Hi & Hf & He & Hs). destruct Hi as (d & r & Ei & Hd & Hr). set (core := i ++ frac ++ exp).
  assert (HC : Forall core_char core).
  { unfold core. apply Forall_app. split; [|apply Forall_app; split].
    - subst i. constructor; [left; auto|now apply line_core].
    - destruct Hf as [-> |[[-> _]|(a & b & -> & Ha & Hb)]]; [constructor| |]; repeat apply Forall_cons; auto; try (unfold core_char; cbn; intuition (auto; lia)). now apply line_core.
    - destruct He as [-> |(e & sg & ds & -> & He & Hsg & Hds & _)]; [constructor|]. constructor; [unfold core_char; cbn; intuition lia|].
      apply Forall_app. split; [|now apply line_core]. cbn in Hsg. destruct Hsg as [<-|[<-|[<-|[]]]]; repeat apply Forall_cons; auto; unfold core_char; cbn; auto 10. }
  assert (Ec : exists s, core = d :: s) by (unfold core; subst i; cbn; eauto). destruct Ec as [rest Ec].
  set (w := written (KNum i frac exp suffix)). assert (Ew : w = core ++ suffix) by (unfold w, core; cbn; now rewrite <- !app_assoc).
  assert (Ew' : w = d :: rest ++ suffix) by (rewrite Ew, Ec; reflexivity).
  assert (D1 : Forall digit core -> frac = [] /\ exp = []).
  { intros H. unfold core in H. apply Forall_app in H as [_ H]. apply Forall_app in H as [H1 H2]. split.
    - destruct Hf as [-> |[[-> _]|(a & b & -> & _)]]; auto; inversion H1; subst; unfold digit in *; lia.
    - destruct He as [-> |(e & sg & ds & -> & He & _)]; auto; inversion H2; subst; unfold digit in *; lia. }
  assert (PF : forall f, ~ (exists n, read_int I32 core = Some n /\ suffix = []) -> float_text core f -> In suffix ([] :: float_suffixes) -> literal_is (KNum i frac exp suffix) (LFloat f w)).
  { intros f Hno H Hsuf. pose proof H as C. rewrite Ec in C. apply float_text_chars in C; auto. rewrite <- Ec in C.
    assert (N95 : ~ In 95 core) by (intros X; rewrite Forall_forall in C; now apply C in X).
    assert (Ni : Forall digit i) by (subst i; constructor; auto; apply digit_no_line; auto; intros X; apply N95; unfold core; cbn; right; apply in_or_app; now left).
    rewrite Ec in H. apply float_text_parts in H as (i' & fr' & fd & x & xe & E & Hne & Hi' & Hf' & Hx' & R); auto. rewrite <- Ec in E. unfold core in E.
    apply (parts_unique i frac exp i' fr' fd x xe) in E as (<- & <- & <-); auto.
    - eapply li_float; eauto. intros (F1 & F2 & F3 & F4). apply Hno. exists (Z.of_N (decimal i)). split; auto. apply read_int_iff. unfold core. rewrite F1, F2, app_nil_r.
      exists i. repeat split; auto; cbn [least greatest]; lia.
    - destruct Hf as [-> |[[-> _]|(a & b & -> & Ha & Hb)]]; [auto| |]; right; eexists; (split; [reflexivity|]); auto. constructor; auto. apply digit_no_line; auto.
      intros X. apply N95. unfold core. apply in_or_app. right. apply in_or_app. left. right. now right.
    - destruct He as [-> |(e & sg & ds & -> & He & _)]; eauto 10. }
  assert (ID : forall n, read_int I32 core = Some n -> i = core /\ frac = [] /\ exp = [] /\ Forall digit i /\ n = Z.of_N (decimal i) /\ decimal i <= 2147483647).
  { intros n H. apply read_int_iff in H. rewrite Ec in H. apply int_text_digits in H as (H1 & H2 & H3); auto. rewrite <- Ec in *. destruct (D1 H1) as [F1 F2].
    assert (Eic : i = core) by (unfold core; now rewrite F1, F2, app_nil_r). rewrite <- Eic in *. unfold in_range in H3. cbn [least greatest] in H3. repeat split; auto. lia. }
  assert (LET : forall x, In x all_suffixes -> read_int I32 (core ++ lit x) = None /\ f64_from_str (core ++ lit x) = None).
  { intros x Hx. rewrite Ec. now apply letter_none. }
  assert (Hne : i <> []) by (subst i; discriminate).
  assert (FT : forall fd xe f, Forall digit i -> LaxFrac frac fd -> Exp exp xe ->
    rounds_to 53 1024 false (decimal_real false (decimal (i ++ fd)) (xe - Z.of_nat (List.length fd))) f -> f64_from_str core = Some f).
  { intros fd xe f H1 H2 H3 H4. apply f64_from_str_iff. exists [], false, core. split; [reflexivity|]. split; [auto|].
    right. right. exists i, frac, fd, exp, xe. refine (conj eq_refl (conj H1 (conj H2 (conj _ (conj H3 H4))))). intros X. apply app_eq_nil in X as [X _]. auto. }
  assert (RI : frac = [] -> exp = [] -> Forall digit i -> decimal i <= 2147483647 -> read_int I32 core = Some (Z.of_N (decimal i))).
  { intros F1 F2 F3 F4. apply read_int_iff. unfold core. rewrite F1, F2, app_nil_r. exists i. repeat split; auto; cbn [least greatest]; lia. }
  cbn [parse_lit]. fold ints floats w.
  replace (fix_quotes byte_quotes w) with (@None str) by (rewrite Ew'; symmetry; now apply num_quotes).
  replace (fix_quotes string_quotes w) with (@None str) by (rewrite Ew'; symmetry; now apply num_quotes).
  clearbody core. clear Ei Ec Ew' Hf He Hr D1.
  destruct (suffix_cases suffix Hs) as [Es |[(x & Es & Hx)|(x & Es & Hx)]].
  - assert (X : fix_suffix ints w = core /\ fix_suffix floats w = core).
    { rewrite Ew, Es, app_nil_r. split; apply fix_suffix_none; auto using incl_ints, incl_floats. }
    destruct X as [-> ->]. destruct (read_int I32 core) as [n|] eqn:E.
    + destruct (ID n eq_refl) as (E1 & E2 & E3 & Hdi & -> & Hle). split.
      * intros [= <-]. unfold w. rewrite E2, E3. apply li_int; auto. rewrite Es. now left.
      * intros H. unfold w in *. inversion H; subst; [reflexivity|]. tauto.
    + split.
      * destruct (f64_from_str core) as [f|] eqn:Ef; [|discriminate]. cbn [option_map]. intros [= <-]. apply PF; [|now apply f64_from_str_iff|rewrite Es; now left].
        intros (n & Hn & _). congruence.
      * intros H. unfold w in *. inversion H; subst.
        -- exfalso. specialize (RI eq_refl eq_refl ltac:(assumption) ltac:(assumption)). congruence.
        -- erewrite FT by eassumption. reflexivity.
  - assert (X : fix_suffix ints w = core /\ fix_suffix floats w = core ++ lit x).
    { rewrite Ew, Es. rewrite !fix_suffix_some by (auto using incl_ints, incl_floats). rewrite (proj2 (exists_string x ints) Hx).
      destruct (existsb _ floats) eqn:Ex; auto. apply exists_string in Ex. now apply ints_not_floats in Ex. }
    destruct X as [-> ->]. rewrite (proj2 (LET x (incl_ints x Hx))). destruct (read_int I32 core) as [n|] eqn:E.
    + destruct (ID n eq_refl) as (E1 & E2 & E3 & Hdi & -> & Hle). split.
      * intros [= <-]. unfold w. rewrite E2, E3. apply li_int; auto. rewrite Es. right. now apply in_map.
      * intros H. unfold w in *. inversion H as [| | | | |i' fr fd xx xe suf f Hdi' Hfr Hxx Hsuf Hno R]; subst; [reflexivity|]. exfalso. now apply (int_not_float x).
    + split; [discriminate|]. intros H. exfalso. inversion H as [| | | | |i' fr fd xx xe suf f Hdi' Hfr Hxx Hsuf Hno R]; subst; [specialize (RI eq_refl eq_refl ltac:(assumption) ltac:(assumption)); congruence|].
      now apply (int_not_float x).
  - assert (X : fix_suffix ints w = core ++ lit x /\ fix_suffix floats w = core).
    { rewrite Ew, Es. rewrite !fix_suffix_some by (auto using incl_ints, incl_floats). rewrite (proj2 (exists_string x floats) Hx).
      destruct (existsb _ ints) eqn:Ex; auto. apply exists_string in Ex. now apply ints_not_floats in Ex. }
    destruct X as [-> ->]. rewrite (proj1 (LET x (incl_floats x Hx))). split.
    + destruct (f64_from_str core) as [f|] eqn:Ef; [|discriminate]. cbn [option_map]. intros [= <-]. apply PF; [|now apply f64_from_str_iff|rewrite Es; right; now apply in_map].
      intros (n & _ & Hn). rewrite Es in Hn. now apply (float_not_nil x).
    + intros H. unfold w in *. inversion H; subst; [exfalso; now apply (float_not_int x)|]. erewrite FT by eassumption. reflexivity.
Qed.
Lemma radix_cut letter s sufs : In letter [98; 111; 120] -> incl sufs all_suffixes ->
  fix_suffix sufs (48 :: letter :: s) = [] \/ exists t, fix_suffix sufs (48 :: letter :: s) = 48 :: letter :: t.
Proof.
  intros Hl Hi. destruct (fix_suffix_parts sufs (48 :: letter :: s)) as (p & k & Hp & E). destruct (fix_suffix sufs (48 :: letter :: s)) as [|a [|b t]]; auto.
  - exfalso. cbn [app] in E. injection E as <- E. destruct Hp as [-> |Hp]; [discriminate|]. destruct (suffix_letter p (Hi p Hp)) as (c & r & Ep & Hc).
    rewrite Ep in E. destruct k; [discriminate|]. cbn in E. injection E as -> _. cbn in Hl, Hc. lia.
  - right. cbn [app] in E. injection E as <- <- _. now exists t.
Qed.
Lemma radix_read letter ds suffix : In letter [98; 111; 120] -> parse_lit (Literal (written (KRadix letter ds suffix))) = None.
Proof.
  intros Hl. cbn [written]. set (s := ds ++ suffix). cbn [parse_lit]. fold ints floats. assert (D : digit 48) by (unfold digit; lia).
  destruct (num_quotes 48 (letter :: s) D) as [-> ->].
  assert (NI : forall t, read_int I32 (48 :: letter :: t) = None).
  { intros t. destruct (read_int I32 (48 :: letter :: t)) eqn:E; auto. apply read_int_iff, int_text_digits in E as (E & _); auto. inversion E as [|? ? _ E']; subst.
    inversion E' as [|? ? E1 _]; subst. unfold digit in E1. cbn in Hl. lia. }
  assert (NF : forall t, f64_from_str (48 :: letter :: t) = None).
  { intros t. destruct (f64_from_str (48 :: letter :: t)) eqn:E; auto. apply f64_from_str_iff, float_text_chars in E; auto. inversion E as [|? ? _ E']; subst.
    inversion E' as [|? ? [E1 _] _]; subst. unfold core_char, digit in E1. cbn in Hl, E1. lia. }
  destruct (radix_cut letter s ints Hl incl_ints) as [-> |[t ->]]; [change (read_int I32 []) with (@None Z)|rewrite NI];
    (destruct (radix_cut letter s floats Hl incl_floats) as [-> |[t' ->]]; [reflexivity|now rewrite NF]).
Qed.
Theorem literal_read l v : lexical l -> clear l -> (parse_lit (literal_tok l) = Some v <-> literal_is l v).
Proof.
  intros Hl Hc. destruct l as [b|bytes raw body|body|body|i fr x suf|letter ds suf]; cbn [literal_tok].
  - destruct b; cbn; (split; [intros [= <-]; constructor|inversion 1; reflexivity]).
  - rewrite text_read by auto. destruct (text_open bytes raw) eqn:E.
    + split; [intros [= <-]|inversion 1; reflexivity].
      assert (X : match raw with Some n => (n <= 2)%nat | None => True end) by (destruct raw; cbn in E; auto; now apply Nat.leb_le).
      destruct bytes; cbn [text_value]; constructor; auto.
    + split; [discriminate|]. intros H. assert (X : match raw with Some n => (n <= 2)%nat | None => True end) by (inversion H; auto).
      destruct raw; cbn in E; [apply Nat.leb_gt in E; lia|discriminate].
  - destruct Hl as [_ Hne]. rewrite byte_read by auto. split; [intros [= <-]; constructor|inversion 1; reflexivity].
  - rewrite char_read. split; [discriminate|inversion 1].
  - now apply num_read.
  - destruct Hl as (Hl & _). rewrite radix_read by auto. split; [discriminate|inversion 1].
Qed.

(** * Items *)
Lemma negative_read l v : lexical l -> clear l -> (parse_negative (literal_tok l) = Some v <-> value_is (Minus l) v).
Proof.
  intros Hl Hc. unfold parse_negative. split.
  - destruct (parse_lit (literal_tok l)) as [[]|] eqn:E; try discriminate; intros [= <-]; constructor; now apply literal_read.
  - intros H. inversion H as [|? n raw L|? f raw L]; subst; apply literal_read in L; auto; now rewrite L.
Qed.
Section RmetaInd.
  Variable P : rmeta -> Prop.
  Hypothesis HW : forall w, P (WWord w).
  Hypothesis HV : forall v, P (WValue v).
  Hypothesis HP : forall k c v, P (WPair k c v).
  Hypothesis HG : forall w d parts, Forall P (somes parts) -> P (WGroup w d parts).
  Fixpoint rmeta_rec (m : rmeta) : P m :=
    match m with
    | WWord w => HW w
    | WValue v => HV v
    | WPair k c v => HP k c v
    | WGroup w d parts => HG w d parts
        ((fix go l : Forall P (somes l) := match l with
          | [] => Forall_nil _
          | Some a :: r => Forall_cons a (rmeta_rec a) (go r)
          | None :: r => go r end) parts)
    end.
End RmetaInd.
Definition part_toks (p : option rmeta) : list token := match p with Some m => meta_toks m | None => [] end.
Lemma meta_toks_group w d parts : meta_toks (WGroup w d parts) = [Ident w; Group d (sep_by 44 (map part_toks parts))].
Proof. reflexivity. Qed.
Lemma literal_tok_no_comma l : is_punct 44 (literal_tok l) = false.
Proof. now destruct l. Qed.
Lemma meta_no_comma m : Forall (fun t => is_punct 44 t = false) (meta_toks m).
Proof.
  destruct m as [w|[l|l]|k c [l|l]|w d parts]; cbn; repeat constructor; auto using literal_tok_no_comma; now destruct c.
Qed.
Lemma meta_toks_ne m : meta_toks m <> [].
Proof. destruct m as [w|[l|l]|k c [l|l]|w d parts]; discriminate. Qed.
Lemma word_not_bool w : ~ In w (map lit ["true"; "false"]%string) -> parse_lit (Ident w) = None.
Proof.
  intros H. cbn [parse_lit]. destruct (str_eqb w (lit "true")) eqn:E1; [apply str_eqb_eq in E1; elim H; now left|].
  destruct (str_eqb w (lit "false")) eqn:E2; [apply str_eqb_eq in E2; elim H; right; now left|reflexivity].
Qed.
Lemma all_some_iff {A B} (f : A -> option B) l bs : all_some f l = Some bs <-> Forall2 (fun a b => f a = Some b) l bs.
Proof.
  revert bs. induction l as [|a l IH]; intros bs; cbn [all_some].
  - split; [intros [= <-]; constructor|inversion 1; reflexivity].
  - destruct (f a) as [b|] eqn:E; cbn [obind].
    + destruct (all_some f l) as [cs|]; cbn [obind]; split.
      * intros [= <-]. constructor; auto. now apply IH.
      * inversion 1 as [|? b' ? bs' H1 H2]; subst. apply IH in H2 as [= ->]. congruence.
      * discriminate.
      * inversion 1 as [|? b' ? bs' H1 H2]; subst. apply IH in H2. discriminate.
    + split; [discriminate|]. inversion 1. congruence.
Qed.
Lemma parts_kept parts : parts <> [] -> filter nonempty (comma_parts [] (sep_by 44 (map part_toks parts))) = map meta_toks (somes parts).
Proof.
  intros Hne. rewrite comma_parts_sep.
  - replace (match map part_toks parts with a :: r => ([] ++ a) :: r | [] => [] end) with (map part_toks parts) by now destruct parts.
    clear. induction parts as [|[m|] parts IH]; [reflexivity| |]; cbn [map filter part_toks somes flat_map app].
    + pose proof (meta_toks_ne m). destruct (meta_toks m) eqn:E; [easy|]. cbn [nonempty]. rewrite IH. reflexivity.
    + exact IH.
  - apply Forall_map, Forall_forall. intros [m|] _; cbn [part_toks]; [apply meta_no_comma|constructor].
  - now destruct parts.
Qed.
Lemma inside_nonempty parts : parts <> [] -> parts <> [None] -> nonempty (sep_by 44 (map part_toks parts)) = true.
Proof.
  intros H1 H2. destruct parts as [|p [|q parts]]; [easy| |].
  - destruct p as [m|]; [|easy]. cbn. pose proof (meta_toks_ne m). now destruct (meta_toks m).
  - change (sep_by 44 (map part_toks (p :: q :: parts))) with (part_toks p ++ Punct 44 :: sep_by 44 (map part_toks (q :: parts))).
    now destruct (part_toks p).
Qed.
Lemma in_somes {A} (a : A) l : In a (somes l) <-> In (Some a) l.
Proof.
  unfold somes. rewrite in_flat_map. split.
  - intros ([b|] & H & X); [|contradiction]. now destruct X as [-> |[]].
  - intros H. exists (Some a). split; auto. now left.
Qed.
Lemma item_read_fuel m : meta_good m -> forall fuel i, (depths (meta_toks m) < fuel)%nat -> (parse_item fuel (meta_toks m) = Some i <-> item_is m i).
Proof.
  induction m as [w|v|k c v|w d parts IH] using rmeta_rec; intros Hg fuel i Hf; (destruct fuel as [|fuel]; [lia|]).
  - inversion Hg as [? Hw| | |]; subst. cbn [meta_toks parse_item]. rewrite word_not_bool by auto. split; [intros [= <-]; now constructor|inversion 1; reflexivity].
  - inversion Hg as [|? Hv| |]; subst. destruct v as [l|l]; destruct Hv as [Hl Hc]; cbn [meta_toks value_toks].
    + assert (E : parse_item (S fuel) [literal_tok l] = option_map MLiteral (parse_lit (literal_tok l))).
      { destruct l; cbn [literal_tok parse_item]; try reflexivity. now destruct b. }
      rewrite E. split.
      * destruct (parse_lit (literal_tok l)) as [x|] eqn:E'; [|discriminate]. intros [= <-]. apply literal_read in E'; auto. now repeat constructor.
      * inversion 1 as [|? x Hx| |]; subst. inversion Hx as [? ? Hx'| |]; subst. apply literal_read in Hx'; auto. now rewrite Hx'.
    + assert (E : parse_item (S fuel) [Punct 45; literal_tok l] = option_map MLiteral (parse_negative (literal_tok l))) by reflexivity.
      rewrite E. split.
      * destruct (parse_negative (literal_tok l)) as [x|] eqn:E'; [|discriminate]. intros [= <-]. apply negative_read in E'; auto. now constructor.
      * inversion 1 as [|? x Hx| |]; subst. apply negative_read in Hx; auto. now rewrite Hx.
  - inversion Hg as [| |? ? ? Hv|]; subst. set (e := if c then 58 else 61) in *.
    assert (Em : pair_mark (Punct e) = Some e) by now destruct c.
    destruct v as [l|l]; destruct Hv as [Hl Hc]; cbn [meta_toks value_toks]; fold e.
    + assert (E : parse_item (S fuel) [Ident k; Punct e; literal_tok l] = option_map (fun x => MPair k x e) (parse_lit (literal_tok l))).
      { cbn [parse_item]. rewrite Em. now destruct l. }
      rewrite E. split.
      * destruct (parse_lit (literal_tok l)) as [x|] eqn:E'; [|discriminate]. intros [= <-]. apply literal_read in E'; auto. now repeat constructor.
      * inversion 1 as [| |? ? ? x Hx|]; subst. inversion Hx as [? ? Hx'| |]; subst. apply literal_read in Hx'; auto. now rewrite Hx'.
    + assert (E : parse_item (S fuel) [Ident k; Punct e; Punct 45; literal_tok l] = option_map (fun x => MPair k x e) (parse_negative (literal_tok l))).
      { cbn [parse_item]. rewrite Em. now destruct l. }
      rewrite E. split.
      * destruct (parse_negative (literal_tok l)) as [x|] eqn:E'; [|discriminate]. intros [= <-]. apply negative_read in E'; auto. now constructor.
      * inversion 1 as [| |? ? ? x Hx|]; subst. apply negative_read in Hx; auto. now rewrite Hx.
  - inversion Hg as [| | |? ? ? Hall]; subst. rewrite meta_toks_group in *. set (inside := sep_by 44 (map part_toks parts)) in *.
    assert (E : parse_item (S fuel) [Ident w; Group d inside] = if nonempty inside then option_map (MGroup w) (all_some (parse_item fuel) (filter nonempty (comma_parts [] inside))) else None) by reflexivity.
    rewrite E. change (depths [Ident w; Group d inside]) with (Nat.max 0 (Nat.max (S (depths inside)) 0)) in Hf.
    assert (F : forall l, Forall2 (fun m i => parse_item fuel (meta_toks m) = Some i) (somes parts) l <-> Forall2 item_is (somes parts) l).
    { intros l. assert (X : forall m, In m (somes parts) -> forall i, parse_item fuel (meta_toks m) = Some i <-> item_is m i).
      { intros m Hm j. rewrite Forall_forall in *. apply IH; auto. apply in_somes in Hm. pose proof (depths_in 44 (map part_toks parts) (meta_toks m)) as D.
        apply (in_map part_toks) in Hm. apply D in Hm. fold inside in Hm. lia. }
      clear - X. revert l. induction (somes parts) as [|m ms IHm]; intros l; [split; inversion 1; constructor|].
      split; inversion 1 as [|? ? ? ? H1 H2]; subst; constructor; try (apply X; [now left|auto]); apply IHm; auto; intros; apply X; now right. }
    assert (SH : parts = [] \/ parts = [None] \/ (parts <> [] /\ parts <> [None])).
    { destruct parts as [|[m|] [|q ps]]; auto; right; right; split; discriminate. }
    destruct SH as [-> |[-> |[N1 N2]]]; [unfold inside; cbn [map part_toks sep_by nonempty]; split; [discriminate|inversion 1; easy]..|].
    unfold inside. rewrite inside_nonempty, parts_kept by auto. split.
    + destruct (all_some (parse_item fuel) (map meta_toks (somes parts))) as [l|] eqn:E'; [|discriminate]. intros [= <-]. constructor; auto. apply F. apply all_some_iff in E'. clear - E'.
      remember (map meta_toks (somes parts)) as ts. revert Heqts. generalize (somes parts). induction E' as [|t i ts l H _ IH]; intros [|m ms] [=]; constructor; [now subst|auto].
    + inversion 1 as [| | |? ? ? l _ _ Hl]; subst. apply F in Hl. replace (all_some (parse_item fuel) (map meta_toks (somes parts))) with (Some l); [reflexivity|].
      symmetry. apply all_some_iff. clear - Hl. induction Hl; cbn [map]; constructor; auto.
Qed.
Theorem item_read m i : meta_good m -> (parse_meta_item (meta_toks m) = Some i <-> item_is m i).
Proof. intros H. apply item_read_fuel; auto. Qed.

(** * Attributes of declarations *)
Lemma text_found bytes raw body : match raw with Some n => (n <= 2)%nat | None => True end ->
  exists s, parse_lit (Literal (written (KText bytes raw body))) = Some (text_value bytes s (written (KText bytes raw body))).
Proof.
  intros Hn. set (w := written (KText bytes raw body)). assert (Ew : w = opening bytes raw ++ body ++ closing raw) by reflexivity.
  assert (S : starts_with (opening bytes raw) w = true) by (rewrite Ew; apply starts_with_app).
  assert (En : ends_with (closing raw) w = true) by (rewrite Ew, app_assoc; apply ends_with_snoc).
  exists (trim_end_matches (closing raw) (trim_start_matches (opening bytes raw) w)).
  assert (F : fix_quotes (if bytes then byte_quotes else string_quotes) w = Some (trim_end_matches (closing raw) (trim_start_matches (opening bytes raw) w))).
  { destruct bytes, raw as [[|[|[|n]]]|]; try lia; cbn [opening closing repeat app] in *; (apply quotes_found; auto;
      [cbn; tauto|]; intros p q Hin Hne; rewrite Ew; cbn in Hin;
      repeat match goal with H : _ \/ _ |- _ => destruct H as [H|H] end; try contradiction; injection Hin as <- <-; try reflexivity; now elim Hne). }
  destruct bytes; cbn [parse_lit text_value]; [now rewrite F|].
  replace (fix_quotes byte_quotes w) with (@None str); [now rewrite F|]. symmetry. apply quotes_none. intros p q Hin. rewrite Ew. cbn in Hin.
  destruct raw as [n|]; cbn [opening app]; repeat match goal with H : _ \/ _ |- _ => destruct H as [H|H] end; try contradiction; injection Hin as <- <-; reflexivity.
Qed.
Lemma byte_found body : exists s, parse_lit (Literal (written (KByte body))) = Some (LBytes s (written (KByte body))).
Proof.
  cbn [parse_lit fix_quotes byte_quotes]. replace (starts_with [98; 39] (written (KByte body))) with true by (symmetry; apply (starts_with_app [98; 39])).
  replace (ends_with [39] (written (KByte body))) with true by (symmetry; cbn [written]; rewrite app_assoc; apply ends_with_snoc). cbn [andb]. eauto.
Qed.
Lemma literal_reads_ok l v0 : lexical l -> literal_is l v0 -> exists v, parse_lit (literal_tok l) = Some v /\ literal_reads l v.
Proof.
  intros Hl H0. assert (K : forall v, parse_lit (literal_tok l) = Some v -> clear l -> literal_is l v) by (intros v E Hc; now apply literal_read).
  unfold literal_reads. destruct H0 as [b|raw body Hn|raw body Hn|body|ds suf H1 H2 H3|i fr fd x xe suf f H1 H2 H3 H4 H5 H6].
  - exists (LBoolean b (written (KBool b))). assert (E : parse_lit (literal_tok (KBool b)) = Some (LBoolean b (written (KBool b)))) by now destruct b. auto.
  - destruct (text_found false raw body Hn) as [s E]. cbn [text_value] in E. eexists. split; [exact E|]. split; [now apply K|]. now exists s.
  - destruct (text_found true raw body Hn) as [s E]. cbn [text_value] in E. eexists. split; [exact E|]. split; [now apply K|]. now exists s.
  - destruct (byte_found body) as [s E]. eexists. split; [exact E|]. split; [now apply K|]. now exists s.
  - eexists. split; [|split; [apply K|exact I]]; apply (literal_read _ _ Hl I); now constructor.
  - eexists. split; [|split; [apply K|exact I]]; apply (literal_read _ _ Hl I); econstructor; eauto.
Qed.
Lemma value_reads_ok v : value_fine v -> match v with
  | Plain l => exists x, parse_lit (literal_tok l) = Some x /\ value_reads v x
  | Minus l => exists x, parse_negative (literal_tok l) = Some x /\ value_reads v x
  end.
Proof.
  intros [Hl [x0 H0]]. destruct v as [l|l].
  - inversion H0 as [? ? L| |]; subst. destruct (literal_reads_ok l x0 Hl L) as (x & E & R). exists x. split; [auto|now constructor].
  - exists x0. split; [|now constructor]. assert (C : clear l) by (inversion H0 as [|? n raw L|? f raw L]; subst; inversion L; exact I). now apply negative_read.
Qed.
Lemma attr_read_fuel m : attr_ok m -> forall fuel, (depths (meta_toks m) < fuel)%nat -> exists i, parse_item fuel (meta_toks m) = Some i /\ attr_is m i.
Proof.
  induction m as [w|v|k c v|w d parts IH] using rmeta_rec; intros Hg fuel Hf; (destruct fuel as [|fuel]; [lia|]).
  - inversion Hg as [? Hw| | |]; subst. exists (MIdent w). split; [|constructor]. cbn [meta_toks parse_item]. now rewrite word_not_bool.
  - inversion Hg as [|? Hv| |]; subst. apply value_reads_ok in Hv. destruct v as [l|l]; destruct Hv as (x & E & R); exists (MLiteral x); (split; [|now constructor]); cbn [meta_toks value_toks].
    + replace (parse_item (S fuel) [literal_tok l]) with (option_map MLiteral (parse_lit (literal_tok l))); [now rewrite E|].
      destruct l; cbn [literal_tok parse_item]; try reflexivity. now destruct b.
    + change (parse_item (S fuel) [Punct 45; literal_tok l]) with (option_map MLiteral (parse_negative (literal_tok l))). now rewrite E.
  - inversion Hg as [| |? ? ? Hv|]; subst. set (e := if c then 58 else 61) in *. assert (Em : pair_mark (Punct e) = Some e) by now destruct c.
    apply value_reads_ok in Hv. destruct v as [l|l]; destruct Hv as (x & E & R); exists (MPair k x e); (split; [|now constructor]); cbn [meta_toks value_toks]; fold e; cbn [parse_item]; rewrite Em.
    + cbn [obind]. rewrite E. now destruct l.
    + cbn [obind is_punct N.eqb Pos.eqb]. rewrite E. now destruct l.
  - inversion Hg as [| | |? ? ? N1 N2 Hall]; subst. rewrite meta_toks_group in *. set (inside := sep_by 44 (map part_toks parts)) in *.
    change (parse_item (S fuel) [Ident w; Group d inside]) with (if nonempty inside then option_map (MGroup w) (all_some (parse_item fuel) (filter nonempty (comma_parts [] inside))) else None).
    change (depths [Ident w; Group d inside]) with (Nat.max 0 (Nat.max (S (depths inside)) 0)) in Hf.
    assert (X : forall m, In m (somes parts) -> exists i, parse_item fuel (meta_toks m) = Some i /\ attr_is m i).
    { intros m Hm. rewrite Forall_forall in *. apply IH; auto. apply in_somes in Hm. pose proof (depths_in 44 (map part_toks parts) (meta_toks m)) as D.
      apply (in_map part_toks) in Hm. apply D in Hm. fold inside in Hm. lia. }
    assert (F : exists l, all_some (parse_item fuel) (map meta_toks (somes parts)) = Some l /\ Forall2 attr_is (somes parts) l).
    { clear - X. induction (somes parts) as [|m ms IHm]; [exists []; split; [reflexivity|constructor]|]. destruct (X m (or_introl eq_refl)) as (i & E & R).
      destruct IHm as (l & E' & R'); [intros; apply X; now right|]. exists (i :: l). split; [|now constructor]. cbn [map all_some]. rewrite E. cbn [obind]. rewrite E'. reflexivity. }
    destruct F as (l & E & R). exists (MGroup w l). split; [|now constructor]. unfold inside. rewrite inside_nonempty, parts_kept by auto. now rewrite E.
Qed.
Lemma attr_read m : attr_ok m -> exists i, parse_meta_item (meta_toks m) = Some i /\ attr_is m i.
Proof. intros H. apply attr_read_fuel; auto. Qed.
(** What is read for it. *)
Definition item_of (m : rmeta) : meta_item := match parse_meta_item (meta_toks m) with Some i => i | None => MIdent [] end.
Lemma item_of_ok m : attr_ok m -> parse_meta_item (meta_toks m) = Some (item_of m) /\ attr_is m (item_of m).
Proof. intros H. destruct (attr_read m H) as (i & E & R). unfold item_of. rewrite E. auto. Qed.

(** * Texts *)
Lemma join_sep c l : join_toks [Punct c] l = sep_by c l.
Proof. induction l as [|a [|b l] IH]; [reflexivity..|]. cbn [join_toks sep_by app] in *. now rewrite IH. Qed.
Lemma somes_some {A} (l : list A) : somes (map Some l) = l.
Proof. induction l as [|a l IH]; [reflexivity|]. cbn. f_equal. exact IH. Qed.
Lemma meta_out_group w d parts : meta_out (WGroup w d parts) = WGroup w Paren (map Some (map meta_out (somes parts))).
Proof.
  cbn [meta_out]. do 2 f_equal. unfold somes. induction parts as [|[m|] parts IH]; cbn [flat_map map app]; auto. now rewrite IH.
Qed.
Lemma steady_group w d parts : steady (WGroup w d parts) = true -> somes parts <> [] /\ Forall (fun m => steady m = true) (somes parts).
Proof.
  cbn [steady]. intros H. apply andb_prop in H as [H1 H2]. split.
  - apply existsb_exists in H1 as ([m|] & Hin & H1); [|discriminate]. intros E. assert (X : In m (somes parts)) by now apply in_somes. now rewrite E in X.
  - apply Forall_forall. intros m Hm. apply in_somes in Hm. rewrite forallb_forall in H2. apply (H2 (Some m) Hm).
Qed.
Lemma value_reads_text v x : value_fine v -> value_reads v x -> lit_text x = value_toks (unsigned v).
Proof.
  intros [Hl [x0 H0]] H. inversion H as [l ? [R1 R2]|l ? V]; subst.
  - assert (T : forall l v, literal_is l v -> lit_text v = [literal_tok l]) by (destruct 1; reflexivity). cbn [unsigned value_toks].
    destruct l as [b|[|] n body|body|body|i fr y suf|letter ds suf]; try (apply T, R1; exact I); destruct R2 as [s ->]; reflexivity.
  - assert (T : forall l v, literal_is l v -> lit_text v = [literal_tok l]) by (destruct 1; reflexivity). cbn [unsigned value_toks].
    inversion V as [|? n raw L|? f raw L]; subst; apply T in L; exact L.
Qed.
Lemma attr_text m : attr_ok m -> meta_item_text (item_of m) = meta_toks (meta_out m).
Proof.
  intros H. destruct (item_of_ok m H) as [_ R]. revert H R. generalize (item_of m). induction m as [w|v|k c v|w d parts IH] using rmeta_rec; intros i H R;
    inversion R as [|? ? V|? ? ? ? V|? ? ? l F]; subst; inversion H as [|? Hv|? ? ? Hv|? ? ? N1 N2 Hall]; subst; cbn [meta_item_text].
  - reflexivity.
  - now apply value_reads_text.
  - cbn [meta_out meta_toks]. now rewrite (value_reads_text v).
  - rewrite meta_out_group, meta_toks_group, join_sep, map_map. cbn [part_toks]. do 3 f_equal. f_equal. rewrite map_map. clear - IH F Hall.
    revert l F. induction IH as [|m ms Hm _ IHm]; intros l F; inversion F; subst; cbn [map]; [reflexivity|]. inversion Hall; subst. rewrite Hm by auto. f_equal. auto.
Qed.
Lemma attr_ok_out m : attr_ok m -> steady m = true -> attr_ok (meta_out m).
Proof.
  induction m as [w|v|k c v|w d parts IH] using rmeta_rec; intros H S; [auto|now destruct v|now destruct v|].
  apply steady_group in S as [Hne Hall]. rewrite meta_out_group. inversion H as [| | |? ? ? N1 N2 Hok]; subst. constructor.
  - now destruct (somes parts).
  - now destruct (somes parts).
  - rewrite somes_some. apply Forall_map. rewrite Forall_forall in *. auto.
Qed.
Lemma depths_sep c l : depths (sep_by c l) = fold_right (fun a n => Nat.max (depths a) n) 0%nat l.
Proof.
  induction l as [|a [|b l] IH]; [reflexivity|cbn [sep_by fold_right]; lia|]. change (sep_by c (a :: b :: l)) with (a ++ Punct c :: sep_by c (b :: l)). rewrite depths_app.
  change (depths (Punct c :: sep_by c (b :: l))) with (Nat.max 0 (depths (sep_by c (b :: l)))). rewrite IH. reflexivity.
Qed.
Lemma depths_out m : depths (meta_toks (meta_out m)) = depths (meta_toks m).
Proof.
  induction m as [w|v|k c v|w d parts IH] using rmeta_rec; [reflexivity| | |].
  - destruct v as [l|l]; [reflexivity|]. now destruct l.
  - destruct v as [l|l]; [reflexivity|]. now destruct l.
  - rewrite meta_out_group, !meta_toks_group. set (a := sep_by 44 _). set (b := sep_by 44 _).
    change (Nat.max 0 (Nat.max (S (depths a)) 0) = Nat.max 0 (Nat.max (S (depths b)) 0)). replace (depths a) with (depths b); [reflexivity|]. subst a b. rewrite !depths_sep.
    induction parts as [|[m|] parts IHp]; [reflexivity| |].
    + cbn [somes flat_map app] in *. inversion IH; subst. cbn [map fold_right part_toks]. rewrite H1. f_equal. now apply IHp.
    + cbn [somes flat_map app] in *. cbn [map fold_right part_toks]. rewrite IHp by auto. reflexivity.
Qed.
Lemma same_read m : attr_ok m -> steady m = true -> forall fuel, (depths (meta_toks m) < fuel)%nat -> parse_item fuel (meta_toks (meta_out m)) = parse_item fuel (meta_toks m).
Proof.
  induction m as [w|v|k c v|w d parts IH] using rmeta_rec; intros H S fuel Hf; [reflexivity|now destruct v|now destruct v|].
  apply steady_group in S as [Hne Hall]. rewrite meta_out_group. inversion H as [| | |? ? ? N1 N2 Hok]; subst. rewrite !meta_toks_group in *. destruct fuel as [|fuel]; [reflexivity|].
  assert (E : forall d inside, parse_item (S fuel) [Ident w; Group d inside] = if nonempty inside then option_map (MGroup w) (all_some (parse_item fuel) (filter nonempty (comma_parts [] inside))) else None) by reflexivity.
  rewrite !E. rewrite !inside_nonempty, !parts_kept by (auto; now destruct (somes parts)). f_equal. rewrite somes_some, map_map.
  set (inside := sep_by 44 (map part_toks parts)) in *. change (depths [Ident w; Group d inside]) with (Nat.max 0 (Nat.max (S (depths inside)) 0)) in Hf.
  assert (D : forall m, In m (somes parts) -> (depths (meta_toks m) < fuel)%nat).
  { intros m Hm. apply in_somes in Hm. pose proof (depths_in 44 (map part_toks parts) (meta_toks m)) as D. apply (in_map part_toks) in Hm. apply D in Hm. fold inside in Hm. lia. }
  clear - IH Hall Hok D. induction (somes parts) as [|m ms IHm]; [reflexivity|]. inversion IH; inversion Hall; inversion Hok; subst. cbn [map all_some].
  rewrite H1 by (auto; apply D; now left). rewrite IHm; auto. intros x Hx. apply D. now right.
Qed.
Lemma item_of_out m : attr_ok m -> steady m = true -> item_of (meta_out m) = item_of m.
Proof. intros H S. unfold item_of, parse_meta_item. rewrite depths_out. rewrite same_read; auto. Qed.

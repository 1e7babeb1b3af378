(** Proofs about [parse_path]. *)
From Verif Require Import Base F64 Json Parse Ops Path SpecGrammar SpecPath MapProofs NumberProofs DecProofs.
From Coq Require Import ZifyBool ZifyNat ZifyN.
Open Scope N_scope.

(** ** usize texts *)
Lemma read_digits_spec s : forall acc, acc <= usize_max ->
  match read_digits acc s with
  | Some n => Forall digit s /\ n = acc * 10 ^ N.of_nat (List.length s) + decimal s /\ n <= usize_max
  | None => Forall digit s -> usize_max < acc * 10 ^ N.of_nat (List.length s) + decimal s
  end.
Proof.
  induction s as [|c s IH]; intros acc Ha; cbn [read_digits].
  - split; [constructor|]. cbn. split; [lia|auto].
  - destruct (is_digit c) eqn:Ec.
    + apply is_digit_digit in Ec. assert (E : acc * 10 ^ N.of_nat (List.length (c :: s)) + decimal (c :: s) =
        (10 * acc + (c - 48)) * 10 ^ N.of_nat (List.length s) + decimal s).
      { cbn [decimal List.length]. rewrite Nat2N.inj_succ, N.pow_succ_r'. lia. }
      cbv zeta. rewrite E. destruct (N.ltb_spec usize_max (10 * acc + (c - 48))) as [H|H].
      * intros _. assert (1 <= 10 ^ N.of_nat (List.length s)) by (pose proof (N.pow_nonzero 10 (N.of_nat (List.length s))); lia). nia.
      * specialize (IH _ H). destruct (read_digits (10 * acc + (c - 48)) s) as [n|].
        -- destruct IH as (F & -> & L). split; [constructor; auto|]. split; auto.
        -- intros F. apply IH. now inversion F.
    + intros F. exfalso. inversion F as [|? ? Hd]. apply is_digit_digit in Hd. congruence.
Qed.
Lemma usize_from_str_spec s n : usize_from_str s = Some n <-> usize_text s n.
Proof.
  assert (R : forall ds, ds <> [] -> (read_digits 0 ds = Some n <-> Forall digit ds /\ n = decimal ds /\ n < 2 ^ 64)).
  { intros ds _. pose proof (read_digits_spec ds 0 ltac:(unfold usize_max; lia)) as H.
    destruct (read_digits 0 ds) as [m|].
    - destruct H as (F & Hm & L). rewrite N.mul_0_l, N.add_0_l in Hm. unfold usize_max in L. change (2 ^ 64) with 18446744073709551616. split.
      + intros [= ->]. repeat split; auto. lia.
      + intros (_ & -> & _). congruence.
    - split; [discriminate|]. intros (F & Hn & L). specialize (H F). rewrite N.mul_0_l, N.add_0_l in H. unfold usize_max in H. change (2 ^ 64) with 18446744073709551616 in L. lia. }
  unfold usize_text, usize_from_str. destruct s as [|c r].
  - split; [discriminate|]. intros (ds & Hn & _ & [H|H] & _); [subst; congruence|discriminate].
  - destruct (N.eqb_spec c PLUS) as [->|Hc].
    + destruct r as [|d r].
      * split; [discriminate|]. intros (ds & Hn & F & [H|H] & _).
        -- subst ds. inversion F as [|? ? Hd]. unfold digit in Hd. lia.
        -- injection H as <-. congruence.
      * rewrite R by discriminate. split.
        -- intros (F & Hn & L). exists (d :: r). repeat split; auto. discriminate.
        -- intros (ds & Hn & F & [H|H] & E & L).
           ++ subst ds. inversion F as [|? ? Hd]. unfold digit in Hd. lia.
           ++ injection H as <-. auto.
    + rewrite R by discriminate. split.
      * intros (F & Hn & L). exists (c :: r). repeat split; auto. discriminate.
      * intros (ds & Hn & F & [H|H] & E & L); [subst ds; auto|congruence].
Qed.

(** ** One segment *)
Lemma finder_of_ok buf f : finder_of buf = Ok f <-> StepText buf f.
Proof.
  unfold finder_of. destruct buf as [|c s].
  - split; [intros [= <-]; apply st_plain; discriminate|]. inversion 1; subst; auto; discriminate.
  - destruct (N.eqb_spec c HASH) as [->|H1].
    + destruct (usize_from_str s) as [i|] eqn:E.
      * split; [intros [= <-]; constructor; now apply usize_from_str_spec|]. inversion 1 as [? ? U| |? H2]; subst.
        -- apply usize_from_str_spec in U. congruence.
        -- now destruct (H2 s).
      * split; [discriminate|]. inversion 1 as [? ? U| |? H2]; subst.
        -- apply usize_from_str_spec in U. congruence.
        -- now destruct (H2 s).
    + destruct (N.eqb_spec c BSLASH) as [->|H2].
      * split; [intros [= <-]; constructor|]. inversion 1 as [| |? ? H3]; subst; auto. now destruct (H3 s).
      * split; [intros [= <-]; apply st_plain; congruence|]. inversion 1; subst; auto; congruence.
Qed.
Lemma finder_of_cases buf : (exists f, finder_of buf = Ok f) \/
  (exists e s, finder_of buf = Err e /\ kind e = PathSyntaxError /\ buf = 35 :: s /\ ~ exists n, usize_text s n).
Proof.
  unfold finder_of. destruct buf as [|c s]; eauto. destruct (N.eqb_spec c HASH) as [->|H1].
  - destruct (usize_from_str s) eqn:E; eauto. right. eexists _, s. repeat split. intros [n U]. apply usize_from_str_spec in U. congruence.
  - destruct (c =? BSLASH); eauto.
Qed.

(** ** Splitting *)
Fixpoint splitf (s : str) : str * list str :=
  match s with
  | [] => ([], [])
  | c :: r =>
      if c =? 46 then let (d, ds) := splitf r in ([], d :: ds)
      else if c =? 92 then
        match r with
        | c' :: r' => if c' =? 46 then let (d, ds) := splitf r' in (46 :: d, ds) else let (d, ds) := splitf r in (92 :: d, ds)
        | [] => ([92], [])
        end
      else let (d, ds) := splitf r in (c :: d, ds)
  end.
Fixpoint mapM {A B} (g : A -> res B) (l : list A) : res (list B) :=
  match l with
  | [] => Ok []
  | a :: r => let? b := g a in let? bs := mapM g r in Ok (b :: bs)
  end.
Lemma path_loop_split n : forall s, (List.length s <= n)%nat -> forall buf vec,
  path_loop buf vec s = let (c, cs) := splitf s in let? l := mapM finder_of ((buf ++ c) :: cs) in Ok (vec ++ l).
Proof.
  induction n as [|n IH]; intros s Hn buf vec; (destruct s as [|c r]; [cbn; rewrite app_nil_r; destruct (finder_of buf); reflexivity|cbn in Hn; try lia]).
  cbn [path_loop splitf]. destruct (N.eqb_spec c DOT) as [->|H1].
  - rewrite app_nil_end with (l := buf) at 1. destruct (splitf r) as [d ds] eqn:E. cbn [mapM]. rewrite app_nil_r.
    destruct (finder_of buf) as [f| | |]; cbn [bind]; auto. rewrite IH by lia. rewrite E. cbn [app mapM].
    destruct (finder_of d); cbn [bind]; auto. destruct (mapM finder_of ds); cbn [bind]; auto. now rewrite <- app_assoc.
  - destruct (N.eqb_spec c BSLASH) as [->|H2].
    + destruct r as [|c' r']; [rewrite IH by lia; cbn; now rewrite app_nil_r|]. destruct (N.eqb_spec c' DOT) as [->|H3].
      * cbn in Hn. rewrite IH by lia. destruct (splitf r'). rewrite <- app_assoc. reflexivity.
      * rewrite IH by lia. destruct (splitf (c' :: r')). rewrite <- app_assoc. reflexivity.
    + rewrite IH by lia. destruct (splitf r). rewrite <- app_assoc. reflexivity.
Qed.
Lemma seg_no_dot_head raw c : Seg (46 :: raw) c -> False.
Proof. inversion 1; subst; congruence. Qed.
Lemma splitf_seg raw c : Seg raw c -> splitf raw = (c, []).
Proof.
  induction 1 as [|raw c H IH|x raw c Hx H IH]; auto.
  - cbn [splitf N.eqb Pos.eqb]. now rewrite IH.
  - cbn [splitf]. destruct (N.eqb_spec x 46); [congruence|]. rewrite IH. destruct (N.eqb_spec x 92) as [->|]; auto.
    destruct raw as [|y raw]. { now inversion H. }
    destruct (N.eqb_spec y 46) as [->|]; auto. now apply seg_no_dot_head in H.
Qed.
Lemma splitf_seg_dot raw c : Seg raw c -> ~ ends_in_backslash c -> forall s, splitf (raw ++ 46 :: s) = (c, let (d, ds) := splitf s in d :: ds).
Proof.
  induction 1 as [|raw c H IH|x raw c Hx H IH]; intros Hb s.
  - cbn. now destruct (splitf s).
  - cbn [app splitf N.eqb Pos.eqb]. rewrite IH; auto. intros [r ->]. apply Hb. now exists (46 :: r).
  - assert (Hc : ~ ends_in_backslash c) by (intros [r ->]; apply Hb; now exists (x :: r)).
    cbn [app splitf]. destruct (N.eqb_spec x 46); [congruence|]. rewrite IH by auto. destruct (N.eqb_spec x 92) as [->|]; auto.
    destruct raw as [|y raw]. { inversion H; subst. destruct Hb. now exists []. }
    cbn [app]. destruct (N.eqb_spec y 46) as [->|]; auto. now apply seg_no_dot_head in H.
Qed.
Lemma path_text_split s cs : PathText s cs <-> cs = fst (splitf s) :: snd (splitf s).
Proof.
  split.
  - induction 1 as [raw c H|raw c s cs H Hb _ IH]; [now rewrite (splitf_seg _ _ H)|].
    cbn [app]. rewrite (splitf_seg_dot _ _ H Hb). rewrite IH. cbn. now destruct (splitf s).
  - intros ->. assert (P : forall n s, (List.length s <= n)%nat -> PathText s (fst (splitf s) :: snd (splitf s))).
    { assert (Cons : forall x s c cs, (x <> 46 /\ (x = 92 -> forall r, s <> 46 :: r)) -> PathText s (c :: cs) ->
        PathText (x :: s) ((x :: c) :: cs)).
      { intros x t c cs [Hx Hx'] H. remember (c :: cs) as l eqn:El. destruct H as [raw c' H|raw c' t cs' H Hb H2]; inversion El; subst; clear El.
        - apply pt_last. now apply seg_char.
        - apply (pt_cons (x :: raw)); auto; [now apply seg_char|]. intros [r E]. destruct r as [|y r].
          + injection E as -> ->. inversion H; subst. eapply Hx'; [reflexivity|]. cbn. reflexivity.
          + injection E as _ ->. apply Hb. now exists r. }
      assert (Dot : forall s c cs, PathText s (c :: cs) -> PathText (92 :: 46 :: s) ((46 :: c) :: cs)).
      { intros t c cs H. remember (c :: cs) as l eqn:El. destruct H as [raw c' H|raw c' t cs' H Hb H2]; inversion El; subst; clear El.
        - apply pt_last. now apply seg_dot.
        - apply (pt_cons (92 :: 46 :: raw)); auto; [now apply seg_dot|]. intros [r E]. destruct r as [|y r]; [discriminate|].
          injection E as _ ->. apply Hb. now exists r. }
      induction n as [|n IH]; intros t Hn; (destruct t as [|c r]; [cbn; apply pt_last; constructor|cbn in Hn; try lia]).
      cbn [splitf]. destruct (N.eqb_spec c 46) as [->|H1].
      - specialize (IH r ltac:(lia)). destruct (splitf r) as [d ds]. cbn [fst snd] in *.
        apply (pt_cons [] [] r (d :: ds)); auto; [constructor|]. intros [l E]. now apply app_cons_not_nil in E.
      - destruct (N.eqb_spec c 92) as [->|H2].
        + destruct r as [|c' r']; [apply pt_last; apply seg_char; [lia|constructor]|]. destruct (N.eqb_spec c' 46) as [->|H3].
          * cbn in Hn. specialize (IH r' ltac:(lia)). destruct (splitf r'). now apply Dot.
          * specialize (IH (c' :: r') ltac:(lia)). destruct (splitf (c' :: r')). apply Cons; auto. split; [lia|]. congruence.
        + specialize (IH r ltac:(lia)). destruct (splitf r). apply Cons; auto. }
    now apply (P (List.length s)).
Qed.
Lemma steps_append p f : steps (path_append p f) = steps p ++ [f].
Proof. induction p as [g|g q IH]; cbn; [reflexivity|now rewrite IH]. Qed.
Lemma steps_fold l : forall p, steps (fold_left path_append l p) = steps p ++ l.
Proof. induction l as [|f l IH]; intros p; cbn; [now rewrite app_nil_r|]. rewrite IH, steps_append, <- app_assoc. reflexivity. Qed.
Lemma steps_inj p : forall q, steps p = steps q -> p = q.
Proof.
  induction p as [f|f p IH]; intros [g|g q] H; cbn in H; injection H; intros; subst; auto.
  - destruct q; discriminate.
  - destruct p; discriminate.
  - f_equal. auto.
Qed.
Lemma path_macro_steps f l : steps (path_macro f l) = f :: l.
Proof. unfold path_macro. now rewrite steps_fold. Qed.
Lemma mapM_ok {A B} (g : A -> res B) l bs : mapM g l = Ok bs <-> Forall2 (fun a b => g a = Ok b) l bs.
Proof.
  revert bs; induction l as [|a l IH]; intros bs; cbn [mapM].
  - split; [intros [= <-]; constructor|]. inversion 1; auto.
  - split.
    + destruct (g a) eqn:E; try discriminate. cbn [bind]. destruct (mapM g l); try discriminate. cbn [bind]. intros [= <-]. constructor; auto. now apply IH.
    + inversion 1 as [|? b ? bs' E F]; subst. rewrite E. cbn [bind]. apply IH in F. now rewrite F.
Qed.
Lemma Forall2_impl {A B} (P Q : A -> B -> Prop) l l' : (forall a b, P a b -> Q a b) -> Forall2 P l l' -> Forall2 Q l l'.
Proof. intros H. induction 1; constructor; auto. Qed.
Lemma parse_path_ok s p : parse_path s = Ok p <-> exists cs, PathText s cs /\ Forall2 StepText cs (steps p).
Proof.
  unfold parse_path. rewrite (path_loop_split (List.length s)) by auto. pose proof (path_text_split s) as PT.
  destruct (splitf s) as [c cs]. cbn [app fst snd] in *. set (l := c :: cs) in *.
  assert (E : (exists ds, PathText s ds /\ Forall2 StepText ds (steps p)) <-> Forall2 StepText l (steps p)).
  { split; [intros (ds & H & F); apply PT in H as ->; auto|]. intros F. exists l. split; auto. now apply PT. }
  rewrite E. clear E PT. split.
  - destruct (mapM finder_of l) as [fs| | |] eqn:M; try discriminate. cbn [bind app]. apply mapM_ok in M.
    destruct fs as [|f fs]; [inversion M|]. intros [= <-]. rewrite steps_fold. cbn [path_new steps app].
    eapply Forall2_impl; [|exact M]. intros a b H. now apply finder_of_ok.
  - intros F. assert (M : mapM finder_of l = Ok (steps p)).
    { apply mapM_ok. eapply Forall2_impl; [|exact F]. intros a b H. now apply finder_of_ok. }
    rewrite M. cbn [bind app]. destruct (steps p) as [|f fs] eqn:Es; [destruct p; discriminate|]. f_equal. apply steps_inj.
    rewrite steps_fold, Es. reflexivity.
Qed.
Lemma parse_path_cases s : (exists p, parse_path s = Ok p /\ ~ bad_segment s) \/
  (exists e, parse_path s = Err e /\ kind e = PathSyntaxError /\ bad_segment s).
Proof.
  unfold bad_segment. unfold parse_path. rewrite (path_loop_split (List.length s)) by auto. pose proof (path_text_split s) as PT.
  destruct (splitf s) as [c cs]. cbn [app fst snd] in *. set (l := c :: cs) in *.
  assert (M : (exists fs, mapM finder_of l = Ok fs /\ Forall (fun a => exists f, finder_of a = Ok f) l) \/
     (exists e t, mapM finder_of l = Err e /\ kind e = PathSyntaxError /\ In (35 :: t) l /\ ~ exists n, usize_text t n)).
  { clear PT. generalize l. clear l c cs. induction l as [|a l IH]; cbn [mapM]; [eauto|]. destruct (finder_of_cases a) as [[f E]|(e & t & E & K & -> & U)]; rewrite E; cbn [bind].
    - destruct IH as [(fs & -> & F)|(e & t & -> & K & Hi & U)]; cbn [bind].
      + left. eauto 6.
      + right. exists e, t. repeat split; auto. now right.
    - right. exists e, t. repeat split; auto. now left. }
  destruct M as [(fs & M & F)|(e & t & M & K & Hi & U)].
  - left. rewrite M. cbn [bind app]. destruct fs as [|f fs].
    + apply mapM_ok in M. inversion M.
    + eexists; split; [reflexivity|]. intros (ds & t & H & Hi & U). apply PT in H as ->. rewrite Forall_forall in F.
      destruct (F _ Hi) as [f' E]. apply finder_of_ok in E. inversion E as [? n Hu| |? H2]; subst; [apply U; eauto|]. now destruct (H2 t).
  - right. rewrite M. exists e. repeat split; auto. exists l, t. repeat split; auto. now apply PT.
Qed.

(** ** Which step lists have a text *)
Fixpoint esc_dots (k : str) : str := match k with [] => [] | c :: r => if c =? 46 then 92 :: 46 :: esc_dots r else c :: esc_dots r end.
Lemma esc_dots_seg k : Seg (esc_dots k) k.
Proof. induction k as [|c k IH]; cbn; [constructor|]. destruct (N.eqb_spec c 46) as [->|]; constructor; auto. Qed.
Definition content (f : finder) : str :=
  match f with
  | Index n => 35 :: show_N n
  | Key k => match k with c :: _ => if (c =? 35) || (c =? 92) then 92 :: k else k | [] => [] end
  end.
Lemma content_step f : match f with Index n => n < 2 ^ 64 | Key _ => True end -> StepText (content f) f.
Proof.
  destruct f as [k|n]; cbn [content]; intros H.
  - destruct k as [|c r]; [apply st_plain; discriminate|]. destruct ((c =? 35) || (c =? 92)) eqn:E; [constructor|].
    apply st_plain; intros r' [= -> _]; discriminate.
  - constructor. destruct (show_N_ok n) as (E & F & Hn). exists (show_N n). repeat split; auto.
    unfold show_N. cbn [dec_digits]. destruct (n <? 10); [discriminate|]. intros E0. symmetry in E0. now apply app_cons_not_nil in E0.
Qed.
Lemma content_backslash f : match f with Index _ => True | Key k => ~ ends_in_backslash k end -> ~ ends_in_backslash (content f).
Proof.
  destruct f as [k|n]; cbn [content]; intros H.
  - destruct k as [|c r]; auto. destruct ((c =? 35) || (c =? 92)) eqn:E; auto. intros [l El].
    destruct l as [|x l]; [discriminate|]. injection El as _ El. apply H. exists l. exact El.
  - intros [l El]. destruct (show_N_ok n) as (_ & F & _). destruct l as [|x l]; [discriminate|]. injection El as _ El.
    rewrite El in F. apply Forall_app in F as [_ F]. inversion F as [|? ? Hd]. unfold digit in Hd. lia.
Qed.
Lemma text_for l : expressible l -> exists s cs, PathText s cs /\ Forall2 StepText cs l.
Proof.
  induction l as [|f r IH]; [contradiction|]. destruct r as [|g r].
  - intros H. exists (esc_dots (content f)), [content f]. split; [apply pt_last, esc_dots_seg|].
    constructor; [|constructor]. apply content_step. now destruct f.
  - intros [Hf Hr]. destruct (IH Hr) as (s & cs & HP & HF). exists (esc_dots (content f) ++ [46] ++ s), (content f :: cs). split.
    + apply pt_cons; auto using esc_dots_seg. apply content_backslash. now destruct f.
    + constructor; auto. apply content_step. now destruct f.
Qed.
Lemma expressible_iff p : (exists s, s <> [] /\ parse_path s = Ok p) <-> expressible (steps p).
Proof.
  split.
  - intros (s & _ & H). apply parse_path_ok in H as (cs & HP & HF). revert HF. generalize (steps p). clear p.
    induction HP as [raw c _|raw c s cs _ Hb _ IH]; intros l HF.
    + inversion HF as [|? f ? ? HS H2]; subst. inversion H2; subst. cbn. destruct f; auto. inversion HS as [? ? (ds & _ & _ & _ & _ & L)| |]; auto.
    + inversion HF as [|? f ? r HS H2]; subst. specialize (IH _ H2).
      assert (E : match f with Key k => ~ ends_in_backslash k | Index n => n < 2 ^ 64 end).
      { inversion HS as [? ? (ds & _ & _ & _ & _ & L)|k|k]; subst; auto. intros [l ->]. apply Hb. exists (92 :: l). reflexivity. }
      destruct r as [|g r]; [destruct IH|]. cbn [expressible]. auto.
  - intros H. destruct (text_for _ H) as (s & cs & HP & HF). destruct s as [|x s].
    + exists [92]. split; [discriminate|]. apply parse_path_ok. exists [[92]]. split.
      * apply pt_last. apply seg_char; [lia|constructor].
      * apply path_text_split in HP. cbn in HP. subst cs. inversion HF as [|? f ? ? HS H2]; subst. inversion H2; subst.
        inversion HS; subst; auto. constructor; [|constructor]. constructor.
    + exists (x :: s). split; [discriminate|]. apply parse_path_ok. eauto.
Qed.

(** C72: what the references in the texts of [@params] and [@scope] come to. *)
From Verif Require Import Base Tokens Quote SpecQuote Translate SpecTranslate TranslateProofs.
From Coq Require Import Lia Relations.
Local Open Scope N_scope.

(** The translation returns exactly what the references stand for, and only then. *)
Theorem translate_gives_meaning d L ts out : represents d L -> library_ok L -> Forall ref_ok ts ->
  (exists steps, translate steps d (refs_toks ts) = Done out) <-> all_stand L ts out.
Proof.
  intros R HL H. split; [intros [n E]; now apply (translate_sound n d)|]. now apply translate_complete.
Qed.
(** More steps do not change what was returned. *)
Theorem translate_settles n m d ts : (n <= m)%nat -> translate n d ts <> Running -> translate m d ts = translate n d ts.
Proof. apply translate_more. Qed.
Corollary meaning_unique d L ts a b : represents d L -> library_ok L -> Forall ref_ok ts -> all_stand L ts a -> all_stand L ts b -> a = b.
Proof.
  intros R HL H Ha Hb. destruct (translate_complete d L ts a R HL H Ha) as [n Hn]. destruct (translate_complete d L ts b R HL H Hb) as [m Hm].
  pose proof (translate_more n (Nat.max n m) d (refs_toks ts)) as A. pose proof (translate_more m (Nat.max n m) d (refs_toks ts)) as B.
  rewrite Hn in A. rewrite Hm in B. rewrite A in B by (lia || discriminate). specialize (B ltac:(lia) ltac:(discriminate)). congruence.
Qed.

(** ** Nothing is left over *)
(** Whatever the library and the text: what is returned has no reference in it. *)
Theorem nothing_left steps d ts out : translate steps d ts = Done out -> ~ reference_in out.
Proof.
  revert ts. induction steps as [|n IH]; intros ts E; [discriminate|]. cbn [translate] in E. apply rbind_done in E as (o & E1 & E).
  destruct (remain o) eqn:Er; [now apply IH in E|]. injection E as <-. now apply remain_not.
Qed.
(** Nor has any group in it, provided that no value of a variable has one. *)
Definition clean (d : dict) : Prop := forall x v, dict_get (KVar x) d = Some v -> no_references v.
Definition groups_clean (ts : list ptok) : Prop := forall dl g, In (PGrp dl g) ts -> no_references g.
Lemma clean_put k v d : clean d -> no_references v -> clean (dict_put (param_key k) v d).
Proof.
  intros H Hv x w. unfold dict_put. cbn [dict_get]. destruct (mkey_eqb _ _); [intros [= <-]; exact Hv|apply H].
Qed.
Lemma clean_put_all ks : forall vs d, clean d -> Forall no_references vs -> clean (put_all ks vs d).
Proof. induction ks as [|k ks IH]; intros [|v vs] d H Hv; try exact H. inversion Hv; subst. cbn [put_all]. apply IH; auto. now apply clean_put. Qed.
Lemma groups_clean_app a b : groups_clean a -> groups_clean b -> groups_clean (a ++ b).
Proof. intros A B dl g [H|H]%in_app_or; [now apply A in H|now apply B in H]. Qed.
Lemma groups_clean_of v : no_references v -> groups_clean v.
Proof. intros [ts _ H]. exact H. Qed.
Lemma groups_clean_nil : groups_clean [].
Proof. intros ? ? []. Qed.
Lemma groups_clean_one t : match t with PGrp _ _ => False | _ => True end -> groups_clean [t].
Proof. intros H dl g [->|[]]. contradiction. Qed.
Lemma all_done_clean f l vs : (forall a v, f a = Done v -> no_references v) -> @all_done (list ptok) _ f l = Done vs -> Forall no_references vs.
Proof.
  intros H. revert vs. induction l as [|a l IH]; intros vs E; [injection E as <-; constructor|]. cbn [all_done] in E. apply rbind_done in E as (v & E1 & E). apply rbind_done in E as (vs' & E2 & E).
  injection E as <-. constructor; eauto.
Qed.
Lemma pass_clean tr d : (forall d ts out, clean d -> tr d ts = Done out -> no_references out) -> clean d ->
  forall n ts out, (List.length ts <= n)%nat -> pass tr d ts = Done out -> groups_clean out.
Proof.
  intros T D. induction n as [|n IH]; intros [|t r] out L E; try (injection E as <-; apply groups_clean_nil); cbn [List.length] in L; [lia|]. cbn [pass] in E. destruct (is_char 35 t) eqn:Et.
  - assert (O : (run! more := pass tr d r in Done (PPunct 35 false :: more)) = Done out -> groups_clean out).
    { intros E'. apply rbind_done in E' as (m & E1 & E'). injection E' as <-. apply (groups_clean_app [PPunct 35 false]); [now apply groups_clean_one|]. apply IH with r; [lia|auto]. }
    destruct r as [|[x| | |[] g] r']; auto; cbn [List.length] in L.
    + apply rbind_done in E as (m & E1 & E). injection E as <-. apply groups_clean_app; [|apply IH with r'; [lia|auto]].
      destruct (dict_get (KVar x) d) eqn:Ex; [|apply groups_clean_nil]. apply groups_clean_of. now apply D in Ex.
    + apply rbind_done in E as (v & E0 & E). apply rbind_done in E as (m & E1 & E). injection E as <-. apply groups_clean_app; [|apply IH with r'; [lia|auto]].
      unfold call in E0. destruct g as [|[f| | |] [|[| | |[] g] [|? ?]]]; try (injection E0 as <-; apply groups_clean_nil).
      destruct (dict_get (KParams f) d) as [ps|]; [|injection E0 as <-; apply groups_clean_nil]. destruct (Nat.eqb _ _); [|discriminate]. apply rbind_done in E0 as (vs & E2 & E0).
      destruct (dict_get (KBody f) d); [|injection E0 as <-; apply groups_clean_nil]. apply groups_clean_of. apply T in E0; auto. apply clean_put_all; auto.
      apply all_done_clean in E2; auto. intros a w. now apply T.
  - destruct t as [x|c j|b|dl g].
    1-3: apply rbind_done in E as (m & E1 & E); injection E as <-; apply (groups_clean_app [_]); [now apply groups_clean_one|apply IH with r; [lia|auto]].
    apply rbind_done in E as (g' & E0 & E). apply rbind_done in E as (m & E1 & E). injection E as <-. apply (groups_clean_app [_]); [|apply IH with r; [lia|auto]].
    intros dl' g'' [[= <- <-]|[]]. now apply T in E0.
Qed.
Theorem nothing_left_inside steps d ts out : (forall x v, dict_get (KVar x) d = Some v -> no_references v) ->
  translate steps d ts = Done out -> no_references out.
Proof.
  revert d ts out. induction steps as [|n IH]; intros d ts out D E; [discriminate|]. cbn [translate] in E. apply rbind_done in E as (o & E1 & E).
  destruct (remain o) eqn:Er; [now apply IH in E|]. injection E as <-. constructor; [now apply remain_not|].
  exact (pass_clean (translate n) d IH D (List.length ts) ts o (le_n _) E1).
Qed.
(** Without the condition it may: a reference in a group of a value stays. *)
Example left_inside_group : translate 9 [(KVar [120], [PGrp Bracket [hash; PId [121]]]); (KVar [121], [PId [49]])] [hash; PId [120]] = Done [PGrp Bracket [hash; PId [121]]].
Proof. reflexivity. Qed.

(** ** Code without hashes *)
Fixpoint deep (t : ptok) : nat := match t with PGrp _ g => S (fold_right (fun t n => Nat.max (deep t) n) 0%nat g) | _ => 0%nat end.
Definition depth_of (ts : list ptok) : nat := fold_right (fun t n => Nat.max (deep t) n) 0%nat ts.
Lemma hashless_refers ts : forallb hashless ts = true -> ~ reference_in ts.
Proof. intros H (a & j & t & b & -> & _). rewrite forallb_app in H. apply andb_prop in H as [_ H]. discriminate. Qed.
Lemma pass_hashless n d : (forall ts, forallb hashless ts = true -> (depth_of ts < n)%nat -> translate n d ts = Done ts) ->
  forall ts, forallb hashless ts = true -> (depth_of ts < S n)%nat -> pass (translate n) d ts = Done ts.
Proof.
  intros T. induction ts as [|t r IH]; intros H L; [reflexivity|]. cbn [forallb] in H. apply andb_prop in H as [H1 H2]. cbn [depth_of fold_right] in L. fold (depth_of r) in L.
  assert (E : is_char 35 t = false) by (destruct t as [|c j| |]; auto; cbn in *; now destruct (c =? 35)).
  cbn [pass]. rewrite E, IH by (auto; lia). destruct t as [| | |dl g]; try reflexivity. cbn [deep] in L. fold (depth_of g) in L. rewrite T; [reflexivity|exact H1|lia].
Qed.
Theorem hashless_unchanged d ts : forallb hashless ts = true -> exists n, forall steps, (n <= steps)%nat -> translate steps d ts = Done ts.
Proof.
  intros H. exists (S (depth_of ts)). intros steps L. revert ts H L. induction steps as [|n IH]; intros ts H L; [lia|]. cbn [translate].
  rewrite pass_hashless by auto. cbn [rbind]. apply hashless_refers in H. apply remain_not in H. now rewrite H.
Qed.

(** ** Does it end? *)
(** If no macro calls itself, directly or through others, and all are called with the right number of arguments, then it does. *)
Section RefInd.
  Variable P : ref -> Prop.
  Hypotheses (Ht : forall t, P (RTok t)) (Hg : forall d b, Forall P b -> P (RGrp d b)) (Ha : forall i b, Forall P b -> P (RAttr i b))
    (Hv : forall x, P (RVar x)) (Hc : forall f a, Forall (Forall P) a -> P (RCall f a)).
  Fixpoint ref_rect' (r : ref) : P r :=
    let all := fix all (l : list ref) : Forall P l := match l with [] => Forall_nil _ | r :: l' => Forall_cons _ (ref_rect' r) (all l') end in
    match r with
    | RTok t => Ht t
    | RGrp d b => Hg d b (all b)
    | RAttr i b => Ha i b (all b)
    | RVar x => Hv x
    | RCall f a => Hc f a ((fix alls (l : list (list ref)) : Forall (Forall P) l := match l with [] => Forall_nil _ | a :: l' => Forall_cons _ (all a) (alls l') end) a)
    end.
End RefInd.
Lemma calls_below_stands L0 rank : not_recursive L0 rank -> forall n r, calls_below L0 rank n r -> forall L, macros L = macros L0 -> exists out, stands L r out.
Proof.
  intros N. induction n as [n IHn] using (well_founded_induction Wf_nat.lt_wf).
  assert (A : forall l, Forall (fun r => calls_below L0 rank n r -> forall L, macros L = macros L0 -> exists out, stands L r out) l -> Forall (calls_below L0 rank n) l -> forall L, macros L = macros L0 -> exists out, all_stand L l out).
  { intros l H. induction H as [|r l Hr H IH]; intros C L HL; [exists []; constructor|]. inversion C as [|? ? C1 C2]; subst. destruct (Hr C1 L HL) as [a Ea]. destruct (IH C2 L HL) as [b Eb]. exists (a ++ b). now constructor. }
  intros r. induction r as [t|d b IH|i b IH|x|f a IH] using ref_rect'; intros C L HL; inversion C as [|? ? C1|? ? C1| |? ? C1 C2 C3]; subst.
  - eexists. constructor.
  - destruct (A b IH C1 L HL) as [o E]. eexists. constructor. exact E.
  - destruct (A b IH C1 L HL) as [o E]. destruct i; eexists; constructor; exact E.
  - destruct (lookup x (vars L)) as [v|] eqn:E; [exists v; now apply st_var|exists []; now apply st_no_var].
  - destruct (lookup f (macros L)) as [[ps body]|] eqn:E; [|exists []; now apply st_no_call]. rewrite <- HL, E in C3.
    assert (V : exists vs, args_stand L a vs).
    { clear C C3. induction IH as [|x a Hx IH IHa]; [exists []; constructor|]. inversion C2 as [|? ? D1 D2]; subst. destruct (A x Hx D1 L HL) as [v Ev]. destruct (IHa D2) as [vs Evs]. exists (v :: vs). now constructor. }
    destruct V as [vs V]. rewrite HL in E. pose proof (N _ _ _ E) as B.
    assert (W : exists out, all_stand (with_args ps vs L) body out).
    { assert (M : macros (with_args ps vs L) = macros L0) by now rewrite with_args_macros. clear - IHn B M C1. revert B. generalize (with_args ps vs L) M. clear M. intros L' M B.
      assert (B' : Forall (fun r => exists out, stands L' r out) body) by (eapply Forall_impl; [|exact B]; intros r Hr; now apply (IHn (rank f) C1 r Hr L' M)).
      clear B. induction B' as [|r l [a Ha] B' [b Hb]]; [exists []; constructor|]. exists (a ++ b). now constructor. }
    destruct W as [out W]. exists out. apply st_call with ps body vs; auto. now rewrite HL.
Qed.
Theorem nonrecursive_returns d L rank n ts : represents d L -> library_ok L -> Forall ref_ok ts -> not_recursive L rank -> Forall (calls_below L rank n) ts ->
  exists steps out, translate steps d (refs_toks ts) = Done out.
Proof.
  intros R HL H N C. assert (W : exists out, all_stand L ts out).
  { clear H. induction C as [|r l Hr C [b Hb]]; [exists []; constructor|]. destruct (calls_below_stands L rank N n r Hr L eq_refl) as [a Ea]. exists (a ++ b). now constructor. }
  destruct W as [out W]. destruct (translate_complete d L ts out R HL H W) as [k E]. eauto.
Qed.
(** If a macro that is called calls itself, directly or through others, it does not return. *)
Lemma called_macros L L' f r : macros L = macros L' -> called L f r -> called L' f r.
Proof.
  intros E. induction 1 as [args|d b r I _ IH|i b r I _ IH|g args a r Hg I1 I2 _ IH]; [constructor|econstructor; eauto|eapply called_attr; eauto|eapply called_arg; eauto]. now rewrite <- E.
Qed.
Lemma uses_macros L L' f g : macros L = macros L' -> uses L f g -> uses L' f g.
Proof. intros E (ps & body & r & H & I & C). exists ps, body, r. rewrite <- E. repeat (split; [assumption|]). now apply (called_macros L). Qed.
Definition endless (L : library) (f : str) : Prop := exists h, clos_refl_trans _ (uses L) f h /\ clos_trans _ (uses L) h h.
Lemma endless_step L f : endless L f -> exists g, uses L f g /\ endless L g.
Proof.
  intros (h & A & B). apply clos_rt_rt1n in A. destruct A as [|g h Hg A].
  - apply clos_trans_t1n in B as B'. inversion B' as [g Hg|g ? Hg Hr]; subst.
    + exists f. split; [assumption|]. exists f. split; [apply rt_refl|exact B].
    + exists g. split; [assumption|]. exists f. split; [|exact B]. apply clos_t1n_trans in Hr. clear - Hr. induction Hr; [now apply rt_step|eapply rt_trans; eauto].
  - exists g. split; [assumption|]. exists h. split; [now apply clos_rt1n_rt|exact B].
Qed.
Lemma endless_macros L L' f : macros L = macros L' -> endless L f -> endless L' f.
Proof.
  intros E (h & A & B). exists h. split.
  - clear B. induction A as [u w HA| |]; [apply rt_step; exact (uses_macros L L' u w E HA)|apply rt_refl|eapply rt_trans; eauto].
  - clear A. revert B. generalize h at 1 3. intros h' B. induction B as [u w HB|]; [apply t_step; exact (uses_macros L L' u w E HB)|eapply t_trans; eauto].
Qed.
Lemma endless_never :
  (forall L r out, stands L r out -> forall f, called L f r -> endless L f -> False) /\
  (forall L l out, all_stand L l out -> forall r f, In r l -> called L f r -> endless L f -> False) /\
  (forall L l vs, args_stand L l vs -> forall a r f, In a l -> In r a -> called L f r -> endless L f -> False).
Proof.
  apply stands_mutual.
  - intros L t f C. inversion C.
  - intros L d b out _ IH f C. inversion C; subst. eauto.
  - intros L b out _ IH f C. inversion C; subst. eauto.
  - intros L b out _ IH f C. inversion C; subst. eauto.
  - intros L x v _ f C. inversion C.
  - intros L x _ f C. inversion C.
  - intros L g args ps body vs out E _ _ IHa _ IHb f C N. inversion C as [? E1|? ? ? I1 C1|? ? ? I1 C1|? ? a r Hg I1 I2 C1]; subst.
    + apply endless_step in N as (h & (ps' & body' & r & E' & I & U) & N'). assert (Eb : body' = body) by congruence. rewrite Eb in I.
      apply (IHb r h I); [|eapply endless_macros; [|exact N']; symmetry; apply with_args_macros]. eapply called_macros; [symmetry; apply with_args_macros|exact U].
    + eauto.
  - intros L g args E f C N. inversion C as [? E1|? ? ? I1 C1|? ? ? I1 C1|? ? a r Hg I1 I2 C1]; subst; [|congruence].
    apply endless_step in N as (h & (ps & body & r & E' & _) & _). congruence.
  - intros L r f [].
  - intros L r l a b _ IHr _ IHl r' f [->|I]; eauto.
  - intros L a r f [].
  - intros L a l v vs _ IHa _ IHl a' r f [->|I]; eauto.
Qed.
Theorem recursive_never_returns d L ts f r steps out : represents d L -> library_ok L -> Forall ref_ok ts -> In r ts -> called L f r -> clos_trans _ (uses L) f f ->
  translate steps d (refs_toks ts) <> Done out.
Proof.
  intros R HL H I C N E. apply (translate_sound steps d L) in E; auto. apply (proj1 (proj2 endless_never) L ts out E r f I C). exists f. split; [apply rt_refl|exact N].
Qed.
(** A variable whose value has itself in it also never returns: the compiler hangs. *)

(** A variable whose value refers to itself never returns either: the compiler does not come to an end. *)
Lemma pass_keeps_reference tr d x a b : dict_get (KVar x) d = Some (a ++ [hash; PId x] ++ b) -> forall n p j q out, (List.length p <= n)%nat ->
  pass tr d (p ++ PPunct 35 j :: PId x :: q) = Done out -> exists p' q', out = p' ++ PPunct 35 false :: PId x :: q'.
Proof.
  intros D. induction n as [|n IH]; intros p j q out L E.
  - destruct p; [|cbn in L; lia]. cbn [app pass is_char] in E. rewrite N.eqb_refl, D in E. apply rbind_done in E as (m & _ & E). injection E as <-. exists a, (b ++ m). now rewrite <- app_assoc.
  - destruct p as [|t p].
    + cbn [app pass is_char] in E. rewrite N.eqb_refl, D in E. apply rbind_done in E as (m & _ & E). injection E as <-. exists a, (b ++ m). now rewrite <- app_assoc.
    + cbn [List.length] in L.
      assert (K : forall h p1 j1 more, (List.length p1 <= n)%nat -> pass tr d (p1 ++ PPunct 35 j1 :: PId x :: q) = Done more -> out = h ++ more -> exists p' q', out = p' ++ PPunct 35 false :: PId x :: q').
      { intros h p1 j1 more L1 E1 ->. apply IH in E1 as (p' & q' & ->); [|exact L1]. exists (h ++ p'), q'. now rewrite app_assoc. }
      rewrite <- app_comm_cons in E. cbn [pass] in E. destruct (is_char 35 t) eqn:Et.
      * destruct p as [|u p].
        -- cbn [app] in E. apply rbind_done in E as (m & E1 & E). injection E as E. apply (K [PPunct 35 false] [] j m); [cbn; lia|exact E1|now rewrite <- E].
        -- cbn [List.length] in L. rewrite <- app_comm_cons in E. destruct u as [y| | |[] g].
           1: (apply rbind_done in E as (m & E1 & E); injection E as E; eapply (K _ p j m); [lia|exact E1|now rewrite <- E]).
           3: (apply rbind_done in E as (v & _ & E); apply rbind_done in E as (m & E1 & E); injection E as E; apply (K v p j m); [lia|exact E1|now rewrite <- E]).
           all: apply rbind_done in E as (m & E1 & E); injection E as E; eapply (K [_] (_ :: p) j m); [cbn [List.length]; lia|exact E1|now rewrite <- E].
      * destruct t as [| | |dl g]; try (apply rbind_done in E as (m & E1 & E); injection E as E; eapply (K [_] p j m); [lia|exact E1|now rewrite <- E]).
        apply rbind_done in E as (v & _ & E); apply rbind_done in E as (m & E1 & E); injection E as E; apply (K [PGrp dl v] p j m); [lia|exact E1|now rewrite <- E].
Qed.
Theorem self_reference_never_returns d x a b steps p j q out : dict_get (KVar x) d = Some (a ++ [hash; PId x] ++ b) ->
  translate steps d (p ++ PPunct 35 j :: PId x :: q) <> Done out.
Proof.
  intros D. revert p j q. induction steps as [|n IH]; intros p j q E; [discriminate|]. cbn [translate] in E. apply rbind_done in E as (o & E1 & E).
  apply (pass_keeps_reference _ d x a b D (List.length p) p j q o (le_n _)) in E1 as (p' & q' & ->).
  assert (Rm : remain (p' ++ PPunct 35 false :: PId x :: q') = true) by (apply remain_iff; exists p', false, (PId x), q'; auto).
  rewrite Rm in E. now apply IH in E.
Qed.

(** ** Wrong numbers of arguments *)
(** The call is a panic while compiling, as soon as it is reached; and at any depth there is no result. *)
Theorem wrong_arguments_panic d L before f args ps body out after : represents d L -> library_ok L -> Forall ref_ok (before ++ RCall f args :: after) ->
  all_stand L before out -> lookup f (macros L) = Some (ps, body) -> List.length args <> Nat.max 1 (List.length ps) ->
  exists steps, translate steps d (refs_toks (before ++ RCall f args :: after)) = Panicked.
Proof.
  intros R HL H Hs E N. apply Forall_app in H as [H1 H2]. inversion H2 as [|? ? H3 H4]; subst. destruct (proj1 (proj2 stands_complete) L before out Hs d R HL H1) as [n Hn]. exists (S n). cbn [translate].
  assert (P : pass (translate n) d (refs_toks (before ++ RCall f args :: after)) = Panicked); [|now rewrite P].
  specialize (Hn n (le_n _)). clear Hs H2. revert out Hn. induction H1 as [|r l Hr H1 IH]; intros out Hn.
  - unfold refs_toks. cbn [app flat_map]. rewrite pass_ref by assumption. cbn [ref_run]. rewrite (call_defined _ d L f args ps body R E H3).
    destruct (Nat.eqb _ _) eqn:Eb; [apply Nat.eqb_eq in Eb; lia|reflexivity].
  - unfold refs_toks in *. cbn [app flat_map] in *. rewrite pass_ref in * by assumption. apply rbind_done in Hn as (a & E1 & Hn). apply rbind_done in Hn as (b & E2 & Hn). rewrite E1. cbn [rbind]. now rewrite (IH b E2).
Qed.

(** ** A library in use *)
(** A variable [name], a macro [pair] with two parameters whose text has an attribute, and [twice], whose text uses [pair]. *)
Section Example.
  Let name : str := [110]. Let pair : str := [112]. Let twice : str := [116]. Let x : str := [120]. Let y : str := [121].
  Definition sample : library := mkLibrary [(name, [PId [65]])]
    [(pair, ([x; y], [RAttr false [RVar x]; RGrp Paren [RVar x; RTok comma; RVar y]])); (twice, ([x], [RCall pair [[RVar x]; [RVar x]]]))].
  Definition sample_dict : dict :=
    [(KVar name, [PId [65]]);
     (KBody pair, [hash; PGrp Bracket [hash; PId x]; PGrp Paren [hash; PId x; comma; hash; PId y]]); (KParams pair, [PId x; comma; PId y]);
     (KBody twice, [hash; PGrp Paren [PId pair; PGrp Paren [hash; PId x; comma; hash; PId x]]]); (KParams twice, [PId x])].
  Example sample_represented : represents sample_dict sample.
  Proof.
    split.
    - intros z Hz. unfold sample_dict, sample. cbn [dict_get mkey_eqb vars lookup]. reflexivity.
    - intros f. unfold sample_dict, sample. cbn [dict_get mkey_eqb macros lookup]. destruct (str_eqb f pair); [reflexivity|]. destruct (str_eqb f twice); reflexivity.
    - intros f. unfold sample_dict, sample. cbn [dict_get mkey_eqb macros lookup]. destruct (str_eqb f pair); [reflexivity|]. destruct (str_eqb f twice); reflexivity.
  Qed.
  Definition sample_text : list ref := [RTok (PId [117]); RCall twice [[RVar name]]; RVar [122]].
  Lemma one_ref_arg z : one_arg false (refs_toks [RVar z]).
  Proof. cbn. repeat (apply arg_tok; [reflexivity|]). constructor. Qed.
  Ltac refs_ok := repeat (match goal with
    | |- Forall _ [] => constructor | |- Forall _ (_ :: _) => apply Forall_cons
    | |- one_arg _ _ => apply one_ref_arg
    | |- ref_ok _ => constructor
    | |- _ \/ _ => right; (exists [], [RVar name]; split; [reflexivity|discriminate]) || (exists [[RVar x]], [RVar x]; split; [reflexivity|discriminate])
    | |- _ <> _ => discriminate || (cbn; intros; discriminate)
    | |- True => exact I | |- match _ with _ => _ end => exact I || (intro; discriminate) end).
  Example sample_ok : library_ok sample /\ Forall ref_ok sample_text.
  Proof.
    split; [|unfold sample_text; refs_ok]. split.
    - intros z v. unfold sample. cbn [vars lookup]. destruct (str_eqb z name); [|discriminate]. intros [= <-]. now apply settled_one.
    - intros f ps body. unfold sample. cbn [macros lookup]. destruct (str_eqb f pair); [|destruct (str_eqb f twice); [|discriminate]]; intros [= <- <-].
      + split; [refs_ok|]. cbn. intros [H|[H|[]]]; discriminate.
      + split; [refs_ok|]. cbn. intros [H|[]]; discriminate.
  Qed.
  Example sample_not_recursive : not_recursive sample (fun f => if str_eqb f pair then 0 else 1)%nat /\ Forall (calls_below sample (fun f => if str_eqb f pair then 0 else 1)%nat 2) sample_text.
  Proof.
    split.
    - intros f ps body. unfold sample. cbn [macros lookup]. destruct (str_eqb f pair) eqn:E1; [|destruct (str_eqb f twice) eqn:E2; [|discriminate]]; intros [= <- <-].
      + repeat (apply Forall_cons || apply Forall_nil || constructor).
      + apply Forall_cons; [|constructor]. apply cb_call; [cbn; lia| |reflexivity]. repeat (apply Forall_cons || apply Forall_nil || constructor).
    - unfold sample_text. apply Forall_cons; [constructor|]. apply Forall_cons; [|repeat (apply Forall_cons || apply Forall_nil || constructor)].
      apply cb_call; [cbn; lia| |reflexivity]. repeat (apply Forall_cons || apply Forall_nil || constructor).
  Qed.
  (** u #(twice(#name)) #z  gives  u #[A] (A, A). *)
  Example sample_translated : translate 9 sample_dict (refs_toks sample_text) = Done [PId [117]; hash; PGrp Bracket [PId [65]]; PGrp Paren [PId [65]; comma; PId [65]]].
  Proof. vm_compute. reflexivity. Qed.
  (** One argument too many. *)
  Example sample_panics : translate 9 sample_dict (refs_toks [RCall twice [[RVar name]; [RVar name]]]) = Panicked.
  Proof. vm_compute. reflexivity. Qed.
  (** loop() with the text  #(loop()) . *)
  Example sample_loops : uses (mkLibrary [] [(x, ([], [RCall x [[]]]))]) x x /\ ref_ok (RCall x [[]]) /\ called (mkLibrary [] [(x, ([], [RCall x [[]]]))]) x (RCall x [[]]).
  Proof.
    split; [|split].
    - exists [], [RCall x [[]]], (RCall x [[]]). split; [reflexivity|]. split; [now left|]. constructor.
    - constructor; [repeat constructor| |now left]. repeat constructor.
    - constructor.
  Qed.
  Example sample_hangs : translate 50 [(KVar x, [hash; PId x])] [hash; PId x] = Running.
  Proof. vm_compute. reflexivity. Qed.
End Example.

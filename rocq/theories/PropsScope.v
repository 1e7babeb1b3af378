(** C74: [@scope]. *)
From Verif Require Import Base Tokens Quote SpecQuote QuoteProofs PropsQuote Translate SpecTranslate TranslateProofs PropsTranslate QuoteAt QuoteAtProofs SpecQuoteAt ScopeProofs PropsQuoteAt.
From Coq Require Import Lia.
Local Open Scope N_scope.

(** A scope gives what its parts mean, each with the variables and macros that those before it have defined, and only then. *)
Theorem scope_gives_meaning e ps closed out : Forall (part_ok e) ps -> existsb part_has_block ps = true ->
  (exists steps, quote_at steps e (at_top "scope" (op ":" :: scope_toks ps closed)) = Done out) <-> exists L, parts_mean e empty_library ps out L.
Proof.
  intros H1 H2. assert (F : forms_ok e [Scope ps closed]) by (apply fo_scope; auto; apply fo_nil).
  assert (A : at_free (flat_map form_toks [Scope ps closed])) by (intros r E; discriminate).
  transitivity (exists steps, quote_at steps e (flat_map form_toks [Scope ps closed]) = Done out); [cbn [flat_map]; rewrite app_nil_r; reflexivity|].
  rewrite (forms_give_meaning e [Scope ps closed] out F A). split.
  - intros M. inversion M as [| | | |? ? ? ? a L b P R]; subst. inversion R; subst. rewrite app_nil_r. eauto.
  - intros [L M]. rewrite <- (app_nil_r out). eapply fm_scope; [exact M|constructor].
Qed.
Corollary scope_meaning_unique e ps a b L L' : Forall (part_ok e) ps -> existsb part_has_block ps = true ->
  parts_mean e empty_library ps a L -> parts_mean e empty_library ps b L' -> a = b.
Proof.
  intros H1 H2 A B. destruct (proj2 (scope_gives_meaning e ps false a H1 H2) (ex_intro _ L A)) as [n An]. destruct (proj2 (scope_gives_meaning e ps false b H1 H2) (ex_intro _ L' B)) as [m Bm].
  exact (quote_at_unique n m e _ a b An Bm).
Qed.

(** ** Conditions *)
(** Of [#if] and its [#elif]s every branch comes out whose own condition holds, not just the first. *)
Record branch := mkBranch { condition : list ttok; holds : bool; text : list ttok; result : list ptok }.
Definition branch_fine (e : env) (b : branch) : Prop := value_of e (condition b) (VBool (holds b)) /\ block_ok (text b) /\ text_stands empty_library (flat_map copied (text b)) (result b).
Definition taken (b : branch) : list ptok := if holds b then result b else [].
Definition elifs (bs : list branch) : list (clause * list item) := map (fun b => (Elif (condition b), [Text (text b)])) bs.
Lemma guarded_text e b : branch_fine e b -> guarded e empty_library [Text (text b)] (holds b) (taken b) empty_library.
Proof.
  intros (V & B & S). unfold taken. destruct (holds b).
  - constructor. rewrite <- (app_nil_r (result b)). apply (is_cons e _ _ _ _ empty_library); [now constructor|constructor].
  - constructor. constructor; [exact I|constructor].
Qed.
Lemma elifs_mean e bs : Forall (branch_fine e) bs -> forall c, clauses_mean e empty_library c (elifs bs) (flat_map taken bs) empty_library.
Proof.
  induction 1 as [|b bs H _ IH]; intros c; [constructor|]. cbn [elifs map flat_map]. apply (cm_elif e _ c _ (holds b) _ _ _ empty_library); [apply H|now apply guarded_text|apply IH].
Qed.
Lemma elifs_ok e bs : Forall (branch_fine e) bs -> Forall (fun c => Forall (item_ok e) (snd c)) (elifs bs).
Proof. induction 1 as [|b bs (V & B & S) _ IH]; constructor; auto. constructor; [exact B|constructor]. Qed.
Theorem every_true_branch_comes_out e b bs closed : branch_fine e b -> Forall (branch_fine e) bs ->
  exists steps, quote_at steps e (at_top "scope" (op ":" :: scope_toks [Cond (IfTrue (condition b)) [Text (text b)] (elifs bs)] closed)) = Done (flat_map taken (b :: bs)).
Proof.
  intros H Hs. apply scope_gives_meaning; [|reflexivity|].
  - repeat constructor; [apply H|apply H|]. now apply elifs_ok.
  - exists empty_library. rewrite <- (app_nil_r (flat_map taken (b :: bs))). apply (ps_cons e _ _ _ _ empty_library); [|constructor]. cbn [flat_map].
    apply (pt_cond e _ _ (holds b) _ _ _ empty_library); [constructor; apply H|now apply guarded_text|now apply elifs_mean].
Qed.
(** So if no two conditions hold together, it is the branch whose condition holds, as one would expect. *)
Corollary exclusive_branches e b bs closed before c after : branch_fine e b -> Forall (branch_fine e) bs -> b :: bs = before ++ c :: after -> holds c = true ->
  Forall (fun x => holds x = false) (before ++ after) ->
  exists steps, quote_at steps e (at_top "scope" (op ":" :: scope_toks [Cond (IfTrue (condition b)) [Text (text b)] (elifs bs)] closed)) = Done (result c).
Proof.
  intros H Hs E Hc Ho. destruct (every_true_branch_comes_out e b bs closed H Hs) as [n Q]. exists n. rewrite Q, E. f_equal. apply Forall_app in Ho as [O1 O2].
  assert (N : forall l, Forall (fun x => holds x = false) l -> flat_map taken l = []) by (induction 1 as [|x l K _ IH]; [reflexivity|]; cbn [flat_map]; unfold taken at 1; now rewrite K).
  rewrite flat_map_app. cbn [flat_map]. rewrite (N _ O1), (N _ O2). unfold taken. rewrite Hc. now rewrite app_nil_r.
Qed.
(** [#if .. #else .. #endif]: one of the two, whatever stands in them. *)
Theorem if_else_takes_one e t A B closed out : test_ok t -> Forall (item_ok e) A -> Forall (item_ok e) B -> existsb has_block (A ++ B) = true ->
  (exists steps, quote_at steps e (at_top "scope" (op ":" :: scope_toks [Cond t A [(Else, B)]] closed)) = Done out) <->
  exists c L, test_means e empty_library t c /\ Forall (loops_fine e) (if c then B else A) /\ items_mean e empty_library (if c then A else B) out L.
Proof.
  intros Ht HA HB Hb. rewrite scope_gives_meaning.
  - split.
    + intros [L M]. inversion M as [|? ? ? a L1 b ? P R]; subst. inversion R; subst. inversion P as [|? c ? ? o1 L2 o2 ? T G K]; subst. inversion K as [| |? ? ? ? o3 L3 o4 ? G2 K2]; subst. inversion K2; subst.
      exists c. rewrite !app_nil_r. destruct c; cbn [negb] in *; inversion G; subst; inversion G2; subst; rewrite ?app_nil_r; eauto.
    + intros (c & L & T & F & M). exists L. rewrite <- (app_nil_r out). eapply ps_cons; [|constructor]. destruct c.
      * rewrite <- (app_nil_r out). apply (pt_cond e empty_library t true A [(Else, B)] out L [] L T); [now constructor|]. apply (cm_else e L true B [] [] L [] L); [now constructor|constructor].
      * apply (pt_cond e empty_library t false A [(Else, B)] [] empty_library out L T); [now constructor|]. rewrite <- (app_nil_r out). apply (cm_else e empty_library false B [] out L [] L); [now constructor|constructor].
  - repeat constructor; auto.
  - cbn [existsb part_has_block snd]. rewrite existsb_app in Hb. rewrite !orb_false_r. exact Hb.
Qed.

(** ** What is refused *)
(** Any commands and blocks, as they are written. *)
Definition raw_toks (c : scmd) : list ttok := match c with Block ts => [TGrp Brace ts] | Cmd name args => op "#" :: TId name :: match args with Some a => [TGrp Paren a] | None => [] end end.
Definition raw_scope (cs : list scmd) : list ttok := at_top "scope" (op ":" :: flat_map raw_toks cs).
Definition fails (e : env) (ts : list ttok) : Prop := forall steps out, quote_at steps e ts <> Done out.
Definition named (l : list string) (c : scmd) : bool := match c with Cmd name _ => existsb (fun w => str_eqb name (lit w)) l | Block _ => false end.
Lemma raw_parses c : parses (raw_toks c) [c].
Proof.
  intros r Hr. destruct c as [ts|name [a|]]; cbn [raw_toks app scope_items]; change (op_is "#" (op "#")) with true; cbv iota.
  - destruct (scope_items r); reflexivity.
  - destruct (scope_items r); reflexivity.
  - destruct r as [|[| | | | |[| | |] l] r]; try discriminate Hr; try reflexivity; match goal with |- context [scope_items ?x] => destruct (scope_items x); reflexivity end.
Qed.
Lemma raw_items cs : scope_items (flat_map raw_toks cs) = Some cs.
Proof.
  assert (P : parses (flat_map raw_toks cs) (flat_map (fun c => [c]) cs)) by (apply parses_flat; [intros [|? []]; reflexivity|apply raw_parses]).
  assert (S : flat_map (fun c : scmd => [c]) cs = cs) by (clear P; induction cs as [|c cs IH]; [reflexivity|]; cbn [flat_map app]; now rewrite IH).
  specialize (P [] eq_refl). rewrite app_nil_r in P. rewrite P, S. cbn. now rewrite app_nil_r.
Qed.
Lemma raw_gives e cs out n : existsb is_block cs = true -> quote_at n e (raw_scope cs) = Done out -> cgives e cs start out.
Proof.
  intros Hb H. change (quote_at n e (raw_scope cs)) with (append n e (at_group "scope" (op ":" :: flat_map raw_toks cs))) in H.
  assert (R : at_rule (at_group "scope" (op ":" :: flat_map raw_toks cs)) = Some (AScope cs, [])).
  { unfold at_group, at_rule. change (op_is "#" (op "#") && op_is "@" (op "@")) with true. cbv iota. unfold at_form. change (str_eqb (lit "scope") (lit "literal")) with false. change (str_eqb (lit "scope") (lit "params")) with false.
    change (str_eqb (lit "scope") (lit "scope")) with true. cbv iota. unfold after_colon. change (op_is ":" (op ":")) with true. cbv iota. cbn [obind]. rewrite raw_items. cbn [obind]. now rewrite Hb. }
  assert (G : gives e (at_group "scope" (op ":" :: flat_map raw_toks cs)) out) by (exists n; exact H).
  apply (gives_at e (op "#") _ (AScope cs) [] out eq_refl R) in G as (p & b & P & B & ->). apply gives_nil in B as ->. rewrite app_nil_r.
  unfold at_gives in P. cbn [at_run] in P. apply (lim_pure (fun n => commands (append n) (quote_top (append n)) (translate n) e cs start) (fun out => (e, out))) in P as (a & P & ->); [|apply (steady_commands translate steady_translate append), append_steady].
  exact P.
Qed.
(** Following the states. *)
Lemma cgives_split e a : forall b s out, cgives e (a ++ b) s out -> b = [] \/ exists s' out', cgives e b s' out' /\ ended s' = false /\
  forall I : sstate -> Prop, I s -> (forall c s p, In c a -> I s -> ended s = false -> one e c s p -> I (snd p)) -> I s'.
Proof.
  induction a as [|c a IH]; intros b s out G; cbn [app] in G.
  - destruct b as [|c b]; [auto|]. right. exists s, out. split; [exact G|]. split; [|auto]. destruct (ended s) eqn:E; [|reflexivity]. destruct G as [n G]. cbn [commands] in G. rewrite E in G. discriminate.
  - destruct (ended s) eqn:E; [destruct G as [n G]; cbn [commands] in G; rewrite E in G; discriminate|]. apply cgives_cons in G as (p & w & O & G & ->); [|exact E].
    apply IH in G as [->|(s' & o' & G & E' & K)]; [auto|]. right. exists s', o'. split; [exact G|]. split; [exact E'|]. intros I HI HK. apply K.
    + apply (HK c s p); auto. left. reflexivity.
    + intros c' s1 p1 Hc. apply HK. now right.
Qed.
Lemma one_inv e c s p : one e c s p -> exists n, match c with Block ts => do_block (translate n) ts s | Cmd name args => command (append n) (quote_top (append n)) (translate n) e name args s end = Done p.
Proof. auto. Qed.
Lemma block_state tr ts s p : do_block tr ts s = Done p -> opened (snd p) = opened s /\ looping (snd p) = looping s /\ active (snd p) = active s /\ ended (snd p) = ended s.
Proof.
  unfold do_block. destruct (active s) eqn:A; [|intros [= <-]; cbn [snd]; auto]. destruct (iter s) as [[vs x]|] eqn:It; intros H; apply rbind_done in H as (o & _ & H); injection H as <-; cbn [snd set_map opened active ended]; unfold looping; cbn [set_map iter]; rewrite ?It, ?A; auto.
Qed.
Ltac runs H := repeat match type of H with
  | rbind _ _ = Done _ => apply rbind_done in H as (? & ? & H)
  | Panicked = Done _ => discriminate H
  | Done _ = Done _ => injection H as <-
  | (match ?x with _ => _ end) = Done _ => destruct x eqn:?
  | (if ?x then _ else _) = Done _ => destruct x eqn:? end.
Lemma define_opened q e ps s p : do_define q e ps s = Done p -> opened (snd p) = opened s /\ looping (snd p) = looping s.
Proof. unfold do_define. intros H. runs H; cbn [snd]; try (destruct (active s)); auto. Qed.
Lemma command_opened f top tr e name args s p : command f top tr e name args s = Done p -> opened s = false -> existsb (fun w => str_eqb name (lit w)) ["if"; "ifdef"; "ifndef"]%string = false -> opened (snd p) = false.
Proof.
  intros H O N. cbn [existsb] in N. apply orb_false_iff in N as [N1 N]. apply orb_false_iff in N as [N2 N]. apply orb_false_iff in N as [N3 _].
  unfold command in H. rewrite N1, N2, N3 in H.
  repeat match type of H with (if str_eqb name (lit ?w) then _ else _) = _ => destruct (str_eqb name (lit w)) eqn:? | (if looping s then _ else _) = _ => destruct (looping s) eqn:? | match args with _ => _ end = _ => destruct args as [ps|] end; try discriminate H.
  all: unfold do_include, do_quote, do_undef, do_if, do_foreach in H.
  all: try (apply define_opened in H as [H _]; rewrite H; exact O).
  all: runs H; cbn [snd set_iter set_end opened set_map set_flag orb] in *; auto; try congruence; try (destruct (active s); auto).
Qed.
Lemma define_flags q e ps s p : do_define q e ps s = Done p -> ended (snd p) = ended s.
Proof. unfold do_define. intros H. runs H; cbn [snd]; try (destruct (active s)); auto. Qed.
Lemma one_opened e c s p : one e c s p -> opened s = false -> named ["if"; "ifdef"; "ifndef"]%string c = false -> opened (snd p) = false.
Proof.
  intros H O N. apply one_inv in H as [n H]. destruct c as [ts|name args].
  - apply block_state in H as (H & _). now rewrite H.
  - now apply (command_opened _ _ _ _ _ _ _ _ H).
Qed.
Lemma command_looping f top tr e name args s p : command f top tr e name args s = Done p -> looping s = false -> str_eqb name (lit "foreach") = false -> looping (snd p) = false.
Proof.
  intros H O N. unfold command in H. rewrite N in H.
  repeat match type of H with (if str_eqb name (lit ?w) then _ else _) = _ => destruct (str_eqb name (lit w)) eqn:? | (if looping s then _ else _) = _ => destruct (looping s) eqn:? | match args with _ => _ end = _ => destruct args as [ps|] end; try discriminate H; try discriminate O.
  all: unfold do_include, do_quote, do_undef, do_if, do_ifdef in H.
  all: try (apply define_opened in H as [_ H]; rewrite H; assumption).
  all: try (injection H as <-; exact O).
  all: runs H; unfold looping in *; cbn [snd set_iter set_end opened set_map set_flag iter] in *; auto; try congruence; try (destruct (active s); auto).
Qed.
Lemma one_looping e c s p : one e c s p -> looping s = false -> named ["foreach"]%string c = false -> looping (snd p) = false.
Proof.
  intros H O N. apply one_inv in H as [n H]. destruct c as [ts|name args].
  - apply block_state in H as (_ & H & _). now rewrite H.
  - cbn [named existsb] in N. rewrite orb_false_r in N. now apply (command_looping _ _ _ _ _ _ _ _ H).
Qed.
Lemma one_still_looping e c s p : one e c s p -> looping s = true -> named ["endfor"]%string c = false -> looping (snd p) = true.
Proof.
  intros H O N. apply one_inv in H as [n H]. destruct c as [ts|name args].
  - apply block_state in H as (_ & H & _). now rewrite H.
  - cbn [named existsb] in N. rewrite orb_false_r in N. unfold command in H. rewrite N, O in H. destruct (str_eqb name (lit "end")); [|discriminate]. destruct args; [discriminate|]. injection H as <-. exact O.
Qed.
(** What no command of a list can do when it is run in such a state. *)
Lemma stuck e a c r : existsb is_block (a ++ c :: r) = true -> forall I : sstate -> Prop, I start ->
  (forall x s p, In x a -> I s -> ended s = false -> one e x s p -> I (snd p)) -> (forall s p, I s -> ended s = false -> one e c s p -> False) -> fails e (raw_scope (a ++ c :: r)).
Proof.
  intros B I I0 IS IC n out H. apply (raw_gives e _ _ _ B) in H. apply cgives_split in H as [H|(s & o & G & E & K)]; [discriminate|].
  specialize (K I I0 IS). apply cgives_cons in G as (p & w & O & _ & _); [|exact E]. exact (IC s p K E O).
Qed.

Lemma name_is name w : str_eqb name (lit w) = true -> name = lit w.
Proof. apply str_eqb_eq. Qed.
(** [#elif], [#else] and [#endif] need an [#if] that is still open: they cannot stand before the first one ... *)
Lemma clause_stuck e name args s p : named ["elif"; "else"; "endif"]%string (Cmd name args) = true -> opened s = false -> one e (Cmd name args) s p -> False.
Proof.
  intros N O H. apply one_inv in H as [n H]. cbn [named existsb] in N. rewrite orb_false_r in N.
  apply orb_true_iff in N as [N|N]; [|apply orb_true_iff in N as [N|N]]; apply name_is in N; subst name; unfold command in H; cbn in H; destruct (looping s); destruct args; try discriminate H;
    unfold do_if in H; rewrite O in H; discriminate H.
Qed.
Theorem clause_needs_if e a name args r : existsb is_block (a ++ Cmd name args :: r) = true -> named ["elif"; "else"; "endif"]%string (Cmd name args) = true ->
  forallb (fun c => negb (named ["if"; "ifdef"; "ifndef"]%string c)) a = true -> fails e (raw_scope (a ++ Cmd name args :: r)).
Proof.
  intros B N A. apply (stuck e a _ r B (fun s => opened s = false)); [reflexivity| |].
  - intros x s p Hx O _ H. rewrite forallb_forall in A. specialize (A x Hx). apply negb_true_iff in A. exact (one_opened e x s p H O A).
  - intros s p O _ H. eapply clause_stuck; eassumption.
Qed.
Lemma stuck2 e a0 x a c r : existsb is_block (a0 ++ x :: a ++ c :: r) = true -> forall I : sstate -> Prop,
  (forall s p, ended s = false -> one e x s p -> I (snd p)) ->
  (forall y s p, In y a -> I s -> ended s = false -> one e y s p -> I (snd p)) -> (forall s p, I s -> ended s = false -> one e c s p -> False) ->
  fails e (raw_scope (a0 ++ x :: a ++ c :: r)).
Proof.
  intros B I I0 IS IC n out H. apply (raw_gives e _ _ _ B) in H. apply cgives_split in H as [H|(s & o & G & E & _)]; [discriminate|].
  apply cgives_cons in G as (p & w & O & G & _); [|exact E]. apply I0 in O; [|exact E].
  apply cgives_split in G as [G|(s' & o' & G & E' & K)]; [discriminate|]. specialize (K I O IS). apply cgives_cons in G as (p' & w' & O' & _ & _); [|exact E']. exact (IC s' p' K E' O').
Qed.
(** ... and after an [#endif] not before the next one.  So conditions cannot be nested: the second of two [#endif]s fails. *)
Theorem clause_after_endif e a0 a name args r : existsb is_block (a0 ++ Cmd (lit "endif") None :: a ++ Cmd name args :: r) = true ->
  named ["elif"; "else"; "endif"]%string (Cmd name args) = true -> forallb (fun c => negb (named ["if"; "ifdef"; "ifndef"]%string c)) a = true ->
  fails e (raw_scope (a0 ++ Cmd (lit "endif") None :: a ++ Cmd name args :: r)).
Proof.
  intros B N A. apply (stuck2 e a0 _ a _ r B (fun s => opened s = false)).
  - intros s p _ H. apply one_inv in H as [n H]. unfold command in H. cbn in H. destruct (looping s); [discriminate|]. destruct (opened s); [|discriminate]. injection H as <-. reflexivity.
  - intros x s p Hx O _ H. rewrite forallb_forall in A. specialize (A x Hx). apply negb_true_iff in A. exact (one_opened e x s p H O A).
  - intros s p O _ H. eapply clause_stuck; eassumption.
Qed.
Corollary nested_conditions_fail e a0 if1 a1 if2 a2 a3 r :
  let cs := a0 ++ if1 :: a1 ++ if2 :: a2 ++ Cmd (lit "endif") None :: a3 ++ Cmd (lit "endif") None :: r in
  existsb is_block cs = true -> named ["if"; "ifdef"; "ifndef"]%string if1 = true -> named ["if"; "ifdef"; "ifndef"]%string if2 = true ->
  forallb (fun c => negb (named ["if"; "ifdef"; "ifndef"]%string c)) a3 = true -> fails e (raw_scope cs).
Proof.
  intros cs B _ _ A. assert (E : cs = (a0 ++ if1 :: a1 ++ if2 :: a2) ++ Cmd (lit "endif") None :: a3 ++ Cmd (lit "endif") None :: r) by (unfold cs; repeat (rewrite <- app_assoc; cbn [app]); reflexivity).
  rewrite E in *. now apply clause_after_endif.
Qed.
(** Between [#foreach] and [#endfor] there may only be blocks (and an [#end]). *)
Theorem only_blocks_in_loops e a0 ps a name args r : existsb is_block (a0 ++ Cmd (lit "foreach") (Some ps) :: a ++ Cmd name args :: r) = true ->
  forallb (fun c => negb (named ["endfor"]%string c)) a = true -> named ["endfor"; "end"]%string (Cmd name args) = false ->
  fails e (raw_scope (a0 ++ Cmd (lit "foreach") (Some ps) :: a ++ Cmd name args :: r)).
Proof.
  intros B A N. apply (stuck2 e a0 _ a _ r B (fun s => looping s = true)).
  - intros s p _ H. apply one_inv in H as [n H]. unfold command in H. cbn in H. destruct (looping s); [discriminate|]. unfold do_foreach in H. runs H; reflexivity.
  - intros x s p Hx O _ H. rewrite forallb_forall in A. specialize (A x Hx). apply negb_true_iff in A. exact (one_still_looping e x s p H O A).
  - intros s p O _ H. apply one_inv in H as [n H]. cbn [named existsb] in N. apply orb_false_iff in N as [N1 N]. apply orb_false_iff in N as [N2 _]. unfold command in H. rewrite N1, N2, O in H. discriminate.
Qed.
(** [#endfor] needs a loop that is open. *)
Lemma endfor_stuck e args s p : looping s = false -> one e (Cmd (lit "endfor") args) s p -> False.
Proof. intros O H. apply one_inv in H as [n H]. unfold command in H. cbn in H. rewrite O in H. destruct args; discriminate. Qed.
Theorem endfor_needs_loop e a args r : existsb is_block (a ++ Cmd (lit "endfor") args :: r) = true -> forallb (fun c => negb (named ["foreach"]%string c)) a = true ->
  fails e (raw_scope (a ++ Cmd (lit "endfor") args :: r)).
Proof.
  intros B A. apply (stuck e a _ r B (fun s => looping s = false)); [reflexivity| |].
  - intros x s p Hx O _ H. rewrite forallb_forall in A. specialize (A x Hx). apply negb_true_iff in A. exact (one_looping e x s p H O A).
  - intros s p O _ H. eapply endfor_stuck; eassumption.
Qed.
Theorem endfor_after_endfor e a0 a args r : existsb is_block (a0 ++ Cmd (lit "endfor") None :: a ++ Cmd (lit "endfor") args :: r) = true ->
  forallb (fun c => negb (named ["foreach"]%string c)) a = true -> fails e (raw_scope (a0 ++ Cmd (lit "endfor") None :: a ++ Cmd (lit "endfor") args :: r)).
Proof.
  intros B A. apply (stuck2 e a0 _ a _ r B (fun s => looping s = false)).
  - intros s p _ H. apply one_inv in H as [n H]. unfold command in H. cbn in H. destruct (looping s); [|discriminate]. injection H as <-. reflexivity.
  - intros x s p Hx O _ H. rewrite forallb_forall in A. specialize (A x Hx). apply negb_true_iff in A. exact (one_looping e x s p H O A).
  - intros s p O _ H. eapply endfor_stuck; eassumption.
Qed.
(** Nothing may follow [#end]. *)
Theorem nothing_after_end e a c r : existsb is_block (a ++ Cmd (lit "end") None :: c :: r) = true -> fails e (raw_scope (a ++ Cmd (lit "end") None :: c :: r)).
Proof.
  intros B. apply (stuck2 e a (Cmd (lit "end") None) [] c r B (fun s => ended s = true)).
  - intros s p _ H. apply one_inv in H as [n H]. unfold command in H. cbn in H. injection H as <-. reflexivity.
  - intros y s p [].
  - intros s p E F. congruence.
Qed.
(** Other names are no commands, and neither are these with the wrong kind of argument. *)
Definition cmds_args : list string := ["define"; "include"; "quote"; "execute"; "undef"; "ifdef"; "ifndef"; "if"; "elif"; "foreach"]%string.
Definition cmds_plain : list string := ["else"; "endif"; "endfor"; "end"]%string.
Theorem unknown_command_fails e a name args r : existsb is_block (a ++ Cmd name args :: r) = true ->
  named (match args with Some _ => cmds_args | None => cmds_plain end) (Cmd name args) = false -> fails e (raw_scope (a ++ Cmd name args :: r)).
Proof.
  intros B N. apply (stuck e a _ r B (fun _ => True)); [exact I|auto|]. intros s p _ _ H. apply one_inv in H as [n H]. unfold command in H.
  destruct args as [ps|]; unfold cmds_args, cmds_plain in N; cbn [named existsb] in N; repeat (apply orb_false_iff in N as [? N]).
  - repeat match type of H with (if str_eqb name (lit ?w) then _ else _) = _ => destruct (str_eqb name (lit w)) eqn:? | (if looping s then _ else _) = _ => destruct (looping s) end; congruence.
  - repeat match type of H with (if str_eqb name (lit ?w) then _ else _) = _ => destruct (str_eqb name (lit w)) eqn:? | (if looping s then _ else _) = _ => destruct (looping s) end; congruence.
Qed.

(** ** Examples *)
Section Example74.
  Let obj (w : string) : value := VObj (Some [PId (lit w)]) [].
  Let e : env := [(lit "n", VList [obj "a"; obj "b"]); (lit "t", VBool true); (lit "u", VBool true); (lit "f", VBool false)].
  Let one_word (w : string) : list tmpl := [Token (TId (lit w))].
  Let scope : list part :=
    [Item (Define (lit "k") (one_word "one")); Item (DefineMacro (lit "m") [lit "x"] [Grouped Bracket [Var (lit "x")]]);
     Cond (IfTrue [TId (lit "t")]) [Text (lex "#k #(m(y))")] [(Elif [TId (lit "u")], [Text (lex "u")]); (Else, [Text (lex "v")])];
     Cond (IfDef (lit "m")) [Text (lex "seen")] [(Else, [Text (lex "unseen")])];
     Item (Loop [TId (lit "n")] (Some (lit "k")) [lex "#k,"; lex "#k;"]); Item (Undef (lit "m")); Item (Text (lex "#k #(m(z))"))].
  Example scope_text : scope_toks scope true =
    lex "#define(k, one) #define(m(x), [#x]) #if(t) { #k #(m(y)) } #elif(u) { u } #else { v } #endif #ifdef(m) { seen } #else { unseen } #endif #foreach(n, k) { #k, } { #k; } #endfor #undef(m) { #k #(m(z)) } #end".
  Proof. vm_compute. reflexivity. Qed.
  (** Both true branches; [#ifdef] does not see the macro; the loop goes through all elements for each block, and then [k] has its value back; the
      macro cannot be undefined. *)
  Example scope_result : quote_at 30 e (at_top "scope" (op ":" :: scope_toks scope true)) = Done (code "one [y] u unseen a, b, a; b; one [z]").
  Proof. vm_compute. reflexivity. Qed.
  Ltac text_ok l := split; [reflexivity|exists l; split; [vm_compute; reflexivity|repeat apply Forall_cons; try apply Forall_nil; try (constructor; (discriminate || exact I))]].
  Lemma call_ok f w : ref_ok (RCall f [[RTok (PId w)]]).
  Proof.
    constructor.
    - repeat constructor.
    - repeat constructor.
    - right. exists [], [RTok (PId w)]. split; [reflexivity|discriminate].
  Qed.
  Example scope_fine : Forall (part_ok e) scope /\ existsb part_has_block scope = true.
  Proof.
    split; [|reflexivity]. repeat apply Forall_cons; try apply Forall_nil; cbn [part_ok item_ok].
    - split; [discriminate|]. split; [split; [discriminate|reflexivity]|]. intros v M. apply templates_stand_for_their_meaning in M; [|reflexivity]. vm_compute in M. injection M as <-. apply no_hash_settled.
    - split; [intros [E|[]]; discriminate|]. split; [split; [discriminate|reflexivity]|]. intros v M. apply templates_stand_for_their_meaning in M; [|reflexivity]. vm_compute in M. injection M as <-.
      exists [RGrp Bracket [RVar (lit "x")]]. split; [reflexivity|]. repeat constructor. discriminate.
    - split; [exact I|]. split; [apply Forall_cons; [|apply Forall_nil]|repeat apply Forall_cons; try apply Forall_nil].
      + text_ok [RVar (lit "k"); RCall (lit "m") [[RTok (PId (lit "y"))]]]. apply call_ok.
      + text_ok [RTok (PId (lit "u"))].
      + text_ok [RTok (PId (lit "v"))].
    - split; [discriminate|]. split; [apply Forall_cons; [|apply Forall_nil]|repeat apply Forall_cons; try apply Forall_nil].
      + text_ok [RTok (PId (lit "seen"))].
      + text_ok [RTok (PId (lit "unseen"))].
    - split; [reflexivity|]. split; [discriminate|]. split.
      + repeat apply Forall_cons; [text_ok [RVar (lit "k"); RTok (PPunct 44 false)]|text_ok [RVar (lit "k"); RTok (PPunct 59 false)]|apply Forall_nil].
      + intros ts M. inversion M as [x v vs ts' V El S|]; subst. apply eval_ok in V. vm_compute in V. injection V as <-. inversion El; subst.
        inversion S as [|? t1 ? ? S1 S']; subst. inversion S' as [|? t2 ? ? S2 S'']; subst. inversion S''; subst. apply text_of_ok in S1. vm_compute in S1. injection S1 as <-. apply text_of_ok in S2. vm_compute in S2. injection S2 as <-.
        repeat apply Forall_cons; [apply no_hash_settled|apply no_hash_settled|apply Forall_nil].
    - discriminate.
    - text_ok [RVar (lit "k"); RCall (lit "m") [[RTok (PId (lit "z"))]]]. apply call_ok.
  Qed.
  (** The refused ones. *)
  Let nested : list scmd := [Cmd (lit "if") (Some [TId (lit "t")]); Block (lex "a"); Cmd (lit "if") (Some [TId (lit "u")]); Block (lex "b"); Cmd (lit "endif") None; Cmd (lit "endif") None].
  Example nested_text : raw_scope nested = lex "@scope: #if(t) { a } #if(u) { b } #endif #endif".
  Proof. vm_compute. reflexivity. Qed.
  Example nested_fails : fails e (raw_scope nested).
  Proof. now apply (nested_conditions_fail e [] (Cmd (lit "if") (Some [TId (lit "t")])) [Block (lex "a")] (Cmd (lit "if") (Some [TId (lit "u")])) [Block (lex "b")] [] []). Qed.
  Example loop_fails : fails e (lex "@scope: #foreach(n, k) { a } #if(t) { b } #endif #endfor").
  Proof.
    now apply (only_blocks_in_loops e [] [TId (lit "n"); op ","; TId (lit "k")] [Block (lex "a")] (lit "if") (Some [TId (lit "t")]) [Block (lex "b"); Cmd (lit "endif") None; Cmd (lit "endfor") None]).
  Qed.
  Example end_fails : fails e (lex "@scope: { a } #end { b }").
  Proof. now apply (nothing_after_end e [Block (lex "a")] (Block (lex "b")) []). Qed.
  Example unknown_fails : fails e (lex "@scope: { a } #elseif(t) { b }").
  Proof. now apply (unknown_command_fails e [Block (lex "a")] (lit "elseif") (Some (lex "t")) [Block (lex "b")]). Qed.
  Example stray_fails : fails e (lex "@scope: { a } #else { b }") /\ fails e (lex "@scope: { a } #endfor").
  Proof. split; [now apply (clause_needs_if e [Block (lex "a")] (lit "else") None [Block (lex "b")])|now apply (endfor_needs_loop e [Block (lex "a")] None [])]. Qed.
End Example74.

(** Lemmas about [translate]. *)
From Verif Require Import Base Tokens Quote SpecQuote Translate SpecTranslate.
From Coq Require Import Lia.
Local Open Scope N_scope.

(** * References left *)
Lemma remain_iff ts : remain ts = true <-> reference_in ts.
Proof.
  split.
  - induction ts as [|x [|y r] IH]; try discriminate. intros H. change (refers x y || remain (y :: r) = true) in H. apply orb_prop in H as [H|H].
    + unfold refers in H. apply andb_prop in H as [H1 H2]. destruct x as [|c j| |]; try discriminate. cbn in H1. apply N.eqb_eq in H1 as ->.
      exists [], j, y, r. split; [reflexivity|]. destruct y as [| | |[]]; easy.
    + destruct (IH H) as (a & j & t & b & -> & Ht). exists (x :: a), j, t, b. auto.
  - intros (a & j & t & b & -> & Ht). induction a as [|x a IH].
    + cbn [app remain]. unfold refers. cbn [is_char]. rewrite N.eqb_refl. destruct t as [| | |[]]; try contradiction; reflexivity.
    + cbn [app]. destruct (a ++ PPunct 35 j :: t :: b) as [|y r] eqn:E; [now destruct a|]. change (refers x y || remain (y :: r) = true). rewrite IH. apply orb_true_r.
Qed.
Lemma remain_not ts : remain ts = false <-> ~ reference_in ts.
Proof. rewrite <- remain_iff. destruct (remain ts); split; congruence. Qed.
Lemma settled_nil : settled [].
Proof. split; [intros (a & j & t & b & E & _); destruct a; discriminate|]. intros a j E. destruct a; discriminate. Qed.
Lemma settled_app a b : settled a -> settled b -> settled (a ++ b).
Proof.
  intros [A1 A2] [B1 B2]. split.
  - intros (x & j & t & y & E & Ht). revert x E. induction a as [|c a IH]; intros x E.
    + apply B1. exists x, j, t, y. auto.
    + destruct x as [|c' x].
      * cbn [app] in E. injection E as -> E. destruct a as [|c a].
        -- now apply (A2 [] j).
        -- injection E as -> E. apply A1. exists [], j, t, a. auto.
      * injection E as -> E. apply (IH) with x; auto.
        -- intros (x' & j' & t' & y' & -> & H'). apply A1. exists (c' :: x'), j', t', y'. auto.
        -- intros x' j' ->. now apply (A2 (c' :: x') j').
  - intros x j E. destruct b as [|c b].
    + rewrite app_nil_r in E. now apply A2 in E.
    + destruct (exists_last (l := c :: b)) as (b' & z & Eb); [discriminate|]. rewrite Eb in E. rewrite app_assoc in E. apply app_inj_tail in E as [_ ->]. now apply (B2 b' j).
Qed.
Lemma settled_one t : is_char 35 t = false -> settled [t].
Proof.
  intros H. split.
  - intros (a & j & u & b & E & _). destruct a as [|x [|y a]]; discriminate.
  - intros a j E. destruct a as [|x a]; [|destruct a; discriminate]. injection E as ->. discriminate.
Qed.
Lemma settled_attr t l : match t with PId _ | PGrp Paren _ => False | _ => True end -> settled (t :: l) -> settled (hash :: t :: l).
Proof.
  intros Ht [H1 H2]. split.
  - intros (a & j & u & b & E & Hu). destruct a as [|x a].
    + injection E as <- <- ->. destruct t as [| | |[]]; contradiction.
    + injection E as _ E. apply H1. exists a, j, u, b. auto.
  - intros a j E. destruct a as [|x a]; [discriminate|]. injection E as _ E. now apply (H2 a j).
Qed.

(** * Splitting at commas *)
Lemma ordinary_char t : ordinary t = true -> is_char 44 t = false /\ is_char 45 t = false /\ is_char 60 t = false /\ is_char 62 t = false.
Proof.
  destruct t as [|c j| |]; cbn; auto. intros H. apply negb_true_iff in H. repeat (apply orb_false_iff in H as [? H]). auto.
Qed.
Lemma one_arg_head inside t a : one_arg inside (t :: a) -> is_char 62 t = false.
Proof. intros H. inversion H; subst; try reflexivity. now apply ordinary_char. Qed.
Lemma one_arg_pass inside a : one_arg inside a -> forall n inner r, (inside = true -> (0 < n)%Z) -> (0 <= n)%Z -> comma_loop n inner (a ++ r) = comma_loop n (inner ++ a) r.
Proof.
  induction 1 as [inside|inside t r' H _ IH|inside j t r' H IH|inside j j' r' H IH|inside a r' j j' H1 IH1 H2 IH2|j r' H IH]; intros n inner r Hi Hn.
  - now rewrite app_nil_r.
  - pose proof (ordinary_char _ H) as (E1 & E2 & E3 & E4). cbn [app comma_loop]. rewrite E1, E2, E3, E4, andb_false_r. rewrite IH by auto. now rewrite <- app_assoc.
  - apply one_arg_head in H as E. rewrite <- app_comm_cons. change (comma_loop n inner (PPunct 45 j :: (t :: r') ++ r)) with (if is_char 62 t then comma_loop n (inner ++ [PPunct 45 j; t]) (r' ++ r) else comma_loop n (inner ++ [PPunct 45 j]) ((t :: r') ++ r)).
    rewrite E, IH by auto. now rewrite <- app_assoc.
  - cbn [app]. change (comma_loop n inner (PPunct 45 j :: PPunct 62 j' :: r' ++ r)) with (comma_loop n (inner ++ [PPunct 45 j; PPunct 62 j']) (r' ++ r)). rewrite IH by auto. now rewrite <- app_assoc.
  - cbn [app]. rewrite <- app_assoc. change (comma_loop n inner (PPunct 60 j :: a ++ (PPunct 62 j' :: r') ++ r)) with (comma_loop (n + 1) (inner ++ [PPunct 60 j]) (a ++ (PPunct 62 j' :: r') ++ r)).
    rewrite IH1 by lia. cbn [app]. change (comma_loop (n + 1) ((inner ++ [PPunct 60 j]) ++ a) (PPunct 62 j' :: r' ++ r)) with (comma_loop (n + 1 - 1) (((inner ++ [PPunct 60 j]) ++ a) ++ [PPunct 62 j']) (r' ++ r)).
    replace (n + 1 - 1)%Z with n by lia. rewrite IH2 by auto. f_equal. rewrite <- !app_assoc. reflexivity.
  - cbn [app]. change (comma_loop n inner (PPunct 44 j :: r' ++ r)) with (if (n =? 0)%Z && true then inner :: match r' ++ r with [] => [] | _ :: _ => comma_loop n [] (r' ++ r) end else comma_loop n (inner ++ [PPunct 44 j]) (r' ++ r)).
    specialize (Hi eq_refl). replace (n =? 0)%Z with false by (symmetry; apply Z.eqb_neq; lia). cbn [andb]. rewrite IH by auto. now rewrite <- app_assoc.
Qed.
Lemma split_commas_ok l : Forall (one_arg false) l -> l <> [] -> l = [[]] \/ (exists front a, l = front ++ [a] /\ a <> []) -> split_commas (commas l) = l.
Proof.
  intros H Hne Hl. unfold split_commas. induction H as [|a l Ha H IH]; [easy|]. destruct l as [|b l].
  - cbn [commas]. rewrite <- (app_nil_r a) at 1. now rewrite (one_arg_pass false) by (auto; lia).
  - change (commas (a :: b :: l)) with (a ++ comma :: commas (b :: l)). rewrite (one_arg_pass false) by (auto; lia).
    assert (L : exists front x, b :: l = front ++ [x] /\ x <> []).
    { destruct Hl as [Hl|(front & x & E & Hx)]; [discriminate|]. destruct front as [|y front]; [discriminate|]. injection E as _ E. eauto. }
    change (comma_loop 0 ([] ++ a) (comma :: commas (b :: l))) with (a :: match commas (b :: l) with [] => [] | _ :: _ => comma_loop 0 [] (commas (b :: l)) end).
    assert (N : commas (b :: l) <> []).
    { destruct L as (front & x & E & Hx). clear - E Hx. destruct l as [|c l].
      - destruct front as [|f front]; [injection E as ->; exact Hx|destruct front; discriminate].
      - change (commas (b :: c :: l)) with (b ++ comma :: commas (c :: l)). now destruct b. }
    destruct (commas (b :: l)) eqn:E; [easy|]. rewrite <- E in *. rewrite IH; auto. discriminate.
Qed.
Lemma split_params ps : split_commas (commas (map (fun p => [PId p]) ps)) = match ps with [] => [[]] | _ => map (fun p => [PId p]) ps end.
Proof.
  destruct ps as [|p ps]; [reflexivity|]. apply split_commas_ok; [|discriminate|].
  - apply Forall_map, Forall_forall. intros x _. apply arg_tok; [reflexivity|constructor].
  - right. destruct (exists_last (l := p :: ps)) as (f & z & ->); [discriminate|]. exists (map (fun p => [PId p]) f), [PId z]. split; [now rewrite map_app|discriminate].
Qed.

(** * More steps do not change the outcome *)
Definition agrees (tr tr' : dict -> list ptok -> run (list ptok)) : Prop := forall d ts, tr d ts <> Running -> tr' d ts = tr d ts.
Lemma rbind_agrees {A B} (x x' : run A) (k k' : A -> run B) :
  (x <> Running -> x' = x) -> (forall a, x = Done a -> k a <> Running -> k' a = k a) -> rbind x k <> Running -> rbind x' k' = rbind x k.
Proof. intros Hx Hk H. destruct x as [a| |]; cbn in *; [rewrite Hx by discriminate; cbn; auto|now rewrite Hx|easy]. Qed.
Lemma all_done_agrees tr tr' d l : agrees tr tr' -> all_done (tr d) l <> Running -> all_done (tr' d) l = all_done (tr d) l.
Proof.
  intros A. induction l as [|a l IH]; [reflexivity|]. cbn [all_done]. apply rbind_agrees; [apply A|]. intros b _. apply rbind_agrees; auto.
Qed.
Lemma call_agrees tr tr' d i : agrees tr tr' -> call tr d i <> Running -> call tr' d i = call tr d i.
Proof.
  intros A. unfold call. destruct i as [|[f| | |] [|[| | |[] g] [|? ?]]]; try reflexivity.
  destruct (dict_get (KParams f) d) as [ps|]; [|reflexivity]. destruct (Nat.eqb _ _); [|reflexivity]. apply rbind_agrees; [now apply all_done_agrees|].
  intros vs _. destruct (dict_get (KBody f) d); [apply A|reflexivity].
Qed.
Lemma pass_agrees tr tr' d : agrees tr tr' -> forall n ts, (List.length ts <= n)%nat -> pass tr d ts <> Running -> pass tr' d ts = pass tr d ts.
Proof.
  intros A. induction n as [|n IH]; intros [|t r] L; try reflexivity; [cbn in L; lia|]. cbn [List.length] in L. cbn [pass]. destruct (is_char 35 t).
  - destruct r as [|[x| | |[] g] r']; cbn [List.length] in L; repeat (apply rbind_agrees; [now apply call_agrees || (intros; apply IH; cbn [List.length]; (lia || assumption))|intros ? _]); try reflexivity.
  - destruct t; repeat (apply rbind_agrees; [apply A || (intros; apply IH; (lia || assumption))|intros ? _]); reflexivity.
Qed.
Lemma translate_S n : agrees (translate n) (translate (S n)).
Proof.
  induction n as [|n IH]; intros d ts H; [now cbn in H|]. revert H. change (translate (S n) d ts <> Running -> translate (S (S n)) d ts = translate (S n) d ts).
  change (translate (S n) d ts) with (run! out := pass (translate n) d ts in if remain out then translate n d out else Done out).
  change (translate (S (S n)) d ts) with (run! out := pass (translate (S n)) d ts in if remain out then translate (S n) d out else Done out).
  apply rbind_agrees; [intros H; apply pass_agrees with (n := List.length ts); auto|]. intros out _. destruct (remain out); [apply IH|reflexivity].
Qed.
Lemma translate_more n m d ts : (n <= m)%nat -> translate n d ts <> Running -> translate m d ts = translate n d ts.
Proof. induction 1 as [|m _ IH]; [reflexivity|]. intros H. rewrite translate_S; rewrite IH; auto. Qed.

(** * A pass over references *)
Definition ref_run (tr : dict -> list ptok -> run (list ptok)) (d : dict) (r : ref) : run (list ptok) :=
  match r with
  | RTok t => Done [t]
  | RGrp dl body => run! g := tr d (refs_toks body) in Done [PGrp dl g]
  | RAttr i body => run! g := tr d (refs_toks body) in Done (hash :: (if i then [bang] else []) ++ [PGrp Bracket g])
  | RVar x => Done (match dict_get (KVar x) d with Some v => v | None => [] end)
  | RCall f args => call tr d [PId f; PGrp Paren (commas (map refs_toks args))]
  end.
Definition plain_ptok (t : ptok) : Prop := match t with PGrp _ _ => False | PPunct c _ => c <> 35 | _ => True end.
Lemma plain_ptok_char t : plain_ptok t -> is_char 35 t = false.
Proof. destruct t as [|c j| |]; cbn; auto. now intros H%N.eqb_neq. Qed.
Lemma rbind_assoc {A B C} (x : run A) (f : A -> run B) (g : B -> run C) : rbind (rbind x f) g = rbind x (fun a => rbind (f a) g).
Proof. now destruct x. Qed.
Lemma pass_ref tr d r ts : ref_ok r -> pass tr d (ref_toks r ++ ts) = run! a := ref_run tr d r in run! b := pass tr d ts in Done (a ++ b).
Proof.
  intros H. destruct H as [t H|dl body H|i body H|x H|f args H H' H'']; cbn [ref_toks ref_run].
  - cbn [app pass]. rewrite (plain_ptok_char t H). destruct t; try contradiction; reflexivity.
  - cbn [app pass is_char]. rewrite rbind_assoc. reflexivity.
  - rewrite rbind_assoc. destruct i; cbn [app pass is_char hash bang N.eqb Pos.eqb rbind]; fold (refs_toks body); destruct (tr d (refs_toks body)); cbn [rbind]; try reflexivity; destruct (pass tr d ts); reflexivity.
  - reflexivity.
  - reflexivity.
Qed.

(** * The meaning of references *)
Scheme stands_ind' := Induction for stands Sort Prop with all_stand_ind' := Induction for all_stand Sort Prop with args_stand_ind' := Induction for args_stand Sort Prop.
Combined Scheme stands_mutual from stands_ind', all_stand_ind', args_stand_ind'.
Lemma ref_ok_in_args f args : ref_ok (RCall f args) -> Forall (Forall ref_ok) args.
Proof. intros H. now inversion H. Qed.
Lemma lookup_cons {A} x y (a : A) l : lookup x ((y, a) :: l) = if str_eqb x y then Some a else lookup x l.
Proof. reflexivity. Qed.
Lemma with_args_macros ps : forall vs L, macros (with_args ps vs L) = macros L.
Proof. induction ps as [|p ps IH]; intros [|v vs] L; try reflexivity. cbn [with_args]. now rewrite IH. Qed.
Lemma with_args_ok ps : forall vs L, library_ok L -> Forall settled vs -> library_ok (with_args ps vs L).
Proof.
  induction ps as [|p ps IH]; intros [|v vs] L HL Hv; try exact HL. inversion Hv; subst. cbn [with_args]. apply IH; [|assumption].
  split; [|exact (macros_ok _ HL)]. intros x w. cbn [vars]. rewrite lookup_cons. destruct (str_eqb x p); [intros [= <-]; assumption|apply (vars_settled _ HL)].
Qed.
Lemma stands_settled :
  (forall L r out, stands L r out -> library_ok L -> ref_ok r -> settled out) /\
  (forall L l out, all_stand L l out -> library_ok L -> Forall ref_ok l -> settled out) /\
  (forall L l vs, args_stand L l vs -> library_ok L -> Forall (Forall ref_ok) l -> Forall settled vs).
Proof.
  apply stands_mutual; intros.
  - inversion H0; subst. apply settled_one. now apply plain_ptok_char.
  - now apply settled_one.
  - apply settled_attr; [exact I|]. now apply settled_one.
  - apply settled_attr; [exact I|]. apply (settled_app [bang] [PGrp Bracket out]); now apply settled_one.
  - now apply (vars_settled _ H) in e.
  - apply settled_nil.
  - apply H0. + apply with_args_ok; auto. apply H; auto. now apply ref_ok_in_args in H2. + now apply (macros_ok _ H1) in e.
  - apply settled_nil.
  - apply settled_nil.
  - inversion H2; subst. apply settled_app; auto.
  - constructor.
  - inversion H2; subst. constructor; auto.
Qed.
Definition stands_settled1 := proj1 stands_settled.
Definition all_stand_settled := proj1 (proj2 stands_settled).
Definition args_stand_settled := proj2 (proj2 stands_settled).

Lemma str_eqb_spec a b : str_eqb a b = true <-> a = b.
Proof. split; [apply str_eqb_eq|intros ->; apply str_eqb_refl]. Qed.
Lemma put_all_represents ps : forall vs d L, ~ In [] ps -> represents d L -> represents (put_all (map (fun p => [PId p]) ps) vs d) (with_args ps vs L).
Proof.
  induction ps as [|p ps IH]; intros [|v vs] d L Hp R; try exact R. cbn [map put_all with_args]. apply IH; [intros H; apply Hp; now right|].
  destruct R as [R1 R2 R3]. split; [|intros f; apply R2|intros f; apply R3]. intros x Hx. unfold dict_put, param_key. cbn [dict_get mkey_eqb vars lookup]. rewrite R1 by assumption. reflexivity.
Qed.
Lemma put_empty_represents d L v : represents d L -> represents (put_all [[]] [v] d) L.
Proof. intros [R1 R2 R3]. split; auto. intros x Hx. cbn. destruct x; [easy|]. now apply R1. Qed.
(** How a call of a macro of the library goes. *)
Definition bound (ps : list str) (vs : list (list ptok)) (d : dict) : dict := put_all (match ps with [] => [[]] | _ => map (fun p => [PId p]) ps end) vs d.
Lemma bound_represents ps vs d L : ~ In [] ps -> List.length vs = Nat.max 1 (List.length ps) -> represents d L -> represents (bound ps vs d) (with_args ps vs L).
Proof.
  intros Hp Hl R. unfold bound. destruct ps as [|p ps]; [|now apply put_all_represents]. destruct vs as [|v [|w vs]]; try discriminate. now apply put_empty_represents.
Qed.
Lemma call_defined tr d L f args ps body : represents d L -> lookup f (macros L) = Some (ps, body) -> ref_ok (RCall f args) ->
  call tr d [PId f; PGrp Paren (commas (map refs_toks args))] =
  if Nat.eqb (Nat.max 1 (List.length ps)) (List.length args) then run! vs := all_done (tr d) (map refs_toks args) in tr (bound ps vs d) (refs_toks body) else Panicked.
Proof.
  intros R E H. cbn [call]. rewrite (rep_params _ _ R), E. cbn [option_map fst]. rewrite split_params. inversion H as [| | | |? ? H1 H2 H3]; subst.
  assert (S : split_commas (commas (map refs_toks args)) = map refs_toks args).
  { apply split_commas_ok.
    - now apply Forall_map.
    - destruct H3 as [->|(a & b & -> & _)]; [discriminate|]. destruct a; discriminate.
    - destruct H3 as [->|(a & b & -> & Hb)]; [now left|]. right. exists (map refs_toks a), (refs_toks b). split; [now rewrite map_app|].
      destruct b as [|r b]; [easy|]. destruct r as [t|? ?|i ?|?|? ?]; cbn; try discriminate; destruct i; discriminate. }
  rewrite S, map_length. replace (List.length (match ps with [] => [[]] | _ => map (fun p => [PId p]) ps end)) with (Nat.max 1 (List.length ps)) by (destruct ps; [reflexivity|cbn [List.length map]; rewrite map_length; lia]).
  rewrite (rep_body _ _ R), E. reflexivity.
Qed.
Lemma call_undefined tr d L f args : represents d L -> lookup f (macros L) = None -> call tr d [PId f; PGrp Paren args] = Done [].
Proof. intros R E. cbn [call]. now rewrite (rep_params _ _ R), E. Qed.

(** ** From the program to the meaning *)
Definition sound (tr : dict -> list ptok -> run (list ptok)) : Prop :=
  forall d L ts out, represents d L -> library_ok L -> Forall ref_ok ts -> tr d (refs_toks ts) = Done out -> all_stand L ts out.
Lemma rbind_done {A B} (x : run A) (k : A -> run B) b : rbind x k = Done b -> exists a, x = Done a /\ k a = Done b.
Proof. destruct x; cbn; try discriminate. eauto. Qed.
Lemma all_done_sound tr d L l vs : sound tr -> represents d L -> library_ok L -> Forall (Forall ref_ok) l -> all_done (tr d) (map refs_toks l) = Done vs -> args_stand L l vs.
Proof.
  intros S R HL H. revert vs. induction H as [|a l Ha H IH]; intros vs E.
  - injection E as <-. constructor.
  - cbn [map all_done] in E. apply rbind_done in E as (v & E1 & E). apply rbind_done in E as (vs' & E2 & E). injection E as <-. constructor; [|auto]. now apply (S d L).
Qed.
Lemma args_stand_length L l vs : args_stand L l vs -> List.length vs = List.length l.
Proof. induction 1; cbn; auto. Qed.
Lemma ref_run_sound tr d L r out : sound tr -> represents d L -> library_ok L -> ref_ok r -> ref_run tr d r = Done out -> stands L r out.
Proof.
  intros S R HL H E. pose proof H as H0. destruct H as [t H|dl body H|i body H|x H|f args H H' H'']; cbn [ref_run] in E.
  - injection E as <-. constructor.
  - apply rbind_done in E as (g & E & E'). injection E' as <-. constructor. now apply (S d).
  - apply rbind_done in E as (g & E & E'). apply (S d L) in E; auto. destruct i; injection E' as <-; now constructor.
  - rewrite (rep_var _ _ R x H) in E. destruct (lookup x (vars L)) eqn:E1; injection E as <-; now constructor.
  - destruct (lookup f (macros L)) as [[ps body]|] eqn:E1.
    + rewrite (call_defined tr d L f args ps body R E1 H0) in E. destruct (Nat.eqb _ _) eqn:E2; [|discriminate]. apply Nat.eqb_eq in E2. apply rbind_done in E as (vs & E3 & E).
      apply (all_done_sound tr d L) in E3; auto. destruct (macros_ok _ HL _ _ _ E1) as [M1 M2]. apply st_call with ps body vs; auto.
      apply (S (bound ps vs d)); auto.
      * apply bound_represents; auto. rewrite (args_stand_length _ _ _ E3). auto.
      * apply with_args_ok; auto. now apply (args_stand_settled L args).
    + rewrite (call_undefined tr d L) in E by auto. injection E as <-. now constructor.
Qed.
Lemma pass_sound tr d L : sound tr -> represents d L -> library_ok L -> forall ts out, Forall ref_ok ts -> pass tr d (refs_toks ts) = Done out -> all_stand L ts out.
Proof.
  intros S R HL ts. induction ts as [|r ts IH]; intros out H E.
  - injection E as <-. constructor.
  - inversion H; subst. unfold refs_toks in E. cbn [flat_map] in E. rewrite pass_ref in E by assumption. apply rbind_done in E as (a & E1 & E). apply rbind_done in E as (b & E2 & E).
    injection E as <-. constructor; [now apply (ref_run_sound tr d L)|]. now apply IH.
Qed.
Lemma settled_remain out : settled out -> remain out = false.
Proof. intros [H _]. now apply remain_not. Qed.
Lemma translate_sound n : sound (translate n).
Proof.
  induction n as [|n IH]; intros d L ts out R HL H E; [discriminate|]. cbn [translate] in E. apply rbind_done in E as (o & E1 & E).
  apply (pass_sound (translate n) d L) in E1; auto. apply all_stand_settled in E1 as Hs; auto. rewrite (settled_remain _ Hs) in E. now injection E as <-.
Qed.

(** ** And back *)
Lemma stands_complete :
  (forall L r out, stands L r out -> forall d, represents d L -> library_ok L -> ref_ok r -> exists n, forall m, (n <= m)%nat -> ref_run (translate m) d r = Done out) /\
  (forall L l out, all_stand L l out -> forall d, represents d L -> library_ok L -> Forall ref_ok l -> exists n, forall m, (n <= m)%nat -> pass (translate m) d (refs_toks l) = Done out) /\
  (forall L l vs, args_stand L l vs -> forall d, represents d L -> library_ok L -> Forall (Forall ref_ok) l -> exists n, forall m, (n <= m)%nat -> all_done (translate m d) (map refs_toks l) = Done vs).
Proof.
  assert (T : forall L l out d, library_ok L -> Forall ref_ok l -> all_stand L l out -> (exists n, forall m, (n <= m)%nat -> pass (translate m) d (refs_toks l) = Done out) ->
    exists n, forall m, (n <= m)%nat -> translate m d (refs_toks l) = Done out).
  { intros L l out d HL Hl Hs [n Hn]. exists (S n). intros m Hm. destruct m as [|m]; [lia|]. cbn [translate]. rewrite Hn by lia. cbn [rbind].
    rewrite settled_remain; [reflexivity|]. now apply (all_stand_settled L l). }
  apply stands_mutual.
  - intros L t d R HL H. exists 0%nat. reflexivity.
  - intros L dl body out Hs IH d R HL H. inversion H; subst. destruct (T L body out d) as [n Hn]; auto. exists n. intros m Hm. cbn [ref_run]. now rewrite Hn.
  - intros L body out Hs IH d R HL H. inversion H; subst. destruct (T L body out d) as [n Hn]; auto. exists n. intros m Hm. cbn [ref_run]. now rewrite Hn.
  - intros L body out Hs IH d R HL H. inversion H; subst. destruct (T L body out d) as [n Hn]; auto. exists n. intros m Hm. cbn [ref_run]. now rewrite Hn.
  - intros L x v E d R HL H. inversion H; subst. exists 0%nat. intros m _. cbn [ref_run]. now rewrite (rep_var _ _ R), E.
  - intros L x E d R HL H. inversion H; subst. exists 0%nat. intros m _. cbn [ref_run]. now rewrite (rep_var _ _ R), E.
  - intros L f args ps body vs out E Hl Ha IHa Hb IHb d R HL H. destruct (macros_ok _ HL _ _ _ E) as [M1 M2]. pose proof (ref_ok_in_args _ _ H) as Hargs.
    destruct (IHa d R HL Hargs) as [n1 H1].
    assert (HL' : library_ok (with_args ps vs L)) by (apply with_args_ok; auto; now apply (args_stand_settled L args)).
    assert (R' : represents (bound ps vs d) (with_args ps vs L)) by (apply bound_represents; auto; now rewrite (args_stand_length _ _ _ Ha)).
    destruct (T (with_args ps vs L) body out (bound ps vs d)) as [n2 H2]; auto. exists (Nat.max n1 n2). intros m Hm. cbn [ref_run].
    rewrite (call_defined _ d L f args ps body R E H). rewrite Hl, Nat.eqb_refl, H1 by lia. cbn [rbind]. now rewrite H2 by lia.
  - intros L f args E d R HL H. exists 0%nat. intros m _. cbn [ref_run]. now apply (call_undefined _ d L).
  - intros L d R HL H. exists 0%nat. reflexivity.
  - intros L r l a b Hr IHr Hl IHl d R HL H. inversion H as [|? ? O1 O2]; subst. destruct (IHr d) as [n1 H1]; auto. destruct (IHl d) as [n2 H2]; auto. exists (Nat.max n1 n2). intros m Hm.
    unfold refs_toks. cbn [flat_map]. rewrite pass_ref by assumption. rewrite H1 by lia. cbn [rbind]. fold (refs_toks l). now rewrite H2 by lia.
  - intros L d R HL H. exists 0%nat. reflexivity.
  - intros L a l v vs Ha IHa Hl IHl d R HL H. inversion H as [|? ? O1 O2]; subst. destruct (T L a v d) as [n1 H1]; auto. destruct (IHl d) as [n2 H2]; auto. exists (Nat.max n1 n2). intros m Hm.
    cbn [map all_done]. rewrite H1 by lia. cbn [rbind]. now rewrite H2 by lia.
Qed.
Lemma translate_complete d L ts out : represents d L -> library_ok L -> Forall ref_ok ts -> all_stand L ts out -> exists n, translate n d (refs_toks ts) = Done out.
Proof.
  intros R HL H Hs. destruct (proj1 (proj2 stands_complete) L ts out Hs d R HL H) as [n Hn]. exists (S n). cbn [translate]. rewrite Hn by lia. cbn [rbind].
  rewrite settled_remain; [reflexivity|]. now apply (all_stand_settled L ts).
Qed.

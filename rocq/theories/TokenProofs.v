(** How the macros' parsers behave on the tokens of a declaration. *)
From Verif Require Import Base Tokens SpecAttr SpecTokens.
From Coq Require Import Wf_nat.

(** * Token lists that are well bracketed, with no separator of [stop] outside angle brackets *)
Definition plain (t : token) : bool :=
  negb (is_punct 45 t) && negb (is_punct 60 t) && negb (is_punct 62 t) && negb (is_punct 59 t) && negb (is_group Brace t).
Definition clear_of (stop : N -> bool) (t : token) : bool := match t with Punct c => negb (stop c) | _ => true end.
Inductive Flat (stop : N -> bool) : list token -> Prop :=
| fl_nil : Flat stop []
| fl_tok t r : plain t = true -> clear_of stop t = true -> Flat stop r -> Flat stop (t :: r)
| fl_arrow r : Flat stop r -> Flat stop (Punct 45 :: Punct 62 :: r)
| fl_angle a r : Flat (fun _ => false) a -> Flat stop r -> Flat stop (Punct 60 :: a ++ Punct 62 :: r).

Lemma Flat_app stop a b : Flat stop a -> Flat stop b -> Flat stop (a ++ b).
Proof.
  intros H. revert b. induction H; intros b Hb; cbn [app]; auto.
  - now apply fl_tok; auto.
  - now apply fl_arrow; auto.
  - rewrite <- app_assoc. cbn [app]. apply fl_angle; auto.
Qed.
Lemma Flat_weaken stop stop' a : (forall c, stop' c = true -> stop c = true) -> Flat stop a -> Flat stop' a.
Proof.
  intros W H. revert stop' W. induction H; intros stop' W.
  - apply fl_nil.
  - apply fl_tok; auto.    destruct t; cbn in *; auto. destruct (stop' c) eqn:E; auto. apply W in E. now rewrite E in H0.
  - apply fl_arrow; auto.
  - apply fl_angle; auto.
Qed.
Lemma is_punct_eq c d : is_punct c (Punct d) = (d =? c).
Proof. reflexivity. Qed.
Lemma split_flat s1 s2 stop a : Flat stop a -> forall n inner r, (0 <= n)%Z -> (n = 0%Z -> stop s1 = true) ->
  split_loop s1 s2 n inner (a ++ r) = split_loop s1 s2 n (inner ++ a) r.
Proof.
  intros H. induction H; intros n inner r' Hn Hs.
  - now rewrite app_nil_r.
  - cbn [app split_loop]. unfold plain in H. apply andb_prop in H as [H _]. apply andb_prop in H as [H _].
    apply andb_prop in H as [H H3]. apply andb_prop in H as [H1' H2].
    apply negb_true_iff in H1', H2, H3. rewrite H1', H2, H3.
    assert (E : ((n =? 0)%Z && is_punct s1 t) = false).
    { destruct (Z.eqb_spec n 0) as [->|]; [|reflexivity]. cbn. destruct t; auto. cbn in *. destruct (N.eqb_spec c s1); auto. subst.
      now rewrite Hs in H0. }
    rewrite E, IHFlat by auto. now rewrite <- app_assoc.
  - cbn [app split_loop is_punct N.eqb Pos.eqb]. rewrite IHFlat by auto. now rewrite <- app_assoc.
  - cbn [app split_loop]. cbn [is_punct N.eqb Pos.eqb]. rewrite <- app_assoc. cbn [app]. rewrite IHFlat1 by lia.
    cbn [app split_loop]. cbn [is_punct N.eqb Pos.eqb]. replace (n + 1 - 1)%Z with n by lia. rewrite IHFlat2 by auto.
    rewrite <- !app_assoc. reflexivity.
Qed.
Definition sep_ok (c : N) : Prop := c <> 45 /\ c <> 60 /\ c <> 62.
Lemma split_sep_end c l tail : sep_ok c -> (tail = [] \/ tail = [Punct c]) ->
  l <> [] -> Forall (fun a => a <> [] /\ Flat (fun d => d =? c) a) l -> split_by c None (sep_by c l ++ tail) = l.
Proof.
  intros (S1 & S2 & S3) Ht Hne H. unfold split_by. induction l as [|a [|b l] IH]; [easy| |].
  - inversion H as [|? ? [Ha Fa] _]; subst. cbn [sep_by]. rewrite (split_flat _ _ _ _ Fa) by (lia || (intros; apply N.eqb_refl)).
    cbn [app]. destruct Ht as [-> | ->]; [reflexivity|]. cbn [split_loop]. rewrite !is_punct_eq, N.eqb_refl.
    repeat match goal with |- context [(?x =? ?y)%N] => destruct (N.eqb_spec x y); [congruence|] end. reflexivity.
  - inversion H as [|? ? [Ha Fa] Hl]; subst. change (sep_by c (a :: b :: l)) with (a ++ Punct c :: sep_by c (b :: l)). rewrite <- app_assoc.
    rewrite (split_flat _ _ _ _ Fa) by (lia || (intros; apply N.eqb_refl)). cbn [app split_loop].
    rewrite !is_punct_eq, N.eqb_refl.
    repeat match goal with |- context [(c =? ?y)%N] => destruct (N.eqb_spec c y); [congruence|] end. cbn [Z.eqb andb].
    inversion Hl as [|? ? [Hb Fb] _]; subst.
    destruct (sep_by c (b :: l) ++ tail) as [|x y] eqn:E.
    + exfalso. destruct b; [easy|]. cbn in E. destruct l; discriminate.
    + f_equal. rewrite <- E in *. apply IH; [discriminate|exact Hl].
Qed.
Lemma split_sep c l : sep_ok c -> l <> [] -> Forall (fun a => a <> [] /\ Flat (fun d => d =? c) a) l -> split_by c None (sep_by c l) = l.
Proof. intros. rewrite <- (app_nil_r (sep_by c l)). now apply split_sep_end; auto. Qed.
Lemma filter_all {A} (p : A -> bool) l : Forall (fun a => p a = true) l -> filter p l = l.
Proof. induction 1 as [|a l E _ IH]; cbn; [reflexivity|]. now rewrite E, IH. Qed.
Lemma split_items c l tail : sep_ok c -> (tail = [] \/ tail = [Punct c]) ->
  Forall (fun a => a <> [] /\ Flat (fun d => d =? c) a) l -> filter nonempty (split_by c None (sep_by c l ++ tail)) = l.
Proof.
  intros Hc Ht H. destruct l as [|a l].
  - destruct Ht as [-> | ->]; [reflexivity|]. destruct Hc as (S1 & S2 & S3). unfold split_by. cbn [sep_by app split_loop].
    rewrite !is_punct_eq, N.eqb_refl.
    repeat match goal with |- context [(c =? ?y)%N] => destruct (N.eqb_spec c y); [congruence|] end. reflexivity.
  - rewrite split_sep_end by (auto; discriminate). apply filter_all. revert H. apply Forall_impl. intros [|? ?] [? ?]; easy.
Qed.
Lemma Flat_sep stop c l : stop c = false -> sep_ok c -> c <> 59 -> Forall (Flat stop) l -> Flat stop (sep_by c l).
Proof.
  intros Hc (S1 & S2 & S3) S4 H. induction H as [|a [|b l] Ha Hl IH]; [constructor|exact Ha|].
  change (sep_by c (a :: b :: l)) with (a ++ Punct c :: sep_by c (b :: l)). apply Flat_app; auto.
  apply fl_tok; auto.
  - unfold plain. rewrite !is_punct_eq. repeat match goal with |- context [(c =? ?y)%N] => destruct (N.eqb_spec c y); [congruence|] end. reflexivity.
  - cbn. now rewrite Hc.
Qed.
(** The [::] separator. *)
Lemma split_path pre tail : tail <> [] -> Flat (fun d => d =? 58) tail ->
  split_by 58 (Some 58) (flat_map (fun s => [Ident s; Punct 58; Punct 58]) pre ++ tail) = map (fun s => [Ident s]) pre ++ [tail].
Proof.
  intros Hne F. unfold split_by. induction pre as [|s pre IH].
  - cbn [flat_map app map]. rewrite <- (app_nil_r tail) at 1. now rewrite (split_flat _ _ _ _ F) by (lia || reflexivity).
  - cbn [flat_map app split_loop is_punct N.eqb Pos.eqb Z.eqb andb map].
    destruct (flat_map _ pre ++ tail) eqn:E.
    + apply app_eq_nil in E as [_ E]. now subst.
    + f_equal. exact IH.
Qed.

(** * Induction over types *)
Section RInd.
  Variables (P : rname -> Prop) (Q : rarg -> Prop) (R : rtype -> Prop).
  Hypothesis HL : forall a, P (RLife a).
  Hypothesis HP : forall pre id args, Forall Q args -> P (RPath pre id args).
  Hypothesis HG : forall r i, P (RGroup r i).
  Hypothesis HF : forall w ps ret, (forall n, ret = Some n -> P n) -> P (RFn w ps ret).
  Hypothesis HA : forall b t, R t -> Q (RArg b t).
  Hypothesis HN : forall n, P n -> R (RName n).
  Hypothesis HR : forall lt m n, P n -> R (RRef lt m n).
  Hypothesis HD : forall ns, Forall P ns -> R (RDyn ns).
  Fixpoint rname_rec (n : rname) : P n :=
    match n with
    | RLife a => HL a
    | RPath pre id args => HP pre id args ((fix go l : Forall Q l := match l with [] => Forall_nil _ | a :: r => Forall_cons _ (rarg_rec a) (go r) end) args)
    | RGroup r i => HG r i
    | RFn w ps ret => HF w ps ret (match ret with Some m => fun n e => match e in _ = s return match s with Some k => P k | None => True end with eq_refl => rname_rec m end
                                              | None => fun n e => match e in _ = s return match s with Some k => P k | None => True end with eq_refl => I end end)
    end
  with rarg_rec (a : rarg) : Q a := match a with RArg b t => HA b t (rtype_rec t) end
  with rtype_rec (t : rtype) : R t :=
    match t with
    | RName n => HN n (rname_rec n)
    | RRef lt m n => HR lt m n (rname_rec n)
    | RDyn ns => HD ns ((fix go l : Forall P l := match l with [] => Forall_nil _ | a :: r => Forall_cons _ (rname_rec a) (go r) end) ns)
    end.
  Lemma rtypes_ind : (forall n, P n) /\ (forall a, Q a) /\ (forall t, R t).
  Proof. repeat split; [apply rname_rec | apply rarg_rec | apply rtype_rec]. Qed.
End RInd.

Definition stops (l : list N) (c : N) : bool := existsb (N.eqb c) l.
Definition path_tail (id : str) (args : list rarg) : list token :=
  Ident id :: match args with [] => [] | _ => Punct 60 :: sep_by 44 (map arg_toks args) ++ [Punct 62] end.
Lemma path_tail_flat stop id args : Forall (fun a => Flat (stops [44]) (arg_toks a)) args -> Flat stop (path_tail id args).
Proof.
  intros H. unfold path_tail. apply fl_tok; try reflexivity. destruct args as [|a args]; [constructor|].
  apply fl_angle; [|constructor]. apply Flat_sep; [reflexivity|repeat split; discriminate|discriminate|].
  apply Forall_map. revert H. apply Forall_impl. intros b. apply Flat_weaken. discriminate.
Qed.
Lemma prefix_flat stop pre : stop 58 = false -> Flat stop (flat_map (fun s => [Ident s; Punct 58; Punct 58]) pre).
Proof.
  intros H. induction pre as [|s pre IH]; cbn [flat_map app]; [constructor|]. apply fl_tok; try reflexivity.
  do 2 (apply fl_tok; [reflexivity| cbn; now rewrite H|]). exact IH.
Qed.
Ltac stp := let c := fresh in let E := fresh in intros c E; unfold stops in *; cbn in *; destruct (c =? 44), (c =? 61); try reflexivity; discriminate.
Ltac flats := repeat (first [exact (fl_nil _) | apply fl_tok; [reflexivity|reflexivity|]]).
Lemma all_flat :
  (forall n, Flat (stops [44; 61; 43]) (name_toks n)) /\ (forall a, Flat (stops [44]) (arg_toks a)) /\ (forall t, Flat (stops [44; 61]) (type_toks t)).
Proof.
  apply rtypes_ind.
  - intros a. flats.
  - intros pre id args H. cbn [name_toks]. fold (path_tail id args). apply Flat_app; [now apply prefix_flat|]. now apply path_tail_flat.
  - intros [|] i; cbn; flats.
  - intros w ps [n|] H; cbn [name_toks app]; flats. apply fl_arrow. now apply H.
  - intros [x|] t H; cbn [arg_toks].
    + flats. revert H. apply Flat_weaken. stp.
    + revert H. apply Flat_weaken. stp.
  - intros n. cbn [type_toks]. apply Flat_weaken. stp.
  - intros lt m n H. cbn [type_toks]. apply fl_tok; try reflexivity. apply Flat_app; [destruct lt; cbn; flats|].
    apply Flat_app; [destruct m; cbn; flats|]. revert H. apply Flat_weaken. stp.
  - intros ns H. cbn [type_toks]. flats. apply Flat_sep; [reflexivity|repeat split; discriminate|discriminate|]. apply Forall_map.
    revert H. apply Forall_impl. intros n. apply Flat_weaken. stp.
Qed.
Definition name_flat := proj1 all_flat.
Definition arg_flat := proj1 (proj2 all_flat).
Definition type_flat := proj2 (proj2 all_flat).
Lemma stops_one c d l : In d l -> stops l c = false -> (c =? d) = false.
Proof. intros Hin H. destruct (N.eqb_spec c d); auto. subst. unfold stops in H. rewrite <- not_true_iff_false in H. exfalso. apply H.
  apply existsb_exists. exists d. split; auto. apply N.eqb_refl. Qed.
Lemma Flat_one l d a : In d l -> Flat (stops l) a -> Flat (fun c => c =? d) a.
Proof. intros Hin. apply Flat_weaken. intros c E. apply N.eqb_eq in E as ->. unfold stops. apply existsb_exists. exists d. split; auto. apply N.eqb_refl. Qed.
Lemma name_toks_ne n : name_toks n <> [].
Proof. destruct n; cbn; try discriminate. destruct (flat_map _ _); discriminate. Qed.
Lemma sep_by_ne c l : Forall (fun a => a <> []) l -> l <> [] -> sep_by c l <> [].
Proof. intros H Hl. destruct l as [|a [|b l]]; [easy| |]; inversion H; subst; cbn; destruct a; easy. Qed.
Lemma sep_len c l a : In a l -> (List.length a <= List.length (sep_by c l))%nat.
Proof.
  induction l as [|x [|y l] IH]; [easy| |].
  - intros [-> |[]]. cbn. lia.
  - change (sep_by c (x :: y :: l)) with (x ++ Punct c :: sep_by c (y :: l)). rewrite app_length. cbn [List.length].
    intros [-> |H]; [lia|]. apply IH in H. lia.
Qed.
Lemma type_toks_ne t : type_toks t <> [].
Proof. destruct t; cbn; try discriminate. apply name_toks_ne. Qed.
Lemma arg_toks_ne a : arg_toks a <> [].
Proof. destruct a as [[x|] t]; cbn; [discriminate|apply type_toks_ne]. Qed.

(** * What is parsed *)
Fixpoint to_name (n : rname) : name :=
  match n with
  | RLife a => mkName [] (life a) []
  | RPath pre id args => mkName (map (fun s => [Ident s]) pre) [Ident id] (map to_arg args)
  | RGroup _ _ | RFn _ _ _ => mkName [] (name_toks n) []
  end
with to_arg (a : rarg) : type :=
  let '(RArg b t) := a in
  let b' := option_map (fun x => [Ident x]) b in
  match t with
  | RName n => mkType b' [to_name n] false None false false false
  | RRef lt m n => mkType b' [to_name n] true (option_map (fun a => mkName [] (life a) []) lt) m false false
  | RDyn ns => mkType b' (map to_name ns) false None false true false
  end.
Lemma all_some_map {A B C} (f : A -> B) (g : B -> option C) (h : A -> C) l : Forall (fun a => g (f a) = Some (h a)) l -> all_some g (map f l) = Some (map h l).
Proof. induction 1 as [|a l E _ IH]; cbn; [reflexivity|]. now rewrite E, IH. Qed.
Lemma removelast_snoc {A} (l : list A) a : removelast (l ++ [a]) = l.
Proof. apply removelast_last. Qed.
Lemma last_of_snoc {A} (d a : A) l : last_of d (l ++ [a]) = a.
Proof. induction l as [|b l IH]; [reflexivity|]. cbn. destruct (l ++ [a]) eqn:E; [now destruct l|]. exact IH. Qed.

Lemma parse_path ty pre id args : reserved id = false -> Forall (fun a => ty (arg_toks a) = Some (to_arg a)) args ->
  parse_name_with ty (name_toks (RPath pre id args)) = Some (to_name (RPath pre id args)).
Proof.
  intros Hr H. cbn [name_toks]. fold (path_tail id args). unfold parse_name_with.
  assert (F : Flat (fun d => d =? 58) (path_tail id args)) by (apply path_tail_flat, Forall_forall; intros; apply arg_flat).
  rewrite split_path; [|discriminate|exact F]. rewrite removelast_snoc, last_of_snoc.
  destruct (flat_map _ pre ++ path_tail id args) eqn:E.
  { apply app_eq_nil in E as [_ E]. discriminate. }
  unfold path_tail. destruct args as [|a args]; [reflexivity|].
  remember (sep_by 44 (map arg_toks (a :: args))) as body eqn:Eb.
  assert (Hne : body <> []) by (subst; apply sep_by_ne; [apply Forall_map, Forall_forall; intros; apply arg_toks_ne | discriminate]).
  destruct (body ++ [Punct 62]) as [|x [|y z]] eqn:E2.
  { now destruct body. } { destruct body as [|? [|? ?]]; [now elim Hne|discriminate|discriminate]. }
  assert (L : last_of x (y :: z) = Punct 62).
  { destruct body; [easy|]. injection E2 as -> E2. rewrite <- E2. apply last_of_snoc. }
  assert (RL : removelast (x :: y :: z) = body) by (rewrite <- E2; apply removelast_snoc).
  cbn [is_punct N.eqb Pos.eqb andb]. rewrite L, RL. cbn [is_punct N.eqb Pos.eqb].
  rewrite Eb, split_sep.
  - erewrite all_some_map by exact H. reflexivity.
  - repeat split; discriminate.
  - discriminate.
  - apply Forall_map, Forall_forall. intros b _. split; [apply arg_toks_ne|]. apply (Flat_one [44]); [now left|apply arg_flat].
Qed.
Lemma fn_word_in w : existsb (fun x => str_eqb w (lit x)) fn_words = true -> fn_word (Ident w) = true.
Proof. unfold fn_word, is_ident. cbn [existsb fn_words]. rewrite orb_false_r. intros H. now rewrite <- !orb_assoc. Qed.
Lemma ret_flat n : match n with RPath [] id args as n => name_ok n | RGroup _ _ => true | _ => false end = true -> Flat (fun d => d =? 58) (name_toks n).
Proof.
  destruct n as [a|[|x pre] id args|r i|w ps ret]; try discriminate; intros _; cbn [name_toks flat_map app].
  - apply path_tail_flat, Forall_forall. intros; apply arg_flat.
  - destruct r; flats.
Qed.
Lemma parse_name_ok ty n : name_ok n = true ->
  match n with RPath _ _ args => Forall (fun a => ty (arg_toks a) = Some (to_arg a)) args | _ => True end ->
  parse_name_with ty (name_toks n) = Some (to_name n).
Proof.
  destruct n as [a|pre id args|r i|w ps ret]; intros Hok H.
  - reflexivity.
  - apply parse_path; auto. cbn in Hok. apply andb_prop in Hok as [Hok _]. apply andb_prop in Hok as [_ Hok]. now apply negb_true_iff.
  - destruct r; reflexivity.
  - cbn [name_ok] in Hok. apply andb_prop in Hok as [Hw Hret]. apply fn_word_in in Hw.
    assert (F : Flat (fun d => d =? 58) (name_toks (RFn w ps ret))).
    { cbn [name_toks app]. apply fl_tok; try reflexivity. apply fl_tok; try reflexivity.
      destruct ret as [n|]; [|constructor]. apply fl_arrow, ret_flat. destruct n as [|[|] ? ?| |]; auto. }
    unfold parse_name_with. pose proof (split_path [] (name_toks (RFn w ps ret))) as E. cbn [flat_map map app] in E.
    rewrite E; [|discriminate|exact F]. cbn [removelast last_of name_toks app]. now rewrite Hw.
Qed.
Lemma parse_arg_ok fuel a : arg_ok a = true -> (List.length (arg_toks a) < fuel)%nat -> parse_ty fuel (arg_toks a) = Some (to_arg a).
Proof.
  revert a. induction fuel as [|fuel IH]; intros a Ha Hf; [lia|].
  (* names *)
  assert (NM : forall n, name_ok n = true -> (List.length (name_toks n) <= fuel)%nat -> parse_name_with (parse_ty fuel) (name_toks n) = Some (to_name n)).
  { intros n Hn Hl. apply parse_name_ok; auto. destruct n as [|pre id args| |]; auto. apply Forall_forall. intros b Hb. apply IH.
    - cbn in Hn. apply andb_prop in Hn as [_ Hn]. rewrite forallb_forall in Hn. now apply Hn.
    - cbn [name_toks] in Hl. rewrite app_length in Hl. cbn [List.length] in Hl.
      destruct args as [|a0 args]; [easy|]. cbn [List.length] in Hl. rewrite app_length in Hl. cbn [List.length] in Hl.
      enough (List.length (arg_toks b) <= List.length (sep_by 44 (map arg_toks (a0 :: args))))%nat by lia.
      apply sep_len, in_map, Hb. }
  destruct a as [b t]. cbn in Ha. apply andb_prop in Ha as [Hb Ht].
  assert (SP : split_by 61 None (arg_toks (RArg b t)) = match b with Some x => [[Ident x]; type_toks t] | None => [type_toks t] end).
  { assert (Ft : Flat (fun d => d =? 61) (type_toks t)) by (apply (Flat_one [44; 61]); [right; now left|apply type_flat]).
    assert (SO : sep_ok 61) by (repeat split; discriminate).
    destruct b as [x|]; cbn [arg_toks].
    - apply (split_sep 61 [[Ident x]; type_toks t]); [exact SO | discriminate|].
      constructor; [split; [discriminate|flats]|]. constructor; [split; [apply type_toks_ne|exact Ft]|constructor].
    - apply (split_sep 61 [type_toks t]); [exact SO | discriminate|]. constructor; [split; [apply type_toks_ne|exact Ft]|constructor]. }
  assert (LT : (List.length (type_toks t) <= fuel)%nat) by (destruct b; cbn in Hf; lia).
  set (bb := option_map (fun x => [Ident x]) b).
  assert (BP : match split_by 61 None (arg_toks (RArg b t)) with [b; t] => Some (Some b, t) | [t] => Some (None, t) | _ => None end = Some (bb, type_toks t)).
  { rewrite SP. now destruct b. }
  cbn [parse_ty]. destruct (arg_toks (RArg b t)) eqn:EA; [now apply arg_toks_ne in EA|]. rewrite <- EA in *. rewrite BP. cbn [obind fst snd].
  assert (ID : forall w n, In w ["mut"; "dyn"; "impl"]%string -> name_ok n = true -> eat (is_ident w) (name_toks n) = (false, name_toks n)).
  { intros w n Hw Hn. destruct n as [|[|p pre] id args|r i|f ps ret]; try reflexivity; cbn [name_toks flat_map app eat is_ident];
      cbn [name_ok forallb] in Hn.
    - apply andb_prop in Hn as [Hn _]. apply negb_true_iff in Hn. destruct (str_eqb id (lit w)) eqn:E; [|reflexivity].
      apply str_eqb_eq in E as ->. exfalso. destruct Hw as [<-|[<-|[<-|[]]]]; now cbv in Hn.
    - apply andb_prop in Hn as [Hn _]. apply andb_prop in Hn as [Hn _]. apply andb_prop in Hn as [Hn _]. apply negb_true_iff in Hn.
      destruct (str_eqb p (lit w)) eqn:E; [|reflexivity].
      apply str_eqb_eq in E as ->. exfalso. destruct Hw as [<-|[<-|[<-|[]]]]; now cbv in Hn.
    - apply andb_prop in Hn as [Hn _]. destruct (str_eqb f (lit w)) eqn:E; [|reflexivity].
      apply str_eqb_eq in E as ->. exfalso. destruct Hw as [<-|[<-|[<-|[]]]]; now cbv in Hn. }
  assert (PL : forall ns, ns <> [] -> forallb name_ok ns = true -> (List.length (sep_by 43 (map name_toks ns)) <= fuel)%nat ->
     all_some (parse_name_with (parse_ty fuel)) (split_by 43 None (sep_by 43 (map name_toks ns))) = Some (map to_name ns)).
  { intros ns Hne Hns Hl. rewrite split_sep.
    - apply all_some_map. apply Forall_forall. intros n Hn. rewrite forallb_forall in Hns. apply NM; auto.
      enough (List.length (name_toks n) <= List.length (sep_by 43 (map name_toks ns)))%nat by lia.
      apply sep_len, in_map, Hn.
    - repeat split; discriminate.
    - now destruct ns.
    - apply Forall_map, Forall_forall. intros n _. split; [apply name_toks_ne|]. apply (Flat_one [44; 61; 43]); [right; right; now left|apply name_flat]. }
  destruct t as [n|lt m n|ns]; cbn [type_ok] in Ht.
  - assert (E38 : eat (is_punct 38) (type_toks (RName n)) = (false, name_toks n)).
    { cbn [type_toks]. destruct n as [|[|p pre] id args|[|] i|f ps ret]; reflexivity. }
    rewrite E38. cbn [obind snd fst]. rewrite !ID by (cbn; auto).
    assert (NE : nonempty (name_toks n) = true) by (pose proof (name_toks_ne n); now destruct (name_toks n)).
    rewrite NE. cbn [negb andb orb]. cbn [type_toks] in LT.
    assert (P1 := PL [n] ltac:(discriminate)). cbn [forallb map sep_by] in P1. rewrite Ht in P1. rewrite P1 by auto. reflexivity.
  - apply andb_prop in Ht as [Hn HL]. cbn [type_toks] in LT |- *. cbn [eat is_punct N.eqb Pos.eqb].
    set (m0 := (if m then [Ident (lit "mut")] else []) ++ name_toks n).
    assert (LP : (match match lt with Some a => life a | None => [] end ++ m0 with
                  | a :: _ => if is_punct 39 a then let! l := parse_name_with (parse_ty fuel) (firstn 2 (match lt with Some a => life a | None => [] end ++ m0)) in
                                 Some (Some l, skipn 2 (match lt with Some a => life a | None => [] end ++ m0))
                              else Some (None, match lt with Some a => life a | None => [] end ++ m0)
                  | [] => Some (None, match lt with Some a => life a | None => [] end ++ m0) end)
                 = Some (option_map (fun a => mkName [] (life a) []) lt, m0)).
    { destruct lt as [a|]; [reflexivity|]. cbn [app option_map]. subst m0. destruct m; [reflexivity|]. cbn [app].
      destruct n as [|[|p pre] id args|[|] i|f ps ret]; try discriminate HL; reflexivity. }
    rewrite LP. cbn [obind snd fst].
    assert (EM : eat (is_ident "mut") m0 = (m, name_toks n)).
    { subst m0. destruct m; [reflexivity|]. cbn [app]. apply ID; cbn; auto. }
    rewrite EM. rewrite !ID by (cbn; auto).
    assert (NE : nonempty (name_toks n) = true) by (pose proof (name_toks_ne n); now destruct (name_toks n)).
    rewrite NE. cbn [negb andb orb].
    assert (P1 := PL [n] ltac:(discriminate)). cbn [forallb map sep_by] in P1. rewrite Hn in P1. rewrite P1; auto.
    cbn [List.length] in LT. rewrite !app_length in LT. lia.
  - apply andb_prop in Ht as [Hn Hne]. cbn [type_toks] in LT |- *. cbn [eat is_punct]. cbn [obind snd fst].
    change (eat (is_ident "dyn") (Ident (lit "dyn") :: sep_by 43 (map name_toks ns))) with (true, sep_by 43 (map name_toks ns)).
    assert (E1 : eat (is_ident "impl") (sep_by 43 (map name_toks ns)) = (false, sep_by 43 (map name_toks ns))).
    { destruct ns as [|n ns]; [discriminate|]. cbn in Hn. apply andb_prop in Hn as [Hn _].
      assert (I1 := ID "impl"%string n ltac:(cbn; auto) Hn). pose proof (name_toks_ne n) as NN. cbn [map].
      destruct (name_toks n) as [|x y]; [easy|].
      destruct ns; cbn [map sep_by app eat] in *; destruct (is_ident "impl" x); congruence. }
    cbv beta iota. rewrite E1.
    assert (NE : nonempty (sep_by 43 (map name_toks ns)) = true).
    { assert (sep_by 43 (map name_toks ns) <> []) as X. { apply sep_by_ne; [apply Forall_map, Forall_forall; intros; apply name_toks_ne|]. now destruct ns. }
      now destruct (sep_by 43 (map name_toks ns)). }
    rewrite NE. cbn [negb andb orb]. rewrite PL; auto. { now destruct ns. } cbn [List.length] in LT. lia.
Qed.
Lemma parse_type_ok t : type_ok t = true -> parse_type (type_toks t) = Some (to_arg (RArg None t)).
Proof. intros H. unfold parse_type. apply (parse_arg_ok _ (RArg None t)); cbn; [exact H|lia]. Qed.
Lemma parse_name_top n : name_ok n = true -> parse_name (name_toks n) = Some (to_name n).
Proof.
  intros Hn. unfold parse_name. apply parse_name_ok; auto. destruct n as [|pre id args| |]; auto. apply Forall_forall. intros b Hb.
  apply parse_arg_ok.
  - cbn in Hn. apply andb_prop in Hn as [_ Hn]. rewrite forallb_forall in Hn. now apply Hn.
  - cbn [name_toks]. rewrite app_length. cbn [List.length].
    destruct args as [|a0 args]; [easy|]. cbn [List.length]. rewrite app_length. cbn [List.length].
    enough (List.length (arg_toks b) <= List.length (sep_by 44 (map arg_toks (a0 :: args))))%nat by lia.
    apply sep_len, in_map, Hb.
Qed.

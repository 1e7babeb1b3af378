(** Lemmas about [quote_at]. *)
From Verif Require Import Base Tokens Quote SpecQuote QuoteProofs Translate SpecTranslate TranslateProofs QuoteAt.
From Coq Require Import Lia.
Local Open Scope nat_scope.

(** * What comes out in the end *)
Definition steady {A} (F : nat -> run A) : Prop := forall n m, n <= m -> F n <> Running -> F m = F n.
Definition lim {A} (F : nat -> run A) (a : A) : Prop := exists n, F n = Done a.
Lemma steady_const {A} (x : run A) : steady (fun _ => x).
Proof. intros n m _ _. reflexivity. Qed.
Lemma steady_bind {A B} (F : nat -> run A) (G : A -> nat -> run B) : steady F -> (forall a, steady (G a)) -> steady (fun n => rbind (F n) (fun a => G a n)).
Proof.
  intros HF HG n m L H. cbn in *. destruct (F n) as [a| |] eqn:E; cbn in *.
  - rewrite (HF n m L), E by (rewrite E; discriminate). cbn. now apply HG.
  - rewrite (HF n m L), E by (rewrite E; discriminate). reflexivity.
  - congruence.
Qed.
Lemma lim_const {A} (x : run A) a : lim (fun _ => x) a <-> x = Done a.
Proof. split; [intros [_ H]; exact H|intros H; exists 0; exact H]. Qed.
Lemma lim_bind {A B} (F : nat -> run A) (G : A -> nat -> run B) b : steady F -> (forall a, steady (G a)) -> (lim (fun n => rbind (F n) (fun a => G a n)) b <-> exists a, lim F a /\ lim (G a) b).
Proof.
  intros HF HG. split.
  - intros [n H]. cbn in H. apply rbind_done in H as (a & H1 & H2). exists a. split; eexists; eassumption.
  - intros (a & [n H1] & [m H2]). exists (n + m). cbn. rewrite (HF n (n + m)), H1 by (lia || (rewrite H1; discriminate)). cbn. rewrite (HG a m (n + m)) by (lia || (rewrite H2; discriminate)). exact H2.
Qed.
Lemma lim_unique {A} (F : nat -> run A) a b : steady F -> lim F a -> lim F b -> a = b.
Proof.
  intros HF [n H1] [m H2]. pose proof (HF n (n + m) ltac:(lia)) as A1. pose proof (HF m (n + m) ltac:(lia)) as A2. rewrite H1 in A1. rewrite H2 in A2.
  rewrite A1 in A2 by discriminate. specialize (A2 ltac:(discriminate)). congruence.
Qed.
Lemma steady_ext {A} (F G : nat -> run A) : (forall n, F n = G n) -> steady F -> steady G.
Proof. intros E H n m L R. rewrite <- !E in *. now apply H. Qed.
Lemma lim_ext {A} (F G : nat -> run A) a : (forall n, F n = G n) -> lim F a <-> lim G a.
Proof. intros E. split; intros [n H]; exists n; congruence. Qed.
Lemma lim_S {A} (F G : nat -> run A) a : steady G -> F 0 = Running -> (forall n, F (S n) = G n) -> (lim F a <-> lim G a).
Proof.
  intros HG H0 HS. split; intros [n H].
  - destruct n as [|n]; [congruence|]. exists n. now rewrite <- HS.
  - exists (S n). now rewrite HS.
Qed.
Lemma steady_S {A} (F G : nat -> run A) : steady G -> F 0 = Running -> (forall n, F (S n) = G n) -> steady F.
Proof.
  intros HG H0 HS n m L H. destruct n as [|n]; [congruence|]. destruct m as [|m]; [lia|]. rewrite !HS in *. apply HG; [lia|exact H].
Qed.
Lemma steady_translate d ts : steady (fun n => translate n d ts).
Proof. intros n m L H. now apply translate_more. Qed.

(** ** Everything is steady *)
Definition steadily (f : nat -> env -> list ttok -> run (list ptok)) : Prop := forall e ts, steady (fun n => f n e ts).
Ltac steadies := repeat first [apply steady_const | (apply steady_bind; [|intros ?]) | match goal with
  | H : steadily ?f |- steady (fun n => ?f n ?e ?ts) => apply H
  | |- steady (fun n => match ?x with _ => _ end) => destruct x
  | |- steady (fun n => if ?x then _ else _) => destruct x end ].
Lemma steady_all_done {A B} (f : nat -> A -> run B) l : (forall a, steady (fun n => f n a)) -> steady (fun n => all_done (f n) l).
Proof. intros H. induction l as [|a l IH]; cbn [all_done]; [apply steady_const|]. apply (steady_bind (fun n => f n a)); [apply H|]. intros b. apply (steady_bind (fun n => all_done (f n) l)); [exact IH|]. intros; apply steady_const. Qed.
Lemma steady_each f e x body s : steadily f -> forall vs first, steady (fun n => each_run (f n) e x body s first vs).
Proof.
  intros H. induction vs as [|v vs IH]; intros first; cbn [each_run]; [apply steady_const|]. cbv zeta.
  apply (steady_bind (fun n => match s with Between t => if first then Done [] else f n (bind_var x v e) [t] | _ => Done [] end)); [steadies|]. intros a.
  apply (steady_bind (fun n => match body with Some ts => f n (bind_var x v e) ts | None => orun (text_of v) end)); [steadies|]. intros b.
  apply (steady_bind (fun n => match s with After t => f n (bind_var x v e) [t] | _ => Done [] end)); [steadies|]. intros c.
  apply (steady_bind (fun n => each_run (f n) e x body s false vs)); [apply IH|]. intros; apply steady_const.
Qed.
Lemma steady_act f e a : steadily f -> steady (fun n => act_run (f n) e a).
Proof.
  intros H. destruct a as [w src b|src|src x b|src s|src x b s|src|ts|bf d b af]; cbn [act_run].
  - apply (steady_bind (fun _ => orun (eval e src))); [apply steady_const|]. intros []; steadies.
  - apply steady_const.
  - apply (steady_bind (fun _ => orun (eval e src))); [apply steady_const|]. intros [| |[]|]; steadies.
  - apply (steady_bind (fun _ => orun (eval e src))); [apply steady_const|]. intros v. apply (steady_bind (fun _ => orun (items v))); [apply steady_const|]. intros vs. now apply steady_each.
  - apply (steady_bind (fun _ => orun (eval e src))); [apply steady_const|]. intros v. apply (steady_bind (fun _ => orun (items v))); [apply steady_const|]. intros vs. now apply steady_each.
  - apply steady_const.
  - apply steady_const.
  - apply (steady_bind (fun n => f n e b)); [apply H|]. intros; apply steady_const.
Qed.
Lemma steady_top f e ts : steadily f -> steady (fun n => quote_top (f n) e ts).
Proof. intros H. unfold quote_top. destruct (top_rule ts) as [[t|]|]; steadies. Qed.
Section Steady.
Variable tr : nat -> dict -> list ptok -> run (list ptok).
Hypothesis Htr : forall d ts, steady (fun n => tr n d ts).
Lemma steady_block ts s : steady (fun n => do_block (tr n) ts s).
Proof.
  unfold do_block. destruct (active s); [|apply steady_const]. destruct (iter s) as [[vs x]|].
  - apply (steady_bind (fun n => all_done (fun v => tr n (dict_put (KVar x) v (dict_remove (KVar x) (hmap s))) (flat_map reread ts)) vs)); [|intros; apply steady_const].
    apply (steady_all_done (fun n v => tr n (dict_put (KVar x) v (dict_remove (KVar x) (hmap s))) (flat_map reread ts))). intros; apply Htr.
  - apply (steady_bind (fun n => tr n (hmap s) (flat_map reread ts))); [apply Htr|intros; apply steady_const].
Qed.
Lemma steady_command f e name args s : steadily f -> steady (fun n => command (f n) (quote_top (f n)) (tr n) e name args s).
Proof.
  intros H. unfold command. repeat match goal with |- steady (fun n => if ?b then _ else _) => destruct b end; try (destruct args; apply steady_const); try apply steady_const.
  destruct args as [ps|].
  - repeat match goal with |- steady (fun n => if str_eqb ?a ?b then _ else _) => destruct (str_eqb a b) end; try apply steady_const.
    + unfold do_define. destruct ps as [|[x| | | | |] [|t ps]]; try apply steady_const.
      destruct t as [| | | | |[] args]; destruct ps as [|c ps]; try apply steady_const;
        repeat match goal with
        | |- steady (fun n => match ?p with [] => _ | _ :: _ => _ end) => destruct p
        | |- steady (fun n => if op_is ?a ?b then _ else _) => destruct (op_is a b)
        | |- steady (fun n => match ident_list ?p with _ => _ end) => destruct (ident_list p)
        | |- steady (fun n => if active s then _ else _) => destruct (active s)
        | |- steady (fun n => rbind (f n ?e ?b) _) => apply (steady_bind (fun n => f n e b)); [apply H|intros ?]
        | |- steady (fun _ => ?x) => apply steady_const end.
    + unfold do_include. destruct (active s); [|apply steady_const]. apply (steady_bind (fun _ => orun (eval e ps))); [apply steady_const|]. intros v.
      destruct v as [[ts|] ?| | |]; try apply steady_const. apply (steady_bind (fun n => tr n (hmap s) ts)); [apply Htr|intros; apply steady_const].
    + unfold do_quote. destruct (active s); [|apply steady_const]. apply (steady_bind (fun n => quote_top (f n) e ps)); [now apply steady_top|]. intros ts.
      apply (steady_bind (fun n => tr n (hmap s) ts)); [apply Htr|intros; apply steady_const].
  - apply steady_const.
Qed.
Lemma steady_commands f e : steadily f -> forall cs s, steady (fun n => commands (f n) (quote_top (f n)) (tr n) e cs s).
Proof.
  intros H. induction cs as [|c cs IH]; intros s; cbn [commands]; [apply steady_const|]. destruct (ended s); [apply steady_const|].
  apply (steady_bind (fun n => match c with Block ts => do_block (tr n) ts s | Cmd name args => command (f n) (quote_top (f n)) (tr n) e name args s end)).
  - destruct c; [apply steady_block|now apply steady_command].
  - intros p. apply (steady_bind (fun n => commands (f n) (quote_top (f n)) (tr n) e cs (snd p))); [apply IH|intros; apply steady_const].
Qed.
Lemma steady_at f e a : steadily f -> steady (fun n => at_run (f n) (tr n) e a).
Proof.
  intros H. destruct a as [ts|ps ts|cs]; cbn [at_run]; [apply steady_const| |].
  - apply (steady_bind (fun _ => orun (bind_params e [] ps))); [apply steady_const|]. intros p. apply (steady_bind (fun n => tr n (snd p) (flat_map reread ts))); [apply Htr|intros; apply steady_const].
  - apply (steady_bind (fun n => commands (f n) (quote_top (f n)) (tr n) e cs start)); [now apply steady_commands|intros; apply steady_const].
Qed.
Lemma steady_step f e ts : steadily f -> steady (fun n => step_at (f n) (tr n) e ts).
Proof.
  intros H. unfold step_at. destruct (leading ts) as [ids r]. destruct (at_rule r) as [[a rest]|].
  - apply (steady_bind (fun n => at_run (f n) (tr n) e a)); [now apply steady_at|]. intros p. apply (steady_bind (fun n => f n (fst p) rest)); [apply H|intros; apply steady_const].
  - destruct (first_rule rules r) as [[a rest]|].
    + apply (steady_bind (fun n => act_run (f n) e a)); [now apply steady_act|]. intros p. apply (steady_bind (fun n => f n e rest)); [apply H|intros; apply steady_const].
    + destruct r as [|t r]; [apply steady_const|]. destruct ts as [|t' ts]; [apply steady_const|]. apply (steady_bind (fun _ => orun (plain t'))); [apply steady_const|]. intros p.
      apply (steady_bind (fun n => f n e ts)); [apply H|intros; apply steady_const].
Qed.
End Steady.
Lemma append_steady : steadily append.
Proof.
  assert (A : forall n m, n <= m -> forall e ts, append n e ts <> Running -> append m e ts = append n e ts).
  { induction n as [|n IH]; intros m L e ts H; [cbn in H; congruence|]. destruct m as [|m]; [lia|].
    pose (f k := match k with O => append n | S _ => append m end). pose (tr k := match k with O => translate n | S _ => translate m end).
    assert (Hf : steadily f).
    { intros e' ts' [|a] [|b] La Ra; try reflexivity; try lia. apply IH; [lia|exact Ra]. }
    assert (Ht : forall d ts, steady (fun k => tr k d ts)).
    { intros d ts' [|a] [|b] La Ra; try reflexivity; try lia. apply translate_more; [lia|exact Ra]. }
    exact (steady_step tr Ht f e ts Hf 0 1 ltac:(lia) H). }
  intros e ts n m L H. now apply A.
Qed.

(** * What [quote!] gives *)
Definition gives (e : env) (ts : list ttok) (out : list ptok) : Prop := lim (fun n => append n e ts) out.
Definition act_gives (e : env) (a : action) (out : list ptok) : Prop := lim (fun n => act_run (append n) e a) out.
Definition at_gives (e : env) (a : atform) (p : env * list ptok) : Prop := lim (fun n => at_run (append n) (translate n) e a) p.
Definition yields (d : dict) (ts : list ptok) (out : list ptok) : Prop := lim (fun n => translate n d ts) out.
Lemma gives_step e ts out : gives e ts out <-> lim (fun n => step_at (append n) (translate n) e ts) out.
Proof. apply lim_S; [apply (steady_step translate steady_translate append), append_steady|reflexivity|reflexivity]. Qed.
Lemma gives_unique e ts a b : gives e ts a -> gives e ts b -> a = b.
Proof. apply lim_unique, append_steady. Qed.
Lemma lim_done {A} (x a : A) : lim (fun _ => Done x) a <-> x = a.
Proof. rewrite lim_const. split; congruence. Qed.
Lemma lim_pure {A B} (F : nat -> run A) (g : A -> B) b : steady F -> (lim (fun n => rbind (F n) (fun a => Done (g a))) b <-> exists a, lim F a /\ b = g a).
Proof.
  intros H. rewrite (lim_bind F (fun a _ => Done (g a))) by (assumption || (intros; apply steady_const)). split; intros (a & H1 & H2); exists a; (split; [exact H1|]); [apply lim_done in H2; auto|apply lim_done; auto].
Qed.
Lemma lim_pair {A B C} (F : nat -> run A) (G : A -> nat -> run B) (h : A -> B -> C) c : steady F -> (forall a, steady (G a)) ->
  (lim (fun n => rbind (F n) (fun a => rbind (G a n) (fun b => Done (h a b)))) c <-> exists a b, lim F a /\ lim (G a) b /\ c = h a b).
Proof.
  intros HF HG. rewrite (lim_bind F (fun a n => rbind (G a n) (fun b => Done (h a b)))); [|exact HF|intros a; apply (steady_bind (G a)); [apply HG|intros; apply steady_const]]. split.
  - intros (a & H1 & H2). apply lim_pure in H2 as (b & H2 & E); [|apply HG]. eauto.
  - intros (a & b & H1 & H2 & E). exists a. split; [exact H1|]. apply lim_pure; [apply HG|eauto].
Qed.
Lemma gives_nil e out : gives e [] out <-> out = [].
Proof. rewrite gives_step. unfold step_at. cbn [leading at_rule first_rule rules]. rewrite (lim_ext _ (fun _ => Done [])) by reflexivity. rewrite lim_done. split; congruence. Qed.
(** A form with an at sign. *)
Lemma gives_at e t r a rest out : not_id t = true -> at_rule (t :: r) = Some (a, rest) ->
  (gives e (t :: r) out <-> exists p b, at_gives e a p /\ gives (fst p) rest b /\ out = snd p ++ b).
Proof.
  intros N R. rewrite gives_step. unfold step_at. rewrite leading_not_id, R by exact N. cbn [map app].
  apply (lim_pair (fun n => at_run (append n) (translate n) e a) (fun p n => append n (fst p) rest) (fun p b => snd p ++ b)).
  - apply (steady_at translate steady_translate append), append_steady.
  - intros p. apply append_steady.
Qed.
(** A rule applies. *)
Lemma gives_rule e t r a rest out : not_id t = true -> at_rule (t :: r) = None -> first_rule rules (t :: r) = Some (a, rest) ->
  (gives e (t :: r) out <-> exists x b, act_gives e a x /\ gives e rest b /\ out = x ++ b).
Proof.
  intros N M R. rewrite gives_step. unfold step_at. rewrite leading_not_id, M, R by exact N. cbn [map app].
  apply (lim_pair (fun n => act_run (append n) e a) (fun _ n => append n e rest) (fun x b => x ++ b)).
  - apply (steady_act append), append_steady.
  - intros _. apply append_steady.
Qed.
Lemma lim_orun {A} (x : option A) a : lim (fun _ => orun x) a <-> x = Some a.
Proof. rewrite lim_const. destruct x; cbn; split; congruence. Qed.
Lemma gives_plain e t r out : not_id t = true -> at_rule (t :: r) = None -> first_rule rules (t :: r) = None ->
  (gives e (t :: r) out <-> exists x b, plain t = Some x /\ gives e r b /\ out = x ++ b).
Proof.
  intros N M R. rewrite gives_step. unfold step_at. rewrite leading_not_id, M, R by exact N.
  rewrite (lim_pair (fun _ => orun (plain t)) (fun _ n => append n e r) (fun x b => x ++ b)); [|apply steady_const|intros _; apply append_steady].
  split; intros (x & b & H1 & H2); exists x, b; (split; [|exact H2]); now apply lim_orun.
Qed.
Lemma gives_id e s r out : gives e (TId s :: r) out <-> exists b, gives e r b /\ out = PId s :: b.
Proof.
  rewrite gives_step. unfold step_at. cbn [leading]. destruct (leading r) as [ids r'] eqn:E. cbn [fst snd].
  assert (P : forall P Q, (lim P out <-> exists b, lim Q b /\ out = PId s :: b) -> (forall b, gives e r b <-> lim Q b) -> (lim P out <-> exists b, gives e r b /\ out = PId s :: b)).
  { intros P Q H1 H2. rewrite H1. split; intros (b & H & ->); exists b; split; auto; now apply H2. }
  destruct (at_rule r') as [[a rest]|] eqn:M.
  { eapply P; [|intros b; rewrite gives_step; unfold step_at; rewrite E, M; reflexivity]. cbn [map app].
    rewrite (lim_pair (fun n => at_run (append n) (translate n) e a) (fun p n => append n (fst p) rest) (fun p b => PId s :: map PId ids ++ snd p ++ b)).
    2: apply (steady_at translate steady_translate append), append_steady. 2: intros p; apply append_steady. split.
    - intros (p & b & H1 & H2 & ->). exists (map PId ids ++ snd p ++ b). split; [|reflexivity].
      apply (lim_pair (fun n => at_run (append n) (translate n) e a) (fun p n => append n (fst p) rest) (fun p b => map PId ids ++ snd p ++ b)); [apply (steady_at translate steady_translate append), append_steady|intros ?; apply append_steady|eauto].
    - intros (b' & H & ->). apply (lim_pair (fun n => at_run (append n) (translate n) e a) (fun p n => append n (fst p) rest) (fun p b => map PId ids ++ snd p ++ b)) in H as (p & b & H1 & H2 & ->); [|apply (steady_at translate steady_translate append), append_steady|intros ?; apply append_steady].
      exists p, b. auto. }
  destruct (first_rule rules r') as [[a rest]|] eqn:R.
  { eapply P; [|intros b; rewrite gives_step; unfold step_at; rewrite E, M, R; reflexivity]. cbn [map app].
    rewrite (lim_pair (fun n => act_run (append n) e a) (fun _ n => append n e rest) (fun x b => PId s :: map PId ids ++ x ++ b)).
    2: apply (steady_act append), append_steady. 2: intros p; apply append_steady. split.
    - intros (x & b & H1 & H2 & ->). exists (map PId ids ++ x ++ b). split; [|reflexivity].
      apply (lim_pair (fun n => act_run (append n) e a) (fun _ n => append n e rest) (fun x b => map PId ids ++ x ++ b)); [apply (steady_act append), append_steady|intros ?; apply append_steady|eauto].
    - intros (b' & H & ->). apply (lim_pair (fun n => act_run (append n) e a) (fun _ n => append n e rest) (fun x b => map PId ids ++ x ++ b)) in H as (x & b & H1 & H2 & ->); [|apply (steady_act append), append_steady|intros ?; apply append_steady].
      exists x, b. auto. }
  destruct r' as [|t r'].
  { eapply P; [|intros b; rewrite gives_step; unfold step_at; rewrite E, M, R; reflexivity]. cbn [map]. rewrite lim_done. split.
    - intros <-. exists (map PId ids). split; [now apply lim_done|reflexivity].
    - intros (b & H & ->). apply lim_done in H. congruence. }
  cbn [plain orun]. rewrite (lim_ext _ (fun n => rbind (append n e r) (fun b => Done (PId s :: b)))) by reflexivity. apply lim_pure, append_steady.
Qed.

(** ** Tokens and groups *)
Lemma at_no_hash t r : op_is "#" t = false -> at_rule (t :: r) = None.
Proof. intros H. unfold at_rule. destruct r as [|[| | | | |[| | |] [|a [|[| | | | |] ?]]] rest]; try reflexivity. now rewrite H. Qed.
Lemma act_tokens e ts out : act_gives e (ATokens ts) out <-> out = ts.
Proof. unfold act_gives. cbn [act_run]. rewrite lim_done. split; congruence. Qed.
Lemma act_group e bf d b af out : act_gives e (AGroup bf d b af) out <-> exists o, gives e b o /\ out = bf ++ [PGrp d o] ++ af.
Proof. unfold act_gives. cbn [act_run]. apply (lim_pure (fun n => append n e b) (fun ts => bf ++ [PGrp d ts] ++ af)), append_steady. Qed.
Lemma gives_op_plain e o r out : is_op o = true -> op_is "#" (TOp o) = false -> op_is "!" (TOp o) = false ->
  (gives e (TOp o :: r) out <-> exists b, gives e r b /\ out = gen_punct o ++ b).
Proof.
  intros K H1 H2. rewrite (gives_rule e (TOp o) r (ATokens (gen_punct o)) r); [|reflexivity|now apply at_no_hash|].
  - split; [intros (x & b & Hx & Hb & ->)|intros (b & Hb & ->)]; [apply act_tokens in Hx as ->; eauto|]. exists (gen_punct o), b. rewrite act_tokens. auto.
  - rewrite no_hash_rules by auto. cbn [first_rule]. unfold rule_bang_semi, rule_bang, rule_group_semi, rule_group, rule_op. rewrite H2, (op_rules_ok o K). cbn [group_of obind].
    destruct r; reflexivity.
Qed.
Lemma gives_group e d b r out : d <> NoDelim -> (gives e (TGrp d b :: r) out <-> exists o c, gives e b o /\ gives e r c /\ out = PGrp d o :: c).
Proof.
  intros Hd. assert (G : group_of (TGrp d b) = Some (d, b)) by (destruct d; try reflexivity; now contradict Hd).
  destruct (ends_op ";" r) as [r'|] eqn:E.
  - rewrite (gives_rule e (TGrp d b) r (AGroup [] d b (gen_punct (lit ";"))) r'); [|reflexivity|now apply at_no_hash|].
    + apply ends_op_eq in E. subst r. split.
      * intros (x & c & Hx & Hc & ->). apply act_group in Hx as (o & Ho & ->). exists o, (gen_punct (lit ";") ++ c). split; [exact Ho|]. split; [|reflexivity].
        change (op ";") with (TOp (lit ";")). apply gives_op_plain; try reflexivity. eauto.
      * intros (o & c & Ho & Hc & ->). change (op ";") with (TOp (lit ";")) in Hc. apply gives_op_plain in Hc as (c' & Hc & ->); try reflexivity.
        exists ([PGrp d o] ++ gen_punct (lit ";")), c'. split; [apply act_group; exists o; auto|]. split; [exact Hc|reflexivity].
    + rewrite no_hash_rules by reflexivity. cbn [first_rule]. unfold rule_bang_semi, rule_bang, rule_group_semi. rewrite G, E. cbn [obind op_is fst snd]. destruct r; reflexivity.
  - rewrite (gives_rule e (TGrp d b) r (AGroup [] d b []) r); [|reflexivity|now apply at_no_hash|].
    + split.
      * intros (x & c & Hx & Hc & ->). apply act_group in Hx as (o & Ho & ->). exists o, c. auto.
      * intros (o & c & Ho & Hc & ->). exists [PGrp d o], c. split; [apply act_group; exists o; auto|auto].
    + rewrite no_hash_rules by reflexivity. cbn [first_rule]. unfold rule_bang_semi, rule_bang, rule_group_semi, rule_group. rewrite G, E. cbn [obind op_is fst snd]. destruct r; reflexivity.
Qed.
Lemma gives_bang e r out : gives e (op "!" :: r) out <-> exists b, gives e r b /\ out = bang :: b.
Proof.
  assert (T : forall rest, first_rule rules (op "!" :: rest) = Some (ATokens [bang], rest) -> (gives e (op "!" :: rest) out <-> exists b, gives e rest b /\ out = bang :: b)).
  { intros rest R. rewrite (gives_rule e (op "!") rest (ATokens [bang]) rest); [|reflexivity|now apply at_no_hash|exact R].
    split; [intros (x & b & Hx & Hb & ->); apply act_tokens in Hx as ->; eauto|]. intros (b & Hb & ->). exists [bang], b. rewrite act_tokens. auto. }
  destruct r as [|g r]; [now apply T|]. destruct (group_of g) as [[d b]|] eqn:G.
  - assert (Eg : g = TGrp d b /\ d <> NoDelim).
    { destruct g as [| | | | |d' b']; try discriminate. destruct d'; try discriminate; injection G as <- <-; split; congruence. }
    destruct Eg as [-> Hd]. destruct (ends_op ";" r) as [r'|] eqn:E.
    + rewrite (gives_rule e (op "!") (TGrp d b :: r) (AGroup (gen_punct (lit "!")) d b (gen_punct (lit ";"))) r'); [|reflexivity|now apply at_no_hash|].
      * apply ends_op_eq in E. subst r. split.
        -- intros (x & c & Hx & Hc & ->). apply act_group in Hx as (o & Ho & ->). exists (PGrp d o :: gen_punct (lit ";") ++ c). split; [|reflexivity].
           apply gives_group; [exact Hd|]. exists o, (gen_punct (lit ";") ++ c). split; [exact Ho|]. split; [|reflexivity]. change (op ";") with (TOp (lit ";")). apply gives_op_plain; try reflexivity. eauto.
        -- intros (b' & Hb & ->). apply gives_group in Hb as (o & c & Ho & Hc & ->); [|exact Hd]. change (op ";") with (TOp (lit ";")) in Hc. apply gives_op_plain in Hc as (c' & Hc & ->); try reflexivity.
           exists (gen_punct (lit "!") ++ [PGrp d o] ++ gen_punct (lit ";")), c'. split; [apply act_group; exists o; auto|]. split; [exact Hc|reflexivity].
      * rewrite no_hash_rules by reflexivity. cbn [first_rule]. unfold rule_bang_semi. rewrite op_is_refl, G, E. reflexivity.
    + rewrite (gives_rule e (op "!") (TGrp d b :: r) (AGroup (gen_punct (lit "!")) d b []) r); [|reflexivity|now apply at_no_hash|].
      * split.
        -- intros (x & c & Hx & Hc & ->). apply act_group in Hx as (o & Ho & ->). exists (PGrp d o :: c). split; [|reflexivity]. apply gives_group; [exact Hd|]. exists o, c. auto.
        -- intros (b' & Hb & ->). apply gives_group in Hb as (o & c & Ho & Hc & ->); [|exact Hd]. exists (gen_punct (lit "!") ++ [PGrp d o]), c. split; [apply act_group; exists o; auto|auto].
      * rewrite no_hash_rules by reflexivity. cbn [first_rule]. unfold rule_bang_semi, rule_bang. rewrite op_is_refl, G, E. reflexivity.
  - apply T. rewrite no_hash_rules by reflexivity. cbn [first_rule]. unfold rule_bang_semi, rule_bang, rule_group_semi, rule_group. rewrite op_is_refl, G. cbn [obind]. reflexivity.
Qed.
Lemma gives_token e t r out : plain_tok t = true -> (gives e (t :: r) out <-> exists x b, plain t = Some x /\ gives e r b /\ out = x ++ b).
Proof.
  destruct t as [s| |o|raw|a|d b]; intros H; [| | | | |discriminate].
  - rewrite gives_id. cbn [plain]. split; [intros (b & Hb & ->); exists [PId s], b; auto|intros (x & b & [= <-] & Hb & ->); eauto].
  - apply gives_plain; [reflexivity|now apply at_no_hash|]. rewrite no_hash_rules by reflexivity. destruct r; reflexivity.
  - cbn [SpecQuote.plain_tok] in H. apply andb_prop in H as [H1 H2]. rewrite negb_true_iff in H2. cbn [plain].
    assert (A : gives e (TOp o :: r) out <-> exists b, gives e r b /\ out = gen_punct o ++ b).
    { destruct (str_eqb o (lit "!")) eqn:E; [apply str_eqb_eq in E; subst o; apply gives_bang|]. now apply gives_op_plain. }
    rewrite A. split; [intros (b & Hb & ->); exists (gen_punct o), b; auto|intros (x & b & [= <-] & Hb & ->); eauto].
  - apply gives_plain; [reflexivity|now apply at_no_hash|]. rewrite no_hash_rules by reflexivity. destruct r; reflexivity.
  - apply gives_plain; [reflexivity|now apply at_no_hash|]. rewrite no_hash_rules by reflexivity. destruct r; reflexivity.
Qed.

(** ** Which rule the forms are taken by *)
Lemma at_source s more rest : at_rule (op "#" :: TGrp Paren (source_toks s ++ more) :: rest) = None.
Proof. unfold source_toks. cbn [app at_rule]. destruct s; reflexivity. Qed.
Lemma rule_when (want : bool) s b r : source_ok s = true -> b <> [] ->
  first_rule rules (op "#" :: TGrp Paren (source_toks s ++ op ":" :: b) :: op (if want then "+" else "-") :: r) = Some (ABool want (source_expr s) b, r).
Proof.
  intros Hs Hb. forms. rewrite (pounded_source s (op ":" :: b)) by auto. cbn [obind]. rewrite colon_ok by auto.
  cbn [obind]. destruct want; rewrite ?ends_refl; [reflexivity|]. rewrite ends_other by reflexivity. reflexivity.
Qed.
Lemma rule_opt_ok s r : source_ok s = true -> first_rule rules (op "#" :: TGrp Paren (source_toks s ++ []) :: op "?" :: r) = Some (AOpt (source_expr s), r).
Proof. intros Hs. forms. rewrite (pounded_source s []) by auto. cbn [obind colon_body]. rewrite ends_refl. reflexivity. Qed.
Lemma rule_opt_as_ok s x b r : source_ok s = true -> b <> [] ->
  first_rule rules (op "#" :: TGrp Paren (source_toks s ++ binder_toks x ++ b) :: op "?" :: r) = Some (AOptAs (source_expr s) x b, r).
Proof.
  intros Hs Hb. forms. rewrite (pounded_source s (binder_toks x ++ b)) by auto. cbn [obind]. rewrite binder_ok by auto.
  unfold binder_toks. cbn [app]. rewrite colon_ok by discriminate. cbn [obind fst snd]. rewrite (ends_other "+"), (ends_other "-"), ends_refl by reflexivity. reflexivity.
Qed.
Lemma rule_each_ok s r : source_ok s = true -> first_rule rules (op "#" :: TGrp Paren (source_toks s ++ []) :: op "*" :: r) = Some (AEach (source_expr s) NoSep, r).
Proof. intros Hs. forms. rewrite (pounded_source s []) by auto. cbn [obind colon_body binder_body]. rewrite (ends_other "?"), ends_refl by reflexivity. reflexivity. Qed.
Lemma rule_each_between_ok s t r : source_ok s = true -> op_is "?" t = false -> op_is "*" t = false ->
  first_rule rules (op "#" :: TGrp Paren (source_toks s ++ []) :: t :: op "*" :: r) = Some (AEach (source_expr s) (Between t), r).
Proof.
  intros Hs H1 H2. forms. rewrite (pounded_source s []) by auto. cbn [obind colon_body binder_body]. rewrite (ends_other "?"), (ends_other "*" t), ends_refl by auto. reflexivity.
Qed.
Lemma rule_each_after_ok s t r : source_ok s = true -> first_rule rules (op "#" :: TGrp Paren (source_toks s ++ [t]) :: op "*" :: r) = Some (AEach (source_expr s) (After t), r).
Proof. intros Hs. forms. rewrite (pounded_source s [t]) by auto. cbn [obind colon_body binder_body]. rewrite ends_refl by auto. reflexivity. Qed.
Lemma rule_each_as_ok s x b r : source_ok s = true -> b <> [] ->
  first_rule rules (op "#" :: TGrp Paren (source_toks s ++ binder_toks x ++ b) :: op "*" :: r) = Some (AEachAs (source_expr s) x b NoSep, r).
Proof.
  intros Hs Hb. forms. rewrite (pounded_source s (binder_toks x ++ b)) by auto. cbn [obind]. rewrite binder_ok by auto.
  unfold binder_toks. cbn [app]. rewrite colon_ok by discriminate. cbn [obind fst snd]. rewrite (ends_other "+"), (ends_other "-"), (ends_other "?"), ends_refl by reflexivity.
  destruct b; [easy|]. reflexivity.
Qed.
Lemma rule_each_as_between_ok s x b t r : source_ok s = true -> b <> [] ->
  op_is "?" t = false -> op_is "*" t = false -> op_is "+" t = false -> op_is "-" t = false ->
  first_rule rules (op "#" :: TGrp Paren (source_toks s ++ binder_toks x ++ b) :: t :: op "*" :: r) = Some (AEachAs (source_expr s) x b (Between t), r).
Proof.
  intros Hs Hb H1 H2 H3 H4. forms. rewrite (pounded_source s (binder_toks x ++ b)) by auto. cbn [obind]. rewrite binder_ok by auto.
  unfold binder_toks. cbn [app]. rewrite colon_ok by discriminate. cbn [obind fst snd]. rewrite (ends_other "+"), (ends_other "-"), (ends_other "?"), (ends_other "*" t), ends_refl by auto.
  destruct b; [easy|]. reflexivity.
Qed.
Lemma rule_expr_ok x r : expr_ok x = true -> first_rule rules (op "#" :: TGrp Paren x :: r) = Some (AText x, r).
Proof. intros H. forms. rewrite (pounded_expr x r H). cbn [obind]. unfold rule_expr. rewrite (begins_ok x H). reflexivity. Qed.
Lemma at_expr x r : expr_ok x = true -> at_rule (op "#" :: TGrp Paren x :: r) = None.
Proof.
  intros H. unfold at_rule. destruct x as [|a [|[| | | | |] x]]; try reflexivity. destruct (op_is "@" a) eqn:E; [|now rewrite andb_false_r]. apply op_is_eq in E. subst a. discriminate H.
Qed.

(** ** Actions *)
Lemma act_source e src (G : value -> nat -> run (list ptok)) out : (forall v, steady (G v)) ->
  (lim (fun n => rbind (orun (eval e src)) (fun v => G v n)) out <-> exists v, eval e src = Some v /\ lim (G v) out).
Proof.
  intros HG. rewrite (lim_bind (fun _ => orun (eval e src)) G); [|apply steady_const|exact HG]. split; intros (v & H1 & H2); exists v; (split; [|exact H2]); now apply lim_orun.
Qed.
Lemma act_text e src out : act_gives e (AText src) out <-> exists v, eval e src = Some v /\ text_of v = Some out.
Proof.
  unfold act_gives. cbn [act_run]. rewrite (act_source e src (fun v _ => orun (text_of v))) by (intros; apply steady_const).
  split; intros (v & H1 & H2); exists v; (split; [exact H1|]); now apply lim_orun.
Qed.
Lemma act_bool e w src b out : act_gives e (ABool w src b) out <-> exists c, eval e src = Some (VBool c) /\ (if Bool.eqb c w then gives e b out else out = []).
Proof.
  unfold act_gives. cbn [act_run]. rewrite (act_source e src (fun v n => match v with VBool c => if Bool.eqb c w then append n e b else Done [] | _ => Panicked end)).
  2:{ intros []; try apply steady_const. destruct (Bool.eqb _ _); [apply append_steady|apply steady_const]. }
  split.
  - intros (v & H1 & H2). destruct v as [|c| |]; try (destruct H2 as [n H2]; discriminate). exists c. split; [exact H1|]. destruct (Bool.eqb c w); [exact H2|]. apply lim_done in H2. auto.
  - intros (c & H1 & H2). exists (VBool c). split; [exact H1|]. destruct (Bool.eqb c w); [exact H2|]. apply lim_done. auto.
Qed.
Lemma act_opt e src out : act_gives e (AOpt src) out <-> exists o, eval e src = Some (VOpt o) /\ match o with Some v => text_of v = Some out | None => out = [] end.
Proof.
  unfold act_gives. cbn [act_run]. rewrite (act_source e src (fun v _ => match v with VOpt (Some w) => orun (text_of w) | VOpt None => Done [] | _ => Panicked end)) by (intros; apply steady_const).
  split.
  - intros (v & H1 & H2). destruct v as [| |[v|]|]; try (destruct H2 as [n H2]; discriminate).
    + exists (Some v). split; [exact H1|]. now apply lim_orun.
    + exists None. split; [exact H1|]. apply lim_done in H2. auto.
  - intros ([v|] & H1 & H2); eexists; (split; [exact H1|]); [now apply lim_orun|]. apply lim_done. auto.
Qed.
Lemma act_opt_as e src x b out : act_gives e (AOptAs src x b) out <-> exists o, eval e src = Some (VOpt o) /\ match o with Some v => gives (bind_var x v e) b out | None => out = [] end.
Proof.
  unfold act_gives. cbn [act_run]. rewrite (act_source e src (fun v n => match v with VOpt (Some w) => append n (bind_var x w e) b | VOpt None => Done [] | _ => Panicked end)).
  2:{ intros [| |[]|]; try apply steady_const. apply append_steady. }
  split.
  - intros (v & H1 & H2). destruct v as [| |[v|]|]; try (destruct H2 as [n H2]; discriminate).
    + exists (Some v). split; [exact H1|exact H2].
    + exists None. split; [exact H1|]. apply lim_done in H2. auto.
  - intros ([v|] & H1 & H2); eexists; (split; [exact H1|]); [exact H2|]. apply lim_done. auto.
Qed.
(** ** Loops *)
Definition elem (e : env) (x : option str) (body : option (list ttok)) (v : value) (o : list ptok) : Prop :=
  match body with Some ts => gives (bind_var x v e) ts o | None => text_of v = Some o end.
Definition each_gives (e : env) (x : option str) (body : option (list ttok)) (s : sep) (first : bool) (vs : list value) (out : list ptok) : Prop :=
  lim (fun n => each_run (append n) e x body s first vs) out.
Lemma gives_sep e p out : plain_tok p = true -> (gives e [p] out <-> plain p = Some out).
Proof.
  intros H. rewrite gives_token by exact H. split.
  - intros (x & b & H1 & H2 & ->). apply gives_nil in H2 as ->. now rewrite app_nil_r.
  - intros H1. exists out, []. rewrite gives_nil, app_nil_r. auto.
Qed.
Definition sep_plain (s : sep) : Prop := match s with NoSep => True | Between t | After t => plain_tok t = true end.
Lemma each_gives_cons e x body s first v vs out : sep_plain s ->
  (each_gives e x body s first (v :: vs) out <->
   exists a b c d, match s with Between t => if first then a = [] else plain t = Some a | _ => a = [] end /\ elem e x body v b /\
     match s with After t => plain t = Some c | _ => c = [] end /\ each_gives e x body s false vs d /\ out = a ++ b ++ c ++ d).
Proof.
  intros Hs. unfold each_gives. cbn [each_run]. cbv zeta.
  set (A := fun n => match s with Between t => if first then Done [] else append n (bind_var x v e) [t] | _ => Done [] end).
  set (B := fun n => match body with Some ts => append n (bind_var x v e) ts | None => orun (text_of v) end).
  set (C := fun n => match s with After t => append n (bind_var x v e) [t] | _ => Done [] end).
  set (D := fun n => each_run (append n) e x body s false vs).
  assert (SA : steady A) by (unfold A; destruct s; try apply steady_const; destruct first; [apply steady_const|apply append_steady]).
  assert (SB : steady B) by (unfold B; destruct body; [apply append_steady|apply steady_const]).
  assert (SC : steady C) by (unfold C; destruct s; try apply steady_const; apply append_steady).
  assert (SD : steady D) by (apply (steady_each append), append_steady).
  assert (LA : forall a, lim A a <-> match s with Between t => if first then a = [] else plain t = Some a | _ => a = [] end).
  { intros a. unfold A. destruct s as [|t|t]; try (rewrite lim_done; split; congruence). destruct first; [rewrite lim_done; split; congruence|]. exact (gives_sep _ t a Hs). }
  assert (LB : forall b, lim B b <-> elem e x body v b) by (intros b; unfold B, elem; destruct body; [reflexivity|apply lim_orun]).
  assert (LC : forall a, lim C a <-> match s with After t => plain t = Some a | _ => a = [] end).
  { intros a. unfold C. destruct s as [|t|t]; try (rewrite lim_done; split; congruence). exact (gives_sep _ t a Hs). }
  change (lim (fun n => rbind (A n) (fun a => rbind (B n) (fun b => rbind (C n) (fun c => rbind (D n) (fun d => Done (a ++ b ++ c ++ d)))))) out <->
   exists a b c d, match s with Between t => if first then a = [] else plain t = Some a | _ => a = [] end /\ elem e x body v b /\
     match s with After t => plain t = Some c | _ => c = [] end /\ lim D d /\ out = a ++ b ++ c ++ d).
  rewrite (lim_bind A (fun a n => rbind (B n) (fun b => rbind (C n) (fun c => rbind (D n) (fun d => Done (a ++ b ++ c ++ d)))))); [|exact SA|].
  2:{ intros a. apply (steady_bind B); [exact SB|]. intros b. apply (steady_bind C); [exact SC|]. intros c. apply (steady_bind D); [exact SD|]. intros; apply steady_const. }
  assert (L2 : forall a, lim (fun n => rbind (B n) (fun b => rbind (C n) (fun c => rbind (D n) (fun d => Done (a ++ b ++ c ++ d))))) out <-> exists b c d, lim B b /\ lim C c /\ lim D d /\ out = a ++ b ++ c ++ d).
  { intros a. rewrite (lim_bind B (fun b n => rbind (C n) (fun c => rbind (D n) (fun d => Done (a ++ b ++ c ++ d))))); [|exact SB|].
    2:{ intros b. apply (steady_bind C); [exact SC|]. intros c. apply (steady_bind D); [exact SD|]. intros; apply steady_const. }
    split.
    - intros (b & Hb & H). apply (lim_pair C (fun _ => D) (fun c d => a ++ b ++ c ++ d)) in H as (c & d & H1 & H2 & H3); [|exact SC|intros; exact SD]. exists b, c, d. auto.
    - intros (b & c & d & H1 & H2 & H3 & H4). exists b. split; [exact H1|]. apply (lim_pair C (fun _ => D) (fun c d => a ++ b ++ c ++ d)); [exact SC|intros; exact SD|]. exists c, d. auto. }
  split.
  - intros (a & Ha & H). apply L2 in H as (b & c & d & Hb & Hc & Hd & ->). exists a, b, c, d. rewrite <- LA, <- LB, <- LC. auto.
  - intros (a & b & c & d & Ha & Hb & Hc & Hd & ->). exists a. rewrite <- LA in Ha. rewrite <- LB in Hb. rewrite <- LC in Hc. split; [exact Ha|]. apply L2. exists b, c, d. auto.
Qed.
Lemma each_gives_nil e x body s first out : each_gives e x body s first [] out <-> out = [].
Proof. unfold each_gives. cbn [each_run]. rewrite lim_done. split; congruence. Qed.
Lemma each_gives_joined e x body s vs out : sep_plain s -> (each_gives e x body s true vs out <-> exists outs, Forall2 (elem e x body) vs outs /\ joined s outs out).
Proof.
  intros Hs. destruct s as [|t|t].
  - assert (A : forall first, each_gives e x body NoSep first vs out <-> exists outs, Forall2 (elem e x body) vs outs /\ out = List.concat outs).
    { revert out. induction vs as [|v vs IH]; intros out first.
      - rewrite each_gives_nil. split; [intros ->; exists []; split; [constructor|reflexivity]|]. intros (l & F & ->). inversion F. reflexivity.
      - rewrite each_gives_cons by exact Hs. split.
        + intros (a & b & c & d & -> & Hb & -> & Hd & ->). apply IH in Hd as (l & F & ->). exists (b :: l). split; [now constructor|reflexivity].
        + intros (l & F & ->). inversion F as [|? o ? l' Ho F']; subst. exists [], o, [], (List.concat l'). split; [reflexivity|]. split; [exact Ho|]. split; [reflexivity|]. split; [|reflexivity]. apply IH. eauto. }
    rewrite A. split; intros (l & F & J); exists l; (split; [exact F|]); [subst; constructor|inversion J; reflexivity].
  - destruct (plain t) as [sp|] eqn:Es; [|destruct t; discriminate].
    assert (A : forall first, each_gives e x body (Between t) first vs out <-> exists outs, Forall2 (elem e x body) vs outs /\ out = (if first then [] else match outs with [] => [] | _ => sp end) ++ interleave sp outs).
    { revert out. induction vs as [|v vs IH]; intros out first.
      - rewrite each_gives_nil. split; [intros ->; exists []; split; [constructor|destruct first; reflexivity]|]. intros (l & F & ->). inversion F. destruct first; reflexivity.
      - rewrite each_gives_cons by exact Hs. rewrite Es. split.
        + intros (a & b & c & d & Ha & Hb & -> & Hd & ->). apply IH in Hd as (l & F & ->). exists (b :: l). split; [now constructor|].
          assert (a = if first then [] else sp) as -> by (destruct first; congruence). destruct l as [|o' l]; cbn [interleave app]; rewrite ?app_nil_r; destruct first; reflexivity.
        + intros (l & F & ->). inversion F as [|? o ? l' Ho F']; subst. exists (if first then [] else sp), o, [], (match l' with [] => [] | _ => sp end ++ interleave sp l').
          split; [destruct first; reflexivity|]. split; [exact Ho|]. split; [reflexivity|]. split; [apply IH; eauto|]. destruct l' as [|o' l']; cbn [interleave app]; rewrite ?app_nil_r; destruct first; reflexivity. }
    rewrite A. split; intros (l & F & J); exists l; (split; [exact F|]).
    + subst. constructor. now apply itself_plain.
    + inversion J as [|? s ? I0|]; subst. apply itself_plain in I0; auto. rewrite Es in I0. injection I0 as ->. reflexivity.
  - destruct (plain t) as [sp|] eqn:Es; [|destruct t; discriminate].
    assert (A : forall first, each_gives e x body (After t) first vs out <-> exists outs, Forall2 (elem e x body) vs outs /\ out = flat_map (fun a => a ++ sp) outs).
    { revert out. induction vs as [|v vs IH]; intros out first.
      - rewrite each_gives_nil. split; [intros ->; exists []; split; [constructor|reflexivity]|]. intros (l & F & ->). inversion F. reflexivity.
      - rewrite each_gives_cons by exact Hs. rewrite Es. split.
        + intros (a & b & c & d & -> & Hb & [= <-] & Hd & ->). apply IH in Hd as (l & F & ->). exists (b :: l). split; [now constructor|]. cbn [flat_map app]. now rewrite app_assoc.
        + intros (l & F & ->). inversion F as [|? o ? l' Ho F']; subst. exists [], o, sp, (flat_map (fun a => a ++ sp) l'). split; [reflexivity|]. split; [exact Ho|]. split; [reflexivity|]. split; [apply IH; eauto|].
          cbn [flat_map app]. now rewrite app_assoc. }
    rewrite A. split; intros (l & F & J); exists l; (split; [exact F|]).
    + subst. constructor. now apply itself_plain.
    + inversion J as [| |? s ? I0]; subst. apply itself_plain in I0; auto. rewrite Es in I0. injection I0 as ->. reflexivity.
Qed.
Lemma act_each_gen e src x body s (a : action) out : sep_plain s ->
  (forall f, act_run f e a = run! v := orun (eval e src) in run! vs := orun (items v) in each_run f e x body s true vs) ->
  (act_gives e a out <-> exists v vs outs, eval e src = Some v /\ items v = Some vs /\ Forall2 (elem e x body) vs outs /\ joined s outs out).
Proof.
  intros Hs Ea. unfold act_gives. rewrite (lim_ext _ (fun n => rbind (orun (eval e src)) (fun v => rbind (orun (items v)) (fun vs => each_run (append n) e x body s true vs)))) by (intros n; apply Ea).
  assert (St : forall vs, steady (fun n => each_run (append n) e x body s true vs)) by (intros vs; apply (steady_each append), append_steady).
  rewrite (act_source e src (fun v n => rbind (orun (items v)) (fun vs => each_run (append n) e x body s true vs))).
  2:{ intros v. apply (steady_bind (fun _ => orun (items v))); [apply steady_const|exact St]. }
  split.
  - intros (v & Hv & H). apply (lim_bind (fun _ => orun (items v)) (fun vs n => each_run (append n) e x body s true vs)) in H as (vs & H1 & H2); [|apply steady_const|exact St].
    apply lim_orun in H1. apply each_gives_joined in H2 as (outs & F & J); [|exact Hs]. eauto 10.
  - intros (v & vs & outs & Hv & Hi & F & J). exists v. split; [exact Hv|]. apply (lim_bind (fun _ => orun (items v)) (fun vs n => each_run (append n) e x body s true vs)); [apply steady_const|exact St|].
    exists vs. split; [now apply lim_orun|]. apply each_gives_joined; [exact Hs|eauto].
Qed.

(** ** Templates *)
Definition seq (P Q : list ptok -> Prop) (out : list ptok) : Prop := exists a b, P a /\ Q b /\ out = a ++ b.
Definition good (t : tmpl) : Prop := tmpl_ok t = true -> forall e r out, gives e (written t ++ r) out <-> exists a b, means0 e t a /\ gives e r b /\ out = a ++ b.
Lemma body_good b : Forall good b -> forallb tmpl_ok b = true -> forall e r out, gives e (flat_map written b ++ r) out <-> exists x y, all_mean0 e b x /\ gives e r y /\ out = x ++ y.
Proof.
  induction 1 as [|t b Ht _ IH]; intros H e r out.
  - cbn [flat_map app]. split; [intros G; exists [], out; split; [constructor|auto]|]. intros (x & y & M & G & ->). inversion M; subst. exact G.
  - cbn [forallb] in H. apply andb_prop in H as [H1 H2]. cbn [flat_map]. rewrite <- app_assoc, (Ht H1). split.
    + intros (a & b' & A & B & ->). apply (IH H2) in B as (x & y & X & Y & ->). exists (a ++ x), y. split; [now constructor|]. now rewrite app_assoc.
    + intros (x & y & M & G & ->). inversion M as [|? ? ? a x' M1 M2]; subst. exists a, (x' ++ y). rewrite app_assoc. split; [exact M1|]. split; [|reflexivity]. apply (IH H2). eauto.
Qed.
Lemma body_good_end b : Forall good b -> forallb tmpl_ok b = true -> forall e out, gives e (flat_map written b) out <-> all_mean0 e b out.
Proof.
  intros Hb H e out. rewrite <- (app_nil_r (flat_map written b)), (body_good b Hb H). split.
  - intros (x & y & M & G & ->). apply gives_nil in G as ->. now rewrite app_nil_r.
  - intros M. exists out, []. rewrite gives_nil, app_nil_r. auto.
Qed.
Lemma by_rule t a : (forall r, exists h r', written t ++ r = h :: r' /\ not_id h = true /\ at_rule (h :: r') = None /\ first_rule rules (h :: r') = Some (a, r)) ->
  (forall e out, act_gives e a out <-> means0 e t out) -> forall e r out, gives e (written t ++ r) out <-> exists x b, means0 e t x /\ gives e r b /\ out = x ++ b.
Proof.
  intros R M e r out. destruct (R r) as (h & r' & -> & N & A & F). rewrite (gives_rule e h r' a r out N A F). split; intros (x & b & H1 & H2); exists x, b; (split; [now apply M|exact H2]).
Qed.
Lemma elem_body e x b vs l : Forall good b -> forallb tmpl_ok b = true -> (Forall2 (elem e x (Some (flat_map written b))) vs l <-> each_means0 e x b vs l).
Proof.
  intros Hb Hok. split.
  - induction 1 as [|v o vs l H _ IH]; constructor; auto. now apply body_good_end.
  - induction 1 as [|? ? ? v vs o l H _ IH]; constructor; auto. now apply body_good_end.
Qed.
Lemma all_good t : good t.
Proof.
  induction t as [t|d b IH| |i b IH|x|x|w s b IH|s|s x b IH|s p|s x b p IH] using tmpl_induction; intros H; cbn [tmpl_ok] in H.
  - intros e r out. cbn [written app]. rewrite gives_token by exact H. split; intros (x & c & H1 & H2); exists x, c; (split; [|exact H2]).
    + constructor. now apply itself_plain.
    + inversion H1; subst. now apply itself_plain.
  - intros e r out. apply andb_prop in H as [H1 H2]. cbn [written app]. rewrite gives_group by (intros ->; discriminate). split.
    + intros (o & c & Ho & Hc & ->). exists [PGrp d o], c. split; [constructor; now apply body_good_end|auto].
    + intros (a & c & M & Hc & ->). inversion M; subst. eexists _, c. split; [apply body_good_end; eassumption|auto].
  - apply (by_rule Hash (ATokens [hash])).
    + intros r. eexists _, _. repeat (split; [reflexivity|]). reflexivity.
    + intros e out. rewrite act_tokens. split; [intros ->; constructor|inversion 1; reflexivity].
  - destruct i.
    + apply (by_rule _ (AGroup [hash; bang] Bracket (flat_map written b) [])).
      * intros r. eexists _, _. repeat (split; [reflexivity|]). reflexivity.
      * intros e out. rewrite act_group. split; [intros (o & Ho & ->); constructor; now apply body_good_end|]. inversion 1; subst. eexists. split; [apply body_good_end; eassumption|reflexivity].
    + apply (by_rule _ (AGroup [hash] Bracket (flat_map written b) [])).
      * intros r. eexists _, _. repeat (split; [reflexivity|]). destruct r as [|[| | | | |[| | |] ?] r]; reflexivity.
      * intros e out. rewrite act_group. split; [intros (o & Ho & ->); constructor; now apply body_good_end|]. inversion 1; subst. eexists. split; [apply body_good_end; eassumption|reflexivity].
  - apply (by_rule _ (AText [TId x])).
    + intros r. eexists _, _. repeat (split; [reflexivity|]). reflexivity.
    + intros e out. rewrite act_text. cbn [eval]. destruct (assoc x e) as [v|] eqn:E; cbn [obind eval_suffix]; split.
      * intros (v' & [= <-] & T). now apply (m_var0 e x v).
      * inversion 1; subst. exists v. split; [reflexivity|congruence].
      * intros (v' & E' & _). discriminate.
      * inversion 1; subst. congruence.
  - apply (by_rule _ (AText x)).
    + intros r. eexists _, _. split; [reflexivity|]. split; [reflexivity|]. split; [now apply at_expr|now apply rule_expr_ok].
    + intros e out. rewrite act_text. split; [intros (v & E & T); now apply (m_expr0 e x v)|]. inversion 1; subst. eauto.
  - andbs. apply (by_rule _ (ABool w (source_expr s) (flat_map written b))).
    + intros r. eexists _, _. split; [reflexivity|]. split; [reflexivity|]. split; [apply at_source|]. apply rule_when; [assumption|now apply body_nonempty].
    + intros e out. rewrite act_bool. split.
      * intros (c & E & M). apply eval_source in E. destruct (Bool.eqb c w) eqn:Ec.
        -- apply Bool.eqb_prop in Ec. subst c. constructor; [exact E|]. now apply body_good_end.
        -- subst out. apply m_unless0. destruct c, w; try discriminate; exact E.
      * inversion 1; subst.
        -- exists w. split; [now apply eval_source|]. rewrite Bool.eqb_reflx. now apply body_good_end.
        -- exists (negb w). split; [now apply eval_source|]. destruct w; reflexivity.
  - apply (by_rule _ (AOpt (source_expr s))).
    + intros r. eexists _, _. split; [reflexivity|]. split; [reflexivity|]. cbn [written app]. rewrite <- (app_nil_r (source_toks s)). split; [apply at_source|now apply rule_opt_ok].
    + intros e out. rewrite act_opt. split.
      * intros ([v|] & E & T); apply eval_source in E; [now apply (m_opt0 e s v)|subst; now constructor].
      * inversion 1; subst; [exists (Some v)|exists None]; (split; [now apply eval_source|auto]).
  - andbs. apply (by_rule _ (AOptAs (source_expr s) x (flat_map written b))).
    + intros r. eexists _, _. split; [reflexivity|]. split; [reflexivity|]. split; [apply at_source|]. apply rule_opt_as_ok; [assumption|now apply body_nonempty].
    + intros e out. rewrite act_opt_as. split.
      * intros ([v|] & E & T); apply eval_source in E; [|subst; now constructor]. apply (m_opt_as0 e s x v); [exact E|]. now apply body_good_end.
      * inversion 1; subst; [exists (Some v)|exists None]; (split; [now apply eval_source|]); [now apply body_good_end|reflexivity].
  - assert (Hs : source_ok s = true) by (destruct p; andbs; auto).
    assert (Hp : sep_plain p) by (destruct p; cbn [sep_plain]; auto; apply andb_prop in H as [_ H]; auto; now apply sep_ok_inv in H as [H _]).
    apply (by_rule _ (AEach (source_expr s) p)).
    + intros r. destruct p as [|t|t]; eexists _, _; (split; [reflexivity|]); (split; [reflexivity|]); cbn [written app].
      * rewrite <- (app_nil_r (source_toks s)). split; [apply at_source|now apply rule_each_ok].
      * rewrite <- (app_nil_r (source_toks s)). split; [apply at_source|]. apply andb_prop in H as [_ H]. apply sep_ok_inv in H as [_ F]. inversion F as [|? ? ? F']; inversion F'; subst. now apply rule_each_between_ok.
      * split; [apply at_source|now apply rule_each_after_ok].
    + intros e out. rewrite (act_each_gen e (source_expr s) None None p) by (assumption || reflexivity). split.
      * intros (v & vs & outs & E & I & F & J). apply eval_source in E. now apply (m_each0 e s p v vs outs).
      * inversion 1; subst. eexists _, _, _. split; [apply eval_source; eassumption|]. split; [eassumption|]. split; eassumption.
  - andbs. set (p' := match p with Some t => Between t | None => NoSep end).
    assert (Hp : sep_plain p').
    { unfold p'. destruct p; cbn [sep_plain]; auto. match goal with S : sep_ok _ _ = true |- _ => now apply sep_ok_inv in S as [S _] end. }
    apply (by_rule _ (AEachAs (source_expr s) x (flat_map written b) p')).
    + intros r. destruct p as [t|]; eexists _, _; (split; [reflexivity|]); (split; [reflexivity|]); cbn [written app]; (split; [apply at_source|]).
      * match goal with S : sep_ok _ _ = true |- _ => apply sep_ok_inv in S as [_ F] end.
        inversion F as [|? ? ? F1]; inversion F1 as [|? ? ? F2]; inversion F2 as [|? ? ? F3]; inversion F3; subst. apply rule_each_as_between_ok; auto. now apply body_nonempty.
      * apply rule_each_as_ok; [assumption|now apply body_nonempty].
    + intros e out. rewrite (act_each_gen e (source_expr s) x (Some (flat_map written b)) p') by (assumption || reflexivity). split.
      * intros (v & vs & outs & E & I & F & J). apply eval_source in E. apply (m_each_as0 e s x b p v vs outs); auto. now apply elem_body.
      * inversion 1; subst. eexists _, _, _. split; [apply eval_source; eassumption|]. split; [eassumption|]. split; [apply elem_body; eassumption|eassumption].
Qed.

(** Values whose hash maps are in any order: [same] is an equivalence, and every value is the same as a canonical one. *)
From Verif Require Import Base F64 Json Print SpecValue SpecGrammar MapProofs PrintProofs Parse PropsPrint.
From Coq Require Import Permutation Bool.

Lemma Forall2_impl_in {A B} (P Q : A -> B -> Prop) l l' : (forall a b, In a l -> P a b -> Q a b) -> Forall2 P l l' -> Forall2 Q l l'.
Proof. intros H. induction 1 as [|a b l l' Hab HF IH]; constructor; [apply H; auto; now left|]. apply IH. intros; apply H; auto; now right. Qed.
Lemma Forall2_same_list {A} (P : A -> A -> Prop) l : Forall (fun a => P a a) l -> Forall2 P l l.
Proof. induction 1; constructor; auto. Qed.
Lemma Forall2_map_r {A B C} (P : A -> C -> Prop) (f : B -> C) l l' : Forall2 (fun a b => P a (f b)) l l' -> Forall2 P l (map f l').
Proof. induction 1; constructor; auto. Qed.
Lemma Forall2_map_self {A B} (P : A -> B -> Prop) (f : A -> B) l : Forall (fun a => P a (f a)) l -> Forall2 P l (map f l).
Proof. induction 1; constructor; auto. Qed.

Definition same_entry (e e' : entry) : Prop := fst e = fst e' /\ same (fst (snd e)) (fst (snd e')) /\ Forall2 same (snd (snd e)) (snd (snd e')).

Lemma same_refl j : same j j.
Proof.
  induction j as [o IH|v IH|s|f|b|] using json_ind; try constructor.
  - apply same_obj with o; [reflexivity|]. apply Forall2_same_list. revert IH. apply Forall_impl. intros [k [v l]] [Hv Hl]. cbn in *.
    split; auto. split; auto. now apply Forall2_same_list.
  - now apply Forall2_same_list.
Qed.
Lemma perm_Forall2 {A B} (P : A -> B -> Prop) l p : Permutation l p -> forall l', Forall2 P l l' -> exists p', Permutation l' p' /\ Forall2 P p p'.
Proof.
  induction 1 as [|a l p HP IH|a b l|l p q H1 IH1 H2 IH2]; intros l' HF.
  - inversion HF; subst. exists []. auto.
  - inversion HF as [|? b ? l2 Hab HF2]; subst. destruct (IH _ HF2) as (p' & Pp & Fp). exists (b :: p'). auto.
  - inversion HF as [|? x ? l2 Hx HF2]; subst. inversion HF2 as [|? y ? l3 Hy HF3]; subst. exists (y :: x :: l3). split; [apply perm_swap|auto].
  - destruct (IH1 _ HF) as (p' & P1 & F1). destruct (IH2 _ F1) as (q' & P2 & F2). exists q'. split; auto. now transitivity p'.
Qed.
Lemma Forall2_flip {A B} (P : A -> B -> Prop) l l' : Forall2 P l l' -> Forall2 (fun b a => P a b) l' l.
Proof. induction 1; constructor; auto. Qed.
Lemma same_trans a : forall b c, same a b -> same b c -> same a c.
Proof.
  assert (T : forall v, Forall (fun a => forall b c, same a b -> same b c -> same a c) v ->
    forall v' v'', Forall2 same v v' -> Forall2 same v' v'' -> Forall2 same v v'').
  { intros v IH v' v'' H. revert v''. induction H as [|x y v v' Hxy H IH2]; intros v'' H2; inversion H2; subst; constructor; inversion IH; subst; eauto. }
  induction a as [o IH|v IH|s|f|b0|] using json_ind; intros b c H1 H2; inversion H1 as [o0 p o1 P1 F1| | | | |]; subst; auto.
  - inversion H2 as [o2 q o3 P2 F2| | | | |]; subst.
    destruct (perm_Forall2 _ _ _ P2 _ (Forall2_flip _ _ _ F1)) as (p' & Pp & Fp). apply Forall2_flip in Fp.
    apply same_obj with p'; [now transitivity p|].
    assert (IHp : Forall (Pentry (fun a => forall b c, same a b -> same b c -> same a c)) p').
    { eapply Permutation_Forall; [exact Pp|]. eapply Permutation_Forall; eauto. }
    clear - Fp F2 IHp T. revert o3 F2. induction Fp as [|e e' p' q (K & V & L) Fp IH2]; intros o3 F2; inversion F2 as [|? e'' ? o4 (K2 & V2 & L2) F3]; subst; constructor.
    + inversion IHp as [|? ? [A B]]; subst. split; [congruence|]. split; [eauto|]. eapply T; eauto.
    + inversion IHp; subst. auto.
  - inversion H2; subst. constructor. eapply T; eauto.
Qed.
Lemma same_sym a : forall b, same a b -> same b a.
Proof.
  assert (T : forall v, Forall (fun a => forall b, same a b -> same b a) v -> forall v', Forall2 same v v' -> Forall2 same v' v).
  { intros v IH v' H. induction H; constructor; inversion IH; subst; auto. }
  induction a as [o IH|v IH|s|f|b0|] using json_ind; intros b H; inversion H as [o0 p o1 P1 F1| | | | |]; subst; auto.
  - assert (Fs : Forall2 same_entry o1 p).
    { assert (IHp : Forall (Pentry (fun a => forall b, same a b -> same b a)) p) by (eapply Permutation_Forall; eauto).
      clear - F1 IHp T. induction F1 as [|e e' p q (K & V & L) F1 IH2]; constructor; inversion IHp as [|? ? [A B]]; subst; auto.
      split; [auto|]. split; auto. }
    destruct (perm_Forall2 _ _ _ (Permutation_sym P1) _ (Forall2_flip _ _ _ Fs)) as (q & Pq & Fq). apply Forall2_flip in Fq.
    eapply same_obj; [exact Pq|exact Fq].
  - constructor. apply T; auto.
Qed.
Lemma same_keys_perm p o' : Forall2 same_entry p o' -> map fst p = map fst o'.
Proof. induction 1 as [|e e' p o' (K & _) H IH]; cbn; congruence. Qed.
Lemma same_unique a : forall b, same a b -> unique_keys a -> unique_keys b.
Proof.
  assert (T : forall v, Forall (fun a => forall b, same a b -> unique_keys a -> unique_keys b) v ->
    forall v', Forall2 same v v' -> Forall unique_keys v -> Forall unique_keys v').
  { intros v IH v' H U. induction H; constructor; inversion IH; inversion U; subst; eauto. }
  induction a as [o IH|v IH|s|f|b0|] using json_ind; intros b H U; inversion H as [o0 p o1 P1 F1| | | | |]; subst; auto.
  - inversion U as [? N Fu| | | | |]; subst. constructor.
    + rewrite <- (same_keys_perm _ _ F1). eapply Permutation_NoDup; [|exact N]. now apply Permutation_map.
    + assert (IHp : Forall (Pentry (fun a => forall b, same a b -> unique_keys a -> unique_keys b)) p) by (eapply Permutation_Forall; eauto).
      assert (Up : Forall (fun e => unique_keys (fst (snd e)) /\ Forall unique_keys (snd (snd e))) p) by (eapply Permutation_Forall; eauto).
      clear - F1 IHp Up T. induction F1 as [|e e' p q (K & V & L) F1 IH2]; constructor; inversion IHp as [|? ? [A B]]; inversion Up as [|? ? [C D]]; subst; auto.
      split; eauto.
  - inversion U; subst. constructor. eapply T; eauto.
Qed.

(** ** Content predicates do not see the order. *)
Fixpoint contents (K S : str -> bool) (F : f64 -> bool) (j : json) : bool :=
  match j with
  | JObj o => forallb (fun e => K (fst e) && (contents K S F (fst (snd e)) && forallb (contents K S F) (snd (snd e)))) o
  | JArr v => forallb (contents K S F) v
  | JStr s => S s
  | JNum f => F f
  | JBool _ | JNull => true
  end.
Lemma forallb_perm {A} (f : A -> bool) l l' : Permutation l l' -> forallb f l = forallb f l'.
Proof.
  induction 1; cbn; auto; try congruence. destruct (f x), (f y); auto.
Qed.
Lemma forallb_Forall2 {A B} (P : A -> B -> Prop) (f : A -> bool) (g : B -> bool) l l' :
  Forall2 P l l' -> (forall a b, In a l -> P a b -> f a = g b) -> forallb f l = forallb g l'.
Proof. induction 1 as [|a b l l' Hab H IH]; intros Hf; auto. cbn. rewrite (Hf a b); [|now left|auto]. f_equal. apply IH. intros; apply Hf; auto; now right. Qed.
Lemma contents_same K S F a : forall b, same a b -> contents K S F a = contents K S F b.
Proof.
  induction a as [o IH|v IH|s|f|b0|] using json_ind; intros b H; inversion H as [o0 p o1 P1 F1| | | | |]; subst; auto; cbn.
  - rewrite (forallb_perm _ _ _ P1). assert (IHp : Forall (Pentry (fun a => forall b, same a b -> contents K S F a = contents K S F b)) p) by (eapply Permutation_Forall; eauto).
    rewrite Forall_forall in IHp. eapply forallb_Forall2; [exact F1|]. intros e e' Hin (Ek & Ev & El). destruct (IHp _ Hin) as [A B].
    rewrite Ek, (A _ Ev). do 2 f_equal. rewrite Forall_forall in B. eapply forallb_Forall2; [exact El|]. auto.
  - rewrite Forall_forall in IH. eapply forallb_Forall2; eauto.
Qed.

(** ** The canonical form *)
Fixpoint canon (j : json) : json :=
  match j with
  | JObj o => JObj (sort_by_key (map (fun e => (fst e, (canon (fst (snd e)), map canon (snd (snd e))))) o))
  | JArr v => JArr (map canon v)
  | x => x
  end.
Lemma canon_same j : same j (canon j).
Proof.
  induction j as [o IH|v IH|s|f|b|] using json_ind; try constructor; cbn [canon].
  - set (g := fun e : entry => (fst e, (canon (fst (snd e)), map canon (snd (snd e))))).
    assert (Fg : Forall2 same_entry o (map g o)).
    { apply Forall2_map_self. revert IH. apply Forall_impl. intros [k [v l]] [Hv Hl]. cbn in *. split; auto. split; auto. now apply Forall2_map_self. }
    destruct (perm_Forall2 _ _ _ (Permutation_sym (sort_by_key_perm (map g o))) _ (Forall2_flip _ _ _ Fg)) as (q & Pq & Fq).
    apply Forall2_flip in Fq. eapply same_obj; [exact Pq|exact Fq].
  - now apply Forall2_map_self.
Qed.
Lemma wf_contents j : wf j = true -> contents scalar_str scalar_str valid_f64 j = true.
Proof.
  induction j as [o IH|v IH|s|f|b|] using json_ind; auto; cbn.
  - intros H. apply andb_prop in H as [_ H]. rewrite forallb_forall in *. rewrite Forall_forall in IH. intros e He. specialize (H e He).
    apply andb_prop in H as [-> H]. apply andb_prop in H as [Hv Hl]. destruct (IH e He) as [A B]. rewrite (A Hv). cbn. rewrite forallb_forall in *. rewrite Forall_forall in B. auto.
  - intros H. rewrite forallb_forall in *. rewrite Forall_forall in IH. auto.
Qed.
Lemma canon_wf j : unique_keys j -> contents scalar_str scalar_str valid_f64 j = true -> wf (canon j) = true.
Proof.
  induction j as [o IH|v IH|s|f|b|] using json_ind; auto; cbn [canon contents wf]; intros U C.
  - inversion U as [? N Fu| | | | |]; subst. apply andb_true_iff. split.
    + apply sort_by_key_sorted. now rewrite map_map.
    + rewrite (forallb_perm _ _ _ (sort_by_key_perm _)). rewrite forallb_forall in *. intros e He. apply in_map_iff in He as (e0 & <- & He0). cbn [fst snd].
      specialize (C _ He0). rewrite Forall_forall in IH, Fu. destruct (IH _ He0) as [A B]. destruct (Fu _ He0) as [Uv Ul].
      apply andb_prop in C as [-> C]. apply andb_prop in C as [Cv Cl]. rewrite (A Uv Cv). cbn. rewrite forallb_forall in *. rewrite Forall_forall in B, Ul.
      intros x Hx. apply in_map_iff in Hx as (y & <- & Hy). auto.
  - inversion U as [|? Fu| | | |]; subst. rewrite forallb_forall in *. rewrite Forall_forall in IH, Fu. intros x Hx. apply in_map_iff in Hx as (y & <- & Hy). auto.
Qed.
Lemma wf_unique j : wf j = true -> unique_keys j.
Proof.
  induction j as [o IH|v IH|s|f|b|] using json_ind; try constructor; cbn [wf] in *.
  - apply andb_prop in H as [H _]. now apply keys_sorted_NoDup.
  - apply andb_prop in H as [_ H]. rewrite forallb_forall in H. rewrite Forall_forall in *. intros e He. specialize (H e He).
    apply andb_prop in H as [_ H]. apply andb_prop in H as [Hv Hl]. destruct (IH e He) as [A B]. split; auto. rewrite forallb_forall in Hl. rewrite Forall_forall in *. auto.
  - rewrite forallb_forall in H. rewrite Forall_forall in *. auto.
Qed.
(** Canonical values that are the same are equal. *)
Lemma same_canonical a : forall b, wf a = true -> wf b = true -> same a b -> a = b.
Proof.
  assert (T : forall v, Forall (fun a => forall b, wf a = true -> wf b = true -> same a b -> a = b) v ->
    forall v', forallb wf v = true -> forallb wf v' = true -> Forall2 same v v' -> v = v').
  { intros v IH v' W W' H. induction H; auto. cbn in W, W'. apply andb_prop in W as [W1 W2], W' as [W3 W4]. inversion IH; subst. f_equal; auto. }
  induction a as [o IH|v IH|s|f|b0|] using json_ind; intros b W W' H; inversion H as [o0 p o1 P1 F1| | | | |]; subst; auto; cbn in W, W'.
  - apply andb_prop in W as [S W], W' as [S' W']. f_equal.
    assert (E : p = o1).
    { assert (IHp : Forall (Pentry (fun a => forall b, wf a = true -> wf b = true -> same a b -> a = b)) p) by (eapply Permutation_Forall; eauto).
      rewrite (forallb_perm _ _ _ P1) in W. clear - F1 IHp W W' T. induction F1 as [|[k [v l]] [k' [v' l']] p q (K & V & L) F1 IH2]; auto.
      cbn in *. apply andb_prop in W as [W Wp], W' as [W' Wq]. apply andb_prop in W as [_ W], W' as [_ W']. apply andb_prop in W as [W1 W2], W' as [W3 W4].
      inversion IHp as [|? ? [A B]]; subst. cbn in A, B. rewrite (A _ W1 W3 V), (T _ B _ W2 W4 L). f_equal; auto. }
    subst p. now apply sorted_perm_eq.
  - f_equal. apply T; auto.
Qed.

(** ** Values in memory *)
Lemma legal_iff j : legal j <-> unique_keys j /\ contents scalar_str scalar_str valid_f64 j = true.
Proof.
  induction j as [o IH|v IH|s|f|b|] using json_ind; cbn [contents].
  - rewrite Forall_forall in IH. split.
    + intros H. inversion H as [? N L| | | | |]; subst. rewrite Forall_forall in L. split.
      * constructor; auto. rewrite Forall_forall. intros e He. destruct (L e He) as (S & A & B). destruct (IH e He) as [IA IB]. rewrite Forall_forall in *.
        split; [now apply IA|]. intros x Hx. now apply IB; auto.
      * rewrite forallb_forall. intros e He. destruct (L e He) as (S & A & B). destruct (IH e He) as [IA IB]. rewrite S. apply IA in A as [_ ->]. cbn.
        rewrite forallb_forall. rewrite Forall_forall in *. intros x Hx. now apply IB; auto.
    + intros [U C]. inversion U as [? N Fu| | | | |]; subst. constructor; auto. rewrite Forall_forall in *. rewrite forallb_forall in C. intros e He.
      specialize (C e He). apply andb_prop in C as [S C]. apply andb_prop in C as [Cv Cl]. destruct (Fu e He) as [Uv Ul]. destruct (IH e He) as [IA IB].
      split; auto. split; [now apply IA|]. rewrite Forall_forall in *. rewrite forallb_forall in Cl. intros x Hx. apply IB; auto.
  - rewrite Forall_forall in IH. split.
    + intros H. inversion H as [|? L| | | |]; subst. rewrite Forall_forall in L. split.
      * constructor. rewrite Forall_forall. intros x Hx. now apply IH; auto.
      * rewrite forallb_forall. intros x Hx. now apply IH; auto.
    + intros [U C]. inversion U as [|? Fu| | | |]; subst. constructor. rewrite Forall_forall in *. rewrite forallb_forall in C. intros x Hx. apply IH; auto.
  - split; [intros H; inversion H; split; [constructor|auto]|intros [_ H]; now constructor].
  - split; [intros H; inversion H; split; [constructor|auto]|intros [_ H]; now constructor].
  - split; [split; constructor|constructor].
  - split; [split; constructor|constructor].
Qed.
Lemma wf_legal j : wf j = true -> legal j.
Proof. intros H. apply legal_iff. split; [now apply wf_unique|now apply wf_contents]. Qed.
Lemma same_legal a b : same a b -> legal a -> legal b.
Proof. intros S. rewrite !legal_iff, <- (contents_same _ _ _ _ _ S). intros [U C]. split; auto. eapply same_unique; eauto. Qed.
Lemma canon_legal_wf j : legal j -> wf (canon j) = true.
Proof. intros H. apply legal_iff in H as [U C]. now apply canon_wf. Qed.
Lemma forallb_ext_in {A} (f g : A -> bool) l : (forall a, In a l -> f a = g a) -> forallb f l = forallb g l.
Proof. induction l as [|a l IH]; intros H; auto. cbn. rewrite (H a) by now left. f_equal. apply IH. intros; apply H; now right. Qed.
Lemma finite_contents j : finite j = contents (fun _ => true) (fun _ => true) is_finite j.
Proof.
  induction j as [o IH|v IH|s|f|b|] using json_ind; auto; cbn.
  - rewrite Forall_forall in IH. apply forallb_ext_in. intros e He. destruct (IH e He) as [-> B]. cbn. f_equal. rewrite Forall_forall in B. now apply forallb_ext_in.
  - rewrite Forall_forall in IH. now apply forallb_ext_in.
Qed.
Lemma balanced_contents j : balanced_in j = contents balanced_str balanced_str (fun _ => true) j.
Proof.
  induction j as [o IH|v IH|s|f|b|] using json_ind; auto; cbn.
  - rewrite Forall_forall in IH. apply forallb_ext_in. intros e He. destruct (IH e He) as [-> B]. cbn. do 2 f_equal. rewrite Forall_forall in B. now apply forallb_ext_in.
  - rewrite Forall_forall in IH. now apply forallb_ext_in.
Qed.
Lemma finite_same a b : same a b -> finite a = finite b.
Proof. rewrite !finite_contents. apply contents_same. Qed.
Lemma balanced_same a b : same a b -> balanced a = balanced b.
Proof.
  intros S. pose proof (contents_same balanced_str balanced_str (fun _ => true) _ _ S) as H. rewrite <- !balanced_contents in H.
  inversion S; subst; auto.
Qed.
(** Printing and parsing, maps in any order. *)
Lemma print_parse_legal j : legal j -> finite j = true ->
  if balanced j then parse (to_string j) = Ok (canon j) else exists e, parse (to_string j) = Err e.
Proof.
  intros L F. pose proof (canon_same j) as S.
  assert (E : to_string j = to_string (canon j)) by (apply printing_ignores_iteration_order; [now apply legal_iff in L|auto]).
  pose proof (print_parse (canon j) (canon_legal_wf j L)) as P. rewrite <- (finite_same _ _ S), <- (balanced_same _ _ S), <- E in P. exact (P F).
Qed.

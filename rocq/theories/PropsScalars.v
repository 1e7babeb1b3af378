(** C83: operations do not look at scalars; equal values behave equally. *)
From Verif Require Import Base F64 Json Parse Print Ops Path Convert MapProofs SpecGrammar SpecValue SpecConvert CanonProofs Equality SpecEquality PropsEquality AnyMap SpecHistory PathTextProofs SpecScalars.
From Verif Require PropsHistory.
From Coq Require Import Bool Lia Floats.SpecFloat.

Section Recode.
  Variable h : json -> json.
  Hypothesis H : keeps_kinds h.
  Local Notation rc := (recode h).
  Definition rc_val (x : json * list json) : json * list json := (rc (fst x), map rc (snd x)).
  Definition rc_obj (o : hmap) : hmap := map (fun e => (fst e, rc_val (snd e))) o.
  Lemma rc_JObj o : rc (JObj o) = JObj (rc_obj o). Proof. reflexivity. Qed.
  Lemma rc_null : rc JNull = JNull. Proof. apply H. Qed.
  Lemma rc_cases j : (exists o, j = JObj o) \/ (exists v, j = JArr v) \/ (kind_name (rc j) = kind_name j /\ (forall o, j <> JObj o) /\ (forall v, j <> JArr v) /\ (forall o, rc j <> JObj o) /\ (forall v, rc j <> JArr v)).
  Proof.
    destruct H as (Hs & Hn & Hb & H0). destruct j as [o|v|s|f|b|]; eauto; right; right; cbn [recode].
    - destruct (Hs s) as [x ->]. repeat split; discriminate.
    - destruct (Hn f) as [x ->]. repeat split; discriminate.
    - destruct (Hb b) as [x ->]. repeat split; discriminate.
    - rewrite H0. repeat split; discriminate.
  Qed.
  Lemma rc_kind j : kind_name (rc j) = kind_name j.
  Proof. destruct (rc_cases j) as [[o ->]|[[v ->]|[E _]]]; auto. Qed.
  Lemma get_rc k o : hm_get k (rc_obj o) = option_map rc_val (hm_get k o).
  Proof. induction o as [|[k' x] o IH]; auto. cbn. destruct (str_eqb k k'); auto. Qed.
  Lemma insert_rc k x o : hm_insert k (rc_val x) (rc_obj o) = rc_obj (hm_insert k x o).
  Proof. induction o as [|[k' y] o IH]; auto. cbn. destruct (str_cmp k k'); auto. cbn. f_equal. exact IH. Qed.
  Lemma remove_rc k o : hm_remove k (rc_obj o) = rc_obj (hm_remove k o).
  Proof. induction o as [|[k' y] o IH]; auto. cbn. destruct (str_eqb k k'); auto. cbn. f_equal. exact IH. Qed.
  Lemma object_insert_rc k x o : object_insert (rc_obj o) k (rc x) = rc_obj (object_insert o k x).
  Proof. unfold object_insert. rewrite get_rc. destruct (hm_get k o) as [[v l]|]; cbn [option_map rc_val fst snd]; rewrite <- insert_rc; reflexivity. Qed.
  Lemma vlen_rc v : vlen (map rc v) = vlen v.
  Proof. unfold vlen. now rewrite map_length. Qed.
  Lemma vec_get_rc i v : vec_get i (map rc v) = option_map rc (vec_get i v).
  Proof. unfold vec_get. rewrite vlen_rc. destruct (i <? vlen v)%N; auto. apply nth_error_map. Qed.
  Lemma vec_set_rc x v : forall i, vec_set i (rc x) (map rc v) = map rc (vec_set i x v).
  Proof. induction v as [|y v IH]; intros [|i]; cbn; auto. now rewrite IH. Qed.
  Lemma vec_remove_rc v : forall i, vec_remove i (map rc v) = map rc (vec_remove i v).
  Proof. induction v as [|y v IH]; intros [|i]; cbn; auto. now rewrite IH. Qed.
  Lemma repeat_null n : map rc (repeat JNull n) = repeat JNull n.
  Proof. induction n; cbn [repeat map]; auto. now rewrite rc_null, IHn. Qed.
  Lemma resize_rc i v : resize i (map rc v) = map rc (resize i v).
  Proof. unfold resize. now rewrite map_app, vlen_rc, repeat_null. Qed.
  Definition mut_ok (p q : json * (json -> json)) : Prop := fst q = rc (fst p) /\ forall y, snd q (rc y) = rc (snd p y).
  Ltac cases j := let Hs := fresh in let Hn := fresh in let Hb := fresh in let H0 := fresh in let E := fresh in destruct H as (Hs & Hn & Hb & H0);
    destruct j as [?o|?v|?s|?f|?b|]; cbn [recode]; [| | match goal with |- context[h (JStr ?s)] => destruct (Hs s) as [? E]; rewrite E end
      | match goal with |- context[h (JNum ?f)] => destruct (Hn f) as [? E]; rewrite E end | match goal with |- context[h (JBool ?b)] => destruct (Hb b) as [? E]; rewrite E end | rename H0 into E; rewrite E];
    try reflexivity; try (unfold changes; cbn [fst snd recode]; rewrite E; reflexivity); try clear Hs Hn Hb H0;
    repeat match goal with |- context[map (fun e : entry => (fst e, (recode h (fst (snd e)), map (recode h) (snd (snd e))))) ?o] =>
      change (map (fun e : entry => (fst e, (recode h (fst (snd e)), map (recode h) (snd (snd e))))) o) with (rc_obj o) end.
  Lemma f_find_rc f j : f_find f (rc j) = outcome rc (f_find f j).
  Proof.
    destruct f as [k|i]; cbn [f_find]; cases j.
    - rewrite get_rc. destruct (hm_get k o) as [[v l]|]; reflexivity.
    - rewrite vec_get_rc. destruct (vec_get i v); reflexivity.
  Qed.
  Lemma f_find_mut_rc f j : outcomes mut_ok (f_find_mut f j) (f_find_mut f (rc j)).
  Proof.
    destruct f as [k|i]; cbn [f_find_mut]; cases j; try constructor.
    - rewrite get_rc. destruct (hm_get k o) as [[v l]|]; constructor. split; [reflexivity|]. intros y. cbn [snd]. rewrite rc_JObj. f_equal. exact (insert_rc k (y, l) o).
    - rewrite vec_get_rc. destruct (vec_get i v); constructor. split; [reflexivity|]. intros y. cbn [snd recode]. now rewrite vec_set_rc.
  Qed.
  Lemma f_discard_rc f j : f_discard f (rc j) = changes h rc (f_discard f j).
  Proof.
    destruct f as [k|i]; cbn [f_discard]; cases j.
    - rewrite get_rc. destruct (hm_get k o) as [[v l]|]; [|reflexivity]. cbn [option_map rc_val fst snd]. rewrite remove_rc. reflexivity.
    - rewrite vlen_rc. destruct (i <? vlen v)%N; [|reflexivity]. rewrite nth_error_map. destruct (nth_error v (N.to_nat i)); cbn [option_map]; [|reflexivity]. now rewrite vec_remove_rc.
  Qed.
  Definition upd_ok (p q : json * res (json * (json -> json))) : Prop := fst q = rc (fst p) /\ outcomes mut_ok (snd p) (snd q).
  Lemma outcomes_expect {A B} (R : A -> B -> Prop) (p : res A) (q : res B) : outcomes R p q ->
    outcomes R (match p with Ok r => Ok r | Err _ => Panic | Panic => Panic | Fuel => Fuel end) (match q with Ok r => Ok r | Err _ => Panic | Panic => Panic | Fuel => Fuel end).
  Proof. intros []; constructor; auto. Qed.
  Lemma f_update_rc vmax f j x : upd_ok (f_update vmax f j x) (f_update vmax f (rc j) (rc x)).
  Proof.
    destruct f as [k|i]; cbn [f_update].
    - assert (E : (match rc j with JObj o => JObj (hm_insert k (rc x, []) o) | _ => JObj (hm_insert k (rc x, []) []) end) =
        rc (match j with JObj o => JObj (hm_insert k (x, []) o) | _ => JObj (hm_insert k (x, []) []) end)).
      { cases j. f_equal. exact (insert_rc k (x, []) o). }
      rewrite E. split; [reflexivity|]. cbn [snd]. apply outcomes_expect, f_find_mut_rc.
    - assert (E : (match rc j with JArr v => if vlen v <=? i then (if vmax <? i + 1 then None else Some (resize i v)) else Some v | _ => if vmax <? i + 1 then None else Some (resize i []) end) =
        option_map (map rc) (match j with JArr v => if vlen v <=? i then (if vmax <? i + 1 then None else Some (resize i v)) else Some v | _ => if vmax <? i + 1 then None else Some (resize i []) end)).
      { assert (E0 : (if vmax <? i + 1 then None else Some (resize i [])) = option_map (map rc) (if vmax <? i + 1 then None else Some (resize i []))) by (destruct (vmax <? i + 1); cbn [option_map]; [reflexivity|f_equal; exact (resize_rc i [])]).
        cases j; try exact E0. rewrite vlen_rc. destruct (vlen v <=? i); [|reflexivity]. destruct (vmax <? i + 1); cbn; [reflexivity|now rewrite resize_rc]. }
      rewrite E. destruct (match j with JArr v => _ | _ => _ end) as [v|]; [|split; [reflexivity|constructor]]. cbn [option_map].
      pose proof (f_find_mut_rc (Index i) (JArr v)) as F. cbn [recode] in F. destruct F as [[a put] [b put'] [Ea Eb]|e|]; [|split; [reflexivity|constructor]..].
      cbn [fst snd] in *. rewrite Eb. split; [reflexivity|]. apply outcomes_expect, f_find_mut_rc.
  Qed.
  Lemma p_find_rc p : forall j, p_find p (rc j) = outcome rc (p_find p j).
  Proof. induction p as [f|f p IH]; intros j; cbn [p_find]; rewrite f_find_rc; [reflexivity|]. destruct (f_find f j); cbn [outcome bind]; auto. Qed.
  Lemma p_find_mut_rc p : forall j, outcomes mut_ok (p_find_mut p j) (p_find_mut p (rc j)).
  Proof.
    induction p as [f|f p IH]; intros j; cbn [p_find_mut]; [apply f_find_mut_rc|].
    pose proof (f_find_mut_rc f j) as F. inversion F as [[a put] [b put'] [Ea Eb] E1 E2| |]; cbn [bind]; try constructor. cbn [fst snd] in *. subst b.
    specialize (IH a). inversion IH as [[a2 put2] [b2 put2'] [Ea2 Eb2] E3 E4| |]; cbn [bind]; try constructor. cbn [fst snd] in *. split; [exact Ea2|]. intros y. cbn [snd]. now rewrite Eb2, Eb.
  Qed.
  Lemma p_discard_rc p : forall j, p_discard p (rc j) = changes h rc (p_discard p j).
  Proof.
    induction p as [f|f p IH]; intros j; cbn [p_discard]; [apply f_discard_rc|].
    pose proof (f_find_mut_rc f j) as F. inversion F as [[a put] [b put'] [Ea Eb] E1 E2| |]; try reflexivity. cbn [fst snd] in *. subst b. rewrite IH.
    destruct (p_discard p a) as [i r]. unfold changes. cbn [fst snd]. now rewrite Eb.
  Qed.
  Lemma p_update_rc vmax p : forall j x, p_update vmax p (rc j) (rc x) = changes h rc (p_update vmax p j x).
  Proof.
    induction p as [f|f p IH]; intros j x; cbn [p_update].
    - destruct (f_update_rc vmax f j x) as [E F]. destruct (f_update vmax f j x) as [j1 r1], (f_update vmax f (rc j) (rc x)) as [j2 r2]. cbn [fst snd] in *. subst j2. unfold changes. cbn [fst snd]. f_equal.
      inversion F as [[a put] [b put'] [Ea Eb] E1 E2| |]; cbn; auto. cbn in Ea. now rewrite Ea.
    - rewrite f_find_rc. destruct (f_find f j); cbn [outcome].
      + pose proof (f_find_mut_rc f j) as F. inversion F as [[b put] [c put'] [Ea Eb] E1 E2| |]; try reflexivity. cbn [fst snd] in *. subst c. rewrite IH.
        destruct (p_update vmax p b x) as [i r]. unfold changes. cbn [fst snd]. now rewrite Eb.
      + pose proof (f_update_rc vmax f j JNull) as [E F]. rewrite rc_null in *. destruct (f_update vmax f j JNull) as [j1 r1], (f_update vmax f (rc j) JNull) as [j2 r2]. cbn [fst snd] in *. subst j2.
        inversion F as [[b put] [c put'] [Ea Eb] E1 E2| |]; try reflexivity. cbn [fst snd] in *. subst c. rewrite IH. destruct (p_update vmax p b x) as [i r]. unfold changes. cbn [fst snd]. now rewrite Eb.
      + pose proof (f_update_rc vmax f j JNull) as [E F]. rewrite rc_null in *. destruct (f_update vmax f j JNull) as [j1 r1], (f_update vmax f (rc j) JNull) as [j2 r2]. cbn [fst snd] in *. subst j2.
        inversion F as [[b put] [c put'] [Ea Eb] E1 E2| |]; try reflexivity. cbn [fst snd] in *. subst c. rewrite IH. destruct (p_update vmax p b x) as [i r]. unfold changes. cbn [fst snd]. now rewrite Eb.
      + pose proof (f_update_rc vmax f j JNull) as [E F]. rewrite rc_null in *. destruct (f_update vmax f j JNull) as [j1 r1], (f_update vmax f (rc j) JNull) as [j2 r2]. cbn [fst snd] in *. subst j2.
        inversion F as [[b put] [c put'] [Ea Eb] E1 E2| |]; try reflexivity. cbn [fst snd] in *. subst c. rewrite IH. destruct (p_update vmax p b x) as [i r]. unfold changes. cbn [fst snd]. now rewrite Eb.
  Qed.
  Lemma outcome_outcome_id {A} (r : res A) : outcome (fun x => x) r = r. Proof. now destruct r. Qed.
  Lemma get_rcs s j : get (rc j) s = outcome rc (get j s).
  Proof. unfold get. destruct s as [|c s]; [reflexivity|]. destruct (parse_path (c :: s)); cbn [bind]; try reflexivity. apply p_find_rc. Qed.
  Lemma del_rc s j : del (rc j) s = changes h rc (del j s).
  Proof. unfold del. destruct s as [|c s]; [reflexivity|]. destruct (parse_path (c :: s)); try reflexivity. apply p_discard_rc. Qed.
  Lemma set_rc vmax s j x : set vmax (rc j) s (rc x) = changes h rc (set vmax j s x).
  Proof. unfold set. destruct s as [|c s]; [reflexivity|]. destruct (parse_path (c :: s)); try reflexivity. apply p_update_rc. Qed.
  Lemma add_rc b j k x : add_option (rc j) k (rc x) b = changes h id (add_option j k x b).
  Proof.
    unfold add_option. cases j. unfold changes. cbn [fst snd outcome]. rewrite rc_JObj. destruct b; [now rewrite <- object_insert_rc|]. do 2 f_equal. exact (insert_rc k (x, []) o).
  Qed.
  Lemma delete_rc j k : delete (rc j) k = changes h id (delete j k).
  Proof. unfold delete. cases j. now rewrite remove_rc. Qed.
  Lemma push_rc j x : push (rc j) (rc x) = changes h id (push j x).
  Proof. unfold push. cases j. unfold changes. cbn [fst snd recode outcome]. now rewrite map_app. Qed.
  Lemma replace_rc j i x : replace (rc j) i (rc x) = changes h id (replace j i x).
  Proof. unfold replace. cases j. rewrite vec_get_rc. destruct (vec_get i v); [|reflexivity]. unfold changes. cbn [option_map fst snd recode outcome]. now rewrite vec_set_rc. Qed.
  Lemma remove_at_rc j i : remove (rc j) i = changes h id (remove j i).
  Proof. unfold remove. cases j. rewrite vlen_rc. destruct (i <? vlen v)%N; [|reflexivity]. unfold changes. cbn [fst snd recode outcome]. now rewrite vec_remove_rc. Qed.
  Lemma merge_rc j k : index_and_merge (rc j) k = outcome (map rc) (index_and_merge j k).
  Proof. unfold index_and_merge. cases j. rewrite get_rc. destruct (hm_get k o) as [[v l]|]; [|reflexivity]. cbn [option_map rc_val outcome fst snd]. now rewrite map_app, map_rev. Qed.
End Recode.

(** * No operation looks at scalars *)
(** Replacing every scalar by another of the same kind before an operation, in the document and in the value written, has the effect of
    replacing it afterwards: in the document and in the value returned. *)
Theorem operations_ignore_scalars h vmax j x k i p s : keeps_kinds h ->
  get (recode h j) s = outcome (recode h) (get j s) /\
  set vmax (recode h j) s (recode h x) = changes h (recode h) (set vmax j s x) /\
  del (recode h j) s = changes h (recode h) (del j s) /\
  p_find p (recode h j) = outcome (recode h) (p_find p j) /\
  p_update vmax p (recode h j) (recode h x) = changes h (recode h) (p_update vmax p j x) /\
  p_discard p (recode h j) = changes h (recode h) (p_discard p j) /\
  outcomes (fun r r' => fst r' = recode h (fst r) /\ forall y, snd r' (recode h y) = recode h (snd r y)) (p_find_mut p j) (p_find_mut p (recode h j)) /\
  insert (recode h j) k (recode h x) = changes h id (insert j k x) /\
  append (recode h j) k (recode h x) = changes h id (append j k x) /\
  delete (recode h j) k = changes h id (delete j k) /\
  push (recode h j) (recode h x) = changes h id (push j x) /\
  replace (recode h j) i (recode h x) = changes h id (replace j i x) /\
  remove (recode h j) i = changes h id (remove j i) /\
  index_and_merge (recode h j) k = outcome (map (recode h)) (index_and_merge j k) /\
  kind_name (recode h j) = kind_name j.
Proof.
  intros K. split; [now apply get_rcs|]. split; [now apply set_rc|]. split; [now apply del_rc|]. split; [now apply p_find_rc|]. split; [now apply p_update_rc|].
  split; [now apply p_discard_rc|]. split; [now apply p_find_mut_rc|]. split; [now apply add_rc|]. split; [now apply add_rc|]. split; [now apply delete_rc|].
  split; [now apply push_rc|]. split; [now apply replace_rc|]. split; [now apply remove_at_rc|]. split; [now apply merge_rc|]. now apply rc_kind.
Qed.

(** * Equal values behave equally *)
Definition unsign (j : json) : json := match j with JNum f => JNum (unsigned_num f) | _ => j end.
Definition denan (j : json) : json := match j with JNum S754_nan => JNum (S754_zero false) | _ => j end.
Lemma unsign_keeps : keeps_kinds unsign. Proof. repeat (split; [cbn; eauto|]). reflexivity. Qed.
Lemma denan_keeps : keeps_kinds denan.
Proof. split; [cbn; eauto|]. split; [intros []; cbn; eauto|]. split; [cbn; eauto|]. reflexivity. Qed.
Lemma map_eq_in {A B} (f g : A -> B) l : Forall (fun x => f x = g x) l -> map f l = map g l.
Proof. induction 1; cbn; congruence. Qed.
Lemma unsigned_recode j : unsigned j = recode unsign j.
Proof.
  induction j as [o IH|v IH|s|f|b|] using json_ind; cbn [unsigned recode]; try reflexivity.
  - f_equal. apply map_eq_in. eapply Forall_impl; [|exact IH]. intros e [E F]. rewrite E, (map_eq_in _ _ _ F). reflexivity.
  - f_equal. now apply map_eq_in.
Qed.
Lemma no_nan_recode j : no_nan j <-> recode denan j = j.
Proof.
  induction j as [o IH|v IH|s|f|b|] using json_ind; cbn [recode].
  - assert (L : forall l, Forall (fun j => no_nan j <-> recode denan j = j) l -> Forall no_nan l <-> map (recode denan) l = l).
    { induction 1 as [|x l Hx _ IHl]; [split; auto|]. cbn [map]. rewrite Forall_cons_iff, Hx, IHl. split; [intros [-> ->]; reflexivity|intros E; inversion E; split; congruence]. }
    split.
    + intros N. inversion N as [? HN| | | | |]; subst. f_equal. rewrite <- (map_id o) at 2. apply map_eq_in. rewrite Forall_forall in *. intros [k [v l]] Hin. destruct (HN _ Hin) as [A B], (IH _ Hin) as [C D].
      cbn [fst snd] in *. apply C in A. apply (L l D) in B. cbn. now rewrite A, B.
    + intros E. injection E as E. constructor. clear -IH E L. induction IH as [|[k [v l]] o [C D] _ IHo]; constructor; cbn [map fst snd] in *; injection E as E1 E2 E3.
      * exact (conj (proj2 C E1) (proj2 (L l D) E2)).
      * exact (IHo E3).
  - split.
    + intros N. inversion N as [|? HN| | | |]; subst. f_equal. rewrite <- (map_id v) at 2. apply map_eq_in. rewrite Forall_forall in *. intros x Hx. now apply IH, HN.
    + intros E. injection E as E. constructor. induction IH as [|x v Hx _ IHv]; constructor; cbn [map] in E; injection E as E1 E2; [exact (proj2 Hx E1)|]. exact (IHv E2).
  - split; constructor.
  - split; [intros N; inversion N; destruct f; cbn; congruence|]. destruct f; cbn; intros E; try discriminate; constructor; discriminate.
  - split; constructor.
  - split; constructor.
Qed.
Lemma recode_wf_unsigned j : wf j = true -> wf (unsigned j) = true.
Proof.
  assert (L : forall l, Forall (fun j => wf j = true -> wf (unsigned j) = true) l -> forallb wf l = true -> forallb wf (map unsigned l) = true).
  { induction 1 as [|x l Hx _ IHl]; cbn; [auto|]. rewrite !andb_true_iff. intros [A B]. auto. }
  induction j as [o IH|v IH|s|f|b|] using json_ind; cbn [unsigned wf]; auto.
  - rewrite !andb_true_iff. intros [K F]. split.
    + clear -K. induction o as [|[k x] [|[k' x'] o] IHo]; auto. cbn in *. apply andb_true_iff in K as [-> K]. cbn. apply IHo. exact K.
    + rewrite forallb_forall in *. intros e He. apply in_map_iff in He as (e0 & <- & He). cbn [fst snd]. specialize (F _ He). rewrite Forall_forall in IH. destruct (IH _ He) as [A B].
      apply andb_true_iff in F as [F1 F2]. apply andb_true_iff in F2 as [F2 F3]. rewrite F1, (A F2), (L _ B F3). reflexivity.
  - intros W. destruct f; auto.
Qed.
(** For values as they are in memory. *)
Lemma equal_iff a b : wf a = true -> wf b = true -> json_eqb a b = true <-> no_nan a /\ unsigned a = unsigned b.
Proof.
  intros Wa Wb. rewrite equality_ignores_only_order_and_zero_signs by now apply wf_legal. split; intros [N S]; (split; [exact N|]).
  - apply same_canonical; auto using recode_wf_unsigned.
  - rewrite S. apply same_refl.
Qed.
Lemma jeq_intro a b : wf a = true -> wf b = true -> recode denan a = a -> recode unsign a = recode unsign b -> jeq a b.
Proof. intros Wa Wb N U. apply equal_iff; auto. rewrite no_nan_recode, !unsigned_recode. auto. Qed.
Lemma jeq_elim a b : wf a = true -> wf b = true -> jeq a b -> recode denan a = a /\ recode unsign a = recode unsign b.
Proof. intros Wa Wb E. apply equal_iff in E; auto. now rewrite no_nan_recode, !unsigned_recode in E. Qed.
Definition settled {A} (ok : A -> Prop) (r : res A) : Prop := match r with Ok a => ok a | Fuel => False | _ => True end.
Lemma outcomes_intro {A} (R : A -> A -> Prop) ok (g1 g2 : A -> A) (r r' : res A) : settled ok r -> settled ok r' ->
  (forall x y, ok x -> ok y -> g1 x = x -> g2 x = g2 y -> R x y) -> outcome g1 r = r -> outcome g2 r = outcome g2 r' -> outcomes R r r'.
Proof. intros S S' I E1 E2. destruct r, r'; cbn in *; try discriminate; try contradiction; [|injection E2 as ->|]; constructor. injection E1 as E1. injection E2 as E2. auto. Qed.
Lemma alike_intro {A} (R : A -> A -> Prop) ok (g1 g2 : A -> A) (p q : json * res A) : wf (fst p) = true -> wf (fst q) = true -> settled ok (snd p) -> settled ok (snd q) ->
  (forall x y, ok x -> ok y -> g1 x = x -> g2 x = g2 y -> R x y) -> changes denan g1 p = p -> changes unsign g2 p = changes unsign g2 q -> alike R p q.
Proof.
  intros W W' S S' I E1 E2. destruct p as [j r], q as [j' r']. unfold changes in *. cbn [fst snd] in *. injection E1 as E1 E1'. injection E2 as E2 E2'. split; cbn [fst snd].
  - apply jeq_intro; auto.
  - eapply outcomes_intro; eauto.
Qed.
Lemma jeq_ok x y : wf x = true -> wf y = true -> recode denan x = x -> recode unsign x = recode unsign y -> jeq x y.
Proof. apply jeq_intro. Qed.
Lemma unit_ok (x y : unit) : True -> True -> id x = x -> id x = id y -> x = y.
Proof. auto. Qed.
(** No operation diverges. *)
Lemma f_find_runs f j : f_find f j <> Fuel.
Proof. destruct f, j; cbn; try discriminate; [destruct (hm_get k o) as [[]|]|destruct (vec_get i v)]; discriminate. Qed.
Lemma p_find_runs p : forall j, p_find p j <> Fuel.
Proof. induction p as [f|f p IH]; intros j; cbn; [apply f_find_runs|]. pose proof (f_find_runs f j). destruct (f_find f j); cbn; congruence || auto. Qed.
Lemma f_find_mut_runs f j : f_find_mut f j <> Fuel.
Proof. destruct f, j; cbn; try discriminate; [destruct (hm_get k o) as [[]|]|destruct (vec_get i v)]; discriminate. Qed.
Lemma f_discard_runs f j : snd (f_discard f j) <> Fuel.
Proof. destruct f, j; cbn; try discriminate; [destruct (hm_get k o) as [[]|]|destruct (i <? vlen v); [destruct (nth_error v (N.to_nat i))|]]; discriminate. Qed.
Lemma p_discard_runs p : forall j, snd (p_discard p j) <> Fuel.
Proof.
  induction p as [f|f p IH]; intros j; cbn [p_discard]; [apply f_discard_runs|]. pose proof (f_find_mut_runs f j). destruct (f_find_mut f j) as [[a put]| | |]; try discriminate; try congruence.
  specialize (IH a). destruct (p_discard p a). exact IH.
Qed.
Lemma f_update_runs vmax f j x : snd (f_update vmax f j x) <> Fuel.
Proof.
  assert (E : forall A (r : res A), r <> Fuel -> match r with Ok r => Ok r | Err _ => Panic | Panic => Panic | Fuel => Fuel end <> Fuel) by (intros A []; congruence).
  destruct f as [k|i]; cbn [f_update snd]; [apply E, f_find_mut_runs|]. destruct (match j with JArr v => _ | _ => _ end); [|discriminate].
  destruct (f_find_mut (Index i) (JArr l)) as [[a put]| | |]; try discriminate. apply E, f_find_mut_runs.
Qed.
Lemma p_update_runs vmax p : forall j x, snd (p_update vmax p j x) <> Fuel.
Proof.
  induction p as [f|f p IH]; intros j x; cbn [p_update].
  - pose proof (f_update_runs vmax f j x). destruct (f_update vmax f j x) as [j' []]; cbn in *; congruence.
  - assert (U : snd (match f_update vmax f j JNull with (j1, Ok (inner, put)) => let '(inner', r) := p_update vmax p inner x in (put inner', r)
       | (j1, Err e) => (j1, Err e) | (j1, Panic) => (j1, Panic) | (j1, Fuel) => (j1, Fuel) end) <> Fuel).
    { pose proof (f_update_runs vmax f j JNull). destruct (f_update vmax f j JNull) as [j' [[a put]| | |]]; cbn in *; try congruence. specialize (IH a x). destruct (p_update vmax p a x). exact IH. }
    destruct (f_find f j); try exact U. pose proof (f_find_mut_runs f j). destruct (f_find_mut f j) as [[b put]| | |]; cbn; try congruence. specialize (IH b x). destruct (p_update vmax p b x). exact IH.
Qed.
Lemma parse_path_runs s : parse_path s <> Fuel.
Proof. destruct (parse_path_cases s) as [(q & E & _)|(e & E & _)]; congruence. Qed.
Lemma get_runs s j : get j s <> Fuel.
Proof. unfold get. destruct s as [|c s]; [discriminate|]. pose proof (parse_path_runs (c :: s)). destruct (parse_path (c :: s)); cbn; try congruence. apply p_find_runs. Qed.
Lemma set_runs vmax s j x : snd (set vmax j s x) <> Fuel.
Proof. unfold set. destruct s as [|c s]; [discriminate|]. pose proof (parse_path_runs (c :: s)). destruct (parse_path (c :: s)); cbn; try congruence. apply p_update_runs. Qed.
Lemma del_runs s j : snd (del j s) <> Fuel.
Proof. unfold del. destruct s as [|c s]; [discriminate|]. pose proof (parse_path_runs (c :: s)). destruct (parse_path (c :: s)); cbn; try congruence. apply p_discard_runs. Qed.

(** What well formedness of the results needs. *)
Definition kept (p : json * res json) : Prop := wf (fst p) = true /\ settled (fun r => wf r = true) (snd p).
Lemma drel_kept p q : snd p <> Fuel -> PropsHistory.drel PropsHistory.rel p q -> kept p.
Proof. intros F [[W _] A]. split; [exact W|]. inversion A as [a b [Wa _] E1 E2|e E1 E2|E1 E2|E1 E2]; rewrite <- E1 in *; cbn; auto. Qed.
Lemma rel_self j : wf j = true -> PropsHistory.rel j j. Proof. intros W. split; [exact W|apply same_refl]. Qed.
Lemma json_alike p q : kept p -> kept q -> changes denan (recode denan) p = p -> changes unsign (recode unsign) p = changes unsign (recode unsign) q -> alike jeq p q.
Proof. intros [W S] [W' S'] N U. eapply (alike_intro jeq (fun r => wf r = true)); eauto using jeq_intro. Qed.
Lemma unit_alike (p q : json * res unit) : wf (fst p) = true -> wf (fst q) = true -> settled (fun _ => True) (snd p) -> settled (fun _ => True) (snd q) ->
  changes denan id p = p -> changes unsign id p = changes unsign id q -> alike eq p q.
Proof. intros W W' S S' N U. eapply (alike_intro eq (fun _ => True)); eauto. intros [] []; auto. Qed.

(** On values that are equal, lookups give equal values or the same error, and edits make equal changes. *)
Theorem equal_values_behave_equally vmax a b x y k i p s : wf a = true -> wf b = true -> wf x = true -> wf y = true ->
  scalar_str k = true -> scalar_str s = true -> path_fine p -> json_eqb a b = true -> json_eqb x y = true ->
  outcomes jeq (get a s) (get b s) /\ alike jeq (set vmax a s x) (set vmax b s y) /\ alike jeq (del a s) (del b s) /\
  outcomes jeq (p_find p a) (p_find p b) /\ alike jeq (p_update vmax p a x) (p_update vmax p b y) /\ alike jeq (p_discard p a) (p_discard p b) /\
  alike eq (insert a k x) (insert b k y) /\ alike eq (append a k x) (append b k y) /\ alike eq (delete a k) (delete b k) /\
  alike eq (push a x) (push b y) /\ alike eq (replace a i x) (replace b i y) /\ alike eq (remove a i) (remove b i) /\
  outcomes (Forall2 jeq) (index_and_merge a k) (index_and_merge b k) /\ kind_name a = kind_name b.
Proof.
  intros Wa Wb Wx Wy Sk Ss Pp E1 E2. destruct (jeq_elim a b Wa Wb E1) as [Na Uab]. destruct (jeq_elim x y Wx Wy E2) as [Nx Uxy]. clear E1 E2.
  pose proof unsign_keeps as HU. pose proof denan_keeps as HN.
  assert (KS : forall a x, wf a = true -> wf x = true -> kept (set vmax a s x)).
  { intros. eapply drel_kept; [apply set_runs|]. apply (PropsHistory.text_set_rel _ _ vmax PropsHistory.front_is_a_hash_map); auto using rel_self. }
  assert (KD : forall a, wf a = true -> kept (del a s)).
  { intros. eapply drel_kept; [apply del_runs|]. apply (PropsHistory.text_del_rel _ _ PropsHistory.front_is_a_hash_map); auto using rel_self. }
  assert (KU : forall a x, wf a = true -> wf x = true -> kept (p_update vmax p a x)).
  { intros. eapply drel_kept; [apply p_update_runs|]. apply (PropsHistory.p_update_rel _ _ vmax PropsHistory.front_is_a_hash_map); auto using rel_self. }
  assert (KI : forall a, wf a = true -> kept (p_discard p a)).
  { intros. eapply drel_kept; [apply p_discard_runs|]. apply (PropsHistory.p_discard_rel _ _ PropsHistory.front_is_a_hash_map); auto using rel_self. }
  assert (KG : forall a, wf a = true -> settled (fun r => wf r = true) (get a s)).
  { intros c Wc. destruct (PropsHistory.get_cases c s Wc) as [(r & -> & Wr)|(e & ->)]; cbn; auto. }
  assert (KF : forall a, wf a = true -> settled (fun r => wf r = true) (p_find p a)).
  { intros c Wc. destruct (PropsHistory.find_cases p c Wc) as [(r & -> & Wr)|(e & ->)]; cbn; auto. }
  assert (KM : forall a, wf a = true -> settled (fun r => forallb wf r = true) (index_and_merge a k)).
  { intros c Wc. pose proof (PropsHistory.merge_rel c c k (rel_self c Wc)) as M. assert (F : index_and_merge c k <> Fuel) by (destruct c; cbn; try discriminate; destruct (hm_get k o) as [[]|]; discriminate).
    inversion M as [l l' R E3 E4|e E3 E4|E3 E4|E3 E4]; rewrite <- E3 in *; cbn; auto. apply PropsHistory.F2_rel in R. apply R. }
  assert (KE : forall a x j', wf a = true -> wf x = true -> In j' (map fst [insert a k x; append a k x; delete a k; push a x; replace a i x; remove a i]) -> wf j' = true).
  { intros. eapply (PropsPath.edits_keep_well_formed k i x0 a0); eauto. }
  assert (SU : forall A (c : json * res A), snd c <> Fuel -> settled (fun _ => True) (snd c)) by (intros A [c []]; cbn; congruence || auto).
  split; [eapply (outcomes_intro jeq (fun r => wf r = true)); eauto using jeq_intro; rewrite <- ?get_rcs by assumption; congruence|].
  split; [apply json_alike; auto; rewrite <- !set_rc by assumption; congruence|].
  split; [apply json_alike; auto; rewrite <- !del_rc by assumption; congruence|].
  split; [eapply (outcomes_intro jeq (fun r => wf r = true)); eauto using jeq_intro; rewrite <- ?p_find_rc by assumption; congruence|].
  split; [apply json_alike; auto; rewrite <- !p_update_rc by assumption; congruence|].
  split; [apply json_alike; auto; rewrite <- !p_discard_rc by assumption; congruence|].
  split; [apply unit_alike; [eapply KE; [exact Wa|exact Wx|cbn; auto 8]|eapply KE; [exact Wb|exact Wy|cbn; auto 8]|apply SU; unfold insert; destruct a; discriminate|apply SU; unfold insert; destruct b; discriminate|..]; unfold insert; rewrite <- ?(add_rc denan), <- ?(add_rc unsign) by assumption; congruence|].
  split; [apply unit_alike; [eapply KE; [exact Wa|exact Wx|cbn; auto 8]|eapply KE; [exact Wb|exact Wy|cbn; auto 8]|apply SU; unfold append; destruct a; discriminate|apply SU; unfold append; destruct b; discriminate|..]; unfold append; rewrite <- ?(add_rc denan), <- ?(add_rc unsign) by assumption; congruence|].
  split; [apply unit_alike; [eapply (KE a x); [exact Wa|exact Wx|cbn; auto 8]|eapply (KE b x); [exact Wb|exact Wx|cbn; auto 8]|apply SU; destruct a; discriminate|apply SU; destruct b; discriminate|..]; rewrite <- ?(delete_rc denan), <- ?(delete_rc unsign) by assumption; congruence|].
  split; [apply unit_alike; [eapply (KE a x); [exact Wa|exact Wx|cbn; auto 8]|eapply (KE b y); [exact Wb|exact Wy|cbn; auto 8]|apply SU; destruct a; discriminate|apply SU; destruct b; discriminate|..]; rewrite <- ?(push_rc denan), <- ?(push_rc unsign) by assumption; congruence|].
  assert (RF : forall c z, snd (replace c i z) <> Fuel) by (intros [] z; cbn; try discriminate; destruct (vec_get i v); discriminate).
  assert (MF : forall c, snd (remove c i) <> Fuel) by (intros []; cbn; try discriminate; destruct (i <? vlen v)%N; discriminate).
  split; [apply unit_alike; [eapply (KE a x); [exact Wa|exact Wx|cbn; auto 8]|eapply (KE b y); [exact Wb|exact Wy|cbn; auto 8]|apply SU, RF|apply SU, RF|..]; rewrite <- ?(replace_rc denan), <- ?(replace_rc unsign) by assumption; congruence|].
  split; [apply unit_alike; [eapply (KE a x); [exact Wa|exact Wx|cbn; auto 8]|eapply (KE b x); [exact Wb|exact Wx|cbn; auto 8]|apply SU, MF|apply SU, MF|..]; rewrite <- ?(remove_at_rc denan), <- ?(remove_at_rc unsign) by assumption; congruence|].
  split.
  - eapply (outcomes_intro (Forall2 jeq) (fun r => forallb wf r = true) (map (recode denan)) (map (recode unsign))); eauto.
    + intros l l' W W' N U. revert l' W' U. induction l as [|z l IH]; intros [|z' l'] W' U; try discriminate; constructor; cbn [forallb map] in *; apply andb_true_iff in W as [Wz W], W' as [Wz' W'];
        injection N as N1 N2; injection U as U1 U2; [now apply jeq_intro|now apply IH].
    + rewrite <- (merge_rc denan) by assumption. now rewrite Na.
    + rewrite <- !(merge_rc unsign) by assumption. now rewrite Uab.
  - rewrite <- (rc_kind unsign HU a), <- (rc_kind unsign HU b). now rewrite Uab.
Qed.

(** * What tells equal values apart *)
(** Equal values without a negative zero are the same value, so print the same; what equal values print differs in signs of zeros only. *)
Theorem equal_values_print_alike a b : wf a = true -> wf b = true -> json_eqb a b = true ->
  to_string (unsigned a) = to_string (unsigned b) /\ (unsigned a = a -> unsigned b = b -> to_string a = to_string b).
Proof. intros Wa Wb E. apply equal_iff in E as [_ E]; auto. split; congruence. Qed.
(** Conversions to types without floats do not tell them apart, conversions to floats up to the sign of zero. *)
Lemma Z_of_f64_unsigned lo hi f : Z_of_f64_sat lo hi (unsigned_num f) = Z_of_f64_sat lo hi f.
Proof. now destruct f. Qed.
Lemma collect_ext {A B} (f g : A -> res B) l : Forall (fun x => f x = g x) l -> collect f l = collect g l.
Proof. induction 1 as [|x l E _ IH]; cbn; [reflexivity|]. now rewrite E, IH. Qed.
Lemma collect_map {A B C} (f : B -> res C) (g : A -> B) l : collect f (map g l) = collect (fun x => f (g x)) l.
Proof. induction l as [|x l IH]; cbn; [reflexivity|]. now rewrite IH. Qed.
Lemma convert_unsigned t : floatless t -> forall j, from_json (codec_of t) (unsigned j) = from_json (codec_of t) j.
Proof.
  induction t as [| | |i| | |a IH|a IH|k a IH|k a IH]; cbn [floatless]; intros M j; try contradiction; specialize (IH M) || idtac.
  - destruct j; reflexivity.
  - destruct j; reflexivity.
  - destruct j; cbn; try reflexivity. now rewrite Z_of_f64_unsigned.
  - destruct j as [o|v|s|f|b|]; cbn [unsigned codec_of c_vec from_json]; try reflexivity. rewrite collect_map. apply collect_ext. apply Forall_forall. intros x _. apply IH.
  - cbn [codec_of c_option from_json]. specialize (IH j). destruct j; cbn [unsigned] in *; try reflexivity; now rewrite IH.
  - destruct j as [o|v|s|f|b|]; cbn [unsigned codec_of c_pairs from_json]; try reflexivity. rewrite collect_map. f_equal. apply collect_ext. apply Forall_forall. intros [q [v l]] _.
    unfold pairs_of_entry. cbn [fst snd]. rewrite <- map_rev. change [unsigned v] with (map unsigned [v]). rewrite <- map_app, collect_map. apply collect_ext. apply Forall_forall. intros x _. now rewrite IH.
  - destruct j as [o|v|s|f|b|]; cbn [unsigned codec_of c_map from_json]; try reflexivity. generalize (@nil (key k * denote a)) as m. induction o as [|[q [v l]] o IHo]; intros m; cbn [map map_of_entries fst snd]; [reflexivity|].
    destruct (read_key (key_codec_of k) q); cbn [bind]; try reflexivity. rewrite IH. destruct (from_json (codec_of a) v); cbn [bind]; try reflexivity. apply IHo.
Qed.
Theorem equal_values_convert_alike t a b : floatless t -> wf a = true -> wf b = true -> json_eqb a b = true ->
  from_json (codec_of t) a = from_json (codec_of t) b.
Proof. intros F Wa Wb E. apply equal_iff in E as [_ E]; auto. rewrite <- (convert_unsigned t F a), <- (convert_unsigned t F b). now rewrite E. Qed.
Theorem equal_numbers_convert_alike a b f : wf a = true -> wf b = true -> json_eqb a b = true -> from_json c_f64 a = Ok f ->
  exists g, from_json c_f64 b = Ok g /\ equal_numbers f g.
Proof.
  intros Wa Wb E H. destruct a as [| | |f0| |]; try discriminate. cbn in H. injection H as ->. destruct b as [| | |g| |]; try discriminate. exists g. split; [reflexivity|].
  apply SFeqb_spec; auto.
Qed.
(** Two values that are equal and print differently. *)
Example zeros : let a := JArr [JNum (S754_zero true); JStr (lit "x")] in let b := JArr [JNum (S754_zero false); JStr (lit "x")] in
  wf a = true /\ wf b = true /\ json_eqb a b = true /\ to_string a = lit "[-0, ""x""]" /\ to_string b = lit "[0, ""x""]" /\
  fst (set 1000 a (lit "#2") a) <> fst (set 1000 b (lit "#2") b) /\ json_eqb (fst (set 1000 a (lit "#2") a)) (fst (set 1000 b (lit "#2") b)) = true.
Proof. vm_compute. repeat (split; [reflexivity|]). split; [discriminate|reflexivity]. Qed.
(** Hiding the contents of strings changes nothing about lookups. *)
Definition hide (j : json) : json := match j with JStr s => JStr (lit "*") | _ => j end.
Example hiding : keeps_kinds hide /\
  recode hide (JObj [(lit "a", (JArr [JStr (lit "secret"); JNull], [JStr (lit "old")]))]) = JObj [(lit "a", (JArr [JStr (lit "*"); JNull], [JStr (lit "*")]))] /\
  get (recode hide (JObj [(lit "a", (JArr [JStr (lit "secret"); JNull], [JStr (lit "old")]))])) (lit "a.#0") = Ok (JStr (lit "*")).
Proof. split; [repeat (split; [cbn; eauto|]); reflexivity|]. split; reflexivity. Qed.

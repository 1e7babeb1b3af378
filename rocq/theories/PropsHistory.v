(** C75: no program can see how hash maps arrange their entries. *)
From Verif Require Import Base F64 Json Parse Print Ops Path MapProofs SpecValue CanonProofs SpecConvert SpecOrder PropsDerive PropsOrder PropsEquality Equality PropsParse AnyMap SpecHistory.
From Verif Require SpecPath PathProofs PropsPath.
From Coq Require Import Permutation Bool Lia Floats.SpecFloat.

(** With the maps of the model these are the functions of [Ops] and [Path]. *)
Theorem these_are_the_operations vmax j k x b p s :
  a_add_option hm_insert j k x b = add_option j k x b /\ a_delete hm_remove j k = delete j k /\
  ap_find_mut hm_insert p j = p_find_mut p j /\ ap_discard hm_insert hm_remove p j = p_discard p j /\ ap_update hm_insert vmax p j x = p_update vmax p j x /\
  a_del hm_insert hm_remove j s = del j s /\ a_set hm_insert vmax j s x = set vmax j s x.
Proof. repeat (split; [reflexivity|]). reflexivity. Qed.

(** ** Simulation *)
Definition rel (c j : json) : Prop := wf c = true /\ same c j.
Definition erel (a b : json * list json) : Prop := rel (fst a) (fst b) /\ Forall2 rel (snd a) (snd b).
Inductive orel {A B} (R : A -> B -> Prop) : option A -> option B -> Prop := orel_some a b : R a b -> orel R (Some a) (Some b) | orel_none : orel R None None.
Lemma rel_legal c j : rel c j -> legal c /\ legal j.
Proof. intros [W S]. apply wf_legal in W. split; [exact W|]. eapply same_legal; eauto. Qed.
Lemma F2_rel l l' : Forall2 rel l l' <-> forallb wf l = true /\ Forall2 same l l'.
Proof.
  split.
  - induction 1 as [|a b l l' [W S] _ [IH1 IH2]]; [split; [reflexivity|constructor]|]. cbn [forallb]. rewrite W, IH1. split; [reflexivity|now constructor].
  - intros [W F]. induction F as [|a b l l' S F IH]; [constructor|]. cbn [forallb] in W. apply andb_true_iff in W as [W1 W2]. constructor; [now split|auto].
Qed.
Lemma obj_inv o o' : rel (JObj o) (JObj o') -> keys_sorted o = true /\ NoDup (map fst o') /\ (forall k v, hm_get k o = Some v -> scalar_str k = true) /\ forall k, orel erel (hm_get k o) (hm_get k o').
Proof.
  intros [W S]. pose proof (rel_legal _ _ (conj W S)) as [Lc Lj]. inversion Lj as [? N _| | | | |]; subst. inversion Lc as [? Nc Fc| | | | |]; subst.
  cbn [wf] in W. apply andb_true_iff in W as [K W]. rewrite forallb_forall in W. split; [exact K|]. split; [exact N|]. split.
  - intros k v G. apply hm_get_In in G. apply W in G. cbn [fst snd] in G. now apply andb_true_iff in G as [G _].
  - intros k. pose proof (same_get o o' Nc S k) as G. destruct (hm_get k o) as [[v l]|] eqn:E, (hm_get k o') as [[v' l']|]; try contradiction; constructor.
    apply hm_get_In in E. apply W in E. cbn [fst snd] in *. apply andb_true_iff in E as [_ E]. apply andb_true_iff in E as [E1 E2]. destruct G as [G1 G2]. split; [now split|]. cbn [snd]. apply F2_rel. auto.
Qed.
Lemma obj_rel o o' : keys_sorted o = true -> NoDup (map fst o') -> (forall k v, hm_get k o = Some v -> scalar_str k = true) -> (forall k, orel erel (hm_get k o) (hm_get k o')) -> rel (JObj o) (JObj o').
Proof.
  intros K N Sc G. pose proof (keys_sorted_NoDup o K) as Nc. split.
  - cbn [wf]. rewrite K. cbn [andb]. apply forallb_forall. intros [k [v l]] I. pose proof (proj2 (hm_get_NoDup o k (v, l) Nc) I) as E. cbn [fst snd]. rewrite (Sc k _ E). cbn [andb].
    specialize (G k). rewrite E in G. inversion G as [a b [[R1 R2] R3] Ea Eb|]; subst. cbn [fst snd] in *. apply F2_rel in R3 as [R3 _]. now rewrite R1, R3.
  - set (p := map (fun e : entry => (fst e, match hm_get (fst e) o with Some v => v | None => (JNull, []) end)) o').
    assert (Kp : map fst p = map fst o') by (unfold p; rewrite map_map; apply map_ext; reflexivity).
    apply (same_obj o p).
    + apply NoDup_Permutation.
      * eapply NoDup_map_inv; exact Nc.
      * eapply NoDup_map_inv. rewrite Kp. exact N.
      * intros [k v]. split; intros I.
        -- apply (hm_get_NoDup o k v Nc) in I. specialize (G k). rewrite I in G. inversion G as [a b R Ea Eb|]; subst. symmetry in Eb. apply hm_get_In in Eb. unfold p. apply in_map_iff. exists (k, b). cbn [fst]. rewrite I. auto.
        -- unfold p in I. apply in_map_iff in I as ([k' w] & E & I). cbn [fst] in E. apply (hm_get_NoDup o' k' w N) in I. specialize (G k'). rewrite I in G. inversion G as [a b R Ea Eb|]; subst. rewrite <- Ea in E. injection E as <- <-. now apply hm_get_In.
    + unfold p. assert (H : forall l, incl l o' -> Forall2 (fun e e' : entry => fst e = fst e' /\ same (fst (snd e)) (fst (snd e')) /\ Forall2 same (snd (snd e)) (snd (snd e')))
        (map (fun e : entry => (fst e, match hm_get (fst e) o with Some v => v | None => (JNull, []) end)) l) l).
      { induction l as [|[k w] l IH]; intros I; [constructor|]. cbn [map]. constructor.
        - cbn [fst snd]. split; [reflexivity|]. assert (E : hm_get k o' = Some w) by (apply hm_get_NoDup; [exact N|apply I; now left]). specialize (G k). rewrite E in G. inversion G as [a b [[R1 R2] R3] Ea Eb|]; subst.
          apply F2_rel in R3 as [_ R3]. auto.
        - apply IH. intros x Hx. apply I. now right. }
      apply H. intros x Hx. exact Hx.
Qed.
Lemma arr_inv v v' : rel (JArr v) (JArr v') <-> Forall2 rel v v'.
Proof.
  rewrite F2_rel. split.
  - intros [W S]. inversion S; subst. auto.
  - intros [W S]. split; [exact W|now constructor].
Qed.
(** Related values are of the same kind. *)
Lemma rel_cases c j : rel c j -> (exists o o', c = JObj o /\ j = JObj o') \/ (exists v v', c = JArr v /\ j = JArr v') \/ (c = j /\ match c with JObj _ | JArr _ => False | _ => True end).
Proof. intros [W S]. inversion S; subst; eauto 6. Qed.
Lemma rel_kind c j : rel c j -> kind_name c = kind_name j.
Proof. intros [_ S]. now inversion S. Qed.
Inductive alike {A B} (R : A -> B -> Prop) : res A -> res B -> Prop :=
| alike_ok a b : R a b -> alike R (Ok a) (Ok b)
| alike_err e : alike R (Err e) (Err e)
| alike_panic : alike R Panic Panic
| alike_fuel : alike R Fuel Fuel.
Definition wrel (a b : json * (json -> json)) : Prop := rel (fst a) (fst b) /\ forall x y, rel x y -> rel (snd a x) (snd b y).
Lemma F2_nth {A B} (R : A -> B -> Prop) l l' : Forall2 R l l' -> forall n, orel R (nth_error l n) (nth_error l' n).
Proof. induction 1 as [|a b l l' H _ IH]; intros [|n]; cbn; try constructor; auto. Qed.
Lemma F2_set (v v' : list json) x y : Forall2 rel v v' -> rel x y -> forall n, Forall2 rel (vec_set n x v) (vec_set n y v').
Proof. intros F R. induction F as [|a b l l' H F IH]; intros [|n]; cbn; constructor; auto. Qed.
Lemma F2_remove (v v' : list json) : Forall2 rel v v' -> forall n, Forall2 rel (vec_remove n v) (vec_remove n v').
Proof. induction 1 as [|a b l l' H F IH]; intros [|n]; cbn; try constructor; auto. Qed.
Lemma vlen_rel (v v' : list json) : Forall2 rel v v' -> vlen v = vlen v'.
Proof. intros F. unfold vlen. f_equal. eapply F2_length; eauto. Qed.
Lemma rel_null : rel JNull JNull.
Proof. split; [reflexivity|constructor]. Qed.
Lemma F2_resize i (v v' : list json) : Forall2 rel v v' -> Forall2 rel (resize i v) (resize i v').
Proof. intros F. unfold resize. rewrite (vlen_rel _ _ F). apply Forall2_app; [exact F|]. induction (N.to_nat (i + 1 - vlen v')); cbn; constructor; auto using rel_null. Qed.
(** Arrays *)
Lemma vec_get_rel i v v' : Forall2 rel v v' -> orel rel (vec_get i v) (vec_get i v').
Proof. intros F. unfold vec_get. rewrite (vlen_rel _ _ F). destruct (i <? vlen v')%N; [now apply F2_nth|constructor]. Qed.
Ltac kinds H := destruct (rel_cases _ _ H) as [(?o & ?o' & -> & ->)|[(?v & ?v' & -> & ->)|[-> ?K]]].
Lemma find_rel f c j : rel c j -> alike rel (f_find f c) (f_find f j).
Proof.
  intros R. pose proof (rel_kind _ _ R) as K0. destruct f as [k|i]; cbn [f_find]; kinds R.
  - apply obj_inv in R as (_ & _ & _ & G). specialize (G k). inversion G as [[a l] [b l'] [E _]|]; cbn [fst snd] in *; constructor; auto.
  - constructor.
  - destruct j; try contradiction; constructor.
  - constructor.
  - apply arr_inv in R. pose proof (vec_get_rel i _ _ R) as G. inversion G; constructor; auto.
  - destruct j; try contradiction; constructor.
Qed.
Lemma index_mut_rel i c j : rel c j -> alike wrel (f_find_mut (Index i) c) (f_find_mut (Index i) j).
Proof.
  intros R. cbn [f_find_mut]. kinds R.
  - constructor.
  - apply arr_inv in R. pose proof (vec_get_rel i _ _ R) as G. inversion G; constructor. split; [assumption|]. intros x y Rxy. cbn [snd]. apply arr_inv. now apply F2_set.
  - destruct j; try contradiction; constructor.
Qed.
Definition drel {A B} (R : A -> B -> Prop) (a : json * res A) (b : json * res B) : Prop := rel (fst a) (fst b) /\ alike R (snd a) (snd b).
Lemma index_discard_rel i c j : rel c j -> drel rel (f_discard (Index i) c) (f_discard (Index i) j).
Proof.
  intros R. cbn [f_discard]. pose proof R as R0. kinds R; try (split; [exact R0|constructor]).
  - apply arr_inv in R. rewrite (vlen_rel _ _ R). destruct (i <? vlen v')%N; [|split; [exact R0|constructor]].
    pose proof (F2_nth _ _ _ R (N.to_nat i)) as G. inversion G as [x y H1 H2 H3|]; (split; [|constructor; auto]); auto. cbn [fst]. apply arr_inv. now apply F2_remove.
  - destruct j; try contradiction; (split; [exact R0|constructor]).
Qed.
Lemma index_update_rel vmax i c j x y : rel c j -> rel x y -> drel wrel (f_update vmax (Index i) c x) (f_update vmax (Index i) j y).
Proof.
  intros R Rx. cbn [f_update].
  assert (S : forall v v', Forall2 rel v v' -> drel wrel
     (match f_find_mut (Index i) (JArr v) with Ok (_, put) => let j' := put x in (j', match f_find_mut (Index i) j' with Ok r => Ok r | Err _ => Panic | Panic => Panic | Fuel => Fuel end) | _ => (JArr v, Panic) end)
     (match f_find_mut (Index i) (JArr v') with Ok (_, put) => let j' := put y in (j', match f_find_mut (Index i) j' with Ok r => Ok r | Err _ => Panic | Panic => Panic | Fuel => Fuel end) | _ => (JArr v', Panic) end)).
  { intros v v' F. assert (RA : rel (JArr v) (JArr v')) by now apply arr_inv. pose proof (index_mut_rel i _ _ RA) as M.
    destruct (f_find_mut (Index i) (JArr v)) as [[a w]| | |], (f_find_mut (Index i) (JArr v')) as [[a' w']| | |]; inversion M as [? ? W| | |]; subst; try (split; [exact RA|constructor]).
    destruct W as [_ W]. cbn [snd] in W. cbv zeta. split; [now apply W|]. cbn [snd]. pose proof (index_mut_rel i _ _ (W x y Rx)) as M2.
    destruct (f_find_mut (Index i) (w x)) as [p| | |], (f_find_mut (Index i) (w' y)) as [p'| | |]; inversion M2; subst; constructor; auto. }
  pose proof R as R0. kinds R.
  - destruct (vmax <? i + 1)%N; [split; [exact R0|constructor]|]. apply S. apply F2_resize. constructor.
  - apply arr_inv in R. rewrite (vlen_rel _ _ R). destruct (vlen v' <=? i)%N; [destruct (vmax <? i + 1)%N; [split; [exact R0|constructor]|apply S; now apply F2_resize]|now apply S].
  - destruct j; try contradiction; (destruct (vmax <? i + 1)%N; [split; [exact R0|constructor]|apply S; apply F2_resize; constructor]).
Qed.
Section Any.
  Variables (put : str -> json * list json -> hmap -> hmap) (del_key : str -> hmap -> hmap) (order : json -> json) (vmax : N).
  Hypothesis HM : hash_map put del_key.
  Hypothesis HO : reorders order.
  Lemma get_put m k v k' : NoDup (map fst m) -> hm_get k' (put k v m) = if str_eqb k' k then Some v else hm_get k' m.
  Proof.
    intros N. pose proof (put_once _ _ HM m k v N) as N'. destruct (str_eqb k' k) eqn:E.
    - apply str_eqb_eq in E. subst. apply hm_get_NoDup; [exact N'|]. apply (put_entries _ _ HM); auto.
    - assert (D : k' <> k) by (intros ->; rewrite (proj2 (str_eqb_eq k k) eq_refl) in E; discriminate). destruct (hm_get k' m) as [w|] eqn:G.
      + apply hm_get_NoDup; [exact N'|]. apply (put_entries _ _ HM); auto. right. split; [exact D|now apply hm_get_In].
      + apply hm_get_none. intros I. apply in_map_iff in I as ([k2 w] & E2 & I). cbn [fst] in E2. subst. apply (put_entries _ _ HM) in I as [[-> _]|[_ I]]; auto. apply hm_get_none in G. apply G. change k' with (fst (k', w)). now apply in_map.
  Qed.
  Lemma get_del m k k' : NoDup (map fst m) -> hm_get k' (del_key k m) = if str_eqb k' k then None else hm_get k' m.
  Proof.
    intros N. pose proof (del_once _ _ HM m k N) as N'. destruct (str_eqb k' k) eqn:E.
    - apply str_eqb_eq in E. subst. apply hm_get_none. intros I. apply in_map_iff in I as ([k2 w] & E2 & I). cbn [fst] in E2. subst. apply (del_entries _ _ HM) in I as [I _]; auto.
    - assert (D : k' <> k) by (intros ->; rewrite (proj2 (str_eqb_eq k k) eq_refl) in E; discriminate). destruct (hm_get k' m) as [w|] eqn:G.
      + apply hm_get_NoDup; [exact N'|]. apply (del_entries _ _ HM); auto. split; [exact D|now apply hm_get_In].
      + apply hm_get_none. intros I. apply in_map_iff in I as ([k2 w] & E2 & I). cbn [fst] in E2. subst. apply (del_entries _ _ HM) in I as [_ I]; auto. apply hm_get_none in G. apply G. change k' with (fst (k', w)). now apply in_map.
  Qed.
  Lemma put_rel o o' k e e' : rel (JObj o) (JObj o') -> scalar_str k = true -> erel e e' -> rel (JObj (hm_insert k e o)) (JObj (put k e' o')).
  Proof.
    intros R S E. apply obj_inv in R as (K & N & Sc & G). apply obj_rel.
    - now apply hm_insert_sorted.
    - now apply (put_once _ _ HM).
    - intros k' v. rewrite hm_get_insert by exact K. destruct (str_eqb k' k) eqn:E1; [apply str_eqb_eq in E1; subst; auto|eauto].
    - intros k'. rewrite hm_get_insert by exact K. rewrite get_put by exact N. destruct (str_eqb k' k); [now constructor|apply G].
  Qed.
  Lemma del_rel o o' k : rel (JObj o) (JObj o') -> rel (JObj (hm_remove k o)) (JObj (del_key k o')).
  Proof.
    intros R. apply obj_inv in R as (K & N & Sc & G). apply obj_rel.
    - now apply hm_remove_sorted.
    - now apply (del_once _ _ HM).
    - intros k' v. rewrite hm_get_remove by exact K. destruct (str_eqb k' k); [discriminate|eauto].
    - intros k'. rewrite hm_get_remove by exact K. rewrite get_del by exact N. destruct (str_eqb k' k); [constructor|apply G].
  Qed.
  Lemma empty_rel : rel (JObj []) (JObj []).
  Proof. split; [reflexivity|]. apply (same_obj [] []); constructor. Qed.
  Lemma add_rel c j k x y b : rel c j -> rel x y -> scalar_str k = true -> drel eq (add_option c k x b) (a_add_option put j k y b).
  Proof.
    intros R Rx S. unfold add_option, a_add_option. pose proof R as R0. kinds R; try (split; [exact R0|constructor; auto]).
    - split; [|constructor; reflexivity]. cbn [fst]. destruct b; [|apply put_rel; [exact R0|exact S|split; [exact Rx|constructor]]].
      unfold object_insert, a_object_insert. apply obj_inv in R as (K & N & Sc & G). specialize (G k). inversion G as [[a l] [a' l'] [E1 E2] H1 H2|H1 H2]; cbn [fst snd] in *.
      + apply put_rel; [exact R0|exact S|]. split; [exact Rx|]. cbn [snd]. now constructor.
      + apply put_rel; [exact R0|exact S|]. split; [exact Rx|constructor].
    - destruct j; try contradiction; (split; [exact R0|constructor]).
  Qed.
  Lemma delete_rel c j k : rel c j -> drel eq (delete c k) (a_delete del_key j k).
  Proof.
    intros R. unfold delete, a_delete. pose proof R as R0. kinds R; try (split; [exact R0|constructor]).
    - split; [now apply del_rel|constructor; reflexivity].
    - destruct j; try contradiction; (split; [exact R0|constructor]).
  Qed.
  Lemma find_mut_rel f c j : finder_fine f -> rel c j -> alike wrel (f_find_mut f c) (a_find_mut put f j).
  Proof.
    intros S R. destruct f as [k|i]; [|now apply index_mut_rel]. cbn [f_find_mut a_find_mut]. cbn [finder_fine] in S. pose proof R as R0. kinds R; try constructor.
    - apply obj_inv in R as (K & N & Sc & G). specialize (G k). inversion G as [[a l] [a' l'] [E1 E2] H1 H2|H1 H2]; cbn [fst snd] in *; constructor.
      split; [exact E1|]. intros x y Rx. cbn [snd]. apply put_rel; auto. split; auto.
    - destruct j; try contradiction; constructor.
  Qed.
  Lemma discard_rel f c j : rel c j -> drel rel (f_discard f c) (a_discard del_key f j).
  Proof.
    intros R. destruct f as [k|i]; [|now apply index_discard_rel]. cbn [f_discard a_discard]. pose proof R as R0. kinds R; try (split; [exact R0|constructor]).
    - apply obj_inv in R as (K & N & Sc & G). specialize (G k). inversion G as [[a l] [a' l'] [E1 E2] H1 H2|H1 H2]; cbn [fst snd] in *; [|split; [exact R0|constructor]].
      split; [now apply del_rel|now constructor].
    - destruct j; try contradiction; (split; [exact R0|constructor]).
  Qed.
  Lemma update_rel f c j x y : finder_fine f -> rel c j -> rel x y -> drel wrel (f_update vmax f c x) (a_update put vmax f j y).
  Proof.
    intros S R Rx. destruct f as [k|i]; [|now apply index_update_rel]. cbn [f_update a_update]. cbv zeta.
    assert (D : forall c' j', rel c' j' -> drel wrel (c', match f_find_mut (Key k) c' with Ok r => Ok r | Err _ => Panic | Panic => Panic | Fuel => Fuel end)
       (j', match a_find_mut put (Key k) j' with Ok r => Ok r | Err _ => Panic | Panic => Panic | Fuel => Fuel end)).
    { intros c' j' R'. split; [exact R'|]. cbn [snd]. pose proof (find_mut_rel (Key k) _ _ S R') as M. destruct (f_find_mut (Key k) c'), (a_find_mut put (Key k) j'); inversion M; subst; constructor; auto. }
    assert (E : erel (x, []) (y, [])) by (split; [exact Rx|constructor]).
    kinds R; apply D.
    - apply put_rel; auto.
    - apply put_rel; auto using empty_rel.
    - destruct j; try contradiction; apply put_rel; auto using empty_rel.
  Qed.
  Lemma p_find_rel p : forall c j, rel c j -> alike rel (p_find p c) (p_find p j).
  Proof.
    induction p as [f|f p IH]; intros c j R; cbn [p_find]; [now apply find_rel|]. pose proof (find_rel f c j R) as M.
    destruct (f_find f c), (f_find f j); inversion M; subst; cbn [bind]; try constructor. now apply IH.
  Qed.
  Lemma p_find_mut_rel p : path_fine p -> forall c j, rel c j -> alike wrel (p_find_mut p c) (ap_find_mut put p j).
  Proof.
    induction p as [f|f p IH]; intros S c j R; cbn [p_find_mut ap_find_mut]; [now apply find_mut_rel|]. destruct S as [S1 S2]. pose proof (find_mut_rel f c j S1 R) as M.
    destruct (f_find_mut f c) as [[a w]| | |], (a_find_mut put f j) as [[a' w']| | |]; inversion M as [? ? [W1 W2]| | |]; subst; cbn [bind]; try constructor. cbn [fst snd] in *.
    pose proof (IH S2 _ _ W1) as M2. destruct (p_find_mut p a) as [[b u]| | |], (ap_find_mut put p a') as [[b' u']| | |]; inversion M2 as [? ? [U1 U2]| | |]; subst; cbn [bind]; try constructor. cbn [fst snd] in *.
    split; [exact U1|]. cbn [snd]. auto.
  Qed.
  Lemma p_discard_rel p : path_fine p -> forall c j, rel c j -> drel rel (p_discard p c) (ap_discard put del_key p j).
  Proof.
    induction p as [f|f p IH]; intros S c j R; cbn [p_discard ap_discard]; [now apply discard_rel|]. destruct S as [S1 S2]. pose proof (find_mut_rel f c j S1 R) as M.
    destruct (f_find_mut f c) as [[a w]| | |], (a_find_mut put f j) as [[a' w']| | |]; inversion M as [? ? [W1 W2]| | |]; subst; try (split; [exact R|constructor]). cbn [fst snd] in *.
    pose proof (IH S2 _ _ W1) as [D1 D2]. destruct (p_discard p a) as [b r], (ap_discard put del_key p a') as [b' r']. cbn [fst snd] in *. split; cbn [fst snd]; auto.
  Qed.
  Lemma p_update_rel p : path_fine p -> forall c j x y, rel c j -> rel x y -> drel rel (p_update vmax p c x) (ap_update put vmax p j y).
  Proof.
    induction p as [f|f p IH]; intros S c j x y R Rx; cbn [p_update ap_update].
    - pose proof (update_rel f c j x y S R Rx) as [D1 D2]. destruct (f_update vmax f c x) as [c' r], (a_update put vmax f j y) as [j' r']. cbn [fst snd] in *. split; [exact D1|]. cbn [snd].
      inversion D2 as [? ? [W1 _]| | |]; subst; cbn [rmap bind]; constructor. exact W1.
    - destruct S as [S1 S2]. pose proof (find_rel f c j R) as F. pose proof (find_mut_rel f c j S1 R) as M. pose proof (update_rel f c j JNull JNull S1 R rel_null) as [D1 D2].
      assert (X : drel rel
        match f_update vmax f c JNull with (j1, Ok (inner, put)) => let '(inner', r) := p_update vmax p inner x in (put inner', r) | (j1, Err e) => (j1, Err e) | (j1, Panic) => (j1, Panic) | (j1, Fuel) => (j1, Fuel) end
        match a_update put vmax f j JNull with (j1, Ok (inner, w)) => let '(inner', r) := ap_update put vmax p inner y in (w inner', r) | (j1, Err e) => (j1, Err e) | (j1, Panic) => (j1, Panic) | (j1, Fuel) => (j1, Fuel) end).
      { destruct (f_update vmax f c JNull) as [c' [[a w]| | |]], (a_update put vmax f j JNull) as [j' [[a' w']| | |]]; cbn [fst snd] in *; inversion D2 as [? ? [W1 W2]| | |]; subst; try (split; [exact D1|constructor]). cbn [fst snd] in *.
        pose proof (IH S2 a a' x y W1 Rx) as [E1 E2]. destruct (p_update vmax p a x) as [b r], (ap_update put vmax p a' y) as [b' r']. cbn [fst snd] in *. split; cbn [fst snd]; auto. }
      destruct (f_find f c), (f_find f j); inversion F; subst; try exact X.
      destruct (f_find_mut f c) as [[u w]| | |], (a_find_mut put f j) as [[u' w']| | |]; inversion M as [? ? [W1 W2]| | |]; subst; try (split; [exact R|constructor]). cbn [fst snd] in *.
      pose proof (IH S2 u u' x y W1 Rx) as [E1 E2]. destruct (p_update vmax p u x) as [b r], (ap_update put vmax p u' y) as [b' r']. cbn [fst snd] in *. split; cbn [fst snd]; auto.
  Qed.
  (** Paths as texts *)
  Lemma finder_of_fine s f : scalar_str s = true -> finder_of s = Ok f -> finder_fine f.
  Proof.
    unfold finder_of. destruct s as [|c s]; intros S; [intros [= <-]; reflexivity|]. cbn [scalar_str forallb] in S. pose proof S as S0. apply andb_true_iff in S as [S1 S2].
    destruct (c =? HASH)%N; [destruct (usize_from_str s); [|discriminate]; intros [= <-]; exact I|]. destruct (c =? BSLASH)%N; intros [= <-]; [exact S2|exact S0].
  Qed.
  Lemma scalar_app a b : scalar_str (a ++ b) = scalar_str a && scalar_str b.
  Proof. unfold scalar_str. apply forallb_app. Qed.
  Lemma path_loop_fine s : forall buf vec l, scalar_str s = true -> scalar_str buf = true -> Forall finder_fine vec -> path_loop buf vec s = Ok l -> Forall finder_fine l.
  Proof.
    assert (G : forall n s, (List.length s < n)%nat -> forall buf vec l, scalar_str s = true -> scalar_str buf = true -> Forall finder_fine vec -> path_loop buf vec s = Ok l -> Forall finder_fine l).
    { induction n as [|n IH]; intros t Hn buf vec l S B V H; [lia|]. destruct t as [|c r]; cbn [path_loop] in H.
      - destruct (finder_of buf) as [f| | |] eqn:E; cbn [bind] in H; try discriminate. injection H as <-. apply Forall_app. split; [exact V|]. constructor; [eapply finder_of_fine; eauto|constructor].
      - cbn [List.length] in Hn. cbn [scalar_str forallb] in S. apply andb_true_iff in S as [S1 S2]. change (scalar_str r = true) in S2. destruct (c =? DOT)%N.
        + destruct (finder_of buf) as [f| | |] eqn:E; cbn [bind] in H; try discriminate. eapply IH; [| | | |exact H]; try lia; auto. apply Forall_app. split; [exact V|]. constructor; [eapply finder_of_fine; eauto|constructor].
        + destruct (c =? BSLASH)%N.
          * destruct r as [|c' r'].
            -- eapply IH; [| | | |exact H]; cbn; try lia; auto. rewrite scalar_app, B. reflexivity.
            -- destruct (c' =? DOT)%N.
               ++ cbn [scalar_str forallb] in S2. apply andb_true_iff in S2 as [_ S2]. eapply IH; [| | | |exact H]; cbn in *; try lia; auto. rewrite scalar_app, B. reflexivity.
               ++ eapply IH; [| | | |exact H]; try lia; auto. rewrite scalar_app, B. reflexivity.
          * eapply IH; [| | | |exact H]; try lia; auto. rewrite scalar_app, B. unfold scalar_str. cbn [forallb]. now rewrite S1. }
    intros buf vec l. apply (G (S (List.length s)) s). lia.
  Qed.
  Lemma append_fine p f : path_fine p -> finder_fine f -> path_fine (path_append p f).
  Proof. induction p as [g|g p IH]; cbn [path_append path_fine path_new]; [now split|]. intros [A B] C. split; [exact A|now apply IH]. Qed.
  Lemma parse_path_fine s p : scalar_str s = true -> parse_path s = Ok p -> path_fine p.
  Proof.
    unfold parse_path. intros S H. destruct (path_loop [] [] s) as [l| | |] eqn:E; cbn [bind] in H; try discriminate. apply path_loop_fine in E; auto. destruct E as [|f l Hf Hl]; [discriminate|]. injection H as <-.
    revert f Hf. assert (G : forall q, path_fine q -> path_fine (fold_left path_append l q)) by (induction Hl as [|g l Hg _ IH]; intros q Hq; [exact Hq|]; cbn [fold_left]; apply IH; now apply append_fine). intros f Hf. now apply G.
  Qed.
  Lemma get_rel s c j : rel c j -> alike rel (get c s) (get j s).
  Proof. intros R. unfold get. destruct s as [|ch s]; [constructor|]. destruct (parse_path (ch :: s)); cbn [bind]; try constructor. now apply p_find_rel. Qed.
  Lemma text_del_rel s c j : scalar_str s = true -> rel c j -> drel rel (del c s) (a_del put del_key j s).
  Proof.
    intros S R. unfold del, a_del. destruct s as [|ch s]; [split; [exact R|constructor]|]. destruct (parse_path (ch :: s)) as [p| | |] eqn:E; try (split; [exact R|constructor]). apply p_discard_rel; auto. eapply parse_path_fine; eauto.
  Qed.
  Lemma text_set_rel s c j x y : scalar_str s = true -> rel c j -> rel x y -> drel rel (set vmax c s x) (a_set put vmax j s y).
  Proof.
    intros S R Rx. unfold set, a_set. destruct s as [|ch s]; [split; [exact R|constructor]|]. destruct (parse_path (ch :: s)) as [p| | |] eqn:E; try (split; [exact R|constructor]). apply p_update_rel; auto. eapply parse_path_fine; eauto.
  Qed.
  (** Arrays and observations *)
  Lemma push_rel c j x y : rel c j -> rel x y -> drel eq (push c x) (push j y).
  Proof.
    intros R Rx. unfold push. pose proof R as R0. kinds R; try (split; [exact R0|constructor]).
    - apply arr_inv in R. split; [|constructor; reflexivity]. apply arr_inv. apply Forall2_app; auto.
    - destruct j; try contradiction; (split; [exact R0|constructor]).
  Qed.
  Lemma replace_rel c j i x y : rel c j -> rel x y -> drel eq (replace c i x) (replace j i y).
  Proof.
    intros R Rx. unfold replace. pose proof R as R0. kinds R; try (split; [exact R0|constructor]).
    - apply arr_inv in R. pose proof (vec_get_rel i _ _ R) as G. inversion G; (split; [|constructor; auto]); auto. apply arr_inv. now apply F2_set.
    - destruct j; try contradiction; (split; [exact R0|constructor]).
  Qed.
  Lemma remove_rel c j i : rel c j -> drel eq (remove c i) (remove j i).
  Proof.
    intros R. unfold remove. pose proof R as R0. kinds R; try (split; [exact R0|constructor]).
    - apply arr_inv in R. rewrite (vlen_rel _ _ R). destruct (i <? vlen v')%N; (split; [|constructor; auto]); auto. apply arr_inv. now apply F2_remove.
    - destruct j; try contradiction; (split; [exact R0|constructor]).
  Qed.
  Lemma print_rel c j : rel c j -> to_string c = to_string j.
  Proof. intros [W S]. apply PropsPrint.printing_ignores_iteration_order; [now apply wf_unique|exact S]. Qed.
  Lemma merge_rel c j k : rel c j -> alike (Forall2 rel) (index_and_merge c k) (index_and_merge j k).
  Proof.
    intros R. unfold index_and_merge. kinds R; try constructor.
    - apply obj_inv in R as (K & N & Sc & G). specialize (G k). inversion G as [[a l] [a' l'] [E1 E2] H1 H2|H1 H2]; cbn [fst snd] in *; constructor. apply Forall2_app; [|constructor; [exact E1|constructor]].
      clear - E2. induction E2; cbn; auto. apply Forall2_app; auto.
    - destruct j; try contradiction; constructor.
  Qed.
  Lemma eqb_half a a' b b' : legal a -> legal a' -> legal b -> legal b' -> same a a' -> same b b' -> json_eqb a b = true -> json_eqb a' b' = true.
  Proof.
    intros La La' Lb Lb' Sa Sb E. apply equality_decides; auto. pose proof (proj1 (equality_ignores_only_order_and_zero_signs a b La Lb) E) as [Na _]. apply equality_decides in E; auto.
    assert (Nb : SpecEquality.no_nan b). { apply (equal_refl b Lb). apply equal_trans with a; [now apply equal_sym|exact E]. }
    apply equal_trans with a; [apply equal_sym; now apply same_equal|]. apply equal_trans with b; [exact E|now apply same_equal].
  Qed.
  Lemma compare_rel a a' b b' : rel a a' -> rel b b' -> json_eqb a b = json_eqb a' b'.
  Proof.
    intros Ra Rb. destruct (rel_legal _ _ Ra) as [L1 L2], (rel_legal _ _ Rb) as [L3 L4]. destruct Ra as [_ Ra], Rb as [_ Rb]. destruct (json_eqb a b) eqn:E.
    - symmetry. apply (eqb_half a a' b b'); auto.
    - destruct (json_eqb a' b') eqn:E'; [|reflexivity]. rewrite <- E. apply (eqb_half a' a b' b); auto using same_sym.
  Qed.
  (** ** Runs *)
  Lemma copy_rel c j : rel c j -> rel (canon c) (order j).
  Proof.
    intros [W S]. split; [apply canon_legal_wf; now apply wf_legal|]. apply same_trans with c; [apply same_sym, canon_same|]. apply same_trans with j; [exact S|apply HO].
  Qed.
  Lemma load_rel j : legal j -> rel (canon j) (order j).
  Proof. intros L. split; [now apply canon_legal_wf|]. apply same_trans with j; [apply same_sym, canon_same|apply HO]. Qed.
  Definition mrel (m m' : nat -> json) : Prop := forall n, rel (m n) (m' n).
  Lemma store_rel m m' r c j : mrel m m' -> rel c j -> mrel (store m r c) (store m' r j).
  Proof. intros M R n. unfold store. destruct (Nat.eqb n r); [exact R|apply M]. Qed.
  Definition srel (a b : (nat -> json) * answer) : Prop := mrel (fst a) (fst b) /\ snd a = snd b.
  Lemma edited_rel {A B} (R : A -> B -> Prop) m m' r x y : mrel m m' -> drel R x y -> srel (edited m r x) (edited m' r y).
  Proof. intros M [D1 D2]. split; [now apply store_rel|]. cbn [snd edited]. destruct D2; reflexivity. Qed.
  Lemma fetched_rel m m' dst x y : mrel m m' -> alike rel x y -> srel (fetched canon m dst x) (fetched order m' dst y).
  Proof. intros M A. destruct A; (split; [|reflexivity]); try exact M. cbn [fst fetched]. apply store_rel; [exact M|now apply copy_rel]. Qed.
  Lemma taken_rel m m' r dst x y : mrel m m' -> drel rel x y -> srel (AnyMap.taken canon m r dst x) (AnyMap.taken order m' r dst y).
  Proof. intros M [D1 D2]. apply fetched_rel; [now apply store_rel|exact D2]. Qed.
  Lemma perform_rel m m' c : call_fine c -> mrel m m' -> srel (perform hm_insert hm_remove vmax canon m c) (perform put del_key vmax order m' c).
  Proof.
    intros F M. destruct c as [dst j|dst s|r k src|r k src|r k|r src|r i src|r i|r p dst|r p src|r p src|r p dst|r s dst|r s src|r s dst|r k|r|r|r r']; cbn [perform call_fine] in *.
    - split; [|reflexivity]. cbn [fst]. apply store_rel; auto using load_rel.
    - apply fetched_rel; [exact M|]. destruct (parse s) as [v| | |] eqn:E; constructor. apply parsed_values_well_formed in E as [W _]; [|exact F]. split; [exact W|apply same_refl].
    - eapply edited_rel; [exact M|]. apply add_rel; auto using copy_rel.
    - eapply edited_rel; [exact M|]. apply add_rel; auto using copy_rel.
    - eapply edited_rel; [exact M|]. now apply delete_rel.
    - eapply edited_rel; [exact M|]. apply push_rel; auto using copy_rel.
    - eapply edited_rel; [exact M|]. apply replace_rel; auto using copy_rel.
    - eapply edited_rel; [exact M|]. now apply remove_rel.
    - apply fetched_rel; [exact M|]. now apply p_find_rel.
    - pose proof (p_find_mut_rel p F (m r) (m' r) (M r)) as W. change (ap_find_mut hm_insert p (m r)) with (p_find_mut p (m r)).
      destruct (p_find_mut p (m r)) as [[a w]| | |], (ap_find_mut put p (m' r)) as [[a' w']| | |]; inversion W as [? ? [W1 W2]| | |]; subst; (split; [|reflexivity]); try exact M. cbn [fst snd] in *. apply store_rel; auto using copy_rel.
    - eapply edited_rel; [exact M|]. apply (p_update_rel p F); auto using copy_rel.
    - apply taken_rel; [exact M|]. now apply (p_discard_rel p F).
    - apply fetched_rel; [exact M|]. now apply get_rel.
    - eapply edited_rel; [exact M|]. apply text_set_rel; auto using copy_rel.
    - apply taken_rel; [exact M|]. now apply text_del_rel.
    - split; [exact M|]. cbn [snd]. pose proof (merge_rel _ _ k (M r)) as A. destruct A as [l l' A| | |]; try reflexivity. cbn [answered]. f_equal. induction A as [|x y l l' Rx _ IH]; [reflexivity|]. cbn [map]. now rewrite IH, (print_rel _ _ Rx).
    - split; [exact M|]. cbn [snd]. now rewrite (print_rel _ _ (M r)).
    - split; [exact M|]. cbn [snd]. now rewrite (rel_kind _ _ (M r)).
    - split; [exact M|]. cbn [snd]. now rewrite (compare_rel _ _ _ _ (M r) (M r')).
  Qed.
  Lemma history_rel s : strategy_fine s -> forall n seen m m', mrel m m' -> history hm_insert hm_remove vmax canon s n seen m = history put del_key vmax order s n seen m'.
  Proof.
    intros F. induction n as [|n IH]; intros seen m m' M; cbn [history]; [reflexivity|]. destruct (s seen) as [c|] eqn:E; [|reflexivity]. pose proof (perform_rel m m' c (F _ _ E) M) as [P1 P2].
    destruct (perform hm_insert hm_remove vmax canon m c) as [m1 a], (perform put del_key vmax order m' c) as [m1' a']. cbn [fst snd] in *. subst. f_equal. destruct a'; try reflexivity; now apply IH.
  Qed.
  Lemma answers_as_in_the_model s n : strategy_fine s -> answers hm_insert hm_remove vmax canon s n = answers put del_key vmax order s n.
  Proof. intros F. apply history_rel; [exact F|]. intros k. apply rel_null. Qed.
End Any.

(** ** The theorems *)
(** Whatever a program does, it gets the answers of the model, in which the entries of an object are always in ascending order ... *)
Theorem histories_are_those_of_the_model put del_key order vmax s calls : hash_map put del_key -> reorders order -> strategy_fine s ->
  answers put del_key vmax order s calls = answers hm_insert hm_remove vmax canon s calls.
Proof. intros H O F. symmetry. now apply answers_as_in_the_model. Qed.
(** ... so it gets the same answers with any two hash maps. *)
Theorem no_program_sees_the_order put del_key order put' del_key' order' vmax s calls :
  hash_map put del_key -> reorders order -> hash_map put' del_key' -> reorders order' -> strategy_fine s ->
  answers put del_key vmax order s calls = answers put' del_key' vmax order' s calls.
Proof. intros H O H' O' F. rewrite (histories_are_those_of_the_model put del_key order), (histories_are_those_of_the_model put' del_key' order') by assumption. reflexivity. Qed.
(** The answers are all a program has: more calls only add to them. *)
Theorem histories_grow put del_key order vmax s calls : exists more, answers put del_key vmax order s (S calls) = answers put del_key vmax order s calls ++ more.
Proof.
  unfold answers. generalize (@nil answer) as seen, (fun _ : nat => JNull) as m. induction calls as [|n IH]; intros seen m; [eexists; reflexivity|].
  change (exists more, match s seen with Some c => let '(m', a) := perform put del_key vmax order m c in a :: match a with Crashed => [] | _ => history put del_key vmax order s (S n) (seen ++ [a]) m' end | None => [] end =
    match s seen with Some c => let '(m', a) := perform put del_key vmax order m c in a :: match a with Crashed => [] | _ => history put del_key vmax order s n (seen ++ [a]) m' end | None => [] end ++ more).
  destruct (s seen) as [c|]; [|exists []; reflexivity]. destruct (perform put del_key vmax order m c) as [m' a]. destruct (IH (seen ++ [a]) m') as [more E].
  destruct a; try (exists more; cbn [app]; f_equal; exact E). exists []. reflexivity.
Qed.

(** ** The answers are those of the methods *)
Lemma canon_id j : wf j = true -> canon j = j.
Proof. intros W. symmetry. apply same_canonical; auto using canon_same. apply canon_legal_wf. now apply wf_legal. Qed.
Lemma find_cases p j : wf j = true -> (exists x, p_find p j = Ok x /\ wf x = true) \/ (exists e, p_find p j = Err e).
Proof.
  intros W. pose proof (PathProofs.p_find_walk p j) as F. destruct (SpecPath.walk (SpecPath.steps p) j) as [x|] eqn:E.
  - left. exists x. split; [exact F|]. eapply PathProofs.walk_wf; eauto.
  - right. destruct F as (e & _ & _ & _ & _ & F & _). eauto.
Qed.
Lemma get_cases j s : wf j = true -> (exists x, get j s = Ok x /\ wf x = true) \/ (exists e, get j s = Err e).
Proof.
  intros W. destruct (PropsPath.get_never_panics j s) as [[x E]|[e E]]; [left|right; eauto]. exists x. split; [exact E|].
  apply PropsPath.get_navigates in E as (_ & p & _ & E). eapply PathProofs.walk_wf; eauto.
Qed.
Lemma fetched_canon m dst x : wf x = true -> fetched canon m dst (Ok x) = (store m dst x, Fine).
Proof. intros W. unfold fetched. now rewrite canon_id. Qed.
Lemma answered_seen {A} (r : res A) : answered (fun _ => Fine) r = seen_of r.
Proof. now destruct r. Qed.
Lemma edited_does {A} m r (x : json * res A) :
  edited m r x = (fst (edited m r x), seen_of (snd x)) /\ forall n, fst (edited m r x) n = changed m [(r, fst x)] n.
Proof. unfold edited. rewrite answered_seen. split; reflexivity. Qed.
Lemma perform_does vmax m c : (forall n, wf (m n) = true) -> call_fine c -> exists l,
  Does vmax m c l (snd (perform hm_insert hm_remove vmax canon m c)) /\ forall x, fst (perform hm_insert hm_remove vmax canon m c) x = changed m l x.
Proof.
  intros W F.
  assert (ED : forall (A : Type) r (x : json * res A) c', (forall j a, x = (j, a) -> Does vmax m c' [(r, j)] (seen_of a)) ->
     exists l, Does vmax m c' l (snd (edited m r x)) /\ forall n, fst (edited m r x) n = changed m l n).
  { intros A r [j a] c' H. exists [(r, j)]. unfold edited. cbn [fst snd]. rewrite answered_seen. split; [now apply H|reflexivity]. }
  assert (FE : forall dst x c', (forall j, x = Ok j -> wf j = true /\ Does vmax m c' [(dst, j)] Fine) -> (forall e, x = Err e -> Does vmax m c' [] (Failed e)) ->
     (exists j, x = Ok j) \/ (exists e, x = Err e) -> exists l, Does vmax m c' l (snd (fetched canon m dst x)) /\ forall n, fst (fetched canon m dst x) n = changed m l n).
  { intros dst x c' H1 H2 [[j ->]|[e ->]].
    - destruct (H1 j eq_refl) as [Wj D]. rewrite fetched_canon by exact Wj. exists [(dst, j)]. split; [exact D|reflexivity].
    - exists []. split; [now apply H2|reflexivity]. }
  assert (TA : forall r dst x c', (forall j y, x = (j, Ok y) -> wf y = true /\ Does vmax m c' [(r, j); (dst, y)] Fine) ->
     (forall j e, x = (j, Err e) -> j = m r /\ Does vmax m c' [] (Failed e)) -> (exists j, snd x = Ok j) \/ (exists e, snd x = Err e) ->
     exists l, Does vmax m c' l (snd (AnyMap.taken canon m r dst x)) /\ forall n, fst (AnyMap.taken canon m r dst x) n = changed m l n).
  { intros r dst [j x] c' H1 H2 [[y E]|[e E]]; cbn [snd] in E; subst x; unfold AnyMap.taken; cbn [fst snd].
    - destruct (H1 j y eq_refl) as [Wy D]. rewrite fetched_canon by exact Wy. exists [(r, j); (dst, y)]. split; [exact D|reflexivity].
    - destruct (H2 j e eq_refl) as [-> D]. exists []. split; [exact D|]. intros n. cbn [fst fetched]. unfold store, changed. cbn [fold_left].
      destruct (Nat.eqb_spec n r); congruence. }
  destruct c; cbn [perform call_fine] in *; rewrite ?canon_id by apply W;
    try change (a_add_option hm_insert) with add_option; try change (a_delete hm_remove) with delete.
  - exists [(dst, canon j)]. split; [|reflexivity]. constructor; [apply canon_same|now apply canon_legal_wf].
  - apply FE; [intros j E; split; [now apply parsed_values_well_formed in E as [? _]|now constructor]|intros e E; now constructor|apply parse_is_total].
  - apply ED. intros j a E. now constructor.
  - apply ED. intros j a E. now constructor.
  - apply ED. intros j a E. now constructor.
  - apply ED. intros j a E. now constructor.
  - apply ED. intros j a E. now constructor.
  - apply ED. intros j a E. now constructor.
  - destruct (find_cases p (m r) (W r)) as [(x & E & Wx)|(e & E)]; rewrite E.
    + apply FE; [intros j [= <-]; split; [exact Wx|now constructor]|discriminate|eauto].
    + apply FE; [discriminate|intros e' [= <-]; now constructor|eauto].
  - change (ap_find_mut hm_insert p (m r)) with (p_find_mut p (m r)). pose proof (PathProofs.p_find_mut_find p (m r)) as E.
    destruct (find_cases p (m r) (W r)) as [(x & E' & Wx)|(e & E')]; rewrite E' in E; destruct (p_find_mut p (m r)) as [[x' w]| | |] eqn:EE; try discriminate.
    + exists [(r, w (m src))]. split; [now apply do_write with x'|reflexivity].
    + injection E as ->. exists []. split; [now constructor|reflexivity].
  - apply ED. intros j a E. now constructor.
  - pose proof (PathProofs.p_discard_find p (m r)) as E. change (ap_discard hm_insert hm_remove p (m r)) with (p_discard p (m r)). apply TA.
    + intros j y E'. rewrite E' in E. destruct (find_cases p (m r) (W r)) as [(x & E2 & Wx)|(e & E2)]; rewrite E2 in E; cbn in E; [|discriminate].
      injection E as ->. split; [exact Wx|now constructor].
    + intros j e E'. pose proof (PropsPath.failed_discard_changes_nothing _ _ _ _ (W r) E') as ->. split; [reflexivity|now constructor].
    + rewrite E. destruct (find_cases p (m r) (W r)) as [(x & E2 & Wx)|(e & E2)]; eauto.
  - destruct (get_cases (m r) s (W r)) as [(x & E & Wx)|(e & E)]; rewrite E.
    + apply FE; [intros j [= <-]; split; [exact Wx|now constructor]|discriminate|eauto].
    + apply FE; [discriminate|intros e' [= <-]; now constructor|eauto].
  - apply ED. intros j a E. now constructor.
  - pose proof (PropsPath.del_returns_get (m r) s) as E. change (a_del hm_insert hm_remove (m r) s) with (del (m r) s). apply TA.
    + intros j y E'. rewrite E' in E. destruct (get_cases (m r) s (W r)) as [(x & E2 & Wx)|(e & E2)]; rewrite E2 in E; cbn in E; [|discriminate].
      injection E as ->. split; [exact Wx|now constructor].
    + intros j e E'. pose proof (PropsPath.failed_del_changes_nothing _ _ _ _ (W r) E') as ->. split; [reflexivity|now constructor].
    + rewrite E. destruct (get_cases (m r) s (W r)) as [(x & E2 & Wx)|(e & E2)]; eauto.
  - exists []. split; [|reflexivity]. cbn [snd]. destruct (index_and_merge (m r) k) eqn:E; [now constructor|now constructor|exfalso..];
      unfold index_and_merge in E; destruct (m r); try discriminate; destruct (hm_get k _) as [[]|]; discriminate.
  - exists []. split; [constructor|reflexivity].
  - exists []. split; [constructor|reflexivity].
  - exists []. split; [constructor|reflexivity].
Qed.
Lemma gets_history put del_key order vmax s (H : hash_map put del_key) (O : reorders order) : strategy_fine s -> forall n seen m m', (forall n, rel (m n) (m' n)) ->
  Gets vmax s n seen m (history put del_key vmax order s n seen m').
Proof.
  intros F. induction n as [|n IH]; intros seen m m' M; [constructor|]. cbn [history]. destruct (s seen) as [c|] eqn:E; [|now constructor].
  assert (W : forall x, wf (m x) = true) by (intros x; apply M). destruct (perform_does vmax m c W (F _ _ E)) as (l & D & C).
  destruct (perform_rel put del_key order vmax H O m m' c (F _ _ E) M) as [P1 P2].
  destruct (perform put del_key vmax order m' c) as [m1' a'], (perform hm_insert hm_remove vmax canon m c) as [m1 a]. cbn [fst snd] in *. subst a'.
  destruct a; try (apply gets_more with (c := c) (l := l) (m' := m1); auto; discriminate). eapply gets_panic; eauto.
Qed.
(** Whatever the hash maps do, a program gets the answers of the methods. *)
Theorem programs_get_the_answers_of_the_methods put del_key order vmax s calls : hash_map put del_key -> reorders order -> strategy_fine s ->
  Gets vmax s calls [] (fun _ => JNull) (answers put del_key vmax order s calls).
Proof. intros H O F. apply gets_history; auto. intros n. apply rel_null. Qed.

(** ** An example *)
Section Example75.
  (** New entries go to the front, others to the end; copies are reversed at every level. *)
  Definition front (k : str) (v : json * list json) (m : hmap) : hmap :=
    match hm_get k m with Some _ => filter (fun e => negb (str_eqb k (fst e))) m ++ [(k, v)] | None => (k, v) :: m end.
  Definition without (k : str) (m : hmap) : hmap := filter (fun e => negb (str_eqb k (fst e))) m.
  Fixpoint reversed (j : json) : json :=
    match j with
    | JObj o => JObj (rev (map (fun e => (fst e, (reversed (fst (snd e)), map reversed (snd (snd e))))) o))
    | JArr v => JArr (map reversed v)
    | _ => j
    end.
  Lemma str_eqb_neq a b : a <> b -> str_eqb a b = false.
  Proof. intros D. destruct (str_eqb a b) eqn:E; [|reflexivity]. apply str_eqb_eq in E. contradiction. Qed.
  Lemma without_In k m k' w : In (k', w) (without k m) <-> k' <> k /\ In (k', w) m.
  Proof.
    unfold without. rewrite filter_In. cbn [fst]. split.
    - intros [I E]. split; [|exact I]. intros ->. rewrite (proj2 (str_eqb_eq k k) eq_refl) in E. discriminate.
    - intros [D I]. split; [exact I|]. rewrite str_eqb_neq; auto.
  Qed.
  Lemma without_NoDup k m : NoDup (map fst m) -> NoDup (map fst (without k m)).
  Proof.
    induction m as [|[k' w] m IH]; cbn [map]; intros N; [constructor|]. inversion N as [|? ? N1 N2]; subst. unfold without. cbn [filter fst]. destruct (negb (str_eqb k k')); [|now apply IH].
    cbn [map fst]. constructor; [|now apply IH]. intros I. apply N1. apply in_map_iff in I as ([k2 w2] & E & I). cbn [fst] in E. subst. apply filter_In in I as [I _]. change k' with (fst (k', w2)). now apply in_map.
  Qed.
  Example front_is_a_hash_map : hash_map front without.
  Proof.
    split.
    - intros m k v N. unfold front. destruct (hm_get k m) eqn:G.
      + rewrite map_app. apply (Permutation_NoDup (l := k :: map fst (without k m))); [change (k :: map fst (without k m)) with ([k] ++ map fst (without k m)); apply Permutation_app_comm|].
        constructor; [|now apply without_NoDup]. intros I. apply in_map_iff in I as ([k2 w2] & E & I). cbn [fst] in E. subst. now apply without_In in I as [I _].
      + constructor; [now apply hm_get_none|exact N].
    - intros m k v k' w N. unfold front. destruct (hm_get k m) eqn:G.
      + rewrite in_app_iff. change (filter (fun e => negb (str_eqb k (fst e))) m) with (without k m). rewrite without_In. split.
        * intros [H|[H|[]]]; [now right|]. injection H as <- <-. now left.
        * intros [[-> ->]|H]; [right; now left|now left].
      + split.
        * intros [H|H]; [injection H as <- <-; now left|]. right. split; [|exact H]. intros ->. apply hm_get_none in G. apply G. change k with (fst (k, w)). now apply in_map.
        * intros [[-> ->]|[_ H]]; [now left|now right].
    - intros m k N. now apply without_NoDup.
    - intros m k k' w N. apply without_In.
  Qed.
  Example reversed_reorders : reorders reversed.
  Proof.
    intros j. induction j as [o IH|v IH|s|f|b|] using json_ind; cbn [reversed]; try constructor.
    - apply (same_obj o (rev o)); [apply Permutation_rev|]. apply Forall_rev in IH. rewrite <- map_rev. revert IH. generalize (rev o) as l. induction 1 as [|e l [H1 H2] _ IHl]; [constructor|]. cbn [map]. constructor; [|exact IHl].
      cbn [fst snd]. split; [reflexivity|]. split; [exact H1|]. clear - H2. induction H2; cbn [map]; constructor; auto.
    - induction IH; cbn [map]; constructor; auto.
  Qed.
  Let one : json := JNum (SpecFloat.S754_finite false 4503599627370496 (-52)).
  Let calls : list call :=
    [ParseText 0 (lit "{""b"": 1, ""a"": [true], ""b"": 2}"); Load 1 one; Insert 0 (lit "c") 1; SetText 0 (lit "a.#2") 1; Merge 0 (lit "b"); Print 0;
     Write 0 (PEnd (Key (lit "b"))) 0; Compare 0 1; DelText 0 (lit "b.d") 2; Discard 0 (PNext (Key (lit "b")) (PEnd (Key (lit "a")))) 2; Print 2; Print 0; Remove 2 7; Kind 0].
  Let run_them : strategy := fun seen => nth_error calls (List.length seen).
  Example run_fine : strategy_fine run_them.
  Proof.
    intros seen c E. apply nth_error_In in E. revert c E. apply Forall_forall. repeat apply Forall_cons; try apply Forall_nil; cbn; try reflexivity; try exact I.
    - apply wf_legal. vm_compute. reflexivity.
    - split; reflexivity.
  Qed.
  (** The answers, here computed with those odd maps; the last call panics. *)
  Example run_answers : answers front without 1000 reversed run_them 20 =
    [Fine; Fine; Fine; Fine; Texts [lit "1"; lit "2"]; Text (lit "{""a"": [true, null, 1], ""b"": 1, ""b"": 2, ""c"": 1}"); Fine; Truth false;
     Failed (mkError MissingKey (lit "missing key ""d"".")); Fine; Text (lit "[true, null, 1]");
     Text (lit "{""a"": [true, null, 1], ""b"": 1, ""b"": {""b"": 1, ""b"": 2, ""c"": 1}, ""c"": 1}"); Crashed].
  Proof. vm_compute. reflexivity. Qed.
End Example75.

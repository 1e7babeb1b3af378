(** Lemmas about reading and running the generated code. *)
From Verif Require Import Base F64 Json Ops Convert Derive Tokens SpecAttr SpecTokens TokenProofs Quote SpecQuote Macros SpecMacros SpecRust.
From Coq Require Import Permutation.

(** * Reading *)
Lemma read_block_S : forall n ts, read_block (S n) ts = ltac:(let t := eval cbn [read_block] in (read_block (S n) ts) in exact t). Proof. reflexivity. Qed.
Lemma read_inits_S : forall n ts, read_inits (S n) ts = ltac:(let t := eval cbn [read_inits] in (read_inits (S n) ts) in exact t). Proof. reflexivity. Qed.
Lemma read_arms_S : forall n ts, read_arms (S n) ts = ltac:(let t := eval cbn [read_arms] in (read_arms (S n) ts) in exact t). Proof. reflexivity. Qed.
Lemma read_exprs_S : forall n ts, read_exprs (S n) ts = ltac:(let t := eval cbn [read_exprs] in (read_exprs (S n) ts) in exact t). Proof. reflexivity. Qed.
Lemma read_suffix_S : forall n e ts, read_suffix (S n) e ts = ltac:(let t := eval cbn [read_suffix] in (read_suffix (S n) e ts) in exact t). Proof. reflexivity. Qed.
Lemma read_atom_S : forall n l ts, read_atom (S n) l ts = ltac:(let t := eval cbn [read_atom] in (read_atom (S n) l ts) in exact t). Proof. reflexivity. Qed.
Lemma read_expr_S : forall n l ts, read_expr (S n) l ts = ltac:(let t := eval cbn [read_expr] in (read_expr (S n) l ts) in exact t). Proof. reflexivity. Qed.
Local Arguments read_block : simpl never.
Local Arguments read_inits : simpl never.
Local Arguments read_arms : simpl never.
Local Arguments read_exprs : simpl never.
Local Arguments read_suffix : simpl never.
Local Arguments read_atom : simpl never.
Local Arguments read_expr : simpl never.
Ltac head t := lazymatch t with
  | obind ?x _ => head x
  | match ?x with _ => _ end => head x
  | snd ?x => head x
  | fst ?x => head x
  | _ => t
  end.
Ltac known ts := lazymatch ts with cons _ _ => idtac | nil => idtac end.
Ltac step := lazymatch goal with |- ?l = _ => let h := head l in
  lazymatch h with
  | read_block (S ?n) ?ts => known ts; rewrite (read_block_S n ts)
  | read_inits (S ?n) ?ts => known ts; rewrite (read_inits_S n ts)
  | read_arms (S ?n) ?ts => known ts; rewrite (read_arms_S n ts)
  | read_exprs (S ?n) ?ts => known ts; rewrite (read_exprs_S n ts)
  | read_suffix (S ?n) ?e ?ts => rewrite (read_suffix_S n e ts)
  | read_atom (S ?n) ?e ?ts => known ts; rewrite (read_atom_S n e ts)
  | read_expr (S ?n) ?e ?ts => known ts; rewrite (read_expr_S n e ts)
  end end; cbn.
Definition write_stmt (key field : str) : expr :=
  Match (Method (Path [lit "js"]) (lit "add_option")
           (ECons (Method (Lit key) (lit "to_string") ENil)
             (ECons (Call (Path [lit "json"; lit "ToJson"; lit "to_json"]) (ECons (Ref (FieldOf (Path [lit "self"]) field)) ENil))
               (ECons (Path [lit "true"]) ENil))))
    (ACons (Ctor [lit "Ok"] (PCons Wild PNil)) Unit (ACons (Ctor [lit "Err"] (PCons Wild PNil)) (Mac [lit "unreachable"] ENil) ANil)).
Ltac compute_code := repeat match goal with |- context [code ?s] => let x := eval vm_compute in (code s) in change (code s) with x end.
Lemma write_reads n k f rest : read_block (20 + n) (write_code k f ++ rest) = let! b := read_block (19 + n) rest in Some (Do (write_stmt k f) b).
Proof.
  unfold write_code, parens, literal, ident. compute_code. cbn.
  repeat step. reflexivity.
Qed.
Definition read_type (ty : list ptok) : block :=
  Value (Try (Call (Qualified ty [lit "json"; lit "FromJson"] (lit "from_json")) (ECons (Path [lit "v"]) ENil))).
Definition read_else (key : str) : block :=
  Do (Return (Call (Path [lit "Err"]) (ECons (Call (Path [lit "json"; lit "Error"; lit "new"])
        (ECons (Path [lit "json"; lit "ErrorKind"; lit "MissingKey"])
          (ECons (Mac [lit "format"] (ECons (Lit (34 :: lit "missing key \""{}\""." ++ [34])) (ECons (Lit key) ENil))) ENil))) ENil))) NoValue.
Definition read_init (key : str) (ty : list ptok) : expr :=
  Block (Value (IfLet (Ctor [lit "Some"] (PCons (Tuple (PCons (Bind (lit "v")) (PCons Wild PNil))) PNil))
                      (Method (Path [lit "obj"]) (lit "get") (ECons (Lit key) ENil)) (read_type ty) (read_else key))).
Definition closed (ty : list ptok) : Prop := forall r, split_as 0 (ty ++ PId (lit "as") :: r) = Some (ty, r).
Local Arguments split_as : simpl never.
Lemma type_reads n ty : closed ty -> read_block (20 + n) (code "<" ++ ty ++ code "as json::FromJson>::from_json(v)?") = Some (read_type ty).
Proof.
  intros C. compute_code. cbn. do 2 step. rewrite read_atom_S. cbn -[more_path]. change [97; 115] with (lit "as"). rewrite C. cbn. repeat step. reflexivity.
Qed.
Lemma read_reads n k f ty rest : closed ty -> read_inits (40 + n) (read_code k f ty ++ rest) = let! r := read_inits (39 + n) rest in Some (ICons f (read_init k ty) r).
Proof.
  intros C. unfold read_code, ident. rewrite <- !app_assoc.
  set (g := code "<" ++ ty ++ code "as json::FromJson>::from_json(v)?").
  assert (G : forall n, read_block (20 + n) g = Some (read_type ty)) by (intros; now apply type_reads). clearbody g.
  unfold parens, braces, literal. compute_code. cbn. repeat step. cbn in G. rewrite G. cbn. repeat step. reflexivity.
Qed.
Definition default_init : expr := Call (Path [lit "std"; lit "default"; lit "Default"; lit "default"]) ENil.
Lemma default_reads n f rest : read_inits (10 + n) (default_code f ++ rest) = let! r := read_inits (9 + n) rest in Some (ICons f default_init r).
Proof. unfold default_code, ident. compute_code. cbn. repeat step. reflexivity. Qed.

(** The bodies of the two methods. *)
Fixpoint writes (rows : list (str * str)) (rest : block) : block :=
  match rows with [] => rest | r :: rows => Do (write_stmt (fst r) (snd r)) (writes rows rest) end.
Lemma writes_read rows : forall n, read_block (20 + List.length rows + n) (flat_map (fun row => write_code (fst row) (snd row)) rows ++ code "js") =
  Some (writes rows (Value (Path [lit "js"]))).
Proof.
  induction rows as [|r rows IH]; intros n.
  - compute_code. cbn. repeat step. reflexivity.
  - cbn [flat_map List.length writes]. rewrite <- app_assoc. replace (20 + S (List.length rows) + n)%nat with (20 + S (List.length rows + n))%nat by lia.
    rewrite write_reads. replace (19 + S (List.length rows + n))%nat with (20 + List.length rows + n)%nat by lia. now rewrite IH.
Qed.
Definition encode_block (cap : str) (rows : list (str * str)) : block :=
  Let false (lit "map") (Call (Path [lit "std"; lit "collections"; lit "HashMap"; lit "with_capacity"]) (ECons (Lit cap) ENil))
    (Let true (lit "js") (Call (Path [lit "json"; lit "Json"; lit "Object"]) (ECons (Path [lit "map"]) ENil))
      (writes rows (Value (Path [lit "js"])))).
Definition encode_body (cap : str) (rows : list (str * str)) : list ptok :=
  code "let map = std::collections::HashMap::with_capacity" ++ parens (literal cap) ++ code ";" ++
  code "let mut js = json::Json::Object(map);" ++ flat_map (fun row => write_code (fst row) (snd row)) rows ++ code "js".
Lemma encode_reads cap rows n : read_block (22 + List.length rows + n) (encode_body cap rows) = Some (encode_block cap rows).
Proof.
  unfold encode_body, parens, literal. set (g := flat_map _ rows ++ code "js").
  assert (G : read_block (20 + List.length rows + n) g = Some (writes rows (Value (Path [lit "js"])))) by apply writes_read. clearbody g.
  compute_code. cbn. repeat step. cbn in G. rewrite G. reflexivity.
Qed.
Fixpoint reads (rows : list (str * str * list ptok)) (rest : inits) : inits :=
  match rows with [] => rest | r :: rows => ICons (snd (fst r)) (read_init (fst (fst r)) (snd r)) (reads rows rest) end.
Fixpoint defaults (fs : list str) : inits := match fs with [] => INil | f :: fs => ICons f default_init (defaults fs) end.
Lemma defaults_read fs : forall n, read_inits (10 + List.length fs + n) (flat_map default_code fs) = Some (defaults fs).
Proof.
  induction fs as [|f fs IH]; intros n; [reflexivity|].
  cbn [flat_map List.length defaults]. replace (10 + S (List.length fs) + n)%nat with (10 + S (List.length fs + n))%nat by lia.
  rewrite default_reads. replace (9 + S (List.length fs + n))%nat with (10 + List.length fs + n)%nat by lia. now rewrite IH.
Qed.
Definition inits_code (rows : list (str * str * list ptok)) (skipped : list str) : list ptok :=
  flat_map (fun row => read_code (fst (fst row)) (snd (fst row)) (snd row)) rows ++ flat_map default_code skipped.
Lemma inits_read rows skipped : Forall (fun r => closed (snd r)) rows ->
  forall n, read_inits (40 + (List.length rows + List.length skipped) + n) (inits_code rows skipped) = Some (reads rows (defaults skipped)).
Proof.
  unfold inits_code. induction 1 as [|r rows C _ IH]; intros n.
  - cbn [flat_map app List.length reads]. replace (40 + (0 + List.length skipped) + n)%nat with (10 + List.length skipped + (30 + n))%nat by lia. apply defaults_read.
  - cbn [flat_map List.length reads]. rewrite <- app_assoc. replace (40 + (S (List.length rows) + List.length skipped) + n)%nat with (40 + S (List.length rows + List.length skipped + n))%nat by lia.
    rewrite read_reads by exact C. replace (39 + S (List.length rows + List.length skipped + n))%nat with (40 + (List.length rows + List.length skipped) + n)%nat by lia. now rewrite IH.
Qed.
Definition decode_block (name : str) (rows : list (str * str * list ptok)) (skipped : list str) : block :=
  Value (Match (Path [lit "json"])
    (ACons (Ctor [lit "json"; lit "Json"; lit "Object"] (PCons (Bind (lit "obj")) PNil))
           (Block (Value (Call (Path [lit "Ok"]) (ECons (StructLit [name] (reads rows (defaults skipped))) ENil))))
    (ACons (Bind (lit "other"))
           (Call (Path [lit "Err"]) (ECons (Call (Path [lit "json"; lit "Error"; lit "new"])
              (ECons (Path [lit "json"; lit "ErrorKind"; lit "ConvertError"])
                (ECons (Mac [lit "format"] (ECons (Lit (34 :: lit "cannot convert {} to {}." ++ [34]))
                   (ECons (Method (Path [lit "other"]) (lit "_kind") ENil) (ECons (Mac [lit "stringify"] (ECons (Path [name]) ENil)) ENil)))) ENil))) ENil))
    ANil))).
Definition decode_body (name : str) (rows : list (str * str * list ptok)) (skipped : list str) : list ptok :=
  code "match json" ++ braces (
         code "json::Json::Object(obj) =>" ++ braces (code "Ok" ++ parens (ident name ++ braces (inits_code rows skipped))) ++
         code "other => Err" ++ parens (code "json::Error::new" ++ parens (
            code "json::ErrorKind::ConvertError, format!" ++ parens (
              code """cannot convert {} to {}."", other._kind(), stringify!" ++ parens (ident name)))) ++ code ",").
Local Arguments keyword : simpl never.
Ltac keywords := match goal with |- context [keyword (?a :: ?l)] =>
  let v := eval vm_compute in (keyword (a :: l)) in lazymatch v with true => idtac | false => idtac end; change (keyword (a :: l)) with v; cbv iota end.
Lemma keyword_no name w : keyword name = false -> keyword (lit w) = true -> str_eqb name (lit w) = false.
Proof. intros H K. destruct (str_eqb name (lit w)) eqn:E; [|reflexivity]. apply str_eqb_eq in E. congruence. Qed.
Lemma decode_reads name rows skipped n : keyword name = false -> Forall (fun r => closed (snd r)) rows ->
  read_block (60 + (List.length rows + List.length skipped) + n) (decode_body name rows skipped) = Some (decode_block name rows skipped).
Proof.
  intros K C. unfold decode_body, parens, braces, ident. set (g := inits_code rows skipped).
  assert (G : forall m, (40 + (List.length rows + List.length skipped) <= m)%nat -> read_inits m g = Some (reads rows (defaults skipped))).
  { intros m Hm. replace m with (40 + (List.length rows + List.length skipped) + (m - (40 + (List.length rows + List.length skipped))))%nat by lia. now apply inits_read. }
  clearbody g.
  pose proof (keyword_no name "match" K eq_refl) as K1. pose proof (keyword_no name "if" K eq_refl) as K2. pose proof (keyword_no name "let" K eq_refl) as K3.
  pose proof (keyword_no name "return" K eq_refl) as K4. cbn in K1, K2, K3, K4.
  compute_code. cbn. repeat (step; repeat keywords; rewrite ?K, ?K1, ?K2, ?K3, ?K4; cbn).
  rewrite G by lia. cbn. repeat (step; repeat keywords; rewrite ?K, ?K1, ?K2, ?K3, ?K4; cbn). reflexivity.
Qed.

(** * Literals *)
Lemma hex_digits_all n ds xs r : Forall2 (fun d x => hex_digit_value d = Some x) ds xs -> (List.length ds <= n)%nat ->
  hex_digits n (ds ++ 125 :: r) = (xs, 125 :: r).
Proof.
  intros H. revert n. induction H as [|d x ds xs E _ IH]; intros n L.
  - destruct n; reflexivity.
  - destruct n as [|n]; [cbn in L; lia|]. cbn [app hex_digits]. rewrite E, IH by (cbn in L; lia). reflexivity.
Qed.
Lemma hex_digits_sound n s : exists ds, Forall2 (fun d x => hex_digit_value d = Some x) ds (fst (hex_digits n s)) /\ (List.length ds <= n)%nat /\ s = ds ++ snd (hex_digits n s).
Proof.
  revert s. induction n as [|n IH]; intros s; [exists []; cbn; auto|]. destruct s as [|c s]; [exists []; cbn; repeat split; auto with arith|].
  cbn [hex_digits]. destruct (hex_digit_value c) as [x|] eqn:E; [|exists []; cbn; repeat split; auto with arith].
  destruct (IH s) as (ds & F & L & Es). exists (c :: ds). cbn [fst snd]. split; [constructor; auto|]. split; [cbn; lia|]. cbn. now rewrite <- Es.
Qed.
Lemma blank_iff c : is_blank c = true <-> blank c.
Proof.
  unfold is_blank, blank. rewrite existsb_exists. split.
  - intros (x & Hx & E). apply N.eqb_eq in E. now subst.
  - intros H. exists c. split; [exact H|apply N.eqb_refl].
Qed.
Lemma skip_blanks ws r : Forall blank ws -> match r with c :: _ => ~ blank c | [] => True end -> skip_while is_blank (ws ++ r) = r.
Proof.
  intros H Hr. induction H as [|c ws Hc _ IH].
  - destruct r as [|c r]; [reflexivity|]. cbn [app skip_while]. destruct (is_blank c) eqn:E; [|reflexivity]. apply blank_iff in E. contradiction.
  - cbn [app skip_while]. rewrite (proj2 (blank_iff c) Hc). exact IH.
Qed.
Lemma skip_while_split s : exists ws, Forall blank ws /\ s = ws ++ skip_while is_blank s /\ match skip_while is_blank s with c :: _ => ~ blank c | [] => True end.
Proof.
  induction s as [|c s IH]; [exists []; cbn; auto|]. cbn [skip_while]. destruct (is_blank c) eqn:E.
  - destruct IH as (ws & F & Es & R). exists (c :: ws). split; [constructor; auto; now apply blank_iff|]. split; [cbn; now rewrite <- Es|exact R].
  - exists []. split; [constructor|]. split; [reflexivity|]. intros B. apply blank_iff in B. congruence.
Qed.
Lemma find_simple e c : In (e, c) simple_escapes -> find (fun p => fst p =? e) simple_escapes = Some (e, c).
Proof. cbn [simple_escapes In]. intros H. repeat (destruct H as [H|H]; [injection H as <- <-; reflexivity|]). destruct H. Qed.
Lemma unescape_complete b v : Unescape b v -> forall n, (List.length b < n)%nat -> unescape n b = Some v.
Proof.
  induction 1 as [|c r v C1 C2 _ IH|e c r v He _ IH|x1 x2 y1 y2 r v E1 E2 E3 _ IH|ds xs r v HF HL HS _ IH|ws r v HW HR _ IH]; intros n L; (destruct n as [|n]; [lia|]).
  - reflexivity.
  - cbn [unescape]. apply N.eqb_neq in C1, C2. rewrite C1, C2. cbn [negb]. rewrite IH by (cbn in L; lia). reflexivity.
  - cbn [unescape]. change (92 =? 34) with false. change (92 =? 92) with true. cbn [negb]. rewrite (find_simple e c He). cbn [snd]. rewrite IH by (cbn in L; lia). reflexivity.
  - cbn [unescape]. change (92 =? 34) with false. change (92 =? 92) with true. cbn [negb]. change (find _ simple_escapes) with (@None (N * N)). change (120 =? 120) with true. cbv iota.
    cbn [hex_digits fst snd]. rewrite E1, E2. cbn [fst snd]. replace (y1 <? 8) with true by (symmetry; now apply N.ltb_lt). rewrite IH by (cbn in L; lia). reflexivity.
  - cbn [unescape]. change (92 =? 34) with false. change (92 =? 92) with true. cbn [negb]. change (find _ simple_escapes) with (@None (N * N)).
    change (117 =? 120) with false. change (117 =? 117) with true. cbv iota. rewrite (hex_digits_all 6 ds xs r HF) by lia. cbn [fst snd].
    destruct xs as [|x xs]; [inversion HF; subst; cbn in HL; lia|]. change (123 =? 123) with true. change (125 =? 125) with true. cbn [andb]. rewrite HS.
    rewrite IH by (cbn in L; rewrite app_length in L; cbn in L; lia). reflexivity.
  - cbn [unescape]. change (92 =? 34) with false. change (92 =? 92) with true. cbn [negb]. change (find _ simple_escapes) with (@None (N * N)).
    change (10 =? 120) with false. change (10 =? 117) with false. change (10 =? 10) with true. cbv iota. rewrite skip_blanks by auto.
    apply IH. cbn in L. rewrite app_length in L. lia.
Qed.
Lemma unescape_sound n : forall b v, unescape n b = Some v -> Unescape b v.
Proof.
  induction n as [|n IH]; intros b v H; [discriminate|]. cbn [unescape] in H. destruct b as [|c r]; [injection H as <-; constructor|].
  destruct (c =? 34) eqn:C1; [discriminate|]. apply N.eqb_neq in C1. destruct (c =? 92) eqn:C2; cbn [negb] in H.
  2:{ apply N.eqb_neq in C2. destruct (unescape n r) as [w|] eqn:E; [|discriminate]. injection H as <-. constructor; auto. }
  apply N.eqb_eq in C2. subst c. destruct r as [|e r1]; [discriminate|]. destruct (find _ simple_escapes) as [p|] eqn:F.
  { apply find_some in F as [F1 F2]. apply N.eqb_eq in F2. destruct p as [a c]. cbn in F2. subst a. destruct (unescape n r1) as [w|] eqn:E; [|discriminate]. injection H as <-.
    cbn [snd]. apply un_simple; auto. }
  destruct (e =? 120) eqn:X; [apply N.eqb_eq in X; subst e|].
  { destruct (hex_digits_sound 2 r1) as (ds & FD & LD & ED). destruct (hex_digits 2 r1) as [xs r2]. cbn [fst snd] in *. destruct xs as [|x [|y [|? ?]]]; try discriminate.
    destruct (x <? 8) eqn:L8; [|discriminate]. apply N.ltb_lt in L8. destruct (unescape n r2) as [w|] eqn:E; [|discriminate]. injection H as <-.
    inversion FD as [|? ? ? ? D1 FD']; subst. inversion FD' as [|? ? ? ? D2 FD'']; subst. inversion FD''; subst. eapply un_byte; eauto. }
  destruct (e =? 117) eqn:U; [apply N.eqb_eq in U; subst e|].
  { destruct r1 as [|b r2]; [discriminate|]. destruct (hex_digits_sound 6 r2) as (ds & FD & LD & ED). destruct (hex_digits 6 r2) as [xs r3]. cbn [fst snd] in *.
    destruct xs as [|x xs]; [discriminate|]. destruct r3 as [|b' r3]; [discriminate|].
    destruct ((b =? 123) && (b' =? 125) && is_scalar (fold_left (fun n x => 16 * n + x) (x :: xs) 0)) eqn:B; [|discriminate].
    apply andb_prop in B as [B BS]. apply andb_prop in B as [B1 B2]. apply N.eqb_eq in B1, B2. subst b b'. destruct (unescape n r3) as [w|] eqn:E; [|discriminate]. injection H as <-. subst r2.
    apply (un_unicode ds (x :: xs)); auto. inversion FD; subst. cbn in *. lia. }
  destruct (e =? 10) eqn:T; [apply N.eqb_eq in T; subst e|discriminate].
  destruct (skip_while_split r1) as (ws & FW & EW & R). rewrite EW. apply un_line; auto.
Qed.
(** The literal value of the code agrees with the specification of string literals. *)
Lemma string_value_quoted body : string_value (quoted body) = unescape (S (List.length (quoted body))) body.
Proof.
  unfold quoted, string_value. assert (R : exists t, rev (34 :: body ++ [34]) = 34 :: t) by (cbn [rev]; rewrite rev_app_distr; cbn; eauto).
  destruct R as [t R]. destruct (body ++ [34]) as [|a l] eqn:E; [destruct body; discriminate|]. rewrite R. change (34 =? 34) with true. cbn [andb]. cbn [tl]. rewrite <- E.
  now rewrite removelast_last.
Qed.
Lemma key_value raw v : StringLit raw v -> (exists body, raw = quoted body) -> literal_value raw = Some (VText v).
Proof.
  intros H [body ->]. inversion H as [b w U E|]; subst. apply app_inj_tail in E as [-> _]. unfold literal_value.
  change (option_map VText (string_value (quoted body)) = Some (VText v)). rewrite string_value_quoted.
  rewrite (unescape_complete body v U); [reflexivity|]. unfold quoted. cbn. rewrite app_length. cbn. lia.
Qed.
Theorem string_values_are_as_specified body v : string_value (quoted body) = Some v <-> StringLit (quoted body) v.
Proof.
  rewrite string_value_quoted. split.
  - intros H. constructor. eapply unescape_sound; eauto.
  - intros H. inversion H as [b w U E|]; subst. apply app_inj_tail in E as [-> _]. apply unescape_complete; auto.
    unfold quoted. cbn. rewrite app_length. cbn. lia.
Qed.

(** * Running *)
Local Arguments literal_value : simpl never.
Lemma andthen_go {A B} (a : A) e (k : A -> vars -> run B) : andthen (Go a e) k = k a e.
Proof. reflexivity. Qed.
Definition writer_env (name : str) (all : list (str * rval)) (o : hmap) : vars :=
  [(lit "js", (true, VJson (JObj o))); (lit "map", (false, VMap [])); (lit "self", (false, VStruct name all))].
Lemma write_runs ctx name all o raw k fld p T c (x : T) :
  literal_value raw = Some (VText k) -> find (fun p => str_eqb fld (fst p)) all = Some p -> snd p = VField T c x ->
  eval_expr ctx (write_stmt raw fld) (writer_env name all o) = Go VUnit (writer_env name all (object_insert o k (to_json c x))).
Proof.
  intros L F P. unfold write_stmt, writer_env. cbn. rewrite L. cbn. rewrite F, P. cbn. reflexivity.
Qed.
Lemma eval_do ctx x b e : eval_block ctx (Do x b) e = andthen (eval_expr ctx x e) (fun _ e => eval_block ctx b e). Proof. reflexivity. Qed.
Lemma eval_init ctx f x fs e : eval_inits ctx (ICons f x fs) e =
  andthen (eval_expr ctx x e) (fun v e => andthen (done (set_field ctx f v) e) (fun p e => andthen (eval_inits ctx fs e) (fun r e => Go (p :: r) e))).
Proof. reflexivity. Qed.
Lemma writes_run ctx name all : forall fs (x : struct_value fs) rows o,
  (forall f v, In (f, v) (pack fs x) -> exists p, find (fun p => str_eqb f (fst p)) all = Some p /\ snd p = v) ->
  Forall2 (fun f k => snd k = f_ident f /\ literal_value (fst k) = Some (VText (f_key f))) (filter (fun f => negb (f_ignored f)) fs) rows ->
  exists j e, add_fields fs x (JObj o) = Ok j /\ eval_block ctx (writes rows (Value (Path [lit "js"]))) (writer_env name all o) = Go (VJson j) e.
Proof.
  induction fs as [|f fs IH]; intros x rows o A F.
  - inversion F; subst. eexists _, _. split; reflexivity.
  - cbn [pack] in A. cbn [filter] in F. cbn [add_fields]. destruct (f_ignored f); cbn [negb] in F.
    + apply IH; auto. intros g v H. apply A. now right.
    + inversion F as [|? row ? rows' [F1 F2] F']; subst. cbn [writes]. rewrite eval_do.
      destruct (A (f_ident f) _ (or_introl eq_refl)) as (p & P1 & P2). rewrite <- F1 in P1.
      rewrite (write_runs ctx name all o (fst row) (f_key f) (snd row) p _ _ _ F2 P1 P2). cbn [andthen add_option].
      apply IH; auto. intros g v H. apply A. now right.
Qed.

Definition reader_env (o : hmap) : vars := [(lit "obj", (false, VMap o)); (lit "json", (false, VJson (JObj o)))].
Lemma read_runs ctx o raw k ty T c : literal_value raw = Some (VText k) -> type_of ctx (map unspaced ty) = Some (existT codec T c) ->
  eval_expr ctx (read_init raw ty) (reader_env o) =
  match hm_get k o with
  | Some (v, _) => match from_json c v with Ok x => Go (VField T c x) (reader_env o) | Err e => Out (VErr (VError e)) | Panic => Boom | Fuel => Silent end
  | None => match @missing_key unit k with Err e => Out (VErr (VError e)) | _ => Stuck end
  end.
Proof.
  intros L Ht. unfold read_init, read_else, reader_env. cbn. rewrite L. cbn. destruct (hm_get k o) as [[v l]|]; cbn.
  - unfold call_qualified. cbn. rewrite Ht. destruct (from_json c v); reflexivity.
  - match goal with |- context [literal_value (34 :: ?x)] => let v := eval vm_compute in (literal_value (34 :: x)) in change (literal_value (34 :: x)) with v end. cbn. rewrite ?L. cbn. reflexivity.
Qed.
(** The fields that are read, and those that are not. *)
Fixpoint given (fs : list Derive.field) : struct_value fs -> list (str * rval) :=
  match fs with
  | [] => fun _ => []
  | f :: r => fun x => (if f_ignored f then [] else [(f_ident f, VField (f_type f) (f_codec f) (fst x))]) ++ given r (snd x)
  end.
Definition default_value (f : Derive.field) : rval := VField (f_type f) (f_codec f) (f_default f).
Lemma reads_run ctx o rest : forall fs rows,
  Forall2 (fun f k => snd (fst k) = f_ident f /\ literal_value (fst (fst k)) = Some (VText (f_key f)) /\ type_of ctx (map unspaced (snd k)) = Some (existT codec (f_type f) (f_codec f)))
    (filter (fun f => negb (f_ignored f)) fs) rows ->
  eval_inits ctx (reads rows rest) (reader_env o) =
  match read_fields fs o with
  | Ok y => andthen (eval_inits ctx rest (reader_env o)) (fun r e => Go (given fs y ++ r) e)
  | Err e => Out (VErr (VError e)) | Panic => Boom | Fuel => Silent
  end.
Proof.
  induction fs as [|f fs IH]; intros rows F.
  - inversion F; subst. cbn [reads read_fields given app]. destruct (eval_inits ctx rest (reader_env o)); reflexivity.
  - cbn [filter] in F. cbn [read_fields given]. destruct (f_ignored f); cbn [negb app] in *.
    + rewrite (IH rows F). destruct (read_fields fs o); reflexivity.
    + inversion F as [|? row ? rows' (F1 & F2 & F3) F']; subst. cbn [reads]. rewrite eval_init, (read_runs ctx o _ _ _ _ _ F2 F3).
      destruct (hm_get (f_key f) o) as [[v l]|]; [|reflexivity]. destruct (from_json (f_codec f) v) as [x|e| |]; try reflexivity. cbn [andthen set_field done bind].
      rewrite (IH rows' F'). destruct (read_fields fs o) as [y|e| |]; try reflexivity. cbn [bind given fst snd].
      destruct (eval_inits ctx rest (reader_env o)); try reflexivity. cbn [andthen app]. now rewrite F1.
Qed.
Lemma defaults_run ctx e : forall fs, (forall f, In f fs -> default_of ctx (f_ident f) = Some (default_value f)) ->
  eval_inits ctx (defaults (map f_ident fs)) e = Go (map (fun f => (f_ident f, default_value f)) fs) e.
Proof.
  induction fs as [|f fs IH]; intros H; [reflexivity|]. cbn [map defaults]. rewrite eval_init.
  change (eval_expr ctx default_init e) with (Go VDefault e). cbn [andthen set_field done]. rewrite H by now left. cbn [option_map done andthen].
  rewrite IH by (intros; apply H; now right). reflexivity.
Qed.
Lemma packed fs o : forall y, read_fields fs o = Ok y -> Permutation (given fs y ++ map (fun f => (f_ident f, default_value f)) (filter f_ignored fs)) (pack fs y).
Proof.
  induction fs as [|f fs IH]; intros y E; [constructor|]. cbn [read_fields] in E. cbn [given filter pack]. destruct (f_ignored f).
  - destruct (read_fields fs o) as [z| | |] eqn:R; try discriminate. cbn [bind] in E. injection E as <-. cbn [fst snd app map]. symmetry. apply Permutation_cons_app. symmetry. now apply IH.
  - destruct (hm_get (f_key f) o) as [[v l]|]; [|discriminate]. destruct (from_json (f_codec f) v) as [x| | |]; try discriminate. cbn [bind] in E.
    destruct (read_fields fs o) as [z| | |] eqn:R; try discriminate. cbn [bind] in E. injection E as <-. cbn [fst snd app]. constructor. now apply IH.
Qed.

(** * Types between angle brackets *)
Fixpoint walk (d : nat) (ts : list token) : option nat :=
  match ts with
  | [] => Some d
  | t :: r =>
      if is_punct 60 t then walk (S d) r
      else if is_punct 62 t then match d with O => None | S d => walk d r end
      else if is_punct 45 t then match r with u :: r' => if is_punct 62 u then walk d r' else None | [] => None end
      else walk d r
  end.
Lemma walk_app n : forall a b d d', (List.length a < n)%nat -> walk d a = Some d' -> walk d (a ++ b) = walk d' b.
Proof.
  induction n as [|n IH]; intros a b d d' L H; [lia|]. destruct a as [|t a]; [cbn in H; now injection H as ->|]. cbn [app walk] in *. cbn in L.
  destruct (is_punct 60 t); [apply IH; auto; lia|]. destruct (is_punct 62 t); [destruct d; [discriminate|apply IH; auto; lia]|].
  destruct (is_punct 45 t); [|apply IH; auto; lia]. destruct a as [|u a]; [discriminate|]. cbn [app]. destruct (is_punct 62 u); [|discriminate]. cbn in L. apply IH; auto; lia.
Qed.
Lemma walk_then a b d d' : walk d a = Some d' -> walk d (a ++ b) = walk d' b.
Proof. apply (walk_app (S (List.length a))). lia. Qed.
Lemma split_as_cons : forall d t r, split_as d (t :: r) = ltac:(let x := eval cbv beta iota fix delta [split_as] in (split_as d (t :: r)) in exact x). Proof. reflexivity. Qed.
Lemma walk_split n : forall ty d d' r, (List.length ty < n)%nat -> walk d (map unspaced ty) = Some d' -> ~ In (Ident (lit "as")) (map unspaced ty) ->
  split_as d (ty ++ r) = option_map (fun p => (ty ++ fst p, snd p)) (split_as d' r).
Proof.
  induction n as [|n IH]; intros ty d d' r L H A; [lia|]. destruct ty as [|t ty].
  { cbn in H. injection H as ->. cbn [app]. destruct (split_as d' r) as [[a b]|]; reflexivity. }
  cbn [map walk] in H. cbn in L. assert (A' : ~ In (Ident (lit "as")) (map unspaced ty)) by (intros X; apply A; now right).
  assert (W : is_word "as" t = false).
  { destruct t as [s| | |]; try reflexivity. cbn [is_word]. destruct (str_eqb s (lit "as")) eqn:E; [|reflexivity]. apply str_eqb_eq in E. subst s. elim A. now left. }
  assert (T : forall d0 o, split_as d0 (ty ++ r) = option_map (fun p => (ty ++ fst p, snd p)) o ->
              option_map (fun p => (t :: fst p, snd p)) (split_as d0 (ty ++ r)) = option_map (fun p => ((t :: ty) ++ fst p, snd p)) o).
  { intros d0 o ->. destruct o as [[x y]|]; reflexivity. }
  cbn [app]. rewrite split_as_cons. fold split_as. rewrite W. cbn [andb].
  destruct t as [s|c j|s|dl g]; cbn [unspaced is_punct] in H; try (apply T, IH; auto; lia).
  destruct (c =? 60); [apply T, IH; auto; lia|]. destruct (c =? 62); [destruct d; [discriminate|apply T, IH; auto; lia]|].
  destruct (c =? 45); [|apply T, IH; auto; lia]. destruct ty as [|u ty]; [discriminate|]. cbn [map] in H.
  destruct (is_punct 62 (unspaced u)) eqn:U; [|discriminate]. destruct u as [|c' j'| |]; try discriminate. cbn in U. apply N.eqb_eq in U. subst c'.
  cbn [app]. rewrite (IH ty d d' r); auto; [|cbn in L; lia|intros X; apply A'; now right]. destruct (split_as d' r) as [[x y]|]; reflexivity.
Qed.
Lemma closed_walk ty : walk 0 (map unspaced ty) = Some O -> ~ In (Ident (lit "as")) (map unspaced ty) -> closed ty.
Proof. intros H A r. rewrite (walk_split (S (List.length ty)) ty 0 0) by auto. rewrite split_as_cons. cbn. now rewrite app_nil_r. Qed.
Lemma walk_sep c d l : c <> 60 -> c <> 62 -> c <> 45 -> (forall a, In a l -> walk d a = Some d) -> walk d (sep_by c l) = Some d.
Proof.
  intros C1 C2 C3. apply N.eqb_neq in C1, C2, C3. induction l as [|a l IH]; intros H; [reflexivity|]. destruct l as [|b l]; [apply H; now left|].
  change (sep_by c (a :: b :: l)) with (a ++ Punct c :: sep_by c (b :: l)). rewrite (walk_then a _ d d) by (apply H; now left). cbn [walk is_punct]. rewrite C1, C2, C3.
  apply IH. intros x Hx. apply H. now right.
Qed.

Lemma walk_word d s r : walk d (Ident s :: r) = walk d r. Proof. reflexivity. Qed.
Lemma types_walk : (forall n d, walk d (name_toks n) = Some d) /\ (forall a d, walk d (arg_toks a) = Some d) /\ (forall t d, walk d (type_toks t) = Some d).
Proof.
  apply rtypes_ind.
  - reflexivity.
  - intros pre id args H d. cbn [name_toks]. rewrite Forall_forall in H.
    rewrite (walk_then _ _ d d) by (induction pre; [reflexivity|exact IHpre]). rewrite walk_word. destruct args as [|a args]; [reflexivity|].
    cbn [walk is_punct]. change (60 =? 60) with true. cbv iota. rewrite (walk_then _ _ (S d) (S d)); [reflexivity|].
    apply walk_sep; [discriminate..|]. intros x Hx. apply in_map_iff in Hx as (b & <- & Hb). now apply H.
  - intros [|] i d; reflexivity.
  - intros w ps [n|] H d; [|reflexivity]. exact (H n eq_refl d).
  - intros [x|] t H d; [exact (H d)|exact (H d)].
  - intros n H d. apply H.
  - intros lt m n H d. cbn [type_toks]. destruct lt, m; exact (H d).
  - intros ns H d. cbn [type_toks]. rewrite walk_word. rewrite Forall_forall in H. apply walk_sep; [discriminate..|].
    intros x Hx. apply in_map_iff in Hx as (b & <- & Hb). now apply H.
Qed.

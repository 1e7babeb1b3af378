(** Rejected texts: with which error each is rejected (C43). *)
From Verif Require Import Base F64 Utf8 Json Parse SpecGrammar SpecLenient LenientProofs ScanProofs SpecBlame BlameProofs.
Open Scope N_scope.

(** C43 *)
Theorem rejected_texts_have_exactly_this_error s e : scalar_str s = true -> (parse s = Err e <-> BlameText s e).
Proof. apply parse_err_iff_blame. Qed.
Lemma blame_unique s e e' : scalar_str s = true -> BlameText s e -> BlameText s e' -> e = e'.
Proof. intros Hs H H'. apply parse_err_iff_blame in H; auto. apply parse_err_iff_blame in H'; auto. congruence. Qed.
Theorem every_text_is_read_or_blamed s : scalar_str s = true ->
  ((exists v, LenientText s v) /\ (forall e, ~ BlameText s e)) \/ ((exists e, BlameText s e /\ forall e', BlameText s e' -> e' = e) /\ (forall v, ~ LenientText s v)).
Proof.
  intros Hs. pose proof (parse_total s) as T. destruct (parse s) as [v|e| |] eqn:E; try destruct T.
  - left. split; [exists v; now apply parse_iff_lenient|]. intros e He. apply parse_err_iff_blame in He; auto. congruence.
  - right. pose proof E as E'. apply parse_err_iff_blame in E; auto. split.
    + exists e. split; auto. intros e' He. eapply blame_unique; eauto.
    + intros v Hv. apply parse_iff_lenient in Hv; auto. congruence.
Qed.

(** The finite table of parse errors: the fixed messages, and those quoting a character. *)
Definition fixed_errors : list error :=
  [ error_at InvalidJson "invalid json."; error_at ParseNullError "error parsing null value."; error_at ParseBooleanError "error parsing boolean value.";
    error_at ParseNumberError "invalid number."; error_at ParseNumberError "error parsing number value."; error_at ParseNumberError "error number too large.";
    error_at ParseStringError "missing "".";  error_at ParseStringError "invalid character."; error_at ParseStringError "missing escaped character.";
    error_at ParseStringError "parse unicode error: missing hex digit."; error_at ParseStringError "invalid utf-8 encoding.";
    error_at ParseStringError "missing low surrogate."; error_at ParseStringError "invalid low surrogate.";
    error_at ParseArrayError "missing ]."; error_at ParseArrayError "missing escaped character."; error_at ParseArrayError "invalid empty element.";
    error_at ParseArrayError "invalid trailing comma.";
    error_at ParseObjectError "missing }."; error_at ParseObjectError "missing escaped character."; error_at ParseObjectError "invalid empty member.";
    error_at ParseObjectError "invalid trailing comma."; error_at ParseObjectError "error parsing key string." ].
Definition parse_error (e : error) : Prop :=
  In e fixed_errors \/ exists c,
    (exists k, In k [ParseStringError; ParseArrayError; ParseObjectError] /\ e = error_char k "invalid trailing character: " c) \/
    e = error_char ParseStringError "parse unicode error: invalid hex digit " c.
Ltac tab := solve [left; unfold fixed_errors; repeat (first [left; reflexivity|right])].
Lemma nohex_table s e : NoHex s e -> parse_error e.
Proof. destruct 1; [tab|]. right. eexists. right. reflexivity. Qed.
Lemma fault_table s e : StringFault s e -> parse_error e.
Proof. destruct 1; try tab; try (eapply nohex_table; eassumption). right. eexists. left. eexists. split; [|reflexivity]. cbn; auto. Qed.
Lemma blame_table : (forall s e, Blame s e -> parse_error e) /\ (forall s e, BadElements s e -> parse_error e) /\
  (forall s e, BadMembers s e -> parse_error e) /\ (forall k s e, BadMember k s e -> parse_error e).
Proof.
  apply blame_mind; intros; auto; try tab.
  - match goal with H : BadNumber _ _ |- _ => destruct H; tab end.
  - match goal with H : BadString _ _ |- _ => destruct H as (? & ? & ? & _ & _ & H); eapply fault_table; eauto end.
  - right. eexists. left. eexists. split; [|reflexivity]. cbn; auto.
  - right. eexists. left. eexists. split; [|reflexivity]. cbn; auto.
Qed.
Theorem parse_errors_are_in_the_table s e : scalar_str s = true -> parse s = Err e -> parse_error e.
Proof. intros Hs H. apply parse_err_iff_blame in H as (w1 & t & w2 & _ & _ & _ & _ & _ & H); auto. eapply (proj1 blame_table); eauto. Qed.
(** Every fixed message of the table is the error of some text. *)
Theorem every_table_entry_occurs : Forall (fun e => exists s, scalar_str s = true /\ parse s = Err e) fixed_errors.
Proof.
  unfold fixed_errors. repeat (apply Forall_cons || apply Forall_nil); eexists; (split; [|first
   [ instantiate (1 := lit ""); vm_compute; reflexivity | instantiate (1 := lit "nul"); vm_compute; reflexivity | instantiate (1 := lit "tru"); vm_compute; reflexivity
   | instantiate (1 := lit "-"); vm_compute; reflexivity | instantiate (1 := lit "1e"); vm_compute; reflexivity | instantiate (1 := lit "1e999"); vm_compute; reflexivity
   | instantiate (1 := lit """a"); vm_compute; reflexivity | instantiate (1 := [34; 10; 34]); vm_compute; reflexivity | instantiate (1 := lit """\x"""); vm_compute; reflexivity
   | instantiate (1 := lit """\u00"); vm_compute; reflexivity | instantiate (1 := lit """\uDC00"""); vm_compute; reflexivity
   | instantiate (1 := lit """\uD800"""); vm_compute; reflexivity | instantiate (1 := lit """\uD800\u0041"""); vm_compute; reflexivity
   | instantiate (1 := lit "[1"); vm_compute; reflexivity | instantiate (1 := lit "[\"); vm_compute; reflexivity | instantiate (1 := lit "[,]"); vm_compute; reflexivity
   | instantiate (1 := lit "[1,]"); vm_compute; reflexivity
   | instantiate (1 := lit "{1"); vm_compute; reflexivity | instantiate (1 := lit "{\"); vm_compute; reflexivity | instantiate (1 := lit "{:,}"); vm_compute; reflexivity
   | instantiate (1 := lit "{""a"":1,}"); vm_compute; reflexivity | instantiate (1 := lit "{1:2}"); vm_compute; reflexivity ]]; vm_compute; reflexivity).
Qed.
Example blame_examples :
  BlameText (lit "  [1, {""a"": [tru]}, 01x] ") (error_at ParseBooleanError "error parsing boolean value.") /\
  BlameText (lit "[[1] x]") (error_char ParseArrayError "invalid trailing character: " 120) /\
  BlameText (lit "{""a"":1} x") (error_char ParseObjectError "invalid trailing character: " 120) /\
  BlameText (lit """\uD8G0""") (error_char ParseStringError "parse unicode error: invalid hex digit " 71).
Proof. repeat split; apply parse_err_iff_blame; vm_compute; reflexivity. Qed.

(** C55: the text of an error says exactly which error it is. *)
From Verif Require Import Base Display.

Lemma colon_split (a b a' b' : str) : ~ In COLON a -> ~ In COLON a' -> a ++ COLON :: b = a' ++ COLON :: b' -> a = a' /\ b = b'.
Proof.
  revert a'. induction a as [|c a IH]; intros [|c' a'] H H' E; cbn in E.
  - injection E as E. auto.
  - injection E as E1 E2. elim H'. subst. now left.
  - injection E as E1 E2. elim H. subst. now left.
  - injection E as E1 E2. subst. destruct (IH a') as [-> ->]; auto; intros X; [apply H|apply H']; now right.
Qed.
Lemma kind_text_no_colon k : ~ In COLON (kind_text k).
Proof. destruct k; cbv; intuition discriminate. Qed.
Lemma kind_text_inj k k' : kind_text k = kind_text k' -> k = k'.
Proof. destruct k, k'; intros E; reflexivity || discriminate E. Qed.
(** Two errors with the same text are the same error: the kind and the message can be read off the text. *)
Theorem error_text_determines_error e e' : error_text e = error_text e' -> e = e'.
Proof.
  destruct e as [k m], e' as [k' m']. unfold error_text. cbn [kind msg]. change (lit ": " ++ m) with (COLON :: SP :: m). change (lit ": " ++ m') with (COLON :: SP :: m').
  intros E. apply colon_split in E; [|apply kind_text_no_colon|apply kind_text_no_colon]. destruct E as [E1 E2]. apply kind_text_inj in E1. injection E2 as E2. congruence.
Qed.
(** The text up to the first colon is the name of the kind, and what follows the colon and the space is the message. *)
Theorem error_text_parts e name rest : ~ In COLON name -> error_text e = name ++ lit ": " ++ rest -> name = kind_text (kind e) /\ rest = msg e.
Proof.
  intros H E. unfold error_text in E. change (lit ": " ++ msg e) with (COLON :: SP :: msg e) in E. change (lit ": " ++ rest) with (COLON :: SP :: rest) in E.
  symmetry in E. apply colon_split in E; [|auto|apply kind_text_no_colon]. destruct E as [-> E]. injection E as ->. auto.
Qed.
(** The documented names, src/lib.rs 58-76. *)
Definition variant_names : list (error_kind * string) :=
  [(InvalidJson, "InvalidJson"); (ParseObjectError, "ParseObjectError"); (ParseArrayError, "ParseArrayError"); (ParseStringError, "ParseStringError");
   (ParseNumberError, "ParseNumberError"); (ParseBooleanError, "ParseBooleanError"); (ParseNullError, "ParseNullError"); (MissingKey, "MissingKey");
   (IndexOutOfRange, "IndexOutOfRange"); (InvalidValueKind, "InvalidValueKind"); (PathSyntaxError, "PathSyntaxError"); (ConvertError, "ConvertError")]%string.
Theorem error_text_is_name_and_message e : exists name, In (kind e, name) variant_names /\ error_text e = lit name ++ lit ": " ++ msg e.
Proof. destruct e as [[] m]; eexists; (split; [|reflexivity]); cbv [variant_names In kind]; tauto. Qed.
Example error_text_example : error_text (mkError MissingKey (lit "missing key ""a: b"".")) = lit "MissingKey: missing key ""a: b""." .
Proof. reflexivity. Qed.

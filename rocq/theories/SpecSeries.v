(** Series of edits, of a text and of a document in memory (C90). *)
From Verif Require Import Base F64 Json Parse Print Ops Path Convert SpecGrammar SpecPath SpecValue SpecConvert.

(** One edit at a path: writing a value, given as the Json value it becomes, or deleting. *)
Inductive edit_at := Put (p : str) (w : json) | Drop (p : str).

(** With the text functions: every edit reads the text and prints a new one; the series stops at the first failure. *)
Definition edit_text (order : json -> json) (vmax : N) (s : str) (e : edit_at) : res str :=
  match e with Put p w => text_set order vmax c_json s p w | Drop p => text_del order s p end.
Fixpoint edit_texts (order : json -> json) (vmax : N) (es : list edit_at) (s : str) : res str :=
  match es with [] => Ok s | e :: r => let? t := edit_text order vmax s e in edit_texts order vmax r t end.

(** With the methods, on the document. *)
Definition edit_doc (vmax : N) (j : json) (e : edit_at) : json * res json :=
  match e with Put p w => set vmax j p w | Drop p => del j p end.
Fixpoint edit_docs (vmax : N) (es : list edit_at) (j : json) : res json :=
  match es with
  | [] => Ok j
  | e :: r => match edit_doc vmax j e with (j', Ok _) => edit_docs vmax r j' | (_, Err x) => Err x | (_, Panic) => Panic | (_, Fuel) => Fuel end
  end.

(** The strings of the edit have as many opening as closing brackets; the value is one a program can hold and is finite. *)
Definition fine_edit (e : edit_at) : Prop :=
  match e with
  | Put p w => scalar_str p = true /\ (forall q k, parse_path p = Ok q -> In (Key k) (steps q) -> balanced_str k = true) /\ wf w = true /\ finite w = true /\ balanced_in w = true
  | Drop _ => True
  end.

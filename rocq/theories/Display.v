(** The text of an error. *)
From Verif Require Import Base.

(** src/lib.rs 78-97 [Display for ErrorKind] *)
Definition kind_text (k : error_kind) : str :=
  match k with
  | InvalidJson => lit "InvalidJson"
  | ParseObjectError => lit "ParseObjectError"
  | ParseArrayError => lit "ParseArrayError"
  | ParseStringError => lit "ParseStringError"
  | ParseNumberError => lit "ParseNumberError"
  | ParseBooleanError => lit "ParseBooleanError"
  | ParseNullError => lit "ParseNullError"
  | MissingKey => lit "MissingKey"
  | IndexOutOfRange => lit "IndexOutOfRange"
  | InvalidValueKind => lit "InvalidValueKind"
  | PathSyntaxError => lit "PathSyntaxError"
  | ConvertError => lit "ConvertError"
  end.
(** src/lib.rs 51-55 [Display for Error] *)
Definition error_text (e : error) : str := kind_text (kind e) ++ lit ": " ++ msg e.

(** Characters, strings, results.
    Conventions: a Rust [char] is its code point (an [N]); a Rust [String]/[&str] is the list of
    its [char]s ([str::chars]). *)
From Coq Require Export List NArith ZArith Lia Bool String Ascii.
Export ListNotations.
#[global] Open Scope N_scope.
#[global] Open Scope list_scope.

Notation str := (list N).

(** ASCII string literals of the source, as character lists: the string literals of src/lib.rs *)
Definition lit (s : string) : str := map N_of_ascii (list_ascii_of_string s).
Arguments lit s%string_scope.

(** Character constants of the source. *)
Notation BS    := 8   (only parsing).   (* \x08 *)
Notation TAB   := 9   (only parsing).   (* \t *)
Notation LF    := 10  (only parsing).   (* \n *)
Notation FF    := 12  (only parsing).   (* \x0C *)
Notation CR    := 13  (only parsing).   (* \r *)
Notation SP    := 32  (only parsing).   (* ' ' *)
Notation QUOTE := 34  (only parsing).   (* double quote *)
Notation HASH  := 35  (only parsing).   (* # *)
Notation PLUS  := 43  (only parsing).
Notation COMMA := 44  (only parsing).
Notation MINUS := 45  (only parsing).
Notation DOT   := 46  (only parsing).
Notation SLASH := 47  (only parsing).
Notation COLON := 58  (only parsing).
Notation LBRACK := 91 (only parsing).   (* [ *)
Notation BSLASH := 92 (only parsing).   (* \ *)
Notation RBRACK := 93 (only parsing).   (* ] *)
Notation LBRACE := 123 (only parsing).  (* { *)
Notation RBRACE := 125 (only parsing).  (* } *)

(** The values a Rust [char] can take: Unicode scalar values. std: [char], used throughout src/lib.rs *)
Definition is_scalar (c : N) : bool :=
  (c <? 0xD800) || ((0xDFFF <? c) && (c <? 0x110000)).

(** std: [char::is_ascii_digit], as in the patterns of src/lib.rs 692-752 and in the documented grammars of [f64] and [usize] *)
Definition is_digit (c : N) : bool := (48 <=? c) && (c <=? 57).

(** src/lib.rs 59-98 [ErrorKind] *)
Inductive error_kind :=
| InvalidJson | ParseObjectError | ParseArrayError | ParseStringError
| ParseNumberError | ParseBooleanError | ParseNullError
| MissingKey | IndexOutOfRange | InvalidValueKind | PathSyntaxError
| ConvertError.

(** src/lib.rs 44-56 [Error] *)
Record error := mkError { kind : error_kind; msg : str }.

(** [Result<A, Error>] with two extra outcomes: a Rust panic, and exhaustion of the explicit
    recursion fuel of the model (proved unreachable).  The [Result]s of src/lib.rs; [Error] is 45-105 *)
Inductive res (A : Type) : Type :=
| Ok (a : A)
| Err (e : error)
| Panic
| Fuel.
Arguments Ok {A} a. Arguments Err {A} e. Arguments Panic {A}. Arguments Fuel {A}.

(** The [?] operator. std: [Result] with [?], src/lib.rs *)
Definition bind {A B} (r : res A) (k : A -> res B) : res B :=
  match r with Ok a => k a | Err e => Err e | Panic => Panic | Fuel => Fuel end.
Notation "'let?' x ':=' r 'in' k" := (bind r (fun x => k))
  (at level 200, x name, r at level 100, k at level 200).
Notation "'let?' ''' x ':=' r 'in' k" := (bind r (fun x => k))
  (at level 200, x strict pattern, r at level 100, k at level 200).

(** std: [Result::map], src/lib.rs *)
Definition rmap {A B} (f : A -> B) (r : res A) : res B := bind r (fun a => Ok (f a)).

(** src/lib.rs 100-104 [Error::new] *)
Definition fail {A} (k : error_kind) (m : str) : res A := Err (mkError k m).

(** [usize]'s [Display]: decimal digits, no leading zeros ([format!("{}", i)]), used at src/lib.rs 1194-1320 (error texts with an index) *)
Fixpoint dec_digits (fuel : nat) (n : N) : str :=
  match fuel with
  | O => []
  | S f => if n <? 10 then [48 + n] else dec_digits f (n / 10) ++ [48 + n mod 10]
  end.
(** The same with enough fuel; used at src/lib.rs 1194-1320 *)
Definition show_N (n : N) : str := dec_digits (S (N.to_nat (N.log2 n))) n.

(** std: [str]'s [PartialEq], used throughout src/lib.rs *)
Fixpoint str_eqb (a b : str) : bool :=
  match a, b with
  | [], [] => true
  | x :: a', y :: b' => (x =? y) && str_eqb a' b'
  | _, _ => false
  end.

Lemma str_eqb_eq a b : str_eqb a b = true <-> a = b.
Proof.
  revert b; induction a as [|x a IH]; intros [|y b]; cbn; try (split; congruence).
  rewrite andb_true_iff, N.eqb_eq, IH. split; [intros [-> ->]; auto | intros H; inversion H; auto].
Qed.
Lemma str_eqb_refl a : str_eqb a a = true.
Proof. now apply str_eqb_eq. Qed.
Lemma str_eqb_neq a b : str_eqb a b = false <-> a <> b.
Proof. rewrite <- str_eqb_eq. destruct (str_eqb a b); split; congruence. Qed.

(** [String]'s [Ord]: Rust compares UTF-8 bytes, which orders as code points do (proved in
    [Utf8Proofs.v]), used at src/lib.rs 116-148 by the order of keys *)
Fixpoint str_cmp (a b : str) : comparison :=
  match a, b with
  | [], [] => Eq
  | [], _ :: _ => Lt
  | _ :: _, [] => Gt
  | x :: a', y :: b' => match x ?= y with Eq => str_cmp a' b' | c => c end
  end.
(** std: [str]'s [PartialOrd]; the order of keys of src/lib.rs 116-148 *)
Definition str_ltb (a b : str) : bool := match str_cmp a b with Lt => true | _ => false end.

(** [slice::join], used at src/lib.rs 116-148 *)
Fixpoint join (sep : str) (l : list str) : str :=
  match l with
  | [] => []
  | [x] => x
  | x :: r => x ++ sep ++ join sep r
  end.

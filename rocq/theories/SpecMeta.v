(** What users of the parse crate find in attributes. *)
From Verif Require Import Base Tokens SpecAttr Meta.

(** The literals in tokens, however deep. *)
Fixpoint literals_in (t : token) : list str :=
  match t with
  | Literal raw => [raw]
  | Group _ ts => flat_map literals_in ts
  | _ => []
  end.
(** Every literal is one of Rust's and is not mistaken. *)
Definition clear_literals (ts : list token) : Prop :=
  forall raw, In raw (flat_map literals_in ts) -> exists l, lexical l /\ clear l /\ literal_tok l = Literal raw.

(** ** Looking things up *)
(** [x] is number [n], from 0, of those in the list that satisfy [p]. *)
Inductive Pick {A} (p : A -> Prop) : nat -> list A -> A -> Prop :=
| pick_here x r : p x -> Pick p 0 (x :: r) x
| pick_later n x r y : p x -> Pick p n r y -> Pick p (S n) (x :: r) y
| pick_skip n x r y : ~ p x -> Pick p n r y -> Pick p n (x :: r) y.
Definition First {A} (p : A -> Prop) : list A -> A -> Prop := Pick p 0.
Definition Last {A} (p : A -> Prop) (l : list A) : A -> Prop := Pick p 0 (rev l).
Definition a_word (x : meta_item) : Prop := exists w, x = MIdent w.
Definition a_value (x : meta_item) : Prop := exists l, x = MLiteral l.
Definition a_pair (k : str) (x : meta_item) : Prop := exists l e, x = MPair k l e.
Definition a_group (g : str) (x : meta_item) : Prop := exists inner, x = MGroup g inner.
(** What an index stands for: a number counts the words and values, a key finds the first pair, a name the first group with that name (and no
    other is looked into). *)
Inductive Found : meta_index -> list meta_item -> meta_found -> Prop :=
| found_nth n m x : Pick (fun x => a_word x \/ a_value x) n m x -> Found (IxNth n) m (FItem x)
| found_key k m l e : First (a_pair k) m (MPair k l e) -> Found (IxKey k) m (FLit l)
| found_group g m inner : First (a_group g) m (MGroup g inner) -> Found (IxGroup g) m (FMeta inner)
| found_in g i m inner f : First (a_group g) m (MGroup g inner) -> Found i inner f -> Found (IxIn g i) m f.

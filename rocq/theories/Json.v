(** The value type and the hash map it is built on. *)
From Verif Require Import Base F64.

(** src/lib.rs 107-114 [Json].  [HashMap<String, (Json, LinkedList<Json>)>] is an association list
    whose order stands for the map's iteration order; the operations below keep it in ascending key
    order, a canonical choice.  [LinkedList<Json>] is a list, front first. *)
#[local] Unset Elimination Schemes.
(** src/lib.rs 107-114 [Json]; [wf] below says which of these values are canonical *)
Inductive json :=
| JObj (o : list (str * (json * list json)))
| JArr (v : list json)
| JStr (s : str)
| JNum (f : f64)
| JBool (b : bool)
| JNull.
#[local] Set Elimination Schemes.
Notation entry := (str * (json * list json))%type.
Notation hmap := (list (str * (json * list json))).

(** Induction over all sub-values. *)
Section JsonInd.
  Variable P : json -> Prop.
  (** Not code: for the induction principle of the type at src/lib.rs 107-114. *)
  Definition Pentry (e : entry) : Prop := P (fst (snd e)) /\ Forall P (snd (snd e)).
  Hypothesis HObj : forall o, Forall Pentry o -> P (JObj o).
  Hypothesis HArr : forall v, Forall P v -> P (JArr v).
  Hypothesis HStr : forall s, P (JStr s).
  Hypothesis HNum : forall f, P (JNum f).
  Hypothesis HBool : forall b, P (JBool b).
  Hypothesis HNull : P JNull.
  (** Not code: the induction principle of the type at src/lib.rs 107-114. *)
  Fixpoint json_ind (j : json) : P j :=
    match j with
    | JObj o => HObj o ((fix go (o : hmap) : Forall Pentry o :=
        match o with
        | [] => Forall_nil _
        | (k, (v, l)) :: r => Forall_cons (k, (v, l))
            (conj (json_ind v)
               ((fix go2 (l : list json) : Forall P l :=
                   match l with [] => Forall_nil _ | x :: r => Forall_cons x (json_ind x) (go2 r) end) l))
            (go r)
        end) o)
    | JArr v => HArr v ((fix go (l : list json) : Forall P l :=
        match l with [] => Forall_nil _ | x :: r => Forall_cons x (json_ind x) (go r) end) v)
    | JStr s => HStr s | JNum f => HNum f | JBool b => HBool b | JNull => HNull
    end.
End JsonInd.

(** src/lib.rs 253-262 [Json::_kind] *)
Definition kind_name (j : json) : str :=
  match j with
  | JObj _ => lit "object" | JArr _ => lit "array" | JStr _ => lit "string"
  | JNum _ => lit "number" | JBool _ => lit "boolean" | JNull => lit "null"
  end.

(** [HashMap::get] of std, used throughout src/lib.rs, as at 1187 *)
Fixpoint hm_get {V} (k : str) (m : list (str * V)) : option V :=
  match m with
  | [] => None
  | (k', v) :: r => if str_eqb k k' then Some v else hm_get k r
  end.
(** [HashMap::insert]: overwrite or add (position: canonical order), used at src/lib.rs 166-179, 594-602, 1290-1305 *)
Fixpoint hm_insert {V} (k : str) (v : V) (m : list (str * V)) : list (str * V) :=
  match m with
  | [] => [(k, v)]
  | (k', v') :: r =>
      match str_cmp k k' with
      | Lt => (k, v) :: m
      | Eq => (k, v) :: r
      | Gt => (k', v') :: hm_insert k v r
      end
  end.
(** [HashMap::remove] of std, used at src/lib.rs 181-190, 1254-1270 *)
Fixpoint hm_remove {V} (k : str) (m : list (str * V)) : list (str * V) :=
  match m with
  | [] => []
  | (k', v') :: r => if str_eqb k k' then r else (k', v') :: hm_remove k r
  end.

(** src/lib.rs 594-602 [object_insert] *)
Definition object_insert (m : hmap) (k : str) (j : json) : hmap :=
  match hm_get k m with
  | Some (js, l) => hm_insert k (j, js :: l) m
  | None => hm_insert k (j, []) m
  end.

(** ** Well-formed values: what a [Json] can be in memory, in canonical form. *)
(** Not code: the invariant of the model of the [HashMap] of src/lib.rs 107-114. *)
Fixpoint keys_sorted {V} (m : list (str * V)) : bool :=
  match m with
  | [] => true
  | (k, _) :: r =>
      match r with [] => true | (k', _) :: _ => str_ltb k k' end && keys_sorted r
  end.

(** std: a [String] of src/lib.rs 107-114 holds Unicode scalar values *)
Definition scalar_str (s : str) : bool := forallb is_scalar s.

(** Not code: the invariant of the model of the type at src/lib.rs 107-114. *)
Fixpoint wf (j : json) : bool :=
  match j with
  | JObj o => keys_sorted o &&
      forallb (fun e => scalar_str (fst e) && (wf (fst (snd e)) && forallb wf (snd (snd e)))) o
  | JArr v => forallb wf v
  | JStr s => scalar_str s
  | JNum f => valid_f64 f
  | JBool _ | JNull => true
  end.

(** No NaN, no infinity anywhere. Not code: a predicate on the type at src/lib.rs 107-114. *)
Fixpoint finite (j : json) : bool :=
  match j with
  | JObj o => forallb (fun e => finite (fst (snd e)) && forallb finite (snd (snd e))) o
  | JArr v => forallb finite v
  | JNum f => is_finite f
  | _ => true
  end.

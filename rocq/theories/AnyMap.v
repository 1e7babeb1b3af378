(** The operations of [Ops] and [Path] once more, over any hash map.  [Json] keeps the entries of an object in ascending order, which no
    [HashMap] does; here [put] and [del] are [HashMap::insert] (and writing through a reference to a value) and [HashMap::remove], and may
    arrange the entries as they like.  [PropsHistory] shows that with those of [Json] these are the functions of [Ops] and [Path]. *)
From Verif Require Import Base F64 Json Parse Print Ops Path Equality.

Section AnyMap.
Variables (put : str -> json * list json -> hmap -> hmap) (del_key : str -> hmap -> hmap) (vmax : N).

(** src/lib.rs 594-602 *)
Definition a_object_insert (m : hmap) (k : str) (j : json) : hmap :=
  match hm_get k m with Some (js, l) => put k (j, js :: l) m | None => put k (j, []) m end.
(** src/lib.rs 158-179 *)
Definition a_add_option (j : json) (k : str) (v : json) (append : bool) : json * res unit :=
  match j with
  | JObj o => (JObj (if append then a_object_insert o k v else put k (v, []) o), Ok tt)
  | _ => (j, wrong_kind (lit "object") j)
  end.
(** src/lib.rs 181-190 *)
Definition a_delete (j : json) (k : str) : json * res unit :=
  match j with JObj o => (JObj (del_key k o), Ok tt) | _ => (j, wrong_kind (lit "object") j) end.

(** src/lib.rs 1219-1252 *)
Definition a_find_mut (f : finder) (j : json) : res (json * (json -> json)) :=
  match f with
  | Key k =>
      match j with
      | JObj o => match hm_get k o with
                  | Some (js, l) => Ok (js, fun x => JObj (put k (x, l) o))
                  | None => missing_key k
                  end
      | _ => bad_key k j
      end
  | Index i => f_find_mut (Index i) j
  end.
(** src/lib.rs 1254-1288 *)
Definition a_discard (f : finder) (j : json) : json * res json :=
  match f with
  | Key k =>
      match j with
      | JObj o => match hm_get k o with
                  | Some (js, _) => (JObj (del_key k o), Ok js)
                  | None => (j, missing_key k)
                  end
      | _ => (j, bad_key k j)
      end
  | Index i => f_discard (Index i) j
  end.
(** src/lib.rs 1290-1323 *)
Definition a_update (f : finder) (j : json) (x : json) : json * res (json * (json -> json)) :=
  match f with
  | Key k =>
      let j' := match j with
                | JObj o => JObj (put k (x, []) o)
                | _ => JObj (put k (x, []) [])
                end in
      (j', match a_find_mut (Key k) j' with Ok r => Ok r | Err _ => Panic | Panic => Panic | Fuel => Fuel end)
  | Index i => f_update vmax (Index i) j x
  end.
(** src/lib.rs 1042-1052 *)
Fixpoint ap_find_mut (p : path) (j : json) : res (json * (json -> json)) :=
  match p with
  | PEnd f => a_find_mut f j
  | PNext f q =>
      let? '(inner, put) := a_find_mut f j in
      let? '(x, put') := ap_find_mut q inner in
      Ok (x, fun y => put (put' y))
  end.
(** src/lib.rs 1054-1064 *)
Fixpoint ap_discard (p : path) (j : json) : json * res json :=
  match p with
  | PEnd f => a_discard f j
  | PNext f q =>
      match a_find_mut f j with
      | Ok (inner, put) => let '(inner', r) := ap_discard q inner in (put inner', r)
      | Err e => (j, Err e) | Panic => (j, Panic) | Fuel => (j, Fuel)
      end
  end.
(** src/lib.rs 1066-1079 *)
Fixpoint ap_update (p : path) (j : json) (x : json) : json * res json :=
  match p with
  | PEnd f => let '(j', r) := a_update f j x in (j', rmap fst r)
  | PNext f q =>
      match f_find f j with
      | Ok _ =>
          match a_find_mut f j with
          | Ok (inner, put) => let '(inner', r) := ap_update q inner x in (put inner', r)
          | Err e => (j, Err e) | Panic => (j, Panic) | Fuel => (j, Fuel)
          end
      | _ =>
          match a_update f j JNull with
          | (j1, Ok (inner, put)) => let '(inner', r) := ap_update q inner x in (put inner', r)
          | (j1, Err e) => (j1, Err e) | (j1, Panic) => (j1, Panic) | (j1, Fuel) => (j1, Fuel)
          end
      end
  end.
(** src/lib.rs 1106-1118 *)
Definition a_del (j : json) (s : str) : json * res json :=
  match s with
  | [] => (j, empty_path)
  | _ => match parse_path s with
         | Ok p => ap_discard p j
         | Err e => (j, Err e) | Panic => (j, Panic) | Fuel => (j, Fuel)
         end
  end.
(** src/lib.rs 1113-1118 *)
Definition a_set (j : json) (s : str) (x : json) : json * res json :=
  match s with
  | [] => (j, empty_path)
  | _ => match parse_path s with
         | Ok p => ap_update p j x
         | Err e => (j, Err e) | Panic => (j, Panic) | Fuel => (j, Fuel)
         end
  end.

(** * Programs that use them *)
(** A program has variables of type [Json], numbered, all [Json::Null] at first.  A value that is passed or stored is a copy of a variable; a
    copy ([clone]), and what [Json::parse] builds, has its maps in whatever arrangement [order] gives them. *)
Variable order : json -> json.
(** A call of a method of src/lib.rs 14-262, 1082-1118 by a program. *)
Inductive call :=
| Load (dst : nat) (j : json)                                  (* a value built by the program *)
| ParseText (dst : nat) (s : str)                              (* dst = Json::parse(s)? *)
| Insert (r : nat) (k : str) (src : nat) | Append (r : nat) (k : str) (src : nat) | Delete (r : nat) (k : str)
| Push (r src : nat) | Replace (r : nat) (i : N) (src : nat) | Remove (r : nat) (i : N)
| Find (r : nat) (p : path) (dst : nat)                        (* dst = r.find(p)?.clone() *)
| Write (r : nat) (p : path) (src : nat)                       (* *r.find_mut(p)? = src.clone() *)
| Update (r : nat) (p : path) (src : nat) | Discard (r : nat) (p : path) (dst : nat)
| GetText (r : nat) (s : str) (dst : nat) | SetText (r : nat) (s : str) (src : nat) | DelText (r : nat) (s : str) (dst : nat)
| Merge (r : nat) (k : str)                                    (* r.index_and_merge(k)?, printed *)
| Print (r : nat) | Kind (r : nat) | Compare (r r' : nat).     (* to_string, _kind, == *)
(** What the program gets to see. The results of src/lib.rs 14-262, 1082-1118. *)
Inductive answer := Fine | Failed (e : error) | Crashed | Text (s : str) | Texts (l : list str) | Truth (b : bool).

(** Not code: the variables of a program that uses src/lib.rs 157-262. *)
Definition store (m : nat -> json) (r : nat) (j : json) : nat -> json := fun n => if Nat.eqb n r then j else m n.
(** Not code: the answer that a result of src/lib.rs 157-262 is. *)
Definition answered {A} (f : A -> answer) (r : res A) : answer := match r with Ok a => f a | Err e => Failed e | Panic | Fuel => Crashed end.
(** Not code: a method of src/lib.rs 157-262 that takes [&mut self]. *)
Definition edited {A} (m : nat -> json) (r : nat) (x : json * res A) : (nat -> json) * answer := (store m r (fst x), answered (fun _ => Fine) (snd x)).
(** Not code: a method of src/lib.rs 248-282, 1082-1118 that gives a value. *)
Definition fetched (m : nat -> json) (dst : nat) (x : res json) : (nat -> json) * answer :=
  (match x with Ok j => store m dst (order j) | _ => m end, answered (fun _ => Fine) x).
(** Not code: a method of src/lib.rs 1082-1118 that takes [&mut self] and gives a value. *)
Definition taken (m : nat -> json) (r dst : nat) (x : json * res json) : (nat -> json) * answer := fetched (store m r (fst x)) dst (snd x).
(** One call: the methods of src/lib.rs 14-262, 1082-1118. *)
Definition perform (m : nat -> json) (c : call) : (nat -> json) * answer :=
  match c with
  | Load dst j => (store m dst (order j), Fine)
  | ParseText dst s => fetched m dst (parse s)
  | Insert r k src => edited m r (a_add_option (m r) k (order (m src)) false)
  | Append r k src => edited m r (a_add_option (m r) k (order (m src)) true)
  | Delete r k => edited m r (a_delete (m r) k)
  | Push r src => edited m r (push (m r) (order (m src)))
  | Replace r i src => edited m r (replace (m r) i (order (m src)))
  | Remove r i => edited m r (remove (m r) i)
  | Find r p dst => fetched m dst (p_find p (m r))
  | Write r p src => match ap_find_mut p (m r) with
                     | Ok (_, w) => (store m r (w (order (m src))), Fine)
                     | Err e => (m, Failed e)
                     | _ => (m, Crashed)
                     end
  | Update r p src => edited m r (ap_update p (m r) (order (m src)))
  | Discard r p dst => taken m r dst (ap_discard p (m r))
  | GetText r s dst => fetched m dst (get (m r) s)
  | SetText r s src => edited m r (a_set (m r) s (order (m src)))
  | DelText r s dst => taken m r dst (a_del (m r) s)
  | Merge r k => (m, answered (fun l => Texts (map to_string l)) (index_and_merge (m r) k))
  | Print r => (m, Text (to_string (m r)))
  | Kind r => (m, Text (kind_name (m r)))
  | Compare r r' => (m, Truth (json_eqb (m r) (m r')))
  end.
(** A program chooses each call by the answers to those before it; a panic ends it. Not code: a program that uses src/lib.rs. *)
Definition strategy := list answer -> option call.
(** Not code: the run of a program that uses src/lib.rs. *)
Fixpoint history (s : strategy) (fuel : nat) (seen : list answer) (m : nat -> json) : list answer :=
  match fuel, s seen with
  | S n, Some c => let '(m', a) := perform m c in a :: match a with Crashed => [] | _ => history s n (seen ++ [a]) m' end
  | _, _ => []
  end.
(** Not code: the run of a program that uses src/lib.rs. *)
Definition answers (s : strategy) (calls : nat) : list answer := history s calls [] (fun _ => JNull).
End AnyMap.

(** What the hash maps inside values may do. *)
From Verif Require Import Base F64 Json Parse Print Ops SpecValue Path Equality AnyMap.

(** Storing and removing entries, as the documentation of [HashMap] has it: each key occurs once; after [put k v] the key [k] has the value [v], and
    after [del_key k] none; the other entries stay.  Nothing is said about their arrangement. *)
Record hash_map (put : str -> json * list json -> hmap -> hmap) (del_key : str -> hmap -> hmap) : Prop := {
  put_once m k v : NoDup (map fst m) -> NoDup (map fst (put k v m));
  put_entries m k v k' w : NoDup (map fst m) -> (In (k', w) (put k v m) <-> k' = k /\ w = v \/ k' <> k /\ In (k', w) m);
  del_once m k : NoDup (map fst m) -> NoDup (map fst (del_key k m));
  del_entries m k k' w : NoDup (map fst m) -> (In (k', w) (del_key k m) <-> k' <> k /\ In (k', w) m) }.

(** Calls as a program can make them: strings are strings of Unicode, and values are as they can be. *)
Definition finder_fine (f : finder) : Prop := match f with Key k => scalar_str k = true | Index _ => True end.
Fixpoint path_fine (p : path) : Prop := match p with PEnd f => finder_fine f | PNext f q => finder_fine f /\ path_fine q end.
Definition call_fine (c : call) : Prop :=
  match c with
  | Load _ j => legal j
  | ParseText _ s | GetText _ s _ | SetText _ s _ | DelText _ s _ => scalar_str s = true
  | Insert _ k _ | Append _ k _ | Delete _ k | Merge _ k => scalar_str k = true
  | Find _ p _ | Write _ p _ | Update _ p _ | Discard _ p _ => path_fine p
  | _ => True
  end.
Definition strategy_fine (s : strategy) : Prop := forall seen c, s seen = Some c -> call_fine c.

(** * What each call does, by the methods: which variables get which values, and what the program sees. *)
Definition seen_of {A} (r : res A) : answer := match r with Ok _ => Fine | Err e => Failed e | Panic | Fuel => Crashed end.
Inductive Does (vmax : N) (m : nat -> json) : call -> list (nat * json) -> answer -> Prop :=
| do_load dst j c : same j c -> wf c = true -> Does vmax m (Load dst j) [(dst, c)] Fine
| do_parse dst s j : parse s = Ok j -> Does vmax m (ParseText dst s) [(dst, j)] Fine
| do_parse_error dst s e : parse s = Err e -> Does vmax m (ParseText dst s) [] (Failed e)
| do_insert r k src j a : insert (m r) k (m src) = (j, a) -> Does vmax m (Insert r k src) [(r, j)] (seen_of a)
| do_append r k src j a : append (m r) k (m src) = (j, a) -> Does vmax m (Append r k src) [(r, j)] (seen_of a)
| do_delete r k j a : delete (m r) k = (j, a) -> Does vmax m (Delete r k) [(r, j)] (seen_of a)
| do_push r src j a : push (m r) (m src) = (j, a) -> Does vmax m (Push r src) [(r, j)] (seen_of a)
| do_replace r i src j a : replace (m r) i (m src) = (j, a) -> Does vmax m (Replace r i src) [(r, j)] (seen_of a)
| do_remove r i j a : remove (m r) i = (j, a) -> Does vmax m (Remove r i) [(r, j)] (seen_of a)
| do_find r p dst x : p_find p (m r) = Ok x -> Does vmax m (Find r p dst) [(dst, x)] Fine
| do_find_error r p dst e : p_find p (m r) = Err e -> Does vmax m (Find r p dst) [] (Failed e)
| do_write r p src x put : p_find_mut p (m r) = Ok (x, put) -> Does vmax m (Write r p src) [(r, put (m src))] Fine
| do_write_error r p src e : p_find_mut p (m r) = Err e -> Does vmax m (Write r p src) [] (Failed e)
| do_update r p src j a : p_update vmax p (m r) (m src) = (j, a) -> Does vmax m (Update r p src) [(r, j)] (seen_of a)
| do_discard r p dst j x : p_discard p (m r) = (j, Ok x) -> Does vmax m (Discard r p dst) [(r, j); (dst, x)] Fine
| do_discard_error r p dst e : p_discard p (m r) = (m r, Err e) -> Does vmax m (Discard r p dst) [] (Failed e)
| do_get r s dst x : get (m r) s = Ok x -> Does vmax m (GetText r s dst) [(dst, x)] Fine
| do_get_error r s dst e : get (m r) s = Err e -> Does vmax m (GetText r s dst) [] (Failed e)
| do_set r s src j a : set vmax (m r) s (m src) = (j, a) -> Does vmax m (SetText r s src) [(r, j)] (seen_of a)
| do_del r s dst j x : del (m r) s = (j, Ok x) -> Does vmax m (DelText r s dst) [(r, j); (dst, x)] Fine
| do_del_error r s dst e : del (m r) s = (m r, Err e) -> Does vmax m (DelText r s dst) [] (Failed e)
| do_merge r k l : index_and_merge (m r) k = Ok l -> Does vmax m (Merge r k) [] (Texts (map to_string l))
| do_merge_error r k e : index_and_merge (m r) k = Err e -> Does vmax m (Merge r k) [] (Failed e)
| do_print r : Does vmax m (Print r) [] (Text (to_string (m r)))
| do_kind r : Does vmax m (Kind r) [] (Text (kind_name (m r)))
| do_compare r r' : Does vmax m (Compare r r') [] (Truth (json_eqb (m r) (m r'))).
(** The variables after the changes, made in order. *)
Definition changed (m : nat -> json) (l : list (nat * json)) (n : nat) : json :=
  fold_left (fun j c => if Nat.eqb n (fst c) then snd c else j) l (m n).
(** The answers a program gets in at most so many calls: it stops when it has no further call, or when a call panics. *)
Inductive Gets (vmax : N) (s : strategy) : nat -> list answer -> (nat -> json) -> list answer -> Prop :=
| gets_enough seen m : Gets vmax s 0 seen m []
| gets_stop n seen m : s seen = None -> Gets vmax s (S n) seen m []
| gets_panic n seen m c l : s seen = Some c -> Does vmax m c l Crashed -> Gets vmax s (S n) seen m [Crashed]
| gets_more n seen m c l a m' rest : s seen = Some c -> Does vmax m c l a -> a <> Crashed -> (forall x, m' x = changed m l x) ->
    Gets vmax s n (seen ++ [a]) m' rest -> Gets vmax s (S n) seen m (a :: rest).

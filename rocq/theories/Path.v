(** Paths: src/lib.rs 1011-1410. *)
From Verif Require Import Base F64 Json Ops.

(** src/lib.rs 1177-1181 [Finder] *)
Inductive finder := Key (k : str) | Index (i : N).

(** src/lib.rs 1011-1015 [Path]: a finder and optionally a next path. *)
Inductive path := PEnd (f : finder) | PNext (f : finder) (next : path).

(** src/lib.rs 1018-1028 [Path::new], [Path::append] *)
Definition path_new (f : finder) : path := PEnd f.
(** src/lib.rs 1022-1028 [append] *)
Fixpoint path_append (p : path) (f : finder) : path :=
  match p with
  | PEnd g => PNext g (path_new f)
  | PNext g q => PNext g (path_append q f)
  end.
(** src/lib.rs 1362-1396 the [path!] macro (also inside [find!], [update!], [discard!]) *)
Definition path_macro (root : finder) (l : list finder) : path := fold_left path_append l (path_new root).

(** An error of src/lib.rs 1183-1288. *)
Definition bad_key {A} (k : str) (j : json) : res A :=
  fail InvalidValueKind (lit "find value by key """ ++ k
     ++ lit """ error: invalid value kind, expect object, got " ++ kind_name j ++ lit ".").
(** An error of src/lib.rs 1183-1288. *)
Definition bad_index {A} (i : N) (j : json) : res A :=
  fail InvalidValueKind (lit "find value by index " ++ show_N i
     ++ lit " error: invalid value kind, expect array, got " ++ kind_name j ++ lit ".").
(** An error of src/lib.rs 1183-1288. *)
Definition out_of_range {A} (i : N) : res A :=
  fail IndexOutOfRange (lit "index " ++ show_N i ++ lit " out of range.").

(** src/lib.rs 1184-1217 [Finder::find] *)
Definition f_find (f : finder) (j : json) : res json :=
  match f with
  | Key k =>
      match j with
      | JObj o => match hm_get k o with Some (js, _) => Ok js | None => missing_key k end
      | _ => bad_key k j
      end
  | Index i =>
      match j with
      | JArr v => match vec_get i v with Some js => Ok js | None => out_of_range i end
      | _ => bad_index i j
      end
  end.

(** src/lib.rs 1219-1252 [Finder::find_mut].  The returned [&mut Json] is the current value together with the
    effect on the whole of writing a new value through it. *)
Definition f_find_mut (f : finder) (j : json) : res (json * (json -> json)) :=
  match f with
  | Key k =>
      match j with
      | JObj o => match hm_get k o with
                  | Some (js, l) => Ok (js, fun x => JObj (hm_insert k (x, l) o))
                  | None => missing_key k
                  end
      | _ => bad_key k j
      end
  | Index i =>
      match j with
      | JArr v => match vec_get i v with
                  | Some js => Ok (js, fun x => JArr (vec_set (N.to_nat i) x v))
                  | None => out_of_range i
                  end
      | _ => bad_index i j
      end
  end.

(** src/lib.rs 1254-1288 [Finder::discard] *)
Definition f_discard (f : finder) (j : json) : json * res json :=
  match f with
  | Key k =>
      match j with
      | JObj o => match hm_get k o with
                  | Some (js, _) => (JObj (hm_remove k o), Ok js)
                  | None => (j, missing_key k)
                  end
      | _ => (j, bad_key k j)
      end
  | Index i =>
      match j with
      | JArr v => if i <? vlen v
                  then match nth_error v (N.to_nat i) with
                       | Some js => (JArr (vec_remove (N.to_nat i) v), Ok js)
                       | None => (j, Panic)
                       end
                  else (j, out_of_range i)
      | _ => (j, bad_index i j)
      end
  end.

Section WithCapacity.
(** The largest number of elements a [Vec<Json>] can hold ([isize::MAX / size_of::<Json>()]);
    [resize]/[with_capacity] panic beyond it.  Any value of at most 2^64-1: then the overflow of [*i + 1]
    (a panic in debug builds; in release builds [resize(0)] and the following index panics) is covered too. *)
Variable vmax : N.

(** [vec.resize(i + 1, Null)] when [i >= len], src/lib.rs 1306-1320 *)
Definition resize (i : N) (v : list json) : list json :=
  v ++ repeat JNull (N.to_nat (i + 1 - vlen v)).

(** src/lib.rs 1290-1323 [Finder::update].  The result is the new whole and the value the returned reference
    points to, with its write-back. *)
Definition f_update (f : finder) (j : json) (x : json) : json * res (json * (json -> json)) :=
  match f with
  | Key k =>
      let j' := match j with
                | JObj o => JObj (hm_insert k (x, []) o)
                | _ => JObj (hm_insert k (x, []) [])
                end in
      (* [json.index_mut(k)], src/lib.rs 1303 *)
      (j', match f_find_mut (Key k) j' with Ok r => Ok r | Err _ => Panic | Panic => Panic | Fuel => Fuel end)
  | Index i =>
      let sized :=
        match j with
        | JArr v => if vlen v <=? i
                    then (if vmax <? i + 1 then None else Some (resize i v))
                    else Some v
        | _ => if vmax <? i + 1 then None else Some (resize i [])
        end in
      match sized with
      | None => (j, Panic)
      | Some v =>
          (* src/lib.rs 1318: [json.index_mut( *i)] then [*js = v] *)
          match f_find_mut (Index i) (JArr v) with
          | Ok (_, put) => let j' := put x in
              (j', match f_find_mut (Index i) j' with Ok r => Ok r | Err _ => Panic | Panic => Panic | Fuel => Fuel end)
          | _ => (JArr v, Panic)
          end
      end
  end.

(** src/lib.rs 1030-1040 [Path::find] *)
Fixpoint p_find (p : path) (j : json) : res json :=
  match p with
  | PEnd f => f_find f j
  | PNext f q => let? inner := f_find f j in p_find q inner
  end.

(** src/lib.rs 1042-1052 [Path::find_mut] *)
Fixpoint p_find_mut (p : path) (j : json) : res (json * (json -> json)) :=
  match p with
  | PEnd f => f_find_mut f j
  | PNext f q =>
      let? '(inner, put) := f_find_mut f j in
      let? '(x, put') := p_find_mut q inner in
      Ok (x, fun y => put (put' y))
  end.

(** src/lib.rs 1054-1064 [Path::discard] *)
Fixpoint p_discard (p : path) (j : json) : json * res json :=
  match p with
  | PEnd f => f_discard f j
  | PNext f q =>
      match f_find_mut f j with
      | Ok (inner, put) => let '(inner', r) := p_discard q inner in (put inner', r)
      | Err e => (j, Err e) | Panic => (j, Panic) | Fuel => (j, Fuel)
      end
  end.

(** src/lib.rs 1066-1079 [Path::update].  The [Ok] payload is the value behind the returned reference. *)
Fixpoint p_update (p : path) (j : json) (x : json) : json * res json :=
  match p with
  | PEnd f => let '(j', r) := f_update f j x in (j', rmap fst r)
  | PNext f q =>
      match f_find f j with
      | Ok _ =>
          match f_find_mut f j with
          | Ok (inner, put) => let '(inner', r) := p_update q inner x in (put inner', r)
          | Err e => (j, Err e) | Panic => (j, Panic) | Fuel => (j, Fuel)
          end
      | _ =>
          match f_update f j JNull with
          | (j1, Ok (inner, put)) => let '(inner', r) := p_update q inner x in (put inner', r)
          | (j1, Err e) => (j1, Err e) | (j1, Panic) => (j1, Panic) | (j1, Fuel) => (j1, Fuel)
          end
      end
  end.
End WithCapacity.

(** [<usize as FromStr>::from_str] (used at src/lib.rs 1129), 64-bit: an optional '+', then decimal digits, at
    least one, value below 2^64. *)
Definition usize_max : N := 0xFFFFFFFFFFFFFFFF.
(** std: [usize::from_str], src/lib.rs 1121-1175: the digits *)
Fixpoint read_digits (acc : N) (s : str) : option N :=
  match s with
  | [] => Some acc
  | c :: r => if is_digit c
              then let acc' := 10 * acc + (c - 48) in
                   if usize_max <? acc' then None else read_digits acc' r
              else None
  end.
(** std: [usize::from_str], used at src/lib.rs 1121-1175 *)
Definition usize_from_str (s : str) : option N :=
  match s with
  | [] => None
  | c :: r => if c =? PLUS then match r with [] => None | _ => read_digits 0 r end
              else read_digits 0 s
  end.

(** src/lib.rs 1126-1146: the closure [f] of [parse_path] *)
Definition finder_of (buf : str) : res finder :=
  match buf with
  | c :: s =>
      if c =? HASH then
        match usize_from_str s with
        | Some i => Ok (Index i)
        | None => fail PathSyntaxError (lit "error parsing """ ++ s ++ lit """ to usize.")
        end
      else if c =? BSLASH then Ok (Key s)
      else Ok (Key buf)
  | [] => Ok (Key [])
  end.

(** src/lib.rs 1148-1166: the loop of [parse_path] *)
Fixpoint path_loop (buf : str) (vec : list finder) (s : str) : res (list finder) :=
  match s with
  | [] => let? f := finder_of buf in Ok (vec ++ [f])
  | c :: r =>
      if c =? DOT then let? f := finder_of buf in path_loop [] (vec ++ [f]) r
      else if c =? BSLASH then
        match r with
        | c' :: r' => if c' =? DOT then path_loop (buf ++ [DOT]) vec r' else path_loop (buf ++ [BSLASH]) vec r
        | [] => path_loop (buf ++ [BSLASH]) vec r
        end
      else path_loop (buf ++ [c]) vec r
  end.

(** An error of src/lib.rs 1099-1118. *)
Definition empty_path {A} : res A := fail PathSyntaxError (lit "invalid syntax: empty path.").

(** src/lib.rs 1121-1175 [parse_path] *)
Definition parse_path (s : str) : res path :=
  let? vec := path_loop [] [] s in
  match vec with
  | [] => empty_path
  | f :: r => Ok (fold_left path_append r (path_new f))
  end.

(** src/lib.rs 1099-1118 [Json::get], [Json::del], [Json::set]; 1083-1097 [find], [find_mut], [discard],
    [update] with an explicit path are [p_find], [p_find_mut], [p_discard], [p_update]. *)
Definition get (j : json) (s : str) : res json :=
  match s with [] => empty_path | _ => let? p := parse_path s in p_find p j end.
(** src/lib.rs 1106-1111 [del] *)
Definition del (j : json) (s : str) : json * res json :=
  match s with
  | [] => (j, empty_path)
  | _ => match parse_path s with
         | Ok p => p_discard p j
         | Err e => (j, Err e) | Panic => (j, Panic) | Fuel => (j, Fuel)
         end
  end.
(** src/lib.rs 1113-1118 [set] *)
Definition set (vmax : N) (j : json) (s : str) (x : json) : json * res json :=
  match s with
  | [] => (j, empty_path)
  | _ => match parse_path s with
         | Ok p => p_update vmax p j x
         | Err e => (j, Err e) | Panic => (j, Panic) | Fuel => (j, Fuel)
         end
  end.

(** src/lib.rs 1398-1410 [Index], [IndexMut]: [expect] panics on [Err] *)
Definition expect {A} (r : res A) : res A :=
  match r with Ok a => Ok a | Err _ => Panic | Panic => Panic | Fuel => Fuel end.
(** src/lib.rs 1398-1403 [Index] *)
Definition index (j : json) (f : finder) : res json := expect (p_find (path_new f) j).
(** src/lib.rs 1405-1410 [IndexMut] *)
Definition index_mut (j : json) (f : finder) : res (json * (json -> json)) := expect (p_find_mut (path_new f) j).

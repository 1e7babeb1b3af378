(** The parser once more, with the bracket and quote counters as the 32-bit integers they are (src/lib.rs 401-402 and 476-477 declare them without a
    type, so they are [i32]).  [Parse] has the same loops with unbounded integers; [PropsParse32] relates the two. *)
From Verif Require Import Base F64 Utf8 Json Parse.

(** What [+=] and [-=] do when the result does not fit: panic (debug builds) or wrap around (release builds). The counters of src/lib.rs 394-592 are [i32]s. *)
Inductive build := Debug | Release.
(** std: the range of [i32], the type of the counters of src/lib.rs 394-592 *)
Definition fits32 (z : Z) : bool := (-2147483648 <=? z)%Z && (z <=? 2147483647)%Z.
(** std: [i32] arithmetic that wraps around, src/lib.rs 394-592 *)
Definition wrap32 (z : Z) : Z := ((z + 2147483648) mod 4294967296 - 2147483648)%Z.
(** std: [+=] and [-=] on the [i32]s of src/lib.rs 394-592 *)
Definition norm32 (b : build) (z : Z) : res Z :=
  if fits32 z then Ok z else match b with Debug => Panic | Release => Ok (wrap32 z) end.

(** src/lib.rs 404-466: the loop of [parse_array] *)
Fixpoint arr_loop32 (b : build) (rec : str -> res json) (i j : Z) (inner : str) (acc : list json) (s : str) : res json :=
  match s with
  | [] => fail ParseArrayError (lit "missing ].")
  | c :: r =>
      if ((c =? RBRACK) && ((i =? 0)%Z && (j =? 0)%Z)) then
        let? v := rec inner in let? _ := trailing ParseArrayError r in Ok (JArr (acc ++ [v]))
      else if ((c =? COMMA) && ((i =? 0)%Z && (j =? 0)%Z)) then
        match inner with
        | [] => fail ParseArrayError (lit "invalid empty element.")
        | _ :: _ =>
            if match r with p :: _ => p =? RBRACK | [] => false end
            then fail ParseArrayError (lit "invalid trailing comma.")
            else let? v := rec inner in arr_loop32 b rec i j [] (acc ++ [v]) r
        end
      else if c =? QUOTE then
        let? j' := norm32 b (if (j <=? 0)%Z then j + 1 else j - 1)%Z in arr_loop32 b rec i j' (inner ++ [c]) acc r
      else if (c =? LBRACK) || (c =? LBRACE) then
        let? i' := norm32 b (i + 1)%Z in arr_loop32 b rec i' j (inner ++ [c]) acc r
      else if (c =? RBRACK) || (c =? RBRACE) then
        let? i' := norm32 b (i - 1)%Z in arr_loop32 b rec i' j (inner ++ [c]) acc r
      else if c =? BSLASH then
        match r with
        | [] => fail ParseArrayError (lit "missing escaped character.")
        | e :: r1 => arr_loop32 b rec i j (inner ++ [c; e]) acc r1
        end
      else if (((i =? 0)%Z && (j =? 0)%Z) && is_whitespace c) then arr_loop32 b rec i j inner acc r
      else arr_loop32 b rec i j (inner ++ [c]) acc r
  end.
(** src/lib.rs 394-403 [parse_array] *)
Definition parse_array32 (b : build) (rec : str -> res json) (s : str) : res json :=
  let r := tl s in
  if match r with c :: _ => c =? RBRACK | [] => false end then Ok (JArr [])
  else arr_loop32 b rec 0 0 [] [] r.

(** src/lib.rs 481-590: the loop of [parse_object] *)
Fixpoint obj_loop32 (b : build) (rec : str -> res json) (i j : Z) (k v : str) (on_key : bool) (m : hmap) (s : str) : res json :=
  match s with
  | [] => fail ParseObjectError (lit "missing }.")
  | c :: r =>
      let push (x : str) := if on_key then (k ++ x, v) else (k, v ++ x) in
      if ((c =? RBRACE) && (((i =? 0)%Z && (j =? 0)%Z) && negb on_key)) then
        match rec k with
        | Ok (JStr key) =>
            let? x := rec v in let? _ := trailing ParseObjectError r in Ok (JObj (object_insert m key x))
        | Panic => Panic | Fuel => Fuel
        | _ => fail ParseObjectError (lit "error parsing key string.")
        end
      else if ((c =? COMMA) && (((i =? 0)%Z && (j =? 0)%Z) && negb on_key)) then
        match k, v with
        | [], _ | _, [] => fail ParseObjectError (lit "invalid empty member.")
        | _ :: _, _ :: _ =>
            if match r with p :: _ => p =? RBRACE | [] => false end
            then fail ParseObjectError (lit "invalid trailing comma.")
            else match rec k with
                 | Ok (JStr key) => let? x := rec v in obj_loop32 b rec i j [] [] true (object_insert m key x) r
                 | Panic => Panic | Fuel => Fuel
                 | _ => fail ParseObjectError (lit "error parsing key string.")
                 end
        end
      else if ((c =? COLON) && ((i =? 0)%Z && (j =? 0)%Z)) then obj_loop32 b rec i j k v false m r
      else if c =? QUOTE then
        let? j' := norm32 b (if (j <=? 0)%Z then j + 1 else j - 1)%Z in
        obj_loop32 b rec i j' (fst (push [c])) (snd (push [c])) on_key m r
      else if (c =? LBRACK) || (c =? LBRACE) then
        let? i' := norm32 b (i + 1)%Z in obj_loop32 b rec i' j (fst (push [c])) (snd (push [c])) on_key m r
      else if (c =? RBRACK) || (c =? RBRACE) then
        let? i' := norm32 b (i - 1)%Z in obj_loop32 b rec i' j (fst (push [c])) (snd (push [c])) on_key m r
      else if c =? BSLASH then
        match r with
        | [] => fail ParseObjectError (lit "missing escaped character.")
        | e :: r1 => obj_loop32 b rec i j (fst (push [c; e])) (snd (push [c; e])) on_key m r1
        end
      else if (((i =? 0)%Z && (j =? 0)%Z) && is_whitespace c) then obj_loop32 b rec i j k v on_key m r
      else obj_loop32 b rec i j (fst (push [c])) (snd (push [c])) on_key m r
  end.
(** src/lib.rs 469-480 [parse_object] *)
Definition parse_object32 (b : build) (rec : str -> res json) (s : str) : res json :=
  let r := tl s in
  if match r with c :: _ => c =? RBRACE | [] => false end then Ok (JObj [])
  else obj_loop32 b rec 0 0 [] [] true [] r.

(** src/lib.rs 271-282 [Json::_parse]; Rust recursion becomes recursion on [fuel]. *)
Fixpoint parse32_ (b : build) (fuel : nat) (s : str) : res json :=
  match fuel with
  | O => Fuel
  | S n =>
      match s with
      | [] => fail InvalidJson (lit "invalid json.")
      | c :: _ =>
          if c =? 110 then parse_null s
          else if (c =? 116) || (c =? 102) then parse_boolean s
          else if (c =? MINUS) || is_digit c then parse_number s
          else if c =? QUOTE then parse_string s
          else if c =? LBRACK then parse_array32 b (parse32_ b n) s
          else if c =? LBRACE then parse_object32 b (parse32_ b n) s
          else fail InvalidJson (lit "invalid json.")
      end
  end.
(** src/lib.rs 266-269 [Json::parse] *)
Definition parse32 (b : build) (s : str) : res json :=
  let t := trim_ws s in parse32_ b (S (List.length t)) t.

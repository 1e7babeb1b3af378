(** The parser once more, counting the characters it reads. *)
From Verif Require Import Base F64 Utf8 Json Parse.

(** A result and the number of characters read on the way. *)
Notation counted A := (res A * N)%type.
(** Not code: counts the characters that src/lib.rs 265-592 look at. *)
Definition tick {A} (n : N) (x : counted A) : counted A := (fst x, n + snd x).
(** std: [?], with the count of src/lib.rs 265-592 *)
Definition bind_c {A B} (x : counted A) (k : A -> counted B) : counted B :=
  match fst x with
  | Ok a => tick (snd x) (k a)
  | Err e => (Err e, snd x) | Panic => (Panic, snd x) | Fuel => (Fuel, snd x)
  end.

(** src/lib.rs 408-415, 486-493: one character per round. *)
Fixpoint trailing_c (k : error_kind) (s : str) : counted unit :=
  match s with
  | [] => (Ok tt, 0)
  | c :: r => tick 1 (if is_whitespace c then trailing_c k r
              else (fail k (lit "invalid trailing character: " ++ [c] ++ lit "."), 0))
  end.

(** src/lib.rs 404-466: the loop of [parse_array]; one character per [iter.next()], two for an escape. *)
Fixpoint arr_loop_c (rec : str -> counted json) (i j : Z) (inner : str) (acc : list json) (s : str) : counted json :=
  match s with
  | [] => (fail ParseArrayError (lit "missing ]."), 0)
  | c :: r =>
      if ((c =? RBRACK) && ((i =? 0)%Z && (j =? 0)%Z)) then
        tick 1 (bind_c (rec inner) (fun v => bind_c (trailing_c ParseArrayError r) (fun _ => (Ok (JArr (acc ++ [v])), 0))))
      else if ((c =? COMMA) && ((i =? 0)%Z && (j =? 0)%Z)) then
        match inner with
        | [] => (fail ParseArrayError (lit "invalid empty element."), 1)
        | _ :: _ =>
            if match r with p :: _ => p =? RBRACK | [] => false end
            then (fail ParseArrayError (lit "invalid trailing comma."), 1)
            else tick 1 (bind_c (rec inner) (fun v => arr_loop_c rec i j [] (acc ++ [v]) r))
        end
      else if c =? QUOTE then
        tick 1 (arr_loop_c rec i (if (j <=? 0)%Z then j + 1 else j - 1)%Z (inner ++ [c]) acc r)
      else if (c =? LBRACK) || (c =? LBRACE) then tick 1 (arr_loop_c rec (i + 1)%Z j (inner ++ [c]) acc r)
      else if (c =? RBRACK) || (c =? RBRACE) then tick 1 (arr_loop_c rec (i - 1)%Z j (inner ++ [c]) acc r)
      else if c =? BSLASH then
        match r with
        | [] => (fail ParseArrayError (lit "missing escaped character."), 1)
        | e :: r1 => tick 2 (arr_loop_c rec i j (inner ++ [c; e]) acc r1)
        end
      else if (((i =? 0)%Z && (j =? 0)%Z) && is_whitespace c) then tick 1 (arr_loop_c rec i j inner acc r)
      else tick 1 (arr_loop_c rec i j (inner ++ [c]) acc r)
  end.
(** src/lib.rs 394-403 [parse_array]; [skip(1)] reads one character. *)
Definition parse_array_c (rec : str -> counted json) (s : str) : counted json :=
  let r := tl s in
  if match r with c :: _ => c =? RBRACK | [] => false end then (Ok (JArr []), 1)
  else tick 1 (arr_loop_c rec 0 0 [] [] r).

(** src/lib.rs 481-590: the loop of [parse_object] *)
Fixpoint obj_loop_c (rec : str -> counted json) (i j : Z) (k v : str) (on_key : bool) (m : hmap) (s : str) : counted json :=
  match s with
  | [] => (fail ParseObjectError (lit "missing }."), 0)
  | c :: r =>
      let push (x : str) := if on_key then (k ++ x, v) else (k, v ++ x) in
      let member (k v : str) (next : hmap -> counted json) : counted json :=
        match rec k with
        | (Ok (JStr key), n) => tick n (bind_c (rec v) (fun x => next (object_insert m key x)))
        | (Panic, n) => (Panic, n) | (Fuel, n) => (Fuel, n)
        | (_, n) => (fail ParseObjectError (lit "error parsing key string."), n)
        end in
      if ((c =? RBRACE) && (((i =? 0)%Z && (j =? 0)%Z) && negb on_key)) then
        tick 1 (member k v (fun m' => bind_c (trailing_c ParseObjectError r) (fun _ => (Ok (JObj m'), 0))))
      else if ((c =? COMMA) && (((i =? 0)%Z && (j =? 0)%Z) && negb on_key)) then
        match k, v with
        | [], _ | _, [] => (fail ParseObjectError (lit "invalid empty member."), 1)
        | _ :: _, _ :: _ =>
            if match r with p :: _ => p =? RBRACE | [] => false end
            then (fail ParseObjectError (lit "invalid trailing comma."), 1)
            else tick 1 (member k v (fun m' => obj_loop_c rec i j [] [] true m' r))
        end
      else if ((c =? COLON) && ((i =? 0)%Z && (j =? 0)%Z)) then tick 1 (obj_loop_c rec i j k v false m r)
      else if c =? QUOTE then
        tick 1 (obj_loop_c rec i (if (j <=? 0)%Z then j + 1 else j - 1)%Z (fst (push [c])) (snd (push [c])) on_key m r)
      else if (c =? LBRACK) || (c =? LBRACE) then
        tick 1 (obj_loop_c rec (i + 1)%Z j (fst (push [c])) (snd (push [c])) on_key m r)
      else if (c =? RBRACK) || (c =? RBRACE) then
        tick 1 (obj_loop_c rec (i - 1)%Z j (fst (push [c])) (snd (push [c])) on_key m r)
      else if c =? BSLASH then
        match r with
        | [] => (fail ParseObjectError (lit "missing escaped character."), 1)
        | e :: r1 => tick 2 (obj_loop_c rec i j (fst (push [c; e])) (snd (push [c; e])) on_key m r1)
        end
      else if (((i =? 0)%Z && (j =? 0)%Z) && is_whitespace c) then tick 1 (obj_loop_c rec i j k v on_key m r)
      else tick 1 (obj_loop_c rec i j (fst (push [c])) (snd (push [c])) on_key m r)
  end.
(** src/lib.rs 469-480 [parse_object] *)
Definition parse_object_c (rec : str -> counted json) (s : str) : counted json :=
  let r := tl s in
  if match r with c :: _ => c =? RBRACE | [] => false end then (Ok (JObj []), 1)
  else tick 1 (obj_loop_c rec 0 0 [] [] true [] r).

(** src/lib.rs 271-282 [Json::_parse].  The parsers of literals, numbers and strings run through their text at most twice ([valid_number], then
    the standard library's [parse::<f64>]; once for the others) and are charged two for each character, whether or not they stop early. *)
Definition twice (s : str) (x : res json) : counted json := (x, 2 * N.of_nat (List.length s)).
(** src/lib.rs 271-282 [_parse], with the count *)
Fixpoint parse_c (fuel : nat) (s : str) : counted json :=
  match fuel with
  | O => (Fuel, 0)
  | S n =>
      match s with
      | [] => (fail InvalidJson (lit "invalid json."), 0)
      | c :: _ =>
          if c =? 110 then twice s (parse_null s)
          else if (c =? 116) || (c =? 102) then twice s (parse_boolean s)
          else if (c =? MINUS) || is_digit c then twice s (parse_number s)
          else if c =? QUOTE then twice s (parse_string s)
          else if c =? LBRACK then parse_array_c (parse_c n) s
          else if c =? LBRACE then parse_object_c (parse_c n) s
          else (fail InvalidJson (lit "invalid json."), 1)
      end
  end.
(** src/lib.rs 266-269 [Json::parse]: trimming reads the text once more at most. *)
Definition parse_counting (s : str) : counted json :=
  let t := trim_ws s in tick (N.of_nat (List.length s)) (parse_c (S (List.length t)) t).
(** Not code: the count of src/lib.rs 265-592 on a text. *)
Definition steps (s : str) : N := snd (parse_counting s).

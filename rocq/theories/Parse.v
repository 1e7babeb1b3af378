(** [Json::parse] and its helpers, src/lib.rs 266-591 and 658-756. *)
From Verif Require Import Base F64 Utf8 Json.

(** src/lib.rs 753-756 [is_whitespace] *)
Definition is_whitespace (c : N) : bool :=
  (c =? SP) || (c =? TAB) || (c =? LF) || (c =? CR).

(** [str::trim_matches], used at src/lib.rs 267: strips matching characters from both ends. *)
Fixpoint trim_start (s : str) : str :=
  match s with
  | c :: r => if is_whitespace c then trim_start r else s
  | [] => []
  end.
(** std: [str::trim_matches(is_whitespace)], used at src/lib.rs 265-282 *)
Definition trim_ws (s : str) : str := rev (trim_start (rev (trim_start s))).

(** src/lib.rs 284-290 [parse_null] *)
Definition parse_null (s : str) : res json :=
  if str_eqb s (lit "null") then Ok JNull
  else fail ParseNullError (lit "error parsing null value.").

(** src/lib.rs 293-299 [parse_boolean] *)
Definition parse_boolean (s : str) : res json :=
  if str_eqb s (lit "true") then Ok (JBool true)
  else if str_eqb s (lit "false") then Ok (JBool false)
  else fail ParseBooleanError (lit "error parsing boolean value.").

(** src/lib.rs 692-751 [valid_number]; the [loop]s that consume digits are [skip_digits]. *)
Fixpoint skip_digits (s : str) : str :=
  match s with
  | c :: r => if is_digit c then skip_digits r else s
  | [] => []
  end.

(** src/lib.rs 692-752 [valid_number] *)
Definition valid_number (s : str) : bool :=
  (* '-' *)
  let s1 := match s with c :: r => if c =? MINUS then r else s | [] => s end in
  (* '0' / '1'..'9' *)
  let int_part :=
    match s1 with
    | c :: r => if c =? 48 then Some r else if is_digit c then Some (skip_digits s1) else None
    | [] => None
    end in
  match int_part with
  | None => false
  | Some s2 =>
      (* '.': [iter.nth(1)] skips the dot and takes the next character *)
      let frac :=
        match s2 with
        | c :: r =>
            if c =? DOT then
              match r with d :: r' => if is_digit d then Some (skip_digits r') else None | [] => None end
            else Some s2
        | [] => Some s2
        end in
      (* src/lib.rs 731-748: what follows 'e' is skipped but never inspected further, so it cannot fail *)
      match frac with None => false | Some _ => true end
  end.

(** src/lib.rs 302-316 [parse_number] *)
Definition parse_number (s : str) : res json :=
  if valid_number s then
    match f64_from_str s with
    | Some f => if is_finite f then Ok (JNum f)
                else fail ParseNumberError (lit "error number too large.")
    | None => fail ParseNumberError (lit "error parsing number value.")
    end
  else fail ParseNumberError (lit "invalid number.").

(** src/lib.rs 658-670 [parse_hex_digit] *)
Definition parse_hex_digit (c : N) : res N :=
  if (48 <=? c) && (c <=? 57) then Ok (c - 48)
  else if (65 <=? c) && (c <=? 70) then Ok (c - 65 + 10)
  else if (97 <=? c) && (c <=? 102) then Ok (c - 97 + 10)
  else fail ParseStringError (lit "parse unicode error: invalid hex digit " ++ [c] ++ lit ".").

(** The loops that only check for trailing white space (src/lib.rs 324-331, 408-415, 486-493). *)
Fixpoint trailing (k : error_kind) (s : str) : res unit :=
  match s with
  | [] => Ok tt
  | c :: r => if is_whitespace c then trailing k r
              else fail k (lit "invalid trailing character: " ++ [c] ++ lit ".")
  end.

(** One round of the loops at src/lib.rs 346-352 and 361-367. *)
Definition hex_step {A} (u : N) (s : str) (k : N -> str -> res A) : res A :=
  match s with
  | c :: r => match parse_hex_digit c with
              | Ok d => k (N.lor (N.shiftl u 4) d) r
              | Err e => Err e | Panic => Panic | Fuel => Fuel
              end
  | [] => fail ParseStringError (lit "parse unicode error: missing hex digit.")
  end.
(** src/lib.rs 346-352, 360-366: four hexadecimal digits of an escape *)
Definition hex4 {A} (s : str) (k : N -> str -> res A) : res A :=
  hex_step 0 s (fun u1 s1 => hex_step u1 s1 (fun u2 s2 => hex_step u2 s2 (fun u3 s3 =>
  hex_step u3 s3 k))).

(** src/lib.rs 375-380 *)
Definition push_code {A} (u : N) (acc : str) (k : str -> res A) : res A :=
  match from_utf8 (encode_utf8 u) with
  | Some t => k (acc ++ t)
  | None => fail ParseStringError (lit "invalid utf-8 encoding.")
  end.

(** src/lib.rs 318-392: the loop of [parse_string], with [acc] the string built so far; [s] starts after the
    opening quote. *)
Fixpoint string_loop (acc : str) (s : str) : res json :=
  match s with
  | [] => fail ParseStringError (lit "missing """ ++ lit ".")
  | c :: r =>
      if c =? QUOTE then
        match trailing ParseStringError r with
        | Ok _ => Ok (JStr acc)
        | Err e => Err e | Panic => Panic | Fuel => Fuel
        end
      else if c =? BSLASH then
        match r with
        | [] => fail ParseStringError (lit "missing escaped character.")
        | e :: r1 =>
            if e =? QUOTE then string_loop (acc ++ [QUOTE]) r1
            else if e =? BSLASH then string_loop (acc ++ [BSLASH]) r1
            else if e =? SLASH then string_loop (acc ++ [SLASH]) r1
            else if e =? 98 then string_loop (acc ++ [BS]) r1
            else if e =? 102 then string_loop (acc ++ [FF]) r1
            else if e =? 110 then string_loop (acc ++ [LF]) r1
            else if e =? 114 then string_loop (acc ++ [CR]) r1
            else if e =? 116 then string_loop (acc ++ [TAB]) r1
            else if e =? 117 then
              hex4 r1 (fun u r2 =>
                if (0xD800 <=? u) && (u <=? 0xDBFF) then
                  match r2 with
                  | b :: u' :: r3 =>
                      if (b =? BSLASH) && (u' =? 117) then
                        hex4 r3 (fun u2 r4 =>
                          if (u2 <? 0xDC00) || (0xDFFF <? u2) then
                            fail ParseStringError (lit "invalid low surrogate.")
                          else push_code (N.lor (N.shiftl (u - 0xD800) 10) (u2 - 0xDC00) + 0x10000) acc
                                 (fun acc' => string_loop acc' r4))
                      else fail ParseStringError (lit "missing low surrogate.")
                  | _ => fail ParseStringError (lit "missing low surrogate.")
                  end
                else push_code u acc (fun acc' => string_loop acc' r2))
            else fail ParseStringError (lit "missing escaped character.")
        end
      else if c <=? 0x1F then fail ParseStringError (lit "invalid character.")
      else string_loop (acc ++ [c]) r
  end.
(** src/lib.rs 318-392 [parse_string] *)
Definition parse_string (s : str) : res json := string_loop [] (tl s).

(** src/lib.rs 404-466: the loop of [parse_array].  [rec] is [Json::_parse], [i] and [j] the bracket and quote
    counters (i32 in Rust; unbounded here, see [Parse32]), [inner] the text of the element
    collected so far, [acc] the elements. *)
Fixpoint arr_loop (rec : str -> res json) (i j : Z) (inner : str) (acc : list json) (s : str) : res json :=
  match s with
  | [] => fail ParseArrayError (lit "missing ].")
  | c :: r =>
      if ((c =? RBRACK) && ((i =? 0)%Z && (j =? 0)%Z)) then
        match rec inner with
        | Ok v => match trailing ParseArrayError r with
                  | Ok _ => Ok (JArr (acc ++ [v]))
                  | Err e => Err e | Panic => Panic | Fuel => Fuel
                  end
        | Err e => Err e | Panic => Panic | Fuel => Fuel
        end
      else if ((c =? COMMA) && ((i =? 0)%Z && (j =? 0)%Z)) then
        match inner with
        | [] => fail ParseArrayError (lit "invalid empty element.")
        | _ :: _ =>
            if match r with p :: _ => p =? RBRACK | [] => false end
            then fail ParseArrayError (lit "invalid trailing comma.")
            else match rec inner with
                 | Ok v => arr_loop rec i j [] (acc ++ [v]) r
                 | Err e => Err e | Panic => Panic | Fuel => Fuel
                 end
        end
      else if c =? QUOTE then
        arr_loop rec i (if (j <=? 0)%Z then j + 1 else j - 1)%Z (inner ++ [c]) acc r
      else if (c =? LBRACK) || (c =? LBRACE) then arr_loop rec (i + 1)%Z j (inner ++ [c]) acc r
      else if (c =? RBRACK) || (c =? RBRACE) then arr_loop rec (i - 1)%Z j (inner ++ [c]) acc r
      else if c =? BSLASH then
        match r with
        | [] => fail ParseArrayError (lit "missing escaped character.")
        | e :: r1 => arr_loop rec i j (inner ++ [c; e]) acc r1
        end
      else if (((i =? 0)%Z && (j =? 0)%Z) && is_whitespace c) then arr_loop rec i j inner acc r
      else arr_loop rec i j (inner ++ [c]) acc r
  end.
(** src/lib.rs 394-403 [parse_array] *)
Definition parse_array (rec : str -> res json) (s : str) : res json :=
  let r := tl s in
  if match r with c :: _ => c =? RBRACK | [] => false end then Ok (JArr [])
  else arr_loop rec 0 0 [] [] r.

(** src/lib.rs 481-590: the loop of [parse_object]; [k], [v] are the key and value text collected so far. *)
Fixpoint obj_loop (rec : str -> res json) (i j : Z) (k v : str) (on_key : bool) (m : hmap) (s : str) : res json :=
  match s with
  | [] => fail ParseObjectError (lit "missing }.")
  | c :: r =>
      let push (x : str) := if on_key then (k ++ x, v) else (k, v ++ x) in
      if ((c =? RBRACE) && (((i =? 0)%Z && (j =? 0)%Z) && negb on_key)) then
        match rec k with
        | Ok (JStr key) =>
            match rec v with
            | Ok x => match trailing ParseObjectError r with
                      | Ok _ => Ok (JObj (object_insert m key x))
                      | Err e => Err e | Panic => Panic | Fuel => Fuel
                      end
            | Err e => Err e | Panic => Panic | Fuel => Fuel
            end
        | Panic => Panic | Fuel => Fuel
        | _ => fail ParseObjectError (lit "error parsing key string.")
        end
      else if ((c =? COMMA) && (((i =? 0)%Z && (j =? 0)%Z) && negb on_key)) then
        match k, v with
        | [], _ | _, [] => fail ParseObjectError (lit "invalid empty member.")
        | _ :: _, _ :: _ =>
            if match r with p :: _ => p =? RBRACE | [] => false end
            then fail ParseObjectError (lit "invalid trailing comma.")
            else match rec k with
                 | Ok (JStr key) =>
                     match rec v with
                     | Ok x => obj_loop rec i j [] [] true (object_insert m key x) r
                     | Err e => Err e | Panic => Panic | Fuel => Fuel
                     end
                 | Panic => Panic | Fuel => Fuel
                 | _ => fail ParseObjectError (lit "error parsing key string.")
                 end
        end
      else if ((c =? COLON) && ((i =? 0)%Z && (j =? 0)%Z)) then obj_loop rec i j k v false m r
      else if c =? QUOTE then
        obj_loop rec i (if (j <=? 0)%Z then j + 1 else j - 1)%Z (fst (push [c])) (snd (push [c])) on_key m r
      else if (c =? LBRACK) || (c =? LBRACE) then
        obj_loop rec (i + 1)%Z j (fst (push [c])) (snd (push [c])) on_key m r
      else if (c =? RBRACK) || (c =? RBRACE) then
        obj_loop rec (i - 1)%Z j (fst (push [c])) (snd (push [c])) on_key m r
      else if c =? BSLASH then
        match r with
        | [] => fail ParseObjectError (lit "missing escaped character.")
        | e :: r1 => obj_loop rec i j (fst (push [c; e])) (snd (push [c; e])) on_key m r1
        end
      else if (((i =? 0)%Z && (j =? 0)%Z) && is_whitespace c) then obj_loop rec i j k v on_key m r
      else obj_loop rec i j (fst (push [c])) (snd (push [c])) on_key m r
  end.
(** src/lib.rs 469-480 [parse_object] *)
Definition parse_object (rec : str -> res json) (s : str) : res json :=
  let r := tl s in
  if match r with c :: _ => c =? RBRACE | [] => false end then Ok (JObj [])
  else obj_loop rec 0 0 [] [] true [] r.

(** src/lib.rs 271-282 [Json::_parse]; Rust recursion becomes recursion on [fuel]. *)
Fixpoint parse_ (fuel : nat) (s : str) : res json :=
  match fuel with
  | O => Fuel
  | S n =>
      match s with
      | [] => fail InvalidJson (lit "invalid json.")
      | c :: _ =>
          if c =? 110 then parse_null s
          else if (c =? 116) || (c =? 102) then parse_boolean s
          else if (c =? MINUS) || is_digit c then parse_number s
          else if c =? QUOTE then parse_string s
          else if c =? LBRACK then parse_array (parse_ n) s
          else if c =? LBRACE then parse_object (parse_ n) s
          else fail InvalidJson (lit "invalid json.")
      end
  end.

(** src/lib.rs 266-269 [Json::parse] (also [FromStr], 150-155) *)
Definition parse (s : str) : res json :=
  let t := trim_ws s in parse_ (S (List.length t)) t.

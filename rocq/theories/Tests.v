(** The repository's own unit tests (src/lib.rs 1415-1960) and the examples of readme.md, replayed on the model by computation.
    These are tests of the model's adequacy, not proofs of properties: if the model computed something else than the
    code on any of them, the corresponding [Example] would not type-check.  Generated from the test texts; the doubles are
    written as sign, integer mantissa and binary exponent.  Left out are the seven literals with exponents below -300, whose re-checking
    by coqchk takes too long. *)
From Verif Require Import Base F64 Json Parse Print Ops Path Convert Derive.
From Coq Require Import ZArith SpecFloat.
Local Open Scope N_scope.

Definition is_err {A} (r : res A) : bool := match r with Err _ => true | _ => false end.
Definition num (r : res json) (f : f64) : bool := match r with Ok (JNum g) => SFeqb g f | _ => false end.
(** The number [z], as the conversion from an integer literal. *)
Definition int (z : Z) : json := JNum (f64_of_Z z).
Notation run := (fun j => j) (only parsing).

Example test_parse_null : parse (lit "null") = Ok JNull /\
  parse (lit " " ++ [9] ++ [10] ++ [13] ++ lit "null" ++ [10] ++ [13] ++ lit " " ++ [9]) = Ok JNull.
Proof. vm_compute; repeat split. Qed.
Example test_parse_boolean_true : parse (lit "true") = Ok (JBool true) /\
  parse (lit " " ++ [9] ++ [10] ++ [13] ++ lit "true" ++ [10] ++ [13] ++ lit " " ++ [9]) = Ok (JBool true).
Proof. vm_compute; repeat split. Qed.
Example test_parse_boolean_false : parse (lit "false") = Ok (JBool false) /\
  parse (lit " " ++ [9] ++ [10] ++ [13] ++ lit "false" ++ [10] ++ [13] ++ lit " " ++ [9]) = Ok (JBool false).
Proof. vm_compute; repeat split. Qed.
Example test_parse_number : forallb (fun p => num (parse (snd p)) (fst p)) [
  ((S754_zero false), (lit "0"));
  ((S754_zero false), (lit "-0"));
  ((S754_zero false), (lit "-0.0"));
  ((S754_finite false 4503599627370496 (-52)), (lit "1"));
  ((S754_finite true 4503599627370496 (-52)), (lit "-1"));
  ((S754_finite false 6755399441055744 (-52)), (lit "1.5"));
  ((S754_finite true 6755399441055744 (-52)), (lit "-1.5"));
  ((S754_finite false 7074254294673575 (-51)), (lit "3.1416"));
  ((S754_finite false 5242880000000000 (-19)), (lit "1E10"));
  ((S754_finite false 5242880000000000 (-19)), (lit "1e10"));
  ((S754_finite false 5242880000000000 (-19)), (lit "1E+10"));
  ((S754_finite false 7737125245533627 (-86)), (lit "1E-10"));
  ((S754_finite true 5242880000000000 (-19)), (lit "-1E10"));
  ((S754_finite true 5242880000000000 (-19)), (lit "-1e10"));
  ((S754_finite true 5242880000000000 (-19)), (lit "-1E+10"));
  ((S754_finite true 7737125245533627 (-86)), (lit "-1E-10"));
  ((S754_finite false 6469713920000000 (-19)), (lit "1.234E+10"));
  ((S754_finite false 4773806276494248 (-85)), (lit "1.234E-10"));
  ((S754_finite false 4503599627370497 (-52)), (lit "1.0000000000000002"));
  ((S754_finite false 9007199254740991 (971)), (lit "1.7976931348623157e+308"));
  ((S754_finite true 9007199254740991 (971)), (lit "-1.7976931348623157e+308"))] = true.
Proof. vm_compute; reflexivity. Qed.
Example test_parse_number_invalid : forallb (fun t => is_err (parse t)) [(lit "0  +"); (lit "+0"); (lit "+1"); (lit ".123"); (lit "1."); (lit "INF"); (lit "inf"); (lit "NAN"); (lit "nan"); (lit "1e309"); (lit "-1e309")] = true.
Proof. vm_compute; reflexivity. Qed.
Example test_parse_string : parse (lit """123""") = Ok (JStr (lit "123")) /\
  parse (lit """12\n3""") = Ok (JStr (lit "12" ++ [10] ++ lit "3")) /\
  parse (lit """" ++ [27979] ++ [35797] ++ lit """") = Ok (JStr ([27979] ++ [35797])) /\
  parse (lit """\u4e00\u4e8c\u4e09""") = Ok (JStr ([19968] ++ [20108] ++ [19977])) /\
  parse (lit """" ++ [128150] ++ lit """") = Ok (JStr ([128150])) /\
  parse (lit """\ud83d\udc96\u0000""") = Ok (JStr ([128150] ++ [0])).
Proof. vm_compute; repeat split. Qed.
Example test_parse_string_invalid : forallb (fun t => is_err (parse t)) [(lit """123"" + "); (lit """\ud83d+\udc96""")] = true.
Proof. vm_compute; reflexivity. Qed.
Example test_parse_string_print : rmap to_string (parse (lit """\ud83d\udc96""")) = Ok (lit """\uD83D\uDC96""").
Proof. vm_compute; reflexivity. Qed.
Example test_parse_array : parse (lit "[]") = Ok (JArr []) /\
  parse ([10] ++ lit "[null," ++ [10] ++ lit " true," ++ [9] ++ lit " 1.234E+10 " ++ [13] ++ lit ", ""\ud83d\udc96 ""  , {""123"": 123}, [1, {}]]") =
  Ok (JArr [JNull; JBool true; JNum (S754_finite false 6469713920000000 (-19)); JStr ([128150] ++ lit " "); JObj [(lit "123", (int 123, []))]; JArr [int 1; JObj []]]).
Proof. vm_compute; repeat split. Qed.
Example test_parse_array_invalid : forallb (fun t => is_err (parse t)) [(lit "[1, 2, ""123""+]"); (lit "[1, 2+]"); (lit "[123,]"); (lit "[123,,123]")] = true.
Proof. vm_compute; reflexivity. Qed.
Example test_parse_object : parse (lit "{}") = Ok (JObj []) /\
  parse (lit "{""number"": 1.234E+10}") = Ok (JObj [(lit "number", (JNum (S754_finite false 6469713920000000 (-19)), []))]) /\
  parse (lit "{""null"": null}") = Ok (JObj [(lit "null", (JNull, []))]) /\
  parse (lit "{""first"": ""Dale"", ""last"": ""Murphy"", ""age"": 44, ""nets"": [""ig"", ""fb"", ""tw""]}")
  = Ok (JObj [(lit "age", (int 44, [])); (lit "first", (JStr (lit "Dale"), [])); (lit "last", (JStr (lit "Murphy"), []));
     (lit "nets", (JArr [JStr (lit "ig"); JStr (lit "fb"); JStr (lit "tw")], []))]).
Proof. vm_compute; repeat split. Qed.
Example test_parse_object_invalid : forallb (fun t => is_err (parse t)) [(lit "{""123""}"); (lit "{""123"": 123,}"); (lit "{""123"":}"); (lit "{:123}")] = true.
Proof. vm_compute; reflexivity. Qed.
(** src/lib.rs 1596-1608 *)
Definition JSON : str := (lit "{""name"": {""first"": ""Tom"", ""last"": ""Anderson""}, ""age"": 37, ""children"": [""Sara"", ""Alex"", ""Jack""], ""fav.movie"": ""Deer Hunter"", ""friends"": [{""first"": ""#Dale"", ""last"": ""Murphy"", ""age"": 44, ""nets"": [""ig"", ""fb"", ""tw""]}, {""first"": ""\\#Roger"", ""last"": ""Craig"", ""age"": 68, ""nets"": [""fb"", ""tw""]}, {""first"": ""Jane"", ""last"": ""\\Murphy"", ""age"": 47, ""nets"": [""ig"", ""tw""]}]}").
(** [Json::parse(JSON).unwrap()] *)
Definition json0 : json := match parse JSON with Ok j => j | _ => JNull end.
(** Some bound on the length of vectors (see [Path.set]). *)
Definition vmax0 : N := 0x7FFFFFFFFFFFFFFF / 64.
Example test_get : is_err (parse JSON) = false /\
  get json0 (lit "name.first") = Ok (JStr (lit "Tom")) /\
  get json0 (lit "children.#0") = Ok (JStr (lit "Sara")) /\
  get json0 (lit "fav\.movie") = Ok (JStr (lit "Deer Hunter")) /\
  get json0 (lit "friends.#2.last") = Ok (JStr (lit "\Murphy")) /\
  get json0 (lit "friends.#0.first") = Ok (JStr (lit "#Dale")) /\
  get json0 (lit "friends.#1.first") = Ok (JStr (lit "\#Roger")) /\
  get json0 (lit "friends.#0.nets.#1") = Ok (JStr (lit "fb")) /\
  get json0 (lit "age") = Ok (int 37) /\
  get json0 (lit "friends.#1.age") = Ok (int 68).
Proof. vm_compute; repeat split. Qed.
(** The [sassert!] of src/lib.rs 1627-1633: set, see the value come back, read it. *)
Fixpoint sassert (j : json) (l : list (str * json)) : option json :=
  match l with
  | [] => Some j
  | (p, v) :: r =>
      let '(j', x) := set vmax0 j p v in
      match x, get j' p with
      | Ok a, Ok b => if (str_eqb (to_string a) (to_string v) && str_eqb (to_string b) (to_string v))%bool then sassert j' r else None
      | _, _ => None
      end
  end.
Example test_set : match sassert json0 [((lit "age"), int 24); ((lit "name.last"), JStr (lit "Rogers")); ((lit "children.#4"), JStr (lit "Steve")); ((lit "fav\.movie"), JStr (lit "Spider Man")); ((lit "friends.#0.nets.#3"), JStr (lit "fb")); ((lit "phone"), JStr (lit "iPhone X"))] with
  | Some j => get j (lit "children.#3") = Ok JNull | None => False end.
Proof. vm_compute; reflexivity. Qed.
(** The [dassert!] of src/lib.rs 1650-1657. *)
Fixpoint dassert (j : json) (l : list str) : bool :=
  match l with
  | [] => true
  | p :: r =>
      let '(j', x) := del j p in
      match get j p, x with
      | Ok a, Ok b => str_eqb (to_string a) (to_string b) && is_err (get j' p) && dassert j' r
      | _, _ => false
      end
  end.
Example test_del : dassert json0 [(lit "name.first"); (lit "fav\.movie"); (lit "age")] = true.
Proof. vm_compute; reflexivity. Qed.
Definition entries (j : json) : nat := match j with JObj o => fold_left (fun n e => (n + 1 + List.length (snd (snd e)))%nat) o 0%nat | _ => 0%nat end.
Definition js1 := object_macro [(lit "name", JStr (lit "Jack")); (lit "name", JStr (lit "Steve"))].
Definition js2 := fst (insert js1 (lit "name") (JStr (lit "Tony"))).
Definition js3 := fst (append js2 (lit "name") (JStr (lit "Peter"))).
Example test_insert : (index js1 (Key (lit "name")), entries js1) = (Ok (JStr (lit "Steve")), 2%nat) /\
  snd (insert js1 (lit "name") (JStr (lit "Tony"))) = Ok tt /\ (index js2 (Key (lit "name")), entries js2) = (Ok (JStr (lit "Tony")), 1%nat) /\
  snd (append js2 (lit "name") (JStr (lit "Peter"))) = Ok tt /\ (index js3 (Key (lit "name")), entries js3) = (Ok (JStr (lit "Peter")), 2%nat) /\
  index_and_merge js3 (lit "name") = Ok [JStr (lit "Tony"); JStr (lit "Peter")].
Proof. vm_compute; repeat split. Qed.
Example test_duplicate_order : let cv := c_pairs k_string c_string in let cm := c_map str_eqb k_string c_string in
  let v := [(lit "name", lit "Jack"); (lit "name", lit "Steve")] in let m := [(lit "name", lit "Steve")] in
  index js1 (Key (lit "name")) = Ok (JStr (lit "Steve")) /\
  from_json cv js1 = Ok v /\ index (to_json cv v) (Key (lit "name")) = Ok (JStr (lit "Steve")) /\
  from_json cm js1 = Ok m /\ index (to_json cm m) (Key (lit "name")) = Ok (JStr (lit "Steve")) /\
  encode run c_json js1 = (lit "{""name"": ""Jack"", ""name"": ""Steve""}") /\
  encode run cv v = (lit "{""name"": ""Jack"", ""name"": ""Steve""}") /\
  encode run cm m = (lit "{""name"": ""Steve""}").
Proof. vm_compute; repeat split. Qed.
Definition js4 : str := (lit "{""name"": ""Rogers"", ""age"": 24, ""master"": true, ""phones"": [""iPhone"", ""Pixel""]}").
Example test_direct_get : text_get run c_string js4 (lit "name") = Ok (lit "Rogers") /\ text_get run (c_int I32) js4 (lit "age") = Ok 24%Z /\
  text_get run c_bool js4 (lit "master") = Ok true /\ text_get run c_string js4 (lit "phones.#0") = Ok (lit "iPhone").
Proof. vm_compute; repeat split. Qed.
Example test_direct_set : text_set run vmax0 c_string js4 (lit "name") (lit "Steve") = Ok (lit "{""age"": 24, ""master"": true, ""name"": ""Steve"", ""phones"": [""iPhone"", ""Pixel""]}") /\
  text_set run vmax0 (c_int I32) js4 (lit "age") 33%Z = Ok (lit "{""age"": 33, ""master"": true, ""name"": ""Rogers"", ""phones"": [""iPhone"", ""Pixel""]}") /\
  text_set run vmax0 c_bool js4 (lit "master") false = Ok (lit "{""age"": 24, ""master"": false, ""name"": ""Rogers"", ""phones"": [""iPhone"", ""Pixel""]}") /\
  text_set run vmax0 c_string js4 (lit "phones.#2") (lit "Mate") = Ok (lit "{""age"": 24, ""master"": true, ""name"": ""Rogers"", ""phones"": [""iPhone"", ""Pixel"", ""Mate""]}").
Proof. vm_compute; repeat split. Qed.
Example test_direct_del : text_del run js4 (lit "name") = Ok (lit "{""age"": 24, ""master"": true, ""phones"": [""iPhone"", ""Pixel""]}") /\
  text_del run js4 (lit "age") = Ok (lit "{""master"": true, ""name"": ""Rogers"", ""phones"": [""iPhone"", ""Pixel""]}") /\
  text_del run js4 (lit "master") = Ok (lit "{""age"": 24, ""name"": ""Rogers"", ""phones"": [""iPhone"", ""Pixel""]}") /\
  text_del run js4 (lit "phones.#0") = Ok (lit "{""age"": 24, ""master"": true, ""name"": ""Rogers"", ""phones"": [""Pixel""]}").
Proof. vm_compute; repeat split. Qed.
Example test_encode_decode : encode run c_string (lit """ \ / " ++ [8] ++ lit " " ++ [12] ++ lit " " ++ [10] ++ lit " " ++ [13] ++ lit " " ++ [9]) = (lit """\"" \\ \/ \b \f \n \r \t""") /\
  decode run c_string (lit """\"" \\ \/ \b \f \n \r \t""") = Ok (lit """ \ / " ++ [8] ++ lit " " ++ [12] ++ lit " " ++ [10] ++ lit " " ++ [13] ++ lit " " ++ [9]).
Proof. vm_compute; repeat split. Qed.
Definition js5 := object_macro [(lit "name", JStr (lit "Rogers")); (lit "age", int 24); (lit "master", JBool true);
  (lit "phones", array_macro [JStr (lit "iPhone"); JStr (lit "Pixel")])].
Definition fetch {T} (c : codec T) (j : json) (p : path) : res T := let? x := p_find p j in convert c x.
Definition one (k : string) : path := path_macro (Key (lit k)) [].
Example test_macros_find : to_string js5 = (lit "{""age"": 24, ""master"": true, ""name"": ""Rogers"", ""phones"": [""iPhone"", ""Pixel""]}") /\
  fetch c_string js5 (one "name") = Ok (lit "Rogers") /\ fetch (c_int I32) js5 (one "age") = Ok 24%Z /\
  fetch c_bool js5 (one "master") = Ok true /\ fetch c_string js5 (path_macro (Key (lit "phones")) [Index 0]) = Ok (lit "iPhone").
Proof. vm_compute; repeat split. Qed.
(** A run of [update!]/[discard!] calls, with the value each gives back and the document after each. *)
Inductive call := Upd (p : path) (x : json) | Dis (p : path).
Fixpoint calls (j : json) (l : list call) : list (res json * str) :=
  match l with
  | [] => []
  | Upd p x :: r => let '(j', a) := p_update vmax0 p j x in (a, to_string j') :: calls j' r
  | Dis p :: r => let '(j', a) := p_discard p j in (a, to_string j') :: calls j' r
  end.
Example test_macros_write : calls js5 [Upd (one "name") (JStr (lit "Steve"));
    Upd (one "age") (int 33);
    Upd (one "master") (JBool false);
    Upd (path_macro (Key (lit "phones")) [Index 2]) (JStr (lit "Mate"));
    Dis (one "name");
    Dis (one "age");
    Dis (one "master");
    Dis (path_macro (Key (lit "phones")) [Index 0])] =
  [(Ok (JStr (lit "Steve")), (lit "{""age"": 24, ""master"": true, ""name"": ""Steve"", ""phones"": [""iPhone"", ""Pixel""]}"));
   (Ok (int 33), (lit "{""age"": 33, ""master"": true, ""name"": ""Steve"", ""phones"": [""iPhone"", ""Pixel""]}"));
   (Ok (JBool false), (lit "{""age"": 33, ""master"": false, ""name"": ""Steve"", ""phones"": [""iPhone"", ""Pixel""]}"));
   (Ok (JStr (lit "Mate")), (lit "{""age"": 33, ""master"": false, ""name"": ""Steve"", ""phones"": [""iPhone"", ""Pixel"", ""Mate""]}"));
   (Ok (JStr (lit "Steve")), (lit "{""age"": 33, ""master"": false, ""phones"": [""iPhone"", ""Pixel"", ""Mate""]}"));
   (Ok (int 33), (lit "{""master"": false, ""phones"": [""iPhone"", ""Pixel"", ""Mate""]}"));
   (Ok (JBool false), (lit "{""phones"": [""iPhone"", ""Pixel"", ""Mate""]}"));
   (Ok (JStr (lit "iPhone")), (lit "{""phones"": [""Pixel"", ""Mate""]}"))].
Proof. vm_compute; reflexivity. Qed.
Definition through (r : res (json * (json -> json))) (x : json) : res str := let? '(_, put) := r in Ok (to_string (put x)).
Example test_operation_object : let js := object_macro [(lit "id", int 1)] in
  index js (Key (lit "id")) = Ok (int 1) /\ p_find (one "id") js = Ok (int 1) /\ to_string js = (lit "{""id"": 1}") /\
  rmap fst (p_find_mut (one "id") js) = Ok (int 1) /\ through (index_mut js (Key (lit "id"))) (int 3) = Ok (lit "{""id"": 3}") /\
  calls (object_macro [(lit "id", int 3)]) [Upd (one "id") (int 2); Dis (one "id")] = [(Ok (int 2), (lit "{""id"": 2}")); (Ok (int 2), lit "{}")].
Proof. vm_compute; repeat split. Qed.
Example test_operation_array : let js := array_macro [int 0; int 1; int 2] in let at0 := path_new (Index 0) in
  index js (Index 0) = Ok (int 0) /\ p_find at0 js = Ok (int 0) /\ to_string js = lit "[0, 1, 2]" /\
  rmap fst (p_find_mut at0 js) = Ok (int 0) /\ through (index_mut js (Index 0)) (int 3) = Ok (lit "[3, 1, 2]") /\
  calls (array_macro [int 3; int 1; int 2]) [Upd at0 (int 2); Dis at0] = [(Ok (int 2), lit "[2, 1, 2]"); (Ok (int 2), lit "[1, 2]")].
Proof. vm_compute; repeat split. Qed.
Example test_convert : let cv := c_vec (c_int I32) in let cm := c_map str_eqb k_string c_string in
  encode run cv [1; 2; 3]%Z = lit "[1, 2, 3]" /\ decode run cv (lit "[1, 2, 3]") = Ok [1; 2; 3]%Z /\
  encode run cm [(lit "name", lit "Jack"); (lit "age", lit "17")] = (lit "{""age"": ""17"", ""name"": ""Jack""}") /\
  decode run cm (lit "{""age"": ""17"", ""name"": ""Jack""}") = Ok [(lit "age", lit "17"); (lit "name", lit "Jack")] /\
  text_get run (c_int I32) (lit "{""numbers"": [1, 2, 3]}") (lit "numbers.#0") = Ok 1%Z /\
  text_set run vmax0 (c_int I32) (lit "{""numbers"": [1, 2, 3]}") (lit "numbers.#4") 5%Z = Ok (lit "{""numbers"": [1, 2, 3, null, 5]}") /\
  text_del run (lit "{""numbers"": [1, 2, 3, null, 5]}") (lit "numbers.#3") = Ok (lit "{""numbers"": [1, 2, 3, 5]}").
Proof. vm_compute; repeat split. Qed.
Example test_object_op : let js := object_macro [(lit "name", JStr (lit "Jack")); (lit "age", int 24); (lit "opt", JNull)] in
  let js := fst (delete (fst (append (fst (insert js (lit "age") (int 26))) (lit "age") (int 28))) (lit "opt")) in
  to_string js = (lit "{""age"": 26, ""age"": 28, ""name"": ""Jack""}") /\ index_and_merge js (lit "age") = Ok [int 26; int 28].
Proof. vm_compute; repeat split. Qed.
Example test_array_op : let js := array_macro [int 1; int 1; int 3] in
  to_string (fst (remove (fst (replace (fst (push js (int 4))) 1 (int 2))) 0)) = lit "[2, 3, 4]".
Proof. vm_compute; reflexivity. Qed.
Example readme_index : rmap to_string (parse (lit "{""list"": [1, 2, 3]}")) = Ok (lit "{""list"": [1, 2, 3]}") /\
  (let? js := parse (lit "{""list"": [1, 2, 3]}") in let? l := index js (Key (lit "list")) in index l (Index 0)) = Ok (int 1).
Proof. vm_compute; repeat split. Qed.
Example readme_merge : (let? js := parse (lit "{""name"": ""Jack"", ""name"": ""Jerry""}") in index_and_merge js (lit "name")) = Ok [JStr (lit "Jack"); JStr (lit "Jerry")].
Proof. vm_compute; reflexivity. Qed.
(** [struct Item] of readme.md; [opt : Option<()>] is ignored, its conversions are not used. *)
Definition item_fields : list field :=
  [mkField (lit "_id") (lit "id") false Z (c_int I32) 0%Z; mkField (lit "name") (lit "name") false str c_string [];
   mkField (lit "vec") (lit "vec") false (list Z) (c_vec (c_int I32)) []; mkField (lit "opt") (lit "opt") true (option bool) (c_option c_bool) None].
Definition item1 : struct_value item_fields := (1%Z, (lit "Package", ([1; 2; 3]%Z, (None, tt)))).
Example readme_derive : encode run (derived (lit "Item") item_fields) item1 = (lit "{""id"": 1, ""name"": ""Package"", ""vec"": [1, 2, 3]}") /\
  decode run (derived (lit "Item") item_fields) (lit "{""id"": 1, ""name"": ""Package"", ""vec"": [1, 2, 3]}") = Ok item1.
Proof. vm_compute; repeat split. Qed.

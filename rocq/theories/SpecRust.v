(** The part of Rust that the generated code is written in: its syntax, read from tokens, and what it does when it runs.
    References are not distinguished from what they refer to (the code only reads through them), lifetimes and types are not checked, except that
    the type in [<T as Trait>::f] decides which conversion is called. *)
From Verif Require Import Base F64 Json Ops Convert Derive Tokens SpecAttr SpecTokens Quote.

(** * Syntax *)
Inductive pat := Wild | Bind (x : str) | Tuple (ps : pats) | Ctor (path : list str) (ps : pats)
with pats := PNil | PCons (p : pat) (ps : pats).
Inductive expr :=
| Lit (raw : str)
| Unit
| Path (p : list str)                                        (* a variable, or a::b::c *)
| Qualified (ty : list ptok) (trait : list str) (f : str)    (* <ty as trait>::f *)
| Call (f : expr) (args : exprs)
| Method (e : expr) (m : str) (args : exprs)
| FieldOf (e : expr) (f : str)
| Ref (e : expr)
| Try (e : expr)                                             (* e? *)
| Mac (name : list str) (args : exprs)                       (* name!(args) *)
| Match (e : expr) (a : arms)
| IfLet (p : pat) (e : expr) (yes no : block)
| Return (e : expr)
| StructLit (name : list str) (fs : inits)
| Block (b : block)
with exprs := ENil | ECons (e : expr) (es : exprs)
with arms := ANil | ACons (p : pat) (e : expr) (a : arms)
with inits := INil | ICons (f : str) (e : expr) (fs : inits)
(** The end of a block: its value; none; or a statement before the rest. *)
with block := Value (e : expr) | NoValue | Let (mutable : bool) (x : str) (e : expr) (rest : block) | Do (e : expr) (rest : block).

(** * Reading it from tokens *)
Fixpoint eat (op : list (N * bool)) (ts : list ptok) : option (list ptok) :=
  match op, ts with
  | [], _ => Some ts
  | (c, j) :: op', PPunct c' j' :: ts' => if (c =? c') && Bool.eqb j j' then eat op' ts' else None
  | _, _ => None
  end.
Definition colons := [(58, true); (58, false)].
Definition arrow := [(61, true); (62, false)].
Definition comma_ := [(44, false)].
Definition semi := [(59, false)].
Definition colon := [(58, false)].
Definition dot := [(46, false)].
Definition equals := [(61, false)].
Definition amp := [(38, false)].
Definition quest := [(63, false)].
Definition mark := [(33, false)].
Definition less := [(60, false)].
Definition greater := [(62, false)].
Definition is_word (w : string) (t : ptok) : bool := match t with PId s => str_eqb s (lit w) | _ => false end.
(** Words that do not start a path. *)
Definition keyword (s : str) : bool :=
  existsb (fun w => str_eqb s (lit w)) ["as"; "else"; "fn"; "for"; "if"; "impl"; "let"; "match"; "mut"; "return"; "struct"; "where"; "_"]%string.
Fixpoint more_path (n : nat) (ts : list ptok) : list str * list ptok :=
  match n with
  | O => ([], ts)
  | S n => match eat colons ts with
           | Some (PId x :: r) => (x :: fst (more_path n r), snd (more_path n r))
           | _ => ([], ts)
           end
  end.
(** Up to the [as] that is not inside angle brackets; the arrow of a function type is not one. *)
Fixpoint split_as (depth : nat) (ts : list ptok) : option (list ptok * list ptok) :=
  match ts with
  | [] => None
  | t :: r =>
      if is_word "as" t && Nat.eqb depth 0 then Some ([], r)
      else match t with
           | PPunct c _ =>
               if c =? 60 then option_map (fun p => (t :: fst p, snd p)) (split_as (S depth) r)
               else if c =? 62 then match depth with O => None | S d => option_map (fun p => (t :: fst p, snd p)) (split_as d r) end
               else if c =? 45 then
                 match r with
                 | (PPunct 62 _ as u) :: r' => option_map (fun p => (t :: u :: fst p, snd p)) (split_as depth r')
                 | _ => option_map (fun p => (t :: fst p, snd p)) (split_as depth r)
                 end
               else option_map (fun p => (t :: fst p, snd p)) (split_as depth r)
           | _ => option_map (fun p => (t :: fst p, snd p)) (split_as depth r)
           end
  end.
(** A list with commas, perhaps one at the end. *)
Definition after_item (ts : list ptok) : option (list ptok) := match ts with [] => Some [] | _ => eat comma_ ts end.
Fixpoint read_pat (n : nat) (ts : list ptok) : option (pat * list ptok) :=
  match n with
  | O => None
  | S n =>
      match ts with
      | PGrp Paren g :: r => let! ps := read_pats n g in Some (Tuple ps, r)
      | PId x :: r =>
          if str_eqb x (lit "_") then Some (Wild, r)
          else let p := more_path n r in
               match snd p with
               | PGrp Paren g :: r' => let! ps := read_pats n g in Some (Ctor (x :: fst p) ps, r')
               | r' => match fst p with [] => Some (Bind x, r') | _ => None end
               end
      | _ => None
      end
  end
with read_pats (n : nat) (ts : list ptok) : option pats :=
  match n with
  | O => None
  | S n => match ts with
           | [] => Some PNil
           | _ => let! p := read_pat n ts in let! r := after_item (snd p) in let! ps := read_pats n r in Some (PCons (fst p) ps)
           end
  end.
(** [lits]: whether a struct literal may start here (not between [match] or [if let] and the brace). *)
Fixpoint read_expr (n : nat) (lits : bool) (ts : list ptok) : option (expr * list ptok) :=
  match n with
  | O => None
  | S n =>
      match eat amp ts with
      | Some r => let! p := read_expr n lits r in Some (Ref (fst p), snd p)
      | None =>
          match ts with
          | t :: r =>
              if is_word "return" t then let! p := read_expr n lits r in Some (Return (fst p), snd p)
              else let! p := read_atom n lits ts in read_suffix n (fst p) (snd p)
          | [] => None
          end
      end
  end
with read_atom (n : nat) (lits : bool) (ts : list ptok) : option (expr * list ptok) :=
  match n with
  | O => None
  | S n =>
      match ts with
      | PLit raw :: r => Some (Lit raw, r)
      | PGrp Paren [] :: r => Some (Unit, r)
      | PGrp Brace g :: r => let! b := read_block n g in Some (Block b, r)
      | PPunct _ _ :: _ =>
          let! r := eat less ts in
          let! p := split_as 0 r in
          match snd p with
          | PId x :: r1 =>
              let q := more_path n r1 in
              let! r2 := eat greater (snd q) in
              let! r3 := eat colons r2 in
              match r3 with PId f :: r4 => Some (Qualified (fst p) (x :: fst q) f, r4) | _ => None end
          | _ => None
          end
      | PId x :: r =>
          if str_eqb x (lit "match") then
            let! p := read_expr n false r in
            match snd p with PGrp Brace g :: r' => let! a := read_arms n g in Some (Match (fst p) a, r') | _ => None end
          else if str_eqb x (lit "if") then
            match r with
            | l :: r1 =>
                if is_word "let" l then
                  let! p := read_pat n r1 in
                  let! r2 := eat equals (snd p) in
                  let! q := read_expr n false r2 in
                  match snd q with
                  | PGrp Brace g :: e :: PGrp Brace g' :: r3 =>
                      if is_word "else" e then
                        let! yes := read_block n g in let! no := read_block n g' in Some (IfLet (fst p) (fst q) yes no, r3)
                      else None
                  | _ => None
                  end
                else None
            | [] => None
            end
          else if keyword x then None
          else
            let p := more_path n r in
            match eat mark (snd p) with
            | Some (PGrp Paren g :: r') => let! es := read_exprs n g in Some (Mac (x :: fst p) es, r')
            | Some _ => None
            | None =>
                match snd p with
                | PGrp Brace g :: r' => if lits then let! fs := read_inits n g in Some (StructLit (x :: fst p) fs, r') else Some (Path (x :: fst p), snd p)
                | _ => Some (Path (x :: fst p), snd p)
                end
            end
      | _ => None
      end
  end
with read_suffix (n : nat) (e : expr) (ts : list ptok) : option (expr * list ptok) :=
  match n with
  | O => None
  | S n =>
      match ts with
      | PGrp Paren g :: r => let! es := read_exprs n g in read_suffix n (Call e es) r
      | _ =>
          match eat quest ts with
          | Some r => read_suffix n (Try e) r
          | None =>
              match eat dot ts with
              | Some (PId m :: PGrp Paren g :: r) => let! es := read_exprs n g in read_suffix n (Method e m es) r
              | Some (PId f :: r) => read_suffix n (FieldOf e f) r
              | Some _ => None
              | None => Some (e, ts)
              end
          end
      end
  end
with read_exprs (n : nat) (ts : list ptok) : option exprs :=
  match n with
  | O => None
  | S n => match ts with
           | [] => Some ENil
           | _ => let! p := read_expr n true ts in let! r := after_item (snd p) in let! es := read_exprs n r in Some (ECons (fst p) es)
           end
  end
(** The body of an arm needs a comma after it unless it is a block or the last one. *)
with read_arms (n : nat) (ts : list ptok) : option arms :=
  match n with
  | O => None
  | S n =>
      match ts with
      | [] => Some ANil
      | _ =>
          let! p := read_pat n ts in
          let! r := eat arrow (snd p) in
          match r with
          | PGrp Brace g :: r' =>
              let! b := read_block n g in
              let! a := read_arms n (match eat comma_ r' with Some r'' => r'' | None => r' end) in
              Some (ACons (fst p) (Block b) a)
          | _ =>
              let! q := read_expr n true r in let! r' := after_item (snd q) in let! a := read_arms n r' in Some (ACons (fst p) (fst q) a)
          end
      end
  end
with read_inits (n : nat) (ts : list ptok) : option inits :=
  match n with
  | O => None
  | S n =>
      match ts with
      | [] => Some INil
      | PId f :: r =>
          let! r1 := eat colon r in let! p := read_expr n true r1 in let! r2 := after_item (snd p) in let! fs := read_inits n r2 in
          Some (ICons f (fst p) fs)
      | _ => None
      end
  end
with read_block (n : nat) (ts : list ptok) : option block :=
  match n with
  | O => None
  | S n =>
      match ts with
      | [] => Some NoValue
      | t :: r =>
          if is_word "let" t then
            let m := match r with u :: r' => if is_word "mut" u then (true, r') else (false, r) | [] => (false, r) end in
            match snd m with
            | PId x :: r1 =>
                let! r2 := eat equals r1 in let! p := read_expr n true r2 in let! r3 := eat semi (snd p) in let! b := read_block n r3 in
                Some (Let (fst m) x (fst p) b)
            | _ => None
            end
          else
            let! p := read_expr n true ts in
            match snd p with
            | [] => Some (Value (fst p))
            | r1 => let! r2 := eat semi r1 in let! b := read_block n r2 in Some (Do (fst p) b)
            end
      end
  end.

(** * Running it *)
(** Values.  [VField]: a value of a field's type, which knows its conversions; [VDefault]: [Default::default()] before its type is known. *)
Inductive rval :=
| VUnit | VTrue (b : bool) | VInt (n : str) | VText (s : str)
| VJson (j : json) | VMap (o : hmap) | VOlder (l : list json)
| VKind (k : error_kind) | VError (e : error)
| VOk (v : rval) | VErr (v : rval) | VSome (v : rval) | VNone | VTuple (l : list rval)
| VField (T : Type) (c : codec T) (x : T) | VDefault
| VStruct (name : str) (fields : list (str * rval)).
(** What is known about the program around the code: the type that some tokens mean, with its conversions, and the [Default] of the fields of
    the struct. *)
Record context := mkContext { type_of : list token -> option {T : Type & codec T}; default_of : str -> option rval }.
(** Variables: mutable or not, and their value; the innermost first. *)
Definition vars := list (str * (bool * rval)).
Fixpoint lookup (x : str) (e : vars) : option (bool * rval) :=
  match e with [] => None | (y, v) :: r => if str_eqb x y then Some v else lookup x r end.
Fixpoint assign (x : str) (w : rval) (e : vars) : vars :=
  match e with [] => [] | (y, (m, v)) :: r => if str_eqb x y then (y, (m, w)) :: r else (y, (m, v)) :: assign x w r end.
(** The variables without those added since there were [n]. *)
Definition drop_to (n : nat) (e : vars) : vars := skipn (List.length e - n) e.
(** A value; a [return]; a panic; a conversion that gives no answer; code that means nothing. *)
Inductive run (A : Type) := Go (a : A) (e : vars) | Out (v : rval) | Boom | Silent | Stuck.
Arguments Go {A}. Arguments Out {A}. Arguments Boom {A}. Arguments Silent {A}. Arguments Stuck {A}.
Definition andthen {A B} (m : run A) (k : A -> vars -> run B) : run B :=
  match m with Go a e => k a e | Out v => Out v | Boom => Boom | Silent => Silent | Stuck => Stuck end.
Definition done {A} (o : option A) (e : vars) : run A := match o with Some a => Go a e | None => Stuck end.

(** String literals. *)
Definition simple_escapes : list (N * N) := [(110, 10); (114, 13); (116, 9); (92, 92); (48, 0); (39, 39); (34, 34)].
Fixpoint hex_digits (n : nat) (s : str) : list N * str :=
  match n, s with
  | S n, c :: r => match hex_digit_value c with Some x => (x :: fst (hex_digits n r), snd (hex_digits n r)) | None => ([], s) end
  | _, _ => ([], s)
  end.
Definition is_blank (c : N) : bool := existsb (N.eqb c) [32; 9; 10; 13].
Fixpoint unescape (n : nat) (s : str) : option str :=
  match n with
  | O => None
  | S n =>
      match s with
      | [] => Some []
      | c :: r =>
          if c =? 34 then None
          else if negb (c =? 92) then option_map (cons c) (unescape n r)
          else
            match r with
            | [] => None
            | e :: r1 =>
                match find (fun p => fst p =? e) simple_escapes with
                | Some p => option_map (cons (snd p)) (unescape n r1)
                | None =>
                    if e =? 120 then
                      match hex_digits 2 r1 with
                      | ([x; y], r2) => if x <? 8 then option_map (cons (16 * x + y)) (unescape n r2) else None
                      | _ => None
                      end
                    else if e =? 117 then
                      match r1 with
                      | b :: r2 =>
                          let p := hex_digits 6 r2 in
                          let v := fold_left (fun n x => 16 * n + x) (fst p) 0 in
                          match fst p, snd p with
                          | _ :: _, b' :: r3 => if (b =? 123) && (b' =? 125) && is_scalar v then option_map (cons v) (unescape n r3) else None
                          | _, _ => None
                          end
                      | [] => None
                      end
                    else if e =? 10 then unescape n (skip_while is_blank r1)
                    else None
                end
            end
      end
  end.
Definition string_value (raw : str) : option str :=
  match raw, rev raw with
  | q :: (_ :: _), q' :: _ => if (q =? 34) && (q' =? 34) then unescape (S (List.length raw)) (removelast (tl raw)) else None
  | _, _ => None
  end.
Definition literal_value (raw : str) : option rval :=
  match raw with
  | c :: _ => if c =? 34 then option_map VText (string_value raw) else if forallb (fun c => (48 <=? c) && (c <=? 57)) raw then Some (VInt raw) else None
  | [] => None
  end.
(** [format!]: each pair of braces is replaced by the next argument; other braces are not used. *)
Fixpoint fill (s : str) (args : list rval) : option str :=
  match s with
  | [] => match args with [] => Some [] | _ => None end
  | c :: r =>
      if c =? 123 then
        match r, args with
        | c' :: r', VText a :: rest => if c' =? 125 then option_map (app a) (fill r' rest) else None
        | _, _ => None
        end
      else if c =? 125 then None
      else option_map (cons c) (fill r args)
  end.
(** Paths. *)
Definition is_path (w : list string) (p : list str) : bool :=
  Nat.eqb (List.length w) (List.length p) && forallb (fun x => str_eqb (lit (fst x)) (snd x)) (combine w p).
Definition constant (p : list str) : option rval :=
  if is_path ["true"%string] p then Some (VTrue true)
  else if is_path ["false"%string] p then Some (VTrue false)
  else if is_path ["json"; "ErrorKind"; "MissingKey"]%string p then Some (VKind MissingKey)
  else if is_path ["json"; "ErrorKind"; "ConvertError"]%string p then Some (VKind ConvertError)
  else None.
(** A call of a function by its path. *)
Definition call_path (p : list str) (args : list rval) : option rval :=
  if is_path ["Ok"%string] p then match args with [v] => Some (VOk v) | _ => None end
  else if is_path ["Err"%string] p then match args with [v] => Some (VErr v) | _ => None end
  else if is_path ["std"; "collections"; "HashMap"; "with_capacity"]%string p then match args with [VInt _] => Some (VMap []) | _ => None end
  else if is_path ["json"; "Json"; "Object"]%string p then match args with [VMap o] => Some (VJson (JObj o)) | _ => None end
  else if is_path ["json"; "ToJson"; "to_json"]%string p then match args with [VField T c x] => Some (VJson (to_json c x)) | _ => None end
  else if is_path ["json"; "Error"; "new"]%string p then match args with [VKind k; VText s] => Some (VError (mkError k s)) | _ => None end
  else if is_path ["std"; "default"; "Default"; "default"]%string p then match args with [] => Some VDefault | _ => None end
  else None.
(** A call of the [from_json] of a type. *)
Definition call_qualified (ctx : context) (ty : list ptok) (trait : list str) (f : str) (args : list rval) (e : vars) : run rval :=
  if is_path ["json"; "FromJson"]%string trait && str_eqb f (lit "from_json") then
    match type_of ctx (map unspaced ty), args with
    | Some (existT _ T c), [VJson j] =>
        match from_json c j with Ok x => Go (VOk (VField T c x)) e | Err er => Go (VErr (VError er)) e | Panic => Boom | Fuel => Silent end
    | _, _ => Stuck
    end
  else Stuck.
(** A method call that changes nothing. *)
Definition call_method (v : rval) (m : str) (args : list rval) : option rval :=
  match v, args with
  | VText s, [] => if str_eqb m (lit "to_string") then Some (VText s) else None
  | VJson j, [] => if str_eqb m (lit "_kind") then Some (VText (kind_name j)) else None
  | VMap o, [VText k] =>
      if str_eqb m (lit "get") then
        Some (match hm_get k o with Some (v, l) => VSome (VTuple [VJson v; VOlder l]) | None => VNone end)
      else None
  | _, _ => None
  end.
(** Patterns: the variables bound, or [None] if the value is of another form. *)
Fixpoint bind_pat (p : pat) (v : rval) : option vars :=
  match p with
  | Wild => Some []
  | Bind x => Some [(x, (false, v))]
  | Tuple ps => match v with VTuple l => bind_pats ps l | _ => None end
  | Ctor p ps =>
      match v with
      | VOk w => if is_path ["Ok"%string] p then bind_pats ps [w] else None
      | VErr w => if is_path ["Err"%string] p then bind_pats ps [w] else None
      | VSome w => if is_path ["Some"%string] p then bind_pats ps [w] else None
      | VJson (JObj o) => if is_path ["json"; "Json"; "Object"]%string p then bind_pats ps [VMap o] else None
      | _ => None
      end
  end
with bind_pats (ps : pats) (l : list rval) : option vars :=
  match ps, l with
  | PNil, [] => Some []
  | PCons p ps, v :: l => let! a := bind_pat p v in let! b := bind_pats ps l in Some (b ++ a)
  | _, _ => None
  end.
(** The fields of a struct literal: a default gets its type from the field. *)
Definition set_field (ctx : context) (f : str) (v : rval) : option (str * rval) :=
  match v with VDefault => option_map (fun d => (f, d)) (default_of ctx f) | _ => Some (f, v) end.
Section Eval.
  Variable ctx : context.
  Fixpoint eval_expr (x : expr) (e : vars) : run rval :=
    match x with
    | Lit raw => done (literal_value raw) e
    | Unit => Go VUnit e
    | Path p => match p with
                | [y] => match lookup y e with Some v => Go (snd v) e | None => done (constant p) e end
                | _ => done (constant p) e
                end
    | Qualified _ _ _ => Stuck
    | Call f args =>
        match f with
        | Path p => andthen (eval_exprs args e) (fun vs e => done (call_path p vs) e)
        | Qualified ty trait g => andthen (eval_exprs args e) (fun vs e => call_qualified ctx ty trait g vs e)
        | _ => Stuck
        end
    | Method r m args =>
        if str_eqb m (lit "add_option") then
          match r with
          | Path [y] =>
              andthen (eval_exprs args e) (fun vs e =>
                match lookup y e, vs with
                | Some (true, VJson j), [VText k; VJson v; VTrue append] =>
                    match add_option j k v append with
                    | (j', Ok _) => Go (VOk VUnit) (assign y (VJson j') e)
                    | (j', Err er) => Go (VErr (VError er)) (assign y (VJson j') e)
                    | (_, Panic) => Boom
                    | (_, Fuel) => Silent
                    end
                | _, _ => Stuck
                end)
          | _ => Stuck
          end
        else andthen (eval_expr r e) (fun v e => andthen (eval_exprs args e) (fun vs e => done (call_method v m vs) e))
    | FieldOf r f => andthen (eval_expr r e) (fun v e =>
        match v with VStruct _ fs => match find (fun p => str_eqb f (fst p)) fs with Some p => Go (snd p) e | None => Stuck end | _ => Stuck end)
    | Ref r => eval_expr r e
    | Try r => andthen (eval_expr r e) (fun v e => match v with VOk w => Go w e | VErr w => Out (VErr w) | _ => Stuck end)
    | Mac p args =>
        if is_path ["unreachable"%string] p then match args with ENil => Boom | _ => Stuck end
        else if is_path ["stringify"%string] p then match args with ECons (Path [y]) ENil => Go (VText y) e | _ => Stuck end
        else if is_path ["format"%string] p then
          andthen (eval_exprs args e) (fun vs e => match vs with VText s :: vs => done (option_map VText (fill s vs)) e | _ => Stuck end)
        else Stuck
    | Match r a => andthen (eval_expr r e) (fun v e => eval_arms a v e)
    | IfLet p r yes no => andthen (eval_expr r e) (fun v e =>
        match bind_pat p v with
        | Some b => andthen (eval_block yes (b ++ e)) (fun w e' => Go w (drop_to (List.length e) e'))
        | None => andthen (eval_block no e) (fun w e' => Go w (drop_to (List.length e) e'))
        end)
    | Return r => andthen (eval_expr r e) (fun v _ => Out v)
    | StructLit p fs => match p with
                        | [name] => andthen (eval_inits fs e) (fun vs e => Go (VStruct name vs) e)
                        | _ => Stuck
                        end
    | Block b => andthen (eval_block b e) (fun w e' => Go w (drop_to (List.length e) e'))
    end
  with eval_exprs (xs : exprs) (e : vars) : run (list rval) :=
    match xs with
    | ENil => Go [] e
    | ECons x xs => andthen (eval_expr x e) (fun v e => andthen (eval_exprs xs e) (fun vs e => Go (v :: vs) e))
    end
  with eval_arms (a : arms) (v : rval) (e : vars) : run rval :=
    match a with
    | ANil => Stuck
    | ACons p x a =>
        match bind_pat p v with
        | Some b => andthen (eval_expr x (b ++ e)) (fun w e' => Go w (drop_to (List.length e) e'))
        | None => eval_arms a v e
        end
    end
  with eval_inits (fs : inits) (e : vars) : run (list (str * rval)) :=
    match fs with
    | INil => Go [] e
    | ICons f x fs => andthen (eval_expr x e) (fun v e => andthen (done (set_field ctx f v) e) (fun p e => andthen (eval_inits fs e) (fun r e => Go (p :: r) e)))
    end
  with eval_block (b : block) (e : vars) : run rval :=
    match b with
    | Value x => eval_expr x e
    | NoValue => Go VUnit e
    | Let m y x rest => andthen (eval_expr x e) (fun v e => eval_block rest ((y, (m, v)) :: e))
    | Do x rest => andthen (eval_expr x e) (fun _ e => eval_block rest e)
    end.
End Eval.

(** * An implementation *)
Fixpoint tok_size (t : ptok) : nat := match t with PGrp _ ts => S (list_sum (map tok_size ts)) | _ => 1 end.
(** The body of the method [f] in the implementation [impl]: [impl ... { fn f (...) ... { body } }] with nothing else in it. *)
Definition method_body (f : string) (impl : list ptok) : option (list ptok) :=
  match rev impl with
  | PGrp Brace g :: _ =>
      match g, rev g with
      | k :: name :: PGrp Paren _ :: _, PGrp Brace body :: _ => if is_word "fn" k && is_word f name then Some body else None
      | _, _ => None
      end
  | _ => None
  end.
Inductive outcome := Returned (v : rval) | Panicked | NoAnswer | Meaningless.
(** What a call of the method does when its parameters have the values [args]. *)
Definition runs (ctx : context) (impl : list ptok) (f : string) (args : list (str * rval)) : outcome :=
  match method_body f impl with
  | None => Meaningless
  | Some body =>
      match read_block (4 * S (list_sum (map tok_size body))) body with
      | None => Meaningless
      | Some b =>
          match eval_block ctx b (map (fun a => (fst a, (false, snd a))) args) with
          | Go v _ => Returned v
          | Out v => Returned v
          | Boom => Panicked
          | Silent => NoAnswer
          | Stuck => Meaningless
          end
      end
  end.
(** A value of a struct, as [Derive] has it, with the names of its fields. *)
Fixpoint pack (fs : list Derive.field) : struct_value fs -> list (str * rval) :=
  match fs with [] => fun _ => [] | f :: r => fun x => (f_ident f, VField (f_type f) (f_codec f) (fst x)) :: pack r (snd x) end.

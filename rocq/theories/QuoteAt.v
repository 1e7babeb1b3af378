(** The forms of [quote!] with an at sign, json_derive/quote/src/lib.rs 70-137, 140-316 and 325-378: [@options], [@span], [@literal], [@params]
    and [@scope].  Everything else is as in [Quote], but an expansion here returns, or fails (the macro does not compile, or panics while
    compiling), or is still running after the given depth of calls. *)
From Verif Require Import Base Tokens Quote Translate.
Local Open Scope N_scope.

(** The outcomes of json_derive/quote/src/lib.rs 1117-1200: no value is a panic. *)
Definition orun {A} (x : option A) : run A := match x with Some a => Done a | None => Panicked end.
(** The token before a form, json_derive/quote/src/lib.rs 325-378. *)
Definition hash_op : ttok := TOp (lit "#").
(** [__parse(__stringify!(..), span)]: the compiler reads the tokens back.  Simplification: an operator is read back as it was written, whatever
    stands next to it. (json_derive/quote/src/lib.rs 142-161, 325-331) *)
Fixpoint reread (t : ttok) : list ptok :=
  match t with
  | TId s => [PId s]
  | TUnder => [PId (lit "_")]
  | TOp o => gen_punct o
  | TLit r => [PLit r]
  | TLife a => [PPunct 39 true; PId a]
  | TGrp d ts => [PGrp d (flat_map reread ts)]
  end.

(** * [@params], 332-343 *)
(** [$( .. ),+]: the parts between the commas. (json_derive/quote/src/lib.rs 332-338) *)
Fixpoint parts (cur : list ttok) (ts : list ttok) : list (list ttok) :=
  match ts with
  | [] => [cur]
  | t :: r => if op_is "," t then cur :: parts [] r else parts (cur ++ [t]) r
  end.
(** [$param:ident$(=$expr:expr)?] (json_derive/quote/src/lib.rs 332) *)
Definition param_of (ts : list ttok) : option (str * option (list ttok)) :=
  match ts with
  | [TId x] => Some (x, None)
  | TId x :: q :: ex => if op_is "=" q && begins_expr ex then Some (x, Some ex) else None
  | _ => None
  end.
(** The repetition [$( .. ),+] in json_derive/quote/src/lib.rs 332: every part matches. *)
Fixpoint all_some {A B} (f : A -> option B) (l : list A) : option (list B) :=
  match l with [] => Some [] | a :: r => let! b := f a in let! bs := all_some f r in Some (b :: bs) end.
(** 332: with a comma after the last one, or without (json_derive/quote/src/lib.rs) *)
Definition param_list (ts : list ttok) : option (list (str * option (list ttok))) :=
  let ps := parts [] ts in
  match rev ps with
  | [] :: (_ :: _) as front => all_some param_of (rev front)
  | _ => all_some param_of ps
  end.
(** 335-338: the variables, and the map with their texts (json_derive/quote/src/lib.rs) *)
Fixpoint bind_params (e : env) (d : dict) (ps : list (str * option (list ttok))) : option (env * dict) :=
  match ps with
  | [] => Some (e, d)
  | (x, ex) :: r =>
      let! e' := match ex with Some ex => let! v := eval e ex in Some ((x, v) :: e) | None => Some e end in
      let! v := assoc x e' in let! t := text_of v in bind_params e' (dict_put (KVar x) t d) r
  end.

(** * [@scope], 140-316 and 344-378 *)
(** [_flag.0], [_flag.1], [_iter] and [_hashmap], and whether there was an [#end], after which the code does not compile. (json_derive/quote/src/lib.rs 359-378) *)
Record sstate := mkState { active : bool; opened : bool; iter : option (list (list ptok) * str); hmap : dict; ended : bool }.
(** json_derive/quote/src/lib.rs 359-378: the state at the beginning *)
Definition start : sstate := mkState true false None [] false.
(** An assignment in json_derive/quote/src/lib.rs 141-316. *)
Definition set_map (d : dict) (s : sstate) : sstate := mkState (active s) (opened s) (iter s) d (ended s).
(** An assignment in json_derive/quote/src/lib.rs 141-316. *)
Definition set_flag (b o : bool) (s : sstate) : sstate := mkState b o (iter s) (hmap s) (ended s).
(** An assignment in json_derive/quote/src/lib.rs 141-316. *)
Definition set_iter (i : option (list (list ptok) * str)) (s : sstate) : sstate := mkState (active s) (opened s) i (hmap s) (ended s).
(** An assignment in json_derive/quote/src/lib.rs 311-315. *)
Definition set_end (s : sstate) : sstate := mkState (active s) (opened s) (iter s) (hmap s) true.
(** A block in braces, or a command with what is in its parentheses. (json_derive/quote/src/lib.rs 141-316) *)
Inductive scmd := Block (ts : list ttok) | Cmd (name : str) (args : option (list ttok)).
(** json_derive/quote/src/lib.rs 163 and so on: [$iter.0.is_some()] *)
Definition looping (s : sstate) : bool := match iter s with Some _ => true | None => false end.
(** std: [HashMap::contains_key], json_derive/quote/src/lib.rs 235-250 *)
Definition has_var (x : str) (d : dict) : bool := match dict_get (KVar x) d with Some _ => true | None => false end.
(** [$($arg:ident),*] (json_derive/quote/src/lib.rs 162) *)
Fixpoint ident_list (ts : list ttok) : option (list str) :=
  match ts with
  | [] => Some []
  | [TId a] => Some [a]
  | TId a :: c :: (TId _ :: _) as r => if op_is "," c then let! l := ident_list r in Some (a :: l) else None
  | _ => None
  end.
(** The text of a parameter inside the definition of a macro, 168: [#a] again (json_derive/quote/src/lib.rs) *)
Definition param_value (a : str) : str * value := (a, VObj (Some [PPunct 35 false; PId a]) []).
(** json_derive/quote/src/lib.rs 174-176: the parameters of a macro, as tokens with commas *)
Definition param_toks (ps : list str) : list ptok :=
  match ps with [] => [] | p :: r => PId p :: flat_map (fun a => [PPunct 44 false; PId a]) r end.
Section Commands.
  (** [__append_to_token!], [quote!] and [__translate] *)
  Variables (q top : env -> list ttok -> run (list ptok)) (tr : dict -> list ptok -> run (list ptok)) (e : env).
  (** What a command of json_derive/quote/src/lib.rs 141-316 comes to. *)
  Definition result := run (list ptok * sstate).
  (** 142-161 (json_derive/quote/src/lib.rs) *)
  Definition do_block (ts : list ttok) (s : sstate) : result :=
    if active s then
      match iter s with
      | Some (vs, x) =>
          let d := dict_remove (KVar x) (hmap s) in
          run! outs := all_done (fun v => tr (dict_put (KVar x) v d) (flat_map reread ts)) vs in
          Done (List.concat outs, set_map (match dict_get (KVar x) (hmap s) with Some v => dict_put (KVar x) v d | None => d end) s)
      | None => run! out := tr (hmap s) (flat_map reread ts) in Done (out, s)
      end
    else Done ([], s).
  (** 162-198 (json_derive/quote/src/lib.rs) *)
  Definition do_define (ps : list ttok) (s : sstate) : result :=
    match ps with
    | [TId x] => Done ([], if active s then set_map (dict_put (KVar x) [] (hmap s)) s else s)
    | TId f :: TGrp Paren args :: c :: (_ :: _) as body =>
        if op_is "," c then
          match ident_list args with
          | Some xs =>
              if active s then
                run! v := q (rev (map param_value xs) ++ e) body in
                Done ([], set_map (dict_put (KParams f) (param_toks xs) (dict_put (KBody f) v (hmap s))) s)
              else Done ([], s)
          | None => Panicked
          end
        else Panicked
    | TId x :: c :: (_ :: _) as body =>
        if op_is "," c then
          if active s then run! v := q e body in Done ([], set_map (dict_put (KVar x) v (hmap s)) s) else Done ([], s)
        else Panicked
    | _ => Panicked
    end.
  (** 199-207: a [TokenStream] (json_derive/quote/src/lib.rs) *)
  Definition do_include (ex : list ttok) (s : sstate) : result :=
    if active s then
      run! v := orun (eval e ex) in match v with VObj (Some ts) _ => run! out := tr (hmap s) ts in Done (out, s) | _ => Panicked end
    else Done ([], s).
  (** 208-216 (json_derive/quote/src/lib.rs) *)
  Definition do_quote (ts : list ttok) (s : sstate) : result :=
    if active s then run! ts' := top e ts in run! out := tr (hmap s) ts' in Done (out, s) else Done ([], s).
  (** 226-234 (json_derive/quote/src/lib.rs) *)
  Definition do_undef (ps : list ttok) (s : sstate) : result :=
    match ps with [TId x] => Done ([], if active s then set_map (dict_remove (KVar x) (hmap s)) s else s) | _ => Panicked end.
  (** 235-250 (json_derive/quote/src/lib.rs) *)
  Definition do_ifdef (want : bool) (ps : list ttok) (s : sstate) : result :=
    match ps with [TId x] => Done ([], set_flag (Bool.eqb (has_var x (hmap s)) want) true s) | _ => Panicked end.
  (** 251-266 (json_derive/quote/src/lib.rs) *)
  Definition do_if (first : bool) (ex : list ttok) (s : sstate) : result :=
    if first || opened s then run! v := orun (eval e ex) in match v with VBool b => Done ([], set_flag b true s) | _ => Panicked end else Panicked.
  (** 284-305; [count()] of the elements is their number (json_derive/quote/src/lib.rs) *)
  Definition do_foreach (ps : list ttok) (s : sstate) : result :=
    match rev ps with
    | TId x :: c :: rex =>
        if op_is "," c then
          run! v := orun (eval e (rev rex)) in run! vs := orun (items v) in run! ts := orun (all_some text_of vs) in Done ([], set_iter (Some (ts, x)) s)
        else run! v := orun (eval e ps) in run! vs := orun (items v) in Done ([], set_iter (Some (map (fun _ => []) vs, lit "_")) s)
    | _ => run! v := orun (eval e ps) in run! vs := orun (items v) in Done ([], set_iter (Some (map (fun _ => []) vs, lit "_")) s)
    end.
  (** The commands that are not allowed between [#foreach] and [#endfor].  Simplification: the statement of [#execute] (217-225) has no
      effect on the variables of the template. (json_derive/quote/src/lib.rs 141-316) *)
  Definition command (name : str) (args : option (list ttok)) (s : sstate) : result :=
    if str_eqb name (lit "endfor") then
      match args with None => if looping s then Done ([], set_iter None s) else Panicked | Some _ => Panicked end                  (* 306-310 *)
    else if str_eqb name (lit "end") then match args with None => Done ([], set_end s) | Some _ => Panicked end                   (* 311-315 *)
    else if looping s then Panicked
    else
      match args with
      | Some ps =>
          if str_eqb name (lit "define") then do_define ps s
          else if str_eqb name (lit "include") then do_include ps s
          else if str_eqb name (lit "quote") then do_quote ps s
          else if str_eqb name (lit "execute") then match ps with [] => Panicked | _ => Done ([], s) end
          else if str_eqb name (lit "undef") then do_undef ps s
          else if str_eqb name (lit "ifdef") then do_ifdef true ps s
          else if str_eqb name (lit "ifndef") then do_ifdef false ps s
          else if str_eqb name (lit "if") then do_if true ps s
          else if str_eqb name (lit "elif") then do_if false ps s
          else if str_eqb name (lit "foreach") then do_foreach ps s
          else Panicked
      | None =>
          if str_eqb name (lit "else") then if opened s then Done ([], set_flag (negb (active s)) true s) else Panicked             (* 267-274 *)
          else if str_eqb name (lit "endif") then if opened s then Done ([], set_flag true false s) else Panicked                   (* 275-283 *)
          else Panicked
      end.
  (** json_derive/quote/src/lib.rs 359-378: the commands, one after the other *)
  Fixpoint commands (cs : list scmd) (s : sstate) : run (list ptok) :=
    match cs with
    | [] => Done []
    | c :: r =>
        if ended s then Panicked
        else
          run! p := match c with Block ts => do_block ts s | Cmd name args => command name args s end in
          run! more := commands r (snd p) in Done (fst p ++ more)
    end.
End Commands.
(** 359-364: commands and blocks, and at least one block (json_derive/quote/src/lib.rs) *)
Fixpoint scope_items (ts : list ttok) : option (list scmd) :=
  match ts with
  | [] => Some []
  | TGrp Brace b :: r => let! l := scope_items r in Some (Block b :: l)
  | h :: TId name :: r =>
      if op_is "#" h then
        match r with
        | TGrp Paren ps :: r' => let! l := scope_items r' in Some (Cmd name (Some ps) :: l)
        | _ => let! l := scope_items r in Some (Cmd name None :: l)
        end
      else None
  | _ => None
  end.
(** The pattern of a block, json_derive/quote/src/lib.rs 142. *)
Definition is_block (c : scmd) : bool := match c with Block _ => true | Cmd _ _ => false end.

(** * The rules, 325-378 (json_derive/quote/src/lib.rs) *)
Inductive atform := ALiteral (ts : list ttok) | AParams (ps : list (str * option (list ttok))) (ts : list ttok) | AScope (cs : list scmd).
(** The colon in the patterns of json_derive/quote/src/lib.rs 325-378. *)
Definition after_colon (ts : list ttok) : option (list ttok) := match ts with c :: r => if op_is ":" c then Some r else None | [] => None end.
(** json_derive/quote/src/lib.rs 325-378: what follows [#(@] *)
Definition at_form (m : str) (more : list ttok) : option atform :=
  if str_eqb m (lit "literal") then let! b := after_colon more in match b with [] => None | _ => Some (ALiteral b) end
  else if str_eqb m (lit "params") then
    match more with
    | TGrp Paren ps :: r => let! b := after_colon r in let! l := param_list ps in match b with [] => None | _ => Some (AParams l b) end
    | _ => None
    end
  else if str_eqb m (lit "scope") then
    let! b := after_colon more in let! cs := scope_items b in if existsb is_block cs then Some (AScope cs) else None
  else None.
(** json_derive/quote/src/lib.rs 325-378: the patterns *)
Definition at_rule (ts : list ttok) : option (atform * list ttok) :=
  match ts with
  | h :: TGrp Paren (a :: TId m :: more) :: rest => if op_is "#" h && op_is "@" a then let! x := at_form m more in Some (x, rest) else None
  | _ => None
  end.

(** * Expansion *)
(** As [Quote.each]: json_derive/quote/src/lib.rs 468-588. *)
Fixpoint each_run (f : env -> list ttok -> run (list ptok)) (e : env) (x : option str) (body : option (list ttok)) (s : sep) (first : bool)
  (vs : list value) : run (list ptok) :=
  match vs with
  | [] => Done []
  | v :: r =>
      let e' := bind_var x v e in
      run! a := match s with Between t => if first then Done [] else f e' [t] | _ => Done [] end in
      run! b := match body with Some ts => f e' ts | None => orun (text_of v) end in
      run! c := match s with After t => f e' [t] | _ => Done [] end in
      run! d := each_run f e x body s false r in
      Done (a ++ b ++ c ++ d)
  end.
(** As [Quote.act]: json_derive/quote/src/lib.rs 383-1011. *)
Definition act_run (f : env -> list ttok -> run (list ptok)) (e : env) (a : action) : run (list ptok) :=
  match a with
  | ABool want src body => run! v := orun (eval e src) in match v with VBool b => if Bool.eqb b want then f e body else Done [] | _ => Panicked end
  | AOpt src => run! v := orun (eval e src) in match v with VOpt (Some w) => orun (text_of w) | VOpt None => Done [] | _ => Panicked end
  | AOptAs src x body => run! v := orun (eval e src) in match v with VOpt (Some w) => f (bind_var x w e) body | VOpt None => Done [] | _ => Panicked end
  | AEach src s => run! v := orun (eval e src) in run! vs := orun (items v) in each_run f e None None s true vs
  | AEachAs src x body s => run! v := orun (eval e src) in run! vs := orun (items v) in each_run f e x (Some body) s true vs
  | AText src => run! v := orun (eval e src) in orun (text_of v)
  | ATokens ts => Done ts
  | AGroup before d body after => run! ts := f e body in Done (before ++ [PGrp d ts] ++ after)
  end.
(** 109-137 [__parse_options!]: the last of [literal], [params] and [scope] counts. (json_derive/quote/src/lib.rs) *)
Inductive mode := MPlain | MLiteral | MParams (ps : list ttok) | MScope.
(** The options matched at json_derive/quote/src/lib.rs 71, 111-137. *)
Definition option_of (ts : list ttok) : option (str * option (list ttok)) :=
  match ts with [TId o] => Some (o, None) | [TId o; TGrp Paren (t :: ps)] => Some (o, Some (t :: ps)) | _ => None end.
(** json_derive/quote/src/lib.rs 109-137 [__parse_options!] *)
Fixpoint parse_options (m : mode) (os : list (str * option (list ttok))) : option mode :=
  match os with
  | [] => Some m
  | (o, ps) :: r =>
      if str_eqb o (lit "span") then match ps with Some ex => if begins_expr ex then parse_options m r else None | None => None end
      else if str_eqb o (lit "literal") then match ps with None => parse_options MLiteral r | Some _ => None end
      else if str_eqb o (lit "params") then match ps with Some ps => parse_options (MParams ps) r | None => None end
      else if str_eqb o (lit "scope") then match ps with None => parse_options MScope r | Some _ => None end
      else None
  end.
(** json_derive/quote/src/lib.rs 125-136: the option around the template *)
Definition wrap (m : mode) (ts : list ttok) : list ttok :=
  let at_ (w : string) (more : list ttok) := [hash_op; TGrp Paren (TOp (lit "@") :: TId (lit w) :: more)] in
  match m with
  | MPlain => ts
  | MLiteral => at_ "literal"%string (TOp (lit ":") :: ts)
  | MParams ps => at_ "params"%string (TGrp Paren ps :: TOp (lit ":") :: ts)
  | MScope => at_ "scope"%string (TOp (lit ":") :: ts)
  end.
(** 72-107 [quote!] (json_derive/quote/src/lib.rs) *)
Definition top_rule (ts : list ttok) : option (option (list ttok)) :=
  match ts with
  | a :: TId m :: more =>
      if op_is "@" a then
        if str_eqb m (lit "options") then
          match more with
          | TGrp Paren os :: r =>
              let! b := after_colon r in let! l := all_some option_of (parts [] os) in
              Some (let! m := parse_options MPlain l in Some (wrap m b))
          | _ => None
          end
        else if str_eqb m (lit "span") then
          match more with TGrp Paren ex :: r => if begins_expr ex then let! b := after_colon r in Some (Some b) else None | _ => None end
        else if str_eqb m (lit "literal") then let! b := after_colon more in Some (Some (wrap MLiteral b))
        else if str_eqb m (lit "params") then match more with TGrp Paren ps :: r => let! b := after_colon r in Some (Some (wrap (MParams ps) b)) | _ => None end
        else if str_eqb m (lit "scope") then let! b := after_colon more in Some (Some (wrap MScope b))
        else None
      else None
  | _ => None
  end.
(** json_derive/quote/src/lib.rs 70-107 [quote!] *)
Definition quote_top (f : env -> list ttok -> run (list ptok)) (e : env) (ts : list ttok) : run (list ptok) :=
  match top_rule ts with Some (Some ts') => f e ts' | Some None => Panicked | None => f e ts end.
(** One step of [__append_to_token!]; the first three rules are those above, and the others as in [Quote.step]. (json_derive/quote/src/lib.rs 319-1029) *)
Definition at_run (f : env -> list ttok -> run (list ptok)) (tr : dict -> list ptok -> run (list ptok)) (e : env) (a : atform) : run (env * list ptok) :=
  match a with
  | ALiteral ts => Done (e, flat_map reread ts)
  | AParams ps ts => run! p := orun (bind_params e [] ps) in run! out := tr (snd p) (flat_map reread ts) in Done (fst p, out)
  | AScope cs => run! out := commands f (quote_top f) tr e cs start in Done (e, out)
  end.
(** As [Quote.step], with the forms: json_derive/quote/src/lib.rs 319-1029. *)
Definition step_at (f : env -> list ttok -> run (list ptok)) (tr : dict -> list ptok -> run (list ptok)) (e : env) (ts : list ttok) : run (list ptok) :=
  let '(ids, r) := leading ts in
  match at_rule r with
  | Some (a, rest) => run! p := at_run f tr e a in run! more := f (fst p) rest in Done (map PId ids ++ snd p ++ more)
  | None =>
      match first_rule rules r with
      | Some (a, rest) => run! out := act_run f e a in run! more := f e rest in Done (map PId ids ++ out ++ more)
      | None =>
          match r with
          | [] => Done (map PId ids)
          | _ => match ts with
                 | t :: rest => run! out := orun (plain t) in run! more := f e rest in Done (out ++ more)
                 | [] => Done []
                 end
          end
      end
  end.
(** json_derive/quote/src/lib.rs 319-1029 [__append_to_token!] *)
Fixpoint append (fuel : nat) (e : env) (ts : list ttok) : run (list ptok) :=
  match fuel with O => Running | S n => step_at (append n) (translate n) e ts end.
(** [quote!] with all its forms (json_derive/quote/src/lib.rs 70-107) *)
Definition quote_at (fuel : nat) (e : env) (ts : list ttok) : run (list ptok) := quote_top (append fuel) e ts.

Example scope_example : quote_at 30 [(lit "n", VList [VObj (Some [PId (lit "a")]) []; VObj (Some [PId (lit "b")]) []]); (lit "t", VBool true)]
  (lex "@scope: #define(m(x), [#x ##k]) #define(k, 1) #if(t) { u #(m(y)) } #else { v } #endif #foreach(n, k) { #k, } #endfor { #k }") =
  Done (flat_map reread (lex "u [y 1] a, b, 1")).
Proof. vm_compute. reflexivity. Qed.

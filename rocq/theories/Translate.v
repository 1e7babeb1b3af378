(** The references [#x] and [#(f(..))] in texts that are not read by [quote!] itself but by [__translate], json_derive/quote/src/lib.rs
    1117-1200: those under [@params] and [@scope]. *)
From Verif Require Import Base Tokens Quote.
Local Open Scope N_scope.

(** [HashMap<String, TokenStream>].  The keys are the name of a variable, and for a macro its name with a plus sign (its text) and with a minus
    sign (its parameters); no identifier has such a sign.  The newest entry comes first; the order of the map is not observable. (json_derive/quote/src/lib.rs 162-198, 1117-1157) *)
Inductive mkey := KVar (x : str) | KBody (f : str) | KParams (f : str).
(** std: [==] on the keys of json_derive/quote/src/lib.rs 1117-1157 *)
Definition mkey_eqb (a b : mkey) : bool :=
  match a, b with KVar x, KVar y | KBody x, KBody y | KParams x, KParams y => str_eqb x y | _, _ => false end.
(** The map of json_derive/quote/src/lib.rs 1117. *)
Definition dict := list (mkey * list ptok).
(** std: [HashMap::get], json_derive/quote/src/lib.rs 1125, 1139-1142 *)
Fixpoint dict_get (k : mkey) (d : dict) : option (list ptok) :=
  match d with [] => None | (k', v) :: r => if mkey_eqb k k' then Some v else dict_get k r end.
(** std: [HashMap::insert], json_derive/quote/src/lib.rs 142-198, 335-338, 1145 *)
Definition dict_put (k : mkey) (v : list ptok) (d : dict) : dict := (k, v) :: d.
(** std: [HashMap::remove], json_derive/quote/src/lib.rs 142-161, 226-234 *)
Definition dict_remove (k : mkey) (d : dict) : dict := filter (fun p => negb (mkey_eqb k (fst p))) d.

(** What a call comes to: it returns, or it panics, or it is still running after the given number of steps. The outcomes of json_derive/quote/src/lib.rs 1117-1200. *)
Inductive run (A : Type) := Done (a : A) | Panicked | Running.
Arguments Done {A} a. Arguments Panicked {A}. Arguments Running {A}.
(** Sequencing in json_derive/quote/src/lib.rs 1117-1200. *)
Definition rbind {A B} (x : run A) (k : A -> run B) : run B := match x with Done a => k a | Panicked => Panicked | Running => Running end.
Notation "'run!' x ':=' r 'in' k" := (rbind r (fun x => k)) (at level 200, x name, r at level 100, k at level 200).
(** std: [map] and [collect] in json_derive/quote/src/lib.rs 1117-1200 *)
Fixpoint all_done {A B} (f : A -> run B) (l : list A) : run (list B) :=
  match l with [] => Done [] | a :: r => run! b := f a in run! bs := all_done f r in Done (b :: bs) end.

(** proc_macro: [as_char() ==], json_derive/quote/src/lib.rs 1122, 1202-1268 *)
Definition is_char (c : N) (t : ptok) : bool := match t with PPunct c' _ => c' =? c | _ => false end.
(** 1202-1268 [split_tokens_by] with a comma, its only separator here.  [n] is the number of open angle brackets. (json_derive/quote/src/lib.rs) *)
Fixpoint comma_loop (n : Z) (inner : list ptok) (ts : list ptok) : list (list ptok) :=
  match ts with
  | [] => [inner]
  | t :: r =>
      if is_char 45 t then
        match r with
        | g :: r' => if is_char 62 g then comma_loop n (inner ++ [t; g]) r' else comma_loop n (inner ++ [t]) r
        | [] => comma_loop n (inner ++ [t]) r
        end
      else if is_char 60 t then comma_loop (n + 1) (inner ++ [t]) r
      else if is_char 62 t then comma_loop (n - 1) (inner ++ [t]) r
      else if (n =? 0)%Z && is_char 44 t then inner :: match r with [] => [] | _ :: _ => comma_loop n [] r end
      else comma_loop n (inner ++ [t]) r
  end.
(** json_derive/quote/src/lib.rs 1202-1268, called at 1141-1142 *)
Definition split_commas (ts : list ptok) : list (list ptok) := comma_loop 0 [] ts.

(** [k.to_string()] of a parameter, 1145.  Parameters are identifiers, or there is none and the text is empty; for other tokens, which
    [#define] does not let through, the text would be no identifier and thus never found. (json_derive/quote/src/lib.rs) *)
Definition param_key (ts : list ptok) : mkey := match ts with [PId s] => KVar s | _ => KVar [] end.
(** json_derive/quote/src/lib.rs 1143-1146: the parameters with their values *)
Fixpoint put_all (ks : list (list ptok)) (vs : list (list ptok)) (d : dict) : dict :=
  match ks, vs with k :: ks', v :: vs' => put_all ks' vs' (dict_put (param_key k) v d) | _, _ => d end.
(** 1128-1157: what is in the parentheses after a hash.  [tr] is [__translate]. (json_derive/quote/src/lib.rs) *)
Definition call (tr : dict -> list ptok -> run (list ptok)) (d : dict) (inner : list ptok) : run (list ptok) :=
  match inner with
  | [PId f; PGrp Paren g] =>
      match dict_get (KParams f) d with
      | Some ps =>
          let args := split_commas ps in
          let acts := split_commas g in
          if Nat.eqb (List.length args) (List.length acts) then
            run! vs := all_done (tr d) acts in
            match dict_get (KBody f) d with Some b => tr (put_all args vs d) b | None => Done [] end
          else Panicked
      | None => Done []
      end
  | _ => Done []
  end.
(** 1120-1175, the loop. (json_derive/quote/src/lib.rs) *)
Fixpoint pass (tr : dict -> list ptok -> run (list ptok)) (d : dict) (ts : list ptok) : run (list ptok) :=
  match ts with
  | [] => Done []
  | t :: r =>
      if is_char 35 t then
        match r with
        | PId x :: r' => run! more := pass tr d r' in Done (match dict_get (KVar x) d with Some v => v | None => [] end ++ more)
        | PGrp Paren inner :: r' => run! v := call tr d inner in run! more := pass tr d r' in Done (v ++ more)
        | _ => run! more := pass tr d r in Done (PPunct 35 false :: more)
        end
      else
        match t with
        | PGrp dl g => run! g' := tr d g in run! more := pass tr d r in Done (PGrp dl g' :: more)
        | _ => run! more := pass tr d r in Done (t :: more)
        end
  end.
(** 1177-1187 (json_derive/quote/src/lib.rs) *)
Definition refers (x y : ptok) : bool := is_char 35 x && match y with PId _ | PGrp Paren _ => true | _ => false end.
(** json_derive/quote/src/lib.rs 1177-1187 *)
Fixpoint remain (ts : list ptok) : bool := match ts with x :: (y :: _) as r => refers x y || remain r | _ => false end.
(** 1117-1200 [__translate]; [fuel] bounds the depth of its calls of itself. (json_derive/quote/src/lib.rs) *)
Fixpoint translate (fuel : nat) (d : dict) (ts : list ptok) : run (list ptok) :=
  match fuel with
  | O => Running
  | S n => run! out := pass (translate n) d ts in if remain out then translate n d out else Done out
  end.

(** What the references in the texts of [@params] and [@scope] stand for: variables and macros, as with the preprocessor of C. *)
From Verif Require Import Base Tokens Quote SpecQuote Translate.
Local Open Scope N_scope.

(** ** References *)
Inductive ref :=
| RTok (t : ptok)                             (* a token other than a hash or a group *)
| RGrp (d : delim) (body : list ref)
| RAttr (inner : bool) (body : list ref)      (* #[..] or #![..] *)
| RVar (x : str)                              (* #x *)
| RCall (f : str) (args : list (list ref)).   (* #(f(a, b)) *)
Definition comma : ptok := PPunct 44 false.
Fixpoint commas (l : list (list ptok)) : list ptok := match l with [] => [] | [a] => a | a :: r => a ++ comma :: commas r end.
Fixpoint ref_toks (r : ref) : list ptok :=
  match r with
  | RTok t => [t]
  | RGrp d body => [PGrp d (flat_map ref_toks body)]
  | RAttr inner body => hash :: (if inner then [bang] else []) ++ [PGrp Bracket (flat_map ref_toks body)]
  | RVar x => [hash; PId x]
  | RCall f args => [hash; PGrp Paren [PId f; PGrp Paren (commas (map (flat_map ref_toks) args))]]
  end.
Definition refs_toks (l : list ref) : list ptok := flat_map ref_toks l.

(** An argument: it has no comma that is not between angle brackets, which come in pairs; an arrow is no bracket. *)
Definition ordinary (t : ptok) : bool := match t with PPunct c _ => negb (existsb (N.eqb c) [44; 45; 60; 62]) | _ => true end.
Inductive one_arg : bool -> list ptok -> Prop :=
| arg_nil inside : one_arg inside []
| arg_tok inside t r : ordinary t = true -> one_arg inside r -> one_arg inside (t :: r)
| arg_minus inside j t r : one_arg inside (t :: r) -> one_arg inside (PPunct 45 j :: t :: r)
| arg_arrow inside j j' r : one_arg inside r -> one_arg inside (PPunct 45 j :: PPunct 62 j' :: r)
| arg_angle inside a r j j' : one_arg true a -> one_arg inside r -> one_arg inside (PPunct 60 j :: a ++ PPunct 62 j' :: r)
| arg_comma j r : one_arg true r -> one_arg true (PPunct 44 j :: r).
(** There is always one argument, perhaps an empty one; after the last comma there must be something. *)
Inductive ref_ok : ref -> Prop :=
| ok_tok t : match t with PGrp _ _ => False | PPunct c _ => c <> 35 | _ => True end -> ref_ok (RTok t)
| ok_grp d body : Forall ref_ok body -> ref_ok (RGrp d body)
| ok_attr i body : Forall ref_ok body -> ref_ok (RAttr i body)
| ok_var x : x <> [] -> ref_ok (RVar x)
| ok_call f args : Forall (Forall ref_ok) args -> Forall (fun a => one_arg false (refs_toks a)) args ->
    args = [[]] \/ (exists front a, args = front ++ [a] /\ a <> []) -> ref_ok (RCall f args).

(** ** Libraries *)
(** The variables with their values, and the macros with their parameters and texts.  The first entry for a name counts. *)
Record library := mkLibrary { vars : list (str * list ptok); macros : list (str * (list str * list ref)) }.
Fixpoint lookup {A} (x : str) (l : list (str * A)) : option A :=
  match l with [] => None | (y, a) :: r => if str_eqb x y then Some a else lookup x r end.
(** A value has nothing that would be taken for a reference, and does not end with a hash. *)
Definition reference_in (ts : list ptok) : Prop :=
  exists a j t b, ts = a ++ PPunct 35 j :: t :: b /\ match t with PId _ | PGrp Paren _ => True | _ => False end.
Definition settled (ts : list ptok) : Prop := ~ reference_in ts /\ forall a j, ts <> a ++ [PPunct 35 j].
Record library_ok (L : library) : Prop := {
  vars_settled x v : lookup x (vars L) = Some v -> settled v;
  macros_ok f ps body : lookup f (macros L) = Some (ps, body) -> Forall ref_ok body /\ ~ In [] ps }.
(** The arguments take the place of the variables with the names of the parameters; a macro without parameters has one argument that is
    ignored. *)
Fixpoint with_args (ps : list str) (vs : list (list ptok)) (L : library) : library :=
  match ps, vs with p :: ps', v :: vs' => with_args ps' vs' (mkLibrary ((p, v) :: vars L) (macros L)) | _, _ => L end.

(** ** Meaning *)
(** References to what is not in the library stand for nothing. *)
Inductive stands : library -> ref -> list ptok -> Prop :=
| st_tok L t : stands L (RTok t) [t]
| st_grp L d body out : all_stand L body out -> stands L (RGrp d body) [PGrp d out]
| st_attr L body out : all_stand L body out -> stands L (RAttr false body) [hash; PGrp Bracket out]
| st_inner_attr L body out : all_stand L body out -> stands L (RAttr true body) [hash; bang; PGrp Bracket out]
| st_var L x v : lookup x (vars L) = Some v -> stands L (RVar x) v
| st_no_var L x : lookup x (vars L) = None -> stands L (RVar x) []
| st_call L f args ps body vs out : lookup f (macros L) = Some (ps, body) -> List.length args = Nat.max 1 (List.length ps) ->
    args_stand L args vs -> all_stand (with_args ps vs L) body out -> stands L (RCall f args) out
| st_no_call L f args : lookup f (macros L) = None -> stands L (RCall f args) []
with all_stand : library -> list ref -> list ptok -> Prop :=
| all_st_nil L : all_stand L [] []
| all_st_cons L r l a b : stands L r a -> all_stand L l b -> all_stand L (r :: l) (a ++ b)
with args_stand : library -> list (list ref) -> list (list ptok) -> Prop :=
| args_nil L : args_stand L [] []
| args_cons L a l v vs : all_stand L a v -> args_stand L l vs -> args_stand L (a :: l) (v :: vs).

(** ** Libraries that come to an end *)
(** Every macro used has the right number of arguments and calls only macros of smaller rank. *)
Inductive calls_below (L : library) (rank : str -> nat) (n : nat) : ref -> Prop :=
| cb_tok t : calls_below L rank n (RTok t)
| cb_grp d body : Forall (calls_below L rank n) body -> calls_below L rank n (RGrp d body)
| cb_attr i body : Forall (calls_below L rank n) body -> calls_below L rank n (RAttr i body)
| cb_var x : calls_below L rank n (RVar x)
| cb_call f args : (rank f < n)%nat -> Forall (Forall (calls_below L rank n)) args ->
    match lookup f (macros L) with Some (ps, _) => List.length args = Nat.max 1 (List.length ps) | None => True end -> calls_below L rank n (RCall f args).
Definition not_recursive (L : library) (rank : str -> nat) : Prop :=
  forall f ps body, lookup f (macros L) = Some (ps, body) -> Forall (calls_below L rank (rank f)) body.

(** ** Code in which nothing refers to anything, also within groups *)
Inductive no_references : list ptok -> Prop :=
| nr ts : ~ reference_in ts -> (forall d g, In (PGrp d g) ts -> no_references g) -> no_references ts.
(** Code without any hash. *)
Fixpoint hashless (t : ptok) : bool := match t with PPunct c _ => negb (c =? 35) | PGrp _ g => forallb hashless g | _ => true end.

(** ** Dictionaries *)
(** The map that [quote!] hands to [__translate] has the values of the variables under their names, and for a macro its text and its
    parameters. *)
Record represents (d : dict) (L : library) : Prop := {
  rep_var x : x <> [] -> dict_get (KVar x) d = lookup x (vars L);
  rep_body f : dict_get (KBody f) d = option_map (fun m => refs_toks (snd m)) (lookup f (macros L));
  rep_params f : dict_get (KParams f) d = option_map (fun m => commas (map (fun p => [PId p]) (fst m))) (lookup f (macros L)) }.

(** ** Recursion *)
(** A macro is called in a text, at any depth, but not in what is given to a macro that does not exist. *)
Inductive called (L : library) (f : str) : ref -> Prop :=
| called_here args : called L f (RCall f args)
| called_group d body r : In r body -> called L f r -> called L f (RGrp d body)
| called_attr i body r : In r body -> called L f r -> called L f (RAttr i body)
| called_arg g args a r : lookup g (macros L) <> None -> In a args -> In r a -> called L f r -> called L f (RCall g args).
(** The text of the first calls the second. *)
Definition uses (L : library) (f g : str) : Prop := exists ps body r, lookup f (macros L) = Some (ps, body) /\ In r body /\ called L g r.

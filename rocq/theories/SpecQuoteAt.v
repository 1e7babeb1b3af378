(** What the forms of [quote!] with an at sign mean, after the comments at quote/src/lib.rs 321-358: [@literal] copies, [@params] puts the values
    of variables into a text, and [@scope] is a text with commands, as for the preprocessor of C. *)
From Verif Require Import Base Tokens Quote SpecQuote Translate SpecTranslate.
Local Open Scope N_scope.

(** ** Texts *)
(** Tokens as they can be written. *)
Fixpoint real_tok (t : ttok) : bool := match t with TOp o => is_op o | TGrp _ ts => forallb real_tok ts | _ => true end.
(** Code in which the hashes are references, and what it stands for. *)
Definition refers (ts : list ptok) (l : list ref) : Prop := ts = refs_toks l /\ Forall ref_ok l.
Definition text_stands (L : library) (ts out : list ptok) : Prop := exists l, refers ts l /\ all_stand L l out.
Definition is_text (ts : list ptok) : Prop := exists l, refers ts l.
(** The same for the tokens between the braces of a block. *)
Definition block_ok (ts : list ttok) : Prop := forallb real_tok ts = true /\ is_text (flat_map copied ts).

(** ** [@params] *)
(** The parameters: [x = e] or [x]. *)
Definition param := (str * option (list ttok))%type.
(** [a, b, c] *)
Fixpoint listed (l : list (list ttok)) : list ttok := match l with [] => [] | [a] => a | a :: r => a ++ op "," :: listed r end.
Definition param_toks (p : param) : list ttok := TId (fst p) :: match snd p with Some ex => op "=" :: ex | None => [] end.
Definition no_comma (ts : list ttok) : bool := forallb (fun t => negb (op_is "," t)) ts.
Definition param_ok (p : param) : Prop := fst p <> [] /\ match snd p with Some ex => expr_ok ex = true /\ no_comma ex = true | None => True end.
(** [x = e] is a new variable for all that follows. *)
Inductive params_mean : env -> list param -> env -> list (str * list ptok) -> Prop :=
| pm_nil e : params_mean e [] e []
| pm_value e x ex v t ps e' vs : value_of e ex v -> shows v t -> params_mean ((x, v) :: e) ps e' vs -> params_mean e ((x, Some ex) :: ps) e' (vs ++ [(x, t)])
| pm_var e x v t ps e' vs : finds x e v -> shows v t -> params_mean e ps e' vs -> params_mean e ((x, None) :: ps) e' (vs ++ [(x, t)]).

(** ** [@scope] *)
Inductive item :=
| Text (ts : list ttok)                                          (* { .. } *)
| Define (x : str) (body : list tmpl)                            (* #define(x, ..) *)
| DefineMacro (f : str) (ps : list str) (body : list tmpl)       (* #define(f(a, b), ..) *)
| Declare (x : str)                                              (* #define(x) *)
| Undef (x : str)                                                (* #undef(x) *)
| Include (ex : list ttok)                                       (* #include(e) *)
| Quoted (body : list tmpl)                                      (* #quote(..) *)
| Execute (stmt : list ttok)                                     (* #execute(..) *)
| Loop (ex : list ttok) (x : option str) (blocks : list (list ttok)).   (* #foreach(e, x) {..} {..} #endfor *)
Inductive test := IfTrue (ex : list ttok) | IfDef (x : str) | IfNotDef (x : str).
Inductive clause := Elif (ex : list ttok) | Else.
Inductive part := Item (i : item) | Cond (t : test) (body : list item) (more : list (clause * list item)).   (* #if .. #elif .. #else .. #endif *)

(** How they are written. *)
Definition cmd (name : string) (args : list ttok) : list ttok := [op "#"; TId (lit name); TGrp Paren args].
Definition word (name : string) : list ttok := [op "#"; TId (lit name)].
Definition block (ts : list ttok) : list ttok := [TGrp Brace ts].
Definition item_toks (i : item) : list ttok :=
  match i with
  | Text ts => block ts
  | Define x body => cmd "define" (TId x :: op "," :: flat_map written body)
  | DefineMacro f ps body => cmd "define" (TId f :: TGrp Paren (listed (map (fun p => [TId p]) ps)) :: op "," :: flat_map written body)
  | Declare x => cmd "define" [TId x]
  | Undef x => cmd "undef" [TId x]
  | Include ex => cmd "include" ex
  | Quoted body => cmd "quote" (flat_map written body)
  | Execute stmt => cmd "execute" stmt
  | Loop ex x blocks => cmd "foreach" (ex ++ match x with Some x => [op ","; TId x] | None => [] end) ++ flat_map block blocks ++ word "endfor"
  end.
Definition test_toks (t : test) : list ttok := match t with IfTrue ex => cmd "if" ex | IfDef x => cmd "ifdef" [TId x] | IfNotDef x => cmd "ifndef" [TId x] end.
Definition clause_toks (c : clause) : list ttok := match c with Elif ex => cmd "elif" ex | Else => word "else" end.
Definition part_toks (p : part) : list ttok :=
  match p with
  | Item i => item_toks i
  | Cond t body more => test_toks t ++ flat_map item_toks body ++ flat_map (fun c => clause_toks (fst c) ++ flat_map item_toks (snd c)) more ++ word "endif"
  end.

(** What they do.  The variables and macros defined so far are in the library; [item_means e L i out L']: with the variables [e] of the
    program, the item [i] gives [out] and leaves the library [L']. *)
Definition set_var (x : str) (v : list ptok) (L : library) : library := mkLibrary ((x, v) :: vars L) (macros L).
Definition unset_var (x : str) (L : library) : library := mkLibrary (filter (fun p => negb (str_eqb x (fst p))) (vars L)) (macros L).
Definition set_macro (f : str) (ps : list str) (body : list ref) (L : library) : library := mkLibrary (vars L) ((f, (ps, body)) :: macros L).
(** In the text of a macro its parameters stand for references to them: the text is expanded only when the macro is used. *)
Definition as_reference (p : str) : str * value := (p, VObj (Some [hash; PId p]) []).
Definition empty_library : library := mkLibrary [] [].
(** The texts a loop goes through. *)
Inductive loop_texts (e : env) (ex : list ttok) : option str -> list (list ptok) -> Prop :=
| lt_named x v vs ts : value_of e ex v -> elements v vs -> Forall2 shows vs ts -> loop_texts e ex (Some x) ts
| lt_unnamed v vs : value_of e ex v -> elements v vs -> loop_texts e ex None (map (fun _ => []) vs).
Definition loop_var (x : option str) : str := match x with Some x => x | None => lit "_" end.
Inductive item_means (e : env) (L : library) : item -> list ptok -> library -> Prop :=
| im_text ts out : text_stands L (flat_map copied ts) out -> item_means e L (Text ts) out L
| im_define x body v : all_mean e body v -> item_means e L (Define x body) [] (set_var x v L)
| im_macro f ps body v l : all_mean (rev (map as_reference ps) ++ e) body v -> refers v l -> item_means e L (DefineMacro f ps body) [] (set_macro f ps l L)
| im_declare x : item_means e L (Declare x) [] (set_var x [] L)
| im_undef x : item_means e L (Undef x) [] (unset_var x L)
| im_include ex ts ms out : value_of e ex (VObj (Some ts) ms) -> text_stands L ts out -> item_means e L (Include ex) out L
| im_quote body v out : all_mean e body v -> text_stands L v out -> item_means e L (Quoted body) out L
| im_execute stmt : item_means e L (Execute stmt) [] L
| im_loop ex x blocks ts outs : loop_texts e ex x ts ->
    Forall2 (fun b o => exists os, Forall2 (fun t o => text_stands (set_var (loop_var x) t L) (flat_map copied b) o) ts os /\ o = List.concat os) blocks outs ->
    item_means e L (Loop ex x blocks) (List.concat outs) L.
Inductive items_mean (e : env) : library -> list item -> list ptok -> library -> Prop :=
| is_nil L : items_mean e L [] [] L
| is_cons L i l a L1 b L2 : item_means e L i a L1 -> items_mean e L1 l b L2 -> items_mean e L (i :: l) (a ++ b) L2.
Inductive test_means (e : env) (L : library) : test -> bool -> Prop :=
| tm_true ex b : value_of e ex (VBool b) -> test_means e L (IfTrue ex) b
| tm_def x b : (b = true <-> lookup x (vars L) <> None) -> test_means e L (IfDef x) b
| tm_ndef x b : (b = true <-> lookup x (vars L) = None) -> test_means e L (IfNotDef x) b.
(** Items that are passed over, because the condition before them is false.  What loops range over is computed nevertheless. *)
Definition loops_fine (e : env) (i : item) : Prop := match i with Loop ex x _ => exists ts, loop_texts e ex x ts | _ => True end.
Inductive guarded (e : env) (L : library) (l : list item) : bool -> list ptok -> library -> Prop :=
| g_yes out L' : items_mean e L l out L' -> guarded e L l true out L'
| g_no : Forall (loops_fine e) l -> guarded e L l false [] L.
(** [#else] has the opposite of the condition right before it, and [#elif] only its own. *)
Inductive clauses_mean (e : env) : library -> bool -> list (clause * list item) -> list ptok -> library -> Prop :=
| cm_nil L c : clauses_mean e L c [] [] L
| cm_elif L c ex b l r o1 L1 o2 L2 : value_of e ex (VBool b) -> guarded e L l b o1 L1 -> clauses_mean e L1 b r o2 L2 -> clauses_mean e L c ((Elif ex, l) :: r) (o1 ++ o2) L2
| cm_else L c l r o1 L1 o2 L2 : guarded e L l (negb c) o1 L1 -> clauses_mean e L1 (negb c) r o2 L2 -> clauses_mean e L c ((Else, l) :: r) (o1 ++ o2) L2.
Inductive part_means (e : env) (L : library) : part -> list ptok -> library -> Prop :=
| pt_item i out L' : item_means e L i out L' -> part_means e L (Item i) out L'
| pt_cond t c body more o1 L1 o2 L2 : test_means e L t c -> guarded e L body c o1 L1 -> clauses_mean e L1 c more o2 L2 -> part_means e L (Cond t body more) (o1 ++ o2) L2.
Inductive parts_mean (e : env) : library -> list part -> list ptok -> library -> Prop :=
| ps_nil L : parts_mean e L [] [] L
| ps_cons L p l a L1 b L2 : part_means e L p a L1 -> parts_mean e L1 l b L2 -> parts_mean e L (p :: l) (a ++ b) L2.

(** The scopes that say what they mean: names are not empty; what is written in blocks, included or quoted is a text; the values of variables,
    and the texts of what a loop ranges over, are settled. *)
Definition body_ok (body : list tmpl) : Prop := body <> [] /\ forallb tmpl_ok body = true.
Definition at_free (ts : list ttok) : Prop := forall r, ts <> op "@" :: r.
Definition item_ok (e : env) (i : item) : Prop :=
  match i with
  | Text ts => block_ok ts
  | Define x body => x <> [] /\ body_ok body /\ forall v, all_mean e body v -> settled v
  | DefineMacro f ps body => ~ In [] ps /\ body_ok body /\ forall v, all_mean (rev (map as_reference ps) ++ e) body v -> is_text v
  | Declare x => x <> []
  | Undef x => x <> []
  | Include ex => forall ts ms, value_of e ex (VObj (Some ts) ms) -> is_text ts
  | Quoted body => forallb tmpl_ok body = true /\ at_free (flat_map written body) /\ forall v, all_mean e body v -> is_text v
  | Execute stmt => stmt <> []
  | Loop ex x blocks => no_comma ex = true /\ x <> Some [] /\ Forall block_ok blocks /\ forall ts, loop_texts e ex x ts -> Forall settled ts
  end.
Definition test_ok (t : test) : Prop := match t with IfTrue _ => True | IfDef x | IfNotDef x => x <> [] end.
Definition part_ok (e : env) (p : part) : Prop :=
  match p with Item i => item_ok e i | Cond t body more => test_ok t /\ Forall (item_ok e) body /\ Forall (fun c => Forall (item_ok e) (snd c)) more end.
(** A scope has a block. *)
Definition has_block (i : item) : bool := match i with Text _ | Loop _ _ (_ :: _) => true | _ => false end.
Definition part_has_block (p : part) : bool :=
  match p with Item i => has_block i | Cond _ body more => existsb has_block body || existsb (fun c => existsb has_block (snd c)) more end.

(** ** Templates with these forms *)
Inductive form := Template (t : tmpl) | Literal (ts : list ttok) | Params (ps : list param) (ts : list ttok) | Scope (ps : list part) (closed : bool).
Definition at_group (name : string) (more : list ttok) : list ttok := [op "#"; TGrp Paren (op "@" :: TId (lit name) :: more)].
Definition scope_toks (ps : list part) (closed : bool) : list ttok := flat_map part_toks ps ++ if closed then word "end" else [].
Definition form_toks (f : form) : list ttok :=
  match f with
  | Template t => written t
  | Literal ts => at_group "literal" (op ":" :: ts)
  | Params ps ts => at_group "params" (TGrp Paren (listed (map param_toks ps)) :: op ":" :: ts)
  | Scope ps closed => at_group "scope" (op ":" :: scope_toks ps closed)
  end.
Inductive forms_mean : env -> list form -> list ptok -> Prop :=
| fm_nil e : forms_mean e [] []
| fm_template e t r a b : means e t a -> forms_mean e r b -> forms_mean e (Template t :: r) (a ++ b)
| fm_literal e ts r b : forms_mean e r b -> forms_mean e (Literal ts :: r) (flat_map copied ts ++ b)
| fm_params e ps ts r e' vs a b : params_mean e ps e' vs -> text_stands (mkLibrary vs []) (flat_map copied ts) a -> forms_mean e' r b -> forms_mean e (Params ps ts :: r) (a ++ b)
| fm_scope e ps closed r a L b : parts_mean e empty_library ps a L -> forms_mean e r b -> forms_mean e (Scope ps closed :: r) (a ++ b).
Inductive forms_ok : env -> list form -> Prop :=
| fo_nil e : forms_ok e []
| fo_template e t r : tmpl_ok t = true -> forms_ok e r -> forms_ok e (Template t :: r)
| fo_literal e ts r : ts <> [] -> forallb real_tok ts = true -> forms_ok e r -> forms_ok e (Literal ts :: r)
| fo_params e ps ts r : ps <> [] -> Forall param_ok ps -> ts <> [] -> block_ok ts ->
    (forall e' vs, params_mean e ps e' vs -> Forall (fun p => settled (snd p)) vs) -> (forall e' vs, params_mean e ps e' vs -> forms_ok e' r) ->
    forms_ok e (Params ps ts :: r)
| fo_scope e ps closed r : Forall (part_ok e) ps -> existsb part_has_block ps = true -> forms_ok e r -> forms_ok e (Scope ps closed :: r).

(** ** [@options] *)
Inductive opt := OSpan (ex : list ttok) | OLiteral | OParams (ps : list ttok) | OScope.
Definition opt_toks (o : opt) : list ttok :=
  match o with
  | OSpan ex => [TId (lit "span"); TGrp Paren ex]
  | OLiteral => [TId (lit "literal")]
  | OParams ps => [TId (lit "params"); TGrp Paren ps]
  | OScope => [TId (lit "scope")]
  end.
Definition opt_ok (o : opt) : Prop := match o with OSpan ex => expr_ok ex = true | OParams ps => ps <> [] | _ => True end.
Definition is_span (o : opt) : bool := match o with OSpan _ => true | _ => false end.
(** What an option makes of the template. *)
Definition under (o : opt) (ts : list ttok) : list ttok :=
  match o with
  | OSpan _ => ts
  | OLiteral => at_group "literal" (op ":" :: ts)
  | OParams ps => at_group "params" (TGrp Paren ps :: op ":" :: ts)
  | OScope => at_group "scope" (op ":" :: ts)
  end.
Definition at_top (name : string) (more : list ttok) : list ttok := op "@" :: TId (lit name) :: more.

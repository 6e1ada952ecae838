(** Model of llrl0/src/syntax.rs, syntax/kind.rs, syntax/types.rs, syntax/pattern.rs, syntax/expr.rs and of
    the parts of llrl0/src/module/sema/ast_builder.rs for kinds, types, schemes, patterns and expressions:
    how an S-expression becomes a syntax tree. The trees are those of Verif.Resolve: the symbol of a node is
    stored in the node, and of the ids given out only those of nodes that declare a name are kept. The
    module is not the builtin one, so that no name has a reserved id (ast_builder.rs:97-104). *)
From Verif.Base Require Import Base.
From Verif.Sexp Require Import Model.
From Verif.Resolve Require Model.
Export Resolve.Model (symbol, Build_symbol, s_loc, s_name, variant(..), use(..), binder, Build_binder, b_id, b_sym,
  kind(..), ty(..), constr, Build_constr, k_class, k_args, typaram, Build_typaram, tp_binder, tp_ann,
  scheme, Build_scheme, sc_params, sc_constrs, sc_body, pattern(..), expr(..), def(..),
  is_type_con, is_value, is_value_con, is_class).

(** module/error.rs: the errors of this part. [NoMatch] is a [MatchError], with where and what was
    expected. *)
Inductive error :=
| NoMatch (l : srcloc) (what : text)
| CannotGeneralize (l : srcloc)
| NotResolved (l : srcloc) (what : text)
| MacroFailed (l : srcloc) (message : text)
| MacroOfThisModule (l : srcloc)
| MethodWithoutType (l : srcloc).

Inductive result A := Built (a : A) | Refused (e : error).
Arguments Built {A} a.
Arguments Refused {A} e.

(** A computation on the id generator of the module (node_id.rs:119-140). *)
Definition M A : Type := N -> outcome (N * result A).
Definition ret {A} (a : A) : M A := fun c => Ret (c, Built a).
Definition refuse {A} (e : error) : M A := fun c => Ret (c, Refused e).
Definition panic {A} : M A := fun _ => Panic.
Definition tired {A} : M A := fun _ => OutOfFuel.
Definition andthen {A B} (m : M A) (k : A -> M B) : M B := fun c =>
  let* (c, r) := m c in match r with Built a => k a c | Refused e => Ret (c, Refused e) end.
(** node_id.rs:136-139 [generate], as called by ast_builder.rs:91-108 [next_id]. *)
Definition next : M N := fun c => Ret (N.succ c, Built (N.succ c)).
(** ast_builder.rs:185-195, [Build] of vectors and options. *)
Definition all {A B} (f : A -> M B) : list A -> M (list B) :=
  fix go l := match l with
  | [] => ret []
  | a :: l => andthen (f a) (fun b => andthen (go l) (fun bs => ret (b :: bs)))
  end.
Definition opt {A B} (f : A -> M B) (o : option A) : M (option B) :=
  match o with Some a => andthen (f a) (fun b => ret (Some b)) | None => ret None end.
Definition lift {A} (r : A + error) : M A := match r with inl a => ret a | inr e => refuse e end.
Definition declare (s : symbol) : M binder := andthen next (fun i => ret {| b_id := i; b_sym := s |}).

(** [s.matches::<(m::Symbol, m::Rest<m::Any>)>()] *)
Definition as_form (s : sexp) : option (text * list sexp) :=
  match rep s with RList (Sexp _ (RSymbol k) :: rest) => Some (k, rest) | _ => None end.
Definition named (l : srcloc) (t : text) : symbol := {| s_loc := l; s_name := t |}.
(** syntax.rs:25-43 [Name]. *)
Definition as_name (s : sexp) : option symbol :=
  match s with Sexp l (RSymbol t) => Some (named l t) | _ => None end.
(** syntax.rs:66-95 [Use]. *)
Inductive suse := UName (s : symbol) | UNative (l : srcloc) (n : text).
Definition as_use (s : sexp) : option suse :=
  match s with Sexp l (RSymbol t) => Some (UName (named l t)) | Sexp l (RNative n) => Some (UNative l n) | _ => None end.
Definition use_loc (u : suse) : srcloc := match u with UName s => s_loc s | UNative l _ => l end.
Fixpoint all_some {A B} (f : A -> option B) (l : list A) : option (list B) :=
  match l with
  | [] => Some []
  | a :: l => match f a, all_some f l with Some b, Some bs => Some (b :: bs) | _, _ => None end
  end.
(** Rust [slice::split_last]. *)
Fixpoint split_last {A} (l : list A) : option (list A * A) :=
  match l with
  | [] => None
  | a :: l => match split_last l with Some (i, z) => Some (a :: i, z) | None => Some ([], a) end
  end.

(** syntax/kind.rs:7-14 [Kind]. *)
Inductive skind := SKFun (args : list sexp) (ret : sexp) | SKAtom (k : kind).
(** syntax/kind.rs:16-37, 42-64. *)
Definition match_kind (s : sexp) : skind + error :=
  match as_form s with
  | Some (h, rest) =>
    if text_eqb h (t_ "->") then
      match split_last rest with Some (args, r) => inl (SKFun args r) | None => inr (NoMatch (sloc s) (t_ "(-> <arg> ... <ret>)")) end
    else inr (NoMatch (sloc s) (t_ "<kind>"))
  | None =>
    match rep s with
    | RSymbol t =>
      if text_eqb t (t_ "*") then inl (SKAtom KType)
      else if text_eqb t (t_ "Constraint") then inl (SKAtom KConstraint)
      else if text_eqb t (t_ "Satisfaction") then inl (SKAtom KSatisfaction)
      else if text_eqb t (t_ "Value") then inl (SKAtom KValue)
      else if text_eqb t (t_ "Macro") then inl (SKAtom KMacro)
      else inr (NoMatch (sloc s) (t_ "<kind>"))
    | _ => inr (NoMatch (sloc s) (t_ "<kind>"))
    end
  end.

(** syntax/types.rs:8-15 [Type]. *)
Inductive stype := STFun (args : list sexp) (ret : sexp) | STTuple (ts : list sexp) | STUnit | STUse (u : suse) | STApp (callee : sexp) (args : list sexp).
(** [s.matches::<(m::Any, m::Rest<m::Any>)>()] *)
Definition as_apply (s : sexp) : option (sexp * list sexp) :=
  match rep s with RList (a :: args) => Some (a, args) | _ => None end.
(** The second part of syntax/types.rs:26-31. *)
Definition match_type_rest (s : sexp) : stype + error :=
  match as_use s with
  | Some (UName n) => if text_eqb (s_name n) (t_ "unit") then inl STUnit else inl (STUse (UName n))
  | Some u => inl (STUse u)
  | None => match as_apply s with Some (a, args) => inl (STApp a args) | None => inr (NoMatch (sloc s) (t_ "<type>")) end
  end.
(** syntax/types.rs:17-38, 43-65, 68-86, 89-108. *)
Definition match_type (s : sexp) : stype + error :=
  match as_form s with
  | Some (h, rest) =>
    if text_eqb h (t_ "->") then
      match split_last rest with Some (args, r) => inl (STFun args r) | None => inr (NoMatch (sloc s) (t_ "(-> <arg> ... <ret>)")) end
    else if text_eqb h (t_ ":") then inl (STTuple rest)
    else match_type_rest s
  | None => match_type_rest s
  end.

(** syntax/types.rs:111-130 [Constraint], with [Parameterizable] (syntax.rs:126-152). *)
Record sconstr := { scn_loc : srcloc; scn_target : suse; scn_args : option (list sexp) }.
Definition as_parameterized (s : sexp) : option (suse * option (list sexp)) :=
  match as_use s with
  | Some u => Some (u, None)
  | None => match as_apply s with
            | Some (a, args) => match as_use a with Some u => Some (u, Some args) | None => None end
            | None => None
            end
  end.
Definition match_constr (s : sexp) : option sconstr :=
  match as_parameterized s with Some (u, args) => Some {| scn_loc := sloc s; scn_target := u; scn_args := args |} | None => None end.
(** syntax/types.rs:135-155 [TypeParameter]. *)
Record stparam := { stp_name : symbol; stp_kind : option sexp }.
Definition match_tparam (s : sexp) : option stparam :=
  match as_name s with
  | Some n => Some {| stp_name := n; stp_kind := None |}
  | None => match rep s with
            | RList [a; k] => match as_name a with Some n => Some {| stp_name := n; stp_kind := Some k |} | None => None end
            | _ => None
            end
  end.
(** syntax/types.rs:160-177 [Scheme]. *)
Record sscheme := { ss_params : list stparam; ss_constrs : list sconstr; ss_body : sexp }.
(** matcher.rs:51-63 [match_first] and [match_last] for syntax/types.rs:203-228 [Forall] and 231-256
    [Where]: [None] is an error. *)
Definition take_forall (ls : list sexp) : option (list stparam * list sexp) :=
  match ls with
  | f :: rest =>
    match as_form f with
    | Some (h, ps) => if text_eqb h (t_ "forall") then match all_some match_tparam ps with Some ps => Some (ps, rest) | None => None end else Some ([], ls)
    | None => Some ([], ls)
    end
  | [] => Some ([], ls)
  end.
Definition take_where (ls : list sexp) : option (list sexp * list sconstr) :=
  match split_last ls with
  | Some (init, w) =>
    match as_form w with
    | Some (h, cs) => if text_eqb h (t_ "where") then match all_some match_constr cs with Some cs => Some (init, cs) | None => None end else Some (ls, [])
    | None => Some (ls, [])
    end
  | None => Some (ls, [])
  end.
(** syntax/types.rs:179-200. Simplification: which error it gives is left out, since every use replaces
    it by its own. *)
Definition match_scheme (ls : list sexp) : option sscheme :=
  match take_forall ls with
  | Some (ps, ls) =>
    match take_where ls with
    | Some ([body], cs) => Some {| ss_params := ps; ss_constrs := cs; ss_body := body |}
    | _ => None
    end
  | None => None
  end.

(** syntax/pattern.rs:8-16 [Pattern]. *)
Inductive spattern := SPConst (s : sexp) | SPVar (n : symbol) (as_pat : option sexp) | SPTuple (ps : list sexp) | SPUnit
| SPDecon (u : suse) (fields : option (list sexp)) | SPWildcard.
(** The second part of syntax/pattern.rs:27-41, with 95-114. *)
Definition match_pattern_rest (s : sexp) : spattern + error :=
  match rep s with
  | RInteger _ _ | RFPNumber _ | RString _ | RChar _ | RBool _ => inl (SPConst s)
  | RSymbol t =>
    if text_eqb t (t_ "unit") then inl SPUnit else if text_eqb t (t_ "_") then inl SPWildcard
    else inl (SPDecon (UName (named (sloc s) t)) None)
  | RList _ | RNative _ =>
    match as_parameterized s with Some (u, args) => inl (SPDecon u args) | None => inr (NoMatch (sloc s) (t_ "<<con> or (<con> <field> ...)>")) end
  | RListLike _ _ _ => inr (NoMatch (sloc s) (t_ "<pattern>"))
  end.
(** syntax/pattern.rs:18-46, 51-71, 74-92. *)
Definition match_pattern (s : sexp) : spattern + error :=
  match as_form s with
  | Some (h, rest) =>
    if text_eqb h (t_ "let") then
      match rest with
      | [x] => match as_name x with Some n => inl (SPVar n None) | None => inr (NoMatch (sloc s) (t_ "<(let <name>) or (let <name> <as-pattern>)>")) end
      | [x; p] => match as_name x with Some n => inl (SPVar n (Some p)) | None => inr (NoMatch (sloc s) (t_ "<(let <name>) or (let <name> <as-pattern>)>")) end
      | _ => inr (NoMatch (sloc s) (t_ "<(let <name>) or (let <name> <as-pattern>)>"))
      end
    else if text_eqb h (t_ ":") then inl (SPTuple rest)
    else match_pattern_rest s
  | None => match_pattern_rest s
  end.

(** syntax/expr.rs:9-25 [Expr]. *)
Inductive sexpr := SEBegin (body : list sexp) | SELet (defs : list sexp) (body : list sexp) | SEIf (c t e : sexp) | SEWhile (c : sexp) (body : list sexp)
| SEMatch (t : sexp) (clauses : list sexp) | SEReturn (o : option sexp) | SETuple (es : list sexp) | SEUnit | SEUse (u : suse)
| SEApp (callee : sexp) (args : list sexp) | SEQuote (s : sexp) | SECapture (n : symbol) | SEAnnotate (l : srcloc) (e : sexp) (sc : sscheme)
| SELiteral (s : sexp).
(** The second part of syntax/expr.rs:46-58. *)
Definition match_expr_rest (s : sexp) : sexpr + error :=
  match as_use s with
  | Some (UName n) => if text_eqb (s_name n) (t_ "unit") then inl SEUnit else inl (SEUse (UName n))
  | Some u => inl (SEUse u)
  | None =>
    match as_apply s with
    | Some (a, args) => inl (SEApp a args)
    | None => match rep s with
              | RInteger _ _ | RFPNumber _ | RString _ | RChar _ | RBool _ => inl (SELiteral s)
              | _ => inr (NoMatch (sloc s) (t_ "<expr>"))
              end
    end
  end.
(** syntax/expr.rs:27-63, 68-111, 153-220, 247-286 and 311-370. *)
Definition match_expr (s : sexp) : sexpr + error :=
  match as_form s with
  | Some (h, rest) =>
    if text_eqb h (t_ "begin") then inl (SEBegin rest)
    else if text_eqb h (t_ "let") then
      match rest with Sexp _ (RList defs) :: body => inl (SELet defs body) | _ => inr (NoMatch (sloc s) (t_ "(let (<def> ...) <body> ...)")) end
    else if text_eqb h (t_ "if") then
      match rest with [c; t; e] => inl (SEIf c t e) | _ => inr (NoMatch (sloc s) (t_ "(if <cond> <then> <else>)")) end
    else if text_eqb h (t_ "while") then
      match rest with c :: body => inl (SEWhile c body) | [] => inr (NoMatch (sloc s) (t_ "(while <cond> <body> ...)")) end
    else if text_eqb h (t_ "match") then
      match rest with t :: clauses => inl (SEMatch t clauses) | [] => inr (NoMatch (sloc s) (t_ "(match <target> <clause> ...)")) end
    else if text_eqb h (t_ "return") then
      match rest with [] => inl (SEReturn None) | [a] => inl (SEReturn (Some a)) | _ => inr (NoMatch (sloc s) (t_ "(return <expr>?)")) end
    else if text_eqb h (t_ ":") then inl (SETuple rest)
    else if text_eqb h QUOTE then
      match rest with [a] => inl (SEQuote a) | _ => inr (NoMatch (sloc s) (t_ "'<expr>")) end
    else if text_eqb h CAPTURE then
      match rest with
      | [a] => match as_name a with Some n => inl (SECapture n) | None => inr (NoMatch (sloc s) (t_ "\symbol")) end
      | _ => inr (NoMatch (sloc s) (t_ "\symbol"))
      end
    else if text_eqb h ANNOTATE then
      match rest with
      | e :: ann => match match_scheme ann with Some sc => inl (SEAnnotate (sloc s) e sc) | None => inr (NoMatch (sloc s) (t_ "<expr> {<type>}")) end
      | [] => inr (NoMatch (sloc s) (t_ "<expr> {<type>}"))
      end
    else match_expr_rest s
  | None => match_expr_rest s
  end.

(** syntax/expr.rs:114-148 [LocalDef], with [Annotatable] (syntax.rs:97-124) and [Parameterizable]. *)
Record sdef := { sd_loc : srcloc; sd_name : symbol; sd_params : option (list symbol); sd_body : list sexp; sd_scheme : option sscheme }.
Definition as_header (s : sexp) : option (symbol * option (list symbol)) :=
  match as_name s with
  | Some n => Some (n, None)
  | None => match as_apply s with
            | Some (a, ps) => match as_name a, all_some as_name ps with Some n, Some ps => Some (n, Some ps) | _, _ => None end
            | None => None
            end
  end.
Definition as_annotated (s : sexp) : option (symbol * option (list symbol) * option sscheme) :=
  let plain := match as_header s with Some h => Some (h, None) | None => None end in
  match as_form s with
  | Some (k, body :: ann) =>
    if text_eqb k ANNOTATE then
      match as_header body, match_scheme ann with Some h, Some sc => Some (h, Some sc) | _, _ => None end
    else plain
  | _ => plain
  end.
Definition match_def (s : sexp) : sdef + error :=
  match as_apply s with
  | Some (a, body) =>
    match as_annotated a with
    | Some (n, ps, sc) => inl {| sd_loc := sloc s; sd_name := n; sd_params := ps; sd_body := body; sd_scheme := sc |}
    | None => inr (NoMatch (sloc s) (t_ "<def>"))
    end
  | None => inr (NoMatch (sloc s) (t_ "<def>"))
  end.
(** syntax/expr.rs:223-242 [MatchClause]. *)
Definition match_clause (s : sexp) : (sexp * list sexp) + error :=
  match as_apply s with Some x => inl x | None => inr (NoMatch (sloc s) (t_ "(<pattern> <body> ...)")) end.

(** ast.rs [Const]: a literal, or a quoted S-expression. *)
Inductive constant := Literal (r : srep) | Quoted (s : sexp).

(** What the builder reaches outside of itself. *)
Record world := {
  variant_of : N -> variant;              (** which variant a construct is *)
  top : text -> option N;                 (** the top level of the module, ast_builder.rs:126 *)
  native : text -> option N;              (** the construct inside a native value, if it holds one *)
  own : N -> bool;                        (** is it a construct of this module, ast_builder.rs:129 *)
  execute : N -> sexp -> sexp + text;     (** [External::execute_macro] *)
  number : constant -> N;                 (** the constants, numbered as in Verif.Resolve *)
  tuple_con : nat -> N; tuple_type : nat -> N; fun_type : nat -> N; bool_con : bool -> N  (** builtin.rs *)
}.

Section Builder.
Variable W : world.

Definition is_macro (c : N) : bool := match variant_of W c with VMacro => true | _ => false end.
(** ast_builder.rs:124-128 with syntax.rs:154-174 [MacroApply]. *)
Definition callee_of (s : sexp) : option (srcloc * N) :=
  match as_apply s with
  | Some (a, _) =>
    match as_use a with
    | Some (UName n) => match top W (s_name n) with Some c => Some (s_loc n, c) | None => None end
    | Some (UNative l t) => match native W t with Some c => Some (l, c) | None => None end
    | None => None
    end
  | None => None
  end.
(** ast_builder.rs:122-145 [expand_macro]. *)
Fixpoint expand (n : nat) (s : sexp) : M sexp :=
  match n with
  | O => tired
  | S n =>
    match callee_of s with
    | Some (l, c) =>
      if is_macro c then
        if own W c then refuse (MacroOfThisModule l)
        else match execute W c s with
             | inl s => expand n s
             | inr e => refuse (MacroFailed (sloc s) e)
             end
      else ret s
    | None => ret s
    end
  end.

(** builtin.rs:16, 42-67: the assertion on the size of what is variadic. *)
Definition sized (f : nat -> N) (n : nat) : M N := if Nat.leb n 16 then ret (f n) else panic.

(** ast_builder.rs:778-801 (and 771-776, whose id belongs to the annotation). *)
Fixpoint build_kind (n : nat) (s : sexp) : M kind :=
  match n with
  | O => tired
  | S n =>
    andthen (expand n s) (fun s => andthen (lift (match_kind s)) (fun v =>
    match v with
    | SKFun args r => andthen (all (build_kind n) args) (fun args => andthen (build_kind n r) (fun r => ret (KFun args r)))
    | SKAtom k => ret k
    end))
  end.
Definition build_kind_ann (n : nat) (s : sexp) : M kind := andthen (build_kind n s) (fun k => andthen next (fun _ => ret k)).

(** ast_builder.rs:676-722, with ast/types.rs:122-140. *)
Fixpoint build_type (n : nat) (s : sexp) : M ty :=
  match n with
  | O => tired
  | S n =>
    andthen (expand n s) (fun s => andthen (lift (match_type s)) (fun v =>
    match v with
    | STFun args r => andthen (all (build_type n) args) (fun args => andthen (build_type n r) (fun r =>
        andthen (sized (fun_type W) (List.length args)) (fun c => ret (TApp (TCon c) (args ++ [r])))))
    | STTuple ts => andthen (all (build_type n) ts) (fun ts =>
        andthen (sized (tuple_type W) (List.length ts)) (fun c => ret (match ts with [] => TCon c | _ => TApp (TCon c) ts end)))
    | STUnit => ret (TCon (tuple_type W 0))
    | STUse (UName x) => andthen next (fun _ => ret (TUse x))
    | STUse (UNative l t) =>
      match native W t with
      | Some c => if is_type_con (variant_of W c) then ret (TCon c) else refuse (NotResolved l (t_ "type"))
      | None => panic
      end
    | STApp callee args => andthen (build_type n callee) (fun callee => andthen (all (build_type n) args) (fun args => ret (TApp callee args)))
    end))
  end.

(** The common part of ast_builder.rs:641-656 and 726-738. *)
Definition build_use (what : text) (fits : variant -> bool) (u : suse) : M use :=
  match u with
  | UName x => andthen next (fun _ => ret (Unres x))
  | UNative l t =>
    match native W t with
    | Some c => if fits (variant_of W c) then ret (Res c) else refuse (NotResolved l what)
    | None => panic
    end
  end.
(** ast_builder.rs:724-747. *)
Definition build_constr (n : nat) (k : sconstr) : M constr :=
  andthen (build_use (t_ "class") is_class (scn_target k)) (fun u =>
  andthen (all (build_type n) (match scn_args k with Some args => args | None => [] end)) (fun args =>
  andthen next (fun _ => ret {| k_class := u; k_args := args |}))).
(** ast_builder.rs:749-757. *)
Definition build_tparam (n : nat) (p : stparam) : M typaram :=
  andthen (opt (build_kind_ann n) (stp_kind p)) (fun k => andthen (declare (stp_name p)) (fun b => ret {| tp_binder := b; tp_ann := k |})).
(** ast_builder.rs:759-769. *)
Definition build_scheme (n : nat) (s : sscheme) : M scheme :=
  andthen (all (build_tparam n) (ss_params s)) (fun ps =>
  andthen (all (build_constr n) (ss_constrs s)) (fun cs =>
  andthen (build_type n (ss_body s)) (fun t =>
  andthen next (fun _ => ret {| sc_params := ps; sc_constrs := cs; sc_body := t |})))).
(** ast.rs:97-99. *)
Definition is_monomorphic (s : scheme) : bool :=
  match sc_params s, sc_constrs s with [], [] => true | _, _ => false end.

(** ast_builder.rs:612-664, with 600-610 for constants, and ast/pattern.rs:84-89. *)
Fixpoint build_pattern (n : nat) (s : sexp) : M pattern :=
  match n with
  | O => tired
  | S n =>
    andthen (expand n s) (fun s => andthen (lift (match_pattern s)) (fun v => andthen
    match v with
    | SPConst s => match rep s with
                   | RBool b => ret (PDecon (Res (bool_con W b)) None)
                   | r => ret (PConst (number W (Literal r)))
                   end
    | SPVar x o => andthen (declare x) (fun b => andthen (opt (build_pattern n) o) (fun o => ret (PVar b o)))
    | SPTuple ps => andthen (all (build_pattern n) ps) (fun ps =>
        andthen (sized (tuple_con W) (List.length ps)) (fun c => ret (PDecon (Res c) (match ps with [] => None | _ => Some ps end))))
    | SPUnit => ret (PDecon (Res (tuple_con W 0)) None)
    | SPDecon u fields => andthen (build_use (t_ "constructor") is_value_con u) (fun u =>
        andthen (opt (all (build_pattern n)) fields) (fun fields => ret (PDecon u fields)))
    | SPWildcard => ret PWildcard
    end (fun p => andthen next (fun _ => ret p))))
  end.

(** ast/expr.rs:233-238. *)
Definition is_static (v : variant) : bool :=
  match v with VFunction | VCFunction | VBuiltinOp | VClassMethod => true | _ => false end.

Section Bodies.
Variable build_expr : sexp -> M expr.
(** ast_builder.rs:437-452. The id of the only expression of a body is given out and dropped. *)
Definition build_body (ss : list sexp) : M expr :=
  match ss with
  | [] => ret (ECon (tuple_con W 0))
  | [s] => build_expr s
  | _ => match split_last ss with
         | Some (ss, s) => andthen (all build_expr ss) (fun es => andthen (build_expr s) (fun e => ret (ESeq es e)))
         | None => panic
         end
  end.
(** ast_builder.rs:430-435. *)
Definition build_block (ss : list sexp) : M expr := andthen (build_body ss) (fun e => andthen next (fun _ => ret e)).
(** ast_builder.rs:561-598. *)
Definition build_def (n : nat) (s : sexp) : M def :=
  andthen (lift (match_def s)) (fun d =>
  andthen (opt (all declare) (sd_params d)) (fun ps =>
  andthen (opt (build_scheme n) (sd_scheme d)) (fun sc =>
  andthen (build_block (sd_body d)) (fun e =>
  match ps with
  | Some ps => andthen (declare (sd_name d)) (fun b => ret (DFun b sc ps e))
  | None =>
    match sc with
    | Some sc =>
      if is_monomorphic sc then andthen (declare (sd_name d)) (fun b => ret (DVar b (Some (sc_body sc)) e))
      else refuse (CannotGeneralize (sd_loc d))
    | None => andthen (declare (sd_name d)) (fun b => ret (DVar b None e))
    end
  end)))).
(** ast_builder.rs:666-674. *)
Definition build_clause (n : nat) (s : sexp) : M (pattern * expr) :=
  andthen (expand n s) (fun s => andthen (lift (match_clause s)) (fun v =>
  andthen (build_pattern n (fst v)) (fun p => andthen (build_block (snd v)) (fun e => ret (p, e))))).
End Bodies.

(** ast_builder.rs:454-559. *)
Fixpoint build_expr (n : nat) (s : sexp) : M expr :=
  match n with
  | O => tired
  | S n =>
    andthen (expand n s) (fun s => andthen (lift (match_expr s)) (fun v => andthen
    match v with
    | SEBegin body => build_body (build_expr n) body
    | SELet defs body => andthen (all (build_def (build_expr n) n) defs) (fun ds => andthen (build_block (build_expr n) body) (fun e => ret (ELet ds e)))
    | SEIf c t e => andthen (build_expr n c) (fun c => andthen (build_expr n t) (fun t => andthen (build_expr n e) (fun e => ret (EIf c t e))))
    | SEWhile c body => andthen (build_expr n c) (fun c => andthen (build_block (build_expr n) body) (fun e => ret (EWhile c e)))
    | SEMatch t cs => andthen (build_expr n t) (fun t => andthen (all (build_clause (build_expr n) n) cs) (fun cs => ret (EMatch t cs)))
    | SEReturn o => andthen (opt (build_expr n) o) (fun o => ret (EReturn o))
    | SETuple [] => ret (ECon (tuple_con W 0))
    | SETuple es => andthen (sized (tuple_con W) (List.length es)) (fun c => andthen next (fun _ =>
        andthen (all (build_expr n) es) (fun es => ret (EApp (ECon c) es))))
    | SEUnit => ret (ECon (tuple_con W 0))
    | SEUse (UName x) => andthen next (fun _ => ret (EUse (Unres x)))
    | SEUse (UNative l t) =>
      match native W t with
      | Some c =>
        if is_value (variant_of W c) then if is_static (variant_of W c) then ret (EUse (Res c)) else refuse (NotResolved l (t_ "value"))
        else if is_value_con (variant_of W c) then ret (ECon c) else refuse (NotResolved l (t_ "value"))
      | None => panic
      end
    | SEApp callee args => andthen (build_expr n callee) (fun callee => andthen (all (build_expr n) args) (fun args => ret (EApp callee args)))
    | SEQuote s => ret (EConst (number W (Quoted s)))
    | SECapture x => andthen next (fun _ => ret (ECapture (Unres x)))
    | SEAnnotate l e sc => andthen (build_expr n e) (fun e => andthen (build_scheme n sc) (fun sc =>
        if is_monomorphic sc then ret (EAnnotate e (sc_body sc)) else refuse (CannotGeneralize l)))
    | SELiteral s => match rep s with
                     | RBool b => ret (ECon (bool_con W b))
                     | r => ret (EConst (number W (Literal r)))
                     end
    end (fun e => andthen next (fun _ => ret e))))
  end.
End Builder.

(** Declarations: the matches of llrl0/src/syntax/decl.rs and their [Build] in
    llrl0/src/module/sema/ast_builder.rs, for functions, C functions, builtin operations, macros, data
    types, builtin types, classes, instances, imports, exports and expressions at the top. What imports and exports name is read by
    another part of the compiler; [begin] is read by [define] below. *)
From Verif.Base Require Import Base.
From Verif.Sexp Require Import Model.
From Verif.Syntax Require Import Model.

(** ast/decl.rs: what is declared, with its name. The fields of constructors have no names. *)
Inductive data_repr := ReprDefault | ReprValue | ReprC.
(** ast/decl.rs: the methods of classes and instances. *)
Record cmethod := { cm_transparent : bool; cm_binder : binder; cm_params : option (list binder); cm_ann : scheme; cm_body : option expr }.
Record imethod := { im_transparent : bool; im_binder : binder; im_params : option (list binder); im_ann : option scheme; im_body : expr; im_of : use }.
Inductive decl :=
| DeFunction (transparent : bool) (b : binder) (params : option (list binder)) (ann : option scheme) (body : expr)
| DeCFunction (b : binder) (t : ty) (c_name : text)
| DeBuiltinOp (b : binder) (ann : scheme) (builtin_name : text)
| DeMacro (b : binder) (param : binder) (body : expr)
| DeData (r : data_repr) (b : binder) (params : list typaram) (ctors : list (binder * option (list ty)))
| DeBuiltinType (b : binder) (params : list typaram) (builtin_name : text) (ctors : list (binder * option (list ty) * text))
| DeClass (sealed : bool) (b : binder) (params : list typaram) (supers : list constr) (methods : list cmethod)
| DeInstance (b : binder) (params : list typaram) (given : list constr) (target : constr) (methods : list imethod)
| DeExpr (e : expr)
| DeImport (path : text) (targets : list sexp)
| DeExport (targets : list sexp)
| DeNoStd.

(** syntax/decl.rs:9-23 [Decl]. *)
Inductive sdecl :=
| SDFunction (transparent : bool) (d : sdef)
| SDCFunction (l : srcloc) (x : symbol) (sc : sscheme) (c_name : text)
| SDBuiltinOp (x : symbol) (sc : sscheme) (builtin_name : text)
| SDMacro (x p : symbol) (body : list sexp)
| SDData (r : data_repr) (x : symbol) (params : list stparam) (ctors : list sexp)
| SDBuiltinType (x : symbol) (params : list stparam) (builtin_name : text) (ctors : list sexp)
| SDClass (sealed : bool) (x : symbol) (params : list stparam) (supers : list sconstr) (methods : list sexp)
| SDInstance (x : symbol) (params : list stparam) (given : list sconstr) (target : sconstr) (methods : list sexp)
| SDExpr (s : sexp)
| SDImport (path : text) (targets : list sexp)
| SDExport (targets : list sexp)
| SDNoStd
| SDOther.

(** syntax/decl.rs:154-197 [Function], after its first word. *)
Definition match_function (l : srcloc) (rest : list sexp) : option sdef :=
  match rest with
  | a :: body =>
    match as_annotated a with
    | Some (n, ps, sc) => Some {| sd_loc := l; sd_name := n; sd_params := ps; sd_body := body; sd_scheme := sc |}
    | None => None
    end
  | [] => None
  end.
(** syntax/decl.rs:202-228 [CFunction] and 233-259 [BuiltinOp], after their first word. *)
Definition match_foreign (rest : list sexp) : option (symbol * sscheme * text) :=
  match rest with
  | [a; Sexp _ (RString name)] =>
    match as_form a with
    | Some (k, x :: ann) =>
      if text_eqb k ANNOTATE then match as_name x, match_scheme ann with Some n, Some sc => Some (n, sc, name) | _, _ => None end else None
    | _ => None
    end
  | _ => None
  end.
(** syntax/decl.rs:264-284 [Macro], after its first word. *)
Definition match_macro (rest : list sexp) : option (symbol * symbol * list sexp) :=
  match rest with
  | Sexp _ (RList [x; p]) :: body => match as_name x, as_name p with Some x, Some p => Some (x, p, body) | _, _ => None end
  | _ => None
  end.
(** syntax/decl.rs:289-324 [Data], after its first word; [Parameterizable] (syntax.rs:126-152). *)
Definition as_type_header (s : sexp) : option (symbol * list stparam) :=
  match as_name s with
  | Some n => Some (n, [])
  | None => match as_apply s with
            | Some (a, ps) => match as_name a, all_some match_tparam ps with Some n, Some ps => Some (n, ps) | _, _ => None end
            | None => None
            end
  end.
Definition match_data (rest : list sexp) : option (symbol * list stparam * list sexp) :=
  match rest with
  | a :: cs => match as_type_header a with Some (n, ps) => Some (n, ps, cs) | None => None end
  | [] => None
  end.
(** syntax/decl.rs:336-355 [DataValueConstructor]. *)
Definition match_con (s : sexp) : (symbol * option (list sexp)) + error :=
  let no := inr (NoMatch (sloc s) (t_ "<<con-name> or (<con-name> <field-ty> ...)>")) in
  match as_name s with
  | Some n => inl (n, None)
  | None => match as_apply s with
            | Some (a, fields) => match as_name a with Some n => inl (n, Some fields) | None => no end
            | None => no
            end
  end.
(** syntax/decl.rs:360-396 [BuiltinType], after its first word. *)
Definition match_builtin_type (rest : list sexp) : option (symbol * list stparam * text * list sexp) :=
  match rest with
  | a :: Sexp _ (RString name) :: cs => match as_type_header a with Some (n, ps) => Some (n, ps, name, cs) | None => None end
  | _ => None
  end.
(** syntax/decl.rs:401-423 [BuiltinValueConstructor]. *)
Definition match_builtin_con (s : sexp) : (symbol * option (list sexp) * text) + error :=
  match rep s with
  | RList [a; Sexp _ (RString name)] => match match_con a with inl v => inl (v, name) | inr e => inr e end
  | _ => inr (NoMatch (sloc s) (t_ "builtin constructor"))
  end.
(** matcher.rs:51-56 [match_first] for syntax/types.rs:231-256 [Where]: [None] is an error. *)
Definition take_where_first (ls : list sexp) : option (list sconstr * list sexp) :=
  match ls with
  | f :: rest =>
    match as_form f with
    | Some (h, cs) => if text_eqb h (t_ "where") then match all_some match_constr cs with Some cs => Some (cs, rest) | None => None end else Some ([], ls)
    | None => Some ([], ls)
    end
  | [] => Some ([], ls)
  end.
(** syntax/decl.rs:428-474 [Class], after its first word. *)
Definition match_class (rest : list sexp) : option (symbol * list stparam * list sconstr * list sexp) :=
  match rest with
  | a :: ls => match as_type_header a, take_where_first ls with Some (n, ps), Some (ks, ms) => Some (n, ps, ks, ms) | _, _ => None end
  | [] => None
  end.
(** syntax/decl.rs:479-521 [Instance], after its first word. *)
Definition match_instance (rest : list sexp) : option (symbol * list stparam * list sconstr * sconstr * list sexp) :=
  match rest with
  | x :: ls =>
    match as_name x, take_forall ls with
    | Some n, Some (ps, t :: ls) => match match_constr t, take_where_first ls with Some k, Some (ks, ms) => Some (n, ps, ks, k, ms) | _, _ => None end
    | _, _ => None
    end
  | [] => None
  end.
(** syntax/decl.rs:154-197 [Function], as a method. *)
Definition match_method (s : sexp) : (bool * sdef) + error :=
  let or_fail (o : option sdef) (tr : bool) := match o with Some d => inl (tr, d) | None => inr (NoMatch (sloc s) (t_ "function")) end in
  match as_form s with
  | Some (h, rest) =>
    if text_eqb h (t_ "function") then or_fail (match_function (sloc s) rest) false
    else if text_eqb h (t_ "transparent-function") then or_fail (match_function (sloc s) rest) true
    else or_fail None false
  | None => or_fail None false
  end.
(** syntax/decl.rs:76-98 [Import], after its first word. *)
Definition match_import (rest : list sexp) : option (text * list sexp) :=
  match rest with Sexp _ (RString path) :: targets => Some (path, targets) | _ => None end.
(** The first word of what is no single declaration. *)
Definition other_words := map t_ ["begin"]%string.
(** syntax/decl.rs:25-53. Simplification: the texts of the errors are shortened, and errors inside
    [Forall] and [Where] are given the place of the declaration. *)
Definition match_decl (s : sexp) : sdecl + error :=
  let or_fail {A} (o : option A) (f : A -> sdecl) := match o with Some a => inl (f a) | None => inr (NoMatch (sloc s) (t_ "<declaration>")) end in
  match as_form s with
  | Some (h, rest) =>
    if text_eqb h (t_ "function") then or_fail (match_function (sloc s) rest) (SDFunction false)
    else if text_eqb h (t_ "transparent-function") then or_fail (match_function (sloc s) rest) (SDFunction true)
    else if text_eqb h (t_ "c-function") then or_fail (match_foreign rest) (fun x => let '(n, sc, c) := x in SDCFunction (sloc s) n sc c)
    else if text_eqb h (t_ "builtin-op") then or_fail (match_foreign rest) (fun x => let '(n, sc, c) := x in SDBuiltinOp n sc c)
    else if text_eqb h (t_ "macro") then or_fail (match_macro rest) (fun x => let '(n, p, body) := x in SDMacro n p body)
    else if text_eqb h (t_ "data") then or_fail (match_data rest) (fun x => let '(n, ps, cs) := x in SDData ReprDefault n ps cs)
    else if text_eqb h (t_ "value-data") then or_fail (match_data rest) (fun x => let '(n, ps, cs) := x in SDData ReprValue n ps cs)
    else if text_eqb h (t_ "c-data") then or_fail (match_data rest) (fun x => let '(n, ps, cs) := x in SDData ReprC n ps cs)
    else if text_eqb h (t_ "builtin-type") then or_fail (match_builtin_type rest) (fun x => let '(n, ps, name, cs) := x in SDBuiltinType n ps name cs)
    else if text_eqb h (t_ "class") then or_fail (match_class rest) (fun x => let '(n, ps, ks, ms) := x in SDClass false n ps ks ms)
    else if text_eqb h (t_ "sealed-class") then or_fail (match_class rest) (fun x => let '(n, ps, ks, ms) := x in SDClass true n ps ks ms)
    else if text_eqb h (t_ "instance") then or_fail (match_instance rest) (fun x => let '(n, ps, ks, k, ms) := x in SDInstance n ps ks k ms)
    else if text_eqb h (t_ "import") then or_fail (match_import rest) (fun x => let '(path, ts) := x in SDImport path ts)
    else if text_eqb h (t_ "export") then inl (SDExport rest)
    else if existsb (text_eqb h) other_words then inl SDOther
    else if text_eqb h (t_ "no-implicit-std") then match rest with [] => inl SDNoStd | _ => inl (SDExpr s) end
    else inl (SDExpr s)
  | None => inl (SDExpr s)
  end.

Section Builder.
Variable W : world.

(** ast_builder.rs:322-330. *)
Definition build_field (n : nat) (s : sexp) : M ty := andthen (build_type W n s) (fun t => andthen next (fun _ => ret t)).
(** ast_builder.rs:270-284. *)
Definition build_con (n : nat) (s : sexp) : M (binder * option (list ty)) :=
  andthen (lift (match_con s)) (fun v =>
  andthen (opt (all (build_field n)) (snd v)) (fun fields =>
  andthen (declare (fst v)) (fun b => ret (b, fields)))).
(** ast_builder.rs:303-316. *)
Definition build_builtin_con (n : nat) (s : sexp) : M (binder * option (list ty) * text) :=
  andthen (lift (match_builtin_con s)) (fun v =>
  andthen (opt (all (build_field n)) (snd (fst v))) (fun fields =>
  andthen (declare (fst (fst v))) (fun b => ret (b, fields, snd v)))).
(** ast_builder.rs:353-361. *)
Definition build_default (n : nat) (body : list sexp) : M (option expr) :=
  match body with [] => ret None | _ => andthen (build_block W (build_expr W n) body) (fun e => ret (Some e)) end.
(** ast_builder.rs:347-371. *)
Definition build_cmethod (n : nat) (s : sexp) : M cmethod :=
  andthen (lift (match_method s)) (fun v => let (tr, d) := v in
  match sd_scheme d with
  | Some sc =>
    andthen (build_scheme W n sc) (fun sc =>
    andthen (opt (all declare) (sd_params d)) (fun ps =>
    andthen (build_default n (sd_body d)) (fun o =>
    andthen (declare (sd_name d)) (fun b => ret {| cm_transparent := tr; cm_binder := b; cm_params := ps; cm_ann := sc; cm_body := o |}))))
  | None => refuse (MethodWithoutType (sd_loc d))
  end).
(** ast_builder.rs:395-416. *)
Definition build_imethod (n : nat) (s : sexp) : M imethod :=
  andthen (lift (match_method s)) (fun v => let (tr, d) := v in
  andthen (opt (all declare) (sd_params d)) (fun ps =>
  andthen (opt (build_scheme W n) (sd_scheme d)) (fun sc =>
  andthen (build_block W (build_expr W n) (sd_body d)) (fun e =>
  andthen next (fun _ =>
  andthen (declare (sd_name d)) (fun b =>
  ret {| im_transparent := tr; im_binder := b; im_params := ps; im_ann := sc; im_body := e; im_of := Unres (sd_name d) |})))))).
(** ast_builder.rs:20-83 [define], with 197-420: the part that builds. *)
Definition build_decl (n : nat) (s : sexp) : M decl :=
  andthen (expand W n s) (fun s => andthen (lift (match_decl s)) (fun v =>
  match v with
  | SDFunction tr d =>
    andthen (opt (all declare) (sd_params d)) (fun ps =>
    andthen (opt (build_scheme W n) (sd_scheme d)) (fun sc =>
    andthen (build_block W (build_expr W n) (sd_body d)) (fun e =>
    andthen (declare (sd_name d)) (fun b => ret (DeFunction tr b ps sc e)))))
  | SDCFunction l x sc name =>
    andthen (build_scheme W n sc) (fun sc =>
    if is_monomorphic sc then andthen (declare x) (fun b => ret (DeCFunction b (sc_body sc) name)) else refuse (CannotGeneralize l))
  | SDBuiltinOp x sc name => andthen (build_scheme W n sc) (fun sc => andthen (declare x) (fun b => ret (DeBuiltinOp b sc name)))
  | SDMacro x p body =>
    andthen (declare p) (fun p => andthen (build_block W (build_expr W n) body) (fun e => andthen (declare x) (fun b => ret (DeMacro b p e))))
  | SDData r x ps cs =>
    andthen (all (build_tparam W n) ps) (fun ps => andthen (declare x) (fun b => andthen (all (build_con n) cs) (fun cs => ret (DeData r b ps cs))))
  | SDBuiltinType x ps name cs =>
    andthen (all (build_tparam W n) ps) (fun ps => andthen (declare x) (fun b => andthen (all (build_builtin_con n) cs) (fun cs => ret (DeBuiltinType b ps name cs))))
  | SDClass sealed x ps ks ms =>
    andthen (all (build_tparam W n) ps) (fun ps => andthen (all (build_constr W n) ks) (fun ks => andthen next (fun _ => andthen (declare x) (fun b =>
    andthen (all (build_cmethod n) ms) (fun ms => ret (DeClass sealed b ps ks ms))))))
  | SDInstance x ps ks k ms =>
    andthen (all (build_tparam W n) ps) (fun ps => andthen (all (build_constr W n) ks) (fun ks => andthen (build_constr W n k) (fun k => andthen (declare x) (fun b =>
    andthen (all (build_imethod n) ms) (fun ms => ret (DeInstance b ps ks k ms))))))
  | SDExpr s => andthen (build_expr W n s) (fun e => ret (DeExpr e))
  | SDImport path ts => ret (DeImport path ts)
  | SDExport ts => ret (DeExport ts)
  | SDNoStd => ret DeNoStd
  | SDOther => tired
  end)).
(** [(begin decl ...)] *)
Definition as_begin (s : sexp) : option (list sexp) :=
  match as_form s with Some (h, rest) => if text_eqb h (t_ "begin") then Some rest else None | None => None end.
(** ast_builder.rs:20-83 [define], with [Begin] (lines 71-75): all that an S-expression declares, in order.
    Simplification: macros are expanded a second time where it is no [begin], which changes nothing;
    the code adds each declaration to the module instead of making a list. *)
Fixpoint define (n : nat) (s : sexp) : M (list decl) :=
  match n with
  | O => tired
  | S n' =>
    andthen (expand W n s) (fun s =>
    match as_begin s with
    | Some ss => andthen (all (define n') ss) (fun dss => ret (List.concat dss))
    | None => andthen (build_decl n s) (fun d => ret [d])
    end)
  end.
End Builder.

(** Model of llrl0/src/module/sema/resolver.rs: every name written in a module is replaced by the
    construct it stands for. Throughout: the symbol of a node, which the code looks up in its symbol
    map, is stored in the node; ids of nodes that are never looked up are left out, as are the ids an
    [Annotation] carries. *)
From Verif.Base Require Import Base Assoc.
From Verif.Sexp Require Import Model.
From Verif.Scope Require Import Model.

(** module/meaning.rs:94-98 [Symbol]. *)
Record symbol := { s_loc : srcloc; s_name : text }.

(** ast/construct.rs:49-95, the variants of [Construct]. *)
Inductive variant :=
| VKindAnn | VKindUse | VTypeAnn | VSchemeAnn | VTypeUse | VTypeParameter | VConstraint | VClassConUse | VClassMethodUse
| VInstanceConUse | VExpr | VLocalVar | VLocalFun | VValueUse | VCapture | VPattern | VPatternVar | VValueConUse | VFunction
| VCFunction | VBuiltinOp | VMacro | VDataTypeCon | VDataValueCon | VBuiltinTypeCon | VBuiltinValueCon | VValueConField
| VClassCon | VClassMethod | VInstanceCon | VInstanceMethod | VParameter.

(** ast.rs:36-39 [Use]. The id of the use that was resolved is left out. *)
Inductive use := Unres (s : symbol) | Res (c : N).

(** A node that declares a name. *)
Record binder := { b_id : N; b_sym : symbol }.

(** ast/kind.rs:14-23. [Kind::Error], which is made by later phases only and on which the resolver
    panics, is left out; a use of a kind cannot be resolved, since [KindUse] has no values. *)
Inductive kind :=
| KUse (s : symbol)
| KType | KConstraint | KSatisfaction | KValue | KMacro
| KFun (args : list kind) (ret : kind).

(** ast/types.rs:11-17, 277, without [Type::Error] for the same reason. *)
Inductive ty :=
| TUse (s : symbol)
| TCon (c : N)
| TApp (callee : ty) (args : list ty)
| TGen (c : N).

(** ast/types.rs:404-425. *)
Record constr := { k_class : use; k_args : list ty }.
Record typaram := { tp_binder : binder; tp_ann : option kind }.
Record scheme := { sc_params : list typaram; sc_constrs : list constr; sc_body : ty }.

(** ast/pattern.rs:31-37, 60-70. Constants are numbered. *)
Inductive pattern :=
| PVar (b : binder) (as_pat : option pattern)
| PWildcard
| PDecon (u : use) (fields : option (list pattern))
| PConst (k : N).

(** ast/expr.rs [ExprRep], and its parts at 366-446. *)
Inductive expr :=
| EUse (u : use)
| ECon (c : N)
| EConst (k : N)
| EApp (callee : expr) (args : list expr)
| ECapture (u : use)
| EAnnotate (body : expr) (ann : ty)
| ELet (defs : list def) (body : expr)
| ESeq (stmts : list expr) (ret : expr)
| EIf (cond then_ else_ : expr)
| EWhile (cond body : expr)
| EMatch (target : expr) (clauses : list (pattern * expr))
| EReturn (e : option expr)
with def :=
| DVar (b : binder) (ann : option ty) (init : expr)
| DFun (b : binder) (ann : option scheme) (params : list binder) (body : expr).

(** ast/decl.rs. A constructor holds its value constructors, a class or an instance its methods,
    where the code holds their ids. Data and builtin type constructors differ by their ids only. *)
Record function := { f_id : N; f_params : option (list binder); f_ann : option scheme; f_body : expr }.
Record cfunction := { cf_id : N; cf_ann : ty }.
Record builtin_op := { bo_id : N; bo_ann : scheme }.
Record macro := { ma_id : N; ma_param : binder; ma_body : expr }.
Record value_con := { vc_id : N; vc_fields : option (list ty) }.
Record type_con := { tc_id : N; tc_params : list typaram; tc_cons : list value_con }.
Record class_method := { cm_id : N; cm_ann : scheme; cm_params : option (list binder); cm_default : option expr }.
Record class_con := { cl_id : N; cl_params : list typaram; cl_supers : list constr; cl_methods : list class_method }.
Record inst_method := { im_id : N; im_params : option (list binder); im_ann : option scheme; im_body : expr; im_class_method : use }.
Record inst_con := { in_id : N; in_sym : symbol; in_params : list typaram; in_constrs : list constr; in_target : constr; in_methods : list inst_method }.
Inductive init_expr := Eval (e : expr) | EnsureInitialized (m : N).
Record root := {
  r_functions : list function; r_c_functions : list cfunction; r_builtin_ops : list builtin_op; r_macros : list macro;
  r_data_types : list type_con; r_builtin_types : list type_con; r_classes : list class_con; r_instances : list inst_con;
  r_inits : list init_expr }.

(** module/error.rs, the errors of this part. *)
Inductive error :=
| Declared (e : Scope.Model.error)
| NotResolved (l : srcloc) (what name : text)
| ArityMismatch (expected actual : option nat) (m : N)
| SealedInstance (l : srcloc).
Inductive result A := Good (a : A) | Bad (e : error).
Arguments Good {A} a.
Arguments Bad {A} e.

Section Resolver.
(** Which variant a construct is, and the order in which a stash is drained. *)
Variable variant_of : N -> variant.
Variable order : stash -> stash.

Definition M A : Type := scopes -> outcome (scopes * result A).
Definition m_ret {A} (a : A) : M A := fun s => Ret (s, Good a).
Definition m_fail {A} (e : error) : M A := fun s => Ret (s, Bad e).
Definition m_bind {A B} (m : M A) (k : A -> M B) : M B := fun s =>
  let* (s, r) := m s in match r with Good a => k a s | Bad e => Ret (s, Bad e) end.

(** resolver.rs:135-151, [Resolve] of options and vectors. *)
Definition m_all {A B} (f : A -> M B) : list A -> M (list B) :=
  fix go l := match l with
  | [] => m_ret []
  | a :: l => m_bind (f a) (fun b => m_bind (go l) (fun bs => m_ret (b :: bs)))
  end.
Definition m_opt {A B} (f : A -> M B) (o : option A) : M (option B) :=
  match o with Some a => m_bind (f a) (fun b => m_ret (Some b)) | None => m_ret None end.

(** resolver.rs:80-89 [ContextImpl::get]. *)
Definition m_get (s : symbol) (what : text) : M N := fun sc =>
  let* (sc, r) := step order (Get (s_name s)) sc in
  match r with
  | Got (Some c) => Ret (sc, Good (construct c))
  | _ => Ret (sc, Bad (NotResolved (s_loc s) what (s_name s)))
  end.

(** resolver.rs:95-103 [ContextImpl::on]; the scope is left when the value it returns is dropped, or at
    an error. *)
Fixpoint defines (bs : list binder) (sc : scopes) : outcome (scopes * result unit) :=
  match bs with
  | [] => Ret (sc, Good tt)
  | b :: bs =>
    let* (sc, r) := step order (Define (s_name (b_sym b)) {| loc := s_loc (b_sym b); construct := b_id b |}) sc in
    match r with Failed e => Ret (sc, Bad (Declared e)) | _ => defines bs sc end
  end.
Definition m_on {A} (bs : list binder) (m : M A) : M A := fun sc =>
  let* (sc, _) := step order Enter sc in
  let* (sc, r) := m_bind (defines bs) (fun _ => m) sc in
  let* (sc, _) := step order Leave sc in
  Ret (sc, r).

(** resolver.rs:503-527 [Resolve for Kind]. *)
Fixpoint resolve_kind (k : kind) : M kind :=
  match k with
  | KUse s => m_bind (m_get s (t_ "kind")) (fun _ => m_fail (NotResolved (s_loc s) (t_ "kind") (s_name s)))
  | KFun args ret => m_bind (m_all resolve_kind args) (fun args => m_bind (resolve_kind ret) (fun ret => m_ret (KFun args ret)))
  | k => m_ret k
  end.

(** types.rs:360-369, expr.rs:289-305 and 354-363, construct.rs:35-44: [Construct::try_into]. *)
Definition is_type_con (v : variant) : bool := match v with VDataTypeCon | VBuiltinTypeCon => true | _ => false end.
Definition is_value (v : variant) : bool :=
  match v with
  | VFunction | VCFunction | VBuiltinOp | VClassMethod | VParameter | VLocalVar | VLocalFun | VPatternVar => true
  | _ => false
  end.
Definition is_value_con (v : variant) : bool := match v with VDataValueCon | VBuiltinValueCon => true | _ => false end.
Definition is_type_parameter (v : variant) : bool := match v with VTypeParameter => true | _ => false end.
Definition is_class (v : variant) : bool := match v with VClassCon => true | _ => false end.

(** resolver.rs:475-501 [Resolve for Type]. *)
Fixpoint resolve_ty (t : ty) : M ty :=
  match t with
  | TUse s => m_bind (m_get s (t_ "type")) (fun c =>
      if is_type_con (variant_of c) then m_ret (TCon c)
      else if is_type_parameter (variant_of c) then m_ret (TGen c)
      else m_fail (NotResolved (s_loc s) (t_ "type") (s_name s)))
  | TCon c => m_ret (TCon c)
  | TApp callee args => m_bind (resolve_ty callee) (fun callee => m_bind (m_all resolve_ty args) (fun args => m_ret (TApp callee args)))
  | TGen c => m_ret (TGen c)
  end.

(** The part common to resolver.rs:335-350 and 458-468: a use of one sort of constructs. *)
Definition resolve_use (what : text) (fits : variant -> bool) (u : use) : M use :=
  match u with
  | Unres s => m_bind (m_get s what) (fun c => if fits (variant_of c) then m_ret (Res c) else m_fail (NotResolved (s_loc s) what (s_name s)))
  | Res c => m_ret (Res c)
  end.

(** resolver.rs:335-350 [Resolve for Constraint]. *)
Definition resolve_constr (k : constr) : M constr :=
  m_bind (resolve_use (t_ "class") is_class (k_class k)) (fun c =>
  m_bind (m_all resolve_ty (k_args k)) (fun args => m_ret {| k_class := c; k_args := args |})).

(** resolver.rs:320-324 [Resolve for TypeParameter]. *)
Definition resolve_typaram (p : typaram) : M typaram :=
  m_bind (m_opt resolve_kind (tp_ann p)) (fun ann => m_ret {| tp_binder := tp_binder p; tp_ann := ann |}).

(** resolver.rs:326-333 [Resolve for Scheme], 602-606 its [Bind]. *)
Definition scheme_defs (s : scheme) : list binder := map tp_binder (sc_params s).
Definition resolve_scheme (s : scheme) : M scheme :=
  m_bind (m_all resolve_typaram (sc_params s)) (fun params =>
  m_on (map tp_binder params) (
    m_bind (m_all resolve_constr (sc_constrs s)) (fun constrs =>
    m_bind (resolve_ty (sc_body s)) (fun body =>
    m_ret {| sc_params := params; sc_constrs := constrs; sc_body := body |})))).
Definition ann_defs (o : option scheme) : list binder := match o with Some s => scheme_defs s | None => [] end.

(** resolver.rs:453-473 [Resolve for Pattern]. *)
Fixpoint resolve_pattern (p : pattern) : M pattern :=
  match p with
  | PVar b as_pat => m_bind (m_opt resolve_pattern as_pat) (fun as_pat => m_ret (PVar b as_pat))
  | PWildcard => m_ret PWildcard
  | PDecon u fields => m_bind (resolve_use (t_ "constructor") is_value_con u) (fun u =>
      m_bind (m_opt (m_all resolve_pattern) fields) (fun fields => m_ret (PDecon u fields)))
  | PConst k => m_ret (PConst k)
  end.
(** resolver.rs:617-624 [Bind for Pattern], pattern.rs:11-29 [Pattern::dfs]. *)
Fixpoint pattern_defs (p : pattern) : list binder :=
  match p with
  | PVar b as_pat => match as_pat with Some p => pattern_defs p | None => [] end ++ [b]
  | PDecon _ fields => match fields with Some ps => flat_map pattern_defs ps | None => [] end
  | _ => []
  end.

(** resolver.rs:584-594, 608-615 and expr.rs:378-400: what definitions declare. *)
Definition def_binder (d : def) : binder := match d with DVar b _ _ => b | DFun b _ _ _ => b end.
Definition local_functions (ds : list def) : list binder :=
  flat_map (fun d => match d with DFun b _ _ _ => [b] | DVar _ _ _ => [] end) ds.

(** resolver.rs:352-425 [Resolve for Expr], 427-442 [LocalVar] and [LocalFun]. *)
Fixpoint resolve_expr (e : expr) : M expr :=
  match e with
  | EUse (Unres s) => m_bind (m_get s (t_ "value")) (fun c =>
      if is_value (variant_of c) then m_ret (EUse (Res c))
      else if is_value_con (variant_of c) then m_ret (ECon c)
      else m_fail (NotResolved (s_loc s) (t_ "value") (s_name s)))
  | EUse (Res c) => m_ret (EUse (Res c))
  | ECon c => m_ret (ECon c)
  | EConst k => m_ret (EConst k)
  | EApp callee args => m_bind (resolve_expr callee) (fun callee => m_bind (m_all resolve_expr args) (fun args => m_ret (EApp callee args)))
  | ECapture (Unres s) => m_bind (m_get s (t_ "construct")) (fun c => m_ret (ECapture (Res c)))
  | ECapture (Res c) => m_ret (ECapture (Res c))
  | EAnnotate body ann => m_bind (resolve_expr body) (fun body => m_bind (resolve_ty ann) (fun ann => m_ret (EAnnotate body ann)))
  | ELet defs body =>
      m_bind (m_on (local_functions defs) (m_all resolve_def defs)) (fun defs =>
      m_on (map def_binder defs) (m_bind (resolve_expr body) (fun body => m_ret (ELet defs body))))
  | ESeq stmts ret => m_bind (m_all resolve_expr stmts) (fun stmts => m_bind (resolve_expr ret) (fun ret => m_ret (ESeq stmts ret)))
  | EIf c t e => m_bind (resolve_expr c) (fun c => m_bind (resolve_expr t) (fun t => m_bind (resolve_expr e) (fun e => m_ret (EIf c t e))))
  | EWhile c b => m_bind (resolve_expr c) (fun c => m_bind (resolve_expr b) (fun b => m_ret (EWhile c b)))
  | EMatch target clauses =>
      m_bind (resolve_expr target) (fun target =>
      m_bind (m_all (fun cl => let '(p, body) := cl in
        m_bind (resolve_pattern p) (fun p => m_on (pattern_defs p) (m_bind (resolve_expr body) (fun body => m_ret (p, body))))) clauses)
        (fun clauses => m_ret (EMatch target clauses)))
  | EReturn e => m_bind (m_opt resolve_expr e) (fun e => m_ret (EReturn e))
  end
with resolve_def (d : def) : M def :=
  match d with
  | DVar b ann init => m_bind (m_opt resolve_ty ann) (fun ann => m_bind (resolve_expr init) (fun init => m_ret (DVar b ann init)))
  | DFun b ann params body =>
      m_bind (m_opt resolve_scheme ann) (fun ann =>
      m_on (ann_defs ann) (m_on params (m_bind (resolve_expr body) (fun body => m_ret (DFun b ann params body)))))
  end.

Definition param_defs (o : option (list binder)) : list binder := match o with Some ps => ps | None => [] end.

(** resolver.rs:217-225 [Function], 227-237 [CFunction] and [BuiltinOp], 239-245 [Macro]. *)
Definition resolve_function (f : function) : M function :=
  m_bind (m_opt resolve_scheme (f_ann f)) (fun ann =>
  m_on (ann_defs ann) (m_on (param_defs (f_params f)) (m_bind (resolve_expr (f_body f)) (fun body =>
  m_ret {| f_id := f_id f; f_params := f_params f; f_ann := ann; f_body := body |})))).
Definition resolve_cfunction (f : cfunction) : M cfunction :=
  m_bind (resolve_ty (cf_ann f)) (fun ann => m_ret {| cf_id := cf_id f; cf_ann := ann |}).
Definition resolve_builtin_op (f : builtin_op) : M builtin_op :=
  m_bind (resolve_scheme (bo_ann f)) (fun ann => m_ret {| bo_id := bo_id f; bo_ann := ann |}).
Definition resolve_macro (m : macro) : M macro :=
  m_on [ma_param m] (m_bind (resolve_expr (ma_body m)) (fun body => m_ret {| ma_id := ma_id m; ma_param := ma_param m; ma_body := body |})).

(** resolver.rs:177-191, 247-275: a type constructor, then its value constructors below its
    parameters. *)
Definition resolve_value_con (v : value_con) : M value_con :=
  m_bind (m_opt (m_all resolve_ty) (vc_fields v)) (fun fields => m_ret {| vc_id := vc_id v; vc_fields := fields |}).
Definition resolve_type_con (t : type_con) : M type_con :=
  m_bind (m_all resolve_typaram (tc_params t)) (fun params =>
  m_on (map tp_binder params) (m_bind (m_all resolve_value_con (tc_cons t)) (fun cons =>
  m_ret {| tc_id := tc_id t; tc_params := params; tc_cons := cons |}))).

(** resolver.rs:193-199, 277-293: classes. *)
Definition resolve_class_method (m : class_method) : M class_method :=
  m_bind (resolve_scheme (cm_ann m)) (fun ann =>
  m_on (scheme_defs ann) (m_on (param_defs (cm_params m)) (m_bind (m_opt resolve_expr (cm_default m)) (fun body =>
  m_ret {| cm_id := cm_id m; cm_ann := ann; cm_params := cm_params m; cm_default := body |})))).
Definition resolve_class (c : class_con) : M class_con :=
  m_bind (m_all resolve_typaram (cl_params c)) (fun params =>
  m_bind (m_on (map tp_binder params) (m_all resolve_constr (cl_supers c))) (fun supers =>
  m_on (map tp_binder params) (m_bind (m_all resolve_class_method (cl_methods c)) (fun methods =>
  m_ret {| cl_id := cl_id c; cl_params := params; cl_supers := supers; cl_methods := methods |})))).

(** resolver.rs:201-207, 295-312: instances. *)
Definition resolve_inst_method (m : inst_method) : M inst_method :=
  m_bind (m_opt resolve_scheme (im_ann m)) (fun ann =>
  m_on (ann_defs ann) (m_on (param_defs (im_params m)) (m_bind (resolve_expr (im_body m)) (fun body =>
  m_ret {| im_id := im_id m; im_params := im_params m; im_ann := ann; im_body := body; im_class_method := im_class_method m |})))).
Definition resolve_instance (i : inst_con) : M inst_con :=
  m_bind (m_all resolve_typaram (in_params i)) (fun params =>
  m_bind (m_on (map tp_binder params) (
    m_bind (m_all resolve_constr (in_constrs i)) (fun constrs => m_bind (resolve_constr (in_target i)) (fun target => m_ret (constrs, target)))))
    (fun ct =>
  m_on (map tp_binder params) (m_bind (m_all resolve_inst_method (in_methods i)) (fun methods =>
  m_ret {| in_id := in_id i; in_sym := in_sym i; in_params := params; in_constrs := fst ct; in_target := snd ct; in_methods := methods |})))).

(** resolver.rs:444-451 [InitExpr], 159-215 [Root]. The tables are visited in any order: they are lists
    without a meaning in their order. *)
Definition resolve_init (i : init_expr) : M init_expr :=
  match i with
  | Eval e => m_bind (resolve_expr e) (fun e => m_ret (Eval e))
  | EnsureInitialized m => m_ret (EnsureInitialized m)
  end.
Definition resolve_root (r : root) : M root :=
  m_bind (m_all resolve_function (r_functions r)) (fun functions =>
  m_bind (m_all resolve_cfunction (r_c_functions r)) (fun c_functions =>
  m_bind (m_all resolve_builtin_op (r_builtin_ops r)) (fun builtin_ops =>
  m_bind (m_all resolve_macro (r_macros r)) (fun macros =>
  m_bind (m_all resolve_type_con (r_data_types r)) (fun data_types =>
  m_bind (m_all resolve_type_con (r_builtin_types r)) (fun builtin_types =>
  m_bind (m_all resolve_class (r_classes r)) (fun classes =>
  m_bind (m_all resolve_instance (r_instances r)) (fun instances =>
  m_bind (m_all resolve_init (r_inits r)) (fun inits =>
  m_ret {| r_functions := functions; r_c_functions := c_functions; r_builtin_ops := builtin_ops; r_macros := macros;
           r_data_types := data_types; r_builtin_types := builtin_types; r_classes := classes; r_instances := instances;
           r_inits := inits |}))))))))).

(** ** The methods of instances *)

(** What resolver.rs:24-38 takes from the class of an instance: whether it is sealed, whether it belongs
    to the module at hand, and its methods with name, id, arity and whether they lack a default. *)
Record class_info := { ci_sealed : bool; ci_here : bool; ci_methods : list (text * (N * option nat * bool)) }.
(** The class with an id: of this module or of a module it uses. *)
Variable class_of : N -> option class_info.

Definition arity_of (m : inst_method) : option nat := option_map (@List.length binder) (im_params m).
Definition arity_eqb (a b : option nat) : bool :=
  match a, b with Some a, Some b => Nat.eqb a b | None, None => true | _, _ => false end.

(** resolver.rs:46-58. *)
Fixpoint link_methods (tbl : list (text * (N * option nat * bool))) (ms : list inst_method)
  : result (list inst_method * list (text * (N * option nat * bool))) :=
  match ms with
  | [] => Good ([], tbl)
  | m :: ms =>
    match im_class_method m with
    | Res _ => match link_methods tbl ms with Good (ms, tbl) => Good (m :: ms, tbl) | Bad e => Bad e end
    | Unres s =>
      match hget (s_name s) tbl with
      | Some (id, arity, _) =>
        if arity_eqb arity (arity_of m) then
          match link_methods (hremove (s_name s) tbl) ms with
          | Good (ms, tbl) =>
            Good ({| im_id := im_id m; im_params := im_params m; im_ann := im_ann m; im_body := im_body m; im_class_method := Res id |} :: ms, tbl)
          | Bad e => Bad e
          end
        else Bad (ArityMismatch arity (arity_of m) (im_id m))
      | None => Bad (NotResolved (s_loc s) (t_ "class-method") (s_name s))
      end
    end
  end.

(** resolver.rs:20-65. The order of the last loop decides only which missing method is named. *)
Definition link_instance (i : inst_con) : outcome (result inst_con) :=
  match k_class (in_target i) with
  | Unres _ => Panic
  | Res c =>
    match class_of c with
    | None => Panic
    | Some ci =>
      let tbl := fold_left (fun t e => hinsert (fst e) (snd e) t) (ci_methods ci) [] in
      if ci_sealed ci && negb (ci_here ci) then Ret (Bad (SealedInstance (s_loc (in_sym i))))
      else Ret match link_methods tbl (in_methods i) with
      | Bad e => Bad e
      | Good (ms, tbl) =>
        match find (fun e => snd (snd e)) tbl with
        | Some (name, _) => Bad (NotResolved (s_loc (in_sym i)) (t_ "class-method") name)
        | None =>
          Good {| in_id := in_id i; in_sym := in_sym i; in_params := in_params i; in_constrs := in_constrs i; in_target := in_target i; in_methods := ms |}
        end
      end
    end
  end.
Fixpoint link_all (l : list inst_con) : outcome (result (list inst_con)) :=
  match l with
  | [] => Ret (Good [])
  | i :: l =>
    let* r := link_instance i in
    match r with
    | Bad e => Ret (Bad e)
    | Good i => let* r := link_all l in Ret match r with Good l => Good (i :: l) | Bad e => Bad e end
    end
  end.

(** resolver.rs:9-73 [run], on a module whose top level has the given table. *)
Definition run (top : table) (r : root) : outcome (result root) :=
  let* (_, x) := resolve_root r {| map_ := top; stashes := [] |} in
  match x with
  | Bad e => Ret (Bad e)
  | Good r =>
    let* l := link_all (r_instances r) in
    Ret match l with
    | Bad e => Bad e
    | Good l =>
      Good {| r_functions := r_functions r; r_c_functions := r_c_functions r; r_builtin_ops := r_builtin_ops r; r_macros := r_macros r;
              r_data_types := r_data_types r; r_builtin_types := r_builtin_types r; r_classes := r_classes r; r_instances := l; r_inits := r_inits r |}
    end
  end.
End Resolver.

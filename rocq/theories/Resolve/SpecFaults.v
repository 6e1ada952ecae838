(** What can be wrong with the names of a module, and how it is reported. *)
From Verif.Base Require Import Base.
From Coq Require Import Permutation.
From Verif.Scope Require Import Model.
From Verif.Resolve Require Import Model Spec.

Definition place (b : binder) : located := {| loc := s_loc (b_sym b); construct := b_id b |}.
(** Two of the binders of one scope have the same name: the report shows both. *)
Definition twice (bs : list binder) (e : error) : Prop :=
  exists b b' rest, Permutation bs (b :: b' :: rest) /\ s_name (b_sym b) = s_name (b_sym b') /\
  e = Declared (DuplicatedIdentifier (s_name (b_sym b)) (place b) (place b')).
(** A name stands for nothing, or for a construct of another sort: the report shows where it is written
    and what was needed. *)
Definition missing (what : text) (sort : N -> Prop) (G : env) (s : symbol) (e : error) : Prop :=
  (forall c, G (s_name s) = Some c -> ~ sort c) /\ e = NotResolved (s_loc s) what (s_name s).

Inductive kind_fault : kind -> error -> Prop :=
| kf_use s : kind_fault (KUse s) (NotResolved (s_loc s) (t_ "kind") (s_name s))
| kf_arg args ret k e : In k args -> kind_fault k e -> kind_fault (KFun args ret) e
| kf_ret args ret e : kind_fault ret e -> kind_fault (KFun args ret) e.

Section Rules.
Variable variant_of : N -> variant.

Inductive ty_fault (G : env) : ty -> error -> Prop :=
| tf_use s e : missing (t_ "type") (fun c => a_type_con variant_of c \/ a_type_parameter variant_of c) G s e -> ty_fault G (TUse s) e
| tf_callee t ts e : ty_fault G t e -> ty_fault G (TApp t ts) e
| tf_arg t ts a e : In a ts -> ty_fault G a e -> ty_fault G (TApp t ts) e.
Inductive use_fault (what : text) (sort : N -> Prop) (G : env) : use -> error -> Prop :=
| uf_name s e : missing what sort G s e -> use_fault what sort G (Unres s) e.
Inductive constr_fault (G : env) (k : constr) : error -> Prop :=
| cf_class e : use_fault (t_ "class") (a_class variant_of) G (k_class k) e -> constr_fault G k e
| cf_arg t e : In t (k_args k) -> ty_fault G t e -> constr_fault G k e.
(** Type parameters: their kinds, or two of the same name. *)
Inductive typarams_fault (ps : list typaram) : error -> Prop :=
| pf_kind p k e : In p ps -> tp_ann p = Some k -> kind_fault k e -> typarams_fault ps e
| pf_twice e : twice (map tp_binder ps) e -> typarams_fault ps e.
Inductive scheme_fault (G : env) (s : scheme) : error -> Prop :=
| sf_params e : typarams_fault (sc_params s) e -> scheme_fault G s e
| sf_constr k e : In k (sc_constrs s) -> constr_fault (within (map tp_binder (sc_params s)) G) k e -> scheme_fault G s e
| sf_body e : ty_fault (within (map tp_binder (sc_params s)) G) (sc_body s) e -> scheme_fault G s e.
Inductive pattern_fault (G : env) : pattern -> error -> Prop :=
| af_as b p e : pattern_fault G p e -> pattern_fault G (PVar b (Some p)) e
| af_con u ps e : use_fault (t_ "constructor") (a_value_con variant_of) G u e -> pattern_fault G (PDecon u ps) e
| af_field u ps p e : In p ps -> pattern_fault G p e -> pattern_fault G (PDecon u (Some ps)) e.

Inductive expr_fault : env -> expr -> error -> Prop :=
| ef_use G s e : missing (t_ "value") (fun c => a_value variant_of c \/ a_value_con variant_of c) G s e -> expr_fault G (EUse (Unres s)) e
| ef_callee G f es e : expr_fault G f e -> expr_fault G (EApp f es) e
| ef_arg G f es a e : In a es -> expr_fault G a e -> expr_fault G (EApp f es) e
| ef_capture G s e : missing (t_ "construct") (fun _ => True) G s e -> expr_fault G (ECapture (Unres s)) e
| ef_annotated G b t e : expr_fault G b e -> expr_fault G (EAnnotate b t) e
| ef_annotation G b t e : ty_fault G t e -> expr_fault G (EAnnotate b t) e
| ef_let_twice G ds b e : twice (defined ds) e -> expr_fault G (ELet ds b) e
| ef_let_def G ds b d e : In d ds -> def_fault (within (functions ds) G) d e -> expr_fault G (ELet ds b) e
| ef_let_body G ds b e : expr_fault (within (defined ds) G) b e -> expr_fault G (ELet ds b) e
| ef_stmt G es r a e : In a es -> expr_fault G a e -> expr_fault G (ESeq es r) e
| ef_ret G es r e : expr_fault G r e -> expr_fault G (ESeq es r) e
| ef_cond G a b c e : expr_fault G a e -> expr_fault G (EIf a b c) e
| ef_then G a b c e : expr_fault G b e -> expr_fault G (EIf a b c) e
| ef_else G a b c e : expr_fault G c e -> expr_fault G (EIf a b c) e
| ef_while G a b e : expr_fault G a e -> expr_fault G (EWhile a b) e
| ef_while_body G a b e : expr_fault G b e -> expr_fault G (EWhile a b) e
| ef_target G a cs e : expr_fault G a e -> expr_fault G (EMatch a cs) e
| ef_clause G a cs p b e : In (p, b) cs -> pattern_fault G p e \/ twice (variables p) e -> expr_fault G (EMatch a cs) e
| ef_clause_body G a cs p b e : In (p, b) cs -> expr_fault (within (variables p) G) b e -> expr_fault G (EMatch a cs) e
| ef_return G a e : expr_fault G a e -> expr_fault G (EReturn (Some a)) e
with def_fault : env -> def -> error -> Prop :=
| df_var_ann G b t i e : ty_fault G t e -> def_fault G (DVar b (Some t) i) e
| df_var_init G b t i e : expr_fault G i e -> def_fault G (DVar b t i) e
| df_fun_ann G b s ps i e : scheme_fault G s e -> def_fault G (DFun b (Some s) ps i) e
| df_fun_params G b a ps i e : twice ps e -> def_fault G (DFun b a ps i) e
| df_fun_body G b a ps i e : expr_fault (within ps (within (quantified a) G)) i e -> def_fault G (DFun b a ps i) e.

(** A routine: its annotation, its parameters and its body. *)
Inductive routine_fault (G : env) (ann : option scheme) (ps : option (list binder)) (body : option expr) : error -> Prop :=
| rf_ann s e : ann = Some s -> scheme_fault G s e -> routine_fault G ann ps body e
| rf_params e : twice (parameters ps) e -> routine_fault G ann ps body e
| rf_body b e : body = Some b -> expr_fault (within (parameters ps) (within (quantified ann) G)) b e -> routine_fault G ann ps body e.

Section Instances.
Variable class_of : N -> option class_info.

(** The methods of an instance: a sealed class of another module, a wrong arity, a name that no method of
    the class has or that is given again, or a method that is missing. *)
Inductive methods_fault (i : inst_con) (ci : class_info) : error -> Prop :=
| mf_sealed : ci_sealed ci = true -> ci_here ci = false -> methods_fault i ci (SealedInstance (s_loc (in_sym i)))
| mf_arity m s id arity required : In m (in_methods i) -> im_class_method m = Unres s -> In (s_name s, (id, arity, required)) (ci_methods ci) ->
    arity <> option_map (@List.length binder) (im_params m) ->
    methods_fault i ci (ArityMismatch arity (option_map (@List.length binder) (im_params m)) (im_id m))
| mf_unknown m s : In m (in_methods i) -> im_class_method m = Unres s -> ~ In (s_name s) (map fst (ci_methods ci)) ->
    methods_fault i ci (NotResolved (s_loc s) (t_ "class-method") (s_name s))
| mf_again before m after s : in_methods i = before ++ m :: after -> im_class_method m = Unres s -> In (s_name s) (given_names before) ->
    methods_fault i ci (NotResolved (s_loc s) (t_ "class-method") (s_name s))
| mf_missing n id arity : In (n, (id, arity, true)) (ci_methods ci) -> ~ In n (given_names (in_methods i)) ->
    methods_fault i ci (NotResolved (s_loc (in_sym i)) (t_ "class-method") n).

Inductive module_fault (G : env) (r : root) : error -> Prop :=
| mo_function f e : In f (r_functions r) -> routine_fault G (f_ann f) (f_params f) (Some (f_body f)) e -> module_fault G r e
| mo_c_function f e : In f (r_c_functions r) -> ty_fault G (cf_ann f) e -> module_fault G r e
| mo_builtin_op f e : In f (r_builtin_ops r) -> scheme_fault G (bo_ann f) e -> module_fault G r e
| mo_macro m e : In m (r_macros r) -> expr_fault (within [ma_param m] G) (ma_body m) e -> module_fault G r e
| mo_type_params t e : In t (r_data_types r ++ r_builtin_types r) -> typarams_fault (tc_params t) e -> module_fault G r e
| mo_field t v fs f e : In t (r_data_types r ++ r_builtin_types r) -> In v (tc_cons t) -> vc_fields v = Some fs -> In f fs ->
    ty_fault (within (map tp_binder (tc_params t)) G) f e -> module_fault G r e
| mo_class_params c e : In c (r_classes r) -> typarams_fault (cl_params c) e -> module_fault G r e
| mo_super c k e : In c (r_classes r) -> In k (cl_supers c) -> constr_fault (within (map tp_binder (cl_params c)) G) k e -> module_fault G r e
| mo_class_method c m e : In c (r_classes r) -> In m (cl_methods c) ->
    routine_fault (within (map tp_binder (cl_params c)) G) (Some (cm_ann m)) (cm_params m) (cm_default m) e -> module_fault G r e
| mo_inst_params i e : In i (r_instances r) -> typarams_fault (in_params i) e -> module_fault G r e
| mo_inst_constr i k e : In i (r_instances r) -> In k (in_target i :: in_constrs i) -> constr_fault (within (map tp_binder (in_params i)) G) k e -> module_fault G r e
| mo_inst_method i m e : In i (r_instances r) -> In m (in_methods i) ->
    routine_fault (within (map tp_binder (in_params i)) G) (im_ann m) (im_params m) (Some (im_body m)) e -> module_fault G r e
| mo_methods i s c ci e : In i (r_instances r) -> k_class (in_target i) = Unres s -> within (map tp_binder (in_params i)) G (s_name s) = Some c ->
    class_of c = Some ci -> methods_fault i ci e -> module_fault G r e
| mo_init x e : In (Eval x) (r_inits r) -> expr_fault G x e -> module_fault G r e.
End Instances.
End Rules.

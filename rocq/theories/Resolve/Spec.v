(** What the names of a module mean: rules of scope, written without a table that changes. *)
From Verif.Base Require Import Base.
From Coq Require Import Permutation.
From Verif.Resolve Require Import Model.

(** An environment: the construct a name stands for. All sorts of names share it. *)
Definition env : Type := text -> option N.
Definition names (bs : list binder) : list text := map (fun b => s_name (b_sym b)) bs.
Fixpoint named (n : text) (bs : list binder) : option N :=
  match bs with
  | [] => None
  | b :: bs => if text_eqb n (s_name (b_sym b)) then Some (b_id b) else named n bs
  end.
(** Inside the scope of the binders; they must have different names. *)
Definition within (bs : list binder) (G : env) : env := fun n => match named n bs with Some c => Some c | None => G n end.
Definition distinct (bs : list binder) : Prop := NoDup (names bs).

Inductive optional {A B} (R : A -> B -> Prop) : option A -> option B -> Prop :=
| opt_some a b : R a b -> optional R (Some a) (Some b)
| opt_none : optional R None None.

Section Rules.
Variable variant_of : N -> variant.

(** The sorts of constructs. *)
Definition a_type_con (c : N) : Prop := variant_of c = VDataTypeCon \/ variant_of c = VBuiltinTypeCon.
Definition a_type_parameter (c : N) : Prop := variant_of c = VTypeParameter.
Definition a_value_con (c : N) : Prop := variant_of c = VDataValueCon \/ variant_of c = VBuiltinValueCon.
Definition a_value (c : N) : Prop :=
  In (variant_of c) [VFunction; VCFunction; VBuiltinOp; VClassMethod; VParameter; VLocalVar; VLocalFun; VPatternVar].
Definition a_class (c : N) : Prop := variant_of c = VClassCon.

(** A use of a sort of constructs: the name stands for a construct of that sort. What is resolved
    already stays. *)
Inductive use_ok (sort : N -> Prop) (G : env) : use -> use -> Prop :=
| uo_name s c : G (s_name s) = Some c -> sort c -> use_ok sort G (Unres s) (Res c)
| uo_done c : use_ok sort G (Res c) (Res c).

(** Kinds cannot be named. *)
Inductive kind_ok : kind -> Prop :=
| ko_type : kind_ok KType
| ko_constraint : kind_ok KConstraint
| ko_satisfaction : kind_ok KSatisfaction
| ko_value : kind_ok KValue
| ko_macro : kind_ok KMacro
| ko_fun args ret : Forall kind_ok args -> kind_ok ret -> kind_ok (KFun args ret).

Inductive ty_ok (G : env) : ty -> ty -> Prop :=
| to_con s c : G (s_name s) = Some c -> a_type_con c -> ty_ok G (TUse s) (TCon c)
| to_param s c : G (s_name s) = Some c -> a_type_parameter c -> ty_ok G (TUse s) (TGen c)
| to_con_done c : ty_ok G (TCon c) (TCon c)
| to_param_done c : ty_ok G (TGen c) (TGen c)
| to_app t t' ts ts' : ty_ok G t t' -> Forall2 (ty_ok G) ts ts' -> ty_ok G (TApp t ts) (TApp t' ts').

Definition constr_ok (G : env) (k k' : constr) : Prop :=
  use_ok a_class G (k_class k) (k_class k') /\ Forall2 (ty_ok G) (k_args k) (k_args k').

Definition typarams_ok (ps : list typaram) : Prop :=
  distinct (map tp_binder ps) /\ forall p k, In p ps -> tp_ann p = Some k -> kind_ok k.

(** A scheme: its type parameters are seen by its constraints and its body. *)
Definition scheme_ok (G : env) (s s' : scheme) : Prop :=
  typarams_ok (sc_params s) /\ sc_params s' = sc_params s /\
  Forall2 (constr_ok (within (map tp_binder (sc_params s)) G)) (sc_constrs s) (sc_constrs s') /\
  ty_ok (within (map tp_binder (sc_params s)) G) (sc_body s) (sc_body s').
(** An annotation, and the type parameters it lets the annotated body see. *)
Definition quantified (ann : option scheme) : list binder := match ann with Some s => map tp_binder (sc_params s) | None => [] end.

Inductive pattern_ok (G : env) : pattern -> pattern -> Prop :=
| po_var b p p' : optional (pattern_ok G) p p' -> pattern_ok G (PVar b p) (PVar b p')
| po_wildcard : pattern_ok G PWildcard PWildcard
| po_decon u u' ps ps' : use_ok a_value_con G u u' -> optional (Forall2 (pattern_ok G)) ps ps' -> pattern_ok G (PDecon u ps) (PDecon u' ps')
| po_const k : pattern_ok G (PConst k) (PConst k).
(** The variables of a pattern. *)
Fixpoint variables (p : pattern) : list binder :=
  match p with
  | PVar b p => b :: match p with Some p => variables p | None => [] end
  | PDecon _ (Some ps) => flat_map variables ps
  | _ => []
  end.

(** The names the definitions of a [let] declare, and those of its functions. *)
Definition defined (ds : list def) : list binder := map (fun d => match d with DVar b _ _ | DFun b _ _ _ => b end) ds.
Definition is_fun (d : def) : bool := match d with DFun _ _ _ _ => true | DVar _ _ _ => false end.
Definition functions (ds : list def) : list binder := defined (filter is_fun ds).

(** Expressions. The functions of a [let] are seen by all of its definitions, all that it defines by
    its body; the variables of a pattern by the body of the clause; the type parameters of a local
    function's annotation by its body, and its parameters inside those. *)
Inductive expr_ok : env -> expr -> expr -> Prop :=
| eo_value G s c : G (s_name s) = Some c -> a_value c -> expr_ok G (EUse (Unres s)) (EUse (Res c))
| eo_value_con G s c : G (s_name s) = Some c -> a_value_con c -> expr_ok G (EUse (Unres s)) (ECon c)
| eo_value_done G c : expr_ok G (EUse (Res c)) (EUse (Res c))
| eo_con G c : expr_ok G (ECon c) (ECon c)
| eo_const G k : expr_ok G (EConst k) (EConst k)
| eo_app G f f' es es' : expr_ok G f f' -> Forall2 (expr_ok G) es es' -> expr_ok G (EApp f es) (EApp f' es')
| eo_capture G u u' : use_ok (fun _ => True) G u u' -> expr_ok G (ECapture u) (ECapture u')
| eo_annotate G e e' t t' : expr_ok G e e' -> ty_ok G t t' -> expr_ok G (EAnnotate e t) (EAnnotate e' t')
| eo_let G ds ds' e e' :
    distinct (defined ds) -> Forall2 (def_ok (within (functions ds) G)) ds ds' -> expr_ok (within (defined ds) G) e e' ->
    expr_ok G (ELet ds e) (ELet ds' e')
| eo_seq G es es' e e' : Forall2 (expr_ok G) es es' -> expr_ok G e e' -> expr_ok G (ESeq es e) (ESeq es' e')
| eo_if G c c' t t' e e' : expr_ok G c c' -> expr_ok G t t' -> expr_ok G e e' -> expr_ok G (EIf c t e) (EIf c' t' e')
| eo_while G c c' e e' : expr_ok G c c' -> expr_ok G e e' -> expr_ok G (EWhile c e) (EWhile c' e')
| eo_match G e e' cs cs' : expr_ok G e e' -> Forall2 (clause_ok G) cs cs' -> expr_ok G (EMatch e cs) (EMatch e' cs')
| eo_return G e e' : optional (expr_ok G) e e' -> expr_ok G (EReturn e) (EReturn e')
with clause_ok : env -> pattern * expr -> pattern * expr -> Prop :=
| co_clause G p p' e e' : distinct (variables p) -> pattern_ok G p p' -> expr_ok (within (variables p) G) e e' -> clause_ok G (p, e) (p', e')
with def_ok : env -> def -> def -> Prop :=
| do_var G b t t' e e' : optional (ty_ok G) t t' -> expr_ok G e e' -> def_ok G (DVar b t e) (DVar b t' e')
| do_fun G b a a' ps e e' : distinct ps -> optional (scheme_ok G) a a' -> expr_ok (within ps (within (quantified a) G)) e e' ->
    def_ok G (DFun b a ps e) (DFun b a' ps e').

(** Declarations. *)
Definition parameters (o : option (list binder)) : list binder := match o with Some ps => ps | None => [] end.
Definition function_ok (G : env) (f f' : function) : Prop :=
  f_id f' = f_id f /\ f_params f' = f_params f /\ distinct (parameters (f_params f)) /\ optional (scheme_ok G) (f_ann f) (f_ann f') /\
  expr_ok (within (parameters (f_params f)) (within (quantified (f_ann f)) G)) (f_body f) (f_body f').
Definition cfunction_ok (G : env) (f f' : cfunction) : Prop := cf_id f' = cf_id f /\ ty_ok G (cf_ann f) (cf_ann f').
Definition builtin_op_ok (G : env) (f f' : builtin_op) : Prop := bo_id f' = bo_id f /\ scheme_ok G (bo_ann f) (bo_ann f').
Definition macro_ok (G : env) (m m' : macro) : Prop :=
  ma_id m' = ma_id m /\ ma_param m' = ma_param m /\ expr_ok (within [ma_param m] G) (ma_body m) (ma_body m').

(** The fields of the value constructors of a type see its parameters. *)
Definition value_con_ok (G : env) (v v' : value_con) : Prop := vc_id v' = vc_id v /\ optional (Forall2 (ty_ok G)) (vc_fields v) (vc_fields v').
Definition type_con_ok (G : env) (t t' : type_con) : Prop :=
  tc_id t' = tc_id t /\ tc_params t' = tc_params t /\ typarams_ok (tc_params t) /\
  Forall2 (value_con_ok (within (map tp_binder (tc_params t)) G)) (tc_cons t) (tc_cons t').

(** The superclasses and the methods of a class see its parameters; so do the constraints, the target
    and the methods of an instance. *)
Definition class_method_ok (G : env) (m m' : class_method) : Prop :=
  cm_id m' = cm_id m /\ cm_params m' = cm_params m /\ distinct (parameters (cm_params m)) /\ scheme_ok G (cm_ann m) (cm_ann m') /\
  optional (expr_ok (within (parameters (cm_params m)) (within (quantified (Some (cm_ann m))) G))) (cm_default m) (cm_default m').
Definition class_ok (G : env) (c c' : class_con) : Prop :=
  let G' := within (map tp_binder (cl_params c)) G in
  cl_id c' = cl_id c /\ cl_params c' = cl_params c /\ typarams_ok (cl_params c) /\
  Forall2 (constr_ok G') (cl_supers c) (cl_supers c') /\ Forall2 (class_method_ok G') (cl_methods c) (cl_methods c').

Section Instances.
(** What is known of a class: whether it is sealed, whether it belongs to the module at hand, and its
    methods with name, id, arity, and whether an instance must give them. *)
Variable class_of : N -> option class_info.

(** A method of an instance: its name is that of a method of the class, of the same arity. *)
Definition method_ok (G : env) (ci : class_info) (m m' : inst_method) : Prop :=
  im_id m' = im_id m /\ im_params m' = im_params m /\ distinct (parameters (im_params m)) /\ optional (scheme_ok G) (im_ann m) (im_ann m') /\
  expr_ok (within (parameters (im_params m)) (within (quantified (im_ann m)) G)) (im_body m) (im_body m') /\
  exists s id required, im_class_method m = Unres s /\ im_class_method m' = Res id /\
    In (s_name s, (id, option_map (@List.length binder) (im_params m), required)) (ci_methods ci).
Definition given_names (ms : list inst_method) : list text :=
  flat_map (fun m => match im_class_method m with Unres s => [s_name s] | Res _ => [] end) ms.
(** No method of the class is given twice, and none that is required is missing. A sealed class has
    instances in its own module only. *)
Definition instance_ok (G : env) (i i' : inst_con) : Prop :=
  let G' := within (map tp_binder (in_params i)) G in
  in_id i' = in_id i /\ in_sym i' = in_sym i /\ in_params i' = in_params i /\ typarams_ok (in_params i) /\
  Forall2 (constr_ok G') (in_constrs i) (in_constrs i') /\ constr_ok G' (in_target i) (in_target i') /\
  exists c ci, k_class (in_target i') = Res c /\ class_of c = Some ci /\
    (ci_sealed ci = true -> ci_here ci = true) /\
    Forall2 (method_ok G' ci) (in_methods i) (in_methods i') /\ NoDup (given_names (in_methods i)) /\
    forall n id arity, In (n, (id, arity, true)) (ci_methods ci) -> In n (given_names (in_methods i)).

Definition init_ok (G : env) (i i' : init_expr) : Prop :=
  match i, i' with
  | Eval e, Eval e' => expr_ok G e e'
  | EnsureInitialized m, EnsureInitialized m' => m' = m
  | _, _ => False
  end.

Definition module_ok (G : env) (r r' : root) : Prop :=
  Forall2 (function_ok G) (r_functions r) (r_functions r') /\ Forall2 (cfunction_ok G) (r_c_functions r) (r_c_functions r') /\
  Forall2 (builtin_op_ok G) (r_builtin_ops r) (r_builtin_ops r') /\ Forall2 (macro_ok G) (r_macros r) (r_macros r') /\
  Forall2 (type_con_ok G) (r_data_types r) (r_data_types r') /\ Forall2 (type_con_ok G) (r_builtin_types r) (r_builtin_types r') /\
  Forall2 (class_ok G) (r_classes r) (r_classes r') /\ Forall2 (instance_ok G) (r_instances r) (r_instances r') /\
  Forall2 (init_ok G) (r_inits r) (r_inits r').
End Instances.
End Rules.

(** The name of every method of an instance is still to be resolved, as the builder leaves it. *)
Definition methods_named (r : root) : Prop :=
  forall i m, In i (r_instances r) -> In m (in_methods i) -> exists s, im_class_method m = Unres s.
(** The classes a module can name are known, and their methods have different names. *)
Definition classes_known (variant_of : N -> variant) (class_of : N -> option class_info) : Prop :=
  forall c, variant_of c = VClassCon -> exists ci, class_of c = Some ci /\ NoDup (map fst (ci_methods ci)).
(** No target of an instance is resolved beforehand. *)
Definition targets_named (r : root) : Prop := forall i, In i (r_instances r) -> exists s, k_class (in_target i) = Unres s.

(** ** Nothing is left to resolve *)
Definition use_done (u : use) : Prop := exists c, u = Res c.
Definition all_of {A} (P : A -> Prop) (o : option A) : Prop := forall a, o = Some a -> P a.
Inductive ty_done : ty -> Prop :=
| td_con c : ty_done (TCon c)
| td_gen c : ty_done (TGen c)
| td_app t ts : ty_done t -> Forall ty_done ts -> ty_done (TApp t ts).
Definition constr_done (k : constr) : Prop := use_done (k_class k) /\ Forall ty_done (k_args k).
Definition typaram_done (p : typaram) : Prop := all_of kind_ok (tp_ann p).
Definition scheme_done (s : scheme) : Prop := Forall typaram_done (sc_params s) /\ Forall constr_done (sc_constrs s) /\ ty_done (sc_body s).
Inductive pattern_done : pattern -> Prop :=
| pd_var b p : all_of pattern_done p -> pattern_done (PVar b p)
| pd_wildcard : pattern_done PWildcard
| pd_decon u ps : use_done u -> all_of (Forall pattern_done) ps -> pattern_done (PDecon u ps)
| pd_const k : pattern_done (PConst k).
Inductive expr_done : expr -> Prop :=
| ed_use c : expr_done (EUse (Res c))
| ed_con c : expr_done (ECon c)
| ed_const k : expr_done (EConst k)
| ed_app e es : expr_done e -> Forall expr_done es -> expr_done (EApp e es)
| ed_capture c : expr_done (ECapture (Res c))
| ed_annotate e t : expr_done e -> ty_done t -> expr_done (EAnnotate e t)
| ed_let ds e : Forall def_done ds -> expr_done e -> expr_done (ELet ds e)
| ed_seq es e : Forall expr_done es -> expr_done e -> expr_done (ESeq es e)
| ed_if c t e : expr_done c -> expr_done t -> expr_done e -> expr_done (EIf c t e)
| ed_while c e : expr_done c -> expr_done e -> expr_done (EWhile c e)
| ed_match e cs : expr_done e -> Forall (fun c => pattern_done (fst c) /\ expr_done (snd c)) cs -> expr_done (EMatch e cs)
| ed_return o : all_of expr_done o -> expr_done (EReturn o)
with def_done : def -> Prop :=
| dd_var b t e : all_of ty_done t -> expr_done e -> def_done (DVar b t e)
| dd_fun b a ps e : all_of scheme_done a -> expr_done e -> def_done (DFun b a ps e).
Definition root_done (r : root) : Prop :=
  (forall f, In f (r_functions r) -> all_of scheme_done (f_ann f) /\ expr_done (f_body f)) /\
  (forall f, In f (r_c_functions r) -> ty_done (cf_ann f)) /\
  (forall f, In f (r_builtin_ops r) -> scheme_done (bo_ann f)) /\
  (forall m, In m (r_macros r) -> expr_done (ma_body m)) /\
  (forall t, In t (r_data_types r ++ r_builtin_types r) ->
     Forall typaram_done (tc_params t) /\ forall v, In v (tc_cons t) -> all_of (Forall ty_done) (vc_fields v)) /\
  (forall c, In c (r_classes r) -> Forall typaram_done (cl_params c) /\ Forall constr_done (cl_supers c) /\
     forall m, In m (cl_methods c) -> scheme_done (cm_ann m) /\ all_of expr_done (cm_default m)) /\
  (forall i, In i (r_instances r) -> Forall typaram_done (in_params i) /\ Forall constr_done (in_constrs i) /\ constr_done (in_target i) /\
     forall m, In m (in_methods i) -> use_done (im_class_method m) /\ all_of scheme_done (im_ann m) /\ expr_done (im_body m)) /\
  (forall e, In (Eval e) (r_inits r) -> expr_done e).

(** The same module, its tables in another order. *)
Definition same_module (r r' : root) : Prop :=
  Permutation (r_functions r) (r_functions r') /\ Permutation (r_c_functions r) (r_c_functions r') /\
  Permutation (r_builtin_ops r) (r_builtin_ops r') /\ Permutation (r_macros r) (r_macros r') /\
  Permutation (r_data_types r) (r_data_types r') /\ Permutation (r_builtin_types r) (r_builtin_types r') /\
  Permutation (r_classes r) (r_classes r') /\ Permutation (r_instances r) (r_instances r') /\ r_inits r' = r_inits r.

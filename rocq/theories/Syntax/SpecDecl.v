(** The grammar of declarations. *)
From Verif.Base Require Import Base.
From Verif.Sexp Require Import Model.
From Verif.Syntax Require Import Model ModelDecl Spec SpecBare.

Definition read_words := map t_ ["function"; "transparent-function"; "c-function"; "builtin-op"; "macro"; "data"; "value-data"; "c-data"; "builtin-type"; "class"; "sealed-class"; "instance"; "import"; "export"]%string.
Definition data_word (r : data_repr) : text := match r with ReprDefault => t_ "data" | ReprValue => t_ "value-data" | ReprC => t_ "c-data" end.

Section Grammar.
Variable W : world.
(** [name] or [(name param ...)] *)
Inductive reads_type_header : sexp -> symbol -> list typaram -> Prop :=
| rth_name l x : reads_type_header (word l x) {| s_loc := l; s_name := x |} []
| rth_params l lx x ps tps : Forall2 (reads_tparam W) ps tps -> reads_type_header (Sexp l (RList (word lx x :: ps))) {| s_loc := lx; s_name := x |} tps.
(** [name] or [(name type ...)] *)
Inductive reads_con : sexp -> binder * option (list ty) -> Prop :=
| rcn_name l x i : reads_con (word l x) ({| b_id := i; b_sym := {| s_loc := l; s_name := x |} |}, None)
| rcn_fields l lx x i ss ts : Forall2 (reads_type W) ss ts ->
    reads_con (Sexp l (RList (word lx x :: ss))) ({| b_id := i; b_sym := {| s_loc := lx; s_name := x |} |}, Some ts).
(** [name {type} "text"] *)
Inductive reads_foreign : list sexp -> symbol -> scheme -> text -> Prop :=
| read_foreign la lk lx x ann sc ls name : reads_scheme W ann sc ->
    reads_foreign [form la lk (t_ "annotate") (word lx x :: ann); Sexp ls (RString name)] {| s_loc := lx; s_name := x |} sc name.

(** [(constructor "text")] *)
Inductive reads_builtin_con : sexp -> binder * option (list ty) * text -> Prop :=
| rbc l s ls name c : reads_con s c -> reads_builtin_con (Sexp l (RList [s; Sexp ls (RString name)])) (c, name).
(** [(where c ...)? rest ...] *)
Inductive reads_where_first : list sexp -> list constr -> list sexp -> Prop :=
| rwf_none rest : (forall l lk cs rest', rest <> form l lk (t_ "where") cs :: rest') -> reads_where_first rest [] rest
| rwf_some l lk cs ks rest : Forall2 (reads_constr W) cs ks -> reads_where_first (form l lk (t_ "where") cs :: rest) ks rest.
Definition function_word (transparent : bool) : text := if transparent then t_ "transparent-function" else t_ "function".
(** The body of a method of a class may be left out. *)
Inductive reads_default : list sexp -> option expr -> Prop :=
| rdf_none : reads_default [] None
| rdf_some ss e : ss <> [] -> reads_body W ss e -> reads_default ss (Some e).
Inductive reads_cmethod : sexp -> cmethod -> Prop :=
| rcm l lk tr s body x ps bs sc i o : reads_annotated W s x ps (Some sc) -> option_map (map b_sym) bs = ps -> reads_default body o ->
    reads_cmethod (form l lk (function_word tr) (s :: body))
      {| cm_transparent := tr; cm_binder := {| b_id := i; b_sym := x |}; cm_params := bs; cm_ann := sc; cm_body := o |}.
Inductive reads_imethod : sexp -> imethod -> Prop :=
| rim l lk tr s body x ps bs sc i e : reads_annotated W s x ps sc -> option_map (map b_sym) bs = ps -> reads_body W body e ->
    reads_imethod (form l lk (function_word tr) (s :: body))
      {| im_transparent := tr; im_binder := {| b_id := i; b_sym := x |}; im_params := bs; im_ann := sc; im_body := e; im_of := Unres x |}.

Inductive reads_decl : sexp -> decl -> Prop :=
| read_decl s s' d : expands W s s' -> decl_form s' d -> reads_decl s d
with decl_form : sexp -> decl -> Prop :=
| df_function l lk (transparent : bool) s body x ps bs sc i e : reads_annotated W s x ps sc -> option_map (map b_sym) bs = ps -> reads_body W body e ->
    decl_form (form l lk (if transparent then t_ "transparent-function" else t_ "function") (s :: body))
      (DeFunction transparent {| b_id := i; b_sym := x |} bs sc e)
| df_c_function l lk rest x sc name i : reads_foreign rest x sc name -> monomorphic sc ->
    decl_form (form l lk (t_ "c-function") rest) (DeCFunction {| b_id := i; b_sym := x |} (sc_body sc) name)
| df_builtin_op l lk rest x sc name i : reads_foreign rest x sc name ->
    decl_form (form l lk (t_ "builtin-op") rest) (DeBuiltinOp {| b_id := i; b_sym := x |} sc name)
| df_macro l lk lh lx x lp p i j body e : reads_body W body e ->
    decl_form (form l lk (t_ "macro") (Sexp lh (RList [word lx x; word lp p]) :: body))
      (DeMacro {| b_id := i; b_sym := {| s_loc := lx; s_name := x |} |} {| b_id := j; b_sym := {| s_loc := lp; s_name := p |} |} e)
| df_data l lk r s ctors x ps i cs : reads_type_header s x ps -> Forall2 reads_con ctors cs ->
    decl_form (form l lk (data_word r) (s :: ctors)) (DeData r {| b_id := i; b_sym := x |} ps cs)
| df_builtin_type l lk s ls name ctors x ps i cs : reads_type_header s x ps -> Forall2 reads_builtin_con ctors cs ->
    decl_form (form l lk (t_ "builtin-type") (s :: Sexp ls (RString name) :: ctors)) (DeBuiltinType {| b_id := i; b_sym := x |} ps name cs)
| df_class l lk (sealed : bool) s rest x ps ks methods i ms : reads_type_header s x ps -> reads_where_first rest ks methods -> Forall2 reads_cmethod methods ms ->
    decl_form (form l lk (if sealed then t_ "sealed-class" else t_ "class") (s :: rest)) (DeClass sealed {| b_id := i; b_sym := x |} ps ks ms)
| df_instance l lk lx x fs ps t k rest ks methods i ms : reads_forall W t fs ps -> reads_constr W t k -> reads_where_first rest ks methods -> Forall2 reads_imethod methods ms ->
    decl_form (form l lk (t_ "instance") (word lx x :: fs ++ t :: rest)) (DeInstance {| b_id := i; b_sym := {| s_loc := lx; s_name := x |} |} ps ks k ms)
| df_import l lk ls path targets : decl_form (form l lk (t_ "import") (Sexp ls (RString path) :: targets)) (DeImport path targets)
| df_export l lk targets : decl_form (form l lk (t_ "export") targets) (DeExport targets)
| df_no_std l lk : decl_form (form l lk (t_ "no-implicit-std") []) DeNoStd
| df_expr s e : (forall l lk k rest, s = form l lk k rest -> ~ In k read_words /\ ~ In k other_words /\ (k = t_ "no-implicit-std" -> rest <> [])) ->
    reads_expr W s e -> decl_form s (DeExpr e).

(** What an S-expression declares, in order: [begin] puts declarations together. *)
Inductive declares : sexp -> list decl -> Prop :=
| declares_one s d : reads_decl s d -> declares s [d]
| declares_all s l lk ss dss : expands W s (form l lk (t_ "begin") ss) -> Forall2 declares ss dss -> declares s (List.concat dss).
End Grammar.

Definition ids_cmethod (m : cmethod) : list N := b_id (cm_binder m) :: ids_opt (map b_id) (cm_params m) ++ ids_scheme (cm_ann m) ++ ids_opt ids_expr (cm_body m).
Definition ids_imethod (m : imethod) : list N := b_id (im_binder m) :: ids_opt (map b_id) (im_params m) ++ ids_opt ids_scheme (im_ann m) ++ ids_expr (im_body m).
(** The ids a declaration declares. *)
Definition ids_decl (d : decl) : list N :=
  match d with
  | DeFunction _ b ps sc e => b_id b :: ids_opt (map b_id) ps ++ ids_opt ids_scheme sc ++ ids_expr e
  | DeCFunction b _ _ => [b_id b]
  | DeBuiltinOp b sc _ => b_id b :: ids_scheme sc
  | DeMacro b p e => b_id b :: b_id p :: ids_expr e
  | DeData _ b ps cs => b_id b :: map (fun p => b_id (tp_binder p)) ps ++ map (fun c => b_id (fst c)) cs
  | DeBuiltinType b ps _ cs => b_id b :: map (fun p => b_id (tp_binder p)) ps ++ map (fun c => b_id (fst (fst c))) cs
  | DeClass _ b ps _ ms => b_id b :: map (fun p => b_id (tp_binder p)) ps ++ flat_map ids_cmethod ms
  | DeInstance b ps _ _ ms => b_id b :: map (fun p => b_id (tp_binder p)) ps ++ flat_map ids_imethod ms
  | DeExpr e => ids_expr e
  | DeImport _ _ | DeExport _ | DeNoStd => []
  end.

Definition bare_cmethod (m : cmethod) : cmethod :=
  {| cm_transparent := cm_transparent m; cm_binder := bare_binder (cm_binder m); cm_params := option_map (map bare_binder) (cm_params m);
     cm_ann := bare_scheme (cm_ann m); cm_body := option_map bare_expr (cm_body m) |}.
Definition bare_imethod (m : imethod) : imethod :=
  {| im_transparent := im_transparent m; im_binder := bare_binder (im_binder m); im_params := option_map (map bare_binder) (im_params m);
     im_ann := option_map bare_scheme (im_ann m); im_body := bare_expr (im_body m); im_of := im_of m |}.
(** A declaration without the identities of what it declares. *)
Definition bare_decl (d : decl) : decl :=
  match d with
  | DeFunction tr b ps sc e => DeFunction tr (bare_binder b) (option_map (map bare_binder) ps) (option_map bare_scheme sc) (bare_expr e)
  | DeCFunction b t name => DeCFunction (bare_binder b) t name
  | DeBuiltinOp b sc name => DeBuiltinOp (bare_binder b) (bare_scheme sc) name
  | DeMacro b p e => DeMacro (bare_binder b) (bare_binder p) (bare_expr e)
  | DeData r b ps cs => DeData r (bare_binder b) (map bare_typaram ps) (map (fun c => (bare_binder (fst c), snd c)) cs)
  | DeBuiltinType b ps name cs => DeBuiltinType (bare_binder b) (map bare_typaram ps) name (map (fun c => (bare_binder (fst (fst c)), snd (fst c), snd c)) cs)
  | DeClass sealed b ps ks ms => DeClass sealed (bare_binder b) (map bare_typaram ps) ks (map bare_cmethod ms)
  | DeInstance b ps ks k ms => DeInstance (bare_binder b) (map bare_typaram ps) ks k (map bare_imethod ms)
  | DeExpr e => DeExpr (bare_expr e)
  | DeImport _ _ | DeExport _ | DeNoStd => d
  end.

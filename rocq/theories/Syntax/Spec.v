(** The grammar of kinds, types, type schemes, patterns and expressions, as a relation between an
    S-expression and the tree it stands for. The ids of the binders of the tree are left open. *)
From Verif.Base Require Import Base.
From Verif.Sexp Require Import Model.
From Verif.Syntax Require Import Model.

(** [(k rest ...)] *)
Definition form (l lk : srcloc) (k : text) (rest : list sexp) : sexp := Sexp l (RList (Sexp lk (RSymbol k) :: rest)).
Definition word (l : srcloc) (t : text) : sexp := Sexp l (RSymbol t).
(** [s] is none of these words. *)
Definition no_word (ks : list text) (s : sexp) : Prop := forall l k, s = word l k -> ~ In k ks.
(** [s] is not a list that starts with this word. *)
Definition no_form (k : text) (s : sexp) : Prop := forall l lk rest, s <> form l lk k rest.

Definition type_words := [t_ "->"; t_ ":"].
Definition pattern_words := [t_ "let"; t_ ":"].
Definition expr_words := map t_ ["begin"; "let"; "if"; "while"; "match"; "return"; ":"; "quote"; "capture"; "annotate"]%string.

Inductive literal : srep -> Prop :=
| lit_int b v : literal (RInteger b v)
| lit_fp t : literal (RFPNumber t)
| lit_string t : literal (RString t)
| lit_char c : literal (RChar c).

Section Grammar.
Variable W : world.

(** [s] applies the macro [c]. *)
Inductive macro_call : sexp -> N -> Prop :=
| call_name l lf f args c : top W f = Some c -> variant_of W c = VMacro -> macro_call (Sexp l (RList (word lf f :: args))) c
| call_native l lf f args c : native W f = Some c -> variant_of W c = VMacro -> macro_call (Sexp l (RList (Sexp lf (RNative f) :: args))) c.
(** [s] becomes [s'], which applies no macro. *)
Inductive expands : sexp -> sexp -> Prop :=
| exp_done s : (forall c, ~ macro_call s c) -> expands s s
| exp_step s c s1 s2 : macro_call s c -> own W c = false -> execute W c s = inl s1 -> expands s1 s2 -> expands s s2.

Inductive reads_kind : sexp -> kind -> Prop :=
| read_kind s s' k : expands s s' -> kind_form s' k -> reads_kind s k
with kind_form : sexp -> kind -> Prop :=
| kf_type l : kind_form (word l (t_ "*")) KType
| kf_constraint l : kind_form (word l (t_ "Constraint")) KConstraint
| kf_satisfaction l : kind_form (word l (t_ "Satisfaction")) KSatisfaction
| kf_value l : kind_form (word l (t_ "Value")) KValue
| kf_macro l : kind_form (word l (t_ "Macro")) KMacro
| kf_fun l lk args r ks k : Forall2 reads_kind args ks -> reads_kind r k -> kind_form (form l lk (t_ "->") (args ++ [r])) (KFun ks k).

Inductive reads_type : sexp -> ty -> Prop :=
| read_type s s' t : expands s s' -> type_form s' t -> reads_type s t
with type_form : sexp -> ty -> Prop :=
| tf_unit l : type_form (word l (t_ "unit")) (TCon (tuple_type W 0))
| tf_empty l lk : type_form (form l lk (t_ ":") []) (TCon (tuple_type W 0))
| tf_tuple l lk args ts : args <> [] -> Forall2 reads_type args ts ->
    type_form (form l lk (t_ ":") args) (TApp (TCon (tuple_type W (List.length args))) ts)
| tf_fun l lk args r ts t : Forall2 reads_type args ts -> reads_type r t ->
    type_form (form l lk (t_ "->") (args ++ [r])) (TApp (TCon (fun_type W (List.length args))) (ts ++ [t]))
| tf_use l x : x <> t_ "unit" -> type_form (word l x) (TUse {| s_loc := l; s_name := x |})
| tf_native l x c : native W x = Some c -> is_type_con (variant_of W c) = true -> type_form (Sexp l (RNative x)) (TCon c)
| tf_app l callee args t ts : no_word type_words callee -> reads_type callee t -> Forall2 reads_type args ts ->
    type_form (Sexp l (RList (callee :: args))) (TApp t ts).

(** A name, or a native value that holds a construct that fits. *)
Inductive reads_use (fits : variant -> bool) : sexp -> use -> Prop :=
| ru_name l x : reads_use fits (word l x) (Unres {| s_loc := l; s_name := x |})
| ru_native l x c : native W x = Some c -> fits (variant_of W c) = true -> reads_use fits (Sexp l (RNative x)) (Res c).

Inductive reads_constr : sexp -> constr -> Prop :=
| rc_bare s u : reads_use is_class s u -> reads_constr s {| k_class := u; k_args := [] |}
| rc_args l s args u ts : reads_use is_class s u -> Forall2 reads_type args ts ->
    reads_constr (Sexp l (RList (s :: args))) {| k_class := u; k_args := ts |}.
Inductive reads_tparam : sexp -> typaram -> Prop :=
| rt_bare l x i : reads_tparam (word l x) {| tp_binder := {| b_id := i; b_sym := {| s_loc := l; s_name := x |} |}; tp_ann := None |}
| rt_kind l lx x i s k : reads_kind s k ->
    reads_tparam (Sexp l (RList [word lx x; s])) {| tp_binder := {| b_id := i; b_sym := {| s_loc := lx; s_name := x |} |}; tp_ann := Some k |}.
(** [(forall p ...)? type (where c ...)?] *)
Inductive reads_forall (body : sexp) : list sexp -> list typaram -> Prop :=
| rf_none : no_form (t_ "forall") body -> reads_forall body [] []
| rf_some l lk ps tps : Forall2 reads_tparam ps tps -> reads_forall body [form l lk (t_ "forall") ps] tps.
Inductive reads_where (body : sexp) : list sexp -> list constr -> Prop :=
| rw_none : no_form (t_ "where") body -> reads_where body [] []
| rw_some l lk cs ks : Forall2 reads_constr cs ks -> reads_where body [form l lk (t_ "where") cs] ks.
Inductive reads_scheme : list sexp -> scheme -> Prop :=
| read_scheme f body w tps ks t : reads_forall body f tps -> reads_type body t -> reads_where body w ks ->
    reads_scheme (f ++ [body] ++ w) {| sc_params := tps; sc_constrs := ks; sc_body := t |}.

Inductive reads_pattern : sexp -> pattern -> Prop :=
| read_pattern s s' p : expands s s' -> pattern_form s' p -> reads_pattern s p
with pattern_form : sexp -> pattern -> Prop :=
| pf_literal l r : literal r -> pattern_form (Sexp l r) (PConst (number W (Literal r)))
| pf_bool l b : pattern_form (Sexp l (RBool b)) (PDecon (Res (bool_con W b)) None)
| pf_wildcard l : pattern_form (word l (t_ "_")) PWildcard
| pf_var l lk lx x i : pattern_form (form l lk (t_ "let") [word lx x]) (PVar {| b_id := i; b_sym := {| s_loc := lx; s_name := x |} |} None)
| pf_as l lk lx x i s p : reads_pattern s p ->
    pattern_form (form l lk (t_ "let") [word lx x; s]) (PVar {| b_id := i; b_sym := {| s_loc := lx; s_name := x |} |} (Some p))
| pf_unit l : pattern_form (word l (t_ "unit")) (PDecon (Res (tuple_con W 0)) None)
| pf_empty l lk : pattern_form (form l lk (t_ ":") []) (PDecon (Res (tuple_con W 0)) None)
| pf_tuple l lk ss ps : ss <> [] -> Forall2 reads_pattern ss ps ->
    pattern_form (form l lk (t_ ":") ss) (PDecon (Res (tuple_con W (List.length ss))) (Some ps))
| pf_con s u : no_word [t_ "unit"; t_ "_"] s -> reads_use is_value_con s u -> pattern_form s (PDecon u None)
| pf_decon l s ss u ps : no_word pattern_words s -> reads_use is_value_con s u -> Forall2 reads_pattern ss ps ->
    pattern_form (Sexp l (RList (s :: ss))) (PDecon u (Some ps)).

Definition monomorphic (s : scheme) : Prop := sc_params s = [] /\ sc_constrs s = [].
(** A name, or a name with parameters: what a local definition defines. *)
Inductive reads_header : sexp -> symbol -> option (list symbol) -> Prop :=
| rh_name l x : reads_header (word l x) {| s_loc := l; s_name := x |} None
| rh_fun l lx x ps : reads_header (Sexp l (RList (word lx x :: map (fun p => word (s_loc p) (s_name p)) ps))) {| s_loc := lx; s_name := x |} (Some ps).
(** ... and whether it has a type. *)
Inductive reads_annotated : sexp -> symbol -> option (list symbol) -> option scheme -> Prop :=
| ra_plain s x ps : (forall l lk a rest, s <> form l lk (t_ "annotate") (a :: rest)) -> reads_header s x ps -> reads_annotated s x ps None
| ra_typed l lk s ann x ps sc : reads_header s x ps -> reads_scheme ann sc -> reads_annotated (form l lk (t_ "annotate") (s :: ann)) x ps (Some sc).

Inductive reads_expr : sexp -> expr -> Prop :=
| read_expr s s' e : expands s s' -> expr_form s' e -> reads_expr s e
with reads_body : list sexp -> expr -> Prop :=
| rb_empty : reads_body [] (ECon (tuple_con W 0))
| rb_one s e : reads_expr s e -> reads_body [s] e
| rb_seq ss s es e : ss <> [] -> Forall2 reads_expr ss es -> reads_expr s e -> reads_body (ss ++ [s]) (ESeq es e)
with reads_def : sexp -> def -> Prop :=
| rd_var l s body x i e : reads_annotated s x None None -> reads_body body e ->
    reads_def (Sexp l (RList (s :: body))) (DVar {| b_id := i; b_sym := x |} None e)
| rd_var_typed l s body x sc i e : reads_annotated s x None (Some sc) -> monomorphic sc -> reads_body body e ->
    reads_def (Sexp l (RList (s :: body))) (DVar {| b_id := i; b_sym := x |} (Some (sc_body sc)) e)
| rd_fun l s body x ps bs sc i e : reads_annotated s x (Some ps) sc -> map b_sym bs = ps -> reads_body body e ->
    reads_def (Sexp l (RList (s :: body))) (DFun {| b_id := i; b_sym := x |} sc bs e)
with reads_clause : sexp -> pattern * expr -> Prop :=
| rc_clause s l sp body p e : expands s (Sexp l (RList (sp :: body))) -> reads_pattern sp p -> reads_body body e -> reads_clause s (p, e)
with expr_form : sexp -> expr -> Prop :=
| ef_literal l r : literal r -> expr_form (Sexp l r) (EConst (number W (Literal r)))
| ef_bool l b : expr_form (Sexp l (RBool b)) (ECon (bool_con W b))
| ef_begin l lk body e : reads_body body e -> expr_form (form l lk (t_ "begin") body) e
| ef_let l lk ld defs body ds e : Forall2 reads_def defs ds -> reads_body body e ->
    expr_form (form l lk (t_ "let") (Sexp ld (RList defs) :: body)) (ELet ds e)
| ef_if l lk a b c ea eb ec : reads_expr a ea -> reads_expr b eb -> reads_expr c ec -> expr_form (form l lk (t_ "if") [a; b; c]) (EIf ea eb ec)
| ef_while l lk a body ea e : reads_expr a ea -> reads_body body e -> expr_form (form l lk (t_ "while") (a :: body)) (EWhile ea e)
| ef_match l lk a cs ea es : reads_expr a ea -> Forall2 reads_clause cs es -> expr_form (form l lk (t_ "match") (a :: cs)) (EMatch ea es)
| ef_return l lk : expr_form (form l lk (t_ "return") []) (EReturn None)
| ef_return_value l lk a e : reads_expr a e -> expr_form (form l lk (t_ "return") [a]) (EReturn (Some e))
| ef_unit l : expr_form (word l (t_ "unit")) (ECon (tuple_con W 0))
| ef_empty l lk : expr_form (form l lk (t_ ":") []) (ECon (tuple_con W 0))
| ef_tuple l lk ss es : ss <> [] -> Forall2 reads_expr ss es -> expr_form (form l lk (t_ ":") ss) (EApp (ECon (tuple_con W (List.length ss))) es)
| ef_use l x : x <> t_ "unit" -> expr_form (word l x) (EUse (Unres {| s_loc := l; s_name := x |}))
| ef_native_value l x c : native W x = Some c -> In (variant_of W c) [VFunction; VCFunction; VBuiltinOp; VClassMethod] ->
    expr_form (Sexp l (RNative x)) (EUse (Res c))
| ef_native_con l x c : native W x = Some c -> is_value_con (variant_of W c) = true -> expr_form (Sexp l (RNative x)) (ECon c)
| ef_app l s args e es : no_word expr_words s -> reads_expr s e -> Forall2 reads_expr args es -> expr_form (Sexp l (RList (s :: args))) (EApp e es)
| ef_quote l lk s : expr_form (form l lk (t_ "quote") [s]) (EConst (number W (Quoted s)))
| ef_capture l lk lx x : expr_form (form l lk (t_ "capture") [word lx x]) (ECapture (Unres {| s_loc := lx; s_name := x |}))
| ef_annotate l lk s ann e sc : reads_expr s e -> reads_scheme ann sc -> monomorphic sc ->
    expr_form (form l lk (t_ "annotate") (s :: ann)) (EAnnotate e (sc_body sc)).

(** No macro is applied anywhere inside [s]. *)
Inductive no_macros : sexp -> Prop :=
| no_macros_intro s : (forall c, ~ macro_call s c) ->
    (forall l ss, s = Sexp l (RList ss) -> Forall no_macros ss) -> no_macros s.
(** Every list inside [s] has at most 17 elements, and every native value holds a construct. *)
Inductive moderate : sexp -> Prop :=
| moderate_intro s : (forall l ss, s = Sexp l (RList ss) -> List.length ss <= 17 /\ Forall moderate ss) ->
    (forall l x, s = Sexp l (RNative x) -> native W x <> None) -> moderate s.
End Grammar.

(** The ids of the binders of a tree. *)
Definition ids_scheme (s : scheme) : list N := map (fun p => b_id (tp_binder p)) (sc_params s).
Definition ids_opt {A} (f : A -> list N) (o : option A) : list N := match o with Some a => f a | None => [] end.
Fixpoint ids_pattern (p : pattern) : list N :=
  match p with
  | PVar b o => b_id b :: ids_opt ids_pattern o
  | PDecon _ (Some ps) => flat_map ids_pattern ps
  | _ => []
  end.
Fixpoint ids_expr (e : expr) : list N :=
  match e with
  | EApp f args => ids_expr f ++ flat_map ids_expr args
  | EAnnotate e _ => ids_expr e
  | ELet ds e => flat_map ids_def ds ++ ids_expr e
  | ESeq es e => flat_map ids_expr es ++ ids_expr e
  | EIf a b c => ids_expr a ++ ids_expr b ++ ids_expr c
  | EWhile a b => ids_expr a ++ ids_expr b
  | EMatch a cs => ids_expr a ++ flat_map (fun c => ids_pattern (fst c) ++ ids_expr (snd c)) cs
  | EReturn o => ids_opt ids_expr o
  | _ => []
  end
with ids_def (d : def) : list N :=
  match d with
  | DVar b _ e => b_id b :: ids_expr e
  | DFun b sc ps e => b_id b :: ids_opt ids_scheme sc ++ map b_id ps ++ ids_expr e
  end.
(** All different, and given out while the generator went from [c] to [c']. *)
Definition fresh (c c' : N) (ids : list N) : Prop := NoDup ids /\ Forall (fun i => (c < i <= c')%N) ids.

(** How deep an S-expression is. *)
Fixpoint depth (s : sexp) : nat :=
  match s with
  | Sexp _ (RList ss) => S (list_max (map depth ss))
  | _ => 1
  end.

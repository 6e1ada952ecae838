(** What it means that the matches of a module are complete. *)
From Verif.Base Require Import Base.
From Verif.Pattern Require Import Model Spec.
From Verif.Resolve Require Import Model.
From Verif.Validate Require Import Model.

(** The direct parts of an expression. *)
Definition body_of_def (d : def) : expr := match d with DVar _ _ init => init | DFun _ _ _ body => body end.
Definition parts (e : expr) : list expr :=
  match e with
  | EUse _ | ECon _ | EConst _ | ECapture _ => []
  | EApp callee args => callee :: args
  | EAnnotate body _ => [body]
  | ELet defs body => map body_of_def defs ++ [body]
  | ESeq stmts ret => stmts ++ [ret]
  | EIf c t e => [c; t; e]
  | EWhile c b => [c; b]
  | EMatch target clauses => target :: map snd clauses
  | EReturn (Some e) => [e]
  | EReturn None => []
  end.
Inductive inside (m : expr) : expr -> Prop :=
| here : inside m m
| deeper a e : In a (parts e) -> inside m a -> inside m e.

(** Expressions written in a module. *)
Inductive body_of (r : root) : expr -> Prop :=
| b_function f : In f (r_functions r) -> body_of r (f_body f)
| b_macro m : In m (r_macros r) -> body_of r (ma_body m)
| b_default c m e : In c (r_classes r) -> In m (cl_methods c) -> cm_default m = Some e -> body_of r e
| b_method i m : In i (r_instances r) -> In m (in_methods i) -> body_of r (im_body m)
| b_init e : In (Eval e) (r_inits r) -> body_of r e.
Definition written (r : root) (m : expr) : Prop := exists e, body_of r e /\ inside m e.

(** Which values a pattern of the program matches. Constructors and constants are those of
    [Pattern/Spec.v]. *)
Definition fields_of (o : option (list pattern)) : list pattern := match o with Some l => l | None => [] end.
Inductive fits : pattern -> value -> Prop :=
| f_var b v : fits (PVar b None) v
| f_as b p v : fits p v -> fits (PVar b (Some p)) v
| f_wild v : fits PWildcard v
| f_decon c o args : Forall2 fits (fields_of o) args -> fits (PDecon (Res c) o) (VCon c args)
| f_const k : fits (PConst k) (VConst k).

(** The types of patterns. *)
Section Typing.
Variable is_sexp : N -> bool.
Variable S : types.
Inductive typed : pattern -> type S -> Prop :=
| ty_var b t : typed (PVar b None) t
| ty_as b p t : typed p t -> typed (PVar b (Some p)) t
| ty_wild t : typed PWildcard t
| ty_decon c o cs fs t : cons_of S t = Some cs -> In (c, fs) cs -> Forall2 typed (fields_of o) fs -> typed (PDecon (Res c) o) t
| ty_const k t : cons_of S t = None -> consts_of S t k -> is_sexp k = false -> typed (PConst k) t.
Definition clauses_typed (clauses : list (pattern * expr)) (t : type S) : Prop := forall p body, In (p, body) clauses -> typed p t.
(** The clauses of every match have patterns of one type. *)
Definition module_typed (r : root) : Prop :=
  forall target clauses, written r (EMatch target clauses) -> exists t, clauses_typed clauses t.
(** The tables of the modules have the constructors of the types. *)
Definition declared (type_con_of : N -> option N) (value_cons : N -> option (list finite_con)) : Prop :=
  forall t cs c fs, cons_of S t = Some cs -> In (c, fs) cs -> exists d, type_con_of c = Some d /\ value_cons d = Some (map con_of cs).

(** Some clause handles the value; each clause handles a value that no clause before it handles. *)
Definition handled (clauses : list (pattern * expr)) (v : value) : Prop := exists p body, In (p, body) clauses /\ fits p v.
Definition needed (t : type S) (clauses : list (pattern * expr)) : Prop :=
  forall pre p body post, clauses = pre ++ (p, body) :: post -> exists v, has_type S v t /\ fits p v /\ ~ handled pre v.
Definition rich : Prop := inhabited S /\ unbounded S.

(** The clauses of a match over a type deserve the verdict. *)
Definition verdict (t : type S) (clauses : list (pattern * expr)) (r : match_result) : Prop :=
  match r with
  | MatchOk => (forall v, has_type S v t -> handled clauses v) /\ (rich -> needed t clauses)
  | UselessPattern q => exists pre p body post, clauses = pre ++ (p, body) :: post /\ (forall v, matches q v <-> fits p v) /\
      (forall v, has_type S v t -> fits p v -> handled pre v) /\ (rich -> needed t pre)
  | NonExhaustivePattern qs => qs <> [] /\ (rich -> needed t clauses /\
      forall q, In q qs -> exists v, has_type S v t /\ matches q v /\ ~ handled clauses v)
  end.
End Typing.

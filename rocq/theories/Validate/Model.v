(** Model of llrl0/src/module/sema/validator.rs, over the check of one match in [Pattern/Model.v] and the
    syntax trees of [Resolve/Model.v]. *)
From Verif.Base Require Import Base.
From Verif.Pattern Require Import Model.
From Verif.Resolve Require Import Model.

Section Validator.
(** What validator.rs:68-102 asks of the modules: the type of a value constructor, the value constructors
    of a type with their numbers of fields (pattern.rs:113-125). Type and value constructors are numbered.
    [is_sexp] tells the constants that are quoted S-expressions. *)
Variable type_con_of : N -> option N.
Variable value_cons : N -> option (list finite_con).
Variable is_sexp : N -> bool.

(** validator.rs:34-38 [Context]: two hash maps, here lists of pairs where the first one counts. *)
Fixpoint lookup {A} (k : N) (l : list (N * A)) : option A :=
  match l with [] => None | (k', a) :: l => if (k =? k')%N then Some a else lookup k l end.
Record context := { finite_cons : list (N * list finite_con); con_tags : list (N * tag) }.

(** validator.rs:68-84 [value_cons_of]. *)
Definition value_cons_of (t : N) (x : context) : outcome (context * list finite_con) :=
  match lookup t (finite_cons x) with
  | Some l => Ret (x, l)
  | None =>
    match value_cons t with
    | Some l => Ret ({| finite_cons := (t, l) :: finite_cons x; con_tags := con_tags x |}, l)
    | None => Panic
    end
  end.

(** validator.rs:86-103 [tag_of]. *)
Definition tag_of (c : N) (x : context) : outcome (context * tag) :=
  match lookup c (con_tags x) with
  | Some t => Ret (x, t)
  | None =>
    match type_con_of c with
    | None => Panic
    | Some t =>
      let* (x, sibs) := value_cons_of t x in
      match find (fun con => (use_ con =? c)%N) sibs with
      | None => Panic
      | Some con => Ret ({| finite_cons := finite_cons x; con_tags := (c, Finite con sibs) :: con_tags x |}, Finite con sibs)
      end
    end
  end.

(** [Iterator::map] with a closure that changes the context. *)
Section Each.
  Context {A B : Type}.
  Variable f : A -> context -> outcome (context * B).
  Fixpoint each (l : list A) (x : context) : outcome (context * list B) :=
    match l with
    | [] => Ret (x, [])
    | a :: l => let* (x, b) := f a x in let* (x, l) := each l x in Ret (x, b :: l)
    end.
End Each.

(** validator.rs:105-131 [simplify_pattern]. *)
Fixpoint simplify_pattern (p : pattern) (x : context) : outcome (context * Pattern.Model.pattern) :=
  match p with
  | PVar _ (Some p) => simplify_pattern p x
  | PVar _ None => Ret (x, PWild)
  | PWildcard => Ret (x, PWild)
  | PDecon u fields =>
    let* (x, ps) := match fields with Some l => each simplify_pattern l x | None => Ret (x, []) end in
    match u with
    | Unres _ => Panic
    | Res c => let* (x, t) := tag_of c x in Ret (x, PCon t ps)
    end
  | PConst k => if is_sexp k then Panic else Ret (x, PCon (Const k) [])
  end.

(** An error of validator.rs:41-66 at an expression; the code keeps the id of the expression. *)
Record fault := { f_match : expr; f_reason : match_result }.
Definition visit : Type := context -> outcome (context * option fault).
Definition then_ (m m' : visit) : visit := fun x =>
  let* (x, r) := m x in match r with Some e => Ret (x, Some e) | None => m' x end.
Section All.
  Context {A : Type}.
  Variable f : A -> visit.
  Fixpoint all_ (l : list A) : visit :=
    match l with [] => fun x => Ret (x, None) | a :: l => then_ (f a) (all_ l) end.
End All.

(** validator.rs:16-21, 41-66: a match is checked, anything else passes. *)
Definition check_expr (fuel : nat) (e : expr) : visit := fun x =>
  match e with
  | EMatch _ clauses =>
    let* (x, ps) := each (fun cl => simplify_pattern (fst cl)) clauses x in
    let* r := validate_match fuel ps in
    Ret (x, match r with MatchOk => None | r => Some {| f_match := e; f_reason := r |} end)
  | _ => Ret (x, None)
  end.

(** ast/expr.rs:20-71 [Dfs for Expr]. *)
Fixpoint dfs (f : expr -> visit) (e : expr) : visit :=
  then_
    match e with
    | EUse _ | ECon _ | EConst _ | ECapture _ => fun x => Ret (x, None)
    | EApp callee args => then_ (dfs f callee) (all_ (dfs f) args)
    | EAnnotate body _ => dfs f body
    | ELet defs body => then_ (all_ (fun d => match d with DVar _ _ init => dfs f init | DFun _ _ _ body => dfs f body end) defs) (dfs f body)
    | ESeq stmts ret => then_ (all_ (dfs f) stmts) (dfs f ret)
    | EIf c t e => then_ (dfs f c) (then_ (dfs f t) (dfs f e))
    | EWhile c b => then_ (dfs f c) (dfs f b)
    | EMatch target clauses => then_ (dfs f target) (all_ (fun cl => let '(_, body) := cl in dfs f body) clauses)
    | EReturn o => match o with Some e => dfs f e | None => fun x => Ret (x, None) end
    end
    (f e).

(** ast/root.rs:136-148 [Root::expressions]; the tables are visited in any order. *)
Definition expressions (r : root) : list expr :=
  map f_body (r_functions r) ++ map ma_body (r_macros r) ++
  flat_map (fun c => flat_map (fun m => match cm_default m with Some e => [e] | None => [] end) (cl_methods c)) (r_classes r) ++
  flat_map (fun i => map im_body (in_methods i)) (r_instances r) ++
  flat_map (fun i => match i with Eval e => [e] | EnsureInitialized _ => [] end) (r_inits r).

(** validator.rs:7-32 [run]. *)
Definition run (fuel : nat) (r : root) : outcome (option fault) :=
  let* (_, e) := all_ (dfs (check_expr fuel)) (expressions r) {| finite_cons := []; con_tags := [] |} in Ret e.
End Validator.

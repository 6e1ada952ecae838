(** What unification of kinds means, independently of how it is computed. *)
From Verif.Base Require Import Base Vec.
From Verif.Kind Require Import Model.

(** Finite kind terms over free names. *)
Inductive gkind :=
| GName (n : nat)
| GType
| GConstraint
| GSatisfaction
| GValue
| GMacro
| GFun (args : list gkind) (ret : gkind).

(** The term a kind stands for when every pool variable stands for the given term. *)
Definition interp (s : var -> gkind) (k : kind) : gkind :=
  match k with
  | KVar v => s v
  | KType => GType
  | KConstraint => GConstraint
  | KSatisfaction => GSatisfaction
  | KValue => GValue
  | KMacro => GMacro
  | KFun args ret => GFun (map s (vars_iter args)) (s ret)
  end.

(** An assignment of finite terms that satisfies every binding recorded in the context. *)
Definition solution (pool : context) (s : var -> gkind) : Prop :=
  forall i k, nth_error pool i = Some k -> s i = interp s k.

(** Variables without a binding. *)
Definition unresolved (pool : context) (v : var) : Prop := nth_error pool v = Some (KVar v).

(** The solution that leaves every unresolved variable as itself. *)
Definition canonical (pool : context) (s : var -> gkind) : Prop :=
  solution pool s /\ forall v, unresolved pool v -> s v = GName v.

(** A kind whose outermost constructor is known, or an unresolved variable. *)
Definition head_normal (pool : context) (k : kind) : Prop :=
  match k with KVar v => unresolved pool v | _ => True end.

(** Every free name replaced by the given term. *)
Fixpoint fill (d t : gkind) : gkind :=
  match t with
  | GName _ => d
  | GFun args ret => GFun (map (fill d) args) (fill d ret)
  | _ => t
  end.

(** The term as a syntax-tree kind; names are errors, functions without arguments are their result
    (ast/kind.rs [Kind::fun]). *)
Fixpoint ast_of (t : gkind) : ast_kind :=
  match t with
  | GName v => AError v
  | GType => AType
  | GConstraint => AConstraint
  | GSatisfaction => ASatisfaction
  | GValue => AValue
  | GMacro => AMacro
  | GFun args ret => ast_fun (map ast_of args) (ast_of ret)
  end.

(** A function kind applied to no arguments is its result (kind.rs:226-234). *)
Definition gfun (args : list gkind) (ret : gkind) : gkind :=
  match args with [] => ret | _ => GFun args ret end.

(** Syntax-tree kinds as they are written by users: no errors. *)
Inductive proper : ast_kind -> Prop :=
| p_type : proper AType
| p_constraint : proper AConstraint
| p_satisfaction : proper ASatisfaction
| p_value : proper AValue
| p_macro : proper AMacro
| p_fun args ret : Forall proper args -> proper ret -> proper (AFun args ret).

(** Functions without arguments collapsed to their result, everywhere. *)
Fixpoint collapse (k : ast_kind) : ast_kind :=
  match k with
  | AFun args ret => ast_fun (map collapse args) (collapse ret)
  | k => k
  end.

(** Contexts reachable through the public API, with the kinds handed out so far. *)
Inductive reachable : context -> list kind -> Prop :=
| r_new : reachable new_context [KType; KConstraint; KSatisfaction; KValue; KMacro]
| r_var pool ks k pool' : reachable pool ks -> new_var pool = (k, pool') -> reachable pool' (k :: ks)
| r_fun pool ks args ret k pool' : reachable pool ks -> incl args ks -> In ret ks ->
    new_fun pool args ret = (k, pool') -> reachable pool' (k :: ks)
| r_resolve pool ks a k pool' : reachable pool ks -> In a ks ->
    conv (fun n => resolve n pool a) (k, pool') -> reachable pool' (k :: ks)
| r_unify pool ks a b pool' r : reachable pool ks -> In a ks -> In b ks ->
    conv (fun n => unify n pool a b) (pool', r) -> reachable pool' ks
| r_default pool ks a d pool' r : reachable pool ks -> In a ks ->
    In d [KType; KConstraint; KSatisfaction; KValue; KMacro] ->
    conv (fun n => default_vars n pool a d) (pool', r) -> reachable pool' ks
| r_import pool ks a k pool' : reachable pool ks -> import pool a = Ret (k, pool') ->
    reachable pool' (k :: ks)
| r_export pool ks a t pool' : reachable pool ks -> In a ks ->
    conv (fun n => export n pool a) (t, pool') -> reachable pool' ks.

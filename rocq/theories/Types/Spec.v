(** What unification of types means, independently of how it is computed. *)
From Verif.Base Require Import Base Vec.
From Verif.Types Require Import Model.

(** Finite type terms over free names; a name carries its kind and level. *)
Inductive gty :=
| TName (n : nat) (k : ast_kind) (lv : level)
| TCon (c : con)
| TApp (callee : gty) (args : list gty)
| TGen (g : gen) (lv : level).

(** The kind of a term, if its callees have function kinds. *)
Fixpoint kind_of (env : kind_env) (t : gty) : option ast_kind :=
  match t with
  | TName _ k _ => Some k
  | TCon c => Some (con_kind env c)
  | TApp callee _ => match kind_of env callee with Some (AFun _ ret) => Some ret | _ => None end
  | TGen g _ => Some (gen_kind env g)
  end.

(** The names and type parameters a term is made of, from left to right. *)
Fixpoint leaves (t : gty) : list gty :=
  match t with
  | TApp callee args => leaves callee ++ flat_map leaves args
  | _ => [t]
  end.

(** No name or type parameter of the term is deeper than [lv]. *)
Definition within (lv : level) (t : gty) : Prop :=
  forall x, In x (leaves t) -> match x with TName _ _ l | TGen _ l => (l <= lv)%N | _ => True end.

(** The term a type stands for when every pool variable stands for the given term. *)
Definition interp (s : var -> gty) (t : ty) : gty :=
  match t with
  | YVar v _ _ => s v
  | YCon c => TCon c
  | YApp callee args => TApp (s callee) (map s (vars_iter args))
  | YGen g lv => TGen g lv
  end.

(** An assignment satisfying every binding recorded in the context. *)
Definition equations (pool : context) (s : var -> gty) : Prop :=
  forall i t, nth_error pool i = Some t -> s i = interp s t.

(** Variables without a binding, with their kind and level. *)
Definition unresolved (pool : context) (v : var) (k : ast_kind) (lv : level) : Prop :=
  nth_error pool v = Some (YVar v k lv).

(** Unresolved variables stand for terms of their kind, not deeper than their level. *)
Definition fits (env : kind_env) (pool : context) (s : var -> gty) : Prop :=
  forall v k lv, unresolved pool v k lv -> kind_of env (s v) = Some k /\ within lv (s v).

Definition solution (env : kind_env) (pool : context) (s : var -> gty) : Prop :=
  equations pool s /\ fits env pool s.

(** The solution that leaves every unresolved variable as itself. *)
Definition canonical (pool : context) (s : var -> gty) : Prop :=
  equations pool s /\ forall v k lv, unresolved pool v k lv -> s v = TName v k lv.

(** A type whose outermost constructor is known, or an unresolved variable. *)
Definition head_normal (pool : context) (t : ty) : Prop :=
  match t with YVar v k lv => unresolved pool v k lv | _ => True end.

(** The type stands for one term without names. *)
Definition ground (pool : context) (t : ty) : Prop :=
  exists g, (forall s, equations pool s -> interp s t = g) /\ forall n k lv, ~ In (TName n k lv) (leaves g).

(** Equality up to the levels of type parameters. *)
Fixpoint erase (t : gty) : gty :=
  match t with
  | TApp callee args => TApp (erase callee) (map erase args)
  | TGen g _ => TGen g top
  | t => t
  end.

(** Application to no arguments is the callee (types.rs:398-406). *)
Definition gapp (callee : gty) (args : list gty) : gty :=
  match args with [] => callee | _ => TApp callee args end.

(** Replacing type parameters. *)
Fixpoint replace_gens (m : gen -> option gty) (t : gty) : gty :=
  match t with
  | TApp callee args => gapp (replace_gens m callee) (map (replace_gens m) args)
  | TGen g lv => match m g with Some t => t | None => TGen g lv end
  | t => t
  end.

(** Every free name replaced by the given term. *)
Fixpoint fill (d t : gty) : gty :=
  match t with
  | TName _ _ _ => d
  | TApp callee args => TApp (fill d callee) (map (fill d) args)
  | _ => t
  end.

(** The term as a syntax-tree type. *)
Fixpoint ast_of (t : gty) : ast_type :=
  match t with
  | TName v _ _ => ATError v
  | TCon c => ACon c
  | TApp callee args => ast_app (ast_of callee) (map ast_of args)
  | TGen g _ => AGen g
  end.

(** The kind of a syntax-tree type without errors, if it is well-kinded: an application must be of a
    callee with a function kind. *)
Fixpoint ast_type_kind (env : kind_env) (t : ast_type) : option ast_kind :=
  match t with
  | ACon c => Some (con_kind env c)
  | AGen g => Some (gen_kind env g)
  | ATError _ => None
  | AApp callee args =>
    if forallb (fun a => match ast_type_kind env a with Some _ => true | None => false end) args then
      match args, ast_type_kind env callee with
      | [], k => k
      | _, Some (AFun _ ret) => Some ret
      | _, _ => None
      end
    else None
  end.

(** Applications to no arguments removed. *)
Fixpoint collapse_type (t : ast_type) : ast_type :=
  match t with
  | AApp callee args => ast_app (collapse_type callee) (map collapse_type args)
  | t => t
  end.

(** Contexts reachable through the public API, with the types handed out so far. Applications are
    made only of callees with a function kind, as kind inference ensures. *)
Inductive reachable (env : kind_env) : context -> list ty -> Prop :=
| r_new : reachable env new_context []
| r_con pool ts c : reachable env pool ts -> reachable env pool (YCon c :: ts)
| r_gen pool ts g lv : reachable env pool ts -> reachable env pool (YGen g lv :: ts)
| r_var pool ts k lv t pool' : reachable env pool ts -> new_var pool k lv = (t, pool') ->
    reachable env pool' (t :: ts)
| r_app pool ts callee args ks ret p t pool' : reachable env pool ts -> In callee ts -> incl args ts ->
    (args = [] \/ conv (fun n => get_kind env n pool callee) (AFun ks ret, p)) ->
    new_app pool callee args = (t, pool') -> reachable env pool' (t :: ts)
| r_resolve pool ts a t pool' : reachable env pool ts -> In a ts ->
    conv (fun n => resolve n pool a) (t, pool') -> reachable env pool' (t :: ts)
| r_kind pool ts a k pool' : reachable env pool ts -> In a ts ->
    conv (fun n => get_kind env n pool a) (k, pool') -> reachable env pool' ts
| r_unify pool ts a b pool' r : reachable env pool ts -> In a ts -> In b ts ->
    conv (fun n => unify env n pool a b) (pool', r) -> reachable env pool' ts
| r_match pool ts a b pool' r : reachable env pool ts -> In a ts -> In b ts ->
    conv (fun n => match_to_right env n pool a b) (pool', r) -> reachable env pool' ts
| r_equal pool ts a b pool' r : reachable env pool ts -> In a ts -> In b ts ->
    conv (fun n => equal n pool a b) (r, pool') -> reachable env pool' ts
| r_deepest pool ts a lv pool' : reachable env pool ts -> In a ts ->
    conv (fun n => compute_deepest_level n pool a) (lv, pool') -> reachable env pool' ts
| r_get_vars pool ts a lv vs pool' : reachable env pool ts -> In a ts ->
    conv (fun n => get_vars n pool a lv) (vs, pool') -> reachable env pool' ts
| r_export pool ts a t pool' : reachable env pool ts -> In a ts ->
    conv (fun n => export n pool a) (t, pool') -> reachable env pool' ts
| r_default pool ts a c pool' r : reachable env pool ts -> In a ts ->
    conv (fun n => default_vars env n pool a (YCon c)) (pool', r) -> reachable env pool' ts
| r_import pool ts a k t pool' : reachable env pool ts -> ast_type_kind env a = Some k ->
    import pool a = Ret (t, pool') -> reachable env pool' (t :: ts)
| r_subst pool ts m a t pool' : reachable env pool ts -> In a ts ->
    (forall g u, m g = Some u -> In u ts /\ exists p, conv (fun n => get_kind env n pool u) (gen_kind env g, p)) ->
    conv (fun n => subst n pool m a) (t, pool') -> reachable env pool' (t :: ts).

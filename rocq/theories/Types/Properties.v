(** C10: unification of types. *)
From Verif.Base Require Import Base Vec.
From Verif.Types Require Import Model Spec ProofsExact.

(** In every reachable context, unifying two types terminates without panic. It succeeds exactly when
    some solution of the context (respecting the kinds and levels of the unresolved variables) makes the
    two types equal, and then the solutions of the new context are exactly those. The occurs check only
    fails when no finite terms at all make the types equal. *)
Theorem type_unify_exact : forall env pool ts a b, reachable env pool ts -> In a ts -> In b ts ->
  exists pool' r, conv (fun n => unify env n pool a b) (pool', r) /\
    (forall s, equations pool' s -> equations pool s) /\
    match r with
    | Ok => forall s, solution env pool' s <-> solution env pool s /\ interp s a = interp s b
    | Err e => (~ exists s, solution env pool s /\ interp s a = interp s b) /\
        (e = OccursCheckFailed -> ~ exists s, equations pool s /\ interp s a = interp s b)
    end.
Proof. exact unify_exact. Qed.
Print Assumptions type_unify_exact.

(** Reachable contexts are acyclic: whatever finite terms the unresolved variables stand for, there is
    one and only one way to read the types handed out as finite terms. *)
Theorem type_contexts_solvable : forall env pool ts (f : var -> gty), reachable env pool ts ->
  exists s, equations pool s /\ (forall v k lv, unresolved pool v k lv -> s v = f v) /\
    forall s', equations pool s' -> (forall v k lv, unresolved pool v k lv -> s' v = f v) ->
      forall t, In t ts -> interp s' t = interp s t.
Proof. exact solvable. Qed.
Print Assumptions type_contexts_solvable.

(** Resolving terminates without panic, gives the outermost constructor or an unresolved variable, and
    shortening paths changes nothing. *)
Theorem type_resolve_exact : forall env pool ts a, reachable env pool ts -> In a ts ->
  exists t pool', conv (fun n => resolve n pool a) (t, pool') /\ head_normal pool' t /\
    (forall s, equations pool' s <-> equations pool s) /\
    (forall v k lv, unresolved pool' v k lv <-> unresolved pool v k lv) /\
    (forall s, equations pool s -> interp s t = interp s a).
Proof. exact resolve_exact. Qed.
Print Assumptions type_resolve_exact.

(** Asking for the kind of a type never panics, and answers the kind of the term the type stands for
    in every solution. *)
Theorem type_kind_exact : forall env pool ts a, reachable env pool ts -> In a ts ->
  exists k pool', conv (fun n => get_kind env n pool a) (k, pool') /\
    (forall s, equations pool' s <-> equations pool s) /\
    (forall v k lv, unresolved pool' v k lv <-> unresolved pool v k lv) /\
    (forall s, solution env pool s -> kind_of env (interp s a) = Some k).
Proof. exact kind_exact. Qed.
Print Assumptions type_kind_exact.

(** Matching against a type without variables is exact; in general a successful match makes the types
    equal and adds nothing else. *)
Theorem type_match_exact : forall env pool ts a b, reachable env pool ts -> In a ts -> In b ts ->
  exists pool' r, conv (fun n => match_to_right env n pool a b) (pool', r) /\
    (forall s, equations pool' s -> equations pool s) /\
    match r with
    | Ok => forall s, solution env pool' s <-> solution env pool s /\ interp s a = interp s b
    | Err _ => ground pool b -> ~ exists s, solution env pool s /\ interp s a = interp s b
    end.
Proof. exact match_exact. Qed.
Print Assumptions type_match_exact.

(** Matching is meant to bind only variables of the left side (types.rs:172-205), but if a variable is
    repeated on the left it binds a variable of the right side, although the sides share no variable. *)
Theorem type_match_one_sided_refuted : exists env pool ts a b x pool', reachable env pool ts /\ In a ts /\ In b ts /\
  (forall s, canonical pool s -> ~ exists n k lv, In (TName n k lv) (leaves (interp s a)) /\ In (TName n k lv) (leaves (interp s b))) /\
  (exists k lv, unresolved pool x k lv) /\ (forall s, canonical pool s -> exists k lv, In (TName x k lv) (leaves (interp s b))) /\
  conv (fun n => match_to_right env n pool a b) (pool', Ok) /\ ~ (exists k lv, unresolved pool' x k lv).
Proof. exact match_binds_right. Qed.
Print Assumptions type_match_one_sided_refuted.

(** A failed unification can leave behind a binding which no solution of the context before it allows,
    the binding being made before its levels are checked (types.rs:154-156). *)
Theorem type_failed_unify_levels_refuted : exists env pool ts a b pool', reachable env pool ts /\ In a ts /\ In b ts /\
  (exists s, solution env pool s) /\
  conv (fun n => unify env n pool a b) (pool', Err Mismatch) /\
  (exists lv, unresolved pool 0 AType lv /\ forall s, equations pool' s -> ~ within lv (s 0%nat)).
Proof. exact failed_unify_levels. Qed.
Print Assumptions type_failed_unify_levels_refuted.

(** [equal] decides whether the terms are equal, levels of type parameters apart. *)
Theorem type_equal_exact : forall env pool ts a b s0, reachable env pool ts -> In a ts -> In b ts -> canonical pool s0 ->
  exists r pool', conv (fun n => equal n pool a b) (r, pool') /\ (forall s, equations pool' s <-> equations pool s) /\
    (r = true <-> erase (interp s0 a) = erase (interp s0 b)).
Proof. exact equal_is_exact. Qed.
Print Assumptions type_equal_exact.

(** The deepest level is the least bound of the levels in the term, and [get_vars] finds exactly the
    variables of the term at the given level or deeper. *)
Theorem type_levels_exact : forall env pool ts a s0, reachable env pool ts -> In a ts -> canonical pool s0 ->
  (exists lv pool', conv (fun n => compute_deepest_level n pool a) (lv, pool') /\ (forall s, equations pool' s <-> equations pool s) /\
     within lv (interp s0 a) /\ forall lv', within lv' (interp s0 a) -> (lv <= lv')%N) /\
  (forall lv, exists vs pool', conv (fun n => get_vars n pool a lv) (vs, pool') /\ (forall s, equations pool' s <-> equations pool s) /\
     forall v, In v vs <-> exists k l, In (TName v k l) (leaves (interp s0 a)) /\ (lv <= l)%N).
Proof. exact levels_exact. Qed.
Print Assumptions type_levels_exact.

(** Defaulting the variables of a type to a type constructor binds exactly its variables; it fails only
    if some variable has another kind. *)
Theorem type_default_vars_exact : forall env pool ts a c s0, reachable env pool ts -> In a ts -> canonical pool s0 ->
  exists pool' r, conv (fun n => default_vars env n pool a (YCon c)) (pool', r) /\
    (forall s, equations pool' s -> equations pool s) /\
    match r with
    | Ok => forall s, solution env pool' s <-> solution env pool s /\ interp s a = fill (TCon c) (interp s0 a)
    | Err _ => exists v k lv, unresolved pool v k lv /\ k <> con_kind env c
    end.
Proof. exact default_is_exact. Qed.
Print Assumptions type_default_vars_exact.

(** A new variable is fresh and unconstrained; an application is the application of its parts, and
    making it constrains nothing. *)
Theorem type_constructors_exact : forall env pool ts, reachable env pool ts ->
  (forall k lv t pool', new_var pool k lv = (t, pool') -> exists v, t = YVar v k lv /\ unresolved pool' v k lv /\
     (forall k' lv', ~ unresolved pool v k' lv') /\
     (forall w k' lv', w <> v -> (unresolved pool' w k' lv' <-> unresolved pool w k' lv')) /\
     (forall s, equations pool' s <-> equations pool s)) /\
  (forall callee args ks ret p t pool', In callee ts -> incl args ts ->
     (args = [] \/ conv (fun n => get_kind env n pool callee) (AFun ks ret, p)) ->
     new_app pool callee args = (t, pool') ->
     (forall s, solution env pool' s -> solution env pool s /\ interp s t = gapp (interp s callee) (map (interp s) args)) /\
     (forall s, solution env pool s -> exists s', solution env pool' s' /\ forall a, In a ts -> interp s' a = interp s a)).
Proof. exact constructors_exact. Qed.
Print Assumptions type_constructors_exact.

(** Substituting types for type parameters replaces them in the term, everywhere and at once, and
    changes nothing else. *)
Theorem type_subst_exact : forall env pool ts m a s0, reachable env pool ts -> In a ts ->
  (forall g u, m g = Some u -> In u ts /\ exists p, conv (fun n => get_kind env n pool u) (gen_kind env g, p)) ->
  canonical pool s0 ->
  exists t pool' s', conv (fun n => subst n pool m a) (t, pool') /\ canonical pool' s' /\
    (forall u, In u ts -> interp s' u = interp s0 u) /\
    interp s' t = replace_gens (fun g => option_map (interp s0) (m g)) (interp s0 a) /\
    (forall s, equations pool' s -> equations pool s) /\
    (forall v k lv, unresolved pool' v k lv <-> unresolved pool v k lv).
Proof. exact subst_exact. Qed.
Print Assumptions type_subst_exact.

(** Exporting writes down the term the type stands for, unresolved variables being errors. *)
Theorem type_export_exact : forall env pool ts a s0, reachable env pool ts -> In a ts -> canonical pool s0 ->
  exists pool', conv (fun n => export n pool a) (ast_of (interp s0 a), pool') /\ forall s, equations pool' s <-> equations pool s.
Proof. exact export_is_exact. Qed.
Print Assumptions type_export_exact.

(** Importing a well-kinded syntax-tree type never panics and keeps its kind; exporting it gives it
    back, applications to no arguments collapsed. *)
Theorem type_import_then_export : forall env pool ts a k, reachable env pool ts -> ast_type_kind env a = Some k ->
  exists t pool' pool'' pool3, import pool a = Ret (t, pool') /\
    conv (fun n => export n pool' t) (collapse_type a, pool'') /\
    conv (fun n => get_kind env n pool' t) (k, pool3) /\
    (forall s, solution env pool' s -> solution env pool s) /\
    (forall s, solution env pool s -> exists s', solution env pool' s' /\ forall a, In a ts -> interp s' a = interp s a).
Proof. exact import_then_export. Qed.
Print Assumptions type_import_then_export.

(** Non-vacuity: [F v v] against [F x y], with [F : type type -> type], in a reachable context: the types
    unify, and all three variables become one; [x] against [F x y] is refused. *)
Example type_unify_example : exists pool f g x y,
  reachable ex_env pool [g; f; YCon 0%N; y; x; YVar 0 AType 1%N] /\
  (exists p, unify ex_env 20 pool f g = Ret (p, Ok) /\ (exists p', equal 20 p x y = Ret (true, p')) /\
     exists p', export 20 p f = Ret (AApp (ACon 0%N) [ATError 2; ATError 2], p')) /\
  (exists p, equal 20 pool x y = Ret (false, p)) /\
  (exists p, unify ex_env 20 pool x g = Ret (p, Err OccursCheckFailed)).
Proof.
  destruct ex_reach as (pool & f & g & x & y & H & -> & -> & -> & -> & ->). eexists _, _, _, _, _. split; [exact H|].
  split; [eexists; split; [vm_compute; reflexivity|split; eexists; vm_compute; reflexivity]|].
  split; eexists; vm_compute; reflexivity.
Qed.

(** C09: unification of kinds. *)
From Verif.Base Require Import Base Vec.
From Verif.Kind Require Import Model Spec ProofsApi.

(** In every reachable context, unifying two kinds terminates without panic. It succeeds exactly when
    some solution of the context makes the two kinds equal, and then the solutions of the new context
    are exactly those. A failed unification still only adds constraints. *)
Theorem kind_unify_exact : forall pool ks a b, reachable pool ks -> In a ks -> In b ks ->
  exists pool' r, conv (fun n => unify n pool a b) (pool', r) /\
    (forall s, solution pool' s -> solution pool s) /\
    match r with
    | Ok => forall s, solution pool' s <-> solution pool s /\ interp s a = interp s b
    | Err _ => ~ exists s, solution pool s /\ interp s a = interp s b
    end.
Proof. exact unify_exact. Qed.
Print Assumptions kind_unify_exact.

(** Reachable contexts are acyclic: whatever finite terms the unresolved variables stand for, there is
    one and only one way to read the kinds handed out as finite terms. *)
Theorem kind_contexts_solvable : forall pool ks (t : var -> gkind), reachable pool ks ->
  exists s, solution pool s /\ (forall v, unresolved pool v -> s v = t v) /\
    forall s', solution pool s' -> (forall v, unresolved pool v -> s' v = t v) ->
      forall k, In k ks -> interp s' k = interp s k.
Proof. exact solvable. Qed.
Print Assumptions kind_contexts_solvable.

(** Resolving terminates without panic, gives the outermost constructor of the kind or an unresolved
    variable, and shortening paths changes nothing. *)
Theorem kind_resolve_exact : forall pool ks a, reachable pool ks -> In a ks ->
  exists k pool', conv (fun n => resolve n pool a) (k, pool') /\ head_normal pool' k /\
    (forall s, solution pool' s <-> solution pool s) /\ (forall v, unresolved pool' v <-> unresolved pool v) /\
    (forall s, solution pool s -> interp s k = interp s a).
Proof. exact resolve_exact. Qed.
Print Assumptions kind_resolve_exact.

(** Defaulting a kind's variables to a basic kind succeeds and binds exactly the variables of the kind. *)
Theorem kind_default_vars_exact : forall pool ks a d s0, reachable pool ks -> In a ks ->
  In d [KType; KConstraint; KSatisfaction; KValue; KMacro] -> canonical pool s0 ->
  exists pool', conv (fun n => default_vars n pool a d) (pool', Ok) /\
    forall s, solution pool' s <-> solution pool s /\ interp s a = fill (interp s0 d) (interp s0 a).
Proof. exact default_vars_exact. Qed.
Print Assumptions kind_default_vars_exact.

(** A new variable is fresh and unconstrained; a new function kind is the function of its parts, and
    making it constrains nothing. *)
Theorem kind_constructors_exact : forall pool ks, reachable pool ks ->
  (forall k pool', new_var pool = (k, pool') -> exists v, k = KVar v /\ unresolved pool' v /\ ~ unresolved pool v /\
     (forall s, solution pool' s <-> solution pool s)) /\
  (forall args ret k pool', incl args ks -> In ret ks -> new_fun pool args ret = (k, pool') ->
     (forall s, solution pool' s -> solution pool s /\ interp s k = gfun (map (interp s) args) (interp s ret)) /\
     (forall s, solution pool s -> exists s', solution pool' s' /\ forall a, In a ks -> interp s' a = interp s a)).
Proof. exact constructors_exact. Qed.
Print Assumptions kind_constructors_exact.

(** Exporting a kind writes down the term it stands for, unresolved variables being errors. *)
Theorem kind_export_exact : forall pool ks a s0, reachable pool ks -> In a ks -> canonical pool s0 ->
  exists pool', conv (fun n => export n pool a) (ast_of (interp s0 a), pool') /\
    forall s, solution pool' s <-> solution pool s.
Proof. exact export_is_exact. Qed.
Print Assumptions kind_export_exact.

(** Importing a kind without errors never panics, constrains nothing that was handed out, and
    exporting the result gives the kind back, functions without arguments collapsed. *)
Theorem kind_import_then_export : forall pool ks a, reachable pool ks -> proper a ->
  exists k pool' pool'', import pool a = Ret (k, pool') /\
    conv (fun n => export n pool' k) (collapse a, pool'') /\
    (forall s, solution pool' s -> solution pool s) /\
    (forall s, solution pool s -> exists s', solution pool' s' /\ forall a, In a ks -> interp s' a = interp s a).
Proof. exact import_then_export. Qed.
Print Assumptions kind_import_then_export.

(** Non-vacuity: [x -> y] against [y -> type] unifies and resolves both variables; after that
    [x] against [x -> type] is refused. *)
Example kind_unify_example :
  let '(x, p1) := new_var new_context in
  let '(y, p2) := new_var p1 in
  let '(f, p3) := new_fun p2 [x] y in
  let '(g, p4) := new_fun p3 [y] KType in
  let '(h, p5) := new_fun p4 [x] x in
  reachable p5 [h; g; f; y; x; KType; KConstraint; KSatisfaction; KValue; KMacro] /\
  (exists p6, unify 10 p5 f g = Ret (p6, Ok) /\ (exists p7, export 10 p6 h = Ret (AFun [AType] AType, p7)) /\
     exists p7, unify 10 p6 f KConstraint = Ret (p7, Err Mismatch)) /\
  (exists p6, unify 10 p5 x h = Ret (p6, Err OccursCheckFailed)).
Proof.
  vm_compute new_var. cbn beta iota. vm_compute new_fun. cbn beta iota.
  split; [|split; [eexists; split; [vm_compute; reflexivity|split; [eexists; vm_compute; reflexivity|eexists; vm_compute; reflexivity]]|eexists; vm_compute; reflexivity]].
  pose proof (r_var _ _ _ _ r_new eq_refl) as H1. pose proof (r_var _ _ _ _ H1 eq_refl) as H2.
  pose proof (fun Ha Hr => r_fun _ _ [KVar 21] (KVar 22) _ _ H2 Ha Hr eq_refl) as H3.
  specialize (H3 ltac:(intros k [<-|[]]; cbn; auto 9) ltac:(cbn; auto 9)).
  pose proof (fun Ha Hr => r_fun _ _ [KVar 22] KType _ _ H3 Ha Hr eq_refl) as H4.
  specialize (H4 ltac:(intros k [<-|[]]; cbn; auto 9) ltac:(cbn; auto 9)).
  pose proof (fun Ha Hr => r_fun _ _ [KVar 21] (KVar 21) _ _ H4 Ha Hr eq_refl) as H5.
  specialize (H5 ltac:(intros k [<-|[]]; cbn; auto 9) ltac:(cbn; auto 9)).
  exact H5.
Qed.

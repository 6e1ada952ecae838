(** Property theorems about the names of a module. Nothing but statements. *)
From Verif.Base Require Import Base Assoc.
From Verif.Scope Require Import Model Spec.
From Verif.Resolve Require Import Model Spec SpecFaults ProofsModule ProofsDone ProofsFaults2 Examples.

(** C52 *)
Theorem name_resolution_exact : forall (variant_of : N -> variant) (order : stash -> stash) (class_of : N -> option class_info)
    (top : table) (G : text -> option N) (r : root),
  (forall st, Permutation (order st) st) -> NoDup (keys top) -> (forall n c, G n = Some c <-> names_in top n c) ->
  classes_known variant_of class_of -> targets_named r -> methods_named r ->
  exists x, run variant_of order class_of top r = Ret x /\ forall r', x = Good r' <-> module_ok variant_of class_of G r r'.
Proof. intros v o c t G r Ho HD HG HC HT HM. exact (run_exact_all v o Ho c t r G HD HG HC HT HM). Qed.
Print Assumptions name_resolution_exact.

Example name_resolution_exact_example :
  classes_known xvariant xclass /\ targets_named (xroot [xfun "y"; xid]) /\ methods_named (xroot [xfun "y"; xid]) /\ NoDup (keys xtop) /\
  run xvariant (@rev _) xclass xtop (xroot [xfun "y"; xid]) = Ret (Good (xroot' [xfun'; xid'])) /\
  run xvariant (@rev _) xclass xtop (xroot [xfun "z"; xid]) = Ret (Bad (NotResolved (at_ 29) (t_ "value") (t_ "z"))).
Proof. exact (conj x_known (conj (x_targets _) (conj (x_methods _) (conj x_nodup (conj x_run x_run_inner))))). Qed.

(** C52 *)
Theorem names_all_resolved : forall (variant_of : N -> variant) (order : stash -> stash) (class_of : N -> option class_info) (top : table) (r r' : root),
  (forall st, Permutation (order st) st) -> NoDup (keys top) -> classes_known variant_of class_of -> targets_named r -> methods_named r ->
  run variant_of order class_of top r = Ret (Good r') -> root_done r'.
Proof. intros v o c t r r' Ho HD HC HT HM. exact (run_done_all v o Ho c t HD HC r r' HT HM). Qed.
Print Assumptions names_all_resolved.

Example names_all_resolved_example : run xvariant (@rev _) xclass xtop (xroot [xfun "y"; xid]) = Ret (Good (xroot' [xfun'; xid'])).
Proof. exact x_run. Qed.

(** C52 *)
Theorem name_resolution_order_irrelevant : forall (variant_of : N -> variant) (order order' : stash -> stash) (class_of : N -> option class_info)
    (top : table) (r r' r2 : root),
  (forall st, Permutation (order st) st) -> (forall st, Permutation (order' st) st) -> NoDup (keys top) ->
  classes_known variant_of class_of -> targets_named r -> methods_named r -> same_module r r2 ->
  run variant_of order class_of top r = Ret (Good r') ->
  exists r2', run variant_of order' class_of top r2 = Ret (Good r2') /\ same_module r' r2'.
Proof. intros v o o' c t r r' r2 Ho Ho' HD HC HT HM. exact (run_order_all v o o' Ho Ho' c t HD HC r r' r2 HT HM). Qed.
Print Assumptions name_resolution_order_irrelevant.

Example name_resolution_order_irrelevant_example :
  run xvariant (@rev _) xclass xtop (xroot [xfun "y"; xid]) = Ret (Good (xroot' [xfun'; xid'])) /\
  run xvariant (fun l => l) xclass xtop (xroot [xid; xfun "y"]) = Ret (Good (xroot' [xid'; xfun'])).
Proof. exact (conj x_run x_run_order). Qed.

(** C52 *)
Theorem name_errors_true : forall (variant_of : N -> variant) (order : stash -> stash) (class_of : N -> option class_info)
    (top : table) (G : text -> option N) (r : root) (e : error),
  (forall st, Permutation (order st) st) -> NoDup (keys top) -> (forall n c, G n = Some c <-> names_in top n c) ->
  classes_known variant_of class_of -> targets_named r -> methods_named r ->
  run variant_of order class_of top r = Ret (Bad e) -> module_fault variant_of class_of G r e.
Proof. intros v o c t G r e Ho HD HG HC HT HM. exact (run_errors_all v o Ho c t r G e HD HG HC HT HM). Qed.
Print Assumptions name_errors_true.

Example name_errors_true_example :
  run xvariant (@rev _) xclass xtop (xroot [xfun "z"; xid]) = Ret (Bad (NotResolved (at_ 29) (t_ "value") (t_ "z"))) /\
  run xvariant (@rev _) xclass xtop (xroot [xdup]) =
    Ret (Bad (Declared (DuplicatedIdentifier (t_ "x") {| loc := at_ 11; construct := 11 |} {| loc := at_ 12; construct := 12 |}))).
Proof. exact (conj x_run_inner x_run_dup). Qed.

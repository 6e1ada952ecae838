(** C37: the types and the smart constructors of the IR. *)
From Verif.Base Require Import Base.
From Verif.Ir Require Import Model Spec Typing Proofs ProofsEval ProofsTyping.

(** Merging nested lets and sequences does not change evaluation. *)
Theorem let_var_exact : forall scoped round32 prim funs vars x h e h' r,
  ev scoped round32 prim funs h e (let_var vars x) h' r <->
  ev scoped round32 prim funs h e (RLetVar vars x) h' r.
Proof. exact let_var_ev. Qed.
Print Assumptions let_var_exact.
Theorem seq_exact : forall scoped round32 prim funs ss x h e h' r,
  ev scoped round32 prim funs h e (seq ss x) h' r <->
  ev scoped round32 prim funs h e (RSeq ss x) h' r.
Proof. exact seq_ev. Qed.
Print Assumptions seq_exact.
Theorem let_cont_exact : forall scoped round32 prim funs conts x h e h' r,
  ev scoped round32 prim funs h e (let_cont conts x) h' r <->
  ev scoped round32 prim funs h e (RLetCont conts x) h' r.
Proof. exact let_cont_ev. Qed.
Print Assumptions let_cont_exact.

(** An expression has at most one result. *)
Theorem evaluation_deterministic : forall scoped round32 prim funs h e x h1 r1 h2 r2,
  ev scoped round32 prim funs h e x h1 r1 -> ev scoped round32 prim funs h e x h2 r2 ->
  h1 = h2 /\ r1 = r2.
Proof. exact ev_deterministic. Qed.
Print Assumptions evaluation_deterministic.

(** A well-typed expression without [>=] of floating-point numbers has a computed type, and every
    value it evaluates to has that type (Ir/Typing.v [sval]), also inside every cell of the heap. *)
Theorem computed_type_exact_partial : forall fields member sigs array_val,
  types_ok fields member -> forall round32 prim, prims_ok fields member sigs array_val prim ->
  forall scoped funs, funs_ok fields member sigs funs ->
  forall S G K R x t h e h' v,
  typed fields member sigs G K R x t -> no_fge x = true ->
  env_ok fields member sigs array_val S G e -> heap_ok fields member sigs array_val S h ->
  ev scoped round32 prim funs h e x h' (RsVal v) ->
  exists s S', t = Some s /\ rt_ty x = Ret (Some (erase s)) /\
    extends S S' /\ heap_ok fields member sigs array_val S' h' /\
    sval fields member sigs array_val S' v s.
Proof. exact values_typed. Qed.
Print Assumptions computed_type_exact_partial.

(** The type computed for [>=] of floating-point numbers is not the type of its value: it is the type
    of the operands (rt.rs:435), but the value is a boolean. *)
Theorem computed_type_exact_refuted : forall round32 : fp -> fp,
  let fields := fun _ => None in let member := fun _ _ => False in let sigs := fun _ => None in
  let array_val := fun _ _ => False in
  types_ok fields member /\ prims_ok fields member sigs array_val ge_prim /\
  typed fields member sigs [] [] CtUnit ge_expr (Some (SCt (CtU 1))) /\
  ev false round32 ge_prim (fun _ => None) [] [] ge_expr [] (RsVal v_true) /\
  exists t, rt_ty ge_expr = Ret (Some t) /\ forall S, ~ vty fields member sigs array_val S v_true t.
Proof. exact ge_refuted. Qed.
Print Assumptions computed_type_exact_refuted.

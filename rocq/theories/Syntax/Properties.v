(** Property theorems about the reading of kinds, types, patterns, expressions and declarations. Nothing but statements. *)
From Verif.Base Require Import Base.
From Verif.Lexer Require Import Model.
From Verif.Sexp Require Import Model.
From Verif.Syntax Require Import Model ModelDecl Spec SpecBare SpecDecl ProofsTop ProofsUnique ProofsDefine Examples ExamplesDecl.
Local Open Scope string_scope.

(** C54 *)
Theorem kinds_follow_grammar : forall (W : world) (n : nat) (s : sexp) (c c' : N) (k : kind),
  build_kind W n s c = Ret (c', Built k) -> reads_kind W s k.
Proof. intros W n s c c' k. intro E. exact (proj1 (kind_built W n s c c' k E)). Qed.
Print Assumptions kinds_follow_grammar.

Example kinds_follow_grammar_example : build_kind xworld 4 xkind 0%N = Ret (0%N, Built (KFun [KType; KFun [KType] KConstraint] KType)).
Proof. exact x_kind. Qed.

(** C54 *)
Theorem refused_kinds_have_no_reading : forall (W : world) (n : nat) (s : sexp) (c c' : N) (err : error),
  build_kind W n s c = Ret (c', Refused err) -> forall k, ~ reads_kind W s k.
Proof. intros W n s c c' err. exact (kind_refused W n s c c' err). Qed.
Print Assumptions refused_kinds_have_no_reading.

Example refused_kinds_have_no_reading_example : build_kind xworld 4 (L [w "->"; w "*"; w "Int"]) 0%N = Ret (0%N, Refused (NoMatch at0 (t_ "<kind>"))).
Proof. exact x_kind_refused. Qed.

(** C54 *)
Theorem reading_kinds_decided : forall (W : world) (s : sexp) (c : N), no_macros W s -> moderate W s ->
  exists c' r, build_kind W (S (depth s)) s c = Ret (c', r) /\ ((exists k, reads_kind W s k) <-> exists k, r = Built k).
Proof. exact kind_decided. Qed.
Print Assumptions reading_kinds_decided.

Example reading_kinds_decided_example : no_macros xworld xkind /\ moderate xworld xkind.
Proof. exact x_kind_fine. Qed.

(** C54 *)
Theorem types_follow_grammar : forall (W : world) (n : nat) (s : sexp) (c c' : N) (t : ty),
  build_type W n s c = Ret (c', Built t) -> reads_type W s t.
Proof. intros W n s c c' t. intro E. exact (proj1 (type_built W n s c c' t E)). Qed.
Print Assumptions types_follow_grammar.

Example types_follow_grammar_example : build_type xworld 5 xtype 0%N =
  Ret (3%N, Built (TApp (TCon 301) [TCon 200; TApp (TCon 202) [TUse (sy "A"); TApp (TUse (sy "List")) [TUse (sy "B")]]])).
Proof. exact x_type. Qed.

(** C54 *)
Theorem refused_types_have_no_reading : forall (W : world) (n : nat) (s : sexp) (c c' : N) (err : error),
  build_type W n s c = Ret (c', Refused err) -> forall t, ~ reads_type W s t.
Proof. intros W n s c c' err. exact (type_refused W n s c c' err). Qed.
Print Assumptions refused_types_have_no_reading.

Example refused_types_have_no_reading_example : build_type xworld 5 (L [w "List"; Sexp at0 five]) 0%N = Ret (1%N, Refused (NoMatch at0 (t_ "<type>"))).
Proof. exact x_type_refused. Qed.

(** C54 *)
Theorem reading_types_decided : forall (W : world) (s : sexp) (c : N), no_macros W s -> moderate W s ->
  exists c' r, build_type W (S (depth s)) s c = Ret (c', r) /\ ((exists t, reads_type W s t) <-> exists t, r = Built t).
Proof. exact type_decided. Qed.
Print Assumptions reading_types_decided.

Example reading_types_decided_example : no_macros xworld xtype /\ moderate xworld xtype.
Proof. exact x_type_fine. Qed.

(** C54 *)
Theorem patterns_follow_grammar : forall (W : world) (n : nat) (s : sexp) (c c' : N) (p : pattern),
  build_pattern W n s c = Ret (c', Built p) -> reads_pattern W s p /\ fresh c c' (ids_pattern p).
Proof. intros W n s c c' p. exact (pattern_built W n s c c' p). Qed.
Print Assumptions patterns_follow_grammar.

Example patterns_follow_grammar_example : build_pattern xworld 5 xpattern 0%N =
  Ret (8%N, Built (PDecon (Res 102) (Some [PVar (bd 1 "x") None; PDecon (Unres (sy "Pair")) (Some [PWildcard; PDecon (Unres (sy "None")) None])]))%N).
Proof. exact x_pattern. Qed.

(** C54 *)
Theorem refused_patterns_have_no_reading : forall (W : world) (n : nat) (s : sexp) (c c' : N) (err : error),
  build_pattern W n s c = Ret (c', Refused err) -> forall p, ~ reads_pattern W s p.
Proof. intros W n s c c' err. exact (pattern_refused W n s c c' err). Qed.
Print Assumptions refused_patterns_have_no_reading.

Example refused_patterns_have_no_reading_example : build_pattern xworld 5 (L [w ":"; L [w "let"; w "x"; w "_"; w "_"]]) 0%N = Ret (0%N, Refused (NoMatch at0 (t_ "<(let <name>) or (let <name> <as-pattern>)>"))).
Proof. exact x_pattern_refused. Qed.

(** C54 *)
Theorem reading_patterns_decided : forall (W : world) (s : sexp) (c : N), no_macros W s -> moderate W s ->
  exists c' r, build_pattern W (S (depth s)) s c = Ret (c', r) /\ ((exists p, reads_pattern W s p) <-> exists p, r = Built p).
Proof. exact pattern_decided. Qed.
Print Assumptions reading_patterns_decided.

Example reading_patterns_decided_example : no_macros xworld xpattern /\ moderate xworld xpattern.
Proof. exact x_pattern_fine. Qed.

(** C54 *)
Theorem expressions_follow_grammar : forall (W : world) (n : nat) (s : sexp) (c c' : N) (e : expr),
  build_expr W n s c = Ret (c', Built e) -> reads_expr W s e /\ fresh c c' (ids_expr e).
Proof. intros W n s c c' e. exact (expr_built W n s c c' e). Qed.
Print Assumptions expressions_follow_grammar.

Example expressions_follow_grammar_example : build_expr xworld 12 (xlet xcall) 0%N = Ret (43%N, Built xtree).
Proof. exact x_built. Qed.

(** C54 *)
Theorem refused_expressions_have_no_reading : forall (W : world) (n : nat) (s : sexp) (c c' : N) (err : error),
  build_expr W n s c = Ret (c', Refused err) -> forall e, ~ reads_expr W s e.
Proof. intros W n s c c' err. exact (expr_refused W n s c c' err). Qed.
Print Assumptions refused_expressions_have_no_reading.

Example refused_expressions_have_no_reading_example : build_expr xworld 12 (xlet (L [w "here"; w "x"; w "f"])) 0%N = Ret (34%N, Refused (MacroOfThisModule at0)) /\
  build_expr xworld 12 xpoly 0%N = Ret (6%N, Refused (CannotGeneralize at0)).
Proof. exact (conj x_own x_poly). Qed.

(** C54 *)
Theorem reading_expressions_decided : forall (W : world) (s : sexp) (c : N), no_macros W s -> moderate W s ->
  exists c' r, build_expr W (S (depth s)) s c = Ret (c', r) /\ ((exists e, reads_expr W s e) <-> exists e, r = Built e).
Proof. exact expr_decided. Qed.
Print Assumptions reading_expressions_decided.

Example reading_expressions_decided_example : no_macros xworld xplain /\ moderate xworld xplain.
Proof. exact (conj x_no_macros x_moderate). Qed.

(** C54 *)
Theorem kinds_unambiguous : forall (W : world) (s : sexp) (a b : kind), reads_kind W s a -> reads_kind W s b -> a = b.
Proof. intros W s a b H. exact (kind_unique W s a H b). Qed.
Print Assumptions kinds_unambiguous.

Example kinds_unambiguous_example : reads_kind xworld xkind (KFun [KType; KFun [KType] KConstraint] KType).
Proof. exact (proj1 (kind_built _ _ _ _ _ _ x_kind)). Qed.

(** C54 *)
Theorem types_unambiguous : forall (W : world) (s : sexp) (a b : ty), reads_type W s a -> reads_type W s b -> a = b.
Proof. intros W s a b H. exact (type_unique W s a H b). Qed.
Print Assumptions types_unambiguous.

Example types_unambiguous_example : reads_type xworld xtype (TApp (TCon 301) [TCon 200; TApp (TCon 202) [TUse (sy "A"); TApp (TUse (sy "List")) [TUse (sy "B")]]]).
Proof. exact (proj1 (type_built _ _ _ _ _ _ x_type)). Qed.

(** C54 *)
Theorem patterns_unambiguous : forall (W : world) (s : sexp) (a b : pattern), reads_pattern W s a -> reads_pattern W s b -> bare_pattern a = bare_pattern b.
Proof. intros W s a b H. exact (pattern_unique W s a H b). Qed.
Print Assumptions patterns_unambiguous.

Example patterns_unambiguous_example : reads_pattern xworld xpattern
  (PDecon (Res 102) (Some [PVar (bd 1 "x") None; PDecon (Unres (sy "Pair")) (Some [PWildcard; PDecon (Unres (sy "None")) None])])).
Proof. exact (proj1 (pattern_built _ _ _ _ _ _ x_pattern)). Qed.

(** C54 *)
Theorem expressions_unambiguous : forall (W : world) (s : sexp) (a b : expr), reads_expr W s a -> reads_expr W s b -> bare_expr a = bare_expr b.
Proof. intros W s a b H. exact (expr_unique W s a H b). Qed.
Print Assumptions expressions_unambiguous.

Example expressions_unambiguous_example : reads_expr xworld (xlet xcall) xtree.
Proof. exact (proj1 (expr_built _ _ _ _ _ _ x_built)). Qed.

(** C54: a tuple of more than sixteen elements has a reading, but stops the compiler. *)
Theorem large_tuple_refuted : exists (W : world) (s : sexp) (e : expr),
  reads_expr W s e /\ forall n c, 2 <= n -> build_expr W n s c = Panic.
Proof. exact x_large. Qed.
Print Assumptions large_tuple_refuted.

(** C54 *)
Theorem declarations_follow_grammar : forall (W : world) (n : nat) (s : sexp) (c c' : N) (ds : list decl),
  define W n s c = Ret (c', Built ds) -> declares W s ds /\ fresh c c' (flat_map ids_decl ds).
Proof. exact define_built. Qed.
Print Assumptions declarations_follow_grammar.

Example declarations_follow_grammar_example : define xworld 7 xdecls 0%N = Ret (7%N, Built [DeImport (t_ "std") []; xdata_tree]).
Proof. exact x_decls. Qed.

(** C54 *)
Theorem refused_declarations_have_no_reading : forall (W : world) (n : nat) (s : sexp) (c c' : N) (err : error),
  define W n s c = Ret (c', Refused err) -> forall ds, ~ declares W s ds.
Proof. exact define_refused. Qed.
Print Assumptions refused_declarations_have_no_reading.

Example refused_declarations_have_no_reading_example : exists c, define xworld 7 xforeign 0%N = Ret (c, Refused (CannotGeneralize at0)).
Proof. exact x_foreign. Qed.

(** C54 *)
Theorem reading_declarations_decided : forall (W : world) (s : sexp) (c : N), no_macros W s -> moderate W s ->
  exists c' r, define W (S (depth s)) s c = Ret (c', r) /\ ((exists ds, declares W s ds) <-> exists ds, r = Built ds).
Proof. exact define_decided. Qed.
Print Assumptions reading_declarations_decided.

Example reading_declarations_decided_example : no_macros xworld xdecls /\ moderate xworld xdecls.
Proof. exact x_decls_fine. Qed.

(** C54 *)
Theorem declarations_unambiguous : forall (W : world) (s : sexp) (a b : list decl), declares W s a -> declares W s b -> map bare_decl a = map bare_decl b.
Proof. intros W s a b H. exact (declares_unique W s a H b). Qed.
Print Assumptions declarations_unambiguous.

Example declarations_unambiguous_example : declares xworld xdecls [DeImport (t_ "std") []; xdata_tree].
Proof. exact (proj1 (define_built _ _ _ _ _ _ x_decls)). Qed.

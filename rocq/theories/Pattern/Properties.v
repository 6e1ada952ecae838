(** C11: a match is accepted exactly when its clauses cover every value and each clause is useful. *)
From Verif.Base Require Import Base Vec.
From Verif.Pattern Require Import Model Spec Proofs ProofsCheck Examples.

(** The check of the clauses of a match over any type always answers. Accepted clauses cover every
    value. A clause reported useless matches only values covered by earlier clauses. When clauses
    are reported as not exhaustive some patterns are listed. Over inhabited data types and types
    with unboundedly many constants the report is exact: accepted clauses are all useful, the
    useless clause reported is the first, and every listed pattern matches an uncovered value.
    Without constant patterns no value matched by a listed pattern is covered. *)
Theorem match_check_exact : forall (S : types) (t : type S) (clauses : list pattern),
  distinct S -> Forall (fun p => pat_type S p t) clauses ->
  exists r, conv (fun fuel => validate_match fuel clauses) r /\
  match r with
  | MatchOk => (forall v, has_type S v t -> covered clauses v) /\
      (inhabited S /\ unbounded S -> all_useful S t clauses)
  | UselessPattern p => exists pre post, clauses = pre ++ p :: post /\
      (forall v, has_type S v t -> matches p v -> covered pre v) /\
      (inhabited S /\ unbounded S -> all_useful S t pre)
  | NonExhaustivePattern ps => ps <> [] /\ Forall (fun p => pat_type S p t) ps /\
      (inhabited S /\ unbounded S -> all_useful S t clauses /\
         forall p, In p ps -> exists v, has_type S v t /\ matches p v /\ ~ covered clauses v) /\
      (Forall no_consts clauses -> forall v, has_type S v t -> covered ps v -> ~ covered clauses v)
  end.
Proof. exact (fun S t clauses HD => validate_ok S HD t clauses). Qed.
Print Assumptions match_check_exact.

(** Clauses that cover every value can be refused: over a data type with no values, and over a type
    with finitely many constants. *)
Theorem match_check_uninhabited_refuted : exists (S : types) (t : type S) (clauses : list pattern),
  distinct S /\ Forall (fun p => pat_type S p t) clauses /\
  (forall v, has_type S v t -> covered clauses v) /\ all_useful S t clauses /\
  exists ps, conv (fun fuel => validate_match fuel clauses) (NonExhaustivePattern ps).
Proof. exact uninhabited_case. Qed.
Print Assumptions match_check_uninhabited_refuted.

Theorem match_check_finite_constants_refuted : exists (S : types) (t : type S) (clauses : list pattern),
  distinct S /\ inhabited S /\ Forall (fun p => pat_type S p t) clauses /\
  (forall v, has_type S v t -> covered clauses v) /\ all_useful S t clauses /\
  exists ps, conv (fun fuel => validate_match fuel clauses) (NonExhaustivePattern ps).
Proof. exact finite_constants_case. Qed.
Print Assumptions match_check_finite_constants_refuted.

Example match_check_example : distinct listS /\ inhabited listS /\ unbounded listS /\
  Forall (fun p => pat_type listS p Lst) [nil_p; cons_p one_p PWild; cons_p PWild nil_p] /\
  validate_match 50 [nil_p; cons_p one_p PWild; cons_p PWild nil_p] =
    Ret (NonExhaustivePattern [cons_p PWild (cons_p PWild PWild)]) /\
  validate_match 50 [nil_p; cons_p PWild PWild] = Ret MatchOk /\
  validate_match 50 [nil_p; cons_p one_p PWild; cons_p one_p nil_p; PWild] = Ret (UselessPattern (cons_p one_p nil_p)).
Proof. exact example_case. Qed.

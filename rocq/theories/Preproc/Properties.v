(** C12: preprocessor bindings are lexically scoped. *)
From Verif.Base Require Import Base.
From Verif.Sexp Require Import Model.
From Verif.Preproc Require Import Model Spec Proofs ProofsExpand Examples.

(** When no [$let] or [$for] binds one name twice, the preprocessor succeeds exactly on the programs
    that have an expansion under lexical scope, and produces that expansion. *)
Theorem preprocess_is_lexical : forall (features : list text) (ss out : list sexp),
  (forall s, In s ss -> distinct_binders s) ->
  run features ss = Ok out <-> expands_seq features no_binds ss out.
Proof. exact run_ok. Qed.
Print Assumptions preprocess_is_lexical.

Example preprocess_is_lexical_example : distinct_binders nested /\
  run [] [nested] = Ok [lst [sym "f"; num 2]; lst [sym "g"; num 1]] /\
  run [] [nested; sym "$a"] = Err (UndefinedMetaVariable at0 (t_ "$a")).
Proof. exact nested_case. Qed.

(** Forms without [$] symbols are unchanged, whatever the features. *)
Theorem preprocess_plain_unchanged : forall (features : list text) (ss : list sexp),
  (forall s, In s ss -> plain s) -> run features ss = Ok ss.
Proof. exact plain_ok. Qed.
Print Assumptions preprocess_plain_unchanged.

(** A [$let] that binds a name twice leaves it bound after its body. *)
Theorem preprocess_duplicate_names_refuted :
  exists ss out, run [] ss = Ok out /\ ~ exists out', expands_seq [] no_binds ss out'.
Proof. exact leak_case. Qed.
Print Assumptions preprocess_duplicate_names_refuted.

Example preprocess_for_example : run [t_ "x"] [lst [sym "$when"; lst [sym "$feature"; Sexp at0 (RString (t_ "x"))];
    lst [sym "$for"; lst [sym "$n"; sym "_"]; lst [lst [num 1; num 2]; lst [num 3; num 4]]; lst [lst [sym "$symbol"; sym "a"; Sexp at0 (RChar 98)]; sym "$n"]]]]
  = Ok [lst [sym "ab"; num 1]; lst [sym "ab"; num 3]].
Proof. exact for_case. Qed.

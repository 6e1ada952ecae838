(** C17: the expansion of [match], [and] and [or]. *)
From Verif.Base Require Import Base.
From Verif.Ir Require Import Model Spec.
From Verif.Branch Require Import Model Spec ProofsMatch.

(** The expansion of a [match] always succeeds, and the code it gives has exactly the result of the
    [match] (Ir/Spec.v [ev]: the body of the first clause whose pattern matches, evaluated with the
    variables of the pattern bound to the parts of the value).  In particular the code never reads
    what is not there: such a reading has no result.  The spelling of a constant is its identity. *)
Theorem match_expansion_exact_partial : forall round32 prim funs n target clauses,
  match_ok n target clauses ->
  constants_differ round32 (map fst clauses) ->
  (exists t, rt_ty target = Ret t /\ (t = None -> cont_free target = true)) ->
  (forall p body, In (p, body) clauses -> exists t, rt_ty body = Ret t) ->
  exists e n', after_rt (RMatch target clauses) n = Ret (e, n') /\
  forall h env h1 r1, ev false round32 prim funs h env (RMatch target clauses) h1 r1 ->
  forall h2 r2, ev false round32 prim funs h env e h2 r2 <-> h2 = h1 /\ r2 = r1.
Proof. exact match_final. Qed.
Print Assumptions match_expansion_exact_partial.

(** [and] and [or] become conditionals that evaluate to the same results. *)
Theorem and_or_expansion_exact : forall round32 prim funs a b n,
  exists x y, after_rt (RAnd a b) n = Ret (x, n) /\ after_rt (ROr a b) n = Ret (y, n) /\
  forall h env h' r,
    (ev false round32 prim funs h env (RAnd a b) h' r <-> ev false round32 prim funs h env x h' r) /\
    (ev false round32 prim funs h env (ROr a b) h' r <-> ev false round32 prim funs h env y h' r).
Proof. exact and_or_final. Qed.
Print Assumptions and_or_expansion_exact.

(** Without the condition on constants the claim is false.  Two spellings of one constant ([0] and
    [-0]) are taken to exclude each other: on the pair of 0 and 2, the second clause of
    [(match p [(pair 0 1) 10] [(pair -0 _) 20])] matches, but the code reaches [RNever]. *)
Theorem match_expansion_exact_refuted : forall round32 prim funs,
  ev false round32 prim funs [] [(0%nat, VStruct (CtId 7) [VInt 0; VInt 2])] zero_match
     [] (RsVal (VInt 20)) /\
  exists e, after_rt zero_match 100 = Ret (e, 105%nat) /\
  forall h r, ~ ev false round32 prim funs [] [(0%nat, VStruct (CtId 7) [VInt 0; VInt 2])] e h r.
Proof. exact zero_refuted. Qed.
Print Assumptions match_expansion_exact_refuted.

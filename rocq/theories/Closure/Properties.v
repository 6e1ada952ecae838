(** * Property C48: local functions mean the same once they are functions of the program *)
From Verif.Base Require Import Base.
From Verif.Ir Require Import Model.
From Verif.Closure Require Import Model Spec Rel ProofsTotal ProofsTop ProofsDet.

(** The conversion comes to an end and does not panic. *)
Theorem conversion_ends : forall n k fs, program n k fs ->
  exists limit, forall rounds fuel, (limit <= rounds)%nat -> (limit <= fuel)%nat -> exists out, normalize rounds fuel n k fs = Ret out.
Proof. exact normalize_total_program. Qed.
Print Assumptions conversion_ends.

(** Afterwards there are no local functions, every function has its own id, and the functions that were there still
    take and give the same. *)
Theorem no_local_functions_left : forall n k fs rounds fuel out, program n k fs -> normalize rounds fuel n k fs = Ret out ->
  NoDup (map fst out) /\ Forall (fun p => no_locals (f_body (snd p))) out /\
  (forall g f, table fs g = Some f -> exists b, table out g = Some (Function (f_env f) (f_params f) (f_ret f) b)).
Proof. exact converted_shape. Qed.
Print Assumptions no_local_functions_left.

(** Calls of functions, whether of the program, local or closures, do the same as before. *)
Theorem converted_calls_agree : forall prim equals n k fs rounds fuel out,
  prims_opaque prim -> equals_opaque equals -> program n k fs -> normalize rounds fuel n k fs = Ret out ->
  exists C, agree prim equals (table fs) (table out) C /\ forall v, global v -> alike C v v /\ forall v', alike C v v' -> v' = v.
Proof. exact calls_agree_relation. Qed.
Print Assumptions converted_calls_agree.

(** From outside: a call of a function of the program with arguments and memory without local functions, which ends
    without local functions in its result and the memory, ends in the same way. *)
Theorem converted_program_same : forall prim equals n k fs rounds fuel out,
  prims_opaque prim -> equals_opaque equals -> program n k fs -> normalize rounds fuel n k fs = Ret out ->
  forall h vs g cenv e body h1 r, Forall global_cell h -> Forall global vs -> global (VFun g cenv) ->
  entered (table fs) (VFun g cenv) vs e body -> ev prim equals (table fs) h e body h1 r -> Forall global_cell h1 -> global_res r ->
  exists e' body', entered (table out) (VFun g cenv) vs e' body' /\
  forall h2 r2, ev prim equals (table out) h e' body' h2 r2 <-> h2 = h1 /\ r2 = r.
Proof. exact same_calls_iff. Qed.
Print Assumptions converted_program_same.

(** An expression has at most one meaning. *)
Theorem meaning_unique : forall prim equals funs h e x h1 r h2 r2,
  ev prim equals funs h e x h1 r -> ev prim equals funs h e x h2 r2 -> h2 = h1 /\ r2 = r.
Proof. exact ev_one_result. Qed.
Print Assumptions meaning_unique.

(** * Property C20: stack frames

    [words t] is the number of eightbytes of type [t], [in_memory t] says whether values of type [t]
    are returned in memory; the theorems hold for all of them. *)
From Coq Require Import ZArith Permutation.
From Verif.Base Require Import Base.
From Verif.Ir Require Import Model.
From Verif.Frame Require Import Model Spec ProofsFun ProofsAlloc.

(** Whatever is alive at the same time is kept in disjoint places. *)
Theorem frame_variables_separate : forall words in_memory f s ret,
  NoDup (map fst (bound f)) -> new words in_memory f = Ret (s, ret) ->
  forall sc, live (initial f) [] [] (f_body f) sc -> separate words s sc.
Proof. exact frame_separate. Qed.
Print Assumptions frame_variables_separate.

(** Every variable of the function has a place in the part of the reserved area for variables. *)
Theorem frame_locals_reserved : forall words in_memory f s ret,
  NoDup (map fst (bound f)) -> new words in_memory f = Ret (s, ret) ->
  forall v, In v (locals f) ->
  exists r, place words s v r /\ (- Z.of_nat (vars s) * 8 <= fst r /\ snd r <= 0)%Z.
Proof. exact frame_locals. Qed.
Print Assumptions frame_locals_reserved.

(** Arguments are above the saved frame pointer and the return address, the last one lowest. *)
Theorem frame_arguments_exact : forall words in_memory f s ret,
  NoDup (map fst (bound f)) -> new words in_memory f = Ret (s, ret) ->
  forall ps v qs, passed f = ps ++ v :: qs ->
  exists r, place words s v r /\ fst r = (16 + Z.of_nat (sum (map (fun v => words (snd v)) qs)) * 8)%Z.
Proof. exact frame_passed. Qed.
Print Assumptions frame_arguments_exact.

(** The pointer to the result is kept exactly when the result is returned in memory, in the part of
    the reserved area for variables and apart from all of them. *)
Theorem frame_return_pointer_exact : forall words in_memory f s ret,
  NoDup (map fst (bound f)) -> new words in_memory f = Ret (s, ret) ->
  (ret <> None <-> in_memory (f_ret f) = true) /\
  forall o, ret = Some o -> (- Z.of_nat (vars s) * 8 <= o /\ o + 8 <= 0)%Z /\
    forall v r, In v (bound f) -> place words s v r -> apart (o, o + 8)%Z r.
Proof. exact frame_return. Qed.
Print Assumptions frame_return_pointer_exact.

(** The allocations of a function, made in any order and not necessarily all, get disjoint places in
    the rest of the reserved area. *)
Theorem frame_allocations_separate : forall words in_memory f s ret ts used rest,
  new words in_memory f = Ret (s, ret) -> allocs_in (f_body f) ts -> Permutation ts (used ++ rest) ->
  exists os, consumes (map words used) s = Ret os /\
  stacked (- Z.of_nat (vars s) * 8) (- reserved s) (map words used) os.
Proof. exact frame_area. Qed.
Print Assumptions frame_allocations_separate.

(** Exactly when a frame is computed. *)
Theorem frame_exists_exactly : forall words in_memory f,
  (exists r, new words in_memory f = Ret r) <-> convention in_memory f /\ supported (f_body f).
Proof. exact frame_exists. Qed.
Print Assumptions frame_exists_exactly.

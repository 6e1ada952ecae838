(** C15: parallel builds respect dependencies under every schedule. *)
From Verif.Base Require Import Base.
From Verif.Path Require Import Model.
From Verif.Build Require Import Model Spec Proofs Examples.

(** No schedule panics, and under every schedule each module is built at most once, after all its
    imports were built successfully and handed to the backend. *)
Theorem parallel_build_safe : forall (M E : Type) (builder : nat -> source -> prog M E) (sources : list source),
  ordered sources -> asserts sources = true ->
  (forall i si, nth_error sources i = Some si -> consults sources i (builder i si)) ->
  forall schedule, exists s, build builder sources schedule = Ret s /\ well_ordered sources (log s).
Proof. exact (fun M E => @build_safe_ok M E). Qed.
Print Assumptions parallel_build_safe.

(** When no thread has anything left to do, every module whose imports succeeded has the result of its
    own build, every other is reported as not built, and exactly the built modules were added. The modules
    and the failures are returned in source order. *)
Theorem parallel_build_results : forall (M E : Type) (builder : nat -> source -> prog M E) (sources : list source),
  ordered sources -> asserts sources = true ->
  (forall i si, nth_error sources i = Some si -> consults sources i (builder i si)) ->
  forall schedule s, build builder sources schedule = Ret s -> complete (List.length sources) s ->
  results builder sources (result s) /\
  (forall i, i < List.length sources -> (In (Add i) (log s) <-> succeeded (result s) i)) /\
  forall ms es, partition 0 sources s = (ms, es) -> reported (result s) 0 sources ms es.
Proof. exact (fun M E builder sources H1 H2 H3 schedule s E1 C1 => let (A, B) := build_results_ok builder sources H1 H2 H3 schedule s E1 C1 in conj A (conj B (partition_reported sources s 0))). Qed.
Print Assumptions parallel_build_results.

(** The outcome does not depend on the schedule. *)
Theorem parallel_build_deterministic : forall (M E : Type) (builder : nat -> source -> prog M E) (sources : list source),
  ordered sources -> asserts sources = true ->
  (forall i si, nth_error sources i = Some si -> consults sources i (builder i si)) ->
  forall schedule schedule' s s',
  build builder sources schedule = Ret s -> complete (List.length sources) s ->
  build builder sources schedule' = Ret s' -> complete (List.length sources) s' ->
  partition 0 sources s = partition 0 sources s'.
Proof. exact (fun M E builder sources H1 H2 H3 sc sc' s s' E1 C1 E2 C2 => partition_agree sources s s' 0 (fun j _ Hj => build_unique_ok builder sources H1 H2 H3 sc sc' s s' E1 C1 E2 C2 j Hj)). Qed.
Print Assumptions parallel_build_deterministic.

(** Every build ends: there is a bound on the steps in which a thread has something to do. *)
Theorem parallel_build_terminates : forall (M E : Type) (builder : nat -> source -> prog M E) (sources : list source),
  ordered sources ->
  (forall i si, nth_error sources i = Some si -> consults sources i (builder i si)) ->
  exists bound, forall paths modules, setup sources [] [] = (paths, modules) -> forall schedule,
  all_busy (step builder modules paths) schedule (start modules) -> List.length schedule <= bound.
Proof. exact (fun M E => @build_terminates_ok M E). Qed.
Print Assumptions parallel_build_terminates.

Example parallel_build_example : ordered four /\ asserts four = true /\
  (forall i si, nth_error four i = Some si -> consults four i (four_builder i si)) /\
  exists s, build four_builder four four_schedule = Ret s /\ complete (List.length four) s /\
  map (result s) [0; 1; 2; 3] = [Module 5%N; BuildError "bad"%string; DependentModuleBuildFailed; Module 6%N] /\
  log s = [Start 0; Add 0; Start 1; Start 3; Add 3].
Proof. exact (conj four_ordered (conj four_asserts (conj four_consults four_case))). Qed.

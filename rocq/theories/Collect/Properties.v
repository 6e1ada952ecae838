(** C16: collecting the sources of a program. *)
From Verif.Base Require Import Base Assoc.
From Verif.Sexp Require Import Model.
From Verif.Path Require Import Model.
From Verif.Build Require Model Spec.
From Verif.Collect Require Import Model Spec ProofsDeps ProofsRun ProofsOrder Examples.
From Coq Require Import Permutation.

(** The dependencies of a module are those its code declares, and it has no errors exactly when it was
    loaded without any and its imports make sense. *)
Theorem dependencies_exact : forall self l, s_path (base (source_of self l)) = self /\ match code l with
  | None => s_deps (base (source_of self l)) = [] /\ errors (source_of self l) = load_errors l
  | Some ss =>
    (s_implicit_std (base (source_of self l)) = true <-> forall s, In s ss -> ~ no_std_form s) /\
    NoDup (keys (s_deps (base (source_of self l)))) /\
    (forall key d, In (key, d) (s_deps (base (source_of self l))) <-> dependency self ss key d) /\
    (errors (source_of self l) = [] <-> load_errors l = [] /\ resolvable self ss)
  end.
Proof. exact source_ok. Qed.
Print Assumptions dependencies_exact.

(** Under every schedule nothing panics, no module is loaded twice and none outside the program is. *)
Theorem collect_safe : forall load inputs schedule, exists s, exec load schedule (start inputs) = Ret s /\
  NoDup (loads s) /\ forall p, In p (loads s) -> program load inputs p.
Proof. exact collect_safe_ok. Qed.
Print Assumptions collect_safe.

(** When no thread has anything left to do, the result holds exactly the modules of the program. *)
Theorem collect_exact : forall load inputs schedule s, exec load schedule (start inputs) = Ret s -> complete s ->
  NoDup (map (fun x => s_path (base x)) (result s)) /\
  (forall x, In x (result s) <-> exists p, program load inputs p /\ x = source_of p (load p)) /\
  (forall p, In p (loads s) <-> program load inputs p).
Proof. exact collect_exact_ok. Qed.
Print Assumptions collect_exact.

(** Collecting a finite program ends. *)
Theorem collect_terminates : forall load inputs all, (forall p, program load inputs p -> In p all) ->
  exists bound, forall schedule, all_busy (step load) schedule (start inputs) -> List.length schedule <= bound.
Proof. exact collect_terminates_ok. Qed.
Print Assumptions collect_terminates.

(** The order of dependencies puts every source after those it depends on, or names a cycle: all the
    sources that lead to some source and back. *)
Theorem dependencies_order_exact : forall sources, NoDup (map (fun x => s_path (base x)) sources) ->
  (forall a key, In a sources -> ~ In (key, s_path (base a)) (s_deps (base a))) ->
  exists r, dependencies_order sources = Ret r /\ match r with
  | inl l => Permutation l sources /\
    forall i j a b key, nth_error l i = Some a -> nth_error l j = Some b -> In (key, s_path (base b)) (s_deps (base a)) -> j < i
  | inr cycle => 2 <= List.length cycle /\ NoDup cycle /\ exists a, In a sources /\
    forall p, In p cycle <-> exists b, In b sources /\ p = s_path (base b) /\ (b = a \/ leads sources a b /\ leads sources b a)
  end.
Proof. exact order_ok. Qed.
Print Assumptions dependencies_order_exact.

(** A collected program without errors and cycles, in the order computed, is a valid input of the
    parallel build (C15). *)
Theorem collected_program_builds : forall load inputs schedule s sources l,
  (forall p, code (load p) = None -> load_errors (load p) <> []) ->
  exec load schedule (start inputs) = Ret s -> complete s -> Permutation sources (result s) ->
  (forall x, In x sources -> errors x = []) -> dependencies_order sources = Ret (inl l) ->
  Build.Model.asserts (map base l) = true /\ Build.Spec.ordered (map base l).
Proof. exact ready_ok. Qed.
Print Assumptions collected_program_builds.

Example collect_example : (forall p, code (load_files p) = None -> load_errors (load_files p) <> []) /\
  exists s, exec load_files turns (start [pkg "app" "main"]) = Ret s /\ complete s /\
  paths_of (result s) = [pkg "app" "lib"; pkg "app" "main"; builtin_path; std_path] /\
  (forall x, In x (result s) -> errors x = []) /\
  exists l, dependencies_order (result s) = Ret (inl l) /\ paths_of l = [builtin_path; pkg "app" "lib"; std_path; pkg "app" "main"].
Proof. exact (conj load_files_errors program_case). Qed.
Example cycle_example : dependencies_order (collected [pkg "app" "x"]) = Ret (inr [pkg "app" "y"; pkg "app" "x"]).
Proof. exact cycle_case. Qed.

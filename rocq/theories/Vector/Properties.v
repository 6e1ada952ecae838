From Verif.Base Require Import Base.
From Verif.Vector Require Import Model Spec ProofsRun.
Local Open Scope list_scope.

(** C32. Whatever is called on arrays, vectors and iterators over them, by a program that does not write what it shares and
    does not ask for [2 ^ 63] elements: nothing undefined is done with memory, the calls that should fail do and no others,
    and the calls answer what they would if each object was a sequence of its own. *)
Theorem vectors_are_sequences : forall (A : Type) (cs : list (call (A := A))), Forall plain cs -> proper [] cs ->
  exists answers,
    run start [] cs = (answers, if snd (spec_run [] cs) then Failed else Done tt) /\
    Forall2 agree answers (fst (spec_run [] cs)).
Proof. exact run_plain. Qed.
Print Assumptions vectors_are_sequences.

(** The same with references and updates of arrays. What is missing: an update of an empty array and a reference to the
    place after the last element, below. *)
Theorem arrays_are_sequences_partial : forall (A : Type) (cs : list (call (A := A))), proper [] cs -> checked [] cs ->
  exists answers,
    run start [] cs = (answers, if snd (spec_run [] cs) then Failed else Done tt) /\
    Forall2 agree answers (fst (spec_run [] cs)).
Proof. exact run_all. Qed.
Print Assumptions arrays_are_sequences_partial.

(** An update of an empty array is not refused, and writes outside of memory. *)
Theorem update_empty_array_refuted : exists cs : list (call (A := N)),
  proper [] cs /\ spec_run [] cs = ([ADone], true) /\ run start [] cs = ([ADone], Wrong).
Proof. exact update_empty. Qed.
Print Assumptions update_empty_array_refuted.

(** A reference to the place after the last element is not refused, and reading it reads outside of memory. *)
Theorem reference_past_end_refuted : exists cs : list (call (A := N)),
  proper [] cs /\ spec_run [] cs = ([ADone], true) /\ run start [] cs = ([ADone], Wrong).
Proof. exact ref_past. Qed.
Print Assumptions reference_past_end_refuted.

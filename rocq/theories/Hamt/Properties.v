From Coq Require Import Permutation.
From Verif.Base Require Import Base.
From Verif.Hamt Require Import Model Spec ProofsMap ProofsOverflow.
Local Open Scope list_scope.

(** C30. Whatever the hashes are, and whatever is called on the versions of a persistent hash map, nothing is read that is
    not there, every search and every iteration ends, and each call answers what the lists of entries of the versions would,
    the order in which entries are given being free. What is missing is versions with [2 ^ 64] entries, or with more than
    [2 ^ 32] entries of one hash, below. *)
Theorem persistent_hash_map_answers_partial : forall (K V : Type) (eqk : K -> K -> bool) (hash : K -> N), lawful eqk hash ->
  forall cs : list (call K V), Forall (proper eqk) cs -> Forall (fits hash) (snd (spec_run eqk [[]] cs)) ->
    exists n answers versions,
      (forall fuel, n <= fuel -> run eqk hash fuel [map_empty] cs = Ret (answers, versions)) /\
      Forall2 agree answers (fst (spec_run eqk [[]] cs)).
Proof. exact (@run_all). Qed.
Print Assumptions persistent_hash_map_answers_partial.

(** No version has two entries with equal keys. *)
Theorem persistent_hash_map_keys_distinct : forall (K V : Type) (eqk : K -> K -> bool) (hash : K -> N), lawful eqk hash ->
  forall cs : list (call K V), Forall (proper eqk) cs -> Forall (distinct eqk) (snd (spec_run eqk [[]] cs)).
Proof. exact (@spec_distinct). Qed.
Print Assumptions persistent_hash_map_keys_distinct.

(** Removing leaves nothing behind: in every version every tree below the root has at least two elements. The same is missing. *)
Theorem persistent_hash_map_tight_partial : forall (K V : Type) (eqk : K -> K -> bool) (hash : K -> N), lawful eqk hash ->
  forall cs : list (call K V), Forall (proper eqk) cs -> Forall (fits hash) (snd (spec_run eqk [[]] cs)) ->
    exists n answers versions,
      (forall fuel, n <= fuel -> run eqk hash fuel [map_empty] cs = Ret (answers, versions)) /\
      Forall (fun m => tight (snd m)) versions.
Proof. exact (@run_tight). Qed.
Print Assumptions persistent_hash_map_tight_partial.

(** More than [2 ^ 32] keys with one hash are lost: a key that was just inserted is not found. *)
Theorem persistent_hash_map_crowd_refuted : exists (hash : N -> N) (cs : list (call N N)),
  lawful N.eqb hash /\ Forall (proper N.eqb) cs /\
  forall fuel, exists answers versions,
    run N.eqb hash fuel [map_empty] cs = Ret (answers, versions) /\ ~ Forall2 agree answers (fst (spec_run N.eqb [[]] cs)).
Proof. exact overflow. Qed.
Print Assumptions persistent_hash_map_crowd_refuted.

From Verif.Base Require Import Base.
From Verif.HashMap Require Import Spec.
From Verif.Xxhash Require Import Model Spec ProofsDigest ProofsKey.
Local Open Scope N_scope.
Local Open Scope list_scope.

(** C31. Whatever is done with a hasher, it does not fail or touch memory that is not its own, and each digest depends on
    the seed and on the bytes written since the last reset, not on how they were cut into writes or on what was hashed
    before. *)
Theorem hashers_stream : forall seed, seed < 2 ^ 64 ->
  exists hash : list N -> N, (forall l, hash l < 2 ^ 64) /\
    forall cs, Forall proper cs -> run (with_seed seed) cs = Ret (map hash (hashed [] cs)).
Proof. exact streams. Qed.
Print Assumptions hashers_stream.

(** The digest is XXH64 of the bytes, when the four bytes that are taken together after all groups of eight, if there are
    as many, make a number below 2^31. What is missing is the others, for which the statement is false (below). *)
Theorem hashers_are_xxh64_partial : forall seed cs, seed < 2 ^ 64 -> Forall proper cs ->
  Forall (fun l => N.of_nat (List.length l) < 2 ^ 64 /\ clear4 l) (hashed [] cs) ->
  run (with_seed seed) cs = Ret (map (xxh64 seed) (hashed [] cs)).
Proof. exact is_xxh64. Qed.
Print Assumptions hashers_are_xxh64_partial.

(** The four bytes are taken as a signed number. *)
Theorem hashers_are_xxh64_refuted : exists seed l, seed < 2 ^ 64 /\ bytes l /\
  run (with_seed seed) [Write l; Finish] <> Ret [xxh64 seed l].
Proof. exact not_xxh64. Qed.
Print Assumptions hashers_are_xxh64_refuted.

(** C43. Values without floats are good keys: equality is an equivalence, and whatever the hasher was used for before, the
    hash it gives is the same for equal values. *)
Theorem float_free_keys_lawful : forall seed, seed < 2 ^ 64 ->
  exists hash : key -> N, lawful eq_key hash /\
    forall cs (k : key), Forall proper cs ->
      exists earlier, run (with_seed seed) (cs ++ hash_value (proj1_sig k)) = Ret (earlier ++ [hash k]).
Proof. exact keys_lawful. Qed.
Print Assumptions float_free_keys_lawful.

(** The two zeros are equal floats with different hashes. *)
Theorem float_keys_refuted : exists a b seed, eqv a b = true /\
  run (with_seed seed) (hash_value a) <> run (with_seed seed) (hash_value b).
Proof. exact zeros_differ. Qed.
Print Assumptions float_keys_refuted.

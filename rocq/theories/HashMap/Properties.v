From Coq Require Import Permutation.
From Verif.Base Require Import Base.
From Verif.HashMap Require Import Model Spec ProofsSpec ProofsMap.
Local Open Scope list_scope.

(** C29. Whatever the hashes are, and whatever is called on hash maps, nothing is read that is not there or not initialised,
    every search and every insertion ends, and each call answers what the lists of entries of the maps would, the order in
    which entries are given being free. The calls may not be more than [2 ^ 61], nor capacities zero or more than [2 ^ 62].
    What is missing is maps made with capacity zero, below. *)
Theorem hash_map_answers_partial : forall (K V : Type) (eqk : K -> K -> bool) (hash : K -> N), lawful eqk hash ->
  forall cs : list (call K V), Forall (proper eqk) cs -> (N.of_nat (List.length cs) <= 2 ^ 61)%N ->
    exists answers maps, run eqk hash [] cs = Ret (answers, maps) /\ Forall2 agree answers (fst (spec_run eqk [] cs)).
Proof. exact (@answers). Qed.
Print Assumptions hash_map_answers_partial.

(** No map has two entries with equal keys. *)
Theorem hash_map_keys_distinct : forall (K V : Type) (eqk : K -> K -> bool) (hash : K -> N), lawful eqk hash ->
  forall cs : list (call K V), Forall (proper eqk) cs -> (N.of_nat (List.length cs) <= 2 ^ 61)%N ->
    Forall (distinct eqk) (snd (spec_run eqk [] cs)).
Proof. exact (@spec_distinct). Qed.
Print Assumptions hash_map_keys_distinct.

(** What a key has after one is put in, and after one is removed. *)
Theorem hash_map_value_put : forall (K V : Type) (eqk : K -> K -> bool) (hash : K -> N), lawful eqk hash ->
  forall k k' v (l : list (K * V)), value_of eqk k' (put eqk k v l) = if eqk k' k then Some v else value_of eqk k' l.
Proof. exact (@lookup_put_). Qed.
Print Assumptions hash_map_value_put.

Theorem hash_map_value_del : forall (K V : Type) (eqk : K -> K -> bool) (hash : K -> N), lawful eqk hash ->
  forall k k' (l : list (K * V)), value_of eqk k' (del eqk k l) = if eqk k' k then None else value_of eqk k' l.
Proof. exact (@lookup_del_). Qed.
Print Assumptions hash_map_value_del.

(** Two maps are equal when they have the same keys, with equal values. *)
Theorem hash_map_equality : forall (K V : Type) (eqk : K -> K -> bool) (hash : K -> N), lawful eqk hash ->
  forall eqv (a b : list (K * V)), distinct eqk a -> distinct eqk b ->
    (equal eqk eqv a b = true <->
     forall k, match value_of eqk k a, value_of eqk k b with
               | Some x, Some y => eqv x y = true
               | None, None => True
               | _, _ => False
               end).
Proof. exact (@equal_exact_). Qed.
Print Assumptions hash_map_equality.

(** A map can be made with capacity zero, and the first search of it is outside its arrays. *)
Theorem hash_map_zero_capacity_refuted : forall (K V : Type) (eqk : K -> K -> bool) (hash : K -> N) (k : K),
  run eqk hash [] [New 0; Get 0 k : call K V] = Panic.
Proof. exact (@zero_capacity). Qed.
Print Assumptions hash_map_zero_capacity_refuted.

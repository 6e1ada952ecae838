(** C08: topological sort. *)
From Verif.Base Require Import Base.
From Verif.Topo Require Import Model Spec Proofs.

(** Sorting items with distinct keys never panics, and returns the items grouped by mutual
    dependency with every group after those it depends on. *)
Theorem topological_sort_correct :
  forall (K V : Type) (eqb : K -> K -> bool) (deps : V -> list K), (forall x y, eqb x y = true <-> x = y) ->
  forall data : list (K * V), NoDup (map fst data) ->
    exists groups, run eqb deps data = Ret groups /\ sorted_by_dependencies deps data groups.
Proof. exact @run_sorts. Qed.
Print Assumptions topological_sort_correct.

(** Distinctness of keys is needed: with a repeated key the sort panics. *)
Theorem topological_sort_any_keys_refuted :
  exists data : list (N * list N), run N.eqb (fun v => v) data = Panic.
Proof. exists [(0, []); (0, [])]%N. reflexivity. Qed.
Print Assumptions topological_sort_any_keys_refuted.

(** Non-vacuity: a graph with a two-element cycle, a self-loop and an absent key. *)
Example topological_sort_example :
  let data := [(1, (1, [2; 9])); (2, (2, [3])); (3, (3, [2; 4])); (4, (4, [4]))]%N in
  NoDup (map fst data) /\
  run N.eqb (fun v : N * list N => snd v) data =
  Ret [[(4, [4])]; [(2, [3]); (3, [2; 4])]; [(1, [2; 9])]]%N.
Proof. split; [repeat constructor; cbn; intuition discriminate|reflexivity]. Qed.

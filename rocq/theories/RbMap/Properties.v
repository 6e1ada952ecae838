From Verif.Base Require Import Base.
From Verif.OrdMap Require Import Spec.
From Verif.RbMap Require Import Model Spec ProofsMap.
Local Open Scope list_scope.

(** C28. Whatever is called on the versions of a persistent ordered map, no assertion fails, each call answers what the
    lists of entries of the versions would, whatever was made from them in between, and each version is a red-black tree,
    so that it is as deep as a logarithm of its size: [height <= 2 * log2 (size + 1)]. *)
Theorem persistent_map_answers : forall (K V : Type) (cmp : K -> K -> comparison), lawful cmp ->
  forall cs : list (call K V), exists ts,
    run cmp [Leaf] cs = Ret (fst (spec_run cmp [[]] cs), ts) /\
    Forall2 (fun t l => (exists n, ok false n t) /\ 2 ^ height t <= S (List.length l) * S (List.length l)) ts (snd (spec_run cmp [[]] cs)).
Proof. exact (@run_all). Qed.
Print Assumptions persistent_map_answers.

(** The entries of every version are in increasing order. *)
Theorem persistent_entries_increasing : forall (K V : Type) (cmp : K -> K -> comparison), lawful cmp ->
  forall cs : list (call K V), Forall (increasing (V := V) cmp) (snd (spec_run cmp [[]] cs)).
Proof. exact (@spec_increasing). Qed.
Print Assumptions persistent_entries_increasing.

(** What a union, an intersection and a difference have for a key. *)
Theorem union_lookup : forall (K V : Type) (cmp : K -> K -> comparison), lawful cmp ->
  forall f k (a b : list (K * V)), increasing cmp a -> increasing cmp b ->
    lookup cmp k (unite cmp f a b) =
    match lookup cmp k a, entry cmp k b with
    | x, None => x
    | None, Some (_, bv) => Some bv
    | Some av, Some (k', bv) => Some (f k' av bv)
    end.
Proof. exact (@unite_lookup). Qed.
Print Assumptions union_lookup.

Theorem intersection_lookup : forall (K V : Type) (cmp : K -> K -> comparison), lawful cmp ->
  forall f k (a b : list (K * V)), increasing cmp a ->
    lookup cmp k (intersect cmp f a b) =
    match entry cmp k a, lookup cmp k b with
    | Some (k', av), Some bv => Some (f k' av bv)
    | _, _ => None
    end.
Proof. exact (@intersect_lookup). Qed.
Print Assumptions intersection_lookup.

Theorem difference_lookup : forall (K V : Type) (cmp : K -> K -> comparison), lawful cmp ->
  forall f k (b a : list (K * V)), increasing cmp a -> increasing cmp b ->
    lookup cmp k (differ cmp f a b) =
    match lookup cmp k a, entry cmp k b with
    | x, None => x
    | None, Some (_, bv) => Some bv
    | Some av, Some (k', bv) => f k' av bv
    end.
Proof. exact (@differ_lookup). Qed.
Print Assumptions difference_lookup.

(** Two maps are equal exactly if their entries are, however the trees were made. *)
Theorem persistent_map_equality : forall (K V : Type) eqk eqv (a b : tree K V),
  (forall k k', eqk k k' = true <-> k = k') -> (forall v v', eqv v v' = true <-> v = v') ->
  exists r, map_eq eqk eqv a b = Ret r /\ (r = true <-> map_elems a = map_elems b).
Proof. exact (@map_eq_elems). Qed.
Print Assumptions persistent_map_equality.

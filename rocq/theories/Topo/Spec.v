(** What a sort by dependencies is. *)
From Verif.Base Require Import Base.
From Coq Require Export Permutation Sorted.

Section TopoSpec.
  Context {K V : Type} (deps : V -> list K).

  (** Item [i] of the input depends on item [j]. *)
  Definition depends (data : list (K * V)) (i j : nat) : Prop :=
    exists ki vi kj vj, nth_error data i = Some (ki, vi) /\ nth_error data j = Some (kj, vj) /\ In kj (deps vi).

  Inductive reaches (data : list (K * V)) (i : nat) : nat -> Prop :=
  | reaches_refl : reaches data i i
  | reaches_step j k : reaches data i j -> depends data j k -> reaches data i k.

  (** [pos] lists the positions of the items of each group of [groups]. *)
  Definition positions (data : list (K * V)) (groups : list (list V)) (pos : list (list nat)) : Prop :=
    Forall2 (Forall2 (fun v i => exists k, nth_error data i = Some (k, v))) groups pos.

  Definition in_group (pos : list (list nat)) (a i : nat) : Prop := exists g, nth_error pos a = Some g /\ In i g.

  (** The groups partition the items, are exactly the classes of mutually dependent items, and come
      after the groups they depend on; each group keeps the input order. *)
  Definition sorted_by_dependencies (data : list (K * V)) (groups : list (list V)) : Prop :=
    exists pos, positions data groups pos /\
      Permutation (List.concat pos) (seq 0 (List.length data)) /\
      Forall (fun g => g <> [] /\ StronglySorted lt g) pos /\
      (forall a b i j, in_group pos a i -> in_group pos b j ->
         (a = b <-> reaches data i j /\ reaches data j i) /\
         (depends data i j -> (b <= a)%nat)).
End TopoSpec.

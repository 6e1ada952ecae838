(** * What is asked of the versions of a persistent hash map: each is a finite map, whose entries have no order *)
From Coq Require Import Permutation.
From Verif.Base Require Import Base Buf.
From Verif.HashMap Require Export Spec.
From Verif.Hamt Require Import Model.
Local Open Scope N_scope.
Local Open Scope list_scope.

Section Spec.
Context {K V : Type} (eqk : K -> K -> bool).
Notation entries := (list (K * V)).

(** What a call answers when each version is the list of its entries, and the versions after it. *)
Definition with_version (ms : list entries) (i : nat) (f : entries -> answer K V * list entries) : answer K V * list entries :=
  match nth_error ms i with None => (ANoVersion, ms) | Some m => f m end.
Definition spec_step (ms : list entries) (c : call K V) : answer K V * list entries :=
  match c with
  | Insert i k v => with_version ms i (fun m => (ADone, ms ++ [put eqk k v m]))
  | Remove i k => with_version ms i (fun m => (ADone, ms ++ [del eqk k m]))
  | DeepCopy dk dv i => with_version ms i (fun m => (ADone, ms ++ [map (fun e => (dk (fst e), dv (snd e))) m]))
  | Get i k => with_version ms i (fun m => (AValue (value_of eqk k m), ms))
  | Has i k => with_version ms i (fun m => (ABool (match value_of eqk k m with Some _ => true | None => false end), ms))
  | Length i => with_version ms i (fun m => (ALength (N.of_nat (List.length m)), ms))
  | IsEmpty i => with_version ms i (fun m => (ABool (match m with [] => true | _ => false end), ms))
  | Elems i => with_version ms i (fun m => (AElems m, ms))
  | Equal eqv i j => with_version ms i (fun a => with_version ms j (fun b => (ABool (equal eqk eqv a b), ms)))
  end.
Fixpoint spec_run (ms : list entries) (cs : list (call K V)) : list (answer K V) * list entries :=
  match cs with
  | [] => ([], ms)
  | c :: cs => let (a, ms) := spec_step ms c in let (r, ms) := spec_run ms cs in (a :: r, ms)
  end.

(** Two answers agree: they are the same, but entries may come in another order. *)
Definition agree (a b : answer K V) : Prop :=
  match a, b with
  | AElems l, AElems l' => Permutation l l'
  | a, b => a = b
  end.

(** What a caller has to see to: a deep copy of a key is equal to the key. *)
Definition proper (c : call K V) : Prop :=
  match c with DeepCopy dk _ _ => forall k, eqk k (dk k) = true | _ => True end.

(** A version has fewer than [2 ^ 64] entries, and at most [2 ^ 32] with one hash. *)
Definition fits (hash : K -> N) (l : entries) : Prop :=
  N.of_nat (List.length l) < 2 ^ 64 /\ forall h, N.of_nat (List.length (filter (fun e => hash (fst e) =? h) l)) <= 2 ^ 32.

End Spec.

(** How many elements a tree has, its own and those of the trees below it. Keys with one hash share an element. A tree is
    tight if every tree below it has at least two of them: no key is deeper than it has to be to be told from another. *)
Definition is_tree {K V} (t : tree K V) : bool := match t with Tree _ _ _ _ => true | Collision _ _ => false end.
Fixpoint elements {K V} (t : tree K V) : nat :=
  match t with
  | Tree _ _ es cs => List.length es + list_sum (map elements cs)
  | Collision _ _ => 0
  end.
Fixpoint tight {K V} (t : tree K V) : Prop :=
  match t with
  | Tree _ _ _ cs => (fix all l := match l with [] => True | c :: l => (is_tree c = true -> (2 <= elements c)%nat /\ tight c) /\ all l end) cs
  | Collision _ _ => True
  end.

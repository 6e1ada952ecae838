(** * Ordered maps of numbers *)
From Verif.Base Require Import Base.
From Verif.OrdMap Require Import Model Spec SpecTree.
Local Open Scope list_scope.

(** The order of numbers is an order as the theorems ask for, and so is one in which different keys are equal. *)
Example nat_lawful : lawful Nat.compare.
Proof.
  split.
  - intros x y. apply Nat.compare_antisym.
  - intros [] x y z; rewrite ?Nat.compare_eq_iff, ?Nat.compare_lt_iff, ?Nat.compare_gt_iff; lia.
Qed.

Definition half_compare (x y : nat) : comparison := Nat.compare (Nat.div2 x) (Nat.div2 y).
Example half_lawful : lawful half_compare.
Proof. split; intros; [apply (cmp_sym _ nat_lawful)|eapply (cmp_trans _ nat_lawful); eauto]. Qed.

(** Two hundred keys in and out again, in an order that splits, steals and merges on both sides. *)
Definition keys : list nat := List.map (fun i => (i * 77) mod 211) (seq 0 200).
Definition busy : list (call nat nat) :=
  List.map (fun k => Insert k (k + 1)) keys ++ [Elems; GetMin; GetMax; Length; Get 5; Get 300] ++
  List.map (fun k => Remove k) (firstn 120 keys) ++ [Elems; RemoveMin; RemoveMax; Insert 200 0; Insert 200 1; Elems].

Example busy_runs : option_map fst (match run Nat.compare map_empty busy with Ret r => Some r | _ => None end)
  = Some (fst (spec_run Nat.compare [] busy)).
Proof. vm_compute. reflexivity. Qed.

Fixpoint levels (n : node nat nat) : nat := match n with Node _ None => 0 | Node _ (Some []) => 0 | Node _ (Some (e :: _)) => S (levels e) end.
Example busy_levels :
  match run Nat.compare map_empty (firstn 200 busy) with Ret (_, m) => levels (m_root m) | _ => 0 end = 2.
Proof. vm_compute. reflexivity. Qed.

(** An inserted key that is equal to one there leaves the key and replaces the value. *)
Example equal_key : spec_run half_compare [] [Insert 2 10; Insert 3 20; Elems]
  = ([AValue None; AValue (Some 10); AElems [(2, 20)]], [(2, 20)]).
Proof. reflexivity. Qed.

Example lookup_case : increasing Nat.compare [(1, 10); (3, 30)] /\ lookup Nat.compare 3 (put Nat.compare true 2 20 [(1, 10); (3, 30)]) = Some 30 /\
  lookup Nat.compare 2 (del Nat.compare 2 (put Nat.compare true 2 20 [(1, 10); (3, 30)])) = None.
Proof.
  refine (conj (conj _ (conj _ Logic.I)) (conj eq_refl eq_refl)).
  - intros k v [E|[]]. now injection E as <- <-.
  - intros k v [].
Qed.

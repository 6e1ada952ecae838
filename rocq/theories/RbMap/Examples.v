(** * Persistent maps of numbers *)
From Verif.Base Require Import Base.
From Verif.OrdMap Require Import Spec Examples.
From Verif.RbMap Require Import Model Spec.
Local Open Scope list_scope.

(** A hundred keys in, each into the version before; sixty of them out again; then versions from the middle are used. *)
Definition some_keys : list nat := List.map (fun i => (i * 77) mod 101) (seq 0 100).
Definition inserts : list (call nat nat) := List.map (fun p => Insert (fst p) (snd p) (snd p + 1)) (combine (seq 0 100) some_keys).
Definition removes : list (call nat nat) := List.map (fun p => Remove (fst p) (snd p)) (combine (seq 100 60) some_keys).
Definition busy : list (call nat nat) := inserts ++ removes ++
  [Elems 100; Elems 160; Elems 50; Union (fun _ a _ => a) 20 50; Intersection (fun _ a b => a + b) 160 70; Difference (fun _ _ _ => None) 50 70;
   Elems 161; Elems 162; Elems 163; RemoveMin 160; RemoveMax 160; GetMin 164; GetMax 165; GetMin 160; Get 30 77; Get 0 77; IsEmpty 0; IsEmpty 1; Get 999 1].

Example busy_runs : option_map fst (match run Nat.compare [Leaf] busy with Ret r => Some r | _ => None end)
  = Some (fst (spec_run Nat.compare [[]] busy)).
Proof. vm_compute. reflexivity. Qed.

(** The maps of std/tests/persistent/ord-map.llrl:36-44. *)
Definition three : list (call nat nat) :=
  [Insert 0 1 2; Insert 1 3 4; Insert 2 5 6; Insert 0 3 3; Insert 4 4 4; Insert 5 5 6].
Example sets : fst (spec_run Nat.compare [[]] (three ++
    [Union (fun _ a b => a * b) 3 6; Elems 7; Intersection (fun _ a _ => a) 3 6; Elems 8; Difference (fun _ _ _ => None) 3 6; Elems 9]))
  = repeat ADone 6 ++ [ADone; AElems [(1, 2); (3, 12); (4, 4); (5, 36)]; ADone; AElems [(3, 4); (5, 6)]; ADone; AElems [(1, 2); (4, 4)]].
Proof. vm_compute. reflexivity. Qed.

(** Keys that are equal in the order: the new key is taken. *)
Example equal_key_taken : fst (spec_run half_compare [[]] [Insert 0 2 10; Insert 1 3 20; Elems 2; Elems 1]) = [ADone; ADone; AElems [(3, 20)]; AElems [(2, 10)]].
Proof. reflexivity. Qed.

(** Two trees of the same entries. *)
Definition t1 : tree nat nat := map_insert Nat.compare 2 2 (map_insert Nat.compare 1 1 Leaf).
Definition t2 : tree nat nat := map_insert Nat.compare 1 1 (map_insert Nat.compare 2 2 Leaf).
Example same_entries : t1 <> t2 /\ map_eq Nat.eqb Nat.eqb t1 t2 = Ret true /\ ok false 1 t1.
Proof. split; [discriminate|]. split; [reflexivity|]. cbn. auto. Qed.

(** * Hash maps of numbers *)
From Coq Require Import Permutation.
From Verif.Base Require Import Base Buf.
From Verif.HashMap Require Import Model Spec.
Local Open Scope N_scope.
Local Open Scope list_scope.

(** Two hashes: one that crowds the slots around the end of the table, and one that is the same for all keys. *)
Definition crowd (k : N) : N := 12 + k mod 3.
Definition same (k : N) : N := 5.

Example crowd_lawful : lawful N.eqb crowd.
Proof.
  repeat split.
  - apply N.eqb_refl.
  - intros a b H; apply N.eqb_eq in H; now apply N.eqb_eq.
  - intros a b c H1 H2; apply N.eqb_eq in H1, H2; apply N.eqb_eq; congruence.
  - intros a b H; apply N.eqb_eq in H; congruence.
  - intros a; unfold crowd; pose proof (N.mod_lt a 3 ltac:(discriminate)); change (2 ^ 64) with 18446744073709551616; lia.
Qed.

Definition numbers : list N := map N.of_nat (seq 1 12).
Definition busy : list (call N N) :=
  [New 1; New 16] ++ map (fun k => Insert 0 k (k * 10)) numbers ++ map (fun k => Insert 1 k (k * 10)) (rev numbers) ++
  [Insert 0 3 33; Remove 0 4; Remove 0 4; Remove 0 12; Get 0 3; Get 0 4; Has 0 5; Has 0 77; Length 0; ShallowCopy 0; Remove 2 5; Get 2 5; Get 0 5;
   Equal N.eqb 0 1; Insert 0 4 40; Insert 0 12 120; Insert 0 3 30; Equal N.eqb 0 1; Reserve 0 100; Equal N.eqb 1 0; Elems 1;
   DeepCopy (fun k => k) (fun v => v + 1) 1; Get 3 7; Clear 0; IsEmpty 0; Get 0 1; IsEmpty 1; Get 9 1].

Example busy_proper : Forall (proper N.eqb) busy.
Proof. repeat constructor; cbn; try lia; try (intros; apply N.eqb_refl). Qed.

(** The answers, with the entries sorted by their key for comparing. *)
Definition plain (a : answer N N) : answer N N := match a with AElems l => ALength (N.of_nat (List.length l)) | a => a end.
Definition answers_of (o : outcome (list (answer N N) * list (body N N))) : option (list (answer N N)) :=
  match o with Ret (a, _) => Some (map plain a) | _ => None end.
Example busy_crowded : answers_of (run N.eqb crowd [] busy) = Some (map plain (fst (spec_run N.eqb [] busy))).
Proof. vm_compute. reflexivity. Qed.
Example busy_same : answers_of (run N.eqb same [] busy) = Some (map plain (fst (spec_run N.eqb [] busy))).
Proof. vm_compute. reflexivity. Qed.

(** Removing shifts entries back around the end of the table. *)
Example shifted_around :
  match run N.eqb (fun k => k) [] [New 4; Insert 0 15 1; Insert 0 31 2; Insert 0 47 3; Insert 0 63 4; Remove 0 15] with
  | Ret (_, [m]) => (map (fun o => match o with Some h => if exists_ h then h - flag else 0 | None => 0 end) (hashes m), cap m)
  | _ => ([], 0)
  end = ([47; 63; 0; 0; 0; 0; 0; 0; 0; 0; 0; 0; 0; 0; 0; 31], 16).
Proof. vm_compute. reflexivity. Qed.

(** std/tests/hash-map.llrl:6-9 *)
Example powers : map next_power_of_two [2; 3; 10; 4000000000000000000] = map Ret [2; 4; 16; 4611686018427387904].
Proof. vm_compute. reflexivity. Qed.

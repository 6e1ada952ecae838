(** Concrete cases of the theorems in Properties.v. *)
From Verif.Base Require Import Base Buf.
From Verif.Hamt Require Import Model Spec.
From Coq Require Import Lia.
Local Open Scope N_scope.
Local Open Scope list_scope.

(** Hashes that are all different, differ in their last bits only, or are all the same. *)
Definition own (k : N) : N := k mod 2 ^ 64.
Definition deep (k : N) : N := (k mod 3) * 2 ^ 60.
Definition same (k : N) : N := 12345.

Lemma by_value (h : N -> N) : (forall k, h k < 2 ^ 64) -> lawful N.eqb h.
Proof.
  intros H; split; [apply N.eqb_refl|]; split; [intros a b E; apply N.eqb_eq in E; subst; apply N.eqb_refl|].
  split; [intros a b c E F; apply N.eqb_eq in E, F; subst; apply N.eqb_refl|]; split; [intros a b E; apply N.eqb_eq in E; congruence|exact H].
Qed.
Example own_lawful : lawful N.eqb own.
Proof. apply by_value; intros k; apply N.mod_lt; discriminate. Qed.
Example deep_lawful : lawful N.eqb deep.
Proof. apply by_value; intros k; unfold deep; pose proof (N.mod_lt k 3 ltac:(discriminate)); change (2 ^ 64) with (16 * 2 ^ 60); nia. Qed.
Example same_lawful : lawful N.eqb same.
Proof. apply by_value; reflexivity. Qed.

Definition insert_all (from : nat) (ks : list N) : list (call N N) :=
  map (fun p => Insert (from + fst p) (snd p) (snd p * 10)) (combine (seq 0 (List.length ks)) ks).
Definition remove_all (from : nat) (ks : list N) : list (call N N) :=
  map (fun p => Remove (from + fst p) (snd p)) (combine (seq 0 (List.length ks)) ks).
Definition numbers : list N := [1; 33; 2; 65; 34; 3; 4; 1025; 1057; 32769; 36; 7].

(** Twelve insertions and removals in another order, and questions about versions in between. *)
Definition busy : list (call N N) :=
  insert_all 0 numbers ++ remove_all 12 [33; 4; 1025; 1057; 7; 1; 2; 32769; 36] ++
  [Get 12 1; Get 12 33; Get 13 33; Get 12 1057; Get 15 1057; Get 16 1057; Has 21 3; Has 21 2; Length 12; Length 21; Elems 12; Elems 21; Elems 17;
   Remove 21 99; Insert 21 3 31; Get 23 3; Get 21 3; Equal N.eqb 21 22; Equal N.eqb 21 23; Insert 23 3 30; Equal N.eqb 24 21;
   DeepCopy (fun k => k) (fun v => v + 1) 12; Get 25 1057; Elems 25; Remove 21 3; Remove 26 34; Remove 27 65; IsEmpty 28; Elems 28; Get 40 1].

Example busy_proper : Forall (proper N.eqb) busy.
Proof. repeat constructor; cbn; intros; apply N.eqb_refl. Qed.
Lemma filter_short {A} (f : A -> bool) l : (List.length (filter f l) <= List.length l)%nat.
Proof. induction l as [|x l IH]; [reflexivity|]; cbn [filter]; destruct (f x); cbn [List.length]; lia. Qed.
Example busy_fits (h : N -> N) : Forall (fits h) (snd (spec_run N.eqb [[]] busy)).
Proof.
  assert (S : forallb (fun l => N.of_nat (List.length l) <=? 12) (snd (spec_run N.eqb [[]] busy)) = true) by (vm_compute; reflexivity).
  rewrite forallb_forall in S; apply Forall_forall; intros l I; specialize (S l I); apply N.leb_le in S; split; [change (2 ^ 64) with 18446744073709551616; lia|].
  intros g; pose proof (filter_short (fun e => h (fst e) =? g) l); change (2 ^ 32) with 4294967296; lia.
Qed.

(** The answers, with the number of the entries in place of the entries. *)
Definition plain (a : answer N N) : answer N N := match a with AElems l => ALength (N.of_nat (List.length l)) | a => a end.
Definition answers_of (o : outcome (list (answer N N) * list (hmap N N))) : option (list (answer N N)) :=
  match o with Ret (a, _) => Some (map plain a) | _ => None end.
Example busy_own : answers_of (run N.eqb own (N.to_nat 2000) [map_empty] busy) = Some (map plain (fst (spec_run N.eqb [[]] busy))).
Proof. vm_compute. reflexivity. Qed.
Example busy_deep : answers_of (run N.eqb deep (N.to_nat 2000) [map_empty] busy) = Some (map plain (fst (spec_run N.eqb [[]] busy))).
Proof. vm_compute. reflexivity. Qed.
Example busy_same : answers_of (run N.eqb same (N.to_nat 2000) [map_empty] busy) = Some (map plain (fst (spec_run N.eqb [[]] busy))).
Proof. vm_compute. reflexivity. Qed.

(** Two keys whose hashes differ in their last five bits only are at the bottom of thirteen trees, and one alone is at the
    top, also with another of the same hash. A place for more keys of one hash counts as a tree here. *)
Fixpoint height (n : nat) (t : tree N N) : nat :=
  match n, t with
  | S n, Tree _ _ _ (c :: _) => S (height n c)
  | _, _ => O
  end.
Definition heights (o : outcome (list (answer N N) * list (hmap N N))) : list nat :=
  match o with Ret (_, ms) => map (fun m => height 20 (snd m)) ms | _ => [] end.
Example merged : heights (run N.eqb deep (N.to_nat 100) [map_empty] [Insert 0 0 0; Insert 1 1 1; Insert 2 3 3; Remove 3 1; Remove 4 0]) =
  [0; 0; 12; 13; 1; 0]%nat.
Proof. vm_compute. reflexivity. Qed.

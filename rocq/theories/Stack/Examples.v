(** Cases that meet the hypotheses of the theorems. *)
From Coq Require Import ZArith Lia Permutation.
From Verif.Base Require Import Base.
From Verif.Ir Require Import Model.
From Verif.Layout Require Import Model Spec.
From Verif.Stack Require Import Machine Model Spec ProofsRefute Properties.
Local Open Scope Z_scope.

(** Five bytes; three words; the five bytes and a double. *)
Definition defs2 : list (nat * def) :=
  [ (1%nat, DStruct [CtU 8; CtU 8; CtU 8; CtU 8; CtU 8]);
    (2%nat, DStruct [CtU 64; CtF64; CtU 64]);
    (3%nat, DStruct [CtId 1%nat; CtF64]) ].
Definition done2 : resolver := match register (fun l => l) defs2 [] with Ret r => r | _ => [] end.
Definition lay (i : nat) : layout := match get done2 (CtId i) with Ret l => l | _ => l_memory 0 8 end.
Example lay_types : type_layout (lay 1) /\ type_layout (lay 2) /\ type_layout (lay 3).
Proof.
  assert (R : reached done2).
  { refine (reached_register [] (fun l => l) defs2 _ reached_new _ _ eq_refl).
    - repeat constructor; cbn; intuition discriminate.
    - intro l. apply Permutation_refl. }
  repeat split; [apply type_layout_get with done2 (CtId 1) | apply type_layout_get with done2 (CtId 2)
    | apply type_layout_get with done2 (CtId 3)]; (exact R || reflexivity).
Qed.
Example sizes : (size (lay 1), cls (lay 1), size (lay 2), cls (lay 2), size (lay 3)) = (5%N, Integer, 24%N, Memory, 16%N).
Proof. reflexivity. Qed.

Fixpoint mem_of (a : Z) (bs : list Z) (x : Z) : Z :=
  match bs with [] => 0 | b :: bs => if x =? a then b else mem_of (a + 1) bs x end.
Definition s0 (bs : list Z) : state :=
  State (fun r => match r with Rsp => 4096 | Rbp => 8192 | _ => 0 end) (fun _ => 0) (mem_of 8176 bs).
Definition at_rbp : addr := Addr Rbp None (-16).

Example at_rbp_usable : usable_address at_rbp.
Proof. now split. Qed.
Definition five : list Z := [1; 2; 3; 4; 5].
Example five_in_memory : in_mem (mem (s0 five)) (ea at_rbp (s0 five)) five.
Proof. intros i b. do 5 (destruct i as [|i]; [cbn; intros [= <-]; reflexivity|]). cbn. now destruct i. Qed.
Example five_apart l : cls l <> Memory -> apart (ea at_rbp (s0 five)) (Z.of_N (size l)) (gp (s0 five) Rsp - taken l) (taken l).
Proof. intros H x. unfold taken. destruct (cls l); try lia. congruence. Qed.

(** A value of five bytes is loaded into [rax]; then it can be pushed. *)
Example five_loaded : value (lay 1) five (run (fst (load at_rbp (lay 1))) (s0 five)).
Proof. apply value_load_exact; [apply lay_types | exact at_rbp_usable | reflexivity | exact five_in_memory | apply five_apart; discriminate]. Qed.
Example five_rax : gp (run (fst (load at_rbp (lay 1))) (s0 five)) Rax = 21542142465.
Proof. vm_compute. reflexivity. Qed.
Example five_pushed : pushed (lay 1) five (run (fst (push (lay 1))) (run (fst (load at_rbp (lay 1))) (s0 five))).
Proof. apply value_push_exact; [apply lay_types | exact five_loaded]. Qed.

(** The first element of the third structure starts at 0 but has fewer eightbytes. *)
Example elem_moves : exists es cs o e c, composite (lay 3) = Some (es, cs) /\ nth_error es 0 = Some (o, e) /\
  struct_elem (lay 3) 0 = Ret (c, e) /\ num_eightbytes e <> num_eightbytes (lay 3) /\ fst c <> [].
Proof. do 5 eexists. repeat split; try (vm_compute; reflexivity); vm_compute; discriminate. Qed.

(** The same number of eightbytes of the same class: nothing is emitted. *)
Example elem_stays : exists es cs o e, composite (lay 1) = Some (es, cs) /\ nth_error es 0 = Some (o, e) /\
  struct_elem (lay 1) 0 = Ret (nothing, e) /\ map e_class (eightbytes e) = map e_class (eightbytes (lay 1)).
Proof. do 4 eexists. repeat split; vm_compute; reflexivity. Qed.

(** Five bytes reinterpreted as three words and back. *)
Example there_and_back : exists bs', value (lay 1) bs'
  (run (fst (reinterpret (lay 2) (lay 1))) (run (fst (reinterpret (lay 1) (lay 2))) (run (fst (load at_rbp (lay 1))) (s0 five)))).
Proof.
  destruct (reinterpret_exact (lay 1) (lay 2) five (run (fst (load at_rbp (lay 1))) (s0 five))) as (b1 & V & _);
    [apply lay_types | apply lay_types | exact five_loaded|].
  destruct (reinterpret_exact (lay 2) (lay 1) b1 _ (proj1 (proj2 lay_types)) (proj1 lay_types) V) as (b2 & V2 & _).
  exists b2. exact V2.
Qed.
Example there_and_back_rax : Z.land (gp
  (run (fst (reinterpret (lay 2) (lay 1))) (run (fst (reinterpret (lay 1) (lay 2))) (run (fst (load at_rbp (lay 1))) (s0 five)))) Rax)
  (Z.ones 40) = 21542142465.
Proof. vm_compute. reflexivity. Qed.

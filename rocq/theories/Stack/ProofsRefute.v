(** A structure whose first element is expected in another register. *)
From Coq Require Import ZArith Lia Permutation.
From Verif.Base Require Import Base.
From Verif.Ir Require Import Model.
From Verif.Layout Require Import Model Spec.
From Verif.Stack Require Import Machine Model Spec Facts Proofs ProofsValue ProofsMove.
Local Open Scope Z_scope.

(** A structure of a float and an integer of 4 bytes each. *)
Definition defs1 : list (nat * def) := [(1%nat, DStruct [CtF32; CtU 32])].
Definition done1 : resolver := match register (fun l => l) defs1 [] with Ret r => r | _ => [] end.
Lemma done1_reached : reached done1.
Proof.
  refine (reached_register [] (fun l => l) defs1 _ reached_new _ _ eq_refl).
  - repeat constructor; cbn; intuition discriminate.
  - intro l. apply Permutation_refl.
Qed.
Definition pair1 : layout := match get done1 (CtId 1) with Ret l => l | _ => l_memory 0 8 end.
Lemma pair1_layout : type_layout pair1.
Proof. apply type_layout_get with done1 (CtId 1); [exact done1_reached | reflexivity]. Qed.

(** 1.0 and 7, in [rax]. *)
Definition bytes1 : list Z := [0; 0; 128; 63; 7; 0; 0; 0].
Definition state1 : state :=
  State (fun r => match r with Rax => 31130124288 | Rsp => 4096 | _ => 0 end) (fun _ => 0) (fun _ => 0).

Lemma struct_elem_wrong : exists l i c e bs s es cs o,
  type_layout l /\ value l bs s /\ composite l = Some (es, cs) /\ nth_error es i = Some (o, e) /\
  struct_elem l i = Ret (c, e) /\ ~ value e (part bs o (size e)) (run (fst c) s).
Proof.
  exists pair1, 0%nat, nothing. eexists. exists bytes1, state1. do 3 eexists.
  split; [exact pair1_layout|]. split; [|split; [vm_compute; reflexivity | split; [vm_compute; reflexivity | split; [vm_compute; reflexivity|]]]].
  - split; [reflexivity|]. vm_compute. split; [|exact Logic.I]. intros i b.
    do 8 (destruct i as [|i]; [cbn; intros [= <-]; reflexivity|]). cbn. now destruct i.
  - intros [_ H]. vm_compute in H. destruct H as [H _]. specialize (H 2%nat 128 eq_refl). discriminate H.
Qed.

(** Cases that meet the hypotheses of the theorems. *)
From Coq Require Import Permutation.
From Verif.Base Require Import Base.
From Verif.Ir Require Import Model.
From Verif.Layout Require Import Model Spec Properties.
Local Open Scope N_scope.

(** A structure holding a union and a floating-point number, defined after it. *)
Definition defs : list (nat * def) :=
  [ (1%nat, DStruct [CtId 2%nat; CtU 8; CtF64]);
    (2%nat, DUnion [CtU 1; CtF32; CtUnit]);
    (3%nat, DStruct [CtF32; CtF32; CtF32]);
    (4%nat, DOther) ].

Definition done : resolver := match register (fun l => l) defs [] with Ret r => r | _ => [] end.

Example done_reached : reached done.
Proof.
  refine (reached_register [] (fun l => l) defs _ reached_new _ _ eq_refl).
  - repeat constructor; cbn; intuition discriminate.
  - intro l. apply Permutation_refl.
Qed.

(** [union; u8; f64]: the union has 4 bytes, so the number is at 8. *)
Example layout_1 : exists l, get done (CtId 1%nat) = Ret l /\ size l = 16 /\ align l = 8 /\
  match composite l with Some (es, _) => map fst es = [0; 4; 8] | None => False end.
Proof. eexists. repeat split. Qed.

(** Two eightbytes of different classes. *)
Example eightbytes_1 : exists l, get done (CtId 1%nat) = Ret l /\
  eightbytes l = [Eightbyte 0 8 Integer; Eightbyte 8 8 FloatingPoint].
Proof. eexists. split; reflexivity. Qed.

(** Three floats take an eightbyte and a half. *)
Example eightbytes_3 : exists l, get done (CtId 3%nat) = Ret l /\
  eightbytes l = [Eightbyte 0 8 FloatingPoint; Eightbyte 8 4 FloatingPoint].
Proof. eexists. split; reflexivity. Qed.

Example eightbytes_3_hold : exists l, get done (CtId 3%nat) = Ret l /\
  Forall (fun e => has_class l (e_offset e) (e_class e)) (eightbytes l).
Proof.
  eexists. split; [reflexivity|].
  apply (layout_eightbytes_exact done (CtId 3%nat) _ done_reached eq_refl). split; [reflexivity|discriminate].
Qed.

Example struct_1 : exists ls l, Forall2 (fun t l => get done t = Ret l) [CtId 2%nat; CtU 8; CtF64] ls /\
  get done (CtId 1%nat) = Ret l /\ struct_layout ls l.
Proof.
  apply (layout_struct_exact (fun l => l) defs [] done 1).
  - apply reached_new.
  - repeat constructor; cbn; intuition discriminate.
  - intro l. apply Permutation_refl.
  - reflexivity.
  - left. reflexivity.
  - intros [l H]. discriminate H.
Qed.

(** Visiting the definitions backwards gives the same layouts. *)
Example backwards : exists r2, register (@rev _) defs [] = Ret r2 /\ same done r2.
Proof.
  apply (layout_order_irrelevant (fun l => l) (@rev _) defs []).
  - apply reached_new.
  - repeat constructor; cbn; intuition discriminate.
  - intro l. apply Permutation_refl.
  - intro l. apply Permutation_sym, Permutation_rev.
  - reflexivity.
Qed.

(** A structure that contains itself is refused; one that points to itself is not. *)
Example infinite : register (fun l => l) [(1%nat, DStruct [CtU 8; CtId 1%nat])] [] = Panic.
Proof. reflexivity. Qed.

Example finite : exists r, register (fun l => l) [(1%nat, DStruct [CtU 8; CtPtr (CtId 1%nat)])] [] = Ret r.
Proof. eexists. reflexivity. Qed.

(** A later registration can use what is known. *)
Example later : exists r, register (fun l => l) [(7%nat, DStruct [CtId 1%nat; CtChar])] done = Ret r /\
  exists l, get r (CtId 7%nat) = Ret l /\ size l = 24 /\ cls l = Memory.
Proof. eexists. split; [reflexivity|]. eexists. split; [reflexivity|]. split; reflexivity. Qed.

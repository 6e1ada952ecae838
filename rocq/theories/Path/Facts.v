(** Equality of paths. *)
From Verif.Base Require Import Base BaseFacts.
From Verif.Path Require Import Model.

Lemma parts_eqb_eq a b : parts_eqb a b = true <-> a = b.
Proof.
  revert b. induction a as [|x a IH]; intros [|y b]; cbn; try (split; [discriminate|discriminate]); [tauto|].
  rewrite Bool.andb_true_iff, text_eqb_eq, IH. split; [intros (-> & ->); reflexivity|]. intros E. injection E. auto.
Qed.
Lemma path_eqb_eq p q : path_eqb p q = true <-> p = q.
Proof.
  destruct p as [pp pm], q as [qp qm]. unfold path_eqb. cbn [package module]. rewrite Bool.andb_true_iff, parts_eqb_eq.
  destruct pp as [x|], qp as [y|]; cbn [package_eqb]; try (split; [intros (H & _); discriminate|discriminate]).
  - rewrite text_eqb_eq. split; [intros (-> & ->); reflexivity|]. intros E. injection E. auto.
  - split; [intros (_ & ->); reflexivity|]. intros E. injection E. auto.
Qed.
Lemma path_eqb_refl p : path_eqb p p = true.
Proof. apply path_eqb_eq. reflexivity. Qed.

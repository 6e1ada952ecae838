(** Modules that meet the hypotheses: 0 is needed by 1 and 2, and both by 3, an entry point; 4 is an
    entry point as well, and 5 is not needed. *)
From Coq Require Import List Lia.
From Verif.Base Require Import Base.
From Verif.Init Require Import Model Spec Properties.
Import ListNotations.

Definition run : list event :=
  [Add 0 [Eval 10; Eval 11] false; Macro; Add 1 [Ensure 0; Eval 20] false; Idle; Add 2 [Ensure 0; Eval 30; Eval 31] false;
   Add 5 [Ensure 1; Eval 60] false; Add 3 [Ensure 0; Ensure 2; Ensure 1; Eval 40] true; Idle; Idle; Idle; Idle;
   Add 4 [Ensure 1; Eval 50; Ensure 2; Eval 51] true; Idle]%nat.
Example run_well_formed : well_formed run.
Proof. split; [cbn; intuition (try discriminate; subst; auto); try congruence | repeat constructor; cbn; lia]. Qed.
Example run_done : process run = Ret [10; 11; 30; 31; 20; 40; 50; 51]%nat.
Proof. vm_compute. reflexivity. Qed.
Example run_in_order : initializes run [10; 11; 30; 31; 20; 40; 50; 51]%nat.
Proof. destruct (initialization_in_order run run_well_formed) as (l & E & H). rewrite run_done in E. injection E as <-. exact H. Qed.
Example run_other : process (filter is_add run) = process run.
Proof. apply initialization_any_schedule. reflexivity. Qed.

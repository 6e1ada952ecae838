(** * Property C46: modules are initialized once, after the modules they import *)
From Verif.Base Require Import Base.
From Verif.Init Require Import Model Spec Proofs.

(** Whatever the order in which modules arrive after those they need, and whenever there is time in
    between: nothing panics, and the expressions that are run are in order. *)
Theorem initialization_in_order : forall evs, well_formed evs ->
  exists l, process evs = Ret l /\ initializes evs l.
Proof. exact process_initializes. Qed.
Print Assumptions initialization_in_order.

(** Only the order in which modules arrive matters. *)
Theorem initialization_any_schedule : forall evs evs', filter is_add evs = filter is_add evs' -> process evs = process evs'.
Proof. exact process_schedule. Qed.
Print Assumptions initialization_any_schedule.

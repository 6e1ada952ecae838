(** Concrete cases of the theorems about promotion. *)
From Verif.Base Require Import Base.
From Verif.Ir Require Import Model Spec Proofs.
From Verif.Heap2Stack Require Import Model Spec Properties.

Definition no_prim : prim_op -> heap -> list val -> option (heap * val) := fun _ h _ => Some (h, VUnit).
Definition no_funs : nat -> option (list nat * list nat * rt) := fun _ => None.
Definition u : ct := CtU 64.
Definition seven : rt := RConst (KInteger u false 7).
Definition eight : rt := RConst (KInteger u false 8).

(** A variable that is only stored to and loaded from. *)
Definition local_cell : rt :=
  RLetVar [(1, CtPtr u, RAlloc LHeap seven)]%nat
    (RSeq [RBinary BStore eight (RVar 1 (CtPtr u))] (RUnary ULoad (RVar 1 (CtPtr u)))).

(** A variable that is returned. *)
Definition escaping_cell : rt :=
  RLetVar [(1, CtPtr u, RAlloc LHeap seven)]%nat (RVar 1 (CtPtr u)).

Example promoted_local : run local_cell =
  RLetVar [(1, CtPtr u, RAlloc LStackStatic seven)]%nat
    (RSeq [RBinary BStore eight (RVar 1 (CtPtr u))] (RUnary ULoad (RVar 1 (CtPtr u)))).
Proof. reflexivity. Qed.

Example kept_escaping : run escaping_cell = escaping_cell.
Proof. reflexivity. Qed.

Example no_prim_local : prims_local no_prim.
Proof.
  intros q S h h' vs h1 v H B A V E. injection E as <- <-. split; [lia|]. split; [exact H|].
  split; [intros a []|]. split; [auto|]. exists h'. split; [reflexivity|]. split; [exact A|auto].
Qed.

Lemma local_cell_wf : well_formed local_cell.
Proof. split; cbn; repeat constructor; auto. Qed.

Lemma local_cell_ev : ev false (fun f => f) no_prim no_funs [] [] local_cell [Some (VInt 8)] (RsVal (VInt 8)).
Proof.
  change [Some (VInt 8)] with
    (release false (RAlloc LHeap seven) (VPtr 0) [Some (VInt 8)]) at 1.
  eapply ev_let_cons with (h1 := [Some (VInt 7)]).
  - eapply (ev_operation _ _ _ _ _ _ _ _ _ [] [VInt 7]); [reflexivity| |reflexivity].
    eapply evs_cons; [|constructor].
    eapply (ev_operation _ _ _ _ _ _ _ _ _ [] []); [reflexivity|constructor|reflexivity].
  - apply ev_let_nil. eapply ev_seq_cons with (h1 := [Some (VInt 8)]).
    + eapply (ev_operation _ _ _ _ _ _ _ _ _ [Some (VInt 7)] [VInt 8; VPtr 0]); [reflexivity| |reflexivity].
      eapply evs_cons; [eapply (ev_operation _ _ _ _ _ _ _ _ _ _ []); [reflexivity|constructor|reflexivity]|].
      eapply evs_cons; [apply ev_var; reflexivity|constructor].
    + apply ev_seq_nil.
      eapply (ev_operation _ _ _ _ _ _ _ _ _ [Some (VInt 8)] [VPtr 0]); [reflexivity| |reflexivity].
      eapply evs_cons; [apply ev_var; reflexivity|constructor].
Qed.

(** After the pass the cell is gone at the end, and the result is still 8. *)
Example heap2stack_preserves_hyps :
  exists h1' gone, ev true (fun f => f) no_prim no_funs [] [] (run local_cell) h1' (RsVal (VInt 8)) /\
    agree gone [Some (VInt 8)] h1'.
Proof.
  destruct (heap2stack_preserves (fun f => f) no_prim no_funs no_funs no_prim_local (fun g => eq_refl)
    local_cell [] [] [] [Some (VInt 8)] (RsVal (VInt 8)) local_cell_wf) as (h1' & gone & T & _ & A & _).
  - intros a v L. destruct a; discriminate L.
  - intros id v L. discriminate L.
  - exact local_cell_ev.
  - exists h1', gone. split; assumption.
Qed.

Example heap2stack_only_moves_case : erase (run local_cell) = local_cell.
Proof. reflexivity. Qed.


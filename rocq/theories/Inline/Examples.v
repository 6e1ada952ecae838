(** A function that meets the hypotheses: (transparent-function (f a b) (let ([c (+ a b)]) (match c [7 a] [(let d) (+ d b)])),
    called with the same variable for both parameters and with different ones. *)
From Verif.Base Require Import Base.
From Verif.Ir Require Import Model.
From Verif.Closure Require Import Model Spec.
From Verif.Inline Require Import Model Spec ProofsWrong Properties.

Definition sum : function := Function None [(0%nat, ty); (1%nat, ty)] ty
  (ELetVar [(2%nat, ty, op BUAdd (var 0) (var 1))]
    (EMatch (var 2) [(PConst (KInteger ty false 7), var 0); (PVar 3 ty None, op BUAdd (var 3) (var 1))])).
Example sum_replaced : call_transparent 10 sum (variables [(8, ty); (8, ty)]%nat) =
  Ret (12%nat, ELetVar [(10%nat, ty, op BUAdd (var 8) (var 8))]
    (EMatch (var 10) [(PConst (KInteger ty false 7), var 8); (PVar 11 ty None, op BUAdd (var 11) (var 8))])).
Proof. reflexivity. Qed.
Example sum_meets : exists x, call_transparent 10 sum (variables [(8, ty); (9, ty)]%nat) = Ret (12%nat, x) /\ scoped [8; 9]%nat [] x /\ defs x = [10; 11]%nat /\
  forall h h1 r, (ev prim equals (one sum) h [(8, VAtom (AInt 3)); (9, VAtom (AInt 4))]%nat (call_of 0 ty (variables [(8, ty); (9, ty)]%nat)) h1 r <->
    ev prim equals (one sum) h [(8, VAtom (AInt 3)); (9, VAtom (AInt 4))]%nat x h1 r).
Proof.
  destruct (transparent_call_partial prim equals (one sum) 10 0 sum [(8, ty); (9, ty)]%nat ty prim_plain eq_refl eq_refl) as (x & E & S & D & H).
  - split; [|split].
    + cbn. repeat first [apply scoped_var; cbn; tauto|constructor].
    + cbn. repeat constructor; cbn; intuition discriminate.
    + cbn. repeat constructor; lia.
  - cbn. tauto.
  - reflexivity.
  - repeat constructor; cbn; intuition (discriminate || lia).
  - exists x. split; [exact E|]. split; [exact S|]. split; [exact D|]. intros h h1 r. apply H. intros a [<-|[<-|[]]]; cbn; discriminate.
Qed.
Example sum_runs : forall h, ev prim equals (one sum) h [(8, VAtom (AInt 3)); (9, VAtom (AInt 4))]%nat (call_of 0 ty (variables [(8, ty); (9, ty)]%nat)) h (RsVal (VAtom (AInt 3))).
Proof.
  intro h. eapply ev_call with (r := RsVal (VAtom (AInt 3))).
  - eapply evs_cons; [eapply ev_op; [apply evs_nil|reflexivity]|]. eapply evs_cons; [constructor; reflexivity|]. eapply evs_cons; [constructor; reflexivity|apply evs_nil].
  - eapply entered_fun; reflexivity.
  - cbn [f_body sum]. eapply ev_let; [eapply ev_op; [eapply evs_cons; [constructor; reflexivity|eapply evs_cons; [constructor; reflexivity|apply evs_nil]]|reflexivity]|].
    apply ev_let_nil. eapply ev_match; [constructor; reflexivity|reflexivity|]. constructor. reflexivity.
  - reflexivity.
Qed.

(** Non-vacuity of the theorems of Properties.v. *)
From Verif.Base Require Import Base.
From Verif.Ir Require Import Model Spec.
From Verif.Data Require Import Model Spec Properties.

(** [(data Tree leaf (node Tree Wrap Tree))], [(value-data Wrap (wrap Color))], [(data Color r g b)],
    a boxed pair, a value-data that is its own only field, and an option. *)
Definition sample : list (nat * data) :=
  [(0, Data DBoxed [[]; [CtId 0; CtId 1; CtId 0]]);
   (1, Data DValue [[CtId 2]]);
   (2, Data DBoxed [[]; []; []]);
   (3, Data DBoxed [[CtU 8; CtId 0]]);
   (4, Data DValue [[CtPtr (CtId 4)]]);
   (5, Data DValue [[CtId 1]; []]);
   (6, Data DValue [[CtU 8]; [CtChar; CtChar]])]%nat.

Definition start : Model.env := Env 10 [].

Example sample_meets : NoDup (map fst sample) /\ Forall (fun p => c_compatible (snd p)) sample /\
  (forall id, In id (map fst sample) -> (id < next start)%nat) /\ env_wf start.
Proof.
  split; [repeat constructor; cbn; intuition discriminate|]. split; [repeat constructor; discriminate|].
  split; [cbn; lia|]. split; [constructor|]. intros ? ? [].
Qed.

Example sample_computed : exists m e', compute sample start = Ret (m, e') /\
  map (get m) [0; 1; 2; 3; 4; 5; 6]%nat =
  [Some (EBoxedTagged 11 2 (BStruct 1 10)); Some (EAlias (CtId 2)); Some (EEnum 3);
   Some (EBoxedStruct 12); Some (EStruct 13); Some (ETagged 14 2 (BAlias 0 (CtId 1)));
   Some (ETagged 18 2 (BUnion 17 [15; 16]))]%nat /\
  expand_ct 10 m (CtArray (CtId 1)) = Ret (CtArray (CtU 2)).
Proof. eexists _, _. split; [vm_compute; reflexivity|]. split; reflexivity. Qed.

(** Fields that evaluate, and an oracle that gives some value to what is uninitialized. *)
Example build_inputs :
  (forall (t : ct) (h : heap), exists v, (fun (_ : prim_op) (h : heap) (_ : list val) => Some (h, VUnit))
     (QNullary (NUninitialized t)) h [] = Some (h, v)) /\
  evs true (fun f => f) (fun _ h _ => Some (h, VUnit)) (fun _ => None) [] []
    [RConst (KChar 97%N); RAlloc LHeap (RConst KUnit)] [Some VUnit] (inl [VInt 97%N; VPtr 0]).
Proof.
  split; [eauto|]. eapply evs_cons; [eapply ev_operation; [reflexivity|constructor|reflexivity]|].
  eapply evs_cons; [|constructor].
  eapply ev_operation; [reflexivity|eapply evs_cons; [|constructor]|].
  - eapply ev_operation; [reflexivity|constructor|reflexivity].
  - reflexivity.
Qed.

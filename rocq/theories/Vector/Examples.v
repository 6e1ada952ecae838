(** Concrete cases of the theorems in Properties.v. *)
From Verif.Base Require Import Base Buf.
From Verif.Vector Require Import Model Spec.
Local Open Scope N_scope.
Local Open Scope list_scope.

(** A history with growth, shifting, parts that are handed on, and sharing. *)
Definition busy : list (call (A := N)) :=
  [ EmptyVector; VPush 0 1; VPush 0 2; VPush 0 3; VPush 0 4; VPush 0 5; VInsert 0 0 9; VInsert 0 6 8; Capacity 0; Free 0; Get 0 0;
    VRemove 0 1; SwapRemove 0 0; VPop 0; Length 0; Reverse 0; Swap 0 0 1; Set_ 0 2 77; Get 0 2;
    Consume 0 2; Length 0; VPush 0 6; Get 1 0; Get 1 1; GetOpt 1 2;            (* 1: consumed array *)
    ShallowCopy 0; Equal N.eqb 0 2; Fill 2 0; Equal N.eqb 0 2; Compare N.compare 2 0;  (* 2: copy of the vector *)
    Literal [1; 2; 3; 4]; SplitAt false 3 1; Set_ 5 0 50; Get 4 0; Get 5 0;       (* 3: gone; 4, 5: its parts *)
    Concat 4 5; CopyTo 4 6; Append 0 6; Length 0;                               (* 6 *)
    RevIterate true 6; Next 7; Collect 7; Next 7; Length 8; Get 8 2;             (* 7: iterator; 8: collected *)
    Insert 6 2 100; Remove 9 0; Unshift 9 0; Equal N.eqb 10 11; DeepCopy (fun x => x + 1) 8; Get 12 0;
    Reserve 0 50 true; Capacity 0; MoveOut 0; Length 0; Length 13; Truncate 13 1; Clear 2; IsEmpty 2 ].
Example busy_proper : proper [] busy /\ Forall plain busy.
Proof. split; [vm_compute; repeat split|repeat (constructor; [exact Logic.I|]); constructor]. Qed.
Example busy_runs : snd (run start [] busy) = Done tt /\ List.length (fst (run start [] busy)) = List.length busy.
Proof. vm_compute; auto. Qed.
Example busy_answers : filter (fun a => match a with ADone => false | _ => true end) (fst (run start [] busy)) =
  [ANumber 8; ANumber 1; AValue 9; AValue 1; AValue 9; AOption (Some 5); ANumber 4; AValue 77; ANumber 2; AValue 3; AValue 4; AOption None; ABool true;
   ABool false; AOrder Lt; AValue 1; AValue 50; ANumber 7; AOption (Some 4); AOption None; ANumber 3; AValue 1; ABool false; AValue 4; ANumber 50; ANumber 0; ANumber 7; ABool true].
Proof. vm_compute; reflexivity. Qed.

(** Failures: the seventh call is refused, with and without references. *)
Definition failing : list (call (A := N)) := [Literal [5; 6]; Update 0 1 7; LoadRef 0 1; StoreRef 1 0 4; Get 1 0; FromArray false 1; VRemove 2 2; VPush 2 1].
Example failing_proper : proper [] failing.
Proof. vm_compute; repeat split. Qed.
Example failing_checked : checked [] failing.
Proof. vm_compute; repeat split; intros H; try discriminate H; exact H. Qed.
Example failing_runs : run start [] failing = ([ADone; ADone; AValue 6; ADone; AValue 4; ADone], Failed).
Proof. reflexivity. Qed.

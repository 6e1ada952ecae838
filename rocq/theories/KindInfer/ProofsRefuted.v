(** A module whose kinds depend on the order in which its tables are gone through. *)
From Verif.Base Require Import Base Vec.
From Verif.Kind Require Import Model Spec.
From Verif.KindInfer Require Import Model Spec.
Import ListNotations.

(** Another module with [Int] (0) and [->] (1). *)
Definition other_module : modules :=
  {| is_local c := Nat.leb 2 c;
     recorded c := match c with
                   | 0%nat => Some AType
                   | 1%nat => Some (AFun [AType; AType] AType)
                   | _ => None
                   end |}.

Lemma other_module_known : known other_module.
Proof.
  intros [|[|c]] H; cbn in *.
  - exists AType. repeat split. constructor.
  - exists (AFun [AType; AType] AType). repeat split. repeat constructor.
  - discriminate H.
Qed.

Definition plain (c : nat) : tparam := {| tp := c; ann := None |}.

(** [(class (A X) (function a Int { (let ((f (forall F Int) (where (B F)) ...)) ...) }))] *)
Definition class_a : class_def :=
  {| cls_id := 2; cls_params := [plain 3]; superclasses := [];
     methods := [{| cm_id := 4; cm_ann := {| ty_params := []; s_params := []; body := TCon 0 |};
                    cm_default := [ILocalFun 5 (Some {| ty_params := [plain 6];
                                                       s_params := [{| class := 7; class_args := [TGen 6] |}];
                                                       body := TCon 0 |}) []] |}] |}.

(** [(class (B F) (function b (F Int)))] *)
Definition class_b : class_def :=
  {| cls_id := 7; cls_params := [plain 8]; superclasses := [];
     methods := [{| cm_id := 9; cm_ann := {| ty_params := []; s_params := []; body := TApp (TGen 8) [TCon 0] |};
                    cm_default := [] |}] |}.

Definition with_classes (cs : list class_def) : root :=
  {| builtin_types := []; data_types := []; classes := cs; functions := []; c_functions := [];
     builtin_ops := []; macros := []; instances := []; init_expressions := [] |}.

Ltac compute_conv :=
  exists 40%nat; let m := fresh "m" in let Hm := fresh "Hm" in
  intros m Hm; do 40 (destruct m as [|m]; [exfalso; lia|]); clear Hm; vm_compute; reflexivity.

Lemma table_order : exists mods r r' kinds e, known mods /\ same_tables r r' /\
  conv (fun n => infer_root mods n r) (inr kinds) /\ conv (fun n => infer_root mods n r') (inl e).
Proof.
  exists other_module, (with_classes [class_b; class_a]), (with_classes [class_a; class_b]).
  eexists _, _. split; [exact other_module_known|split; [|split]].
  - repeat split; cbn; try reflexivity. apply perm_swap.
  - compute_conv.
  - compute_conv.
Qed.

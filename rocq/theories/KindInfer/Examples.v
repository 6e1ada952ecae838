(** Cases that meet the hypotheses of the theorems of [Properties]. *)
From Verif.Base Require Import Base Vec.
From Verif.Kind Require Import Model Spec.
From Verif.KindInfer Require Import Model Spec ProofsRefuted.
Import ListNotations.

(** [(data (Fix F) (fix (F (Fix F))))] *)
Definition fix_group : group :=
  data_group [{| dt_id := 10; dt_params := [plain 11]; dt_fields := [TApp (TGen 11) [TApp (TCon 10) [TGen 11]]] |}].

(** [(data (Proxy A) proxy)] *)
Definition proxy_group : group := data_group [{| dt_id := 19; dt_params := [plain 20]; dt_fields := [] |}].

(** [(class (Functor F) (function map (forall A B (-> (F A) (F B)))))] *)
Definition functor_group : group :=
  {| generics := class_generics {| cls_id := 12; cls_params := [plain 13]; superclasses := [];
       methods := [{| cm_id := 14; cm_ann := {| ty_params := [plain 15; plain 16]; s_params := [];
           body := TApp (TCon 1) [TApp (TGen 13) [TGen 15]; TApp (TGen 13) [TGen 16]] |}; cm_default := [] |}] |};
     checks := [CType (TApp (TCon 1) [TApp (TGen 13) [TGen 15]; TApp (TGen 13) [TGen 16]])] |}.

(** [(function (depth x) {(forall F) (-> (Fix F) Int) (where (Functor F))} ...)] *)
Definition depth_group : group :=
  {| generics := [scheme_generic 17 {| ty_params := [plain 18]; s_params := [{| class := 12; class_args := [TGen 18] |}];
                                       body := TApp (TCon 1) [TApp (TCon 10) [TGen 18]; TCon 0] |}];
     checks := [CClass {| class := 12; class_args := [TGen 18] |};
                CType (TApp (TCon 1) [TApp (TCon 10) [TGen 18]; TCon 0])] |}.

(** A value of type [(Fix Int)]. *)
Definition wrong_group : group :=
  {| generics := [scheme_generic 21 {| ty_params := []; s_params := []; body := TApp (TCon 10) [TCon 0] |}];
     checks := [CType (TApp (TCon 10) [TCon 0])] |}.

Definition good : list group := [fix_group; proxy_group; functor_group; depth_group].
Definition good' : list group := [functor_group; fix_group; depth_group; proxy_group].

Ltac order := cbn; repeat split; try (intros c H; cbn in H); repeat
  match goal with
  | H : _ \/ _ |- _ => destruct H as [H|H]
  | H : False |- _ => destruct H
  | H : _ = ?c |- _ => subst c
  end; cbn; auto 20; try (split; [reflexivity|]; cbn; lia); try lia.

Example order_good : in_order other_module [] good.
Proof. order. Qed.

Example order_good' : in_order other_module [] good'.
Proof. order. Qed.

Example order_wrong : in_order other_module [] (good ++ [wrong_group]).
Proof. order. Qed.

Example annotations_good : Forall annotations_proper (good ++ [wrong_group]).
Proof. repeat constructor; cbn; discriminate. Qed.

Example reordered_good : reordered good good'.
Proof.
  exists good'. split.
  - unfold good, good'. etransitivity; [|apply perm_swap]. apply perm_skip.
    etransitivity; [apply perm_swap|]. apply perm_skip. apply perm_swap.
  - repeat constructor.
Qed.

(** The kinds found: those of [Fix] and [Functor] take a type constructor. *)
Example kinds_good : exists kinds, conv (fun n => infer_groups other_module n good) (inr kinds) /\
  assoc 10 kinds = Some (AFun [AFun [AType] AType] AType) /\
  assoc 12 kinds = Some (AFun [AFun [AType] AType] AConstraint) /\
  assoc 17 kinds = Some (AFun [AFun [AType] AType; ASatisfaction] AValue) /\
  assoc 19 kinds = Some (AFun [AType] AType).
Proof.
  eexists. split; [compute_conv|]. cbv. repeat split.
Qed.

Example kinds_wrong : exists e, conv (fun n => infer_groups other_module n (good ++ [wrong_group])) (inl e).
Proof. eexists. compute_conv. Qed.

(** A module with mutually recursive data types, two classes one of which is a superclass of the other,
    a default body with a constrained local function, an instance and a function. *)
Definition sample (cs : list class_def) (ds : list data_type) : root :=
  {| builtin_types := [{| bt_id := 2; bt_params := [plain 3]; bt_values := [[TGen 3; TCon 0]] |}];
     data_types := ds; classes := cs;
     functions := [(10%nat, Some {| ty_params := [plain 11]; s_params := [{| class := 20; class_args := [TGen 11] |}];
                                    body := TApp (TCon 1) [TApp (TCon 6) [TGen 11]; TCon 0] |}, [IType (TApp (TGen 11) [TCon 0])])];
     c_functions := [TCon 0]; builtin_ops := []; macros := [];
     instances := [{| inst_id := 40; inst_params := []; inst_s_params := [];
                      target := {| class := 20; class_args := [TCon 2] |}; inst_methods := [(41%nat, None, [])] |}];
     init_expressions := [] |}.

(** [(data (Tree F) (tree (F (Forest F))))], [(data (Forest F) (forest (Tree F)))] *)
Definition tree : data_type := {| dt_id := 6; dt_params := [plain 7]; dt_fields := [TApp (TGen 7) [TApp (TCon 8) [TGen 7]]] |}.
Definition forest : data_type := {| dt_id := 8; dt_params := [plain 9]; dt_fields := [TApp (TCon 6) [TGen 9]] |}.

Definition functor_class : class_def :=
  {| cls_id := 20; cls_params := [plain 21]; superclasses := [];
     methods := [{| cm_id := 22; cm_ann := {| ty_params := [plain 23]; s_params := [];
         body := TApp (TCon 1) [TApp (TGen 21) [TGen 23]; TCon 0] |}; cm_default := [] |}] |}.

Definition monad_class : class_def :=
  {| cls_id := 30; cls_params := [plain 31]; superclasses := [{| class := 20; class_args := [TGen 31] |}];
     methods := [{| cm_id := 32; cm_ann := {| ty_params := []; s_params := []; body := TCon 0 |};
         cm_default := [ILocalFun 33 (Some {| ty_params := [plain 34]; s_params := [{| class := 20; class_args := [TGen 34] |}];
                                            body := TCon 0 |}) [IType (TGen 34)]] |}] |}.

(** The same with a type in the local function that fits: that of [monad_class] does not. *)
Definition monad_class' : class_def :=
  {| cls_id := 30; cls_params := [plain 31]; superclasses := [{| class := 20; class_args := [TGen 31] |}];
     methods := [{| cm_id := 32; cm_ann := {| ty_params := []; s_params := []; body := TCon 0 |};
         cm_default := [ILocalFun 33 (Some {| ty_params := [plain 34]; s_params := [{| class := 20; class_args := [TGen 34] |}];
                                            body := TCon 0 |}) [IType (TApp (TGen 34) [TCon 0])]] |}] |}.

Ltac cases := repeat
  match goal with
  | H : _ \/ _ |- _ => destruct H as [H|H]
  | H : In _ (_ :: _) |- _ => cbn in H
  | H : In _ [] |- _ => destruct H
  | H : False |- _ => destruct H
  | H : (_, _) = (_, _) |- _ => injection H as <- <- <-
  | H : _ = ?c |- _ => is_var c; subst c
  end.

Ltac scope :=
  repeat match goal with
  | |- Forall _ _ => constructor
  | |- _ /\ _ => split
  | |- scoped_type _ _ _ _ => split; cbn; [intros ? ?|intros ? ?]; cbn in *; cases; cbn; auto
  | |- scoped_constraint _ _ _ _ _ => split
  | |- scoped_scheme _ _ _ _ _ => split
  | |- scoped_item _ _ _ _ _ => cbn
  | |- known_type _ _ _ => first [right; reflexivity|left; cbn; tauto]
  | |- known_class _ _ _ => first [right; reflexivity|left; cbn; tauto]
  | |- True => exact I
  end.

Example sample_scoped : scoped other_module (sample [functor_class; monad_class'] [tree; forest]).
Proof.
  constructor.
  - cbn. repeat constructor; cbn; lia.
  - intros c H. cbn in H. cases; reflexivity.
  - intros b fs t H1 H2 H3. cbn in *. cases; cbn in *; cases; cbn in *; cases; scope.
  - intros d t H1 H2. cbn in *. cases; cbn in *; cases; scope.
  - intros c H. cbn in H. cases; cbn; scope.
  - intros c m H H'. cbn in H. cases; cbn in H'; cases; cbn; scope.
    left. apply rt_step. exists monad_class', functor_class. cbn. auto 10.
  - intros id ann body H. cbn in H. cases; scope.
  - intros t H. cbn in H. cases; scope.
  - intros id s H. destruct H.
  - intros is i H. destruct H.
  - intros i H. cbn in H. cases. split; [cbn; scope|]. intros id ann body H. cbn in H. cases. cbn. auto.
  - intros is i H. destruct H.
Qed.

Example sample_annotations : root_annotations_proper (sample [functor_class; monad_class'] [tree; forest]).
Proof. repeat constructor; cbn; discriminate. Qed.

Example sample_ids : NoDup (map dt_id [tree; forest]) /\ NoDup (map cls_id [functor_class; monad_class']).
Proof. split; repeat constructor; cbn; lia. Qed.

Example sample_order : same_tables (sample [functor_class; monad_class'] [tree; forest]) (sample [monad_class'; functor_class] [forest; tree]).
Proof. repeat split; try reflexivity; apply perm_swap. Qed.

Example sample_kinds : exists kinds, conv (fun n => infer_root other_module n (sample [functor_class; monad_class'] [tree; forest])) (inr kinds) /\
  assoc 6 kinds = Some (AFun [AFun [AType] AType] AType) /\ assoc 8 kinds = Some (AFun [AFun [AType] AType] AType) /\
  assoc 30 kinds = Some (AFun [AFun [AType] AType] AConstraint) /\ assoc 33 kinds = Some (AFun [AFun [AType] AType; ASatisfaction] AValue) /\
  assoc 40 kinds = Some ASatisfaction.
Proof. eexists. split; [compute_conv|]. cbv. repeat split. Qed.

Example sample_rejected : exists e, conv (fun n => infer_root other_module n (sample [monad_class; functor_class] [forest; tree])) (inl e).
Proof. eexists. compute_conv. Qed.

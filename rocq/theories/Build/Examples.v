(** A concrete build: builtin, a module that fails, one that depends on it, and one that does not. *)
From Verif.Base Require Import Base BaseFacts.
From Verif.Path Require Import Model Facts.
From Verif.Build Require Import Model Spec Proofs.

Definition pth (s : string) : path := if text_eqb (t_ s) (t_ "builtin") then builtin_path else {| package := None; module := [t_ s] |}.
Definition dep (s : string) : text * path := (t_ s, pth s).
Definition four : list source :=
  [{| s_path := pth "builtin"; s_implicit_std := false; s_deps := [] |};
   {| s_path := pth "a"; s_implicit_std := false; s_deps := [dep "builtin"] |};
   {| s_path := pth "b"; s_implicit_std := false; s_deps := [dep "a"; dep "builtin"] |};
   {| s_path := pth "c"; s_implicit_std := false; s_deps := [dep "builtin"; (t_ "builtin/prelude", builtin_path)] |}].
(** Modules are numbers and errors are strings; [c] reads the builtin module. *)
Definition four_builder (i : nat) (_ : source) : prog N string :=
  match i with
  | 0 => Finish (inl 5%N)
  | 1 => Finish (inr "bad"%string)
  | 2 => Finish (inl 0%N)
  | _ => FindModule builtin_path (fun o => match o with Some m => Finish (inl (m + 1)%N) | None => Finish (inr "none"%string) end)
  end.
Lemma four_asserts : asserts four = true.
Proof. vm_compute. reflexivity. Qed.
Lemma four_ordered : ordered four.
Proof.
  split.
  - repeat (constructor; [cbn; intros H; repeat (destruct H as [H|H]; [discriminate|]); exact H|]). constructor.
  - intros [|[|[|[|i]]]] si key p Hi Hin; cbn in Hi; [| | | |destruct i; discriminate]; injection Hi as <-; cbn in Hin.
    + destruct Hin.
    + destruct Hin as [Hin|[]]. injection Hin as <- <-. exists 0. eexists. split; [lia|]. split; reflexivity.
    + destruct Hin as [Hin|[Hin|[]]]; injection Hin as <- <-; [exists 1|exists 0]; eexists; (split; [lia|]); split; reflexivity.
    + destruct Hin as [Hin|[Hin|[]]]; injection Hin as <- <-; exists 0; eexists; (split; [lia|]); split; reflexivity.
Qed.
Lemma four_consults : forall i si, nth_error four i = Some si -> consults four i (four_builder i si).
Proof.
  intros [|[|[|[|i]]]] si Hi; cbn in Hi; try exact I; [|destruct i; discriminate]. cbn [four_builder consults]. split; [|intros [m|]; exact I].
  intros j sj Hj Ep. injection Hi as <-. apply dep_direct. do 2 eexists. exists (t_ "builtin"). split; [reflexivity|]. split; [exact Hj|]. rewrite Ep. left. reflexivity.
Qed.
Definition four_schedule : list thread :=
  [Main; Task 0; Main; Main; Task 0; Main; Task 0; Task 0; Task 0; Task 0; Task 3; Task 1; Task 3; Task 3; Task 3; Task 1].
Lemma four_case : exists s, build four_builder four four_schedule = Ret s /\ complete (List.length four) s /\
  map (result s) [0; 1; 2; 3] = [Module 5%N; BuildError "bad"%string; DependentModuleBuildFailed; Module 6%N] /\
  log s = [Start 0; Add 0; Start 1; Start 3; Add 3].
Proof.
  eexists. split; [vm_compute; reflexivity|]. split; [|split; reflexivity]. split; [reflexivity|]. unfold idle. intros [|[|[|[|i]]]] Hi; cbn in *; auto.
Qed.

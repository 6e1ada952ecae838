(** A program that meets the hypotheses: two local functions that call each other and a third one inside, which
    capture a parameter; and a function that gives a local function, and one that calls it. *)
From Verif.Base Require Import Base.
From Verif.Ir Require Import Model.
From Verif.Closure Require Import Model Spec Properties.

Definition prim (o : strict) (h : heap) (vs : list value) : option (heap * res) :=
  match o, vs with
  | SConst (KInteger _ _ v), [] => Some (h, RsVal (VAtom (AInt v)))
  | SBinary BUAdd, [VAtom (AInt a); VAtom (AInt b)] => Some (h, RsVal (VAtom (AInt (a + b))))
  | SBinary BUSub, [VAtom (AInt a); VAtom (AInt b)] => Some (h, RsVal (VAtom (AInt (a - b))))
  | SBinary BIEq, [VAtom (AInt a); VAtom (AInt b)] => Some (h, RsVal (v_bool (N.eqb a b)))
  | SAlloc _, [v] => Some (h ++ [Some v], RsVal (VPtr (List.length h)))
  | SUnary ULoad, [VPtr a] => match load h a with Some v => Some (h, RsVal v) | None => None end
  | SData _ i, vs => Some (h, RsVal (VData i vs))
  | _, _ => None
  end.
Definition equals (c : const) (v : value) : option bool :=
  match c, v with KInteger _ _ a, VAtom (AInt b) => Some (N.eqb a b) | _, _ => None end.

Lemma atom_alike : forall C : value -> value -> Prop, (forall v v', C v v' -> is_function v /\ is_function v') ->
  forall a v', alike C (VAtom a) v' -> v' = VAtom a.
Proof. intros C H a v' R. inversion R as [| | | | | |? ? K]; subst; [reflexivity|]. destruct (H _ _ K) as [[] _]. Qed.
Lemma ptr_alike : forall C : value -> value -> Prop, (forall v v', C v v' -> is_function v /\ is_function v') ->
  forall a v', alike C (VPtr a) v' -> v' = VPtr a.
Proof. intros C H a v' R. inversion R as [| | | | | |? ? K]; subst; [reflexivity|]. destruct (H _ _ K) as [[] _]. Qed.
Lemma cells_length : forall C h h', Forall2 (alike_cell C) h h' -> List.length h = List.length h'.
Proof. intros C h h' H. induction H; cbn; congruence. Qed.
Lemma load_alike : forall C h h' a v, Forall2 (alike_cell C) h h' -> load h a = Some v -> exists v', load h' a = Some v' /\ alike C v v'.
Proof.
  intros C h h' a v H. unfold load. revert a. induction H as [|c c' h h' HC H IH]; intros [|a] E; cbn in *; try discriminate E; [|apply IH, E].
  destruct HC as [|w w' R]; [discriminate E|]. injection E as <-. eauto.
Qed.
Example prim_opaque : prims_opaque prim.
Proof.
  intros C HC o h h' vs vs' h1 r RH RV E. pose proof (atom_alike C HC) as A1. pose proof (ptr_alike C HC) as A2.
  destruct o as [c|o|o|o|o|l|l t|l|t i|t|m|l t|kd t| |k t|f t]; cbn in E; try discriminate E.
  - destruct c; try discriminate E. destruct vs; [|discriminate E]. inversion RV; subst. injection E as <- <-. do 2 eexists. split; [reflexivity|]. split; [exact RH|repeat constructor].
  - destruct o; try discriminate E. destruct vs as [|[] [|]]; try discriminate E. inversion RV as [|? ? ? ? R1 R2]; subst. inversion R2; subst. apply A2 in R1. subst. cbn.
    destruct (load h a) as [v|] eqn:EL; [|discriminate E]. injection E as <- <-. destruct (load_alike C h h' a v RH EL) as (v' & -> & R). do 2 eexists. split; [reflexivity|]. split; [exact RH|constructor; exact R].
  - assert (D : forall g : N -> N -> value, (forall a b, exists n, g a b = VAtom (AInt n)) -> match vs with [VAtom (AInt a); VAtom (AInt b)] => Some (h, RsVal (g a b)) | _ => None end = Some (h1, r) ->
      exists a b, vs' = [VAtom (AInt a); VAtom (AInt b)] /\ h1 = h /\ r = RsVal (g a b) /\ alike_res C r r).
    { intros g G K. destruct vs as [|[[a| | | |]| | | | | | |] [|[[b| | | |]| | | | | | |] [|]]]; try discriminate K. inversion RV as [|? ? ? ? R1 R2]; subst. inversion R2 as [|? ? ? ? R3 R4]; subst. inversion R4; subst.
      apply A1 in R1, R3. subst. injection K as <- <-. exists a, b. destruct (G a b) as [n ->]. repeat split. repeat constructor. }
    destruct o; try discriminate E.
    + destruct (D (fun a b => v_bool (N.eqb a b))) as (a & b & -> & -> & -> & R); [intros; eexists; reflexivity|exact E|]. do 2 eexists. split; [reflexivity|]. auto.
    + destruct (D (fun a b => VAtom (AInt (a + b)))) as (a & b & -> & -> & -> & R); [intros; eexists; reflexivity|exact E|]. do 2 eexists. split; [reflexivity|]. auto.
    + destruct (D (fun a b => VAtom (AInt (a - b)))) as (a & b & -> & -> & -> & R); [intros; eexists; reflexivity|exact E|]. do 2 eexists. split; [reflexivity|]. auto.
  - destruct vs as [|v [|]]; try discriminate E. inversion RV as [|? v' ? ? R1 R2]; subst. inversion R2; subst. injection E as <- <-. do 2 eexists. split; [reflexivity|]. rewrite (cells_length _ _ _ RH).
    split; [|repeat constructor]. apply Forall2_app; [exact RH|]. apply Forall2_cons; [constructor; exact R1|apply Forall2_nil].
  - injection E as <- <-. do 2 eexists. split; [reflexivity|]. split; [exact RH|]. constructor. apply alike_data, RV.
Qed.
Example equals_opaque_ : equals_opaque equals.
Proof. intros C HC c v v' b R E. destruct c; try discriminate E. destruct v as [[]| | | | | | |]; try discriminate E. apply (atom_alike C HC) in R. subst. exact E. Qed.

Definition ty : ct := CtU 64.
Definition num (n : N) : expr := EOp (SConst (KInteger ty false n)) [].
Definition v_ (id : nat) : expr := EVar id ty.
Definition op (o : binary) (a b : expr) : expr := EOp (SBinary o) [a; b].
Definition fty : ct := CtU 64.
Definition f_ (id : nat) (x : expr) : expr := ECall (ELocal id fty) [x].

(** fun 0 (0): even (3) = if 3 == 0 then 0 else odd (3 - 1); odd (4) = if 4 == 0 then 0 + 100 else even (4 - 1);
    then inner (6) = even (6 + 0) inside, called with 2 *)
Definition main : function := Function None [(0, ty)]%nat ty
  (ELetLocal [(1, [(3, ty)], ty, EIf (op BIEq (v_ 3) (num 0)) (v_ 0) (f_ 2 (op BUSub (v_ 3) (num 1))));
              (2, [(4, ty)], ty, EIf (op BIEq (v_ 4) (num 0)) (op BUAdd (v_ 0) (num 100)) (f_ 1 (op BUSub (v_ 4) (num 1))))]
    (ELetLocal [(5, [(6, ty)], ty, f_ 1 (op BUAdd (v_ 6) (v_ 0)))] (f_ 5 (num 2))))%nat.
(** fun 1 (7): gives a function that adds 7, in memory *)
Definition adder : function := Function None [(7, ty)]%nat fty
  (ELetVar [(8, ty, v_ 7)] (ELetLocal [(9, [(10, ty)], ty, op BUAdd (v_ 8) (v_ 10))] (EOp (SAlloc LHeap) [ELocal 9 fty])))%nat.
(** fun 2 (11): calls what fun 1 gives for 11 with 1 *)
Definition caller : function := Function None [(11, ty)]%nat ty
  (ECall (EOp (SUnary ULoad) [ECall (EOp (SFun 1 fty) []) [v_ 11]]) [num 1])%nat.
Definition prog : list (nat * function) := [(0, main); (1, adder); (2, caller)]%nat.

Local Ltac nd := repeat (constructor; [cbn; intuition discriminate|]); try constructor.
Local Ltac lt := repeat (constructor; [cbn; lia|]); try constructor.
Local Ltac sc := repeat first [apply Forall_nil | apply Forall_cons | constructor; cbn; auto 12; fail | econstructor | cbn; auto 12; fail].
Example prog_ok : program 20 3 prog.
Proof.
  split; [cbn; nd|]. repeat (apply Forall_cons; [split; [cbn; lia|split; [|split; [cbn; nd|cbn; lt]]]|]); try apply Forall_nil; cbn.
  - apply scoped_let_local; cbn; [repeat (apply Forall_cons; cbn)|]; try apply Forall_nil; sc.
  - sc.
  - sc.
Qed.

Definition conv_prog : list (nat * function) := match normalize 10 20 20 3 prog with Ret out => out | _ => [] end.
Example prog_conv : normalize 10 20 20 3 prog = Ret conv_prog.
Proof. vm_compute. reflexivity. Qed.
(** main builds the environment of the first two functions from its parameter, and that of the third one from its
    parameter and this environment. *)
Example prog_main : option_map f_body (table conv_prog 0) = Some
  (ELetVar [(21, CtEnv, EOp (SEnv LHeap) [v_ 0])] (ELetVar [(24, CtEnv, EOp (SEnv LHeap) [v_ 0; EVar 21 CtEnv])]
    (ECall (EOp (SFun 5 fty) [EVar 24 CtEnv]) [num 2])))%nat.
Proof. vm_compute. reflexivity. Qed.
Example prog_inner : table conv_prog 5 = Some (Function (Some (24, [(22, ty); (23, CtEnv)])) [(6, ty)] ty
  (ECall (EOp (SFun 3 fty) [EVar 23 CtEnv]) [op BUAdd (v_ 6) (v_ 22)]))%nat.
Proof. vm_compute. reflexivity. Qed.
Example prog_no_locals : Forall (fun p => no_locals (f_body (snd p))) conv_prog /\ List.length conv_prog = 7%nat.
Proof. split; [apply (no_local_functions_left _ _ _ _ _ _ prog_ok prog_conv)|vm_compute; reflexivity]. Qed.

Local Ltac run :=
  lazymatch goal with
  | |- ev _ _ _ _ _ (EVar _ _) _ _ => eapply ev_var; reflexivity
  | |- ev _ _ _ _ _ (ELocal _ _) _ _ => eapply ev_local; reflexivity
  | |- ev _ _ _ _ _ (EOp _ _) _ _ => eapply ev_op; [run|reflexivity]
  | |- ev _ _ _ _ _ (ECall _ _) _ _ => eapply ev_call; [run|first [eapply entered_local; reflexivity|eapply entered_fun; reflexivity]|cbn; run|reflexivity]
  | |- ev _ _ _ _ _ (EIf _ _ _) _ _ => eapply ev_if; [run|cbn; run]
  | |- ev _ _ _ _ _ (ELetLocal _ _) _ _ => eapply ev_let_local; cbn; run
  | |- ev _ _ _ _ _ (ELetVar [] _) _ _ => eapply ev_let_nil; run
  | |- ev _ _ _ _ _ (ELetVar _ _) _ _ => eapply ev_let; [run|run]
  | |- evs _ _ _ _ _ [] _ _ => apply evs_nil
  | |- evs _ _ _ _ _ _ _ _ => eapply evs_cons; [run|run]
  | |- ev _ _ _ _ _ ?x _ _ => let y := eval hnf in x in change x with y; run
  end.
Definition arg (n : N) : value := VAtom (AInt n).
Example main_runs : ev prim equals (table prog) [] [(0%nat, arg 2)] (f_body main) [] (RsVal (arg 2)).
Proof. unfold main, f_, v_, op, num. cbn [f_body]. run. Qed.
Example caller_runs : exists h, ev prim equals (table prog) [] [(11%nat, arg 5)] (f_body caller) h (RsVal (arg 6)).
Proof. eexists. unfold caller, f_, v_, op, num. cbn [f_body]. run. Qed.

(** The same once it is converted. *)
Example main_converted : exists e body, entered (table conv_prog) (VFun 0 None) [arg 2] e body /\
  forall h2 r2, ev prim equals (table conv_prog) [] e body h2 r2 <-> h2 = [] /\ r2 = RsVal (arg 2).
Proof.
  eapply (converted_program_same prim equals 20 3 prog 10 20 conv_prog prim_opaque equals_opaque_ prog_ok prog_conv [] [arg 2] 0 None); try exact main_runs.
  - constructor.
  - repeat constructor.
  - constructor.
  - eapply entered_fun; reflexivity.
  - constructor.
  - constructor.
Qed.
(** A local function in memory: the results are alike, and here equal. *)
Example caller_converted : exists e body h r, entered (table conv_prog) (VFun 2 None) [arg 5] e body /\
  ev prim equals (table conv_prog) [] e body h r /\ r = RsVal (arg 6).
Proof.
  destruct (converted_calls_agree prim equals 20 3 prog 10 20 conv_prog prim_opaque equals_opaque_ prog_ok prog_conv) as (C & AG & GL).
  assert (G : forall v, global v -> is_function v -> C v v).
  { intros v G K. destruct (GL v G) as [R _]. inversion R; subst; try contradiction. assumption. }
  destruct caller_runs as [h RUN].
  destruct (AG (VFun 2 None) (VFun 2 None) (G _ (global_fun 2) Logic.I)) as [_ CALL].
  destruct (CALL [] [] [arg 5] [arg 5] [(11%nat, arg 5)] (f_body caller) h (RsVal (arg 6))) as (e' & body' & h1' & r' & EN & EV & _ & RR).
  - constructor.
  - constructor; [apply GL; constructor|constructor].
  - eapply entered_fun; reflexivity.
  - exact RUN.
  - exists e', body', h1', r'. split; [exact EN|]. split; [exact EV|]. inversion RR as [? ? R| | |]; subst. f_equal. apply (proj2 (GL (arg 6) (global_atom _)) _ R).
Qed.
Example prog_ends : exists limit, forall rounds fuel, (limit <= rounds)%nat -> (limit <= fuel)%nat -> exists out, normalize rounds fuel 20 3 prog = Ret out.
Proof. exact (conversion_ends _ _ _ prog_ok). Qed.
Example main_once : forall h r, ev prim equals (table prog) [] [(0%nat, arg 2)] (f_body main) h r -> h = [] /\ r = RsVal (arg 2).
Proof. intros h r H. exact (meaning_unique _ _ _ _ _ _ _ _ _ _ main_runs H). Qed.

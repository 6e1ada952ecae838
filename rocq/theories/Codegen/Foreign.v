(** * C functions

    What a C function finds when it is called, and what it leaves: the System V convention for x86-64.
    The state is the one before the return address is pushed, and the one after it has been popped. *)
From Coq Require Import ZArith.
From Verif.Base Require Import Base.
From Verif.Ir Require Import Model.
From Verif.Layout Require Import Model Spec.
From Verif.Stack Require Import Machine Spec.
From Verif.Codegen Require Import Machine Spec.
Local Open Scope Z_scope.

(** The bytes of [v] that are defined are in memory at [a]. *)
Definition bytes_at (m : Z -> Z) (a : Z) (v : val) : Prop :=
  forall i z, nth_error v i = Some (Some z) -> cell m (a + Z.of_nat i) = z.
Definition heap_at (start : Z) (h : heap) (m : Z -> Z) : Prop :=
  forall a, (h a <> None -> start <= a) /\ forall z, h a = Some (Some z) -> cell m a = z.
Definition rooms (ls : list layout) : Z := fold_right (fun l n => room l + n) 0 ls.
(** The bytes [bs] are possible for [v]. *)
Definition fits (v : val) (bs : list Z) : Prop := forall i z, nth_error v i = Some (Some z) -> nth_error bs i = Some z.

(** The registers for arguments. *)
Definition gprs (ret : layout) : list gpr :=
  match cls ret with Memory => [Rsi; Rdx; Rcx; R8; R9] | _ => [Rdi; Rsi; Rdx; Rcx; R8; R9] end.
Definition xmms : list nat := [0; 1; 2; 3; 4; 5; 6; 7]%nat.
(** The arguments are in the registers that are left, or in order from address [a] on. *)
Fixpoint passed (gs : list gpr) (xs : list nat) (a : Z) (args : list (layout * val)) (s : state) : Prop :=
  match args with
  | [] => True
  | (l, v) :: args =>
      if by_register l (List.length gs) (List.length xs)
      then (exists bs, List.length bs = length_of l /\ fits v bs /\ in_regs (eightbytes l) gs xs bs s) /\
           passed (skipn (count Integer l) gs) (skipn (count FloatingPoint l) xs) a args s
      else bytes_at (mem s) a v /\ passed gs xs (a + room l) args s
  end.
(** Values in order from address [a] on, each rounded up to whole eightbytes. *)
Fixpoint stacked (m : Z -> Z) (a : Z) (args : list (layout * val)) : Prop :=
  match args with
  | [] => True
  | (l, v) :: args => bytes_at m a v /\ stacked m (a + room l) args
  end.
Definition on_stack (ret : layout) (ls : list layout) : Z := rooms (select false (in_registers ret ls) ls).

Record c_called (start : Z) (args : list (layout * val)) (l : layout) (h : heap) (s : state) : Prop := CCalled {
  f_aligned : gp s Rsp mod 16 = 0;
  f_free : 0 <= gp s Rsp;
  f_arguments : passed (gprs l) xmms (gp s Rsp) args s;
  f_result : cls l = Memory ->
    gp s Rsp + on_stack l (map fst args) <= gp s Rdi /\ gp s Rdi + room l <= start;
  f_stack : gp s Rsp + on_stack l (map fst args) <= start;
  f_heap : heap_at start h (mem s) }.

(** The result is in the registers for values, or where [rdi] pointed to. *)
Definition delivered (l : layout) (v : val) (s s' : state) : Prop :=
  List.length v = length_of l /\
  match cls l with
  | Memory => bytes_at (mem s') (gp s Rdi) v
  | _ => exists bs, fits v bs /\ value l bs s'
  end.
(** The arguments on the stack belong to the function. *)
Record c_returned (start : Z) (args : list (layout * val)) (l : layout) (v : val) (h : heap) (s s' : state) : Prop := CReturned {
  b_saved : forall x, saved x = true -> gp s' x = gp s x;
  b_registers : forall x, saved x = false -> 0 <= gp s' x < 2 ^ 64;
  b_result : delivered l v s s';
  b_heap : heap_at start h (mem s');
  b_stack : forall a, gp s Rsp + on_stack l (map fst args) <= a < start ->
    ~ (cls l = Memory /\ gp s Rdi <= a < gp s Rdi + room l) -> mem s' a = mem s a }.

(** The C functions do what they mean to those who call them by the convention. *)
Definition c_functions (M : machine) (start : Z)
    (c_means : Z -> list (layout * val) -> layout -> world (memo M) -> world (memo M) -> val -> Prop) : Prop :=
  forall a args l w w' v, c_means a args l w w' v ->
  position M a = None /\
  forall s, c_called start args l (snd w) s ->
  exists s', foreign M (fst w) a s = Some (fst w', s') /\ c_returned start args l v (snd w') s s'.

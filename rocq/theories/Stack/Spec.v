(** * Where a value is *)
From Coq Require Import ZArith.
From Verif.Base Require Import Base.
From Verif.Ir Require Import Model.
From Verif.Layout Require Import Model Spec.
From Verif.Stack Require Import Machine.
Local Open Scope Z_scope.

(** The layouts of values: those of types, and the same rounded up to whole eightbytes. *)
Inductive type_layout : layout -> Prop :=
| type_layout_get r t l : reached r -> get r t = Ret l -> type_layout l
| type_layout_stack l : type_layout l -> type_layout (in_stack l).

(** The low bytes of a register are [bs]; the bytes from address [a] on are [bs]. *)
Definition in_reg (v : Z) (bs : list Z) : Prop := forall i b, nth_error bs i = Some b -> byte v i = b.
Definition in_mem (m : Z -> Z) (a : Z) (bs : list Z) : Prop :=
  forall i b, nth_error bs i = Some b -> cell m (a + Z.of_nat i) = b.

(** [n] bytes from offset [o] on. *)
Definition part {A} (bs : list A) (o n : N) : list A := firstn (N.to_nat n) (skipn (N.to_nat o) bs).

(** Each eightbyte of the value [bs] is in the next register of its class. *)
Fixpoint in_regs (es : list eightbyte) (gs : list gpr) (xs : list nat) (bs : list Z) (s : state) : Prop :=
  match es with
  | [] => True
  | e :: es =>
      let bytes := part bs (e_offset e) (e_size e) in
      match e_class e, gs, xs with
      | Integer, g :: gs, _ => in_reg (gp s g) bytes /\ in_regs es gs xs bs s
      | FloatingPoint, _, x :: xs => in_reg (xm s x) bytes /\ in_regs es gs xs bs s
      | _, _, _ => False
      end
  end.

Definition length_of (l : layout) : nat := N.to_nat (size l).
(** The number of eightbytes, in bytes. *)
Definition room (l : layout) : Z := 8 * ((Z.of_N (size l) + 7) / 8).

(** The value just computed: in [rax], [rdx], [xmm0] and [xmm1], or on top of the stack. *)
Definition value (l : layout) (bs : list Z) (s : state) : Prop :=
  List.length bs = length_of l /\
  match cls l with
  | Void => True
  | Memory => in_mem (mem s) (gp s Rsp) bs
  | Integer | FloatingPoint => in_regs (eightbytes l) [Rax; Rdx] [0; 1]%nat bs s
  end.
(** The bytes of the stack it takes. *)
Definition taken (l : layout) : Z := match cls l with Memory => room l | _ => 0 end.

(** The value is on the stack whatever its class is. *)
Definition pushed (l : layout) (bs : list Z) (s : state) : Prop :=
  List.length bs = length_of l /\ in_mem (mem s) (gp s Rsp) bs.

(** Memory is the same except in [lo, hi). *)
Definition same_outside (lo hi : Z) (s s' : state) : Prop :=
  forall a, a < lo \/ hi <= a -> mem s' a = mem s a.
(** The registers other than those that hold values and temporaries are the same. *)
Definition scratch (r : gpr) : bool := match r with Rax | Rdx | R10 | R11 | Rsp => true | _ => false end.
Definition same_regs (s s' : state) : Prop := forall r, scratch r = false -> gp s' r = gp s r.
Definition usable_address (a : addr) : Prop :=
  scratch (base a) = false /\ match index a with Some r => scratch r = false | None => True end.
(** The [la] bytes from [a] on and the [lb] bytes from [b] on are different ones. *)
Definition apart (a la b lb : Z) : Prop := forall x, ~ (a <= x < a + la /\ b <= x < b + lb).

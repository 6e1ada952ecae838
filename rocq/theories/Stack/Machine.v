(** * The instructions that codegen/stack_inst.rs and the calls in codegen.rs emit

    This is the part of the processor the code generator relies on, not code of the repository.
    Registers hold integers of 64 bits; the addresses that [rsp] and the address operands denote are
    computed without wrapping around.  Flags are left out: nothing modelled here reads them. *)
From Coq Require Import ZArith List Bool.
Import ListNotations.
Local Open Scope Z_scope.

Inductive gpr :=
  Rax | Rcx | Rdx | Rbx | Rsp | Rbp | Rsi | Rdi | R8 | R9 | R10 | R11 | R12 | R13 | R14 | R15.

Definition gpr_code (r : gpr) : nat :=
  match r with
  | Rax => 0 | Rcx => 1 | Rdx => 2 | Rbx => 3 | Rsp => 4 | Rbp => 5 | Rsi => 6 | Rdi => 7
  | R8 => 8 | R9 => 9 | R10 => 10 | R11 => 11 | R12 => 12 | R13 => 13 | R14 => 14 | R15 => 15
  end%nat.
Definition gpr_eqb (a b : gpr) : bool := Nat.eqb (gpr_code a) (gpr_code b).

(** [mem] gives the byte at an address modulo 256; of an SSE register only the low half is used. *)
Record state := State { gp : gpr -> Z; xm : nat -> Z; mem : Z -> Z }.

Definition set_gp (r : gpr) (v : Z) (s : state) : state :=
  State (fun r' => if gpr_eqb r' r then v else gp s r') (xm s) (mem s).
Definition set_xm (x : nat) (v : Z) (s : state) : state :=
  State (gp s) (fun y => if Nat.eqb y x then v else xm s y) (mem s).

(** The byte [i] of a value and the byte at an address. *)
Definition byte (v : Z) (i : nat) : Z := Z.land (Z.shiftr v (8 * Z.of_nat i)) 255.
Definition cell (m : Z -> Z) (a : Z) : Z := Z.land (m a) 255.

(** Little-endian access of [n] bytes. *)
Fixpoint read (n : nat) (m : Z -> Z) (a : Z) : Z :=
  match n with
  | O => 0
  | S n => Z.lor (cell m a) (Z.shiftl (read n m (a + 1)) 8)
  end.
Definition write (n : nat) (a v : Z) (s : state) : state :=
  State (gp s) (xm s)
    (fun b => if (a <=? b) && (b <? a + Z.of_nat n) then byte v (Z.to_nat (b - a)) else mem s b).

(** The widths of the suffixes [b], [w], [l] and [q]. *)
Inductive width := B | W | L | Q.
Definition bytes (w : width) : nat := match w with B => 1 | W => 2 | L => 4 | Q => 8 end.

(** [base + index + disp] *)
Record addr := Addr { base : gpr; index : option gpr; disp : Z }.
Definition ea (a : addr) (s : state) : Z :=
  gp s (base a) + match index a with Some r => gp s r | None => 0 end + disp a.
Definition plus (a : addr) (n : Z) : addr := Addr (base a) (index a) (disp a + n).

Inductive inst :=
| Push (r : gpr) | Pop (r : gpr)
| Load (w : width) (r : gpr) (a : addr)      (* movb/movw/movl/movq register, memory *)
| LoadZ (w : width) (r : gpr) (a : addr)     (* movzbq/movzwq register, memory *)
| Store (w : width) (a : addr) (r : gpr)     (* movb/movw/movl/movq memory, register *)
| Shlq (r : gpr) (n : Z) | Shrq (r : gpr) (n : Z) | Shrl (r : gpr) (n : Z)
| Orq (r r' : gpr) | Movq (r r' : gpr)
| MovqGX (r : gpr) (x : nat) | MovqXG (x : nat) (r : gpr)
| Leaq (r : gpr) (a : addr)
| Addq (r : gpr) (n : Z) | Subq (r : gpr) (n : Z).

(** A load of 1 or 2 bytes keeps the rest of the register, one of 4 bytes clears it. *)
Definition merge_low (w : width) (old v : Z) : Z :=
  match w with
  | B => Z.lor (Z.ldiff old (Z.ones 8)) v
  | W => Z.lor (Z.ldiff old (Z.ones 16)) v
  | L | Q => v
  end.

Definition step (i : inst) (s : state) : state :=
  match i with
  | Push r => write 8 (gp s Rsp - 8) (gp s r) (set_gp Rsp (gp s Rsp - 8) s)
  | Pop r => set_gp r (read 8 (mem s) (gp s Rsp)) (set_gp Rsp (gp s Rsp + 8) s)
  | Load w r a => set_gp r (merge_low w (gp s r) (read (bytes w) (mem s) (ea a s))) s
  | LoadZ w r a => set_gp r (read (bytes w) (mem s) (ea a s)) s
  | Store w a r => write (bytes w) (ea a s) (gp s r) s
  | Shlq r n => set_gp r (Z.land (Z.shiftl (gp s r) n) (Z.ones 64)) s
  | Shrq r n => set_gp r (Z.shiftr (Z.land (gp s r) (Z.ones 64)) n) s
  | Shrl r n => set_gp r (Z.shiftr (Z.land (gp s r) (Z.ones 32)) n) s
  | Orq r r' => set_gp r (Z.lor (gp s r) (gp s r')) s
  | Movq r r' => set_gp r (gp s r') s
  | MovqGX r x => set_gp r (xm s x) s
  | MovqXG x r => set_xm x (gp s r) s
  | Leaq r a => set_gp r (ea a s) s
  | Addq r n => set_gp r (gp s r + n) s
  | Subq r n => set_gp r (gp s r - n) s
  end.

Fixpoint run (is : list inst) (s : state) : state :=
  match is with [] => s | i :: is => run is (step i s) end.

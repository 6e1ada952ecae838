(** * Running generated code

    This is the part of the processor, of the linker and of the allocator that the generated code
    relies on, not code of the repository.  A program is the code of its functions; positions in the
    code have addresses; calling another address is a call of a C function.  A call is stuck unless
    the stack pointer is aligned to 16 bytes, as the calling convention demands. *)
From Coq Require Import ZArith.
From Verif.Base Require Import Base.
From Verif.Stack Require Import Machine.
From Verif.Codegen Require Import Model Alu.
Local Open Scope Z_scope.

Definition wrap (z : Z) : Z := z mod 2 ^ 64.

(** A function, a position in its code, registers and memory, and what the allocator remembers. *)
Record config (W : Type) := Config { fn : nat; pc : nat; st : state; al : W }.
Arguments Config {W}. Arguments fn {W}. Arguments pc {W}. Arguments st {W}. Arguments al {W}.

(** What code is run with: the code of the functions, the addresses of positions in it with their
    inverse, the allocator, what [GC_malloc] does to registers and memory, the addresses of symbols and
    what the C functions do, which may make use of the allocator. *)
Record machine := Machine {
  code_of : nat -> list item;
  address : nat -> nat -> Z;
  position : Z -> option (nat * nat);
  memo : Type;
  alloc : memo -> Z -> memo * Z;
  clobber : memo -> state -> state;
  symbol : text -> Z;
  foreign : memo -> Z -> state -> option (memo * state) }.

Fixpoint find_label (n : nat) (is : list item) : option nat :=
  match is with
  | [] => None
  | i :: is =>
      let next := match find_label n is with Some p => Some (S p) | None => None end in
      match i with Lab m => if (m =? n)%nat then Some O else next | _ => next end
  end.

Section Run.
Variable M : machine.
Notation config := (config (memo M)).

Definition jump (c : config) (n : nat) : option config :=
  match find_label n (code_of M (fn c)) with
  | Some p => Some (Config (fn c) p (st c) (al c))
  | None => None
  end.
Definition go_on (c : config) (s : state) : option config := Some (Config (fn c) (S (pc c)) s (al c)).
Definition aligned (s : state) : bool := gp s Rsp mod 16 =? 0.

Definition call (c : config) (a : Z) : option config :=
  let s := st c in
  if aligned s then
    match position M a with
    | Some (f, p) =>
        let s := set_gp Rsp (gp s Rsp - 8) s in
        Some (Config f p (write 8 (gp s Rsp) (address M (fn c) (S (pc c))) s) (al c))
    | None =>
        match foreign M (al c) a s with
        | Some (w, s') => Some (Config (fn c) (S (pc c)) s' w)
        | None => None
        end
    end
  else None.

Definition next_step (c : config) : option config :=
  let s := st c in
  match nth_error (code_of M (fn c)) (pc c) with
  | None => None
  | Some (I i) => go_on c (step i s)
  | Some (Imm r z) => go_on c (set_gp r (wrap z) s)
  | Some (FunAddr f) => go_on c (set_gp Rax (address M f 0) s)
  | Some (Block is) => match block is s with Some s' => go_on c s' | None => None end
  | Some FlipAl => go_on c (set_gp Rax (Z.lxor (gp s Rax) 1) s)
  | Some (Lab _) => go_on c s
  | Some (Jmp n) => jump c n
  | Some (JumpIfZero n) => if byte (gp s Rax) 0 =? 0 then jump c n else go_on c s
  | Some CallRax => call c (wrap (gp s Rax))
  | Some (CallSym f) => call c (symbol M f)
  | Some CallMalloc =>
      if aligned s then
        let (w, p) := alloc M (al c) (gp s Rdi) in
        Some (Config (fn c) (S (pc c)) (set_gp Rax p (clobber M (al c) s)) w)
      else None
  | Some Retq =>
      match position M (read 8 (mem s) (gp s Rsp)) with
      | Some (f, p) => Some (Config f p (set_gp Rsp (gp s Rsp + 8) s) (al c))
      | None => None
      end
  end.

(** Running [c] leads to a configuration that satisfies [P], or the stack overflows on the way. *)
Inductive leads (P : config -> Prop) : config -> Prop :=
| leads_here c : P c -> leads P c
| leads_overflow c : gp (st c) Rsp < 0 -> leads P c
| leads_step c c' : next_step c = Some c' -> leads P c' -> leads P c.

(** Addresses are numbers of 64 bits and tell the positions of instructions apart. *)
Definition addresses : Prop :=
  forall f p, 0 <= address M f p < 2 ^ 64 /\
  ((p < List.length (code_of M f))%nat -> position M (address M f p) = Some (f, p)).

(** The registers a function keeps for its caller. *)
Definition saved (r : gpr) : bool := match r with Rbx | Rsp | Rbp | R12 | R13 | R14 | R15 => true | _ => false end.
(** [GC_malloc] keeps them and the memory that is not below the stack pointer; registers hold numbers
    of 64 bits. *)
Definition allocator : Prop :=
  forall w s, (forall r, saved r = true -> gp (clobber M w s) r = gp s r) /\
  (forall r, saved r = false -> 0 <= gp (clobber M w s) r < 2 ^ 64) /\
  (forall a, gp s Rsp <= a -> mem (clobber M w s) a = mem s a).
End Run.

(** * The arithmetic instructions that codegen.rs emits

    This is a part of the processor, not code of the repository.  The instructions are run in blocks:
    flags are set and read within a block only; [None] stands for flags that the code must not read. *)
From Coq Require Import ZArith List Bool.
From Verif.Stack Require Import Machine.
From Verif.Codegen Require Import Float.
Import ListNotations.
Local Open Scope Z_scope.

Record flags := Flags { zf : bool; cf : bool; sf : bool; of : bool }.
Inductive cond := CE | CL | CLE | CG | CGE | CB | CBE | CA | CAE.
Definition cond_holds (c : cond) (f : flags) : bool :=
  match c with
  | CE => zf f
  | CL => xorb (sf f) (of f)
  | CLE => zf f || xorb (sf f) (of f)
  | CG => negb (zf f || xorb (sf f) (of f))
  | CGE => negb (xorb (sf f) (of f))
  | CB => cf f
  | CBE => cf f || zf f
  | CA => negb (cf f || zf f)
  | CAE => negb (cf f)
  end.

Inductive arith := Add | Sub | And | Or | Xor.
Definition arith_result (o : arith) (x y : Z) : Z :=
  match o with
  | Add => x + y | Sub => x - y | And => Z.land x y | Or => Z.lor x y | Xor => Z.lxor x y
  end.
Inductive shift := Shl | Sar | Shr.

Inductive alu :=
| Mov (w : width) (d s : gpr)                    (* mov *)
| MovAlAh                                        (* movb al, ah *)
| Ext (sign : bool) (from to : width) (d s : gpr) (* movzx, movsx; cbtw, cwtl and cltq on rax *)
| Arith (o : arith) (w : width) (d s : gpr)
| XorImm (w : width) (d : gpr) (z : Z)
| Shift (o : shift) (w : width) (d : gpr)        (* by cl *)
| Imul (w : width) (s : gpr)                     (* with one operand *)
| ImulImm (d s : gpr) (z : Z)                    (* imulq d, s, z *)
| ImulMem (d : gpr) (a : addr) (z : Z)           (* imulq d, memory, z *)
| SignRdx (w : width)                            (* cwtd, cltd, cqto *)
| Div (sign : bool) (w : width) (s : gpr)
| Popcnt (w : width) (d s : gpr)
| Cmp (w : width) (a b : gpr)
| SetAl (c : cond)
| FloatArith (o : float_op) (w : width) (d s : nat)
| FloatCmp (w : width) (a b : nat)               (* comiss, comisd *)
| FromInt (i w : width) (d : nat) (s : gpr)      (* cvtsi2ss, cvtsi2sd *)
| ToInt (w i : width) (d : gpr) (s : nat)        (* cvttss2si, cvttsd2si *)
| FloatConvert (from to : width) (d s : nat)     (* cvtss2sd, cvtsd2ss *)
| MovqXX (d s : nat).

(** An operation on 1 or 2 bytes keeps the rest of the register, one on 4 bytes clears it. *)
Definition set_low (w : width) (d : gpr) (v : Z) (s : state) : state := set_gp d (merge_low w (gp s d) (low w v)) s.
(** One on 4 bytes of an SSE register keeps the rest. *)
Definition set_float (w : width) (d : nat) (v : Z) (s : state) : state :=
  set_xm d (match w with Q => low Q v | _ => Z.lor (Z.ldiff (xm s d) (Z.ones (bits w))) (low w v) end) s.

Definition subtracted (w : width) (x y : Z) : flags :=
  let d := signed w x - signed w y in
  Flags (low w x =? low w y) (low w x <? low w y) (Z.testbit (low w (x - y)) (bits w - 1))
    ((d <? - 2 ^ (bits w - 1)) || (2 ^ (bits w - 1) <=? d)).
Definition compared (o : option comparison) : flags :=
  match o with
  | Some Gt => Flags false false false false
  | Some Lt => Flags false true false false
  | Some Eq => Flags true false false false
  | None => Flags true true false false
  end.

(** Counts beyond 31, or 63 for 8 bytes, are reduced. *)
Definition shifted (o : shift) (w : width) (x count : Z) : Z :=
  let n := low B count mod (match w with Q => 64 | _ => 32 end) in
  match o with
  | Shl => Z.shiftl (low w x) n
  | Sar => Z.shiftr (signed w x) n
  | Shr => Z.shiftr (low w x) n
  end.

Fixpoint ones (n : nat) (x : Z) : Z :=
  match n with O => 0 | S n => (if Z.odd x then 1 else 0) + ones n (Z.div2 x) end.

(** A quotient that does not fit, and a division by zero, raise an exception. *)
Definition divided (sign : bool) (w : width) (x y : Z) : option (Z * Z) :=
  let y := if sign then signed w y else low w y in
  let (q, r) := if sign then (Z.quot x y, Z.rem x y) else (x / y, x mod y) in
  let fits := if sign then (- 2 ^ (bits w - 1) <=? q) && (q <? 2 ^ (bits w - 1)) else q <? 2 ^ bits w in
  if negb (y =? 0) && fits then Some (q, r) else None.

Definition alu_step (i : alu) (p : state * option flags) : option (state * option flags) :=
  let (s, f) := p in
  let go s := Some (s, None) in
  match i with
  | Mov w d r => Some (set_low w d (gp s r) s, f)
  | MovAlAh => Some (set_low B Rax (Z.shiftr (gp s Rax) 8) s, f)
  | Ext sign from to d r => Some (set_low to d (if sign then signed from (gp s r) else low from (gp s r)) s, f)
  | Arith o w d r => go (set_low w d (arith_result o (gp s d) (gp s r)) s)
  | XorImm w d z => go (set_low w d (Z.lxor (gp s d) z) s)
  | Shift o w d => go (set_low w d (shifted o w (gp s d) (gp s Rcx)) s)
  | Imul B r => go (set_low W Rax (signed B (gp s Rax) * signed B (gp s r)) s)
  | Imul w r =>
      let p := signed w (gp s Rax) * signed w (gp s r) in
      go (set_low w Rdx (Z.shiftr p (bits w)) (set_low w Rax p s))
  | ImulImm d r z => go (set_low Q d (gp s r * z) s)
  | ImulMem d a z => go (set_low Q d (read 8 (mem s) (ea a s) * z) s)
  | SignRdx w => Some (set_low w Rdx (if signed w (gp s Rax) <? 0 then -1 else 0) s, f)
  | Div sign B r =>
      match divided sign B (if sign then signed W (gp s Rax) else low W (gp s Rax)) (gp s r) with
      | Some (q, m) => go (set_low W Rax (low B q + 256 * low B m) s)
      | None => None
      end
  | Div sign w r =>
      let high := if sign then signed w (gp s Rdx) else low w (gp s Rdx) in
      match divided sign w (high * 2 ^ bits w + low w (gp s Rax)) (gp s r) with
      | Some (q, m) => go (set_low w Rdx m (set_low w Rax q s))
      | None => None
      end
  | Popcnt w d r => go (set_low w d (ones (8 * bytes w) (low w (gp s r))) s)
  | Cmp w a b => Some (s, Some (subtracted w (gp s a) (gp s b)))
  | SetAl c =>
      match f with
      | Some f => Some (set_low B Rax (if cond_holds c f then 1 else 0) s, Some f)
      | None => None
      end
  | FloatArith o w d x => Some (set_float w d (float_arith o w (xm s d) (xm s x)) s, f)
  | FloatCmp w a b => Some (s, Some (compared (float_compare w (xm s a) (xm s b))))
  | FromInt i w d r => Some (set_float w d (of_integer w (signed i (gp s r))) s, f)
  | ToInt w i d x =>
      let v := match to_integer w (xm s x) with
               | Some z => if (- 2 ^ (bits i - 1) <=? z) && (z <? 2 ^ (bits i - 1)) then z else 2 ^ (bits i - 1)
               | None => 2 ^ (bits i - 1)
               end in
      Some (set_low i d v s, f)
  | FloatConvert from to d x => Some (set_float to d (float_convert from to (xm s x)) s, f)
  | MovqXX d x => Some (set_xm d (xm s x) s, f)
  end.

Fixpoint alu_run (is : list alu) (p : state * option flags) : option (state * option flags) :=
  match is with
  | [] => Some p
  | i :: is => match alu_step i p with Some p => alu_run is p | None => None end
  end.
(** The flags before a block are not known. *)
Definition block (is : list alu) (s : state) : option state :=
  match alu_run is (s, None) with Some (s, _) => Some s | None => None end.

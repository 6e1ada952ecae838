(** * llrl0/src/backend/chibi/codegen.rs and codegen/call_frame.rs

    The instructions generated for a function.  The model covers functions built from variables,
    integer and character constants, function pointers, calls of llrl functions, the allocation of
    single values and environments on the heap, structures, sequences, conditionals, loops, returns,
    local variables and local continuations, calls of C functions, and the operators.  Strings,
    floating-point and syntax constants, the conversion of numbers of 8 bytes without a sign to
    floating point, and allocation on the stack are not modelled here: [gen] panics on them. *)
From Coq Require Import ZArith.
From Verif.Base Require Import Base.
From Verif.Ir Require Import Model.
From Verif.Layout Require Import Model.
From Verif.Frame Require Model.
From Verif.Stack Require Import Machine Model.
From Verif.Codegen Require Import Float Alu.
Local Open Scope Z_scope.

(** What the writer is given.  [Imm] is a move of a constant ([xorl r, r] is the move of 0), [FunAddr]
    the load of the address of a function from the address table, [FlipAl] is [xorb al, 1],
    [Block] a run of arithmetic instructions, [JumpIfZero] is [cmpb al, 0] followed by [je], [CallSym] a call through the address table, and
    [CallMalloc] the call of [GC_malloc]. *)
Inductive item :=
| I (i : inst) | Imm (r : gpr) (z : Z) | FunAddr (f : nat) | FlipAl | Block (is : list alu)
| Lab (n : nat) | Jmp (n : nat) | JumpIfZero (n : nat)
| CallRax | CallSym (f : text) | CallMalloc | Retq.

(** ** call_frame.rs *)

(** call_frame.rs:12-17 [CallFrame] *)
Record call_frame := CallFrame { stack_args : Z; padding : Z; ret_words : Z }.

(** call_frame.rs:68-73 [default_args] and :19-42 [new], given the layouts of the parameters, the
    layout of the result and the recorded depth of the stack.  :108-117 [CallRet::c]: the result takes
    room on the stack when it is not returned in registers. *)
Definition ret_on_stack (ret : layout) : Z :=
  match last_value ret with Some _ => 0 | None => words ret end.
Definition new_frame (params : list layout) (ret : layout) (depth : Z) : call_frame :=
  let args := fold_left (fun sum l => sum + words l) params 0 in
  CallFrame args ((depth + ret_on_stack ret + args) mod 2) (ret_on_stack ret).

(** call_frame.rs:60-65 [CallArg]; only the C convention passes arguments in registers. *)
Inductive call_arg := InReg (rs : list assign) | StackRev (n : Z).
(** call_frame.rs:75-95 [c_args] *)
Definition c_gps : list gpr := [Rdi; Rsi; Rdx; Rcx; R8; R9].
Definition c_fps : list nat := [0; 1; 2; 3; 4; 5; 6; 7]%nat.
Fixpoint c_args_from (gps : list gpr) (fps : list nat) (ls : list layout) : list call_arg :=
  match ls with
  | [] => []
  | l :: ls =>
      match build l gps fps with
      | Some (rs, gps, fps) => InReg rs :: c_args_from gps fps ls
      | None => StackRev (words l) :: c_args_from gps fps ls
      end
  end.
Definition c_args (ls : list layout) (ret : layout) : list call_arg :=
  c_args_from (if is_memory ret then tl c_gps else c_gps) c_fps ls.
(** call_frame.rs:19-42 [new] for such arguments. *)
Definition c_frame (args : list call_arg) (ret : layout) (depth : Z) : call_frame :=
  let args := fold_left (fun sum c => match c with StackRev n => sum + n | InReg _ => sum end) args 0 in
  CallFrame args ((depth + ret_on_stack ret + args) mod 2) (ret_on_stack ret).

Definition memory (n : Z) : layout := l_memory (Z.to_N n * 8) 8.
(** call_frame.rs:44-47 *)
Definition padding_before_stack_args (f : call_frame) : layout := memory (ret_words f + padding f).
(** call_frame.rs:49-52 *)
Definition offset_to_ret_destination (f : call_frame) : option Z :=
  if ret_words f =? 0 then None else Some ((stack_args f + padding f) * 8).
(** call_frame.rs:54-57 *)
Definition remnants_after_call (f : call_frame) : layout := memory (stack_args f + padding f).

(** ** codegen.rs *)

(** codegen.rs:1218-1223 [LocalCont] *)
Record local_cont := LocalCont { c_label : nat; c_params : list nat; c_depth : Z }.
(** The parts of [FunctionCodegen] that change: the recorded depth, the next label to issue and the
    local continuations in scope (a hash map, the latest insertion first). *)
Record gstate := G { depth : Z; next : nat; conts : list (nat * local_cont) }.
Definition set_depth (d : Z) (g : gstate) : gstate := G d (next g) (conts g).
Definition skip_labels (n : nat) (g : gstate) : gstate := G (depth g) (next g + n)%nat (conts g).
Definition set_conts (ks : list (nat * local_cont)) (g : gstate) : gstate := G (depth g) (next g) ks.

(** What was written, the result, and the new state; no result stands for [Ok(None)], after which the
    code is not reached. *)
Definition res (A : Type) : Type := outcome (list item * option A * gstate).
Definition ret {A} (a : A) (g : gstate) : res A := Ret ([], Some a, g).
(** macros.rs [continues!] *)
Definition andthen {A B} (m : res A) (k : A -> gstate -> res B) : res B :=
  let* p := m in
  let '(c, o, g) := p in
  match o with
  | None => Ret (c, None, g)
  | Some a => let* q := k a g in let '(c', o', g') := q in Ret (c ++ c', o', g')
  end.
Notation "'do' x , g <- m ; k" := (andthen m (fun x g => k))
  (at level 200, x name, g name, m at level 100, k at level 200).
(** Instructions through stack_inst.rs, which records the depth, and others. *)
Definition emit (c : code) (g : gstate) : res unit :=
  Ret (map I (fst c), Some tt, set_depth (depth g + snd c) g).
Definition out (is : list item) (g : gstate) : res unit := Ret (is, Some tt, g).
Definition need {A} (o : outcome A) (g : gstate) : res A := let* a := o in ret a g.

(** The derived [PartialEq] of [Layout]. *)
Definition class_eq_dec (a b : class) : {a = b} + {a <> b}.
Proof. decide equality. Defined.
Fixpoint layout_eq_dec (a b : layout) {struct a} : {a = b} + {a <> b}.
Proof.
  assert (P : forall x y : N * layout, {x = y} + {x <> y} -> {x = y} + {x <> y}) by auto.
  destruct a as [s al c co], b as [s' al' c' co'].
  destruct (N.eq_dec s s') as [->|]; [|right; congruence].
  destruct (N.eq_dec al al') as [->|]; [|right; congruence].
  destruct (class_eq_dec c c') as [->|]; [|right; congruence].
  assert (E : {co = co'} + {co <> co'}).
  { decide equality. decide equality; apply list_eq_dec; decide equality; apply N.eq_dec. }
  destruct E as [->|]; [left; reflexivity | right; congruence].
Defined.

(** codegen.rs:554-576, 1106-1132: the layouts with which the alternatives end must be the same. *)
Definition meet (a b : option (layout * Z)) : outcome (option (layout * Z)) :=
  match a, b with
  | None, _ => Ret b
  | Some _, None => Ret a
  | Some (l, d), Some (l', d') =>
      if layout_eq_dec l l' then if d =? d' then Ret a else Panic else Panic
  end.
Definition ends (o : option layout) (g : gstate) : option (layout * Z) :=
  match o with Some l => Some (l, depth g) | None => None end.
Definition finish (o : option (layout * Z)) (g : gstate) : option layout * gstate :=
  match o with Some (l, d) => (Some l, set_depth d g) | None => (None, g) end.
Definition jump_if {A} (o : option A) (n : nat) : list item := match o with Some _ => [Jmp n] | None => [] end.

Definition at_rbp (o : Z) : addr := Addr Rbp None o.
Definition at_rsp (o : Z) : addr := Addr Rsp None o.
Definition at_rdi : addr := Addr Rdi None 0.

Section Function.
(** [ctx.layout] and [ctx.function_symbol(id)]. *)
Variable r : resolver.
Variable known : nat -> bool.
(** [stack_frame.var_offsets] *)
Variable offsets : list (nat * Z).

Definition offset_for (id : nat) : outcome Z := match find offsets id with Some o => Ret o | None => Panic end.

(** codegen.rs:413: the layouts of the parameters. *)
Fixpoint layouts (ts : list ct) : outcome (list layout) :=
  match ts with
  | [] => Ret []
  | t :: ts => let* l := get r t in let* ls := layouts ts in Ret (l :: ls)
  end.
(** codegen.rs:343-345: a component is put into the area of a structure. *)
Definition set_field (o : N) (l : layout) : code :=
  Stack.Model.andthen (keep [Leaq Rdi (at_rsp (Z.of_N (o + size_in_stack l true)))]) (store at_rdi l).
(** codegen.rs:528-530: an argument is put into the place of a parameter. *)
Definition set_param (id : nat) (l : layout) : outcome code :=
  let* o := offset_for id in Ret (store (at_rbp o) (in_stack l)).

(** codegen.rs:501-518 [eval_builtin_call] for [GC_malloc], whose result is in a register. *)
Definition gen_malloc (g : gstate) : res unit :=
  let f := new_frame [] l_pointer (depth g) in
  do _, g <- emit (extend_stack (padding_before_stack_args f)) g;
  do _, g <- out [CallMalloc] g;
  emit (shrink_stack (remnants_after_call f)) g.

(** codegen.rs:501-518 [eval_builtin_call]; the arguments are in registers. *)
Definition gen_builtin (sym : text) (l : layout) (g : gstate) : res layout :=
  let f := new_frame [] l (depth g) in
  do _, g <- emit (extend_stack (padding_before_stack_args f)) g;
  do _, g <- emit (keep (match offset_to_ret_destination f with
                         | Some o => [Leaq Rdi (at_rsp o)]
                         | None => []
                         end)) g;
  do _, g <- out [CallSym sym] g;
  do _, g <- emit (shrink_stack (remnants_after_call f)) g;
  ret l g.

Definition width_of (n : N) : outcome width :=
  match n with 1%N => Ret B | 2%N => Ret W | 4%N => Ret L | 8%N => Ret Q | _ => Panic end.
(** The casts [as i32]. *)
Definition as_i32 (n : N) : Z := signed L (Z.of_N n).

(** codegen.rs:709-806, given the sizes of the operand and of the result; [UToF] from 8 bytes is not
    modelled. *)
Definition conversion (o : unary) (from to : N) : outcome (list alu) :=
  match o, from, to with
  | USExt _, 1%N, 2%N => Ret [Ext true B W Rax Rax]
  | USExt _, 1%N, 4%N => Ret [Ext true B L Rax Rax]
  | USExt _, 1%N, 8%N => Ret [Ext true B Q Rax Rax]
  | USExt _, 2%N, 4%N => Ret [Ext true W L Rax Rax]
  | USExt _, 2%N, 8%N => Ret [Ext true W Q Rax Rax]
  | USExt _, 4%N, 8%N => Ret [Ext true L Q Rax Rax]
  | UUExt _, 1%N, 2%N => Ret [Ext false B W Rax Rax]
  | UUExt _, 1%N, 4%N => Ret [Ext false B L Rax Rax]
  | UUExt _, 1%N, 8%N => Ret [Ext false B Q Rax Rax]
  | UUExt _, 2%N, 4%N => Ret [Ext false W L Rax Rax]
  | UUExt _, 2%N, 8%N => Ret [Ext false W Q Rax Rax]
  | UUExt _, 4%N, 8%N => Ret [Mov L Rax Rax]
  | USToF _, 1%N, 4%N => Ret [Ext true B L Rax Rax; FromInt L L 0 Rax]
  | USToF _, 1%N, 8%N => Ret [Ext true B L Rax Rax; FromInt L Q 0 Rax]
  | USToF _, 2%N, 4%N => Ret [Ext true W L Rax Rax; FromInt L L 0 Rax]
  | USToF _, 2%N, 8%N => Ret [Ext true W L Rax Rax; FromInt L Q 0 Rax]
  | USToF _, 4%N, 4%N => Ret [FromInt L L 0 Rax]
  | USToF _, 4%N, 8%N => Ret [FromInt L Q 0 Rax]
  | USToF _, 8%N, 4%N => Ret [FromInt Q L 0 Rax]
  | USToF _, 8%N, 8%N => Ret [FromInt Q Q 0 Rax]
  | UUToF _, 1%N, 4%N => Ret [Ext false B L Rax Rax; FromInt L L 0 Rax]
  | UUToF _, 1%N, 8%N => Ret [Ext false B L Rax Rax; FromInt L Q 0 Rax]
  | UUToF _, 2%N, 4%N => Ret [Ext false W L Rax Rax; FromInt L L 0 Rax]
  | UUToF _, 2%N, 8%N => Ret [Ext false W L Rax Rax; FromInt L Q 0 Rax]
  | UUToF _, 4%N, 4%N => Ret [Mov L Rax Rax; FromInt Q L 0 Rax]
  | UUToF _, 4%N, 8%N => Ret [Mov L Rax Rax; FromInt Q Q 0 Rax]
  | (UFToS _ | UFToU _), 4%N, (1%N | 2%N) | UFToS _, 4%N, 4%N => Ret [ToInt L L Rax 0]
  | (UFToS _ | UFToU _), 8%N, (1%N | 2%N) | UFToS _, 8%N, 4%N => Ret [ToInt Q L Rax 0]
  | UFToU _, 4%N, 4%N | (UFToS _ | UFToU _), 4%N, 8%N => Ret [ToInt L Q Rax 0]
  | UFToU _, 8%N, 4%N | (UFToS _ | UFToU _), 8%N, 8%N => Ret [ToInt Q Q Rax 0]
  | UFTrunc _, 8%N, 4%N => Ret [FloatConvert Q L 0 0]
  | UFExt _, 4%N, 8%N => Ret [FloatConvert L Q 0 0]
  | _, _, _ => Panic
  end.

(** codegen.rs:807-833: the names of the C functions. *)
Definition math_name (o : unary) (n : N) : outcome text :=
  match o, n with
  | URealCeil, 4%N => Ret (t_ "ceilf") | URealCeil, 8%N => Ret (t_ "ceil")
  | URealFloor, 4%N => Ret (t_ "floorf") | URealFloor, 8%N => Ret (t_ "floor")
  | URealTrunc, 4%N => Ret (t_ "truncf") | URealTrunc, 8%N => Ret (t_ "trunc")
  | URealRound, 4%N => Ret (t_ "roundf") | URealRound, 8%N => Ret (t_ "round")
  | UMathSqrt, 4%N => Ret (t_ "sqrtf") | UMathSqrt, 8%N => Ret (t_ "sqrt")
  | UMathSin, 4%N => Ret (t_ "sinf") | UMathSin, 8%N => Ret (t_ "sin")
  | UMathCos, 4%N => Ret (t_ "cosf") | UMathCos, 8%N => Ret (t_ "cos")
  | UMathExp, 4%N => Ret (t_ "expf") | UMathExp, 8%N => Ret (t_ "exp")
  | UMathLog, 4%N => Ret (t_ "logf") | UMathLog, 8%N => Ret (t_ "log")
  | _, _ => Panic
  end.

(** codegen.rs:625-842 [eval_unary], given that the operand has been evaluated. *)
Definition gen_unary (o : unary) (a : rt) (al : layout) (g : gstate) : res layout :=
  match o with
  | UNot => do _, g <- out [FlipAl] g; ret al g
  | ULoad =>
      do t, g <- need (rt_ty a) g;
      match t with
      | None => Panic
      | Some t =>
          do l, g <- need (let* e := ptr_elem t in get r e) g;
          do _, g <- emit (keep [Movq Rdi Rax]) g;
          do _, g <- emit (load at_rdi l) g;
          ret l g
      end
  | UStructElem _ i =>
      do p, g <- need (struct_elem al i) g;
      do _, g <- emit (fst p) g;
      ret (snd p) g
  | UReinterpret t =>
      do l, g <- need (get r t) g;
      do _, g <- emit (reinterpret al l) g;
      ret l g
  | UBitCast _ | UPtrToI | UIToPtr _ => ret al g
  | UITrunc t => need (get r t) g
  | UStringPtr | UArrayPtr => ret l_pointer g
  | UStringLength | UArrayLength => do _, g <- emit (keep [Movq Rax Rdx]) g; ret (l_integer 8) g
  | USyntaxBody =>
      do t, g <- need (rt_ty a) g;
      match t with
      | None => Panic
      | Some t =>
          do l, g <- need (let* e := syntax_body t in get r e) g;
          do _, g <- emit (keep [Movq Rdi Rax]) g;
          do _, g <- emit (load (plus at_rdi 8) l) g;
          ret l g
      end
  | UPanic =>
      do _, g <- emit (keep [Movq Rdi Rax; Movq Rsi Rdx]) g;
      do _, g <- gen_builtin (t_ "llrt_panic") l_unit g;
      Ret ([], None, g)
  | UIComplement =>
      do w, g <- need (width_of (size al)) g;
      do _, g <- out [Block [XorImm w Rax (-1)]] g;
      ret al g
  | UIPopCount =>
      do w, g <- need (width_of (size al)) g;
      do _, g <- out [Block match w with
                            | B => [Ext false B W Rax Rax; Popcnt W Rax Rax]
                            | _ => [Popcnt w Rax Rax]
                            end] g;
      ret al g
  | USExt t | UUExt t | USToF t | UUToF t | UFToS t | UFToU t | UFTrunc t | UFExt t =>
      do l, g <- need (get r t) g;
      do is, g <- need (conversion o (size al) (size l)) g;
      do _, g <- out [Block is] g;
      ret l g
  | URealCeil | URealFloor | URealTrunc | URealRound
  | UMathSqrt | UMathSin | UMathCos | UMathExp | UMathLog =>
      do f, g <- need (math_name o (size al)) g;
      gen_builtin f al g
  end.

(** codegen.rs:865-892 *)
Definition condition (o : binary) : option cond :=
  match o with
  | BIEq | BPtrEq => Some CE
  | BSLt => Some CL | BSLe => Some CLE | BSGt => Some CG | BSGe => Some CGE
  | BULt | BPtrLt => Some CB | BULe | BPtrLe => Some CBE | BUGt | BPtrGt => Some CA | BUGe | BPtrGe => Some CAE
  | _ => None
  end.
(** codegen.rs:893-969, with the left operand in [rax] and the right one in [rcx]. *)
Definition arithmetic (o : binary) (w : width) : option (list alu) :=
  match o with
  | BIShl => Some [Shift Shl w Rax]
  | BIAShr => Some [Shift Sar w Rax]
  | BILShr => Some [Shift Shr w Rax]
  | BIAnd => Some [Arith And w Rax Rcx]
  | BIOr => Some [Arith Or w Rax Rcx]
  | BIXor => Some [Arith Xor w Rax Rcx]
  | BSAdd | BUAdd => Some [Arith Add w Rax Rcx]
  | BSSub | BUSub => Some [Arith Sub w Rax Rcx]
  | BSMul | BUMul => Some [Imul w Rcx]
  | BSDiv | BSRem | BUDiv | BURem =>
      Some (match o, w with
            | (BSDiv | BSRem), B => [Ext true B W Rax Rax; Div true B Rcx]
            | (BSDiv | BSRem), _ => [SignRdx w; Div true w Rcx]
            | _, B => [Ext false B W Rax Rax; Div false B Rcx]
            | _, _ => [Arith Xor L Rdx Rdx; Div false w Rcx]
            end ++
            match o, w with
            | (BSRem | BURem), B => [MovAlAh]
            | (BSRem | BURem), _ => [Mov w Rax Rdx]
            | _, _ => []
            end)
  | _ => None
  end.
(** codegen.rs:970-985 *)
Definition float_condition (o : binary) : option cond :=
  match o with
  | BFEq => Some CE | BFLt => Some CB | BFLe => Some CBE | BFGt => Some CA | BFGe => Some CAE
  | _ => None
  end.
Definition float_width (n : N) : outcome width := match n with 4%N => Ret L | 8%N => Ret Q | _ => Panic end.
(** codegen.rs:986-1008 *)
Definition float_arithmetic (o : binary) : option float_op :=
  match o with BFAdd => Some FAdd | BFSub => Some FSub | BFMul => Some FMul | BFDiv => Some FDiv | _ => None end.
Definition float_name (o : binary) (n : N) : outcome text :=
  match o, n with
  | BFRem, 4%N => Ret (t_ "fmodf") | BFRem, 8%N => Ret (t_ "fmod")
  | BMathPow, 4%N => Ret (t_ "powf") | BMathPow, 8%N => Ret (t_ "pow")
  | _, _ => Panic
  end.

(** codegen.rs:844-1047 [eval_binary], given that the left operand has been evaluated and pushed, and
    the right one, [b], evaluated; [al] and [bl] are their layouts. *)
Definition gen_binary (o : binary) (b : rt) (al bl : layout) (g : gstate) : res layout :=
  match o with
  | BStore =>
      do _, g <- emit (keep [Movq Rdi Rax]) g;
      do _, g <- emit (pop al) g;
      do _, g <- emit (store at_rdi al) g;
      ret l_unit g
  | BOffset =>
      do t, g <- need (rt_ty b) g;
      match t with
      | None => Panic
      | Some t =>
          do l, g <- need (let* e := ptr_elem t in get r e) g;
          do _, g <- emit (pop_eightbyte (Gpr Rdi)) g;
          do _, g <- out [Block [ImulImm Rdi Rdi (as_i32 (size l)); Arith Add Q Rax Rdi]] g;
          ret bl g
      end
  | BPtrEq | BPtrLt | BPtrLe | BPtrGt | BPtrGe | BIEq | BSLt | BSLe | BSGt | BSGe | BULt | BULe | BUGt | BUGe =>
      match condition o with
      | None => Panic
      | Some c =>
          do _, g <- emit (pop_eightbyte (Gpr Rcx)) g;
          do w, g <- need (width_of (size bl)) g;
          do _, g <- out [Block [Cmp w Rcx Rax; SetAl c]] g;
          ret (l_integer 1) g
      end
  | BIShl | BIAShr | BILShr | BIAnd | BIOr | BIXor | BSAdd | BSSub | BSMul | BSDiv | BSRem
  | BUAdd | BUSub | BUMul | BUDiv | BURem =>
      do _, g <- emit (keep [Movq Rcx Rax]) g;
      do _, g <- emit (pop_eightbyte (Gpr Rax)) g;
      do w, g <- need (width_of (size bl)) g;
      match arithmetic o w with
      | None => Panic
      | Some is => do _, g <- out [Block is] g; ret bl g
      end
  | BFEq | BFLt | BFLe | BFGt | BFGe =>
      match float_condition o with
      | None => Panic
      | Some c =>
          do _, g <- emit (pop_eightbyte (Xmm 1)) g;
          do w, g <- need (float_width (size bl)) g;
          do _, g <- out [Block [FloatCmp w 1 0; SetAl c]] g;
          ret (l_integer 1) g
      end
  | BFAdd | BFSub | BFMul | BFDiv | BFRem | BMathPow =>
      do _, g <- out [Block [MovqXX 1 0]] g;
      do _, g <- emit (pop_eightbyte (Xmm 0)) g;
      match float_arithmetic o with
      | Some f =>
          do w, g <- need (float_width (size al)) g;
          do _, g <- out [Block [FloatArith f w 0 1]] g;
          ret al g
      | None => do f, g <- need (float_name o (size al)) g; gen_builtin f al g
      end
  | BStringConstruct =>
      do _, g <- emit (keep [Movq Rdx Rax]) g;
      do _, g <- emit (pop_eightbyte (Gpr Rax)) g;
      ret l_string g
  | BStringEq | BStringCmp | BStringConcat =>
      do _, g <- emit (keep [Movq Rcx Rdx; Movq Rdx Rax]) g;
      do _, g <- emit (pop_eightbyte (Gpr Rdi)) g;
      do _, g <- emit (pop_eightbyte (Gpr Rsi)) g;
      match o with
      | BStringEq => gen_builtin (t_ "llrt_string_eq") (l_integer 1) g
      | BStringCmp => gen_builtin (t_ "llrt_string_cmp") (l_integer 4) g
      | _ => gen_builtin (t_ "llrt_string_concat") l_string g
      end
  | BArrayConstruct =>
      do _, g <- emit (keep [Movq Rdx Rax]) g;
      do _, g <- emit (pop_eightbyte (Gpr Rax)) g;
      ret l_array g
  | BArrayLoad =>
      do t, g <- need (rt_ty b) g;
      match t with
      | None => Panic
      | Some t =>
          do l, g <- need (let* e := array_elem t in get r e) g;
          do _, g <- emit (keep [Movq Rsi Rax]) g;
          do _, g <- emit (pop_eightbyte (Gpr Rdi)) g;
          do _, g <- out [Block [ImulImm Rdi Rdi (as_i32 (size l))]] g;
          do _, g <- emit (load (Addr Rsi (Some Rdi) 0) l) g;
          ret l g
      end
  end.

(** codegen.rs:1049-1084 [eval_ternary], given that the operands have been evaluated and the first two
    of them pushed; [c] is the third one, [bl] the layout of the second one. *)
Definition gen_ternary (o : ternary) (c : rt) (bl : layout) (g : gstate) : res layout :=
  match o with
  | TPtrCopy | TPtrMove =>
      do t, g <- need (rt_ty c) g;
      match t with
      | None => Panic
      | Some t =>
          do l, g <- need (let* e := ptr_elem t in get r e) g;
          do _, g <- emit (keep [Movq Rdi Rax]) g;
          do _, g <- emit (pop_eightbyte (Gpr Rdx)) g;
          do _, g <- out [Block [ImulImm Rdx Rdx (as_i32 (size l))]] g;
          do _, g <- emit (pop_eightbyte (Gpr Rsi)) g;
          do _, g <- gen_builtin (t_ (match o with TPtrMove => "memmove" | _ => "memcpy" end)) l_pointer g;
          ret l_unit g
      end
  | TArrayStore =>
      do _, g <- emit (keep [Movq Rsi Rax]) g;
      do _, g <- emit (pop bl) g;
      do _, g <- out [Block [ImulMem Rdi (at_rsp (Z.of_N (size_in_stack bl true))) (as_i32 (size bl))]] g;
      do _, g <- emit (store (Addr Rsi (Some Rdi) 0) bl) g;
      do _, g <- emit (shrink_stack (l_integer 8)) g;
      ret l_unit g
  end.

(** codegen.rs:596-623 *)
Definition gen_nullary (o : nullary) (g : gstate) : res layout :=
  match o with
  | NUninitialized t =>
      do l, g <- need (get r t) g;
      do _, g <- emit (if is_memory l then extend_stack l else nothing) g;
      ret l g
  | NNull _ => do _, g <- out [Imm Rax 0] g; ret l_pointer g
  | NSizeOf t =>
      do l, g <- need (get r t) g;
      do _, g <- out [Imm Rax (Z.of_N (size l))] g;
      need (get r (CtU 64)) g
  | NAlignOf t =>
      do l, g <- need (get r t) g;
      do _, g <- out [Imm Rax (Z.of_N (align l))] g;
      need (get r (CtU 64)) g
  | NGenId => gen_builtin (t_ "llrt_string_genid") l_string g
  end.

(** codegen.rs:1135-1191 *)
Definition gen_const (c : const) (g : gstate) : res layout :=
  match c with
  | KInteger ((CtS _ | CtU _) as t) _ v => do _, g <- out [Imm Rax (Z.of_N v)] g; need (get r t) g
  | KChar v => do _, g <- out [Imm Rax (Z.of_N v)] g; ret l_char g
  | KUnit => ret l_unit g
  | _ => Panic
  end.

Section Lists.
Variable gen : rt -> gstate -> res layout.

(** The loops that evaluate expressions one after the other (codegen.rs:341-346, 418-421, 527-531,
    539-542), each with what is written after an expression; both lists are gone through together. *)
Fixpoint gen_each (after : list (layout -> outcome code)) (es : list rt) (g : gstate) {struct es} : res unit :=
  match after, es with
  | k :: after, e :: es =>
      do l, g <- gen e g;
      do c, g <- need (k l) g;
      do _, g <- emit c g;
      gen_each after es g
  | _, _ => ret tt g
  end.

(** codegen.rs:538-544 [eval_seq] *)
Definition gen_seq (es : list rt) (g : gstate) : res unit :=
  gen_each (map (fun _ l => Ret (discard l)) es) es g.

(** codegen.rs:319-326: the elements of an environment. *)
Fixpoint gen_env (offset : N) (es : list rt) (g : gstate) : res unit :=
  match es with
  | [] => ret tt g
  | e :: es =>
      do l, g <- gen e g;
      let l := in_stack l in
      do _, g <- emit (keep [Load Q Rdi (at_rsp (Z.of_N (size_in_stack l true)))]) g;
      do _, g <- emit (store (plus at_rdi (Z.of_N offset)) l) g;
      gen_env (offset + size l) es g
  end.
(** codegen.rs:307-313: the size of an environment; [None] when an element has no type. *)
Fixpoint env_size (es : list rt) : outcome (option N) :=
  match es with
  | [] => Ret (Some 0%N)
  | e :: es =>
      let* t := rt_ty e in
      match t with
      | None => Ret None
      | Some t =>
          let* l := get r t in
          let* n := env_size es in
          Ret (match n with Some n => Some (size_in_stack l false + n)%N | None => None end)
      end
  end.

(** codegen.rs:450-456: the layouts of the arguments; [None] when one has no type. *)
Fixpoint arg_layouts (es : list rt) : outcome (option (list layout)) :=
  match es with
  | [] => Ret (Some [])
  | e :: es =>
      let* t := rt_ty e in
      match t with
      | None => Ret None
      | Some t =>
          let* l := get r t in
          let* ls := arg_layouts es in
          Ret (match ls with Some ls => Some (l :: ls) | None => None end)
      end
  end.
(** codegen.rs:471-474: what is to be evaluated is given as the functions that write its code. *)
Fixpoint gen_pushes (ms : list (gstate -> res layout)) (g : gstate) : res unit :=
  match ms with
  | [] => ret tt g
  | m :: ms =>
      do l, g <- m g;
      do _, g <- emit (push l) g;
      gen_pushes ms g
  end.
(** codegen.rs:461-464, 471: the arguments on the stack, then those in registers, from last to first. *)
Definition is_stack (c : call_arg) : bool := match c with StackRev _ => true | InReg _ => false end.
Definition push_order {A} (cs : list call_arg) (xs : list A) : list A :=
  let ps := combine xs cs in
  map fst (rev (filter (fun p => is_stack (snd p)) ps) ++ rev (filter (fun p => negb (is_stack (snd p))) ps)).
(** codegen.rs:479-488; there are one or two eightbytes. *)
Definition pop_arg (c : call_arg) : code :=
  match c with InReg rs => all (map (fun a => pop_eightbyte (a_reg a)) rs) | StackRev _ => nothing end.
(** codegen.rs:441-499 [eval_c_call], once the arguments are known to have the layouts [ls];
    [callee] yields the instruction to call with. *)
Definition gen_c_call (t : ct) (ls : list layout) (ms : list (gstate -> res layout)) (callee : gstate -> res item)
    (g : gstate) : res layout :=
  do l, g <- need (get r t) g;
  let cs := c_args ls l in
  let fr := c_frame cs l (depth g) in
  do _, g <- emit (extend_stack (padding_before_stack_args fr)) g;
  do _, g <- gen_pushes (push_order cs ms) g;
  do call, g <- callee g;
  do _, g <- emit (all (map pop_arg cs)) g;
  do _, g <- emit (keep (match offset_to_ret_destination fr with
                         | Some o => [Leaq Rdi (at_rsp o)]
                         | None => []
                         end)) g;
  do _, g <- out [call] g;
  do _, g <- emit (shrink_stack (remnants_after_call fr)) g;
  ret l g.

(** codegen.rs:1086-1091 [eval_let_var] *)
Fixpoint gen_lets (vs : list (nat * ct * rt)) (g : gstate) : res unit :=
  match vs with
  | [] => ret tt g
  | (id, _, init) :: vs =>
      do l, g <- gen init g;
      do c, g <- need (set_param id l) g;
      do _, g <- emit c g;
      gen_lets vs g
  end.

(** codegen.rs:1113-1126: the bodies of local continuations; [merged] is [merge_l]. *)
Fixpoint gen_conts (ks : list (nat * list param * rt)) (merge : nat) (merged : option (layout * Z)) (g : gstate)
  : outcome (list item * option (layout * Z) * gstate) :=
  match ks with
  | [] => Ret ([], merged, g)
  | (id, _, body) :: ks =>
      match find (conts g) id with
      | None => Panic
      | Some k =>
          let g := set_conts (filter (fun e => negb (fst e =? id)%nat) (conts g)) g in
          let* p := gen body (set_depth (c_depth k) g) in
          let '(c, o, g) := p in
          let* merged := meet merged (ends o g) in
          let* q := gen_conts ks merge merged g in
          let '(c', merged, g) := q in
          Ret (Lab (c_label k) :: c ++ jump_if o merge ++ c', merged, g)
      end
  end.
End Lists.

(** codegen.rs:1097-1104: a label for each of the continuations. *)
Fixpoint add_conts (ks : list (nat * list param * rt)) (g : gstate) : gstate :=
  match ks with
  | [] => g
  | (id, ps, _) :: ks =>
      add_conts ks (skip_labels 1 (set_conts ((id, LocalCont (next g) (map fst ps) (depth g)) :: conts g) g))
  end.

(** codegen.rs:191-404 [eval] *)
Fixpoint gen (x : rt) (g : gstate) : res layout :=
  match x with
  | RVar id t =>
      do l, g <- need (get r t) g;
      do o, g <- need (offset_for id) g;
      do _, g <- emit (load (at_rbp o) (in_stack l)) g;
      ret l g
  | RStaticFun (CtId f) _ env =>
      do _, g <- match env with
                 | Some a => do _, g <- gen a g; emit (keep [Movq Rdx Rax]) g
                 | None => out [Imm Rdx 0] g
                 end;
      if known f then do _, g <- out [FunAddr f] g; ret l_clos g else Panic
  | RConst c => gen_const c g
  | RCall f es =>
      (* codegen.rs:406-439 [eval_call] *)
      let* t := rt_ty f in
      match t with
      | None => Ret ([], None, g)
      | Some (CtClos ts t) =>
          do l, g <- need (get r t) g;
          do ps, g <- need (layouts ts) g;
          let fr := new_frame ps l (depth g) in
          do _, g <- emit (extend_stack (padding_before_stack_args fr)) g;
          do _, g <- gen_each gen (map (fun _ l => Ret (push l)) es) es g;
          do _, g <- gen f g;
          do _, g <- emit (keep [Movq Rsi Rdx]) g;
          do _, g <- emit (keep (match offset_to_ret_destination fr with
                                 | Some o => [Leaq Rdi (at_rsp o)]
                                 | None => []
                                 end)) g;
          do _, g <- out [CallRax] g;
          do _, g <- emit (shrink_stack (remnants_after_call fr)) g;
          ret l g
      | Some _ => Panic
      end
  | RCallC sym t es =>
      (* codegen.rs:221-225 *)
      let* ls := arg_layouts es in
      match ls with
      | None => do _, g <- gen_seq gen es g; Panic
      | Some ls => gen_c_call t ls (map gen es) (fun g => ret (CallSym sym) g) g
      end
  | RCallAddr kind f t es =>
      (* codegen.rs:226-252; mains take no argument and yield a boolean, macros take one *)
      let* ls := arg_layouts es in
      match ls with
      | None => do _, g <- gen_seq gen es g; Panic
      | Some ls =>
          gen_c_call t ls (map gen es)
            (fun g => match kind, es with
                      | 1%nat, _ :: _ | 2%nat, ([] | _ :: _ :: _) => Panic
                      | _, _ => do _, g <- gen f g; ret CallRax g
                      end) g
      end
  | RContCall k es _ =>
      (* codegen.rs:520-536 [eval_cont_call] *)
      match find (conts g) k with
      | None => Panic
      | Some k =>
          do _, g <- gen_each gen (map set_param (c_params k)) es g;
          if c_depth k =? depth g then Ret ([Jmp (c_label k)], None, g) else Panic
      end
  | RNullary o => gen_nullary o g
  | RUnary o a => do l, g <- gen a g; gen_unary o a l g
  | RBinary o a b =>
      do l, g <- gen a g;
      do _, g <- emit (push l) g;
      do bl, g <- gen b g;
      gen_binary o b l bl g
  | RTernary o a b c =>
      do l, g <- gen a g;
      do _, g <- emit (push l) g;
      do bl, g <- gen b g;
      do _, g <- emit (push bl) g;
      do _, g <- gen c g;
      gen_ternary o c bl g
  | RAlloc LStackStatic _ => Panic
  | RAlloc _ a =>
      let* t := rt_ty a in
      match t with
      | None => do _, g <- gen a g; Panic
      | Some t =>
          do l, g <- need (get r t) g;
          do _, g <- out [Imm Rdi (Z.of_N (size l))] g;
          do _, g <- gen_malloc g;
          do _, g <- emit (push l_pointer) g;
          do l, g <- gen a g;
          do _, g <- emit (keep [Load Q Rdi (at_rsp (Z.of_N (size_in_stack l true)))]) g;
          do _, g <- emit (store at_rdi l) g;
          do _, g <- emit (pop l_pointer) g;
          ret l_pointer g
      end
  | RAllocArray LStackStatic _ _ => Panic
  | RAllocArray _ t a =>
      do l, g <- need (get r t) g;
      do _, g <- gen a g;
      do _, g <- emit (push_eightbyte (Gpr Rax)) g;
      do _, g <- out [Block [ImulImm Rdi Rax (as_i32 (size l))]] g;
      do _, g <- gen_malloc g;
      do _, g <- emit (pop_eightbyte (Gpr Rdx)) g;
      ret l_array g
  | RConstructEnv LStackStatic _ => Panic
  | RConstructEnv _ es =>
      let* n := env_size es in
      match n with
      | None => do _, g <- gen_seq gen es g; Panic
      | Some n =>
          do _, g <- out [Imm Rdi (Z.of_N n)] g;
          do _, g <- gen_malloc g;
          do _, g <- emit (push l_pointer) g;
          do _, g <- gen_env gen 0 es g;
          do _, g <- emit (pop l_pointer) g;
          ret l_pointer g
      end
  | RConstructStruct t es =>
      do l, g <- need (get r t) g;
      do _, g <- emit (extend_stack l) g;
      do elems, g <- need (match composite l with Some (elems, _) => Ret elems | None => Panic end) g;
      do _, g <- gen_each gen (map (fun e l => Ret (set_field (fst e) l)) elems) es g;
      do _, g <- emit (pop l) g;
      ret l g
  | RSeq es a => do _, g <- gen_seq gen es g; gen a g
  | RIf c t e =>
      (* codegen.rs:546-576 [eval_if] *)
      do _, g <- gen c g;
      let els := next g in
      let cont := S (next g) in
      let g := skip_labels 2 g in
      let* p := gen t g in
      let '(c1, o1, g1) := p in
      let* q := gen e (set_depth (depth g) g1) in
      let '(c2, o2, g2) := q in
      let* m := meet (ends o1 g1) (ends o2 g2) in
      let (o, g3) := finish m g2 in
      Ret (JumpIfZero els :: c1 ++ jump_if o1 cont ++ Lab els :: c2 ++ [Lab cont], o, g3)
  | RWhile c b =>
      (* codegen.rs:578-594 [eval_while] *)
      let init := next g in
      let cont := S (next g) in
      do _, g <- out [Lab init] (skip_labels 2 g);
      do _, g <- gen c g;
      do _, g <- out [JumpIfZero cont] g;
      let* p := do l, g <- gen b g; do _, g <- emit (discard l) g; out [Jmp init] g in
      let '(c, _, g) := p in
      Ret (c ++ [Lab cont], Some l_unit, g)
  | RReturn a => do _, g <- gen a g; Ret ([Jmp 0], None, g)
  | RNever => Ret ([], None, g)
  | RLetVar vs b => do _, g <- gen_lets gen vs g; gen b g
  | RLetCont ks b =>
      (* codegen.rs:1096-1133 [eval_let_cont] *)
      let g := add_conts ks g in
      let merge := next g in
      let* p := gen b (skip_labels 1 g) in
      let '(c1, o1, g1) := p in
      let* q := gen_conts gen ks merge (ends o1 g1) g1 in
      let '(c2, m, g2) := q in
      let (o, g3) := finish m g2 in
      Ret (c1 ++ jump_if o1 merge ++ c2 ++ [Lab merge], o, g3)
  | _ => Panic
  end.

End Function.

Section Functions.
Variable r : resolver.
Variable known : nat -> bool.

Definition layout_or_void (t : ct) : layout := match get r t with Ret l => l | _ => l_unit end.
Definition type_words (t : ct) : nat := N.to_nat (num_eightbytes (layout_or_void t)).
Definition in_memory (t : ct) : bool := is_memory (layout_or_void t).

(** codegen.rs:155-162: the elements of the environment are copied into the frame. *)
Fixpoint copy_env (offsets : list (nat * Z)) (offset : Z) (es : list param) : outcome (list inst) :=
  match es with
  | [] => Ret []
  | (id, t) :: es =>
      let* l := get r t in
      let l := in_stack l in
      let* o := offset_for offsets id in
      let* is := copy_env offsets (offset + Z.of_N (size l)) es in
      Ret (fst (load (plus (Addr Rsi None 0) offset) l) ++ fst (store (at_rbp o) l) ++ is)
  end.

(** codegen.rs:123-137 [run], :139-174 [prologue] and :176-189 [epilogue]; the label of the epilogue is the
    first one issued.  The depth is 0 after [movq rbp, rsp].  The epilogue is the same whatever depth
    is recorded there.  A macro takes its argument from [rsi]. *)
Definition function_code (f : Frame.Model.function) : outcome (list item) :=
  let* p := Frame.Model.new type_words in_memory f in
  let (fr, ret_ptr) := p in
  let offsets := Frame.Model.offsets fr in
  let reserved := l_memory (N.of_nat (Frame.Model.vars fr + Frame.Model.allocs fr) * 8) 8 in
  let save_ret := match ret_ptr with Some o => [Store Q (at_rbp o) Rdi] | None => [] end in
  let* save_env :=
    match Frame.Model.f_env f with
    | None => Ret []
    | Some (id, es) =>
        let* o := offset_for offsets id in
        let* is := copy_env offsets 0 es in
        Ret (Store Q (at_rbp o) Rsi :: is)
    end in
  let* save_arg :=
    match Frame.Model.f_kind f, Frame.Model.f_params f with
    | Frame.Model.Macro, (id, _) :: _ => let* o := offset_for offsets id in Ret [Store Q (at_rbp o) Rsi]
    | Frame.Model.Macro, [] => Panic
    | _, _ => Ret []
    end in
  let* q := gen r known offsets (Frame.Model.f_body f) (G (snd (extend_stack reserved)) 1 []) in
  let '(body, _, _) := q in
  let* deliver :=
    match ret_ptr with
    | Some o => let* l := get r (Frame.Model.f_ret f) in Ret (Load Q Rax (at_rbp o) :: fst (store (Addr Rax None 0) l))
    | None => Ret []
    end in
  Ret (map I ([Push Rbp; Movq Rbp Rsp] ++ fst (extend_stack reserved) ++ save_ret ++ save_env ++ save_arg) ++
       body ++ Lab 0 :: map I (deliver ++ [Movq Rsp Rbp; Pop Rbp]) ++ [Retq]).

End Functions.

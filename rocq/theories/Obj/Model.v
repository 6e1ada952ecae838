(** * xten0/src/asm/writer.rs and obj.rs

    Objects, labels, and the production of an object from what was written.  Positions are integers
    without the bounds of [u64] and [i64]; writing to memory does not fail. *)
From Coq Require Import NArith ZArith.
From Verif.Base Require Import Base Vec.
From Verif.Asm Require Model Table.
Import Asm.Model(gpr, operand, O64, OX, OI8, OI32, OMem, ARipDisp, kind, K64, KX, KMem, KI8, KI32, le_bytes).
Local Open Scope Z_scope.

(** obj.rs:50-55 [LocationSection]: the three sections with contents, and .bss. *)
Inductive content := Text | Data | Rodata.
Inductive section := In_ (c : content) | Bss.
Coercion In_ : content >-> section.

Definition section_dec (a b : section) : {a = b} + {a <> b}.
Proof. decide equality. decide equality. Defined.

(** obj.rs:35-39 [Location], :43-46 [Location::offset] *)
Record location := Loc { l_section : section; l_pos : Z }.
Definition offset (l : location) (d : Z) : outcome location :=
  if 0 <=? l_pos l + d then Ret (Loc (l_section l) (l_pos l + d)) else Panic.

(** obj.rs:74-90 [RelocType] *)
Inductive reloc_type := PcRel8 | PcRel32 | PcRelToAddressTable32 | Abs64.

(** obj.rs:25-31 [Binding], :58-64 [Reloc], :67-70 [RelocTarget] *)
Inductive binding := Local (l : location) | Global (l : option location).
Inductive target := Symbol (name : string) | Section (s : section).
Record reloc := Reloc { r_location : location; r_target : target; r_addend : Z; r_type : reloc_type }.

(** The buffers of the sections with contents (writer.rs:11-13, obj.rs:7-9). *)
Record buffers := Buffers { b_text : list N; b_data : list N; b_rodata : list N }.
Definition buffer (c : content) (b : buffers) : list N :=
  match c with Text => b_text b | Data => b_data b | Rodata => b_rodata b end.
Definition set_buffer (c : content) (l : list N) (b : buffers) : buffers :=
  match c with
  | Text => Buffers l (b_data b) (b_rodata b)
  | Data => Buffers (b_text b) l (b_rodata b)
  | Rodata => Buffers (b_text b) (b_data b) l
  end.

(** obj.rs:6-13 [Object] *)
Record object := Object { o_buffers : buffers; o_bss : Z; o_symbols : list (string * binding); o_relocs : list reloc }.

(** writer.rs:150-153 [Label], :156-160 [Def], :163-169 [Use] *)
Definition label := nat.
Record def := Def { d_global : bool; d_location : location }.
Record use := Use { u_location : location; u_target : label; u_addend : Z; u_type : reloc_type }.

(** writer.rs:10-18 [Writer].  The order of names, that of the strings, is not modelled: [w_names] is in the
    order the names were given. *)
Record writer := Writer { w_buffers : buffers; w_bss : Z; w_defs : list (option def); w_uses : list use;
  w_names : list (string * label) }.

(** writer.rs:22-32 [Writer::new] *)
Definition new : writer := Writer (Buffers [] [] []) 0 [] [] [].

(** writer.rs:35-39 [issue_label] *)
Definition issue_label (w : writer) : writer * label :=
  (Writer (w_buffers w) (w_bss w) (w_defs w ++ [None]) (w_uses w) (w_names w), List.length (w_defs w)).

Fixpoint lookup (n : string) (l : list (string * label)) : option label :=
  match l with
  | [] => None
  | (m, x) :: l => if String.eqb n m then Some x else lookup n l
  end.

(** writer.rs:42-50 [get_label] *)
Definition get_label (n : string) (w : writer) : writer * label :=
  match lookup n (w_names w) with
  | Some l => (w, l)
  | None =>
      let (w, l) := issue_label w in
      (Writer (w_buffers w) (w_bss w) (w_defs w) (w_uses w) (w_names w ++ [(n, l)]), l)
  end.

(** writer.rs:53-55 [use] *)
Definition use_ (u : use) (w : writer) : writer :=
  Writer (w_buffers w) (w_bss w) (w_defs w) (w_uses w ++ [u]) (w_names w).

(** writer.rs:226-229, :256-258, :281-283 [location] *)
Definition position (w : writer) (s : section) : Z :=
  match s with In_ c => Z.of_nat (List.length (buffer c (w_buffers w))) | Bss => w_bss w end.
Definition location_ (w : writer) (s : section) : location := Loc s (position w s).

(** writer.rs:179-188 [define] *)
Definition define (s : section) (l : label) (g : bool) (w : writer) : outcome (writer * location) :=
  let* d := vget (w_defs w) l in
  match d with
  | Some _ => Panic
  | None =>
      let loc := location_ w s in
      let* ds := vset (w_defs w) l (Some (Def g loc)) in
      Ret (Writer (w_buffers w) (w_bss w) ds (w_uses w) (w_names w), loc)
  end.

(** writer.rs:191-197 [use_relative] *)
Definition use_relative (c : content) (d : Z) (l : label) (a : Z) (ty : reloc_type) (w : writer) : outcome writer :=
  let* loc := offset (location_ w c) d in
  Ret (use_ (Use loc l a ty) w).

(** writer.rs:241-243 [write], at the end of the buffer, where the cursor is until [produce]. *)
Definition append (c : content) (bs : list N) (w : writer) : writer :=
  Writer (set_buffer c (buffer c (w_buffers w) ++ bs) (w_buffers w)) (w_bss w) (w_defs w) (w_uses w) (w_names w).

(** writer.rs:269-271: what [allocate] writes *)
Definition filler (c : content) : N := match c with Text => 144 | Data => 0 | Rodata => 0 end.

(** writer.rs:260-265, :285-288 [allocate] *)
Definition allocate (s : section) (n : Z) (w : writer) : writer :=
  match s with
  | In_ c => append c (repeat (filler c) (Z.to_nat n)) w
  | Bss => Writer (w_buffers w) (w_bss w + n) (w_defs w) (w_uses w) (w_names w)
  end.

(** writer.rs:200-206 [align]; the remainder by zero panics, and an alignment is not negative *)
Definition align (s : section) (a : Z) (w : writer) : outcome writer :=
  if a <=? 0 then Panic
  else let r := position w s mod a in
    Ret (if r =? 0 then w else allocate s (a - r) w).

(** ** writer.rs:311-493: instructions whose operand is a label *)

Inductive label_inst :=
| Call (l : label) | CallTable (l : label) | Jmp (l : label) | JmpTable (l : label) | JmpShort (l : label)
| Jcc (cc : nat) (l : label) | JccShort (cc : nat) (l : label)
| StoreR (l : label) (r : gpr) | StoreX (l : label) (r : gpr) | StoreI (l : label) (z : Z)
| LoadR (r : gpr) (l : label) | LoadX (r : gpr) (l : label)
| LoadTableR (r : gpr) (l : label) | LoadTableX (r : gpr) (l : label)
| Lea (r : gpr) (l : label).

(** writer.rs:396-425: the conditional jumps *)
Definition conditional_jumps : list string :=
  ["ja"; "jae"; "jb"; "jbe"; "jc"; "je"; "jg"; "jge"; "jl"; "jle"; "jna"; "jnae"; "jnb"; "jnbe"; "jnc"; "jne";
   "jng"; "jnge"; "jnl"; "jnle"; "jno"; "jnp"; "jns"; "jnz"; "jo"; "jp"; "jpe"; "jpo"; "js"; "jz"]%string.

(** The instruction that is written, given the number in place of the label ([Rip + 0i32], [0i32] or [0i8]). *)
Definition instruction (i : label_inst) (z : Z) : string * list kind * list operand :=
  let rip := OMem (ARipDisp z) in
  match i with
  | Call _ => ("callq", [KI32], [OI32 z])
  | CallTable _ => ("callq", [KMem], [rip])
  | Jmp _ => ("jmpq", [KI32], [OI32 z])
  | JmpTable _ => ("jmpq", [KMem], [rip])
  | JmpShort _ => ("jmpq", [KI8], [OI8 z])
  | Jcc cc _ => (nth cc conditional_jumps "", [KI32], [OI32 z])
  | JccShort cc _ => (nth cc conditional_jumps "", [KI8], [OI8 z])
  | StoreR _ r => ("movq", [KMem; K64], [rip; O64 r])
  | StoreX _ r => ("movq", [KMem; KX], [rip; OX r])
  | StoreI _ n => ("movq", [KMem; KI32], [rip; OI32 n])
  | LoadR r _ => ("movq", [K64; KMem], [O64 r; rip])
  | LoadX r _ => ("movq", [KX; KMem], [OX r; rip])
  | LoadTableR r _ => ("movq", [K64; KMem], [O64 r; rip])
  | LoadTableX r _ => ("movq", [KX; KMem], [OX r; rip])
  | Lea r _ => ("leaq", [K64; KMem], [O64 r; rip])
  end%string.

Definition inst_label (i : label_inst) : label :=
  match i with
  | Call l | CallTable l | Jmp l | JmpTable l | JmpShort l | Jcc _ l | JccShort _ l | StoreR l _ | StoreX l _
  | StoreI l _ | LoadR _ l | LoadX _ l | LoadTableR _ l | LoadTableX _ l | Lea _ l => l
  end.

(** The offset given to [use_relative], which is also the addend. *)
Definition inst_offset (i : label_inst) : Z :=
  match i with JmpShort _ | JccShort _ _ => -1 | _ => -4 end.

Definition inst_type (i : label_inst) : reloc_type :=
  match i with
  | CallTable _ | JmpTable _ | LoadTableR _ _ | LoadTableX _ _ => PcRelToAddressTable32
  | JmpShort _ | JccShort _ _ => PcRel8
  | _ => PcRel32
  end.

Definition kind_dec (a b : kind) : {a = b} + {a <> b}.
Proof. decide equality. decide equality. Defined.

(** The [write_inst] of an instruction, found by its name and the types of its operands. *)
Definition encode (x : string * list kind * list operand) : outcome (list N) :=
  let '(n, ks, ops) := x in
  match find (fun e => String.eqb (Model.i_name (fst e)) n &&
      if list_eq_dec kind_dec (Model.i_kinds (fst e)) ks then true else false) Table.table with
  | Some (e, _) => Model.write e ops
  | None => Panic
  end.

Definition write_label_inst (c : content) (i : label_inst) (w : writer) : outcome writer :=
  let* bs := encode (instruction i 0) in
  use_relative c (inst_offset i) (inst_label i) (inst_offset i) (inst_type i) (append c bs w).

(** ** The production of an object *)

(** [Cursor::seek] and [write_all]: zeros fill the space up to the position. *)
Definition write_at (buf : list N) (pos : Z) (bs : list N) : list N :=
  let p := Z.to_nat pos in
  firstn p buf ++ repeat 0%N (p - List.length buf) ++ bs ++ skipn (p + List.length bs) buf.

(** obj.rs:92-127 [resolve_statically]: the new buffer, or [None] for [false]. *)
Definition resolve_statically (ty : reloc_type) (buf : list N) (def_pos use_pos addend : Z) : outcome (option (list N)) :=
  match ty with
  | PcRel8 =>
      let value := def_pos + addend - use_pos in
      if (-128 <=? value) && (value <=? 127) then Ret (Some (write_at buf use_pos (le_bytes 1 value))) else Panic
  | PcRel32 =>
      let value := def_pos + addend - use_pos in
      if (-2147483648 <=? value) && (value <=? 2147483647) then Ret (Some (write_at buf use_pos (le_bytes 4 value))) else Panic
  | PcRelToAddressTable32 => Ret None
  | Abs64 => Ret None
  end.

(** writer.rs:82-87: the binding of a name *)
Definition binding_of (d : option def) : binding :=
  match d with
  | Some d => if d_global d then Global (Some (d_location d)) else Local (d_location d)
  | None => Global None
  end.

Fixpoint symbols_of (ds : list (option def)) (names : list (string * label)) : outcome (list (string * binding)) :=
  match names with
  | [] => Ret []
  | (n, l) :: names =>
      let* d := vget ds l in
      let* rest := symbols_of ds names in
      Ret ((n, binding_of d) :: rest)
  end.

(** [label_symbols], writer.rs:75 and :88 *)
Fixpoint symbol_of (names : list (string * label)) (l : label) : option string :=
  match names with
  | [] => None
  | (n, x) :: names => if Nat.eqb x l then Some n else symbol_of names l
  end.

(** writer.rs:101-106: the section with both the definition and the use *)
Definition both_in (d u : section) : option content :=
  match d, u with
  | In_ Text, In_ Text => Some Text
  | In_ Data, In_ Data => Some Data
  | In_ Rodata, In_ Rodata => Some Rodata
  | _, _ => None
  end.

(** writer.rs:113-131: the relocation; [Ret None] is the error. *)
Definition reloc_of (names : list (string * label)) (d : option def) (u : use) : option reloc :=
  match symbol_of names (u_target u) with
  | Some n => Some (Reloc (u_location u) (Symbol n) (0 + u_addend u) (u_type u))
  | None =>
      match d with
      | Some d => Some (Reloc (u_location u) (Section (l_section (d_location d)))
          (l_pos (d_location d) + u_addend u) (u_type u))
      | None => None
      end
  end.

(** writer.rs:95-132: one use.  [Ret None] is the error. *)
Definition produce_use (ds : list (option def)) (names : list (string * label)) (u : use) (st : buffers * list reloc)
  : outcome (option (buffers * list reloc)) :=
  let (bufs, relocs) := st in
  let* d := vget ds (u_target u) in
  let* done :=
    match d with
    | Some d =>
        match both_in (l_section (d_location d)) (l_section (u_location u)) with
        | Some c =>
            let* r := resolve_statically (u_type u) (buffer c bufs) (l_pos (d_location d)) (l_pos (u_location u)) (u_addend u) in
            Ret (option_map (fun buf => set_buffer c buf bufs) r)
        | None => Ret None
        end
    | None => Ret None
    end in
  match done with
  | Some bufs => Ret (Some (bufs, relocs))
  | None =>
      match reloc_of names d u with
      | Some r => Ret (Some (bufs, relocs ++ [r]))
      | None => Ret None
      end
  end.

Fixpoint produce_uses (ds : list (option def)) (names : list (string * label)) (us : list use) (st : buffers * list reloc)
  : outcome (option (buffers * list reloc)) :=
  match us with
  | [] => Ret (Some st)
  | u :: us =>
      let* st := produce_use ds names u st in
      match st with
      | Some st => produce_uses ds names us st
      | None => Ret None
      end
  end.

(** writer.rs:74-145 [produce]; [Ret None] is the error. *)
Definition produce (w : writer) : outcome (option object) :=
  let* symbols := symbols_of (w_defs w) (w_names w) in
  let* st := produce_uses (w_defs w) (w_names w) (w_uses w) (w_buffers w, []) in
  Ret (option_map (fun st => Object (fst st) (w_bss w) symbols (snd st)) st).

(** ** Histories of calls *)

Inductive call :=
| CIssue
| CGet (name : string)
| CDefine (s : section) (l : label) (global : bool)
| CWrite (c : content) (bs : list N)
| CAllocate (s : section) (n : Z)
| CAlign (s : section) (a : Z)
| CUse (loc : location) (l : label) (addend : Z) (ty : reloc_type)
| CUseRelative (c : content) (d : Z) (l : label) (addend : Z) (ty : reloc_type)
| CInst (c : content) (i : label_inst).

(** What a call returns to its caller. *)
Inductive answer := ALabel (l : label) | ALocation (l : location) | ANothing.

Definition step (w : writer) (c : call) : outcome (writer * answer) :=
  match c with
  | CIssue => let (w, l) := issue_label w in Ret (w, ALabel l)
  | CGet n => let (w, l) := get_label n w in Ret (w, ALabel l)
  | CDefine s l g => let* r := define s l g w in Ret (fst r, ALocation (snd r))
  | CWrite c bs => Ret (append c bs w, ANothing)
  | CAllocate s n => Ret (allocate s n w, ANothing)
  | CAlign s a => let* w := align s a w in Ret (w, ANothing)
  | CUse loc l a ty => Ret (use_ (Use loc l a ty) w, ANothing)
  | CUseRelative c d l a ty => let* w := use_relative c d l a ty w in Ret (w, ANothing)
  | CInst c i => let* w := write_label_inst c i w in Ret (w, ANothing)
  end.

(** A call as its caller sees it: with the answer, and the positions in the sections before it. *)
Record event := Event { e_call : call; e_answer : answer; e_before : section -> Z }.

Fixpoint run (w : writer) (cs : list call) : outcome (writer * list event) :=
  match cs with
  | [] => Ret (w, [])
  | c :: cs =>
      let* r := step w c in
      let* rest := run (fst r) cs in
      Ret (fst rest, Event c (snd r) (position w) :: snd rest)
  end.

(** * xten0/src/asm/encoding.rs and operand.rs

    Registers, memory operands and their encoding.  A byte is an [N]; displacements and immediates
    are [Z].  Failed assertions are [Panic]. *)
From Coq Require Import NArith ZArith.
From Verif.Base Require Import Base.
Local Open Scope N_scope.

Definition require {A} (b : bool) (k : outcome A) : outcome A := if b then k else Panic.

(** ** encoding.rs *)

(** encoding.rs:398-400 [bit_mask] and :408-413 [set_bits], for a range from [lo] to [hi]; a shift of a
    [u8] loses the bits above 255. *)
Definition bit_mask (lo hi : N) : N := N.shiftl (N.shiftl 1 (hi - lo) - 1) lo.
Definition set_bits (self value lo hi : N) : outcome N :=
  let mask := bit_mask lo hi in
  let value := N.land (N.shiftl value lo) 255 in
  require (N.land value (255 - mask) =? 0) (Ret (N.lor (N.land self (255 - mask)) value)).

Definition bit (b : bool) : N := if b then 1 else 0.

(** encoding.rs:7-13 [RexPrefix] *)
Inductive rex_prefix := NotRequired | Required | Denied | Inconsistent.

(** encoding.rs:16-24 [RexPrefix::merge] *)
Definition merge (a b : rex_prefix) : rex_prefix :=
  match a, b with
  | NotRequired, NotRequired => NotRequired
  | Required, Required | NotRequired, Required | Required, NotRequired => Required
  | Denied, Denied | NotRequired, Denied | Denied, NotRequired => Denied
  | _, _ => Inconsistent
  end.

(** encoding.rs:29-44 [RexPrefix::byte] *)
Definition rex_byte (p : rex_prefix) (w r x b : bool) : outcome (list N) :=
  let* required :=
    match p, (w || r || x || b)%bool with
    | NotRequired, e => Ret e
    | Required, _ => Ret true
    | Denied, false => Ret false
    | _, _ => Panic
    end in
  if required : bool then
    let* v := set_bits 0 4 4 8 in
    let* v := set_bits v (bit w) 3 4 in
    let* v := set_bits v (bit r) 2 3 in
    let* v := set_bits v (bit x) 1 2 in
    let* v := set_bits v (bit b) 0 1 in
    Ret [v]
  else Ret [].

(** encoding.rs:95-99 [Reg] and :102-113 *)
Record reg := Reg { mod_rm_reg : N; rex_r : bool; reg_prefix : rex_prefix }.
Definition reg_new (n : N) (p : rex_prefix) : outcome reg :=
  require (n <=? 15) (Ret (Reg (N.land n 7) (negb (N.land n 8 =? 0)) p)).

(** encoding.rs:126-131 [PartOfOpcode] as [Reg] *)
Definition part_of_opcode (n : N) : outcome reg := require (n <=? 7) (reg_new n NotRequired).

(** encoding.rs:311-314 [Displacement], :323-336 [mod_rm_mod] and [size] *)
Inductive displacement := Disp8 (d : Z) | Disp32 (d : Z).
Definition disp_mod (d : displacement) : N := match d with Disp8 _ => 1 | Disp32 _ => 2 end.
Definition disp_len (d : displacement) : N := match d with Disp8 _ => 1 | Disp32 _ => 4 end.

(** [to_le_bytes] of an integer of [n] bytes. *)
Fixpoint le_bytes (n : nat) (z : Z) : list N :=
  match n with
  | O => []
  | S n => Z.to_N (z mod 256) :: le_bytes n (z / 256)
  end.

(** encoding.rs:338-343 [bytes] *)
Definition disp_bytes_of (d : displacement) : list N :=
  match d with Disp8 z => le_bytes 1 z | Disp32 z => le_bytes 4 z end.

(** encoding.rs:360-376 [Scale] *)
Inductive scale := Scale1 | Scale2 | Scale4 | Scale8.
Definition scale_bits (s : scale) : N :=
  match s with Scale1 => 0 | Scale2 => 1 | Scale4 => 2 | Scale8 => 3 end.

(** encoding.rs:174-184 [Rm] *)
Record rm := Rm { mod_rm_mod : N; mod_rm_rm : N; rex_x : bool; rex_b : bool; sib_scale : option scale;
  sib_index : option N; sib_base : option N; disp : option displacement; rm_prefix : rex_prefix }.

(** encoding.rs:187-201 [Rm::new] *)
Definition rm_new (m r : N) (p : rex_prefix) : outcome rm :=
  require (m <=? 3) (require (r <=? 15)
    (Ret (Rm m (N.land r 7) false (negb (N.land r 8 =? 0)) None None None None p))).

(** encoding.rs:232-234 [sib_present] *)
Definition sib_present (r : rm) : bool := negb (mod_rm_mod r =? 3) && (mod_rm_rm r =? 4).

(** encoding.rs:203-229 [sib_scale], [sib_index], [sib_base] *)
Definition with_scale (s : scale) (r : rm) : outcome rm :=
  require (sib_present r)
    (Ret (Rm (mod_rm_mod r) (mod_rm_rm r) (rex_x r) (rex_b r) (Some s) (sib_index r) (sib_base r) (disp r) (rm_prefix r))).
Definition with_index (i : N) (r : rm) : outcome rm :=
  require (sib_present r) (require (i <=? 15)
    (Ret (Rm (mod_rm_mod r) (mod_rm_rm r) (negb (N.land i 8 =? 0)) (rex_b r) (sib_scale r) (Some (N.land i 7)) (sib_base r)
      (disp r) (rm_prefix r)))).
Definition with_base (b : N) (r : rm) : outcome rm :=
  require (sib_present r) (require (b <=? 15)
    (Ret (Rm (mod_rm_mod r) (mod_rm_rm r) (rex_x r) (negb (N.land b 8 =? 0)) (sib_scale r) (sib_index r) (Some (N.land b 7))
      (disp r) (rm_prefix r)))).

(** encoding.rs:237-247 [sib_byte] *)
Definition sib_byte (r : rm) : outcome (list N) :=
  if sib_present r then
    let* v := set_bits 0 (match sib_scale r with Some s => scale_bits s | None => 0 end) 6 8 in
    let* v := set_bits v (match sib_index r with Some i => i | None => 0 end) 3 6 in
    let* v := set_bits v (match sib_base r with Some b => b | None => 0 end) 0 3 in
    Ret [v]
  else Ret [].

(** encoding.rs:260-281 [disp_size] *)
Definition disp_size (r : rm) : option N :=
  if mod_rm_mod r =? 1 then Some 1
  else if mod_rm_mod r =? 2 then Some 4
  else if (mod_rm_mod r =? 0) && (mod_rm_rm r =? 5) then Some 4
  else if sib_present r && (mod_rm_mod r =? 0) && negb (rex_b r)
    && match sib_base r with Some b => b =? 5 | None => false end then Some 4
  else None.

Definition opt_eqb (a b : option N) : bool :=
  match a, b with Some x, Some y => x =? y | None, None => true | _, _ => false end.

(** encoding.rs:249-256 [disp] *)
Definition with_disp (d : displacement) (r : rm) : outcome rm :=
  require (opt_eqb (Some (disp_len d)) (disp_size r))
    (Ret (Rm (mod_rm_mod r) (mod_rm_rm r) (rex_x r) (rex_b r) (sib_scale r) (sib_index r) (sib_base r) (Some d) (rm_prefix r))).

(** encoding.rs:284-287 [disp_bytes] *)
Definition disp_bytes (r : rm) : outcome (list N) :=
  require (opt_eqb (disp_size r) (option_map disp_len (disp r)))
    (Ret (match disp r with Some d => disp_bytes_of d | None => [] end)).

(** encoding.rs:49-52 [ModRM], :63-70 [rex_byte] and :73-77 [byte] *)
Definition modrm_rex (g : reg) (r : rm) (w : bool) : outcome (list N) :=
  rex_byte (merge (reg_prefix g) (rm_prefix r)) w (rex_r g) (rex_x r) (rex_b r).
Definition modrm_byte (g : reg) (r : rm) : outcome (list N) :=
  let* v := set_bits 0 (mod_rm_mod r) 6 8 in
  let* v := set_bits v (mod_rm_reg g) 3 6 in
  let* v := set_bits v (mod_rm_rm r) 0 3 in
  Ret [v].

(** ** operand.rs *)

(** operand.rs:9-26 [Gpr64].  [Gpr32] (:136-153), [Gpr16] (:195-212) and [Xmm] (:330-347) are sixteen
    registers each with the same codes; here they are the same type, and [operand] below tells them
    apart. *)
Inductive gpr := Rax | Rcx | Rdx | Rbx | Rsp | Rbp | Rsi | Rdi | R8 | R9 | R10 | R11 | R12 | R13 | R14 | R15.

(** operand.rs:29-48, :156-175, :215-234 [register_code], :350-369 [encoding_index] *)
Definition register_code (r : gpr) : N :=
  match r with
  | Rax => 0 | Rcx => 1 | Rdx => 2 | Rbx => 3 | Rsp => 4 | Rbp => 5 | Rsi => 6 | Rdi => 7
  | R8 => 8 | R9 => 9 | R10 => 10 | R11 => 11 | R12 => 12 | R13 => 13 | R14 => 14 | R15 => 15
  end.

(** operand.rs:254-275 [Gpr8] *)
Inductive gpr8 := Al | Cl | Dl | Bl | Ah | Ch | Dh | Bh | Spl | Bpl | Sil | Dil
  | R8B | R9B | R10B | R11B | R12B | R13B | R14B | R15B.

(** operand.rs:278-301 [register_code] *)
Definition register_code8 (r : gpr8) : N :=
  match r with
  | Al => 0 | Cl => 1 | Dl => 2 | Bl => 3 | Ah => 4 | Ch => 5 | Dh => 6 | Bh => 7
  | Spl => 4 | Bpl => 5 | Sil => 6 | Dil => 7
  | R8B => 8 | R9B => 9 | R10B => 10 | R11B => 11 | R12B => 12 | R13B => 13 | R14B => 14 | R15B => 15
  end.

(** operand.rs:303-309 [rex_prefix] *)
Definition rex_prefix8 (r : gpr8) : rex_prefix :=
  match r with
  | Spl | Bpl | Sil | Dil => Required
  | Ah | Ch | Dh | Bh => Denied
  | _ => NotRequired
  end.

(** operand.rs:50-111 [q], [l], [w] are the same register here; [b] *)
Definition low_byte (r : gpr) : gpr8 :=
  match r with
  | Rax => Al | Rcx => Cl | Rdx => Dl | Rbx => Bl | Rsp => Spl | Rbp => Bpl | Rsi => Sil | Rdi => Dil
  | R8 => R8B | R9 => R9B | R10 => R10B | R11 => R11B | R12 => R12B | R13 => R13B | R14 => R14B | R15 => R15B
  end.

(** operand.rs:392-396 [IndexScale] and :415-419 [Address], by the combinations of base, displacement
    and index that are implemented. *)
Inductive address :=
| AAbs (d : Z)
| AAbsIndex (d : Z) (i : gpr) (s : scale)
| ARip
| ARipDisp (d : Z)
| ABase (b : gpr)
| ABaseDisp (b : gpr) (d : displacement)
| ABaseIndex (b i : gpr) (s : scale)
| ABaseDispIndex (b : gpr) (d : displacement) (i : gpr) (s : scale).

(** operand.rs:569-719 the conversions to [EncodedAddress] *)
Definition encode_address (a : address) : outcome rm :=
  match a with
  | AAbs d =>
      require (0 <=? d)%Z
      (let* r := rm_new 0 4 NotRequired in
       let* r := with_base 5 r in
       let* r := with_index 4 r in
       with_disp (Disp32 d) r)
  | AAbsIndex d i s =>
      let* r := rm_new 0 4 NotRequired in
      let* r := with_base 5 r in
      let* r := with_index (register_code i) r in
      let* r := with_scale s r in
      with_disp (Disp32 d) r
  | ARip =>
      let* r := rm_new 0 5 NotRequired in
      with_disp (Disp32 0) r
  | ARipDisp d =>
      let* r := rm_new 0 5 NotRequired in
      with_disp (Disp32 d) r
  | ABase b =>
      match b with
      | Rsp | R12 =>
          let* r := rm_new 0 4 NotRequired in
          let* r := with_base (register_code b) r in
          with_index 4 r
      | Rbp | R13 =>
          let* r := rm_new 1 (register_code b) NotRequired in
          with_disp (Disp8 0) r
      | _ => rm_new 0 (register_code b) NotRequired
      end
  | ABaseDisp b d =>
      match b with
      | Rsp | R12 =>
          let* r := rm_new (disp_mod d) 4 NotRequired in
          let* r := with_base (register_code b) r in
          let* r := with_index 4 r in
          with_disp d r
      | _ =>
          let* r := rm_new (disp_mod d) (register_code b) NotRequired in
          with_disp d r
      end
  | ABaseIndex b i s =>
      match b with
      | Rbp | R13 =>
          let* r := rm_new 1 4 NotRequired in
          let* r := with_base (register_code b) r in
          let* r := with_index (register_code i) r in
          let* r := with_scale s r in
          with_disp (Disp8 0) r
      | _ =>
          let* r := rm_new 0 4 NotRequired in
          let* r := with_base (register_code b) r in
          let* r := with_index (register_code i) r in
          with_scale s r
      end
  | ABaseDispIndex b d i s =>
      let* r := rm_new (disp_mod d) 4 NotRequired in
      let* r := with_base (register_code b) r in
      let* r := with_index (register_code i) r in
      let* r := with_scale s r in
      with_disp d r
  end.

(** operand.rs:722-739 and the operand types of the instructions *)
Inductive fixed := FAl | FAx | FEax | FRax | FCl | FDx | FXmm0 | F1 | F3.
Inductive operand :=
| O64 (r : gpr) | O32 (r : gpr) | O16 (r : gpr) | O8 (r : gpr8) | OX (r : gpr)
| OMem (a : address)
| OI8 (z : Z) | OI16 (z : Z) | OI32 (z : Z) | OI64 (z : Z)
| OFixed (f : fixed).

(** The conversions of registers to [Reg], operand.rs:114-118, :177-181, :236-240, :312-316, :371-375. *)
Definition to_reg (o : operand) : outcome reg :=
  match o with
  | O64 r | O32 r | O16 r | OX r => reg_new (register_code r) NotRequired
  | O8 r => reg_new (register_code8 r) (rex_prefix8 r)
  | _ => Panic
  end.

(** The conversions to [Rm], operand.rs:120-124, :183-187, :242-246, :318-322, :377-381, :548-552. *)
Definition to_rm (o : operand) : outcome rm :=
  match o with
  | O64 r | O32 r | O16 r | OX r => rm_new 3 (register_code r) NotRequired
  | O8 r => rm_new 3 (register_code8 r) (rex_prefix8 r)
  | OMem a => encode_address a
  | _ => Panic
  end.

(** ** xten0/src/asm/inst.rs: the implementations of [WriteInst] *)

(** The types of the operands. *)
Inductive kind := K64 | K32 | K16 | K8 | KX | KMem | KI8 | KI16 | KI32 | KI64 | KFixed (f : fixed).

(** The statements of [write_inst] after the bindings of [modrm] and [rio]. *)
Inductive piece :=
| PByte (b : N)          (* put(w, b) *)
| PModRex (w : bool)     (* puts(w, modrm.rex_byte(w)) *)
| PRioRex (w : bool)     (* puts(w, rio.rex_byte(w)) *)
| PRex (w : bool)        (* puts(w, RexPrefix::default().byte(w, false, false, false)) *)
| PModRM                 (* put(w, modrm.byte()) *)
| PSib                   (* puts(w, modrm.sib_byte()) *)
| PDisp                  (* puts(w, modrm.disp_bytes().into_iter().flatten()) *)
| PBytePlus (b : N)      (* put(w, b + rio.byte_added_to_opcode) *)
| PImm (i : nat).        (* puts(w, self.i.to_le_bytes()) *)

(** [ModRM::new(PartOfOpcode(n), _)] or [ModRM::new(self.i, _)] *)
Inductive reg_source := Digit (n : N) | Op (i : nat).

Record inst := Inst { i_name : string; i_kinds : list kind;
  i_modrm : option (reg_source * nat); i_rio : option nat; i_pieces : list piece }.

Definition nth_op (i : nat) (ops : list operand) : outcome operand :=
  match nth_error ops i with Some o => Ret o | None => Panic end.

Definition imm_bytes (o : operand) : outcome (list N) :=
  match o with
  | OI8 z => Ret (le_bytes 1 z) | OI16 z => Ret (le_bytes 2 z)
  | OI32 z => Ret (le_bytes 4 z) | OI64 z => Ret (le_bytes 8 z)
  | _ => Panic
  end.

Definition bindings : Type := (option (reg * rm) * option reg)%type.

Definition piece_bytes (ops : list operand) (v : bindings) (p : piece) : outcome (list N) :=
  match p with
  | PByte b => Ret [b]
  | PModRex w => match fst v with Some (g, r) => modrm_rex g r w | None => Panic end
  | PRioRex w => match snd v with Some g => rex_byte (reg_prefix g) w false false (rex_r g) | None => Panic end
  | PRex w => rex_byte NotRequired w false false false
  | PModRM => match fst v with Some (g, r) => modrm_byte g r | None => Panic end
  | PSib => match fst v with Some (_, r) => sib_byte r | None => Panic end
  | PDisp => match fst v with Some (_, r) => disp_bytes r | None => Panic end
  | PBytePlus b => match snd v with Some g => Ret [b + mod_rm_reg g] | None => Panic end
  | PImm i => let* o := nth_op i ops in imm_bytes o
  end.

Fixpoint pieces_bytes (ops : list operand) (v : bindings) (ps : list piece) : outcome (list N) :=
  match ps with
  | [] => Ret []
  | p :: ps => let* a := piece_bytes ops v p in let* b := pieces_bytes ops v ps in Ret (a ++ b)
  end.

(** [write_inst]: the bytes written, when every write succeeds. *)
Definition write (e : inst) (ops : list operand) : outcome (list N) :=
  let* m :=
    match i_modrm e with
    | None => Ret None
    | Some (src, j) =>
        let* g := match src with Digit n => part_of_opcode n | Op i => let* o := nth_op i ops in to_reg o end in
        let* o := nth_op j ops in
        let* r := to_rm o in
        Ret (Some (g, r))
    end in
  let* g :=
    match i_rio e with
    | None => Ret None
    | Some i => let* o := nth_op i ops in let* g := to_reg o in Ret (Some g)
    end in
  pieces_bytes ops (m, g) (i_pieces e).

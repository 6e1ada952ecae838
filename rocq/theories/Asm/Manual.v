(** * Instructions as the manual defines them

    Intel 64 and IA-32 Architectures Software Developer's Manual, volume 2, chapter 2 and section 3.1:
    how the bytes of an instruction are read back, in 64-bit mode. *)
From Coq Require Import NArith ZArith.
From Verif.Base Require Import Base.
From Verif.Asm Require Import Model.
Local Open Scope N_scope.

(** The notation for encodings, with the operand each part encodes: [TSlash reg rm] is "/r" with operand
    [reg] in ModRM.reg and operand [rm] in ModRM.rm, [TDigit n rm] is "/n", [TPlus r] is "+rb" to
    "+ro", and [TImm n i] is a value of [n] bytes ("ib" to "io", "cb" to "co"). *)
Inductive token := TByte (b : N) | TRexW | TSlash (reg rm : nat) | TDigit (n : N) (rm : nat)
  | TPlus (r : nat) | TImm (bytes : nat) (i : nat).

(** ** What operands mean *)

Inductive base := NoBase | RipBase | RegBase (r : gpr).
Record mem := Mem { m_base : base; m_index : option (gpr * N); m_disp : Z }.

(** An operand as an instruction sees it. *)
Inductive view := VOp (o : operand) | VMem (m : mem).

Definition factor (s : scale) : N := match s with Scale1 => 1 | Scale2 => 2 | Scale4 => 4 | Scale8 => 8 end.
Definition amount (d : displacement) : Z := match d with Disp8 z | Disp32 z => z end.

Definition meaning (a : address) : mem :=
  match a with
  | AAbs d => Mem NoBase None d
  | AAbsIndex d i s => Mem NoBase (Some (i, factor s)) d
  | ARip => Mem RipBase None 0
  | ARipDisp d => Mem RipBase None d
  | ABase b => Mem (RegBase b) None 0
  | ABaseDisp b d => Mem (RegBase b) None (amount d)
  | ABaseIndex b i s => Mem (RegBase b) (Some (i, factor s)) 0
  | ABaseDispIndex b d i s => Mem (RegBase b) (Some (i, factor s)) (amount d)
  end.

Definition view_of (o : operand) : view := match o with OMem a => VMem (meaning a) | o => VOp o end.

(** ** Registers by number *)

Definition registers : list gpr :=
  [Rax; Rcx; Rdx; Rbx; Rsp; Rbp; Rsi; Rdi; R8; R9; R10; R11; R12; R13; R14; R15].

(** The byte registers, with and without a REX prefix. *)
Definition byte_registers (rex : bool) : list gpr8 :=
  [Al; Cl; Dl; Bl] ++ (if rex then [Spl; Bpl; Sil; Dil] else [Ah; Ch; Dh; Bh]) ++
  [R8B; R9B; R10B; R11B; R12B; R13B; R14B; R15B].

Definition register (n : N) : option gpr := nth_error registers (N.to_nat n).
Definition register_of (k : kind) (rex : bool) (n : N) : option operand :=
  match k with
  | K64 => option_map O64 (register n)
  | K32 => option_map O32 (register n)
  | K16 => option_map O16 (register n)
  | KX => option_map OX (register n)
  | K8 => option_map O8 (nth_error (byte_registers rex) (N.to_nat n))
  | _ => None
  end.

(** ** Reading bytes *)

Definition obind {A B} (o : option A) (k : A -> option B) : option B := match o with Some a => k a | None => None end.
Notation "'let?' x ':=' o 'in' k" := (obind o (fun x => k)) (at level 200, x pattern, o at level 100, k at level 200).

(** [w] bits of a byte from bit [lo]. *)
Definition field (b lo w : N) : N := (b / 2 ^ lo) mod 2 ^ w.

Fixpoint read (n : nat) (bs : list N) : option (N * list N) :=
  match n with
  | O => Some (0, bs)
  | S n => match bs with
    | [] => None
    | b :: bs => let? (v, bs) := read n bs in Some (b + 256 * v, bs)
    end
  end.
(** A signed number of [n] bytes, least significant byte first. *)
Definition read_signed (n : nat) (bs : list N) : option (Z * list N) :=
  let? (v, bs) := read n bs in
  let m := (256 ^ Z.of_nat n)%Z in
  Some (if (2 * Z.of_N v <? m)%Z then Z.of_N v else Z.of_N v - m, bs)%Z.

(** The bits W, R, X and B of a REX prefix; no prefix counts as 0. *)
Definition rex_w (rex : N) : N := field rex 3 1.
Definition rex_r_ (rex : N) : N := field rex 2 1.
Definition rex_x_ (rex : N) : N := field rex 1 1.
Definition rex_b_ (rex : N) : N := field rex 0 1.

(** Tables 2-2 and 2-3: ModRM and SIB, up to the size of the displacement. *)
Inductive form := FReg (n : N) | FMem (b : base) (i : option (gpr * N)) (size : nat).
Definition disp_after (md : N) : nat := if md =? 1 then 1 else if md =? 2 then 4 else 0.
Definition modrm_form (rex b : N) (bs : list N) : option (form * list N) :=
  let md := field b 6 2 in
  let rm := field b 0 3 in
  if md =? 3 then Some (FReg (rm + 8 * rex_b_ rex), bs)
  else if rm =? 4 then
    match bs with
    | [] => None
    | sib :: bs =>
        let index := field sib 3 3 + 8 * rex_x_ rex in
        let? i := if index =? 4 then Some None
          else let? r := register index in Some (Some (r, 2 ^ field sib 6 2)) in
        if (field sib 0 3 =? 5) && (md =? 0) then Some (FMem NoBase i 4, bs)
        else let? r := register (field sib 0 3 + 8 * rex_b_ rex) in Some (FMem (RegBase r) i (disp_after md), bs)
    end
  else if (rm =? 5) && (md =? 0) then Some (FMem RipBase None 4, bs)
  else let? r := register (rm + 8 * rex_b_ rex) in Some (FMem (RegBase r) None (disp_after md), bs).

(** An operand in ModRM.rm. *)
Definition rm_view (k : kind) (rexed : bool) (f : form) (bs : list N) : option (view * list N) :=
  match f with
  | FReg n => let? o := register_of k rexed n in Some (VOp o, bs)
  | FMem b i size =>
      match k with
      | KMem => let? (d, bs) := read_signed size bs in Some (VMem (Mem b i d), bs)
      | _ => None
      end
  end.

Definition immediate (k : kind) (bytes : nat) (z : Z) : option operand :=
  match k, bytes with
  | KI8, 1%nat => Some (OI8 z)
  | KI16, 2%nat => Some (OI16 z)
  | KI32, 4%nat => Some (OI32 z)
  | KI64, 8%nat => Some (OI64 z)
  | _, _ => None
  end.

(** ** Reading an instruction, given its encoding *)

(** The operands found so far, by position. *)
Definition found : Type := list (nat * view).

Definition is_prefix (b : N) : bool := (b =? 102) || (b =? 242) || (b =? 243).
Definition is_rex (b : N) : bool := (64 <=? b) && (b <=? 79).

Section Decode.
Variable kinds : list kind.
Definition kind_at (i : nat) : option kind := nth_error kinds i.

(** The rest of the tokens, after the prefixes; [rex] is the REX prefix if there is one. *)
Fixpoint decode_tokens (rex : option N) (ts : list token) (bs : list N) : option (found * list N) :=
  let bits := match rex with Some r => r | None => 0 end in
  let rexed := match rex with Some _ => true | None => false end in
  match ts with
  | [] => Some ([], bs)
  | TByte b :: TPlus i :: ts =>
      match bs with
      | [] => None
      | x :: bs =>
          if (b <=? x) && (x <? b + 8) then
            let? k := kind_at i in
            let? o := register_of k rexed (x - b + 8 * rex_b_ bits) in
            let? (l, bs) := decode_tokens rex ts bs in
            Some ((i, VOp o) :: l, bs)
          else None
      end
  | TByte b :: ts =>
      match bs with
      | [] => None
      | x :: bs => if x =? b then decode_tokens rex ts bs else None
      end
  | TSlash g r :: ts =>
      match bs with
      | [] => None
      | x :: bs =>
          let? kg := kind_at g in
          let? kr := kind_at r in
          let? og := register_of kg rexed (field x 3 3 + 8 * rex_r_ bits) in
          let? (f, bs) := modrm_form bits x bs in
          let? (v, bs) := rm_view kr rexed f bs in
          let? (l, bs) := decode_tokens rex ts bs in
          Some ((g, VOp og) :: (r, v) :: l, bs)
      end
  | TDigit n r :: ts =>
      match bs with
      | [] => None
      | x :: bs =>
          if field x 3 3 =? n then
            let? kr := kind_at r in
            let? (f, bs) := modrm_form bits x bs in
            let? (v, bs) := rm_view kr rexed f bs in
            let? (l, bs) := decode_tokens rex ts bs in
            Some ((r, v) :: l, bs)
          else None
      end
  | TImm n i :: ts =>
      let? k := kind_at i in
      let? (z, bs) := read_signed n bs in
      let? o := immediate k n z in
      let? (l, bs) := decode_tokens rex ts bs in
      Some ((i, VOp o) :: l, bs)
  | TPlus _ :: _ | TRexW :: _ => None
  end.

(** A REX prefix comes right before the opcode. *)
Definition decode_rex (w : bool) (ts : list token) (bs : list N) : option (found * list N) :=
  match bs with
  | x :: bs' =>
      if is_rex x then
        if Bool.eqb (rex_w x =? 1) w then decode_tokens (Some x) ts bs' else None
      else if w then None else decode_tokens None ts bs
  | [] => None
  end.

(** Legacy prefixes come first. *)
Fixpoint decode_prefixes (ts : list token) (bs : list N) : option (found * list N) :=
  match ts with
  | TRexW :: ts => decode_rex true ts bs
  | TByte b :: ts' =>
      if is_prefix b then
        match bs with
        | x :: bs => if x =? b then decode_prefixes ts' bs else None
        | [] => None
        end
      else decode_rex false ts bs
  | _ => None
  end.
End Decode.

Fixpoint find_view (i : nat) (l : found) : option view :=
  match l with
  | [] => None
  | (j, v) :: l => if (i =? j)%nat then Some v else find_view i l
  end.

(** The operands in order; those that are part of the instruction need no encoding. *)
Fixpoint views (kinds : list kind) (i : nat) (l : found) : option (list view) :=
  match kinds with
  | [] => Some []
  | k :: kinds =>
      let? v := match k with KFixed f => Some (VOp (OFixed f)) | _ => find_view i l end in
      let? vs := views kinds (S i) l in
      Some (v :: vs)
  end.

Definition decode (kinds : list kind) (ts : list token) (bs : list N) : option (list view * list N) :=
  let? (l, bs) := decode_prefixes kinds ts bs in
  let? vs := views kinds 0 l in
  Some (vs, bs).

(** ** Operands an instruction takes *)

Definition in_range (n : nat) (z : Z) : Prop := (- 256 ^ Z.of_nat n <= 2 * z < 256 ^ Z.of_nat n)%Z.
Definition disp_ok (d : displacement) : Prop := match d with Disp8 z => in_range 1 z | Disp32 z => in_range 4 z end.
(** RSP cannot be an index register. *)
Definition address_ok (a : address) : Prop :=
  match a with
  | AAbs d => in_range 4 d
  | AAbsIndex d i _ => in_range 4 d /\ i <> Rsp
  | ARip => True
  | ARipDisp d => in_range 4 d
  | ABase _ => True
  | ABaseDisp _ d => disp_ok d
  | ABaseIndex _ i _ => i <> Rsp
  | ABaseDispIndex _ d i _ => disp_ok d /\ i <> Rsp
  end.
Definition of_kind (k : kind) (o : operand) : Prop :=
  match k, o with
  | K64, O64 _ | K32, O32 _ | K16, O16 _ | K8, O8 _ | KX, OX _ => True
  | KMem, OMem a => address_ok a
  | KI8, OI8 z => in_range 1 z
  | KI16, OI16 z => in_range 2 z
  | KI32, OI32 z => in_range 4 z
  | KI64, OI64 z => in_range 8 z
  | KFixed f, OFixed g => f = g
  | _, _ => False
  end.

(** AH, CH, DH and BH cannot be encoded in an instruction with a REX prefix, and the registers with the
    numbers 8 to 15, the registers SPL, BPL, SIL and DIL, and 64-bit operations need one. *)
Definition extended (r : gpr) : bool :=
  match r with R8 | R9 | R10 | R11 | R12 | R13 | R14 | R15 => true | _ => false end.
Definition needs_rex (o : operand) : bool :=
  match o with
  | O64 r | O32 r | O16 r | OX r => extended r
  | O8 r => match r with Al | Cl | Dl | Bl | Ah | Ch | Dh | Bh => false | _ => true end
  | OMem a =>
      match m_base (meaning a) with RegBase r => extended r | _ => false end ||
      match m_index (meaning a) with Some (r, _) => extended r | None => false end
  | _ => false
  end.
Definition denies_rex (o : operand) : bool :=
  match o with O8 (Ah | Ch | Dh | Bh) => true | _ => false end.
(** An absolute address without index must not be negative. *)
Definition negative (o : operand) : bool := match o with OMem (AAbs d) => (d <? 0)%Z | _ => false end.
Definition wide (ts : list token) : bool := existsb (fun t => match t with TRexW => true | _ => false end) ts.
Definition encodable (ts : list token) (ops : list operand) : Prop :=
  existsb denies_rex ops && (wide ts || existsb needs_rex ops) = false /\ existsb negative ops = false.

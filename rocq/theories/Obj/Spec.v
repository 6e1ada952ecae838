(** * What an object means once it is loaded

    The linking rules are those of the System V ABI for AMD64, section 4.4: each relocation names a field,
    and what the field holds once every section and every symbol has an address. *)
From Coq Require Import NArith ZArith.
From Verif.Base Require Import Base.
From Verif.Obj Require Import Model.
Local Open Scope Z_scope.

(** Bytes of a field, and the value they hold in two's complement: the lowest byte first. *)
Definition width (ty : reloc_type) : Z := match ty with PcRel8 => 1 | PcRel32 | PcRelToAddressTable32 => 4 | Abs64 => 8 end.
Definition holds (mem : Z -> N) (a : Z) (n : Z) (v : Z) : Prop :=
  forall i, 0 <= i < n -> mem (a + i) = Z.to_N ((v / 256 ^ i) mod 256).

(** Where the sections are, the addresses of symbols, and the addresses of their entries in the table of
    addresses (the global offset table). *)
Record linking := Linking { place : section -> Z; address : string -> option Z; entry : string -> option Z }.

Definition at_ (lk : linking) (l : location) : Z := place lk (l_section l) + l_pos l.

(** The value of a relocated field. *)
Definition reloc_value (lk : linking) (r : reloc) : option Z :=
  let s := match r_target r with Symbol n => address lk n | Section s => Some (place lk s) end in
  let g := match r_target r with Symbol n => entry lk n | Section _ => None end in
  match r_type r with
  | PcRel8 | PcRel32 => option_map (fun s => s + r_addend r - at_ lk (r_location r)) s
  | PcRelToAddressTable32 => option_map (fun g => g + r_addend r - at_ lk (r_location r)) g
  | Abs64 => option_map (fun s => s + r_addend r) s
  end.

Definition covers (l : location) (ty : reloc_type) (c : content) (i : Z) : Prop :=
  l_section l = In_ c /\ l_pos l <= i < l_pos l + width ty.

(** Symbols defined in the object are where it says. *)
Definition consistent (lk : linking) (o : object) : Prop :=
  forall n l, In (n, Local l) (o_symbols o) \/ In (n, Global (Some l)) (o_symbols o) -> address lk n = Some (at_ lk l).

(** A memory in which the object is loaded and linked. *)
Definition linked (lk : linking) (o : object) (mem : Z -> N) : Prop :=
  consistent lk o /\
  (forall r, In r (o_relocs o) -> exists v, reloc_value lk r = Some v /\ holds mem (at_ lk (r_location r)) (width (r_type r)) v) /\
  (forall c i b, nth_error (buffer c (o_buffers o)) (Z.to_nat i) = Some b -> 0 <= i ->
    (forall r, In r (o_relocs o) -> ~ covers (r_location r) (r_type r) c i) -> mem (place lk c + i) = b).

(** ** What was asked for *)

(** The uses of labels asked for by one call. *)
Definition uses_by (e : event) : list use :=
  match e_call e with
  | CUse loc l a ty => [Use loc l a ty]
  | CUseRelative c d l a ty => [Use (Loc c (e_before e c + d)) l a ty]
  | CInst c i =>
      match encode (instruction i 0) with
      | Ret bs => [Use (Loc c (e_before e c + Z.of_nat (List.length bs) + inst_offset i)) (inst_label i) (inst_offset i) (inst_type i)]
      | _ => []
      end
  | _ => []
  end.
Definition uses (es : list event) : list use := flat_map uses_by es.

Definition defined (es : list event) (l : label) (g : bool) (loc : location) : Prop :=
  exists s a before, In (Event (CDefine s l g) a before) es /\ loc = Loc s (before s).

Definition named (es : list event) (n : string) (l : label) : Prop :=
  exists before, In (Event (CGet n) (ALabel l) before) es.

(** Where a label is. *)
Definition label_address (es : list event) (lk : linking) (l : label) (a : Z) : Prop :=
  (exists g loc, defined es l g loc /\ a = at_ lk loc) \/
  ((forall g loc, ~ defined es l g loc) /\ exists n, named es n l /\ address lk n = Some a).

(** What a use asks its field to hold. *)
Definition asked (es : list event) (lk : linking) (u : use) (v : Z) : Prop :=
  match u_type u with
  | PcRel8 | PcRel32 => exists a, label_address es lk (u_target u) a /\ v = a + u_addend u - at_ lk (u_location u)
  | PcRelToAddressTable32 => exists n g, named es n (u_target u) /\ entry lk n = Some g /\
      v = g + u_addend u - at_ lk (u_location u)
  | Abs64 => exists a, label_address es lk (u_target u) a /\ v = a + u_addend u
  end.

(** Fields do not overlap, and lie inside what was written. *)
Definition apart (u v : use) : Prop :=
  l_section (u_location u) <> l_section (u_location v) \/
  l_pos (u_location u) + width (u_type u) <= l_pos (u_location v) \/
  l_pos (u_location v) + width (u_type v) <= l_pos (u_location u).
Definition inside (w : writer) (u : use) : Prop :=
  0 <= l_pos (u_location u) /\ l_pos (u_location u) + width (u_type u) <= position w (l_section (u_location u)).
Definition well_placed (w : writer) (es : list event) : Prop :=
  ForallOrdPairs apart (uses es) /\ Forall (inside w) (uses es).

(** The bytes a call writes into a section, given its position there.  Alignment takes the fewest bytes that
    reach a multiple. *)
Definition elsewhere (cl : call) (s : section) : Prop :=
  match cl with
  | CWrite c _ | CInst c _ => In_ c <> s
  | CAllocate s' _ | CAlign s' _ => s' <> s
  | _ => True
  end.
Definition to_multiple (p a k : Z) : Prop := 0 <= k < a /\ (p + k) mod a = 0.

(** Code is padded with the instruction that does nothing, 0x90, and data with zeros. *)
Definition padding (c : content) : N := match c with Text => 144%N | Data | Rodata => 0%N end.

Inductive writes : call -> content -> Z -> list N -> Prop :=
| writes_bytes c bs p : writes (CWrite c bs) c p bs
| writes_space c n p : writes (CAllocate (In_ c) n) c p (repeat (padding c) (Z.to_nat n))
| writes_align c a p k : to_multiple p a k -> writes (CAlign (In_ c) a) c p (repeat (padding c) (Z.to_nat k))
| writes_inst c i p bs : encode (instruction i 0) = Ret bs -> writes (CInst c i) c p bs
| writes_nothing cl c p : elsewhere cl (In_ c) -> writes cl c p [].

Inductive contents : list event -> content -> list N -> Prop :=
| contents_nil c : contents [] c []
| contents_snoc es c l e bs : contents es c l -> e_before e c = Z.of_nat (List.length l) ->
    writes (e_call e) c (e_before e c) bs -> contents (es ++ [e]) c (l ++ bs).

(** The same for .bss, which has only a size. *)
Inductive reserves : call -> Z -> Z -> Prop :=
| reserves_space n p : reserves (CAllocate Bss n) p n
| reserves_align a p k : to_multiple p a k -> reserves (CAlign Bss a) p k
| reserves_nothing cl p : elsewhere cl Bss -> reserves cl p 0.

Inductive bss_size : list event -> Z -> Prop :=
| bss_nil : bss_size [] 0
| bss_snoc es e n k : bss_size es n -> e_before e Bss = n -> reserves (e_call e) n k -> bss_size (es ++ [e]) (n + k).

(** When the uses can all be resolved: each label has a definition or a name, and is in reach if it is in the
    section where it is used. *)
Definition in_reach (ty : reloc_type) (v : Z) : Prop :=
  match ty with PcRel8 => -128 <= v < 128 | PcRel32 => -2147483648 <= v < 2147483648 | _ => True end.
Definition resolvable (es : list event) (u : use) : Prop :=
  ((exists g loc, defined es (u_target u) g loc) \/ exists n, named es n (u_target u)) /\
  (forall g loc c, defined es (u_target u) g loc -> l_section loc = In_ c -> l_section (u_location u) = In_ c ->
    in_reach (u_type u) (l_pos loc + u_addend u - l_pos (u_location u))).

(** Calls that can be made: the labels exist, no label is defined twice, and positions are not negative. *)
Definition known (es : list event) (l : label) : Prop := exists c before, In (Event c (ALabel l) before) es.
Definition allowed (w : writer) (es : list event) (c : call) : Prop :=
  match c with
  | CDefine _ l _ => known es l /\ forall g loc, ~ defined es l g loc
  | CAlign _ a => 0 < a
  | CUseRelative c d _ _ _ => 0 <= position w c + d
  | CInst _ i => exists bs, encode (instruction i 0) = Ret bs
  | _ => True
  end.

(** ** Instructions with a label *)

Definition loaded (mem : Z -> N) (a : Z) (bs : list N) : Prop :=
  forall j b, nth_error bs (Z.to_nat j) = Some b -> 0 <= j -> mem (a + j) = b.

(** What the operand of the instruction designates: the label, or its entry in the table of addresses. *)
Definition designated (es : list event) (lk : linking) (i : label_inst) (t : Z) : Prop :=
  match i with
  | CallTable l | JmpTable l | LoadTableR _ l | LoadTableX _ l => exists n, named es n l /\ entry lk n = Some t
  | _ => label_address es lk (inst_label i) t
  end.

(** Numbers the processor takes as signed numbers of [n] bytes. *)
Definition signed (n : Z) (v z : Z) : Prop :=
  -(2 ^ (8 * n - 1)) <= z < 2 ^ (8 * n - 1) /\ exists k, v = z + k * 2 ^ (8 * n).

(** Bytes of the operand: one if the jump is short. *)
Definition operand_bytes (i : label_inst) : Z := match i with JmpShort _ | JccShort _ _ => 1 | _ => 4 end.

Definition is_store_immediate (i : label_inst) : Prop := match i with StoreI _ _ => True | _ => False end.

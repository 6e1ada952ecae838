(** * A reader of relocatable ELF files

    Written from the ELF-64 object file format and the System V ABI for AMD64, not from the writer. Every
    number is read at the offset the format gives it, every table is found through the header, sections are
    told apart by the names, types and flags the format reserves for them, strings are read up to their NUL. *)
From Coq Require Import NArith ZArith.
From Verif.Base Require Import Base.
From Verif.Obj Require Import Model.
From Verif.Elf Require Model.
Local Open Scope string_scope.
Local Open Scope Z_scope.
Local Open Scope list_scope.

Definition opt_bind {A B} (o : option A) (k : A -> option B) : option B := match o with Some a => k a | None => None end.
Local Notation "'let?' x := a 'in' b" := (opt_bind a (fun x => b)) (at level 200, x name, a at level 100, b at level 200).
Definition check (b : bool) : option unit := if b then Some tt else None.
Local Notation "'check!' a 'in' b" := (opt_bind (check a) (fun _ => b)) (at level 200, a at level 100, b at level 200).
Fixpoint all {A B} (f : A -> option B) (l : list A) : option (list B) :=
  match l with
  | [] => Some []
  | a :: l => let? b := f a in let? bs := all f l in Some (b :: bs)
  end.
Fixpoint keep {A} (l : list (option A)) : list A :=
  match l with [] => [] | Some a :: l => a :: keep l | None :: l => keep l end.
Fixpoint first {A} (f : A -> bool) (l : list A) : option A :=
  match l with [] => None | a :: l => if f a then Some a else first f l end.

(** ** Numbers and strings *)

Definition len (f : list N) : Z := Z.of_nat (List.length f).

(** [n] bytes from an offset on. *)
Definition slice (f : list N) (at_ n : Z) : option (list N) :=
  if (0 <=? at_) && (0 <=? n) && (at_ + n <=? len f)
  then Some (firstn (Z.to_nat n) (skipn (Z.to_nat at_) f)) else None.

(** The lowest byte first. *)
Fixpoint number (l : list N) : Z := match l with [] => 0 | b :: l => Z.of_N b + 256 * number l end.
Definition get (n : Z) (f : list N) (at_ : Z) : option Z := option_map number (slice f at_ n).
Definition signed64 (z : Z) : Z := if z <? 2 ^ 63 then z else z - 2 ^ 64.

Fixpoint cstring (l : list N) : option string :=
  match l with
  | [] => None
  | b :: l => if N.eqb b 0 then Some EmptyString else option_map (String (ascii_of_N b)) (cstring l)
  end.
Definition get_string (t : list N) (at_ : Z) : option string :=
  if (0 <=? at_) && (at_ <? len t) then cstring (skipn (Z.to_nat at_) t) else None.

(** Places of the entries of a table. *)
Definition places (count width : Z) : list Z := map (fun i => Z.of_nat i * width) (seq 0 (Z.to_nat count)).

(** ** Sections *)

Record header := Header { h_name : string; h_type : Z; h_flags : Z; h_size : Z; h_link : Z; h_info : Z; h_align : Z; h_entsize : Z;
  h_bytes : list N }.

(** sh_name, sh_type, sh_flags, sh_addr, sh_offset, sh_size, sh_link, sh_info, sh_addralign, sh_entsize. A
    section of type 8, SHT_NOBITS, has no bytes in the file, and neither has section 0. *)
Definition read_header (f names : list N) (at_ : Z) : option header :=
  let? name := get 4 f at_ in
  let? name := get_string names name in
  let? type := get 4 f (at_ + 4) in
  let? flags := get 8 f (at_ + 8) in
  let? offset := get 8 f (at_ + 24) in
  let? n := get 8 f (at_ + 32) in
  let? link := get 4 f (at_ + 40) in
  let? info := get 4 f (at_ + 44) in
  let? align := get 8 f (at_ + 48) in
  let? entsize := get 8 f (at_ + 56) in
  let? bs := (if (type =? 8) || (type =? 0) then Some [] else slice f offset n) in
  Some (Header name type flags n link info align entsize bs).

(** The identification: 7f "ELF", ELFCLASS64, ELFDATA2LSB, EV_CURRENT. Then ET_REL, EM_X86_64, EV_CURRENT, the
    offset of the headers of sections, their size and number, and the section that holds their names. *)
Definition read_sections (f : list N) : option (list header) :=
  let? ident := slice f 0 7 in
  check! (if list_eq_dec N.eq_dec ident [127; 69; 76; 70; 2; 1; 1]%N then true else false) in
  let? type := get 2 f 16 in
  let? machine := get 2 f 18 in
  let? version := get 4 f 20 in
  let? shoff := get 8 f 40 in
  let? ehsize := get 2 f 52 in
  let? phnum := get 2 f 56 in
  let? shentsize := get 2 f 58 in
  let? shnum := get 2 f 60 in
  let? shstrndx := get 2 f 62 in
  check! (type =? 1) && (machine =? 62) && (version =? 1) && (ehsize =? 64) && (phnum =? 0) && (shentsize =? 64) &&
    (shoff mod 8 =? 0) && (shstrndx <? shnum) in
  let? offset := get 8 f (shoff + shstrndx * 64 + 24) in
  let? n := get 8 f (shoff + shstrndx * 64 + 32) in
  let? names := slice f offset n in
  all (fun i => read_header f names (shoff + i)) (places shnum 64).

(** The sections of programs: their names, types (SHT_PROGBITS, SHT_NOBITS) and flags (SHF_WRITE 1, SHF_ALLOC 2,
    SHF_EXECINSTR 4). *)
Definition kind_of (h : header) : option section :=
  if (h_name h =? ".text")%string && (h_type h =? 1) && (h_flags h =? 6) then Some (In_ Text)
  else if (h_name h =? ".data")%string && (h_type h =? 1) && (h_flags h =? 3) then Some (In_ Data)
  else if (h_name h =? ".rodata")%string && (h_type h =? 1) && (h_flags h =? 2) then Some (In_ Rodata)
  else if (h_name h =? ".bss")%string && (h_type h =? 8) && (h_flags h =? 3) then Some Bss
  else None.
Definition nth_header (hs : list header) (i : Z) : option header := if i <? 0 then None else nth_error hs (Z.to_nat i).
Definition kind_at (hs : list header) (i : Z) : option section := opt_bind (nth_header hs i) kind_of.
Definition of_kind (hs : list header) (s : section) : option header :=
  first (fun h => match kind_of h with Some s' => if section_dec s s' then true else false | None => false end) hs.

(** ** Symbols *)

Inductive meaning := MUndefined | MFile (n : string) | MSection (s : section) | MSymbol (n : string) (b : binding).

(** st_name, st_info (the binding and the type), st_shndx, st_value. STB_LOCAL is 0 and STB_GLOBAL is 1;
    STT_NOTYPE is 0, STT_SECTION is 3 and STT_FILE is 4; SHN_UNDEF is 0 and SHN_ABS is 65521. *)
Definition read_symbol (hs : list header) (t names : list N) (at_ : Z) : option (bool * meaning) :=
  let? name := get 4 t at_ in
  let? name := get_string names name in
  let? info := get 1 t (at_ + 4) in
  let? shndx := get 2 t (at_ + 6) in
  let? value := get 8 t (at_ + 8) in
  if info =? 0 then
    if (name =? "")%string && (shndx =? 0) && (value =? 0) && (at_ =? 0) then Some (true, MUndefined)
    else option_map (fun s => (true, MSymbol name (Local (Loc s value)))) (kind_at hs shndx)
  else if info =? 3 then option_map (fun s => (true, MSection s)) (kind_at hs shndx)
  else if info =? 4 then if shndx =? 65521 then Some (true, MFile name) else None
  else if info =? 16 then
    if shndx =? 0 then Some (false, MSymbol name (Global None))
    else option_map (fun s => (false, MSymbol name (Global (Some (Loc s value))))) (kind_at hs shndx)
  else None.

(** The symbol table is the section of type 2, SHT_SYMTAB. Its names are in the section sh_link, of type 3,
    SHT_STRTAB. Local symbols come before the others, which start at sh_info. *)
Definition read_symbols (hs : list header) : option (list meaning) :=
  let? h := first (fun h => h_type h =? 2) hs in
  check! (h_entsize h =? 24) && (h_size h mod 24 =? 0) in
  let? names := nth_header hs (h_link h) in
  check! (h_type names =? 3) in
  let? l := all (read_symbol hs (h_bytes h) (h_bytes names)) (places (h_size h / 24) 24) in
  let n := Z.to_nat (h_info h) in
  check! (0 <=? h_info h) && (Nat.leb n (List.length l)) && forallb fst (firstn n l) && forallb (fun x => negb (fst x)) (skipn n l) in
  Some (map snd l).

(** ** Relocations *)

(** Table 4.9 of the ABI: R_X86_64_64, R_X86_64_PC32, R_X86_64_GOTPCREL, R_X86_64_PC8. *)
Definition reloc_kind (n : Z) : option reloc_type :=
  if n =? 1 then Some Abs64 else if n =? 2 then Some PcRel32 else if n =? 9 then Some PcRelToAddressTable32
  else if n =? 15 then Some PcRel8 else None.

(** r_offset, r_info (the symbol and the type), r_addend. *)
Definition read_reloc (syms : list meaning) (s : section) (t : list N) (at_ : Z) : option reloc :=
  let? offset := get 8 t at_ in
  let? info := get 8 t (at_ + 8) in
  let? addend := get 8 t (at_ + 16) in
  let? ty := reloc_kind (info mod 2 ^ 32) in
  let? target := nth_error syms (Z.to_nat (info / 2 ^ 32)) in
  match target with
  | MSection s' => Some (Reloc (Loc s offset) (Section s') (signed64 addend) ty)
  | MSymbol n _ => Some (Reloc (Loc s offset) (Symbol n) (signed64 addend) ty)
  | _ => None
  end.

(** Sections of type 4, SHT_RELA: the symbol table is sh_link, the section they apply to is sh_info. *)
Definition read_relocs_of (hs : list header) (syms : list meaning) (h : header) : option (list reloc) :=
  if h_type h =? 4 then
    let? t := nth_header hs (h_link h) in
    check! (h_type t =? 2) && (h_entsize h =? 24) && (h_size h mod 24 =? 0) in
    let? s := kind_at hs (h_info h) in
    all (read_reloc syms s (h_bytes h)) (places (h_size h / 24) 24)
  else Some [].

(** ** Objects *)

Definition symbol_of (m : meaning) : option (string * binding) := match m with MSymbol n b => Some (n, b) | _ => None end.
Definition read_object (f : list N) : option object :=
  let? hs := read_sections f in
  let? text := of_kind hs Text in
  let? data := of_kind hs Data in
  let? rodata := of_kind hs Rodata in
  let? bss := of_kind hs Bss in
  let? syms := read_symbols hs in
  let? relocs := all (read_relocs_of hs syms) hs in
  Some (Object (Buffers (h_bytes text) (h_bytes data) (h_bytes rodata)) (h_size bss) (keep (map symbol_of syms)) (List.concat relocs)).

(** ** What is expected of it *)

(** The order of a file: local symbols first, relocations section by section. *)
Definition is_local (x : string * binding) : bool := match snd x with Local _ => true | Global _ => false end.
Definition is_in (c : content) (r : reloc) : bool := if section_dec (l_section (r_location r)) (In_ c) then true else false.
Definition in_order (o : object) : object :=
  Object (o_buffers o) (o_bss o) (filter is_local (o_symbols o) ++ filter (fun x => negb (is_local x)) (o_symbols o))
    (filter (is_in Text) (o_relocs o) ++ filter (is_in Data) (o_relocs o) ++ filter (is_in Rodata) (o_relocs o)).

(** Objects that can be written: the bytes are bytes, symbols have different names, relocations apply to sections
    with bytes and to known symbols, and names have no NUL. *)
Definition nul_free (s : string) : Prop := ~ In Ascii.zero (list_ascii_of_string s).
Definition writable (file : string) (o : object) : Prop :=
  NoDup (map fst (o_symbols o)) /\ nul_free file /\ Forall nul_free (map fst (o_symbols o)) /\
  (forall r, In r (o_relocs o) -> l_section (r_location r) <> Bss /\
    match r_target r with Symbol n => In n (map fst (o_symbols o)) | Section _ => True end).

(** Numbers that fit the fields of the format. *)
Definition name_bytes (s : string) : Z := Z.of_nat (String.length s) + 1.
Definition total (l : list Z) : Z := fold_right Z.add 0 l.
Definition fits_location (l : location) : Prop := 0 <= l_pos l < 2 ^ 64.
Definition fits (file : string) (o : object) : Prop :=
  (16 + name_bytes file + total (map (fun x => name_bytes (fst x)) (o_symbols o)) < 2 ^ 32) /\
  (Z.of_nat (List.length (o_symbols o)) + 6 < 2 ^ 32) /\
  0 <= o_bss o < 2 ^ 64 /\
  (forall n l, In (n, Local l) (o_symbols o) \/ In (n, Global (Some l)) (o_symbols o) -> fits_location l) /\
  (forall r, In r (o_relocs o) -> fits_location (r_location r) /\ - 2 ^ 63 <= r_addend r < 2 ^ 63) /\
  len (b_text (o_buffers o)) + len (b_data (o_buffers o)) + len (b_rodata (o_buffers o)) + 24 * Z.of_nat (List.length (o_relocs o)) < 2 ^ 63.

(** ** Sections as they were given to the writer *)

Import Elf.Model.
(** What is expected of a section. *)
Definition body_bytes (b : body) : list N := match b with Bytes l => l | Size _ => [] end.
Definition size_in_memory (b : body) : Z := match b with Bytes l => len l | Size n => n end.
Definition type_number (t : section_type) : Z :=
  match t with Null => 0 | Progbits => 1 | SymtabT => 2 | StrtabT => 3 | Rela => 4 | Nobits => 8 end.
Definition header_of (s : elf_section) : header :=
  Header (c_name s) (type_number (c_type s)) (c_flags s) (size_in_memory (c_body s)) (c_link s) (c_info s) (c_align s)
    (c_entsize s) (body_bytes (c_body s)).

Definition shaped (s : elf_section) : Prop :=
  match c_type s with Null => c_body s = Size 0 | Nobits => exists n, c_body s = Size n | _ => exists l, c_body s = Bytes l end.
Definition in_range (s : elf_section) : Prop :=
  0 <= c_flags s < 2 ^ 64 /\ 0 <= size_in_memory (c_body s) < 2 ^ 64 /\ 0 <= c_link s < 2 ^ 32 /\ 0 <= c_info s < 2 ^ 32 /\
  0 <= c_align s < 2 ^ 64 /\ 0 <= c_entsize s < 2 ^ 64.
Definition section_ok (s : elf_section) : Prop := nul_free (c_name s) /\ shaped s /\ in_range s.

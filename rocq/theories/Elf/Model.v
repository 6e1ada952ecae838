(** * xten0/src/elf/format.rs and elf/adapter.rs

    The writing of an object as a relocatable ELF file. Files are lists of bytes; the errors of the writer
    underneath are not modelled. Numbers are integers; the casts to narrower types are in [le_bytes], which takes
    the lowest bytes, and in the remainders below. *)
From Coq Require Import NArith ZArith.
From Verif.Base Require Import Base.
From Verif.Asm Require Model.
From Verif.Obj Require Import Model.
Import Asm.Model(le_bytes).
Local Open Scope Z_scope.
Local Open Scope string_scope.
Local Open Scope list_scope.

Definition size (l : list N) : Z := Z.of_nat (List.length l).

(** The bytes of a [&str]. *)
Fixpoint bytes (s : string) : list N :=
  match s with
  | EmptyString => []
  | String c s => N_of_ascii c :: bytes s
  end.

(** ** String tables *)

(** format.rs:19-23 [Strtab], without its name *)
Record strtab := Strtab { st_payload : list N; st_map : list (string * Z) }.

(** format.rs:26-34 [Strtab::new] *)
Definition new_strtab : strtab := Strtab [0%N] [("", 0)].

Fixpoint find_index (s : string) (l : list (string * Z)) : option Z :=
  match l with
  | [] => None
  | (m, x) :: l => if String.eqb s m then Some x else find_index s l
  end.

(** format.rs:36-46 [Strtab::get]; [CString::new] refuses a NUL *)
Definition strtab_get (s : string) (t : strtab) : outcome (strtab * Z) :=
  match find_index s (st_map t) with
  | Some i => Ret (t, i)
  | None =>
      let index := size (st_payload t) mod 2 ^ 32 in
      if existsb (N.eqb 0) (bytes s) then Panic
      else Ret (Strtab (st_payload t ++ bytes s ++ [0%N]) ((s, index) :: st_map t), index)
  end.

(** ** Symbol tables *)

(** format.rs:112 [Symbol::SIZE] *)
Definition symbol_size : Z := 24.

(** format.rs:153-174 [SymbolType] *)
Inductive symbol_type := NoType | ObjectT | Func | SectionT | File | Common | Tls.
Definition symbol_type_code (t : symbol_type) : Z :=
  match t with NoType => 0 | ObjectT => 1 | Func => 2 | SectionT => 3 | File => 4 | Common => 5 | Tls => 6 end.

(** format.rs:179-195 [SymbolVisibility] *)
Inductive visibility := Default | Internal | Hidden | Protected.
Definition visibility_code (v : visibility) : Z := match v with Default => 0 | Internal => 1 | Hidden => 2 | Protected => 3 end.

(** format.rs:102-109 [Symbol], :114-123 [Symbol::new], :125-135 [undef], [file], [section] *)
Record symbol := Symbol_ { y_name : string; y_type : symbol_type; y_vis : visibility; y_shndx : Z; y_value : Z; y_size : Z }.
Definition new_symbol (n : string) (shndx value : Z) : symbol := Symbol_ n NoType Default shndx value 0.
Definition undef_symbol (n : string) : symbol := new_symbol n 0 0.
Definition file_symbol (n : string) : symbol := Symbol_ n File Default 65521 0 0.
Definition section_symbol (shndx : Z) : symbol := Symbol_ "" SectionT Default shndx 0 0.

(** format.rs:59-64 [Symtab], without its name *)
Record symtab := Symtab { sy_strtab : strtab; sy_first_nonlocal : option Z; sy_payload : list N }.

(** format.rs:67-74 [Symtab::new] *)
Definition new_symtab (t : strtab) : symtab := Symtab t None (repeat 0%N (Z.to_nat symbol_size)).

(** format.rs:76-78 [next_index] *)
Definition next_index (t : symtab) : Z := (size (sy_payload t) / symbol_size) mod 2 ^ 32.

(** format.rs:80-91 [Symtab::add] *)
Definition symtab_add (s : symbol) (t : symtab) : outcome (symtab * Z) :=
  let index := next_index t in
  let* r := strtab_get (y_name s) (sy_strtab t) in
  let bind := match sy_first_nonlocal t with Some _ => 16 | None => 0 end in
  Ret (Symtab (fst r) (sy_first_nonlocal t)
    (sy_payload t ++ le_bytes 4 (snd r) ++ le_bytes 1 (bind + symbol_type_code (y_type s)) ++
     le_bytes 1 (visibility_code (y_vis s)) ++ le_bytes 2 (y_shndx s) ++ le_bytes 8 (y_value s) ++ le_bytes 8 (y_size s)), index).

(** format.rs:94-97 [begin_global] *)
Definition begin_global (t : symtab) : outcome symtab :=
  match sy_first_nonlocal t with
  | Some _ => Panic
  | None => Ret (Symtab (sy_strtab t) (Some (next_index t)) (sy_payload t))
  end.

(** ** Relocations *)

(** format.rs:249-287 [RelocationType], those that [From<RelocType>] at :289-298 gives *)
Definition relocation_code (t : reloc_type) : Z :=
  match t with PcRel8 => 15 | PcRel32 => 2 | PcRelToAddressTable32 => 9 | Abs64 => 1 end.

(** format.rs:199-204 [Rela]: the payload, and :216-222 [Rela::add] *)
Definition rela_add (offset sym ty addend : Z) (payload : list N) : list N :=
  payload ++ le_bytes 8 offset ++ le_bytes 8 (sym * 2 ^ 32 + ty) ++ le_bytes 8 addend.

(** ** Sections *)

(** format.rs:414-446 [SectionType], those used *)
Inductive section_type := Null | Progbits | SymtabT | StrtabT | Rela | Nobits.
Definition section_type_code (t : section_type) : Z :=
  match t with Null => 0 | Progbits => 1 | SymtabT => 2 | StrtabT => 3 | Rela => 4 | Nobits => 8 end.

(** format.rs:387-399 [SectionBody] *)
Inductive body := Bytes (l : list N) | Size (n : Z).
Definition body_size (in_elf : bool) (b : body) : Z :=
  match b with Bytes l => size l | Size n => if in_elf then 0 else n end.

(** format.rs:311-321 [Section]; the address is always zero *)
Record elf_section := Sec { c_name : string; c_type : section_type; c_flags : Z; c_link : Z; c_info : Z; c_align : Z;
  c_entsize : Z; c_body : body }.

(** format.rs:326-338 [Section::new], :356-378 [undef], [text], [data], [rodata], [bss] *)
Definition undef_section : elf_section := Sec "" Null 0 0 0 0 0 (Size 0).
Definition text_section (l : list N) : elf_section := Sec ".text" Progbits 6 0 0 16 0 (Bytes l).
Definition data_section (l : list N) : elf_section := Sec ".data" Progbits 3 0 0 16 0 (Bytes l).
Definition rodata_section (l : list N) : elf_section := Sec ".rodata" Progbits 2 0 0 16 0 (Bytes l).
Definition bss_section (n : Z) : elf_section := Sec ".bss" Nobits 3 0 0 16 0 (Size n).

(** format.rs:576: the section of a string table, :585-588: of a symbol table, :595-599: of relocations *)
Definition strtab_section (n : string) (t : strtab) : elf_section := Sec n StrtabT 0 0 0 1 0 (Bytes (st_payload t)).
Definition symtab_section (n : string) (link : Z) (t : symtab) : elf_section :=
  Sec n SymtabT 0 link (match sy_first_nonlocal t with Some i => i | None => next_index t end) 8 symbol_size (Bytes (sy_payload t)).
Definition rela_section (n : string) (symtab target : Z) (payload : list N) : elf_section :=
  Sec n Rela 64 symtab target 8 24 (Bytes payload).

(** ** Files *)

(** format.rs:567-571 [add_section]: the sections in order, and the index of the new one *)
Definition add_section (s : elf_section) (ss : list elf_section) : list elf_section * Z :=
  (ss ++ [s], Z.of_nat (List.length ss) mod 2 ^ 16).

(** format.rs:468-479 [add_shstrtab] *)
Fixpoint section_names (ss : list elf_section) (t : strtab) : outcome (strtab * list Z) :=
  match ss with
  | [] => Ret (t, [])
  | s :: ss =>
      let* r := strtab_get (c_name s) t in
      let* rest := section_names ss (fst r) in
      Ret (fst rest, snd r :: snd rest)
  end.
Definition add_shstrtab (ss : list elf_section) : outcome (list elf_section * Z * list Z) :=
  let* r := section_names ss new_strtab in
  let* last := strtab_get ".shstrtab" (fst r) in
  let (ss, i) := add_section (strtab_section ".shstrtab" (fst last)) ss in
  Ret (ss, i, snd r ++ [snd last]).

(** format.rs:457 [HEADER_SIZE] *)
Definition header_size : Z := 64.

(** format.rs:498-517, :552-559: the header of the file; the type is [ObjectType::Rel], the entry and the flags are zero *)
Definition file_header (shoff shnum shstrndx : Z) : list N :=
  [127; 69; 76; 70; 2; 1; 1; 0; 0; 0; 0; 0; 0; 0; 0; 0]%N ++ le_bytes 2 1 ++ le_bytes 2 62 ++ le_bytes 4 1 ++ le_bytes 8 0 ++
  le_bytes 8 0 ++ le_bytes 8 shoff ++ le_bytes 4 0 ++ le_bytes 2 header_size ++ le_bytes 2 0 ++ le_bytes 2 0 ++
  le_bytes 2 64 ++ le_bytes 2 shnum ++ le_bytes 2 shstrndx.

(** format.rs:522-530: the offsets of the sections, and their bytes *)
Fixpoint section_offsets (offset : Z) (ss : list elf_section) : list Z :=
  match ss with
  | [] => []
  | s :: ss => offset :: section_offsets (match c_body s with Bytes l => offset + size l | Size _ => offset end) ss
  end.
Definition section_bytes (ss : list elf_section) : list N :=
  flat_map (fun s => match c_body s with Bytes l => l | Size _ => [] end) ss.

(** format.rs:537-546: the header of a section *)
Definition section_header (s : elf_section) (offset name : Z) : list N :=
  le_bytes 4 name ++ le_bytes 4 (section_type_code (c_type s)) ++ le_bytes 8 (c_flags s) ++ le_bytes 8 0 ++ le_bytes 8 offset ++
  le_bytes 8 (body_size false (c_body s)) ++ le_bytes 4 (c_link s) ++ le_bytes 4 (c_info s) ++ le_bytes 8 (c_align s) ++
  le_bytes 8 (c_entsize s).
Fixpoint section_headers (ss : list elf_section) (offsets names : list Z) : list N :=
  match ss, offsets, names with
  | s :: ss, o :: offsets, n :: names => section_header s o n ++ section_headers ss offsets names
  | _, _, _ => []
  end.

(** format.rs:481-550 [write] *)
Definition write (ss : list elf_section) : outcome (list N) :=
  let* r := add_shstrtab ss in
  let '(ss, shstrndx, names) := r in
  let total := header_size + fold_right (fun s a => body_size true (c_body s) + a) 0 ss in
  let shalign := (8 - total mod 8) mod 8 in
  let shoff := total + shalign in
  Ret (file_header shoff (Z.of_nat (List.length ss)) shstrndx ++ section_bytes ss ++ repeat 0%N (Z.to_nat shalign) ++
    section_headers ss (section_offsets header_size ss) names).

(** ** elf/adapter.rs *)

(** A value for each section of an object. *)
Record by_section := BySection { of_text : Z; of_data : Z; of_rodata : Z; of_bss : Z }.

(** adapter.rs:25-30 [location_section_shndx], and the same choice of an index at :68-71 *)
Definition for_section (b : by_section) (s : section) : Z :=
  match s with In_ Text => of_text b | In_ Data => of_data b | In_ Rodata => of_rodata b | Bss => of_bss b end.

Section Symbols.
Variable shndx : by_section.

(** adapter.rs:43-48 *)
Fixpoint add_locals (syms : list (string * binding)) (t : symtab) (m : list (string * Z)) : outcome (symtab * list (string * Z)) :=
  match syms with
  | [] => Ret (t, m)
  | (n, Local l) :: syms =>
      let* r := symtab_add (new_symbol n (for_section shndx (l_section l)) (l_pos l)) t in
      add_locals syms (fst r) ((n, snd r) :: m)
  | _ :: syms => add_locals syms t m
  end.

(** adapter.rs:50-58 *)
Fixpoint add_globals (syms : list (string * binding)) (t : symtab) (m : list (string * Z)) : outcome (symtab * list (string * Z)) :=
  match syms with
  | [] => Ret (t, m)
  | (n, Global l) :: syms =>
      let* r := symtab_add
        match l with
        | Some l => new_symbol n (for_section shndx (l_section l)) (l_pos l)
        | None => undef_symbol n
        end t in
      add_globals syms (fst r) ((n, snd r) :: m)
  | _ :: syms => add_globals syms t m
  end.
End Symbols.

(** adapter.rs:65-80: the payloads of the three relocation sections *)
Record payloads := Payloads { in_text : list N; in_data : list N; in_rodata : list N }.
Section Relocations.
Variable m : list (string * Z).
Variable index : by_section.

Definition add_reloc (r : reloc) (p : payloads) : outcome payloads :=
  let* sym :=
    match r_target r with
    | Symbol n => match find_index n m with Some i => Ret i | None => Panic end
    | Section s => Ret (for_section index s)
    end in
  let add := rela_add (l_pos (r_location r)) sym (relocation_code (r_type r)) (r_addend r) in
  match l_section (r_location r) with
  | In_ Text => Ret (Payloads (add (in_text p)) (in_data p) (in_rodata p))
  | In_ Data => Ret (Payloads (in_text p) (add (in_data p)) (in_rodata p))
  | In_ Rodata => Ret (Payloads (in_text p) (in_data p) (add (in_rodata p)))
  | Bss => Panic
  end.
Fixpoint add_relocs (rs : list reloc) (p : payloads) : outcome payloads :=
  match rs with
  | [] => Ret p
  | r :: rs => let* p := add_reloc r p in add_relocs rs p
  end.
End Relocations.

(** adapter.rs:16-86 [into_relocatable_object] *)
Definition into_relocatable_object (file : string) (o : object) : outcome (list elf_section) :=
  let ss := [undef_section] in
  let (ss, text) := add_section (text_section (buffer Text (o_buffers o))) ss in
  let (ss, data) := add_section (data_section (buffer Data (o_buffers o))) ss in
  let (ss, rodata) := add_section (rodata_section (buffer Rodata (o_buffers o))) ss in
  let (ss, bss) := add_section (bss_section (o_bss o)) ss in
  let shndx := BySection text data rodata bss in
  let* r := symtab_add (file_symbol file) (new_symtab new_strtab) in
  let* r1 := symtab_add (section_symbol text) (fst r) in
  let* r2 := symtab_add (section_symbol data) (fst r1) in
  let* r3 := symtab_add (section_symbol rodata) (fst r2) in
  let* r4 := symtab_add (section_symbol bss) (fst r3) in
  let* r := add_locals shndx (o_symbols o) (fst r4) [] in
  let* t := begin_global (fst r) in
  let* r := add_globals shndx (o_symbols o) t (snd r) in
  let (ss, str) := add_section (strtab_section ".strtab" (sy_strtab (fst r))) ss in
  let (ss, sym) := add_section (symtab_section ".symtab" str (fst r)) ss in
  let* p := add_relocs (snd r) (BySection (snd r1) (snd r2) (snd r3) (snd r4)) (o_relocs o) (Payloads [] [] []) in
  let (ss, _) := add_section (rela_section ".rela.text" sym text (in_text p)) ss in
  let (ss, _) := add_section (rela_section ".rela.data" sym data (in_data p)) ss in
  let (ss, _) := add_section (rela_section ".rela.rodata" sym rodata (in_rodata p)) ss in
  Ret ss.

(** adapter.rs:8-13 [write_relocatable_object]: the bytes of the file, [file] being the last component of its path *)
Definition elf_file (file : string) (o : object) : outcome (list N) :=
  let* ss := into_relocatable_object file o in write ss.

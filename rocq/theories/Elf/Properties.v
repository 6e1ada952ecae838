(** * Properties of the ELF files written (C25) *)
From Coq Require Import NArith ZArith.
From Verif.Base Require Import Base.
From Verif.Obj Require Import Model.
From Verif.Obj Require Spec Proofs.
From Verif.Elf Require Import Model Spec ProofsWrite ProofsObject ProofsRefuse.
Local Open Scope Z_scope.

(** C25: whatever sections a file is written with, a reader finds them all, in order, with their names, types,
    flags, links, alignments and contents, and then the names of sections. *)
Theorem elf_sections_read : forall ss,
  Forall section_ok ss -> 1 + total (map (fun s => name_bytes (c_name s)) ss) + 10 < 2 ^ 32 ->
  Z.of_nat (List.length ss) < 2 ^ 16 - 1 -> len (section_bytes ss) < 2 ^ 64 - 2 ^ 33 ->
  exists f t, write ss = Ret f /\ read_sections f = Some (map header_of (ss ++ [strtab_section ".shstrtab" t])) /\
    len (st_payload t) < 2 ^ 32.
Proof. exact write_read_sections. Qed.
Print Assumptions elf_sections_read.

(** C25: a reader of the file of an object finds the object: the bytes of its sections, its symbols, local ones
    first, and its relocations, each with its place, its symbol, its type and its addend. *)
Theorem elf_object_read : forall file o, writable file o -> fits file o ->
  exists f, elf_file file o = Ret f /\ read_object f = Some (in_order o).
Proof. exact elf_file_read. Qed.
Print Assumptions elf_object_read.

(** C25: an object is refused exactly if a name has a NUL, or a relocation is in .bss or names an unknown symbol. *)
Theorem elf_refused_exactly : forall file o, NoDup (map fst (o_symbols o)) -> fits file o ->
  (elf_file file o = Panic <-> ~ writable file o).
Proof. exact refused. Qed.
Print Assumptions elf_refused_exactly.

(** C25: linking what is read from the file is linking the object. *)
Theorem elf_links_same : forall file o f, elf_file file o = Ret f -> NoDup (map fst (o_symbols o)) -> fits file o ->
  exists o', read_object f = Some o' /\ forall lk mem, Obj.Spec.linked lk o' mem <-> Obj.Spec.linked lk o mem.
Proof. exact file_links. Qed.
Print Assumptions elf_links_same.

(** C22, C25: labels written with the assembler, put in a file, read from it and linked at any addresses: every
    use of a label holds what it asks for. *)
Theorem written_then_linked : forall cs w es o file f, run new cs = Ret (w, es) -> produce w = Ret (Some o) ->
  Obj.Spec.well_placed w es -> fits file o -> elf_file file o = Ret f ->
  exists o', read_object f = Some o' /\ forall lk mem, Obj.Spec.linked lk o' mem ->
    forall u, In u (Obj.Spec.uses es) -> exists v, Obj.Spec.asked es lk u v /\
      Obj.Spec.holds mem (Obj.Spec.at_ lk (u_location u)) (Obj.Spec.width (u_type u)) v.
Proof. exact (fun cs w es o file f R => written_links w es o file f (Obj.Proofs.run_new cs w es R)). Qed.
Print Assumptions written_then_linked.

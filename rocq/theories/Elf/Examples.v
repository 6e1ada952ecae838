(** * Objects that meet the hypotheses of the theorems *)
From Coq Require Import NArith ZArith Lia.
From Verif.Base Require Import Base.
From Verif.Obj Require Import Model.
From Verif.Obj Require Examples Spec.
From Verif.Elf Require Import Model Spec Properties.
Local Open Scope string_scope.
Local Open Scope Z_scope.
Local Open Scope list_scope.

(** The object of [Obj.Examples]: a function that prints a message, with a buffer. *)
Definition hello : object := match Obj.Examples.produced with Some o => o | None => Object (Buffers [] [] []) 0 [] [] end.

Definition hello_symbols : list (string * binding) :=
  [("main", Global (Some (Loc Text 0))); ("puts", Global None); ("message", Local (Loc Rodata 0)); ("buffer", Global (Some (Loc Bss 16)))].
Example symbols_hello : o_symbols hello = hello_symbols.
Proof. vm_compute. reflexivity. Qed.
Definition hello_relocs : list reloc :=
  [Reloc (Loc Text 3) (Symbol "message") (-4) PcRel32; Reloc (Loc Text 9) (Symbol "puts") (-4) PcRelToAddressTable32;
   Reloc (Loc Data 0) (Symbol "buffer") 12 Abs64].
Example relocs_hello : o_relocs hello = hello_relocs.
Proof. vm_compute. reflexivity. Qed.

Example writable_hello : writable "hello.o" hello.
Proof.
  unfold writable. rewrite symbols_hello, relocs_hello. unfold nul_free. split; [|split; [|split]].
  - cbn. repeat constructor; cbn; intuition discriminate.
  - cbn. intuition discriminate.
  - repeat constructor; unfold nul_free; cbn; intuition discriminate.
  - intros r I. cbn in I. destruct I as [<- | [<- | [<- | []]]]; cbn; split; intuition discriminate.
Qed.

Example fits_hello : fits "hello.o" hello.
Proof.
  unfold fits. rewrite symbols_hello, relocs_hello. split; [vm_compute; reflexivity|]. split; [vm_compute; reflexivity|].
  split; [vm_compute; split; [discriminate | reflexivity]|]. split; [|split; [|vm_compute; reflexivity]].
  - intros n l I. unfold fits_location. cbn in I. intuition (try discriminate);
      repeat match goal with H : (_, _) = (_, _) |- _ => injection H as <- <- end; cbn; lia.
  - intros r I. unfold fits_location. cbn in I. destruct I as [<- | [<- | [<- | []]]]; cbn; lia.
Qed.

(** The file, and what is read from it: the local symbol has moved to the front. *)
Definition hello_file : list N := match elf_file "hello.o" hello with Ret f => f | _ => [] end.
Example written_hello : elf_file "hello.o" hello = Ret hello_file /\ len hello_file = 1248.
Proof. vm_compute. split; reflexivity. Qed.
Example read_hello : option_map (fun o => (o_symbols o, o_relocs o, o_bss o)) (read_object hello_file) =
  Some ([("message", Local (Loc Rodata 0)); ("main", Global (Some (Loc Text 0))); ("puts", Global None); ("buffer", Global (Some (Loc Bss 16)))],
    hello_relocs, 80).
Proof. vm_compute. reflexivity. Qed.

(** A file that is cut short is not read. *)
Example cut_hello : read_object (firstn 1247 hello_file) = None.
Proof. vm_compute. reflexivity. Qed.

(** Refused: a relocation in .bss. *)
Definition in_bss : object := Object (Buffers [] [] []) 8 [("x", Global None)] [Reloc (Loc Bss 0) (Symbol "x") 0 Abs64].
Example refused_bss : elf_file "x.o" in_bss = Panic /\ ~ writable "x.o" in_bss.
Proof.
  split; [vm_compute; reflexivity|]. intros (_ & _ & _ & H). destruct (H _ (or_introl eq_refl)) as [Nb _]. now apply Nb.
Qed.
Example fits_bss : fits "x.o" in_bss /\ NoDup (map fst (o_symbols in_bss)).
Proof.
  split; [|cbn; repeat constructor; cbn; tauto]. unfold fits. split; [vm_compute; reflexivity|]. split; [vm_compute; reflexivity|].
  split; [vm_compute; split; [discriminate | reflexivity]|]. split; [|split; [|vm_compute; reflexivity]].
  - intros n l I. cbn in I. intuition discriminate.
  - intros r I. unfold fits_location. cbn in I. destruct I as [<- | []]; cbn; lia.
Qed.

(** Sections of any kind. *)
Example sections_ok : Forall section_ok [undef_section; Sec "notes" Progbits 0 0 0 4 0 (Bytes [1; 2; 3]%N); Sec "space" Nobits 3 0 0 32 0 (Size 4096)].
Proof.
  repeat constructor; unfold nul_free, in_range; cbn; intuition (try discriminate; try lia). now exists [1; 2; 3]%N. now exists 4096.
Qed.

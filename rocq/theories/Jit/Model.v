(** * xten0/src/jit.rs and jit/

    The execution engine: segments of mapped memory, and the loading and linking of objects.

    Addresses and sizes are integers without the bounds of [usize]. The operating system is a parameter
    [os]: given the mappings that exist and a number of pages, it answers [mmap] with an address, or with
    [None] for an error; [mprotect] succeeds. The resolver of symbols is a function [resolver] that answers
    0 for a null pointer. *)
From Coq Require Import NArith ZArith.
From Verif.Base Require Import Base.
From Verif.Asm Require Model.
From Verif.Obj Require Import Model.
Import Asm.Model(le_bytes).
Local Open Scope Z_scope.

(** ** jit/mmap.rs *)

(** mmap.rs:103-109 [Protect] *)
Inductive protect := NoAccess | ReadOnly | ReadWrite | ReadExec.
Definition protect_dec (a b : protect) : {a = b} + {a <> b}.
Proof. decide equality. Defined.

(** mmap.rs:9-13 [Mmap], :48-50 [size], :70 [PAGE_SIZE] *)
Record mmap := Mmap { m_ptr : Z; m_pages : Z; m_protect : protect }.
Definition page_size : Z := 4096.
Definition m_size (m : mmap) : Z := m_pages m * page_size.

(** mmap.rs:57-68 [set_protect] *)
Definition set_protect (p : protect) (m : mmap) : mmap := Mmap (m_ptr m) (m_pages m) p.

(** ** jit/segment.rs *)

(** segment.rs:7-12 [Segment]; the last chunk is first here. *)
Record segment := Segment { s_protect : protect; s_chunks : list mmap; s_offset : Z }.

(** segment.rs:15-22 [Segment::new] *)
Definition new_segment (p : protect) : segment := Segment p [] 0.

(** segment.rs:28-34 [last_mmap_capacity] *)
Definition last_mmap_capacity (s : segment) : Z :=
  match s_chunks s with m :: _ => m_size m - s_offset s | [] => 0 end.

(** segment.rs:51-57 [SegmentPart]: an area of the last chunk, if there is one. *)
Record part := Part { p_mmap : option mmap; p_offset : Z; p_size : Z }.

(** segment.rs:79-84 [as_ptr] *)
Definition as_ptr (p : part) : Z := match p_mmap p with Some m => m_ptr m + p_offset p | None => 0 end.

Definition last_chunk (s : segment) : option mmap := match s_chunks s with m :: _ => Some m | [] => None end.

Section OS.
Variable os : list mmap -> Z -> option Z.

(** segment.rs:38-48 [allocate], mmap.rs:17-38 [Mmap::new]; [None] is the error. [ms] are the mappings that exist. *)
Definition allocate (ms : list mmap) (size : Z) (s : segment) : option (segment * part) :=
  let mapped :=
    if last_mmap_capacity s <? size then
      let pages := (size + page_size - 1) / page_size in
      match os ms pages with
      | Some ptr => Some (Segment (s_protect s) (Mmap ptr pages (s_protect s) :: s_chunks s) 0)
      | None => None
      end
    else Some s in
  match mapped with
  | Some s => Some (Segment (s_protect s) (s_chunks s) (s_offset s + size), Part (last_chunk s) (s_offset s) size)
  | None => None
  end.

(** segment.rs:70-75 [set_protect_temporarily], :91-97 [drop]: they act on the chunk of the part, the last one. *)
Definition protect_last (p : protect) (s : segment) : segment :=
  match s_chunks s with
  | m :: ms => Segment (s_protect s) (set_protect p m :: ms) (s_offset s)
  | [] => s
  end.
Definition relax (s : segment) : segment := protect_last ReadWrite s.
Definition restore (s : segment) : segment := protect_last (s_protect s) s.

(** ** jit.rs *)

(** jit/error.rs:4-16 [Error] *)
Inductive error := EMmap | EDuplicateSymbol (n : string) | EUndefinedSymbol (n : string) | EOffsetOutOfRange
  | EUnsupportedSectionRelocation.

(** jit.rs:23-29 [Engine] with jit/symbol_table.rs:5-8 and jit/address_table.rs:6-9, and the memory of the process. *)
Record engine := Engine { e_symbols : list (string * Z); e_entries : list (string * Z); e_table : segment; e_ro : segment;
  e_rw : segment; e_rx : segment; e_mem : Z -> N }.

Definition mappings (e : engine) : list mmap :=
  s_chunks (e_table e) ++ s_chunks (e_ro e) ++ s_chunks (e_rw e) ++ s_chunks (e_rx e).

(** jit.rs:33-41 [Engine::new] *)
Definition new_engine (mem : Z -> N) : engine :=
  Engine [] [] (new_segment ReadOnly) (new_segment ReadOnly) (new_segment ReadWrite) (new_segment ReadExec) mem.

Fixpoint find_name (n : string) (l : list (string * Z)) : option Z :=
  match l with
  | [] => None
  | (m, x) :: l => if String.eqb n m then Some x else find_name n l
  end.

(** Writing to memory: a fault unless one mapping that can be written contains the bytes. *)
Definition contains (m : mmap) (a n : Z) : bool := (m_ptr m <=? a) && (a + n <=? m_ptr m + m_size m).
Definition writable (ms : list mmap) (a n : Z) : bool :=
  existsb (fun m => (if protect_dec (m_protect m) ReadWrite then true else false) && contains m a n) ms.
Definition write_mem (mem : Z -> N) (a : Z) (bs : list N) : Z -> N :=
  fun x => if (a <=? x) && (x <? a + Z.of_nat (List.length bs)) then nth (Z.to_nat (x - a)) bs 0%N else mem x.
Definition store (e : engine) (a : Z) (bs : list N) : outcome engine :=
  if writable (mappings e) a (Z.of_nat (List.length bs)) then
    Ret (Engine (e_symbols e) (e_entries e) (e_table e) (e_ro e) (e_rw e) (e_rx e) (write_mem (e_mem e) a bs))
  else Panic.

Definition with_symbols (l : list (string * Z)) (e : engine) : engine :=
  Engine l (e_entries e) (e_table e) (e_ro e) (e_rw e) (e_rx e) (e_mem e).
Definition with_entries (l : list (string * Z)) (e : engine) : engine :=
  Engine (e_symbols e) l (e_table e) (e_ro e) (e_rw e) (e_rx e) (e_mem e).
Definition with_table (s : segment) (e : engine) : engine :=
  Engine (e_symbols e) (e_entries e) s (e_ro e) (e_rw e) (e_rx e) (e_mem e).
Definition with_ro (s : segment) (e : engine) : engine :=
  Engine (e_symbols e) (e_entries e) (e_table e) s (e_rw e) (e_rx e) (e_mem e).
Definition with_rw (s : segment) (e : engine) : engine :=
  Engine (e_symbols e) (e_entries e) (e_table e) (e_ro e) s (e_rx e) (e_mem e).
Definition with_rx (s : segment) (e : engine) : engine :=
  Engine (e_symbols e) (e_entries e) (e_table e) (e_ro e) (e_rw e) s (e_mem e).

Variable resolver : string -> Z.

(** The outcome of a fallible operation: the engine, and the error if there is one. *)
Definition result (A : Type) : Type := outcome (engine * (A + error)).
Definition ok {A} (e : engine) (a : A) : result A := Ret (e, inl a).
Definition fail {A} (e : engine) (x : error) : result A := Ret (e, inr x).
Definition and_then {A B} (r : result A) (f : engine -> A -> result B) : result B :=
  let* x := r in match snd x with inl a => f (fst x) a | inr err => fail (fst x) err end.

(** jit/symbol_table.rs:18-39 [bind] *)
Definition bind_symbol (n : string) (ptr : option Z) (e : engine) : result unit :=
  match find_name n (e_symbols e), ptr with
  | None, Some p => ok (with_symbols ((n, p) :: e_symbols e) e) tt
  | None, None =>
      let p := resolver n in
      if p =? 0 then fail e (EUndefinedSymbol n) else ok (with_symbols ((n, p) :: e_symbols e) e) tt
  | Some _, Some _ => fail e (EDuplicateSymbol n)
  | Some _, None => ok e tt
  end.

(** jit.rs:44-46 [register], :49-51 [get] *)
Definition register (n : string) (p : Z) (e : engine) : result unit := bind_symbol n (Some p) e.
Definition get (n : string) (e : engine) : option Z := find_name n (e_symbols e).

(** jit/table.rs:23-30 [put], of an address. *)
Definition put (p : Z) (e : engine) : result Z :=
  match allocate (mappings e) 8 (e_table e) with
  | None => fail e EMmap
  | Some (s, part) =>
      let e := with_table (relax s) e in
      let* e := store e (as_ptr part) (le_bytes 8 p) in
      ok (with_table (restore (e_table e)) e) (as_ptr part)
  end.

(** jit/address_table.rs:19-31 [prepare]; [None] when the symbol is not known. *)
Definition prepare (n : string) (e : engine) : result (option Z) :=
  match find_name n (e_entries e) with
  | Some g => ok e (Some g)
  | None =>
      match find_name n (e_symbols e) with
      | Some p => and_then (put p e) (fun e g => ok (with_entries ((n, g) :: e_entries e) e) (Some g))
      | None => ok e None
      end
  end.

(** jit.rs:112-117 [Locator], :130-137 [locate] *)
Record locator := Locator { at_text : Z; at_data : Z; at_rodata : Z; at_bss : Z }.
Definition base (k : locator) (s : section) : Z :=
  match s with In_ Text => at_text k | In_ Data => at_data k | In_ Rodata => at_rodata k | Bss => at_bss k end.
Definition locate (k : locator) (l : location) : Z := base k (l_section l) + l_pos l.

(** jit.rs:162-175 [Linker::bind]; the local symbols are [ls]. *)
Definition bind (k : locator) (n : string) (b : binding) (ls : list (string * Z)) (e : engine) : result (list (string * Z)) :=
  match b with
  | Local loc =>
      match find_name n ls with
      | None => ok e ((n, locate k loc) :: ls)
      | Some _ => fail e (EDuplicateSymbol n)
      end
  | Global loc => and_then (bind_symbol n (option_map (locate k) loc) e) (fun e _ => ok e ls)
  end.

Fixpoint bind_all (k : locator) (syms : list (string * binding)) (ls : list (string * Z)) (e : engine) : result (list (string * Z)) :=
  match syms with
  | [] => ok e ls
  | (n, b) :: syms => and_then (bind k n b ls e) (fun e ls => bind_all k syms ls e)
  end.

(** jit.rs:223-233 [reloc_target_direct] *)
Definition target_direct (k : locator) (ls : list (string * Z)) (r : reloc) (e : engine) : result Z :=
  match r_target r with
  | Symbol n =>
      match find_name n ls with
      | Some p => ok e p
      | None => match find_name n (e_symbols e) with Some p => ok e p | None => fail e (EUndefinedSymbol n) end
      end
  | Section s => ok e (locate k (Loc s 0))
  end.

(** jit.rs:235-246 [reloc_target_address_table_entry] *)
Definition target_entry (r : reloc) (e : engine) : result Z :=
  match r_target r with
  | Symbol n =>
      and_then (prepare n e) (fun e g => match g with Some g => ok e g | None => fail e (EUndefinedSymbol n) end)
  | Section s => fail e EUnsupportedSectionRelocation
  end.

(** jit.rs:177-221 [relocate] *)
Definition relocate (k : locator) (ls : list (string * Z)) (r : reloc) (e : engine) : result unit :=
  let dest := locate k (r_location r) in
  match r_type r with
  | PcRel8 =>
      and_then (target_direct k ls r e) (fun e src =>
        let value := src + r_addend r - dest in
        if (value <? -128) && (127 <? value) then fail e EOffsetOutOfRange
        else let* e := store e dest (le_bytes 1 value) in ok e tt)
  | PcRel32 =>
      and_then (target_direct k ls r e) (fun e src =>
        let value := src + r_addend r - dest in
        if (value <? -2147483648) && (2147483647 <? value) then fail e EOffsetOutOfRange
        else let* e := store e dest (le_bytes 4 value) in ok e tt)
  | PcRelToAddressTable32 =>
      and_then (target_entry r e) (fun e src =>
        let value := src + r_addend r - dest in
        if (value <? -2147483648) && (2147483647 <? value) then fail e EOffsetOutOfRange
        else let* e := store e dest (le_bytes 4 value) in ok e tt)
  | Abs64 =>
      and_then (target_direct k ls r e) (fun e src =>
        let value := src + r_addend r in
        let* e := store e dest (le_bytes 8 value) in ok e tt)
  end.

Fixpoint relocate_all (k : locator) (ls : list (string * Z)) (rs : list reloc) (e : engine) : result unit :=
  match rs with
  | [] => ok e tt
  | r :: rs => and_then (relocate k ls r e) (fun e _ => relocate_all k ls rs e)
  end.

(** jit.rs:55-57 [align] *)
Definition align16 (n : Z) : Z := ((n + 15) / 16) * 16.

Definition len (l : list N) : Z := Z.of_nat (List.length l).

(** jit.rs:79-90: copying, unless there is nothing to copy *)
Definition copy (bs : list N) (a : Z) (e : engine) : outcome engine :=
  match bs with [] => Ret e | _ => store e a bs end.

(** jit.rs:73-90: the loading of the sections *)
Definition load (k : locator) (o : object) (e : engine) : outcome engine :=
  let* e := copy (buffer Text (o_buffers o)) (at_text k) e in
  let* e := copy (buffer Data (o_buffers o)) (at_data k) e in
  let* e := copy (repeat 0%N (Z.to_nat (o_bss o))) (at_bss k) e in
  copy (buffer Rodata (o_buffers o)) (at_rodata k) e.

(** jit.rs:92-105: linking *)
Definition link (k : locator) (o : object) (e : engine) : result unit :=
  and_then (bind_all k (o_symbols o) [] e) (fun e ls => relocate_all k ls (o_relocs o) e).

(** jit.rs:107-110, and the end of the function on an error: the parts are dropped. Nothing happens to a segment
    whose part was not made: its protections are the segment's. *)
Definition drop_parts (e : engine) : engine :=
  with_rx (restore (e_rx e)) (with_rw (restore (e_rw e)) (with_ro (restore (e_ro e)) e)).

(** jit.rs:54-113 [add_object] *)
Definition add_object (o : object) (e : engine) : result unit :=
  let text_size := align16 (len (buffer Text (o_buffers o))) in
  let data_size := align16 (len (buffer Data (o_buffers o))) in
  let bss_size := align16 (o_bss o) in
  let rodata_size := align16 (len (buffer Rodata (o_buffers o))) in
  match allocate (mappings e) text_size (e_rx e) with
  | None => fail e EMmap
  | Some (rx, text) =>
      let e := with_rx rx e in
      match allocate (mappings e) (data_size + bss_size) (e_rw e) with
      | None => fail (drop_parts e) EMmap
      | Some (rw, data) =>
          let e := with_rw rw e in
          match allocate (mappings e) rodata_size (e_ro e) with
          | None => fail (drop_parts e) EMmap
          | Some (ro, rodata) =>
              let e := with_ro ro e in
              let e := with_ro (relax (e_ro e)) (with_rx (relax (e_rx e)) e) in
              let k := Locator (as_ptr text) (as_ptr data) (as_ptr rodata) (as_ptr data + data_size) in
              let* e := load k o e in
              let* x := link k o e in
              Ret (drop_parts (fst x), snd x)
          end
      end
  end.

(** A call to the engine. *)
Inductive jit_call := Register (n : string) (p : Z) | AddObject (o : object).
Definition jit_step (c : jit_call) (e : engine) : result unit :=
  match c with Register n p => register n p e | AddObject o => add_object o e end.

End OS.

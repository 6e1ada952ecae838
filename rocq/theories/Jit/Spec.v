(** * What is asked of segments and of loading *)
From Coq Require Import NArith ZArith.
From Verif.Base Require Import Base.
From Verif.Obj Require Import Model Spec.
From Verif.Jit Require Import Model.
Local Open Scope Z_scope.

(** The operating system gives whole pages that nobody has. *)
Definition within (m : mmap) (x : Z) : Prop := m_ptr m <= x < m_ptr m + m_size m.
Definition honest (os : list mmap -> Z -> option Z) : Prop :=
  forall ms n p, 0 < n -> os ms n = Some p -> 0 < p /\ p mod page_size = 0 /\
    forall m, In m ms -> p + n * page_size <= m_ptr m \/ m_ptr m + m_size m <= p.

(** ** Segments *)

(** A sequence of requests to one segment, others owning [ms]; a request that fails changes nothing. *)
Fixpoint requests (os : list mmap -> Z -> option Z) (ms : list mmap) (sizes : list Z) (s : segment) : segment * list part :=
  match sizes with
  | [] => (s, [])
  | n :: sizes =>
      match allocate os (s_chunks s ++ ms) n s with
      | Some (s, p) => let (s, ps) := requests os ms sizes s in (s, p :: ps)
      | None => requests os ms sizes s
      end
  end.

Definition in_part (p : part) (x : Z) : Prop := as_ptr p <= x < as_ptr p + p_size p.
Definition parts_apart (p q : part) : Prop := forall x, in_part p x -> ~ in_part q x.
Definition part_inside (s : segment) (p : part) : Prop :=
  p_size p = 0 \/ exists m, In m (s_chunks s) /\ m_protect m = s_protect s /\ m_ptr m <= as_ptr p /\ as_ptr p + p_size p <= m_ptr m + m_size m.

(** A part is apart from what others own. *)
Definition foreign (ms : list mmap) (p : part) : Prop := forall m x, In m ms -> in_part p x -> ~ within m x.

(** ** The engine *)

(** An object whose names are different and whose relocations lie inside its sections. *)
Definition size_of (o : object) (s : section) : Z := match s with In_ c => len (buffer c (o_buffers o)) | Bss => o_bss o end.
Definition sound (o : object) : Prop :=
  0 <= o_bss o /\ NoDup (map fst (o_symbols o)) /\ forall r, In r (o_relocs o) ->
    0 <= l_pos (r_location r) /\ l_pos (r_location r) + width (r_type r) <= size_of o (l_section (r_location r)).

(** Engines as they are used: any history of calls, with sound objects. *)
Definition sound_call (c : jit_call) : Prop := match c with Register _ _ => True | AddObject o => sound o end.
Inductive later (os : list mmap -> Z -> option Z) (resolver : string -> Z) (e : engine) : engine -> Prop :=
| later_now : later os resolver e e
| later_step e1 c e2 r : later os resolver e e1 -> sound_call c -> jit_step os resolver c e1 = Ret (e2, r) ->
    later os resolver e e2.
Definition reachable (os : list mmap -> Z -> option Z) (resolver : string -> Z) (mem : Z -> N) (e : engine) : Prop :=
  later os resolver (new_engine mem) e.

(** The memory handed out by a segment: its older mappings, and the last one up to the offset. *)
Definition used_seg (s : segment) (x : Z) : Prop :=
  match s_chunks s with
  | [] => False
  | m :: ms => m_ptr m <= x < m_ptr m + s_offset s \/ exists m', In m' ms /\ within m' x
  end.
Definition used (e : engine) (x : Z) : Prop :=
  used_seg (e_table e) x \/ used_seg (e_ro e) x \/ used_seg (e_rw e) x \/ used_seg (e_rx e) x.
Definition mapped (e : engine) (x : Z) : Prop := exists m, In m (mappings e) /\ within m x.

(** The protections the engine promises between calls. *)
Definition protected (e : engine) : Prop :=
  (forall m, In m (s_chunks (e_table e)) -> m_protect m = ReadOnly) /\ (forall m, In m (s_chunks (e_ro e)) -> m_protect m = ReadOnly) /\
  (forall m, In m (s_chunks (e_rw e)) -> m_protect m = ReadWrite) /\ (forall m, In m (s_chunks (e_rx e)) -> m_protect m = ReadExec).

(** Where a section must be. *)
Definition segment_of (s : section) (e : engine) : segment :=
  match s with In_ Text => e_rx e | In_ Data => e_rw e | In_ Rodata => e_ro e | Bss => e_rw e end.

(** Fields of relocations do not overlap. *)
Definition relocs_apart (r q : reloc) : Prop :=
  l_section (r_location r) <> l_section (r_location q) \/
  l_pos (r_location r) + width (r_type r) <= l_pos (r_location q) \/
  l_pos (r_location q) + width (r_type q) <= l_pos (r_location r).

(** The symbols after an object was added: those before, those it defines, and those it asks for. *)
Definition symbols_after (resolver : string -> Z) (lk : linking) (o : object) (before after : engine) : Prop :=
  (forall n a, get n before = Some a -> get n after = Some a) /\
  (forall n l, In (n, Global (Some l)) (o_symbols o) -> get n before = None /\ get n after = Some (at_ lk l)) /\
  (forall n, In (n, Global None) (o_symbols o) -> exists a, get n after = Some a /\
    (get n before = Some a \/ get n before = None /\ a = resolver n /\ a <> 0)) /\
  (forall n a, get n after = Some a -> get n before = Some a \/ exists l, In (n, Global l) (o_symbols o)).

(** An object is loaded: linked with the symbols of the engine, in memory of its own, each section in a segment of
    the right kind, and .bss cleared. *)
Record loaded_at (lk : linking) (o : object) (before after : engine) : Prop := {
  la_linked : linked lk o (e_mem after);
  la_local : forall n, (exists l, In (n, Local l) (o_symbols o)) \/ address lk n = get n after;
  la_entry : forall n g, entry lk n = Some g -> exists a, get n after = Some a /\ holds (e_mem after) g 8 a /\
    g mod 8 = 0 /\ forall x, g <= x < g + 8 -> used_seg (e_table after) x;
  la_place : forall s x, place lk s <= x < place lk s + size_of o s ->
    ~ used before x /\ used_seg (segment_of s after) x;
  la_align : forall s, place lk s mod 16 = 0;
  la_bss : forall i, 0 <= i < o_bss o ->
    (forall r, In r (o_relocs o) -> l_section (r_location r) = Bss -> ~ l_pos (r_location r) <= i < l_pos (r_location r) + width (r_type r)) ->
    e_mem after (place lk Bss + i) = 0%N }.

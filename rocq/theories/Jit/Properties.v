(** * Properties of the execution engine (C23, C24) *)
From Coq Require Import NArith ZArith.
From Verif.Base Require Import Base.
From Verif.Obj Require Import Model Spec Proofs.
From Verif.Jit Require Import Model Spec Proofs ProofsEngine ProofsLoad ProofsAdd ProofsTotal ProofsFail.
Local Open Scope Z_scope.
Local Open Scope string_scope.

(** C23: what a segment hands out, whatever is asked of it and however the operating system answers, is inside a
    mapping of the segment with its protection, apart from every other area handed out and from every mapping of
    others, of the size asked for, and aligned if the sizes are. *)
Theorem segment_allocations : forall os ms sizes p, honest os -> Forall (fun n => 0 <= n) sizes ->
  let (s, ps) := requests os ms sizes (new_segment p) in
  s_protect s = p /\ Forall (part_inside s) ps /\ ForallOrdPairs parts_apart ps /\ Forall (foreign ms) ps /\
  (forall q, In q ps -> In (p_size q) sizes) /\
  (forall a, 0 < a -> (a | 16) -> Forall (fun n => (a | n)) sizes -> Forall (fun q => (a | as_ptr q)) ps) /\
  ((forall ms n, os ms n <> None) -> map p_size ps = sizes).
Proof. exact requests_new. Qed.
Print Assumptions segment_allocations.

(** C23: the engine, after any calls: its mappings have the protection of their segments, and its segments share
    no memory. *)
Theorem engine_segments_apart : forall os resolver mem e, honest os -> reachable os resolver mem e -> protected e /\
  forall x, (used_seg (e_table e) x -> ~ used_seg (e_ro e) x /\ ~ used_seg (e_rw e) x /\ ~ used_seg (e_rx e) x) /\
    (used_seg (e_ro e) x -> ~ used_seg (e_rw e) x /\ ~ used_seg (e_rx e) x) /\ (used_seg (e_rw e) x -> ~ used_seg (e_rx e) x).
Proof.
  exact (fun os resolver mem e H R => let I := reachable_inv os H resolver mem e R in
    conj (inv_protected e I) (fun x => segs_apart e x (proj1 I))).
Qed.
Print Assumptions engine_segments_apart.

(** C24: adding an object never writes where it may not: it succeeds or fails with an error, keeps every byte
    handed out before and every byte outside the mappings, and every symbol. *)
Theorem add_object_keeps : forall os resolver mem e o, honest os -> reachable os resolver mem e -> sound o ->
  exists e' r, add_object os resolver o e = Ret (e', r) /\ protected e' /\
    (forall x, used e x -> used e' x /\ e_mem e' x = e_mem e x) /\ (forall x, ~ mapped e' x -> e_mem e' x = e_mem e x) /\
    (forall n a, get n e = Some a -> get n e' = Some a) /\
    (forall n a, get n e' = Some a -> get n e = Some a \/ exists l, In (n, Global l) (o_symbols o)).
Proof. exact (fun os resolver mem e o H => added_keeps os resolver H mem e o). Qed.
Print Assumptions add_object_keeps.

(** C24: an object that was added is loaded and linked: its bytes are in memory of its own, each section in a
    segment of the right kind, and every relocated field holds the value of its relocation. *)
Theorem add_object_loads_partial : forall os resolver mem e o e', honest os -> reachable os resolver mem e -> sound o ->
  ForallOrdPairs relocs_apart (o_relocs o) -> add_object os resolver o e = Ret (e', inl tt) ->
  exists lk, loaded_at lk o e e' /\ symbols_after resolver lk o e e'.
Proof. exact (fun os resolver mem e o e' H => added_loaded os resolver H mem e o e'). Qed.
Print Assumptions add_object_loads_partial.

(** C24: and it stays so, whatever calls follow. *)
Theorem loaded_object_stays : forall os resolver mem e o e' e2 lk, honest os -> reachable os resolver mem e -> sound o ->
  add_object os resolver o e = Ret (e', inl tt) -> loaded_at lk o e e' -> later os resolver e' e2 ->
  linked lk o (e_mem e2) /\ (forall n g, entry lk n = Some g -> exists a, get n e2 = Some a /\ holds (e_mem e2) g 8 a) /\
  forall s x, place lk s <= x < place lk s + size_of o s -> used e2 x.
Proof.
  exact (fun os resolver mem e o e' e2 lk H R So A L La =>
    loaded_later os resolver H lk o e e' e2 (proj1 (step_keeps os resolver H (AddObject o) e e' (inl tt) (reachable_inv os H resolver mem e R) So A)) So L La).
Qed.
Print Assumptions loaded_object_stays.

(** C22 and C24 together: what was written with labels, and added, has at every later time the value asked for
    in the field of every use. *)
Theorem written_then_added : forall os resolver mem e o e' cs w es, honest os ->
  run new cs = Ret (w, es) -> produce w = Ret (Some o) -> well_placed w es -> 0 <= o_bss o ->
  reachable os resolver mem e -> add_object os resolver o e = Ret (e', inl tt) ->
  exists lk, loaded_at lk o e e' /\ forall e2, later os resolver e' e2 -> forall u, In u (uses es) ->
    exists v, asked es lk u v /\ holds (e_mem e2) (at_ lk (u_location u)) (width (u_type u)) v.
Proof. exact (fun os resolver mem e o e' cs w es H R => written_runs os resolver H mem e o e' w es (run_new cs w es R)). Qed.
Print Assumptions written_then_added.

(** C24, where it fails: an offset that does not fit its field is not rejected. *)
Theorem offset_rejected_refuted : exists os resolver mem e o e' lk r v, honest os /\ reachable os resolver mem e /\ sound o /\
  ForallOrdPairs relocs_apart (o_relocs o) /\ add_object os resolver o e = Ret (e', inl tt) /\ loaded_at lk o e e' /\
  In r (o_relocs o) /\ reloc_value lk r = Some v /\ ~ in_reach (r_type r) v.
Proof. exact offset_ignored. Qed.
Print Assumptions offset_rejected_refuted.

(** C24, where it fails: the table of addresses has the global symbol of that name, not the local one. *)
Theorem local_entry_refuted : exists os resolver mem e o e' lk r n l g a, honest os /\ reachable os resolver mem e /\ sound o /\
  add_object os resolver o e = Ret (e', inl tt) /\ loaded_at lk o e e' /\ In r (o_relocs o) /\
  r_type r = PcRelToAddressTable32 /\ r_target r = Symbol n /\ In (n, Local l) (o_symbols o) /\
  entry lk n = Some g /\ holds (e_mem e') g 8 a /\ a mod 2 ^ 64 <> at_ lk l mod 2 ^ 64.
Proof. exact table_only_global. Qed.
Print Assumptions local_entry_refuted.

(** C24, where it fails: an object that could not be added leaves its symbols, so that a good object with them
    can no longer be added. *)
Theorem failed_add_refuted : exists os resolver mem e bad good e1 e2 e3, honest os /\ reachable os resolver mem e /\ sound bad /\ sound good /\
  add_object os resolver bad e = Ret (e1, inr (EUndefinedSymbol "nowhere")) /\ get "f" e = None /\ get "f" e1 <> None /\
  add_object os resolver good e = Ret (e2, inl tt) /\ add_object os resolver good e1 = Ret (e3, inr (EDuplicateSymbol "f")).
Proof. exact failure_leaves_symbols. Qed.
Print Assumptions failed_add_refuted.

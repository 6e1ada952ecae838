(** * Properties of labels and objects (C22) *)
From Coq Require Import NArith ZArith.
From Verif.Base Require Import Base.
From Verif.Obj Require Import Model Spec Proofs ProofsProduce ProofsLink ProofsStore.
Local Open Scope Z_scope.

(** C22: in every memory in which the object is linked, whatever the addresses, the field of every use of a label
    holds what the use asks for. *)
Theorem label_uses_resolved : forall cs w es o lk mem,
  run new cs = Ret (w, es) -> produce w = Ret (Some o) -> well_placed w es -> linked lk o mem ->
  forall u, In u (uses es) -> exists v, asked es lk u v /\ holds mem (at_ lk (u_location u)) (width (u_type u)) v.
Proof. exact (fun cs w es o lk mem R => uses_resolved w es o lk mem (run_new cs w es R)). Qed.
Print Assumptions label_uses_resolved.

(** C22: everywhere else, memory has the bytes that were written, one call after the other. *)
Theorem written_bytes_kept : forall cs w es o lk mem,
  run new cs = Ret (w, es) -> produce w = Ret (Some o) -> well_placed w es -> linked lk o mem ->
  forall c, exists l, contents es c l /\ Z.of_nat (List.length l) = position w c /\
    forall i b, nth_error l (Z.to_nat i) = Some b -> 0 <= i -> (forall u, In u (uses es) -> ~ covers (u_location u) (u_type u) c i) ->
      mem (place lk c + i) = b.
Proof. exact (fun cs w es o lk mem R => bytes_kept w es o lk mem (run_new cs w es R)). Qed.
Print Assumptions written_bytes_kept.

(** C22: an object is produced exactly if every label used is defined or named, and in reach. *)
Theorem object_produced_exactly : forall cs w es, run new cs = Ret (w, es) ->
  (exists o, produce w = Ret (Some o)) <-> Forall (resolvable es) (uses es).
Proof. exact (fun cs w es R => produce_exact w es (run_new cs w es R)). Qed.
Print Assumptions object_produced_exactly.

(** C22: the symbols of the object are the names given to labels, bound to the definitions of these labels. *)
Theorem object_symbols_exact : forall cs w es o, run new cs = Ret (w, es) -> produce w = Ret (Some o) ->
  bss_size es (o_bss o) /\ forall n b, In (n, b) (o_symbols o) <-> exists l, named es n l /\
    match b with
    | Global (Some loc) => defined es l true loc
    | Local loc => defined es l false loc
    | Global None => forall g loc, ~ defined es l g loc
    end.
Proof.
  exact (fun cs w es o R P => conj (eq_ind_r (bss_size es) (reached_bss w es (run_new cs w es R)) (proj1 (proj2 (produce_parts w o P))))
    (object_symbols w es o (run_new cs w es R) P)).
Qed.
Print Assumptions object_symbols_exact.

(** C22: labels are told apart: a name is one label and a label has one name; a label issued without a name is
    given to nobody else; and a label is defined once. *)
Theorem labels_distinct : forall cs w es, run new cs = Ret (w, es) ->
  (forall n m l k, named es n l -> named es m k -> (n = m <-> l = k)) /\
  (forall i j b c b' l, nth_error es i = Some (Event CIssue (ALabel l) b) -> nth_error es j = Some (Event c (ALabel l) b') -> i = j) /\
  (forall i j s g a b s' g' a' b' l, nth_error es i = Some (Event (CDefine s l g) a b) ->
    nth_error es j = Some (Event (CDefine s' l g') a' b') -> i = j).
Proof.
  exact (fun cs w es R => let R := run_new cs w es R in
    conj (fun n m l k => named_same w es n m l k R) (conj (issued_once w es R) (defined_once w es R))).
Qed.
Print Assumptions labels_distinct.

(** C22: a call is refused only if it defines an unknown label or one already defined, aligns to zero, uses a
    position before the section, or writes an instruction that does not exist. *)
Theorem calls_refused_exactly : forall cs w es c, run new cs = Ret (w, es) ->
  (exists r, step w c = Ret r) <-> allowed w es c.
Proof. exact (fun cs w es c R => step_exact w es c (run_new cs w es R)). Qed.
Print Assumptions calls_refused_exactly.

(** C22: an instruction written with a label is, once linked, that instruction with the operand that designates
    the label, or the entry of the label in the table of addresses, from the end of the instruction. *)
Theorem label_instruction_partial : forall cs w es o lk mem,
  run new cs = Ret (w, es) -> produce w = Ret (Some o) -> well_placed w es -> linked lk o mem ->
  forall e c i, In e es -> e_call e = CInst c i -> ~ is_store_immediate i ->
  (forall bs u j, encode (instruction i 0) = Ret bs -> In u (uses es) -> 0 <= j < Z.of_nat (List.length bs) - operand_bytes i ->
    ~ covers (u_location u) (u_type u) c (e_before e c + j)) ->
  exists z bs t, encode (instruction i z) = Ret bs /\ loaded mem (place lk c + e_before e c) bs /\ designated es lk i t /\
    signed (operand_bytes i) (t - (place lk c + e_before e c + Z.of_nat (List.length bs))) z.
Proof. exact (fun cs w es o lk mem R => instruction_linked w es o lk mem (run_new cs w es R)). Qed.
Print Assumptions label_instruction_partial.

(** C22, where it fails: a store of an immediate at a label is linked into the store of another number, at no
    displacement. *)
Theorem store_immediate_refuted : exists cs w es o lk mem e c l n, run new cs = Ret (w, es) /\ In e es /\ e_call e = CInst c (StoreI l n) /\
  produce w = Ret (Some o) /\ well_placed w es /\ linked lk o mem /\
  (forall z bs, encode (instruction (StoreI l n) z) = Ret bs -> ~ loaded mem (place lk c + e_before e c) bs) /\
  exists n' bs, encode (instruction (StoreI l n') 0) = Ret bs /\ loaded mem (place lk c + e_before e c) bs /\ n' <> n.
Proof. exact store_immediate. Qed.
Print Assumptions store_immediate_refuted.

(** * Properties of the encoding of instructions (C21, C41) *)
From Coq Require Import NArith ZArith.
From Verif.Base Require Import Base.
From Verif.Asm Require Import Model Manual Spec Table ProofsBits Proofs ProofsApart.

(** C21: the bytes of every instruction, whatever its operands and whatever follows it, are read back, by the
    rules of the manual and the encoding listed for the instruction, as that instruction's operands, and
    what follows it is left. *)
Theorem instruction_read_back : forall e ts ops bs rest,
  In (e, ts) table -> Forall2 of_kind (i_kinds e) ops ->
  write e ops = Ret bs -> decode (i_kinds e) ts (bs ++ rest) = Some (map view_of ops, rest).
Proof. exact write_decode. Qed.
Print Assumptions instruction_read_back.

(** C21: an instruction is refused only where no encoding exists: a high byte register beside something
    that needs a REX prefix, or a negative absolute address. *)
Theorem instruction_refused_exactly : forall e ts ops,
  In (e, ts) table -> Forall2 of_kind (i_kinds e) ops ->
  ((exists bs, write e ops = Ret bs) <-> encodable ts ops) /\ (~ encodable ts ops -> write e ops = Panic).
Proof. exact (fun e ts ops I F => conj (write_defined e ts ops I F) (proj2 (write_entry e ts ops I F))). Qed.
Print Assumptions instruction_refused_exactly.

(** C41: bytes written for two instructions that begin alike are the same bytes of the same operation. *)
Theorem instruction_unambiguous_partial : forall e1 ts1 ops1 b1 r1 e2 ts2 ops2 b2 r2,
  In (e1, ts1) table -> In (e2, ts2) table -> ~ misencoded (i_name e1) -> ~ misencoded (i_name e2) ->
  Forall2 of_kind (i_kinds e1) ops1 -> Forall2 of_kind (i_kinds e2) ops2 ->
  write e1 ops1 = Ret b1 -> write e2 ops2 = Ret b2 -> b1 ++ r1 = b2 ++ r2 ->
  same (i_name e1) (map view_of ops1) (i_name e2) (map view_of ops2) /\ b1 = b2.
Proof. exact write_unambiguous. Qed.
Print Assumptions instruction_unambiguous_partial.

(** C41, where it fails: JECXZ and JRCXZ, which test different registers, have the same bytes. *)
Theorem jecxz_encoding_refuted : exists e1 ts1 e2 ts2, In (e1, ts1) table /\ In (e2, ts2) table /\
  i_name e1 = "jecxz"%string /\ i_name e2 = "jrcxz"%string /\ i_kinds e1 = [KI8] /\ i_kinds e2 = [KI8] /\
  forall z, write e1 [OI8 z] = write e2 [OI8 z].
Proof. exact jecxz_jrcxz. Qed.
Print Assumptions jecxz_encoding_refuted.

(** C41, where it fails: PMINSB lacks its last opcode byte, and its bytes begin another instruction. *)
Theorem pminsb_encoding_refuted : exists e1 ts1 e2 ts2 b1 b2, In (e1, ts1) table /\ In (e2, ts2) table /\
  i_name e1 = "pminsb"%string /\ i_kinds e1 = [KX; KMem] /\ i_name e2 = "pmovzxwd"%string /\ i_kinds e2 = [KX; KX] /\
  write e1 [OX Rsi; OMem (ABase Rbx)] = Ret b1 /\ write e2 [OX Rax; OX Rax] = Ret b2 /\ b1 ++ [192%N] = b2.
Proof. exact pminsb_pmovzxwd. Qed.
Print Assumptions pminsb_encoding_refuted.

(** * Instructions as examples *)
From Coq Require Import NArith ZArith.
From Verif.Base Require Import Base.
From Verif.Asm Require Import Model Manual Spec Table ProofsBits Proofs ProofsApart Properties.
Local Open Scope N_scope.

Definition some_inst (n : string) (ks : list kind) : inst * list token :=
  match find_inst n ks with Some x => x | None => (Inst "" [] None None [], []) end.

(** mov rax, [r13 + r9*4 - 8] meets the hypotheses of the round trip: 4B 8B 44 8D F8. *)
Definition mov := some_inst "movq" [K64; KMem].
Definition mov_ops := [O64 Rax; OMem (ABaseDispIndex R13 (Disp8 (-8)) R9 Scale4)].

Example mov_listed : In mov table.
Proof. apply (find_inst_in "movq" [K64; KMem]). vm_compute. reflexivity. Qed.
Example mov_kinds : Forall2 of_kind (i_kinds (fst mov)) mov_ops.
Proof. replace (i_kinds (fst mov)) with [K64; KMem] by (vm_compute; reflexivity). repeat constructor; cbn; try congruence; discriminate. Qed.
Example mov_bytes : write (fst mov) mov_ops = Ret [75; 139; 68; 141; 248].
Proof. vm_compute. reflexivity. Qed.
Example mov_back rest : decode (i_kinds (fst mov)) (snd mov) ([75; 139; 68; 141; 248] ++ rest) =
  Some ([VOp (O64 Rax); VMem (Mem (RegBase R13) (Some (R9, 4)) (-8))], rest).
Proof. apply (instruction_read_back (fst mov) (snd mov) mov_ops); [destruct mov eqn:E; rewrite <- E; exact mov_listed|exact mov_kinds|exact mov_bytes]. Qed.

(** mov ah, r8b cannot be encoded; mov ah, bl can. *)
Definition movb := some_inst "movb" [K8; K8].
Example movb_refused : write (fst movb) [O8 Ah; O8 R8B] = Panic /\ ~ encodable (snd movb) [O8 Ah; O8 R8B].
Proof. split; [vm_compute; reflexivity|]. intros [E _]. vm_compute in E. discriminate E. Qed.
Example movb_accepted : exists bs, write (fst movb) [O8 Ah; O8 Bl] = Ret bs.
Proof. eexists. vm_compute. reflexivity. Qed.

(** Two instructions that are one operation: ja and jnbe with the same target. *)
Example ja_jnbe : write (fst (some_inst "ja" [KI8])) [OI8 5] = write (fst (some_inst "jnbe" [KI8])) [OI8 5].
Proof. vm_compute. reflexivity. Qed.
Example ja_jnbe_same : same "ja" [VOp (OI8 5)] "jnbe" [VOp (OI8 5)].
Proof. apply same_name. right. exists ["ja"; "jnbe"]%string. split; [left; reflexivity|]. cbn. auto. Qed.
Example names_apart : ~ same "movq" [VOp (O64 Rax)] "addq" [VOp (O64 Rax)].
Proof.
  intro H. inversion H as [a b v [S'|(g & G & A & B)]| | |]; subst; [discriminate S'|].
  clear H. cbn in G. repeat (destruct G as [<-|G]; [cbn in A; repeat (destruct A as [A|A]; [discriminate A|]); destruct A|]). destruct G.
Qed.

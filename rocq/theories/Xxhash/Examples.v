From Verif.Base Require Import Base.
From Verif.Xxhash Require Import Model Spec.
Local Open Scope N_scope.
Local Open Scope list_scope.

Definition t (s : string) : list N := map (fun c => N.of_nat (Ascii.nat_of_ascii c)) (list_ascii_of_string s).

(** The published test values *)
Example xxh64_empty : xxh64 0 [] = 0xEF46DB3751D8E999. Proof. reflexivity. Qed.
Example xxh64_a : xxh64 0 (t "a") = 0xD24EC4F1A98C6E5B. Proof. reflexivity. Qed.
Example xxh64_abc : xxh64 0 (t "abc") = 0x44BC2CF5AD770999. Proof. reflexivity. Qed.
Example xxh64_long : xxh64 0 (t "Nobody inspects the spammish repetition") = 0xFBCEA83C8A378BF1. Proof. vm_compute. reflexivity. Qed.

(** A program that meets the hypotheses: two writes, of which the second fills a stripe, a digest, a reset and another. *)
Definition program : list call :=
  [Write (t "Nobody inspects "); Write (t "the spammish repetition"); Finish; Reset; Write (t "abc"); Finish].
Example program_proper : Forall proper program.
Proof. repeat constructor. Qed.
Example program_clear : Forall (fun l => N.of_nat (List.length l) < 2 ^ 64 /\ clear4 l) (hashed [] program).
Proof. constructor; [split; [reflexivity|right; reflexivity]|]. constructor; [split; [reflexivity|left; cbn; lia]|constructor]. Qed.
Example program_run : run (with_seed 0) program = Ret [0xFBCEA83C8A378BF1; 0x44BC2CF5AD770999].
Proof. vm_compute. reflexivity. Qed.

(** A key: a derived type's second constructor with an optional string and two numbers *)
Definition k : value := VCon true 1 [VAlt 1 [VSeq [VBytes (t "llrl")]]; VBytes [1; 0; 0; 0]; VBytes [255]].
Example k_plain : plain k.
Proof. repeat split; repeat constructor. Qed.
Example k_writes : writes k = [[1; 0]; [1]; t "llrl"; [1; 0; 0; 0]; [255]].
Proof. reflexivity. Qed.
Example k_eq : eqv k k = true.
Proof. reflexivity. Qed.

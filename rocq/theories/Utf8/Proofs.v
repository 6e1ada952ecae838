From Coq Require Import NArith ZArith Lia.
From Verif.Base Require Import Base.
From Verif.Utf8 Require Import Model Spec.
Local Open Scope N_scope.
Local Open Scope list_scope.

Ltac Zify.zify_post_hook ::= Z.to_euclidean_division_equations.

(** ** Bits *)

Lemma lor_low a b n : a < 2 ^ n -> N.lor a (b * 2 ^ n) = a + b * 2 ^ n.
Proof.
  intro L. rewrite <- N.shiftl_mul_pow2. assert (D : N.land a (N.shiftl b n) = 0).
  { apply N.bits_inj. intro i. rewrite N.land_spec, N.bits_0. destruct (N.lt_ge_cases i n) as [H|H].
    - now rewrite N.shiftl_spec_low, Bool.andb_false_r.
    - rewrite <- (N.mod_small a (2 ^ n) L), N.mod_pow2_bits_high by auto. reflexivity. }
  rewrite <- N.lxor_lor, <- N.add_nocarry_lxor by auto. reflexivity.
Qed.

Lemma land_mask x m n : m = N.ones n -> N.land x m = x mod 2 ^ n.
Proof. intros ->. apply N.land_ones. Qed.

Lemma cont_byte x s : shr_and_or x s 63 128 = 128 + x / 2 ^ s mod 64.
Proof.
  unfold shr_and_or. rewrite (land_mask _ 63 6) by reflexivity. change 128 with (2 * 2 ^ 6) at 1. rewrite lor_low by (apply N.mod_lt; discriminate).
  rewrite N.shiftr_div_pow2. change (2 ^ 8) with 256. change (2 ^ 6) with 64. set (y := x / 2 ^ s). clearbody y. lia.
Qed.

Lemma head2 x : x < 2048 -> shr_and_or x 6 31 192 = 192 + x / 64.
Proof.
  intro L. unfold shr_and_or. rewrite (land_mask _ 31 5) by reflexivity. change 192 with (6 * 2 ^ 5) at 1. rewrite lor_low by (apply N.mod_lt; discriminate).
  rewrite N.shiftr_div_pow2. change (2 ^ 8) with 256. change (2 ^ 5) with 32. change (2 ^ 6) with 64. lia.
Qed.

Lemma head3 x : x < 65536 -> shr_and_or x 12 15 224 = 224 + x / 4096.
Proof.
  intro L. unfold shr_and_or. rewrite (land_mask _ 15 4) by reflexivity. change 224 with (14 * 2 ^ 4) at 1. rewrite lor_low by (apply N.mod_lt; discriminate).
  rewrite N.shiftr_div_pow2. change (2 ^ 8) with 256. change (2 ^ 4) with 16. change (2 ^ 12) with 4096. lia.
Qed.

Lemma head4 x : x < 2097152 -> shr_and_or x 18 7 240 = 240 + x / 262144.
Proof.
  intro L. unfold shr_and_or. rewrite (land_mask _ 7 3) by reflexivity. change 240 with (30 * 2 ^ 3) at 1. rewrite lor_low by (apply N.mod_lt; discriminate).
  rewrite N.shiftr_div_pow2. change (2 ^ 8) with 256. change (2 ^ 3) with 8. change (2 ^ 18) with 262144. lia.
Qed.

Lemma and_shl_spec a m n s : m = N.ones n -> n + s < 32 -> and_shl a m s = a mod 2 ^ n * 2 ^ s.
Proof.
  intros E L. unfold and_shl. rewrite (land_mask _ _ _ E), N.shiftl_mul_pow2. apply N.mod_small.
  assert (a mod 2 ^ n < 2 ^ n) by (apply N.mod_lt, N.pow_nonzero; discriminate).
  apply N.lt_le_trans with (2 ^ n * 2 ^ s); [apply N.mul_lt_mono_pos_r; auto; apply N.neq_0_lt_0, N.pow_nonzero; discriminate|].
  rewrite <- N.pow_add_r. apply N.pow_le_mono_r; lia.
Qed.

Definition value2 (a b : N) : N := a mod 32 * 64 + b mod 64.
Definition value3 (a b c : N) : N := a mod 16 * 4096 + b mod 64 * 64 + c mod 64.
Definition value4 (a b c d : N) : N := a mod 8 * 262144 + b mod 64 * 4096 + c mod 64 * 64 + d mod 64.

Lemma decode2 a b : decode (C2 a b) = if (128 <=? value2 a b) && (value2 a b <=? 2047) then Produce (value2 a b) else Invalid.
Proof.
  cbn [decode]. rewrite (and_shl_spec a 31 5 6), (and_shl_spec b 63 6 0) by (reflexivity || lia).
  rewrite N.pow_0_r, N.mul_1_r, N.lor_comm, lor_low by (apply N.mod_lt; discriminate).
  replace (b mod 2 ^ 6 + a mod 2 ^ 5 * 2 ^ 6) with (value2 a b); [reflexivity|].
  unfold value2. change (2 ^ 6) with 64. change (2 ^ 5) with 32. lia.
Qed.

Lemma decode3 a b c : decode (C3 a b c) =
  if ((2048 <=? value3 a b c) && (value3 a b c <=? 65535)) && negb ((55296 <=? value3 a b c) && (value3 a b c <=? 57343))
  then Produce (value3 a b c) else Invalid.
Proof.
  cbn [decode]. rewrite (and_shl_spec a 15 4 12), (and_shl_spec b 63 6 6), (and_shl_spec c 63 6 0) by (reflexivity || lia).
  rewrite N.pow_0_r, N.mul_1_r. rewrite (N.lor_comm (b mod 2 ^ 6 * 2 ^ 6)), lor_low by (apply N.mod_lt; discriminate).
  rewrite N.lor_comm, lor_low by (change (2 ^ 6) with 64; change (2 ^ 12) with 4096; lia).
  replace (c mod 2 ^ 6 + b mod 2 ^ 6 * 2 ^ 6 + a mod 2 ^ 4 * 2 ^ 12) with (value3 a b c); [reflexivity|].
  unfold value3. change (2 ^ 6) with 64. change (2 ^ 4) with 16. change (2 ^ 12) with 4096. lia.
Qed.

Lemma decode4 a b c d : decode (C4 a b c d) =
  if (65536 <=? value4 a b c d) && (value4 a b c d <=? 111411) then Produce (value4 a b c d) else Invalid.
Proof.
  cbn [decode]. rewrite (and_shl_spec a 7 3 18), (and_shl_spec b 63 6 12), (and_shl_spec c 63 6 6), (and_shl_spec d 63 6 0) by (reflexivity || lia).
  rewrite N.pow_0_r, N.mul_1_r. rewrite (N.lor_comm (c mod 2 ^ 6 * 2 ^ 6)), lor_low by (apply N.mod_lt; discriminate).
  rewrite (N.lor_comm (b mod 2 ^ 6 * 2 ^ 12)), lor_low by (change (2 ^ 6) with 64; change (2 ^ 12) with 4096; lia).
  rewrite N.lor_comm, lor_low by (change (2 ^ 6) with 64; change (2 ^ 12) with 4096; change (2 ^ 18) with 262144; lia).
  match goal with |- (if (_ <=? ?x) && _ then _ else _) = _ => replace x with (value4 a b c d); [reflexivity|] end.
  unfold value4. change (2 ^ 6) with 64. change (2 ^ 3) with 8. change (2 ^ 12) with 4096. change (2 ^ 18) with 262144. lia.
Qed.

(** ** Classes of bytes *)

Definition class_of (i : N) : input_class_ :=
  if i <? 128 then InLatin else if i <? 192 then InProgress else if i <? 224 then In2 else if i <? 240 then In3
  else if i <? 248 then In4 else InInvalid.

Definition class_eqb (a b : input_class_) : bool :=
  match a, b with
  | InInvalid, InInvalid | InLatin, InLatin | InProgress, InProgress | In2, In2 | In3, In3 | In4, In4 => true
  | _, _ => false
  end.

Lemma below_256 (p : N -> bool) : forallb (fun n => p (N.of_nat n)) (seq 0 256) = true -> forall i, byte i -> p i = true.
Proof.
  intros H i B. rewrite forallb_forall in H. specialize (H (N.to_nat i)). cbn beta in H. rewrite N2Nat.id in H. apply H.
  apply in_seq. unfold byte in B. lia.
Qed.

Lemma class_spec i : byte i -> input_class i = class_of i.
Proof.
  intro B. assert (H : class_eqb (input_class i) (class_of i) = true).
  { revert i B. apply (below_256 (fun i => class_eqb (input_class i) (class_of i))). vm_compute. reflexivity. }
  destruct (input_class i), (class_of i); cbn in H; congruence.
Qed.

Ltac class i B :=
  rewrite (class_spec i B); unfold class_of;
  repeat match goal with |- context[N.ltb i ?k] => destruct (N.ltb_spec i k); try lia end.

(** Rotations, words and rounds *)
From Verif.Base Require Import Base Buf BaseFacts.
From Verif.Xxhash Require Import Model Spec.
Local Open Scope N_scope.
Local Open Scope list_scope.

Lemma m64_lt x : m64 x < 2 ^ 64.
Proof. apply N.mod_lt. discriminate. Qed.
Lemma testbit_small x i : x < 2 ^ 64 -> 64 <= i -> N.testbit x i = false.
Proof.
  intros H Hi. rewrite <- (N.mod_small x (2 ^ 64)) by exact H. apply N.mod_pow2_bits_high. exact Hi.
Qed.
Lemma rotl_rol x k : x < 2 ^ 64 -> 0 < k -> k < 64 -> rotl x k = rol x k.
Proof.
  intros H Hk Hk'. unfold rotl, rol, shl64, shr64, m64, w64, sub64.
  replace ((64 + w64 - k) mod w64) with (64 - k).
  2:{ unfold w64. replace (64 + 2 ^ 64 - k) with ((64 - k) + 1 * 2 ^ 64) by lia. rewrite N.mod_add by discriminate. rewrite N.mod_small by lia. reflexivity. }
  rewrite N.shiftl_mul_pow2, N.shiftr_div_pow2.
  assert (D : N.land ((x * 2 ^ k) mod 2 ^ 64) (x / 2 ^ (64 - k)) = 0).
  { apply N.bits_inj_0. intro i. rewrite N.land_spec, <- N.shiftr_div_pow2, N.shiftr_spec by lia.
    destruct (N.le_gt_cases 64 i) as [Hi|Hi].
    - rewrite N.mod_pow2_bits_high by exact Hi. reflexivity.
    - rewrite N.mod_pow2_bits_low by exact Hi. rewrite <- N.shiftl_mul_pow2.
      destruct (N.le_gt_cases k i) as [Hki|Hki].
      + rewrite (testbit_small x (i + (64 - k))) by (exact H || lia). apply andb_false_r.
      + rewrite N.shiftl_spec_low by exact Hki. reflexivity. }
  rewrite <- N.lxor_lor by exact D. symmetry. apply N.add_nocarry_lxor. exact D.
Qed.
Lemma le_number l : le l = number l.
Proof. reflexivity. Qed.

Lemma add64_m a b : add64 a b = m64 (a + b).
Proof. reflexivity. Qed.
Lemma mul64_m a b : mul64 a b = m64 (a * b).
Proof. reflexivity. Qed.
Lemma m64_add_l a b : m64 (m64 a + b) = m64 (a + b).
Proof. apply N.add_mod_idemp_l. discriminate. Qed.
Lemma m64_add_r a b : m64 (a + m64 b) = m64 (a + b).
Proof. apply N.add_mod_idemp_r. discriminate. Qed.
Lemma m64_mul_l a b : m64 (m64 a * b) = m64 (a * b).
Proof. apply N.mul_mod_idemp_l. discriminate. Qed.
Lemma m64_small x : x < 2 ^ 64 -> m64 x = x.
Proof. apply N.mod_small. Qed.

Lemma lxor_lt a b : a < 2 ^ 64 -> b < 2 ^ 64 -> N.lxor a b < 2 ^ 64.
Proof.
  intros Ha Hb. destruct (N.eq_dec (N.lxor a b) 0) as [E|E]; [rewrite E; reflexivity|].
  apply N.log2_lt_pow2; [lia|].
  eapply N.le_lt_trans; [apply N.log2_lxor|].
  apply N.max_lub_lt.
  - destruct (N.eq_dec a 0) as [->|Ea]; [reflexivity|]. apply N.log2_lt_pow2; [lia|exact Ha].
  - destruct (N.eq_dec b 0) as [->|Eb]; [reflexivity|]. apply N.log2_lt_pow2; [lia|exact Hb].
Qed.
Lemma div_lt a k : a < 2 ^ 64 -> a / 2 ^ k < 2 ^ 64.
Proof.
  intros H. eapply N.le_lt_trans; [|exact H]. apply N.div_le_upper_bound; [apply N.pow_nonzero; discriminate|].
  assert (1 <= 2 ^ k) by (pose proof (N.pow_nonzero 2 k); lia). nia.
Qed.

Lemma round_eq acc l : round acc l = round_ acc l.
Proof.
  unfold round, round_. rewrite !mul64_m, add64_m. rewrite m64_add_r.
  rewrite rotl_rol by (reflexivity || apply m64_lt). reflexivity.
Qed.
Lemma round_lt acc l : round_ acc l < 2 ^ 64.
Proof. apply m64_lt. Qed.
Lemma merge_eq acc v : merge_round acc v = merge acc v.
Proof. unfold merge_round, merge. rewrite add64_m, mul64_m, round_eq. rewrite m64_add_l. reflexivity. Qed.
Lemma avalanche_mix x : avalanche x = mix x.
Proof. unfold avalanche, mix, shr64. rewrite !N.shiftr_div_pow2. reflexivity. Qed.
Lemma mix_lt x : x < 2 ^ 64 -> mix x < 2 ^ 64.
Proof. intro H. unfold mix. cbv zeta. apply lxor_lt; [apply m64_lt|]. apply div_lt. apply m64_lt. Qed.

Lemma number_lt l : Forall (fun x => x < 256) l -> number l < 256 ^ N.of_nat (List.length l).
Proof.
  induction 1 as [|x l Hx _ IH]; [reflexivity|].
  cbn [number fold_right List.length]. fold (number l). rewrite Nat2N.inj_succ, N.pow_succ_r' . nia.
Qed.

(** * Capacities, ideal indices and distances *)
From Verif.Base Require Import Base Buf.
From Verif.HashMap Require Import Model.
Local Open Scope N_scope.
Local Open Scope list_scope.

(** ** Rounding up to a power of two *)
Lemma smear_spec x m w :
  (forall j, N.testbit x j = true <-> exists d, d < w /\ N.testbit m (j + d) = true) ->
  forall j, N.testbit (smear w x) j = true <-> exists d, d < 2 * w /\ N.testbit m (j + d) = true.
Proof.
  intros H j; unfold smear; rewrite N.lor_spec, N.shiftr_spec by lia; rewrite orb_true_iff, !H; split.
  - intros [(d & L & T)|(d & L & T)]; [exists d; split; [lia|exact T]|exists (w + d); split; [lia|]].
    rewrite <- T; f_equal; lia.
  - intros (d & L & T); destruct (N.lt_ge_cases d w) as [D|D]; [left; exists d; now split|right; exists (d - w); split; [lia|]].
    rewrite <- T; f_equal; lia.
Qed.
Lemma smear_all m j :
  N.testbit (smear 32 (smear 16 (smear 8 (smear 4 (smear 2 (smear 1 m)))))) j = true <-> exists d, d < 64 /\ N.testbit m (j + d) = true.
Proof.
  revert j; apply (smear_spec _ m 32), (smear_spec _ m 16), (smear_spec _ m 8), (smear_spec _ m 4), (smear_spec _ m 2), (smear_spec _ m 1).
  intros j; split.
  - intros T; exists 0; split; [lia|]; now rewrite N.add_0_r.
  - intros (d & L & T); replace d with 0 in T by lia; now rewrite N.add_0_r in T.
Qed.
Lemma smear_ones m : 0 < m -> m < 2 ^ 64 ->
  smear 32 (smear 16 (smear 8 (smear 4 (smear 2 (smear 1 m))))) = N.ones (N.log2 m + 1).
Proof.
  intros P L.
  assert (B : N.log2 m < 64) by (apply N.log2_lt_pow2; assumption).
  apply N.bits_inj; intros j; apply eq_true_iff_eq; rewrite smear_all.
  rewrite N.ones_spec_iff; split.
  - intros (d & D & T).
    destruct (N.lt_ge_cases j (N.log2 m + 1)) as [J|J]; [exact J|].
    rewrite N.bits_above_log2 in T by lia; discriminate.
  - intros J; exists (N.log2 m - j); split; [lia|].
    replace (j + (N.log2 m - j)) with (N.log2 m) by lia; apply N.bit_log2; lia.
Qed.
Lemma next_power n : 1 <= n <= 2 ^ 62 ->
  exists p, p <= 62 /\ next_power_of_two n = Ret (2 ^ p) /\ n <= 2 ^ p.
Proof.
  intros [H1 H2]; unfold next_power_of_two, assert_.
  replace (n <=? 4611686018427387904) with true by (symmetry; apply N.leb_le; exact H2); cbn [bind].
  assert (E : sub64 n 1 = n - 1).
  { unfold sub64; replace (n + w64 - 1) with ((n - 1) + 1 * w64) by lia; rewrite N.mod_add by discriminate; apply N.mod_small.
    unfold w64; change (2 ^ 64) with (4 * 2 ^ 62); lia. }
  rewrite E; destruct (N.eq_dec n 1) as [->|N1]; [exists 0; repeat split; cbn; lia|].
  assert (M : n - 1 < 2 ^ 62) by lia.
  rewrite smear_ones by (change (2 ^ 64) with (4 * 2 ^ 62); lia).
  assert (B : N.log2 (n - 1) < 62) by (apply N.log2_lt_pow2; lia).
  exists (N.log2 (n - 1) + 1); split; [lia|].
  destruct (N.log2_spec (n - 1) ltac:(lia)) as [_ S2]; rewrite <- N.add_1_r in S2.
  split; [|lia].
  f_equal; unfold add64; rewrite N.ones_equiv.
  assert (Q : 2 ^ (N.log2 (n - 1) + 1) <= 2 ^ 62) by (apply N.pow_le_mono_r; lia).
  rewrite N.mod_small; [lia|unfold w64; change (2 ^ 64) with (4 * 2 ^ 62); lia].
Qed.
Lemma next_power_zero : next_power_of_two 0 = Ret 0.
Proof. reflexivity. Qed.

(** ** A table of a power of two of slots, at most [2 ^ 62] *)
Definition power (n : N) : Prop := exists p, p <= 62 /\ n = 2 ^ p.
Lemma power_pos n : power n -> 0 < n <= 2 ^ 62.
Proof.
  intros (p & L & ->); split; [|apply N.pow_le_mono_r; lia].
  assert (2 ^ p <> 0) by (apply N.pow_nonzero; discriminate); lia.
Qed.
Lemma w64_62 : w64 = 4 * 2 ^ 62.
Proof. reflexivity. Qed.

Lemma ideal_lt n h : power n -> ideal_index h n < n.
Proof.
  intros Hp; pose proof (power_pos n Hp) as [H1 H2]; destruct Hp as (p & L & E).
  assert (S : sub64 n 1 = N.ones p).
  { unfold sub64; rewrite N.ones_equiv, <- E; replace (n + w64 - 1) with ((n - 1) + 1 * w64) by (rewrite w64_62 in *; lia).
    rewrite N.mod_add by discriminate; rewrite N.mod_small by (rewrite w64_62; lia); lia. }
  unfold ideal_index; rewrite S, N.land_ones, <- E; apply N.mod_lt; lia.
Qed.

(** The slot after one; the number of slots from the ideal index on; a slot so many after another. *)
Definition nxt (n i : N) : N := if i + 1 =? n then 0 else i + 1.
Definition gap (n i h : N) : N := let t := ideal_index h n in if t <=? i then i - t else i + n - t.
Definition adv (n i x : N) : N := if i + x <? n then i + x else i + x - n.

Lemma next_index n i : power n -> i < n -> rem64 (add64 i 1) n = Ret (nxt n i).
Proof.
  intros Hp L; pose proof (power_pos n Hp) as [H1 H2]; unfold rem64, add64, nxt.
  replace (n =? 0) with false by lia.
  rewrite (N.mod_small (i + 1)) by (rewrite w64_62; lia).
  destruct (i + 1 =? n) eqn:E.
  - apply N.eqb_eq in E; rewrite E, N.mod_same by lia; reflexivity.
  - apply N.eqb_neq in E; rewrite N.mod_small by lia; reflexivity.
Qed.
Lemma distance_gap n i h : power n -> i < n -> distance i h n = Ret (gap n i h).
Proof.
  intros Hp L; pose proof (power_pos n Hp) as [H1 H2]; pose proof (ideal_lt n h Hp) as I; unfold distance, rem64, gap.
  replace (n =? 0) with false by lia.
  set (t := ideal_index h n) in *; clearbody t.
  unfold add64, sub64; rewrite (N.mod_small (i + n)) by (rewrite w64_62; lia).
  replace (i + n + w64 - t) with ((i + n - t) + 1 * w64) by lia.
  rewrite N.mod_add by discriminate; rewrite (N.mod_small (i + n - t)) by (rewrite w64_62; lia).
  destruct (t <=? i) eqn:E.
  - apply N.leb_le in E; replace (i + n - t) with ((i - t) + 1 * n) by lia; rewrite N.mod_add by lia; rewrite N.mod_small by lia; reflexivity.
  - apply N.leb_gt in E; rewrite N.mod_small by lia; reflexivity.
Qed.

Ltac circ := unfold nxt, gap, adv in *; cbv zeta in *;
  repeat match goal with
  | |- context [if ?c then _ else _] => let E := fresh "E" in destruct c eqn:E
  | H : context [if ?c then _ else _] |- _ => let E := fresh "E" in destruct c eqn:E
  end; lia.

Lemma nxt_lt n i : i < n -> nxt n i < n.
Proof. intros; circ. Qed.
Lemma adv_lt n i x : i < n -> x < n -> adv n i x < n.
Proof. intros; circ. Qed.
Lemma gap_lt n i h : power n -> i < n -> gap n i h < n.
Proof. intros Hp L; pose proof (ideal_lt n h Hp); circ. Qed.
Lemma gap_ideal n h : power n -> gap n (ideal_index h n) h = 0.
Proof. intros Hp; pose proof (ideal_lt n h Hp); circ. Qed.
Lemma gap_nxt n i h : power n -> i < n -> gap n (nxt n i) h = 0 \/ gap n (nxt n i) h = gap n i h + 1.
Proof. intros Hp L; pose proof (ideal_lt n h Hp); circ. Qed.
Lemma gap_nxt_succ n i h : power n -> i < n -> gap n i h + 1 < n -> gap n (nxt n i) h = gap n i h + 1.
Proof. intros Hp L; pose proof (ideal_lt n h Hp); circ. Qed.
Lemma adv_0 n i : i < n -> adv n i 0 = i.
Proof. intros; circ. Qed.
Lemma adv_succ n i x : i < n -> x + 1 < n -> adv n i (x + 1) = nxt n (adv n i x).
Proof. intros; circ. Qed.
Lemma adv_nxt n i x : i < n -> x < n -> 0 < x -> adv n (nxt n i) (x - 1) = adv n i x.
Proof. intros; circ. Qed.
Lemma adv_ne n i x : i < n -> x < n -> 0 < x -> adv n i x <> i.
Proof. intros; circ. Qed.
Lemma adv_inj n i x y : i < n -> x < n -> y < n -> adv n i x = adv n i y -> x = y.
Proof. intros; circ. Qed.
Lemma adv_onto n i j : i < n -> j < n -> exists x, x < n /\ adv n i x = j.
Proof.
  intros; destruct (i <=? j) eqn:E; [exists (j - i)|exists (j + n - i)]; split; circ.
Qed.
Lemma adv_gap n i h : power n -> i < n -> adv n (ideal_index h n) (gap n i h) = i.
Proof. intros Hp L; pose proof (ideal_lt n h Hp); circ. Qed.
Lemma gap_adv n h x : power n -> x < n -> gap n (adv n (ideal_index h n) x) h = x.
Proof. intros Hp L; pose proof (ideal_lt n h Hp); circ. Qed.

(** Bytes, registers and the sized loads and stores. *)
From Coq Require Import ZArith Lia.
From Verif.Base Require Import Base.
From Verif.Layout Require Import Model.
From Verif.Stack Require Import Machine Model.
Local Open Scope Z_scope.

Lemma gpr_eqb_spec a b : reflect (a = b) (gpr_eqb a b).
Proof. destruct a, b; cbn; constructor; congruence. Qed.
Lemma gpr_eqb_refl a : gpr_eqb a a = true.
Proof. destruct (gpr_eqb_spec a a); congruence. Qed.
Lemma gpr_eqb_neq a b : a <> b -> gpr_eqb a b = false.
Proof. destruct (gpr_eqb_spec a b); congruence. Qed.

Lemma land255 v k : 0 <= k -> Z.testbit (Z.land v 255) k = Z.testbit v k && (k <? 8).
Proof.
  intros Hk. change 255 with (Z.ones 8). rewrite Z.land_spec, Z.testbit_ones_nonneg by lia. reflexivity.
Qed.
Lemma byte_bit v i k : 0 <= k -> Z.testbit (byte v i) k = Z.testbit v (k + 8 * Z.of_nat i) && (k <? 8).
Proof. intros Hk. unfold byte. rewrite land255, Z.shiftr_spec by lia. reflexivity. Qed.
Lemma cell_bit m a k : 0 <= k -> Z.testbit (cell m a) k = Z.testbit (m a) k && (k <? 8).
Proof. intros. apply land255. assumption. Qed.
Lemma cell_high m a k : 8 <= k -> Z.testbit (cell m a) k = false.
Proof. intros. rewrite cell_bit by lia. destruct (Z.ltb_spec k 8); [lia | apply andb_false_r]. Qed.
Lemma land255_idem v : Z.land (Z.land v 255) 255 = Z.land v 255.
Proof. rewrite <- Z.land_assoc. reflexivity. Qed.

Lemma read_bit n m a k : 0 <= k ->
  Z.testbit (read n m a) k = if k <? 8 * Z.of_nat n then Z.testbit (m (a + k / 8)) (k mod 8) else false.
Proof.
  revert a k. induction n as [|n IH]; intros a k Hk; cbn [read].
  - rewrite Z.bits_0. destruct (Z.ltb_spec k (8 * Z.of_nat 0)); [lia | reflexivity].
  - rewrite Z.lor_spec, Z.shiftl_spec by lia.
    destruct (Z.ltb_spec k 8) as [H|H].
    + rewrite (Z.testbit_neg_r _ (k - 8)) by lia. rewrite orb_false_r, cell_bit by lia.
      destruct (Z.ltb_spec k 8); [|lia]. destruct (Z.ltb_spec k (8 * Z.of_nat (S n))); [|lia].
      rewrite andb_true_r, Z.div_small, Z.mod_small, Z.add_0_r by lia. reflexivity.
    + rewrite cell_high by lia. cbn [orb]. rewrite IH by lia.
      destruct (Z.ltb_spec (k - 8) (8 * Z.of_nat n)), (Z.ltb_spec k (8 * Z.of_nat (S n))); try lia; try reflexivity.
      replace (k mod 8) with ((k - 8) mod 8) by (replace k with (k - 8 + 1 * 8) at 2 by lia; now rewrite Z_mod_plus_full).
      replace (k / 8) with ((k - 8) / 8 + 1) by (replace k with (k - 8 + 1 * 8) at 2 by lia; now rewrite Z_div_plus_full by lia).
      f_equal. f_equal. lia.
Qed.

Lemma byte_read n m a i : byte (read n m a) i = if (i <? n)%nat then cell m (a + Z.of_nat i) else 0.
Proof.
  apply Z.bits_inj'. intros k Hk. rewrite byte_bit, read_bit by lia.
  destruct (Nat.ltb_spec i n).
  - rewrite cell_bit by lia. destruct (Z.ltb_spec k 8) as [K|K]; [|now rewrite !andb_false_r].
    destruct (Z.ltb_spec (k + 8 * Z.of_nat i) (8 * Z.of_nat n)); [|lia].
    replace (k + 8 * Z.of_nat i) with (k + Z.of_nat i * 8) by lia.
    rewrite Z_div_plus_full, Z_mod_plus_full, Z.div_small, Z.mod_small by lia. reflexivity.
  - rewrite Z.bits_0. destruct (Z.ltb_spec k 8) as [K|K]; [|now rewrite !andb_false_r].
    destruct (Z.ltb_spec (k + 8 * Z.of_nat i) (8 * Z.of_nat n)); [lia|]. reflexivity.
Qed.

Lemma byte_or a b i : byte (Z.lor a b) i = Z.lor (byte a i) (byte b i).
Proof.
  apply Z.bits_inj'. intros k Hk. rewrite Z.lor_spec, !byte_bit, Z.lor_spec by lia.
  destruct (Z.testbit a _), (Z.testbit b _), (k <? 8); reflexivity.
Qed.
Lemma byte_shl v j i : (i < 8)%nat ->
  byte (Z.land (Z.shiftl v (8 * Z.of_nat j)) (Z.ones 64)) i = if (i <? j)%nat then 0 else byte v (i - j).
Proof.
  intros Hi. apply Z.bits_inj'. intros k Hk. rewrite byte_bit by lia.
  rewrite Z.land_spec, Z.testbit_ones_nonneg by lia. rewrite Z.shiftl_spec by lia.
  destruct (Nat.ltb_spec i j).
  - rewrite Z.bits_0. destruct (Z.ltb_spec k 8); [|apply andb_false_r].
    rewrite (Z.testbit_neg_r v) by lia. reflexivity.
  - rewrite byte_bit by lia. destruct (Z.ltb_spec k 8); [|now rewrite !andb_false_r].
    destruct (Z.ltb_spec (k + 8 * Z.of_nat i) 64); [|lia]. rewrite !andb_true_r. f_equal. lia.
Qed.
Lemma byte_shr c v j i : 0 <= c ->
  byte (Z.shiftr (Z.land v (Z.ones (8 * c))) (8 * Z.of_nat j)) i =
  if Z.of_nat (i + j) <? c then byte v (i + j) else 0.
Proof.
  intros Hc. apply Z.bits_inj'. intros k Hk. rewrite byte_bit by lia.
  rewrite Z.shiftr_spec by lia. rewrite Z.land_spec, Z.testbit_ones_nonneg by lia.
  destruct (Z.ltb_spec (Z.of_nat (i + j)) c).
  - rewrite byte_bit by lia. destruct (Z.ltb_spec k 8); [|now rewrite !andb_false_r].
    destruct (Z.ltb_spec (k + 8 * Z.of_nat i + 8 * Z.of_nat j) (8 * c)); [|lia].
    rewrite !andb_true_r. f_equal. lia.
  - rewrite Z.bits_0. destruct (Z.ltb_spec k 8); [|now rewrite !andb_false_r].
    destruct (Z.ltb_spec (k + 8 * Z.of_nat i + 8 * Z.of_nat j) (8 * c)); [lia|].
    now rewrite andb_false_r.
Qed.
Lemma byte_merge w old v i : (i < bytes w)%nat -> byte (merge_low w old v) i = byte v i.
Proof.
  intros Hi. destruct w; cbn [merge_low bytes] in *; try reflexivity; rewrite byte_or;
    rewrite <- (Z.lor_0_l (byte v i)) at 2; f_equal; apply Z.bits_inj'; intros k Hk;
    rewrite Z.bits_0, byte_bit, Z.ldiff_spec, Z.testbit_ones_nonneg by lia;
    (destruct (Z.ltb_spec k 8); [|apply andb_false_r]);
    destruct (Z.ltb_spec (k + 8 * Z.of_nat i) 8), (Z.ltb_spec (k + 8 * Z.of_nat i) 16); try lia;
    cbn; now rewrite ?andb_false_r.
Qed.
Lemma byte_cell v i : Z.land (byte v i) 255 = byte v i.
Proof. apply land255_idem. Qed.

(** ** Registers *)
Lemma gp_set r v s r' : gp (set_gp r v s) r' = if gpr_eqb r' r then v else gp s r'.
Proof. reflexivity. Qed.
Lemma mem_set r v s : mem (set_gp r v s) = mem s. Proof. reflexivity. Qed.
Lemma xm_set r v s : xm (set_gp r v s) = xm s. Proof. reflexivity. Qed.
Lemma gp_write n a v s : gp (write n a v s) = gp s. Proof. reflexivity. Qed.
Lemma xm_write n a v s : xm (write n a v s) = xm s. Proof. reflexivity. Qed.
Lemma mem_write n a v s b :
  mem (write n a v s) b = if (a <=? b) && (b <? a + Z.of_nat n) then byte v (Z.to_nat (b - a)) else mem s b.
Proof. reflexivity. Qed.
Lemma mem_write_out n a v s b : b < a \/ a + Z.of_nat n <= b -> mem (write n a v s) b = mem s b.
Proof. intros. rewrite mem_write. destruct (Z.leb_spec a b), (Z.ltb_spec b (a + Z.of_nat n)); cbn; lia || reflexivity. Qed.
Lemma cell_write_in n a v s i : (i < n)%nat -> cell (mem (write n a v s)) (a + Z.of_nat i) = byte v i.
Proof.
  intros. unfold cell. rewrite mem_write. destruct (Z.leb_spec a (a + Z.of_nat i)), (Z.ltb_spec (a + Z.of_nat i) (a + Z.of_nat n)); try lia.
  cbn. replace (a + Z.of_nat i - a) with (Z.of_nat i) by lia. rewrite Nat2Z.id. apply byte_cell.
Qed.
Lemma cell_write_out n a v s b : b < a \/ a + Z.of_nat n <= b -> cell (mem (write n a v s)) b = cell (mem s) b.
Proof. intros. unfold cell. now rewrite mem_write_out. Qed.

Lemma run_app a b s : run (a ++ b) s = run b (run a s).
Proof. revert s. induction a; cbn; auto. Qed.

(** The address does not involve the register. *)
Definition avoids (a : addr) (r : gpr) : Prop := base a <> r /\ match index a with Some x => x <> r | None => True end.
Lemma ea_set a r v s : avoids a r -> ea a (set_gp r v s) = ea a s.
Proof.
  intros [Hb Hi]. unfold ea. rewrite gp_set, (gpr_eqb_neq _ _ Hb).
  destruct (index a); [|reflexivity]. rewrite gp_set, (gpr_eqb_neq _ _ Hi). reflexivity.
Qed.
Lemma ea_write a n b v s : ea a (write n b v s) = ea a s.
Proof. reflexivity. Qed.
Lemma ea_plus a n s : ea (plus a n) s = ea a s + n.
Proof. unfold ea, plus. cbn. lia. Qed.
Lemma avoids_plus a n r : avoids a r -> avoids (plus a n) r.
Proof. exact (fun H => H). Qed.

Global Opaque gpr_eqb.

Lemma size_cases n : (1 <= n <= 8)%N -> n = 1%N \/ n = 2%N \/ n = 3%N \/ n = 4%N \/ n = 5%N \/ n = 6%N \/ n = 7%N \/ n = 8%N.
Proof. lia. Qed.

Ltac regs := repeat (rewrite ?gp_set, ?gp_write, ?mem_set, ?xm_set, ?xm_write, ?ea_plus, ?ea_write,
  ?gpr_eqb_refl, ?ea_set by (assumption || apply avoids_plus; assumption));
  repeat match goal with H : ?a <> ?b |- context [gpr_eqb ?a ?b] => rewrite (gpr_eqb_neq a b H)
  | H : ?a <> ?b |- context [gpr_eqb ?b ?a] => rewrite (gpr_eqb_neq b a (not_eq_sym H)) end.

Lemma load_gpr_ok r a n s : (1 <= n <= 8)%N -> r <> R10 -> avoids a r -> avoids a R10 ->
  let s' := run (load_gpr r a n) s in
  (forall i, (i < N.to_nat n)%nat -> byte (gp s' r) i = cell (mem s) (ea a s + Z.of_nat i)) /\
  (forall r', r' <> r -> r' <> R10 -> gp s' r' = gp s r') /\ xm s' = xm s /\ mem s' = mem s.
Proof.
  intros Hn Hr Ha Ht.
  assert (Hr' : R10 <> r) by congruence.
  destruct (size_cases n Hn) as [-> | [-> | [-> | [-> | [-> | [-> | [-> | ->]]]]]]];
    cbv zeta; cbn [load_gpr run step]; change tmp1 with R10;
    (split; [|split; [intros r' H1 H2; regs; reflexivity | split; reflexivity]]); intros i Hi;
    regs; rewrite ?byte_merge by (cbn in *; lia); cbn [merge_low];
    repeat rewrite ?byte_or, ?byte_read;
    try (change 16 with (8 * Z.of_nat 2); rewrite byte_shl by (cbn in Hi; lia));
    try (change 32 with (8 * Z.of_nat 4); rewrite byte_shl by (cbn in Hi; lia));
    try (change 48 with (8 * Z.of_nat 6); rewrite byte_shl by (cbn in Hi; lia));
    rewrite ?byte_read; cbn [bytes];
    do 8 (destruct i as [|i]; [first [exfalso; cbn in Hi; lia | cbn; rewrite ?Z.lor_0_r, ?Z.lor_0_l, <- ?Z.add_assoc; reflexivity] |]);
    cbn in Hi; lia.
Qed.

Lemma cell_write n a v s b : cell (mem (write n a v s)) b =
  if (a <=? b) && (b <? a + Z.of_nat n) then byte v (Z.to_nat (b - a)) else cell (mem s) b.
Proof. unfold cell. rewrite mem_write. destruct (_ && _); [apply byte_cell | reflexivity]. Qed.
Lemma byte_shr32 v j i : byte (Z.shiftr (Z.land v (Z.ones 32)) (8 * Z.of_nat j)) i =
  if (i + j <? 4)%nat then byte v (i + j) else 0.
Proof.
  change 32 with (8 * 4). rewrite byte_shr by lia.
  destruct (Z.ltb_spec (Z.of_nat (i + j)) 4), (Nat.ltb_spec (i + j) 4); lia || reflexivity.
Qed.
Lemma byte_shr64 v j i : byte (Z.shiftr (Z.land v (Z.ones 64)) (8 * Z.of_nat j)) i =
  if (i + j <? 8)%nat then byte v (i + j) else 0.
Proof.
  change 64 with (8 * 8). rewrite byte_shr by lia.
  destruct (Z.ltb_spec (Z.of_nat (i + j)) 8), (Nat.ltb_spec (i + j) 8); lia || reflexivity.
Qed.
Ltac store_cell :=
  repeat match goal with |- context [?a <=? ?b] =>
    first [rewrite (proj2 (Z.leb_le a b)) by lia | rewrite (proj2 (Z.leb_gt a b)) by lia] end;
  repeat match goal with |- context [?a <? ?b] =>
    first [rewrite (proj2 (Z.ltb_lt a b)) by lia | rewrite (proj2 (Z.ltb_ge a b)) by lia] end;
  cbn [andb];
  repeat match goal with |- context [Z.to_nat ?e] =>
    first [replace (Z.to_nat e) with 0%nat by lia | replace (Z.to_nat e) with 1%nat by lia
          | replace (Z.to_nat e) with 2%nat by lia | replace (Z.to_nat e) with 3%nat by lia
          | replace (Z.to_nat e) with 4%nat by lia | replace (Z.to_nat e) with 5%nat by lia
          | replace (Z.to_nat e) with 6%nat by lia | replace (Z.to_nat e) with 7%nat by lia] end;
  repeat (first [rewrite (byte_shr32 _ 2) | rewrite (byte_shr64 _ 4) | rewrite (byte_shr64 _ 2)]; cbn [Nat.add Nat.ltb Nat.leb]);
  reflexivity.

Lemma store_gpr_ok r a n s : (1 <= n <= 8)%N -> avoids a r ->
  let s' := run (store_gpr a r n) s in
  (forall i, (i < N.to_nat n)%nat -> cell (mem s') (ea a s + Z.of_nat i) = byte (gp s r) i) /\
  (forall b, b < ea a s \/ ea a s + Z.of_N n <= b -> mem s' b = mem s b) /\
  (forall r', r' <> r -> gp s' r' = gp s r') /\ xm s' = xm s.
Proof.
  intros Hn Ha.
  destruct (size_cases n Hn) as [-> | [-> | [-> | [-> | [-> | [-> | [-> | ->]]]]]]];
    cbv zeta; cbn [store_gpr run step bytes];
    (split; [|split; [intros b Hb; regs; rewrite ?mem_write_out by (regs; cbn; lia); regs;
                      rewrite ?mem_write_out by (regs; cbn; lia); regs; rewrite ?mem_write_out by (regs; cbn; lia); reflexivity
             | split; [intros r' H1; regs; reflexivity | reflexivity]]]); intros i Hi; regs;
    rewrite ?cell_write; regs; rewrite ?cell_write; regs; rewrite ?cell_write;
    do 8 (destruct i as [|i]; [first [exfalso; cbn in Hi; lia | store_cell] |]);
    cbn in Hi; lia.
Qed.

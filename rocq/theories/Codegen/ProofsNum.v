(** Numbers of some width. *)
From Coq Require Import ZArith Lia SpecFloat.
From Verif.Base Require Import Base.
From Verif.Ir Require Import Model.
From Verif.Layout Require Import Model.
From Verif.Stack Require Import Machine Model Spec Facts Proofs ProofsValue.
From Verif.Codegen Require Import Float Alu Operators Model Machine Spec Facts ProofsGen ProofsFrame ProofsRun ProofsInv.
Local Open Scope Z_scope.

Lemma bits_pos w : 8 <= bits w <= 64. Proof. destruct w; cbn; lia. Qed.
Lemma pow_pos w : 0 < 2 ^ bits w. Proof. apply Z.pow_pos_nonneg; pose proof (bits_pos w); lia. Qed.
Lemma pow_half w : 2 ^ bits w = 2 * 2 ^ (bits w - 1).
Proof. pose proof (bits_pos w). rewrite <- Z.pow_succ_r by lia. f_equal. lia. Qed.
Lemma half_pos w : 0 < 2 ^ (bits w - 1). Proof. apply Z.pow_pos_nonneg; pose proof (bits_pos w); lia. Qed.
Lemma low_bound w v : 0 <= low w v < 2 ^ bits w. Proof. apply Z.mod_pos_bound, pow_pos. Qed.
Lemma low_id w x : in_bits w x -> low w x = x. Proof. apply Z.mod_small. Qed.
Lemma low_low w v : low w (low w v) = low w v. Proof. apply low_id, low_bound. Qed.
Lemma low_bit w v k : 0 <= k -> Z.testbit (low w v) k = Z.testbit v k && (k <? bits w).
Proof.
  intros K. unfold low. pose proof (bits_pos w). destruct (Z.ltb_spec k (bits w)).
  - now rewrite Z.mod_pow2_bits_low, andb_true_r.
  - now rewrite Z.mod_pow2_bits_high, andb_false_r by lia.
Qed.
Lemma low_ext w a b : (forall k, 0 <= k < bits w -> Z.testbit a k = Z.testbit b k) -> low w a = low w b.
Proof.
  intros H. apply Z.bits_inj'. intros k K. rewrite !low_bit by exact K. destruct (Z.ltb_spec k (bits w)); [|now rewrite !andb_false_r].
  now rewrite H by lia.
Qed.
Lemma low_bits w a b k : low w a = low w b -> 0 <= k < bits w -> Z.testbit a k = Z.testbit b k.
Proof.
  intros E K. apply (f_equal (fun z => Z.testbit z k)) in E. rewrite !low_bit in E by lia. rewrite (proj2 (Z.ltb_lt k (bits w))), !andb_true_r in E by lia. exact E.
Qed.
Lemma low_eq w a b : low w a = low w b <-> exists k, a = b + k * 2 ^ bits w.
Proof.
  pose proof (pow_pos w) as P. unfold low. split.
  - intros H. exists (a / 2 ^ bits w - b / 2 ^ bits w). pose proof (Z.div_mod a (2 ^ bits w)). pose proof (Z.div_mod b (2 ^ bits w)). nia.
  - intros [k ->]. apply Z.mod_add. lia.
Qed.
Lemma low_add w a b c d : low w a = low w b -> low w c = low w d -> low w (a + c) = low w (b + d).
Proof. rewrite !low_eq. intros [k ->] [j ->]. exists (k + j). lia. Qed.
Lemma low_sub w a b c d : low w a = low w b -> low w c = low w d -> low w (a - c) = low w (b - d).
Proof. rewrite !low_eq. intros [k ->] [j ->]. exists (k - j). lia. Qed.
Lemma low_mul w a b c d : low w a = low w b -> low w c = low w d -> low w (a * c) = low w (b * d).
Proof. rewrite !low_eq. intros [k ->] [j ->]. exists (b * j + k * d + k * j * 2 ^ bits w). ring. Qed.
Lemma low_less w w' a b : bits w <= bits w' -> low w' a = low w' b -> low w a = low w b.
Proof. intros L E. apply low_ext. intros k K. apply low_bits with w'; [exact E | lia]. Qed.
Lemma low_signed w v : low w (signed w v) = low w v.
Proof.
  apply low_eq. unfold signed, low. pose proof (Z.div_mod v (2 ^ bits w)) as D. pose proof (pow_pos w). specialize (D ltac:(lia)).
  destruct (_ <? _); [exists (- (v / 2 ^ bits w)) | exists (- (v / 2 ^ bits w) - 1)]; lia.
Qed.
Lemma signed_low w a b : low w a = low w b -> signed w a = signed w b.
Proof. intros E. unfold signed. now rewrite E. Qed.
Lemma signed_bound w v : - 2 ^ (bits w - 1) <= signed w v < 2 ^ (bits w - 1).
Proof. unfold signed. pose proof (low_bound w v). pose proof (pow_half w). destruct (Z.ltb_spec (low w v) (2 ^ (bits w - 1))); lia. Qed.
Lemma signed_id w x : - 2 ^ (bits w - 1) <= x < 2 ^ (bits w - 1) -> signed w x = x.
Proof.
  intros H. pose proof (pow_half w) as E. pose proof (half_pos w) as P. unfold signed. destruct (Z.lt_ge_cases x 0) as [N|N].
  - assert (L : low w x = x + 2 ^ bits w). { rewrite <- (low_id w (x + 2 ^ bits w)) by (unfold in_bits; lia). apply low_eq. exists (-1). lia. }
    rewrite L. destruct (Z.ltb_spec (x + 2 ^ bits w) (2 ^ (bits w - 1))); lia.
  - rewrite low_id by (unfold in_bits; lia). destruct (Z.ltb_spec x (2 ^ (bits w - 1))); lia.
Qed.
Lemma signed_zero w x : in_bits w x -> (signed w x =? 0) = (x =? 0).
Proof.
  intros H. unfold signed. rewrite low_id by exact H. unfold in_bits in H. pose proof (half_pos w). destruct (Z.ltb_spec x (2 ^ (bits w - 1))); [reflexivity|].
  destruct (Z.eqb_spec x 0), (Z.eqb_spec (x - 2 ^ bits w) 0); lia || reflexivity.
Qed.
Lemma low_land w a b c d : low w a = low w b -> low w c = low w d -> low w (Z.land a c) = low w (Z.land b d).
Proof. intros E E'. apply low_ext. intros k K. rewrite !Z.land_spec. now rewrite (low_bits _ _ _ _ E K), (low_bits _ _ _ _ E' K). Qed.
Lemma low_lor w a b c d : low w a = low w b -> low w c = low w d -> low w (Z.lor a c) = low w (Z.lor b d).
Proof. intros E E'. apply low_ext. intros k K. rewrite !Z.lor_spec. now rewrite (low_bits _ _ _ _ E K), (low_bits _ _ _ _ E' K). Qed.
Lemma low_lxor w a b c d : low w a = low w b -> low w c = low w d -> low w (Z.lxor a c) = low w (Z.lxor b d).
Proof. intros E E'. apply low_ext. intros k K. rewrite !Z.lxor_spec. now rewrite (low_bits _ _ _ _ E K), (low_bits _ _ _ _ E' K). Qed.

(** ** The top bit *)
Lemma top_bit w d : Z.testbit (low w d) (bits w - 1) = (2 ^ (bits w - 1) <=? low w d).
Proof.
  pose proof (low_bound w d) as B. pose proof (pow_half w) as E. pose proof (half_pos w). pose proof (bits_pos w). set (x := low w d) in *.
  destruct (Z.leb_spec (2 ^ (bits w - 1)) x).
  - apply Z.testbit_true; [lia|]. replace (x / 2 ^ (bits w - 1)) with 1; [reflexivity|]. apply Z.div_unique with (x - 2 ^ (bits w - 1)); lia.
  - apply Z.testbit_false; [lia|]. rewrite Z.div_small by lia. reflexivity.
Qed.
Lemma less_signed w x y : xorb (sf (subtracted w x y)) (of (subtracted w x y)) = (signed w x <? signed w y).
Proof.
  unfold subtracted. cbn [sf of]. rewrite top_bit. pose proof (signed_bound w x) as Bx. pose proof (signed_bound w y) as By.
  set (d := signed w x - signed w y). assert (E : low w (x - y) = low w d) by (apply low_sub; symmetry; apply low_signed).
  rewrite E. pose proof (pow_half w) as P. pose proof (half_pos w). replace (signed w x <? signed w y) with (d <? 0) by (subst d; destruct (Z.ltb_spec (signed w x - signed w y) 0), (Z.ltb_spec (signed w x) (signed w y)); lia || reflexivity).
  assert (D : - 2 ^ bits w < d < 2 ^ bits w) by lia.
  assert (L : exists k, low w d = d + k * 2 ^ bits w /\ 0 <= low w d < 2 ^ bits w).
  { destruct (proj1 (low_eq w (low w d) d) (low_low w d)) as [k Ek]. exists k. split; [exact Ek | apply low_bound]. }
  destruct L as (k & Ek & B). set (m := 2 ^ bits w) in *. set (h := 2 ^ (bits w - 1)) in *. assert (K : -1 <= k <= 1) by nia. assert (K' : k = -1 \/ k = 0 \/ k = 1) by lia. clear K.
  clearbody d. destruct (Z.ltb_spec d (- h)), (Z.leb_spec h d), (Z.leb_spec h (low w d)), (Z.ltb_spec d 0); cbn; try reflexivity; exfalso; destruct K' as [-> | [-> | ->]]; lia.
Qed.

(** ** Values *)
Lemma byte_low w a b : low w a = low w b <-> forall i, (i < bytes w)%nat -> byte a i = byte b i.
Proof.
  split.
  - intros E i Hi. apply Z.bits_inj'. intros k K. rewrite !byte_bit by exact K. destruct (Z.ltb_spec k 8); [|now rewrite !andb_false_r].
    rewrite !andb_true_r. apply low_bits with w; [exact E|]. unfold bits. lia.
  - intros H. apply low_ext. intros k K. assert (Hi : (Z.to_nat (k / 8) < bytes w)%nat). { unfold bits in K. pose proof (Z.div_lt_upper_bound k 8 (Z.of_nat (bytes w))). pose proof (Z.div_pos k 8). lia. }
    specialize (H _ Hi). apply (f_equal (fun z => Z.testbit z (k mod 8))) in H. pose proof (Z.mod_pos_bound k 8 ltac:(lia)).
    rewrite !byte_bit in H by lia. rewrite (proj2 (Z.ltb_lt (k mod 8) 8)), !andb_true_r in H by lia.
    replace (k mod 8 + 8 * Z.of_nat (Z.to_nat (k / 8))) with k in H; [exact H|]. pose proof (Z.div_mod k 8). pose proof (Z.div_pos k 8). lia.
Qed.
Lemma has_number w l z s : integral w l -> (has l (number (bytes w) z) s <-> low w (gp s Rax) = low w z).
Proof.
  intros (C & E & S). assert (B : (1 <= size l <= 8)%N) by (rewrite S; destruct w; cbn; lia). rewrite (has_small l _ s C E B), byte_low.
  rewrite number_length. unfold length_of. rewrite S, Nat2N.id. split.
  - intros [_ H] i Hi. apply H. apply nth_number. auto.
  - intros H. split; [reflexivity|]. intros i b Hi. apply nth_number in Hi. destruct Hi as [Hi ->]. auto.
Qed.
Lemma leaf_float l : composite l = None -> cls l = FloatingPoint -> (1 <= size l <= 8)%N -> eightbytes l = [Eightbyte 0 (size l) FloatingPoint].
Proof.
  intros C E S. unfold eightbytes, num_eightbytes, eightbyte_class. rewrite C, E.
  replace ((size l + 7) / 8)%N with 1%N by (apply N.div_unique with (size l - 1)%N; lia).
  change (N.to_nat 1) with 1%nat. cbn [List.seq map]. change (N.of_nat 0 * 8)%N with 0%N. f_equal. f_equal. lia.
Qed.
Lemma has_float w l z s : floating w l -> (has l (number (bytes w) z) s <-> low w (xm s 0%nat) = low w z).
Proof.
  intros (C & E & S & _). assert (B : (1 <= size l <= 8)%N) by (rewrite S; destruct w; cbn; lia).
  unfold has, value. rewrite E, (leaf_float l C E B). cbn [in_regs e_class e_offset e_size]. rewrite byte_low.
  assert (Ln : length_of l = bytes w) by (unfold length_of; now rewrite S, Nat2N.id). split.
  - intros (bs & V & Lb & R & _) i Hi. apply vmatch_map_some in V. subst bs. apply R. rewrite part_all by (rewrite le_length; unfold length_of in Ln; lia). now apply nth_le.
  - intros H. exists (le (bytes w) z). split; [apply vmatch_defined|]. split; [now rewrite le_length|]. split; [|exact Logic.I].
    rewrite part_all by (rewrite le_length; unfold length_of in Ln; lia). intros i b Hi. pose proof (nth_bound _ _ _ Hi) as Bd. rewrite le_length in Bd.
    rewrite nth_le in Hi by exact Bd. injection Hi as <-. auto.
Qed.
(** A value on the stack that is popped to a register. *)
Lemma read_low w m a z : holds m a (number (bytes w) z) -> low w (read 8 m a) = low w z.
Proof.
  intros H. apply byte_low. intros i Hi. rewrite byte_read. replace (i <? 8)%nat with true by (symmetry; apply Nat.ltb_lt; destruct w; cbn in Hi; lia).
  apply H. apply nth_number. auto.
Qed.
Lemma number_low w a b : low w a = low w b -> number (bytes w) a = number (bytes w) b.
Proof.
  intros E. unfold number, le. f_equal. apply map_ext_in. intros i Hi. apply in_seq in Hi. apply (proj1 (byte_low w a b) E). lia.
Qed.

(** ** Registers *)
Lemma merge_bound w old v : 0 <= old < 2 ^ 64 -> 0 <= merge_low w old (low w v) < 2 ^ 64.
Proof.
  intros H. pose proof (low_bound w v) as B. assert (P : 2 ^ bits w <= 2 ^ 64) by (apply Z.pow_le_mono_r; pose proof (bits_pos w); lia).
  destruct w; cbn [merge_low]; try lia; (apply lor_bound; [apply ldiff_bound; lia | lia]).
Qed.
Lemma low_merge w old v : low w (merge_low w old (low w v)) = low w v.
Proof.
  destruct w; cbn [merge_low]; try apply low_low; apply low_ext; intros k K; rewrite Z.lor_spec, Z.ldiff_spec, low_bit by lia;
    change (bits B) with 8 in *; change (bits W) with 16 in *; rewrite Z.testbit_ones_nonneg by lia;
    (rewrite (proj2 (Z.ltb_lt k _)) by lia); now rewrite andb_false_r, andb_true_r.
Qed.
Lemma gp_low w d v s : low w (gp (set_low w d v s) d) = low w v.
Proof. unfold set_low. rewrite gp_set, gpr_eqb_refl. apply low_merge. Qed.
Lemma gp_low_other w d v s x : x <> d -> gp (set_low w d v s) x = gp s x.
Proof. intros H. unfold set_low. now rewrite gp_set, gpr_eqb_neq. Qed.
Lemma gp_low_q d v s : gp (set_low Q d v s) d = low Q v.
Proof. unfold set_low. rewrite gp_set, gpr_eqb_refl. reflexivity. Qed.
Lemma gp_low_l d v s : gp (set_low L d v s) d = low L v.
Proof. unfold set_low. rewrite gp_set, gpr_eqb_refl. reflexivity. Qed.
Lemma xm_low w d v s : xm (set_low w d v s) = xm s. Proof. reflexivity. Qed.
Lemma xm_float w d v s : low w (xm (set_float w d v s) d) = low w v.
Proof.
  unfold set_float. cbn [set_xm xm]. rewrite Nat.eqb_refl. destruct w; try apply low_low;
    apply low_ext; intros k K; rewrite Z.lor_spec, Z.ldiff_spec, low_bit by lia; rewrite Z.testbit_ones_nonneg by (cbn; lia);
    (rewrite (proj2 (Z.ltb_lt k _)) by lia); now rewrite andb_false_r, andb_true_r.
Qed.
Lemma xm_float_other w d v s x : x <> d -> xm (set_float w d v s) x = xm s x.
Proof. intros H. unfold set_float. cbn [set_xm xm]. now rewrite (proj2 (Nat.eqb_neq x d) H). Qed.

(** ** What blocks leave as it was *)
Definition safe (i : alu) : Prop :=
  match i with
  | Mov _ d _ | Ext _ _ _ d _ | Arith _ _ d _ | XorImm _ d _ | Shift _ _ d | ImulImm d _ _ | ImulMem d _ _ | Popcnt _ d _ | ToInt _ _ d _ => saved d = false
  | _ => True
  end.
Definition undisturbed (s s' : state) : Prop := mem s' = mem s /\ gp s' Rsp = gp s Rsp /\ rest s s' /\ (norm s -> norm s').
Lemma undisturbed_refl s : undisturbed s s.
Proof. split; [reflexivity|]. split; [reflexivity|]. split; [apply rest_refl | auto]. Qed.
Lemma undisturbed_trans a b c : undisturbed a b -> undisturbed b c -> undisturbed a c.
Proof.
  intros (A1 & A2 & A3 & A4) (B1 & B2 & B3 & B4). split; [congruence|]. split; [congruence|]. split; [eapply rest_trans; eassumption | auto].
Qed.
Lemma undisturbed_low w d v s : saved d = false -> undisturbed s (set_low w d v s).
Proof.
  intros H. split; [reflexivity|]. split; [apply gp_low_other; intros <-; discriminate|]. split; [now apply rest_set|].
  intros N. apply norm_set; [exact N|]. intros Nr. apply merge_bound. auto.
Qed.
Lemma undisturbed_xm s s' : gp s' = gp s -> mem s' = mem s -> undisturbed s s'.
Proof. intros E E'. split; [exact E'|]. split; [now rewrite E|]. split; [intros r _ _; now rewrite E|]. intros N r Hr. rewrite E. auto. Qed.
Lemma alu_safe i s f s' f' : safe i -> alu_step i (s, f) = Some (s', f') -> undisturbed s s'.
Proof.
  intros Sf H. destruct i; cbn [alu_step safe] in *;
    try (injection H as <- _; (apply undisturbed_low; first [exact Sf | reflexivity]) || apply undisturbed_refl || (apply undisturbed_xm; reflexivity)).
  - destruct w; injection H as <- _; try (apply undisturbed_low; reflexivity);
      (eapply undisturbed_trans; [apply undisturbed_low with (d := Rax); reflexivity | apply undisturbed_low; reflexivity]).
  - destruct w; destruct (divided _ _ _ _) as [[q m]|]; try discriminate; injection H as <- _; try (apply undisturbed_low; reflexivity);
      (eapply undisturbed_trans; [apply undisturbed_low with (d := Rax); reflexivity | apply undisturbed_low; reflexivity]).
  - destruct f; [|discriminate]. injection H as <- _. apply undisturbed_low. reflexivity.
Qed.
Lemma run_safe is : Forall safe is -> forall s f s' f', alu_run is (s, f) = Some (s', f') -> undisturbed s s'.
Proof.
  induction 1 as [|i is Si _ IH]; intros s f s' f' H; cbn [alu_run] in H; [injection H as <- _; apply undisturbed_refl|].
  destruct (alu_step i (s, f)) as [[s1 f1]|] eqn:E; [|discriminate]. eapply undisturbed_trans; [eapply alu_safe; eassumption | eapply IH; eassumption].
Qed.
Lemma block_safe is s s' : Forall safe is -> block is s = Some s' -> undisturbed s s'.
Proof.
  intros H E. unfold block in E. destruct (alu_run is (s, None)) as [[s1 f1]|] eqn:R; [|discriminate]. injection E as <-. eapply run_safe; eassumption.
Qed.

(** Values with undefined bytes, and running lists of instructions. *)
From Coq Require Import ZArith Lia.
From Verif.Base Require Import Base.
From Verif.Layout Require Import Model.
From Verif.Stack Require Import Machine Model Spec Facts Proofs ProofsValue ProofsMove.
From Verif.Codegen Require Import Model Machine Spec.
Local Open Scope Z_scope.

(** ** Bytes *)
Definition vmatch (v : val) (bs : list Z) : Prop :=
  List.length bs = List.length v /\ forall i z, nth_error v i = Some (Some z) -> nth_error bs i = Some z.
Definition holds (m : Z -> Z) (a : Z) (v : val) : Prop :=
  forall i z, nth_error v i = Some (Some z) -> cell m (a + Z.of_nat i) = z.
Definition has (l : layout) (v : val) (s : state) : Prop := exists bs, vmatch v bs /\ value l bs s.

Lemma holds_match m a v bs : vmatch v bs -> in_mem m a bs -> holds m a v.
Proof. intros [_ V] H i z Hi. apply H, V, Hi. Qed.
Lemma match_bytes m a v : holds m a v -> vmatch v (bytes_of m a (List.length v)).
Proof.
  intros H. split; [apply bytes_of_length|]. intros i z Hi. pose proof (nth_bound _ _ _ Hi).
  rewrite nth_bytes_of by assumption. f_equal. apply H, Hi.
Qed.
Lemma holds_ext m m' a v : holds m a v ->
  (forall i, (i < List.length v)%nat -> m' (a + Z.of_nat i) = m (a + Z.of_nat i)) -> holds m' a v.
Proof. intros H E i z Hi. unfold cell. rewrite E by (apply nth_bound in Hi; exact Hi). apply H, Hi. Qed.
Lemma holds_nil m a : holds m a [].
Proof. intros i z Hi. destruct i; discriminate. Qed.
Lemma holds_undefined m a n : holds m a (undefined n).
Proof. intros i z Hi. apply nth_error_In, repeat_spec in Hi. discriminate. Qed.
Lemma holds_app m a v w : holds m a (v ++ w) <-> holds m a v /\ holds m (a + Z.of_nat (List.length v)) w.
Proof.
  split.
  - intros H. split; intros i z Hi.
    + apply H. rewrite nth_error_app1 by (apply nth_bound in Hi; exact Hi). exact Hi.
    + rewrite <- Z.add_assoc, <- Nat2Z.inj_add. apply H.
      rewrite nth_error_app2 by lia. replace (List.length v + i - List.length v)%nat with i by lia. exact Hi.
  - intros [H1 H2] i z Hi. destruct (Nat.lt_ge_cases i (List.length v)) as [L|L].
    + rewrite nth_error_app1 in Hi by assumption. apply H1, Hi.
    + rewrite nth_error_app2 in Hi by assumption. apply H2 in Hi. rewrite <- Hi. f_equal. lia.
Qed.
Lemma holds_part m a v o n : holds m a v -> holds m (a + Z.of_N o) (part v o n).
Proof.
  intros H i z Hi. rewrite nth_part in Hi. destruct (Nat.ltb_spec i (N.to_nat n)); [|discriminate].
  apply H in Hi. rewrite <- Hi. f_equal. lia.
Qed.
Lemma holds_firstn m a v n : holds m a v -> holds m a (firstn n v).
Proof. intros H i z Hi. apply H. rewrite nth_firstn in Hi. destruct (i <? n)%nat; [exact Hi | discriminate]. Qed.

Lemma vmatch_part v bs o n : vmatch v bs -> vmatch (part v o n) (part bs o n).
Proof.
  intros [L V]. split.
  - unfold part. rewrite !firstn_length, !skipn_length, L. reflexivity.
  - intros i z. rewrite !nth_part. destruct (i <? N.to_nat n)%nat; [apply V | discriminate].
Qed.
Lemma vmatch_undefined n bs : List.length bs = n -> vmatch (undefined n) bs.
Proof.
  intros L. split; [unfold undefined; now rewrite repeat_length|]. intros i z Hi. apply nth_error_In, repeat_spec in Hi. discriminate.
Qed.
Lemma vmatch_app v bs v' bs' : vmatch v bs -> vmatch v' bs' -> vmatch (v ++ v') (bs ++ bs').
Proof.
  intros [L V] [L' V']. split; [rewrite !app_length; lia|]. intros i z Hi.
  destruct (Nat.lt_ge_cases i (List.length v)) as [K|K].
  - rewrite nth_error_app1 in Hi by assumption. rewrite nth_error_app1 by lia. apply V, Hi.
  - rewrite nth_error_app2 in Hi by assumption. rewrite nth_error_app2 by lia. rewrite L. apply V', Hi.
Qed.
Lemma vmatch_defined bs : vmatch (map Some bs) bs.
Proof.
  split; [now rewrite map_length|]. intros i z Hi. rewrite nth_error_map in Hi. destruct (nth_error bs i); cbn in Hi; congruence.
Qed.
Lemma vmatch_map_some bs bs' : vmatch (map Some bs) bs' -> bs' = bs.
Proof.
  intros [L V]. rewrite map_length in L. revert bs' L V. induction bs as [|b bs IH]; intros [|c cs] L V; try discriminate; [reflexivity|].
  f_equal.
  - specialize (V 0%nat b eq_refl). cbn in V. congruence.
  - apply IH; [cbn in L; lia|]. intros i z Hi. exact (V (S i) z Hi).
Qed.

Lemma le_length n z : List.length (le n z) = n.
Proof. unfold le. now rewrite map_length, seq_length. Qed.
Lemma nth_le n z i : (i < n)%nat -> nth_error (le n z) i = Some (byte z i).
Proof.
  intros H. unfold le. apply (map_nth_error (byte z)). rewrite nth_error_nth' with (d := 0%nat) by (rewrite seq_length; lia).
  now rewrite seq_nth by lia.
Qed.
Lemma in_reg_le n z : in_reg z (le n z).
Proof. intros i b H. pose proof (nth_bound _ _ _ H) as B. rewrite le_length in B. rewrite nth_le in H by assumption. congruence. Qed.
Lemma in_reg_unique v bs bs' : in_reg v bs -> in_reg v bs' -> List.length bs = List.length bs' -> bs = bs'.
Proof.
  revert bs' v. intros bs' v H H' L. apply nth_ext with 0 0; [exact L|]. intros n Hn.
  destruct (nth_error bs n) as [b|] eqn:E; [|apply nth_error_None in E; lia].
  destruct (nth_error bs' n) as [b'|] eqn:E'; [|apply nth_error_None in E'; lia].
  rewrite (nth_error_nth _ _ _ E), (nth_error_nth _ _ _ E'), <- (H _ _ E), <- (H' _ _ E'). reflexivity.
Qed.

(** A number of 64 bits is known by its bytes. *)
Lemma byte_wrap z i : (i < 8)%nat -> byte (wrap z) i = byte z i.
Proof.
  intros H. unfold wrap. apply Z.bits_inj'. intros k Hk. rewrite !byte_bit by assumption.
  rewrite <- Z.land_ones, Z.land_spec by lia. rewrite Z.testbit_ones_nonneg by lia.
  destruct (Z.ltb_spec k 8); [|now rewrite !andb_false_r].
  rewrite (proj2 (Z.ltb_lt (k + 8 * Z.of_nat i) 64)) by lia. now rewrite andb_true_r.
Qed.
Lemma le_wrap z : le 8 (wrap z) = le 8 z.
Proof.
  unfold le. apply map_ext_in. intros i Hi. apply in_seq in Hi. apply byte_wrap. lia.
Qed.
Lemma le_inj x y : 0 <= x < 2 ^ 64 -> 0 <= y < 2 ^ 64 -> le 8 x = le 8 y -> x = y.
Proof.
  intros Hx Hy E. apply Z.bits_inj'. intros k Hk.
  destruct (Z.lt_ge_cases k 64) as [L|L].
  - set (i := Z.to_nat (k / 8)). assert (Hi : (i < 8)%nat) by (subst i; pose proof (Z.div_lt_upper_bound k 8 8); lia).
    pose proof (nth_le 8 x i Hi) as A. rewrite E, nth_le in A by assumption. injection A as A.
    apply (f_equal (fun b => Z.testbit b (k mod 8))) in A. pose proof (Z.mod_pos_bound k 8 ltac:(lia)).
    rewrite !byte_bit in A by lia. rewrite (proj2 (Z.ltb_lt (k mod 8) 8)), !andb_true_r in A by lia.
    replace (k mod 8 + 8 * Z.of_nat i) with k in A by (subst i; pose proof (Z.div_mod k 8); lia). congruence.
  - assert (G : forall u, 0 <= u < 2 ^ 64 -> Z.testbit u k = false).
    { intros u Hu. destruct (Z.eq_dec u 0) as [->|]; [apply Z.bits_0|]. apply Z.bits_above_log2; [lia|].
      pose proof (proj1 (Z.log2_lt_pow2 u 64 ltac:(lia)) (proj2 Hu)). lia. }
    now rewrite !G.
Qed.
Lemma wrap_small z : 0 <= z < 2 ^ 64 -> wrap z = z.
Proof. apply Z.mod_small. Qed.
Lemma wrap_bound z : 0 <= wrap z < 2 ^ 64.
Proof. apply Z.mod_pos_bound. lia. Qed.
Lemma in_reg_wrap v z : in_reg v (le 8 z) -> 0 <= z < 2 ^ 64 -> wrap v = z.
Proof.
  intros H Hz. apply le_inj; [apply wrap_bound | exact Hz|]. rewrite le_wrap.
  apply in_reg_unique with v; [apply in_reg_le | exact H | now rewrite !le_length].
Qed.

Lemma read_bound n m a : 0 <= read n m a < 2 ^ (8 * Z.of_nat n).
Proof.
  revert a. induction n as [|n IH]; intros a; [cbn; lia|]. cbn [read].
  specialize (IH (a + 1)). set (x := read n m (a + 1)) in *.
  assert (C : 0 <= cell m a < 256).
  { unfold cell. change 255 with (Z.ones 8). rewrite Z.land_ones by lia. apply Z.mod_pos_bound. lia. }
  assert (E : Z.lor (cell m a) (Z.shiftl x 8) = cell m a + x * 256).
  { rewrite Z.shiftl_mul_pow2 by lia. change (2 ^ 8) with 256. assert (N0 : Z.land (cell m a) (x * 256) = 0); [|now rewrite Z.add_nocarry_lxor, Z.lxor_lor by exact N0].
    apply Z.bits_inj'. intros k Hk.
    rewrite Z.land_spec, Z.bits_0. destruct (Z.lt_ge_cases k 8) as [K|K].
    - replace (x * 256) with (Z.shiftl x 8) by (rewrite Z.shiftl_mul_pow2 by lia; reflexivity).
      rewrite Z.shiftl_spec by lia. rewrite (Z.testbit_neg_r x) by lia. apply andb_false_r.
    - rewrite cell_high by lia. reflexivity. }
  rewrite E. replace (8 * Z.of_nat (S n)) with (8 * Z.of_nat n + 8) by lia. rewrite Z.pow_add_r by lia.
  change (2 ^ 8) with 256. nia.
Qed.
Lemma read_le m a z : in_mem m a (le 8 z) -> 0 <= z < 2 ^ 64 -> read 8 m a = z.
Proof.
  intros H Hz. pose proof (read_bound 8 m a) as R. change (8 * Z.of_nat 8) with 64 in R.
  apply le_inj; [exact R | exact Hz|]. apply nth_ext with 0 0; [now rewrite !le_length|]. intros i Hi. rewrite le_length in Hi.
  pose proof (nth_le 8 (read 8 m a) i Hi) as A. pose proof (nth_le 8 z i Hi) as B.
  rewrite (nth_error_nth _ _ _ A), (nth_error_nth _ _ _ B). rewrite byte_read.
  destruct (Nat.ltb_spec i 8); [|lia]. apply H, B.
Qed.
Lemma write_le n a v s : in_mem (mem (write n a v s)) a (le n v).
Proof.
  intros i b H. pose proof (nth_bound _ _ _ H) as B. rewrite le_length in B. rewrite nth_le in H by assumption.
  rewrite cell_write_in by assumption. congruence.
Qed.
Lemma holds_number m a n z : in_mem m a (le n z) -> holds m a (number n z).
Proof. apply holds_match, vmatch_defined. Qed.
Lemma number_length n z : List.length (number n z) = n.
Proof. unfold number. now rewrite map_length, le_length. Qed.
Lemma holds_number_inv m a n z : holds m a (number n z) -> in_mem m a (le n z).
Proof.
  intros H i b Hi. apply H. unfold number. rewrite nth_error_map, Hi. reflexivity.
Qed.

(** ** Values of registers *)
Lemma value_any l s : usable l -> exists bs, value l bs s.
Proof.
  intros U. destruct (class_cases l) as [E | [E | [N1 N2]]].
  - exists (repeat 0 (length_of l)). split; [apply repeat_length|]. now rewrite E.
  - exists (bytes_of (mem s) (gp s Rsp) (length_of l)). split; [apply bytes_of_length|]. rewrite E. apply in_bytes_of.
  - destruct (small_eightbytes l U N1 N2) as [(c & El & Sl & C) | (c & c' & El & Sl & C & C')].
    + set (v := match c with FloatingPoint => xm s 0%nat | _ => gp s Rax end).
      exists (le (length_of l) v). split; [apply le_length|]. rewrite El.
      assert (P : part (le (length_of l) v) 0 (size l) = le (length_of l) v) by (apply part_all; rewrite le_length; unfold length_of; lia).
      cut (in_regs [Eightbyte 0 (size l) c] [Rax; Rdx] [0; 1]%nat (le (length_of l) v) s); [destruct (cls l); tauto|].
      cbn [in_regs e_class e_offset e_size]. rewrite P. destruct C; subst c; (split; [apply in_reg_le | exact Logic.I]).
    + set (v := match c with FloatingPoint => xm s 0%nat | _ => gp s Rax end).
      set (v' := match c, c' with
                 | FloatingPoint, FloatingPoint => xm s 1%nat | FloatingPoint, _ => gp s Rax
                 | _, FloatingPoint => xm s 0%nat | _, _ => gp s Rdx end).
      exists (le 8 v ++ le (length_of l - 8) v'). split; [rewrite app_length, !le_length; unfold length_of; lia|]. rewrite El.
      assert (P : part (le 8 v ++ le (length_of l - 8) v') 0 8 = le 8 v).
      { unfold part. cbn [N.to_nat skipn]. change (Pos.to_nat 8) with 8%nat. rewrite firstn_app, le_length, Nat.sub_diag, firstn_O, app_nil_r. apply firstn_all2. rewrite le_length. lia. }
      assert (P' : part (le 8 v ++ le (length_of l - 8) v') 8 (size l - 8) = le (length_of l - 8) v').
      { unfold part. change (N.to_nat 8) with 8%nat. rewrite skipn_app, le_length, skipn_all2 by (rewrite le_length; lia). cbn [app Nat.sub skipn].
        apply firstn_all2. rewrite le_length. unfold length_of. lia. }
      cut (in_regs [Eightbyte 0 8 c; Eightbyte 8 (size l - 8) c'] [Rax; Rdx] [0; 1]%nat (le 8 v ++ le (length_of l - 8) v') s); [destruct (cls l); tauto|].
      cbn [in_regs e_class e_offset e_size]. rewrite P, P'.
      destruct C, C'; subst c c'; (split; [apply in_reg_le|]); (split; [apply in_reg_le | exact Logic.I]).
Qed.
Lemma value_unique l bs bs' s : usable l -> value l bs s -> value l bs' s -> bs = bs'.
Proof.
  intros U [L V] [L' V']. destruct (class_cases l) as [E | [E | [N1 N2]]].
  - pose proof (proj2 (proj1 U)) as Z0. unfold length_of in *. assert (size l = 0%N) by (apply Z0; exact E).
    destruct bs, bs'; cbn in *; try lia; reflexivity.
  - rewrite E in *. pose proof (in_mem_eq (mem s) (gp s Rsp) bs bs' (length_of l) ltac:(lia) ltac:(lia) V V') as K.
    rewrite !firstn_all2 in K by lia. exact K.
  - assert (I1 : in_regs (eightbytes l) [Rax; Rdx] [0; 1]%nat bs s) by (destruct (cls l); tauto).
    assert (I2 : in_regs (eightbytes l) [Rax; Rdx] [0; 1]%nat bs' s) by (destruct (cls l); tauto).
    unfold length_of in *.
    destruct (small_eightbytes l U N1 N2) as [(c & El & Sl & C) | (c & c' & El & Sl & C & C')]; rewrite El in *;
      cbn [in_regs e_class e_offset e_size] in *.
    + rewrite !part_all in * by lia.
      destruct c; try contradiction; (eapply in_reg_unique; [exact (proj1 I1) | exact (proj1 I2) | lia]).
    + assert (A : part bs 0 8 = part bs' 0 8 /\ part bs 8 (size l - 8) = part bs' 8 (size l - 8)).
      { destruct c; try contradiction; destruct I1 as [A1 A2], I2 as [B1 B2];
          destruct c'; try contradiction; split;
          (eapply in_reg_unique; [apply A1 | apply B1 | rewrite !part_length by lia; reflexivity]) ||
          (eapply in_reg_unique; [apply A2 | apply B2 | rewrite !part_length by lia; reflexivity]). }
      destruct A as [A A']. unfold part in *. change (N.to_nat 0) with 0%nat in A. change (N.to_nat 8) with 8%nat in *. cbn [skipn] in A.
      rewrite <- (firstn_skipn 8 bs), <- (firstn_skipn 8 bs'), A. f_equal.
      rewrite !firstn_all2 in A' by (rewrite skipn_length; lia). exact A'.
Qed.

Lemma taken_in_stack l : taken (in_stack l) = taken l.
Proof. unfold taken. change (cls (in_stack l)) with (cls l). destruct (cls l); try reflexivity. rewrite !room_words. unfold words. now rewrite words_in_stack. Qed.
Lemma size_in_stack_room l : Z.of_N (size (in_stack l)) = room l.
Proof. rewrite room_words. unfold words. change (size (in_stack l)) with (num_eightbytes l * 8)%N. lia. Qed.
Lemma room_size l : Z.of_N (size l) <= room l < Z.of_N (size l) + 8.
Proof. rewrite room_words. unfold words. pose proof (words_bounds l). lia. Qed.

Lemma has_length l v s : has l v s -> List.length v = length_of l.
Proof. intros (bs & [L _] & [L' _]). lia. Qed.

(** A value seen as whole eightbytes. *)
Lemma has_widen l v s : usable l -> has l v s ->
  has (in_stack l) (v ++ undefined (Z.to_nat (room l) - List.length v)) s.
Proof.
  intros U (bs & M & V). pose proof (usable_in_stack l U) as Ui. destruct (value_any (in_stack l) s Ui) as [bs' V'].
  pose proof (room_size l) as Rs. pose proof (size_in_stack_room l) as Sr. pose proof (proj1 V) as L. pose proof (proj1 V') as L'. pose proof (proj1 M) as Lm. unfold length_of in *.
  assert (P : part bs' 0 (size l) = bs).
  { apply value_unique with l s; [exact U | | exact V].
    apply value_first with (in_stack l); try assumption; [lia | now rewrite words_in_stack | now rewrite classes_in_stack]. }
  exists bs'. split; [|exact V']. rewrite <- (firstn_skipn (N.to_nat (size l)) bs').
  replace (firstn (N.to_nat (size l)) bs') with bs by (rewrite <- P; reflexivity).
  apply vmatch_app; [exact M|]. apply vmatch_undefined. rewrite skipn_length. lia.
Qed.
Lemma has_narrow l v s : usable l -> has (in_stack l) v s -> has l (firstn (length_of l) v) s.
Proof.
  intros U (bs & M & V). pose proof (usable_in_stack l U) as Ui. pose proof (room_size l). pose proof (size_in_stack_room l).
  exists (part bs 0 (size l)). split.
  - apply (vmatch_part v bs 0 (size l)) in M. exact M.
  - apply value_first with (in_stack l); try assumption; [lia | now rewrite words_in_stack | now rewrite classes_in_stack].
Qed.

(** ** Instructions on values with undefined bytes *)
Lemma push_has l v s : usable l -> has l v s ->
  let s' := run (fst (push l)) s in
  holds (mem s') (gp s' Rsp) v /\ gp s' Rsp = gp s Rsp + taken l - room l /\ snd (push l) * 8 = room l - taken l /\
  same_outside (gp s' Rsp) (gp s Rsp) s s' /\ same_regs s s'.
Proof.
  intros U (bs & M & V). destruct (push_ok l bs s U V) as ([_ P] & R). split; [|exact R]. now apply holds_match with bs.
Qed.
Lemma pop_has l v s : usable l -> List.length v = length_of l -> holds (mem s) (gp s Rsp) v ->
  let s' := run (fst (pop l)) s in
  has l v s' /\ gp s' Rsp = gp s Rsp + room l - taken l /\ snd (pop l) * 8 = taken l - room l /\
  mem s' = mem s /\ same_regs s s'.
Proof.
  intros U L H. pose proof (match_bytes _ _ _ H) as M.
  destruct (pop_ok l (bytes_of (mem s) (gp s Rsp) (List.length v)) s U) as (V & R).
  { split; [rewrite bytes_of_length; exact L | apply in_bytes_of]. }
  split; [|exact R]. eexists. split; [exact M | exact V].
Qed.
Lemma load_has a l v s : usable l -> address_ok a -> List.length v = length_of l -> holds (mem s) (ea a s) v ->
  apart (ea a s) (Z.of_N (size l)) (gp s Rsp - taken l) (taken l) ->
  let s' := run (fst (load a l)) s in
  has l v s' /\ gp s' Rsp = gp s Rsp - taken l /\ snd (load a l) * 8 = taken l /\
  same_outside (gp s Rsp - taken l) (gp s Rsp) s s' /\ same_regs s s'.
Proof.
  intros U A L H Ap. pose proof (match_bytes _ _ _ H) as M.
  destruct (load_ok a l (bytes_of (mem s) (ea a s) (List.length v)) s U A) as (V & R);
    [rewrite bytes_of_length; exact L | apply in_bytes_of | exact Ap|].
  split; [|exact R]. eexists. split; [exact M | exact V].
Qed.
Lemma store_has a l v s : usable l -> address_ok a -> has l v s ->
  apart (ea a s) (Z.of_N (size l)) (gp s Rsp) (taken l) ->
  let s' := run (fst (store a l)) s in
  holds (mem s') (ea a s) v /\ gp s' Rsp = gp s Rsp + taken l /\ snd (store a l) * 8 = - taken l /\
  same_outside (ea a s) (ea a s + Z.of_N (size l)) s s' /\ same_regs s s'.
Proof.
  intros U A (bs & M & V) Ap. destruct (store_ok a l bs s U A V Ap) as (H & R). split; [|exact R]. now apply holds_match with bs.
Qed.
(** Variables take whole eightbytes. *)
Lemma load_var a l v s : usable l -> address_ok a -> List.length v = length_of l -> holds (mem s) (ea a s) v ->
  gp s Rsp <= ea a s ->
  let s' := run (fst (load a (in_stack l))) s in
  has l v s' /\ gp s' Rsp = gp s Rsp - taken l /\ snd (load a (in_stack l)) * 8 = taken l /\
  same_outside (gp s Rsp - taken l) (gp s Rsp) s s' /\ same_regs s s'.
Proof.
  intros U A L H Ap. pose proof (usable_in_stack l U) as Ui. pose proof (room_size l). pose proof (size_in_stack_room l). unfold length_of in L.
  rewrite <- (taken_in_stack l).
  destruct (load_has a (in_stack l) (v ++ undefined (Z.to_nat (room l) - List.length v)) s Ui A) as (V & R).
  - rewrite app_length. unfold undefined. rewrite repeat_length. unfold length_of. lia.
  - apply holds_app. split; [exact H | apply holds_undefined].
  - intros x Hx. lia.
  - split; [|exact R]. apply has_narrow in V; [|exact U]. rewrite <- (app_nil_r v). replace (length_of l) with (List.length v) in V by exact L.
    rewrite firstn_app, firstn_all, Nat.sub_diag in V. rewrite <- (app_nil_r v) in V at 1. cbn in V. rewrite !app_nil_r in *. exact V.
Qed.
Lemma store_var a l v s : usable l -> address_ok a -> has l v s ->
  apart (ea a s) (room l) (gp s Rsp) (taken l) ->
  let s' := run (fst (store a (in_stack l))) s in
  holds (mem s') (ea a s) v /\ gp s' Rsp = gp s Rsp + taken l /\ snd (store a (in_stack l)) * 8 = - taken l /\
  same_outside (ea a s) (ea a s + room l) s s' /\ same_regs s s'.
Proof.
  intros U A H Ap. rewrite <- (taken_in_stack l), <- size_in_stack_room in *. apply has_widen in H; [|exact U].
  destruct (store_has a (in_stack l) _ s (usable_in_stack l U) A H Ap) as (V & R). split; [|exact R].
  now apply holds_app in V.
Qed.

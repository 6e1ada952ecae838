(** Bitmaps and the arrays they index: each is a finite map from the bits. *)
From Verif.Base Require Import Base Buf.
From Verif.Hamt Require Import Model.
From Coq Require Import Lia.
Local Open Scope N_scope.
Local Open Scope list_scope.

Fixpoint cnt (m : N) (i : nat) : nat :=
  match i with O => O | S i => (cnt m i + (if N.testbit m (N.of_nat i) then 1 else 0))%nat end.
Definition bit (i : nat) : N := 2 ^ N.of_nat i.

Lemma cnt_shift m n : cnt m (S n) = ((if N.testbit m 0 then 1 else 0) + cnt (N.div2 m) n)%nat.
Proof.
  induction n as [|n IH]; [cbn [cnt N.of_nat]; lia|].
  change (cnt m (S (S n))) with (cnt m (S n) + (if N.testbit m (N.of_nat (S n)) then 1 else 0))%nat; rewrite IH.
  cbn [cnt]; rewrite N.div2_spec, N.shiftr_spec by lia.
  replace (N.of_nat n + 1) with (N.of_nat (S n)) by lia; lia.
Qed.
Lemma popcount_step m : popcount m = ((if N.testbit m 0 then 1 else 0) + popcount (N.div2 m))%nat.
Proof. destruct m as [|[p|p|]]; reflexivity. Qed.
Lemma popcount_cnt n m : m < 2 ^ N.of_nat n -> popcount m = cnt m n.
Proof.
  revert m; induction n as [|n IH]; intros m H; [replace m with 0 by (cbn in H; lia); reflexivity|].
  rewrite popcount_step, cnt_shift, <- IH; [reflexivity|].
  rewrite N.div2_div; apply N.div_lt_upper_bound; [lia|].
  replace (2 * 2 ^ N.of_nat n) with (2 ^ N.of_nat (S n)); [exact H|].
  rewrite Nat2N.inj_succ, N.pow_succ_r'; reflexivity.
Qed.
Lemma cnt_ext m m' i : (forall j, (j < i)%nat -> N.testbit m (N.of_nat j) = N.testbit m' (N.of_nat j)) -> cnt m i = cnt m' i.
Proof. induction i as [|i IH]; intros H; [reflexivity|]; cbn [cnt]; rewrite IH, H by (auto; lia); reflexivity. Qed.
Lemma cnt_le m i j : (i <= j)%nat -> (cnt m i <= cnt m j)%nat.
Proof. induction 1; cbn [cnt]; lia. Qed.
Lemma cnt_lt m i j : (i < j)%nat -> N.testbit m (N.of_nat i) = true -> (cnt m i < cnt m j)%nat.
Proof. intros H E; pose proof (cnt_le m (S i) j H); cbn [cnt] in *; rewrite E in *; lia. Qed.
Lemma bit_pos i : 0 < bit i.
Proof. unfold bit; pose proof (N.pow_nonzero 2 (N.of_nat i)); lia. Qed.
Lemma bit_small i : (i < 32)%nat -> bit i < w32.
Proof. intros H; apply N.pow_lt_mono_r; lia. Qed.
Lemma testbit_small m n j : m < 2 ^ n -> n <= j -> N.testbit m j = false.
Proof.
  intros H L; destruct (N.eq_dec m 0) as [->|Z]; [apply N.bits_0|].
  apply N.bits_above_log2, (N.lt_le_trans _ n); [|exact L]; apply N.log2_lt_pow2; lia.
Qed.
Lemma small_bits m n : (forall j, n <= j -> N.testbit m j = false) -> m < 2 ^ n.
Proof.
  intros H; destruct (N.eq_dec m 0) as [->|Z]; [pose proof (N.pow_nonzero 2 n); lia|].
  apply N.log2_lt_pow2; [lia|]; destruct (N.lt_ge_cases (N.log2 m) n) as [|G]; [assumption|].
  pose proof (H _ G) as F; rewrite N.bit_log2 in F by exact Z; discriminate F.
Qed.

Lemma bucket_index_cnt m i : (i < 32)%nat -> bucket_index m (bit i) = cnt m i.
Proof.
  intros H; unfold bucket_index.
  replace ((bit i + w32 - 1) mod w32) with (N.ones (N.of_nat i)).
  2:{ pose proof (bit_pos i); pose proof (bit_small i H); rewrite N.ones_equiv; fold (bit i).
      replace (bit i + w32 - 1) with (bit i - 1 + 1 * w32) by lia.
      rewrite N.mod_add, N.mod_small by (try lia; unfold w32; lia); lia. }
  rewrite (popcount_cnt i).
  - apply cnt_ext; intros j L; rewrite N.land_spec, N.ones_spec_low, Bool.andb_true_r by lia; reflexivity.
  - apply small_bits; intros j L; rewrite N.land_spec, N.ones_spec_high, Bool.andb_false_r by lia; reflexivity.
Qed.
Lemma testbit_bit i j : N.testbit (bit i) (N.of_nat j) = Nat.eqb i j.
Proof.
  unfold bit; destruct (Nat.eqb_spec i j) as [->|D]; [apply N.pow2_bits_true|apply N.pow2_bits_false; lia].
Qed.
Lemma bits_nat (a b : N) : (forall j, N.testbit a (N.of_nat j) = N.testbit b (N.of_nat j)) -> a = b.
Proof. intros H; apply N.bits_inj; intros j; rewrite <- (N2Nat.id j); apply H. Qed.
Lemma exists_test m i : exists_ m (bit i) = N.testbit m (N.of_nat i).
Proof.
  unfold exists_; destruct (N.eqb_spec (N.land m (bit i)) 0) as [E|E]; cbn [negb].
  - apply (f_equal (fun x => N.testbit x (N.of_nat i))) in E.
    rewrite N.land_spec, testbit_bit, Nat.eqb_refl, Bool.andb_true_r, N.bits_0 in E; auto.
  - destruct (N.testbit m (N.of_nat i)) eqn:T; [reflexivity|destruct E; apply bits_nat; intros j].
    rewrite N.land_spec, testbit_bit, N.bits_0; destruct (Nat.eqb_spec i j) as [<-|]; [rewrite T|rewrite Bool.andb_false_r]; reflexivity.
Qed.
Lemma testbit_add m i j : N.testbit (add m (bit i)) (N.of_nat j) = N.testbit m (N.of_nat j) || Nat.eqb i j.
Proof. unfold add; rewrite N.lor_spec, testbit_bit; reflexivity. Qed.
Lemma testbit_remove m i j : m < w32 -> (i < 32)%nat -> N.testbit (remove_bit m (bit i)) (N.of_nat j) = N.testbit m (N.of_nat j) && negb (Nat.eqb i j).
Proof.
  intros S H; unfold remove_bit; rewrite N.land_spec, N.lxor_spec, testbit_bit.
  destruct (Nat.ltb_spec j 32) as [L|L].
  - change (w32 - 1) with (N.ones 32); rewrite N.ones_spec_low by lia; destruct (Nat.eqb i j); reflexivity.
  - rewrite (testbit_small m 32) by (trivial; lia); reflexivity.
Qed.
Lemma add_small m i : m < w32 -> (i < 32)%nat -> add m (bit i) < w32.
Proof.
  intros S H; apply small_bits; intros j L; rewrite <- (N2Nat.id j), testbit_add.
  rewrite (testbit_small m 32) by (trivial; lia); destruct (Nat.eqb_spec i (N.to_nat j)); [lia|reflexivity].
Qed.
Lemma remove_small m i : m < w32 -> (i < 32)%nat -> remove_bit m (bit i) < w32.
Proof.
  intros S H; apply small_bits; intros j L; rewrite <- (N2Nat.id j), testbit_remove by assumption.
  rewrite (testbit_small m 32) by (trivial; lia); reflexivity.
Qed.
Lemma bit_index_bit i : i < 32 -> bit_index i = bit (N.to_nat i).
Proof.
  intros H; unfold bit_index, bit; rewrite N.shiftl_1_l, N2Nat.id, N.mod_small; [reflexivity|].
  apply N.pow_lt_mono_r; lia.
Qed.
Lemma cnt_bit_low i j : (j <= i)%nat -> cnt (bit i) j = O.
Proof.
  induction j as [|j IH]; intros H; [reflexivity|]; cbn [cnt]; rewrite testbit_bit, IH by lia.
  destruct (Nat.eqb_spec i j); [lia|reflexivity].
Qed.

(** ** Arrays of buckets *)
Section Buckets.
Context {A : Type}.
Implicit Types l : list A.

Definition bget (m : N) l (i : nat) : option A := if N.testbit m (N.of_nat i) then nth_error l (cnt m i) else None.
Definition bok (m : N) l : Prop := m < w32 /\ List.length l = cnt m 32.

Lemma bok_nil : bok 0 [].
Proof. split; reflexivity. Qed.
Lemma bget_nil i : bget 0 [] i = None.
Proof. reflexivity. Qed.
Lemma buckets_length_ok m l : bok m l -> buckets_length m = List.length l.
Proof. intros [S E]; rewrite E; apply (popcount_cnt 32), S. Qed.
Lemma bget_test m l i : bok m l -> (i < 32)%nat -> N.testbit m (N.of_nat i) = match bget m l i with Some _ => true | None => false end.
Proof.
  intros [S E] H; unfold bget; destruct (N.testbit m (N.of_nat i)) eqn:T; [|reflexivity].
  pose proof (cnt_lt m i 32 H T); rewrite <- E in *.
  destruct (nth_error l (cnt m i)) eqn:G; [reflexivity|apply nth_error_None in G; lia].
Qed.
Lemma exists_bget m l i : bok m l -> (i < 32)%nat -> exists_ m (bit i) = match bget m l i with Some _ => true | None => false end.
Proof. intros; rewrite exists_test; now apply bget_test. Qed.
Lemma get_bget m l i x : (i < 32)%nat -> bget m l i = Some x -> buckets_get m (bit i) l = Ret x.
Proof.
  intros H; unfold bget, buckets_get; rewrite bucket_index_cnt by exact H; destruct (N.testbit _ _); [intros ->; reflexivity|discriminate].
Qed.

Lemma part_ok src n l : (src + n <= List.length l)%nat -> part src n l = Ret (firstn n (skipn src l)).
Proof. intros H; unfold part; now rewrite (proj2 (Nat.leb_le _ _) H). Qed.

Lemma cnt_add m i j : N.testbit m (N.of_nat i) = false -> cnt (add m (bit i)) j = (cnt m j + (if Nat.ltb i j then 1 else 0))%nat.
Proof.
  intros T; induction j as [|j IH]; [reflexivity|]; cbn [cnt]; rewrite IH, testbit_add.
  destruct (Nat.eqb_spec i j) as [<-|D].
  - rewrite T, (proj2 (Nat.ltb_lt i (S i))), (proj2 (Nat.ltb_ge i i)) by lia; reflexivity.
  - rewrite Bool.orb_false_r; destruct (N.testbit m (N.of_nat j)), (Nat.ltb_spec i j), (Nat.ltb_spec i (S j)); lia.
Qed.
Lemma cnt_remove m i j : m < w32 -> (i < 32)%nat -> N.testbit m (N.of_nat i) = true ->
  (cnt (remove_bit m (bit i)) j + (if Nat.ltb i j then 1 else 0) = cnt m j)%nat.
Proof.
  intros S H T; induction j as [|j IH]; [reflexivity|]; cbn [cnt]; rewrite testbit_remove by assumption.
  destruct (Nat.eqb_spec i j) as [<-|D].
  - rewrite T; rewrite (proj2 (Nat.ltb_lt i (Datatypes.S i))) in *; rewrite (proj2 (Nat.ltb_ge i i)) in * by lia; cbn [negb andb]; lia.
  - rewrite Bool.andb_true_r; destruct (N.testbit m (N.of_nat j)), (Nat.ltb_spec i j), (Nat.ltb_spec i (Datatypes.S j)); lia.
Qed.

Lemma nth_ins (r p : nat) (x : A) l : (r <= List.length l)%nat ->
  nth_error (firstn r l ++ x :: skipn r l) p = if Nat.ltb p r then nth_error l p else if Nat.eqb p r then Some x else nth_error l (p - 1).
Proof.
  intros H; destruct (Nat.ltb_spec p r) as [L|L].
  - rewrite nth_error_app1 by (rewrite firstn_length_le; lia).
    rewrite <- (firstn_skipn r l) at 2; rewrite nth_error_app1 by (rewrite firstn_length_le; lia); reflexivity.
  - rewrite nth_error_app2, firstn_length_le by (rewrite ?firstn_length_le; lia).
    destruct (Nat.eqb_spec p r) as [->|D]; [rewrite Nat.sub_diag; reflexivity|].
    replace (p - r)%nat with (S (p - 1 - r)) by lia; cbn [nth_error].
    rewrite <- (firstn_skipn r l) at 2; rewrite nth_error_app2, firstn_length_le by (rewrite ?firstn_length_le; lia); reflexivity.
Qed.
Lemma nth_del (r p : nat) l : (r < List.length l)%nat ->
  nth_error (firstn r l ++ skipn (S r) l) p = if Nat.ltb p r then nth_error l p else nth_error l (S p).
Proof.
  intros H; destruct (Nat.ltb_spec p r) as [L|L].
  - rewrite nth_error_app1 by (rewrite firstn_length_le; lia).
    rewrite <- (firstn_skipn r l) at 2; rewrite nth_error_app1 by (rewrite firstn_length_le; lia); reflexivity.
  - rewrite nth_error_app2, firstn_length_le by (rewrite ?firstn_length_le; lia).
    rewrite <- (firstn_skipn (S r) l) at 2; rewrite nth_error_app2, firstn_length_le by (rewrite ?firstn_length_le; lia).
    f_equal; lia.
Qed.
Lemma nth_upd (r p : nat) (x : A) l : (r < List.length l)%nat ->
  nth_error (firstn r l ++ x :: skipn (S r) l) p = if Nat.eqb p r then Some x else nth_error l p.
Proof.
  intros H; destruct (Nat.ltb_spec p r) as [L|L].
  - rewrite nth_error_app1 by (rewrite firstn_length_le; lia).
    rewrite (proj2 (Nat.eqb_neq p r)) by lia.
    rewrite <- (firstn_skipn r l) at 2; rewrite nth_error_app1 by (rewrite firstn_length_le; lia); reflexivity.
  - rewrite nth_error_app2, firstn_length_le by (rewrite ?firstn_length_le; lia).
    destruct (Nat.eqb_spec p r) as [->|D]; [rewrite Nat.sub_diag; reflexivity|].
    replace (p - r)%nat with (S (p - S r)) by lia; cbn [nth_error].
    rewrite <- (firstn_skipn (S r) l) at 2; rewrite nth_error_app2, firstn_length_le by (rewrite ?firstn_length_le; lia); reflexivity.
Qed.

Lemma add_ok m l i x : bok m l -> (i < 32)%nat -> bget m l i = None ->
  exists m' l', buckets_add m (bit i) x l = Ret (m', l') /\ bok m' l' /\
    forall j, (j < 32)%nat -> bget m' l' j = if Nat.eqb j i then Some x else bget m l j.
Proof.
  intros B H G; pose proof (bget_test m l i B H) as T; rewrite G in T; destruct B as [S E].
  pose proof (cnt_le m i 32 ltac:(lia)) as Le.
  unfold buckets_add; rewrite bucket_index_cnt, (buckets_length_ok m l) by (trivial; split; trivial).
  rewrite !part_ok by lia; cbn [bind].
  replace (firstn (List.length l - cnt m i) (skipn (cnt m i) l)) with (skipn (cnt m i) l).
  2:{ rewrite firstn_all2; [reflexivity|rewrite skipn_length; lia]. }
  change (skipn 0 l) with l; eexists _, _; split; [reflexivity|]; split.
  - split; [now apply add_small|].
    rewrite cnt_add, (proj2 (Nat.ltb_lt i 32)), app_length, firstn_length_le by (trivial; lia); cbn [List.length]; rewrite skipn_length; lia.
  - intros j J; unfold bget; rewrite testbit_add, cnt_add, nth_ins by (trivial; lia).
    destruct (Nat.eqb_spec j i) as [->|D].
    + rewrite Nat.eqb_refl, Bool.orb_true_r, (proj2 (Nat.ltb_ge i i)), Nat.add_0_r, (proj2 (Nat.ltb_ge (cnt m i) (cnt m i))), Nat.eqb_refl by lia; reflexivity.
    + rewrite (proj2 (Nat.eqb_neq i j)), Bool.orb_false_r by lia.
      destruct (N.testbit m (N.of_nat j)) eqn:Tj; [|reflexivity].
      destruct (Nat.ltb_spec i j) as [L|L].
      * pose proof (cnt_le m i j ltac:(lia)).
        rewrite (proj2 (Nat.ltb_ge _ _)), (proj2 (Nat.eqb_neq _ _)) by lia; f_equal; lia.
      * pose proof (cnt_lt m j i ltac:(lia) Tj).
        rewrite Nat.add_0_r, (proj2 (Nat.ltb_lt _ _)) by lia; reflexivity.
Qed.
Lemma update_ok m l i x y : bok m l -> (i < 32)%nat -> bget m l i = Some y ->
  exists l', buckets_update m (bit i) x l = Ret l' /\ bok m l' /\
    forall j, (j < 32)%nat -> bget m l' j = if Nat.eqb j i then Some x else bget m l j.
Proof.
  intros B H G; pose proof (bget_test m l i B H) as T; rewrite G in T; destruct B as [S E].
  pose proof (cnt_lt m i 32 H T) as Lt.
  unfold buckets_update; rewrite bucket_index_cnt, (buckets_length_ok m l) by (trivial; split; trivial).
  rewrite !part_ok by lia; cbn [bind]; change (skipn 0 l) with l; rewrite firstn_all, (proj2 (Nat.ltb_lt _ _)) by lia.
  eexists; split; [reflexivity|]; split.
  - split; [exact S|]; rewrite app_length, firstn_length_le by lia; cbn [List.length]; rewrite skipn_length; lia.
  - intros j J; unfold bget; rewrite nth_upd by lia.
    destruct (Nat.eqb_spec j i) as [->|D]; [rewrite T, Nat.eqb_refl; reflexivity|].
    destruct (N.testbit m (N.of_nat j)) eqn:Tj; [|reflexivity].
    destruct (Nat.lt_ge_cases i j).
    + pose proof (cnt_lt m i j ltac:(lia) T); rewrite (proj2 (Nat.eqb_neq _ _)) by lia; reflexivity.
    + pose proof (cnt_lt m j i ltac:(lia) Tj); rewrite (proj2 (Nat.eqb_neq _ _)) by lia; reflexivity.
Qed.
Lemma cnt_zero m n : cnt m n = O -> forall j, (j < n)%nat -> N.testbit m (N.of_nat j) = false.
Proof.
  intros Z j L; destruct (N.testbit m (N.of_nat j)) eqn:T; [|reflexivity]; pose proof (cnt_lt m j n L T); lia.
Qed.
Lemma remove_ok m l i y : bok m l -> (i < 32)%nat -> bget m l i = Some y ->
  exists m' l', buckets_remove m (bit i) l = Ret (m', l') /\ bok m' l' /\
    forall j, (j < 32)%nat -> bget m' l' j = if Nat.eqb j i then None else bget m l j.
Proof.
  intros B H G; pose proof (bget_test m l i B H) as T; rewrite G in T; destruct B as [S E].
  pose proof (cnt_lt m i 32 H T) as Lt.
  unfold buckets_remove; rewrite bucket_index_cnt, (buckets_length_ok m l) by (trivial; split; trivial).
  pose proof (fun j => cnt_remove m i j S H T) as C.
  destruct (Nat.eqb_spec (List.length l) 1) as [One|Many].
  - exists 0, []; split; [reflexivity|]; split; [apply bok_nil|]; intros j J; rewrite bget_nil.
    destruct (Nat.eqb_spec j i) as [|D]; [reflexivity|]; unfold bget.
    specialize (C 32%nat); rewrite (proj2 (Nat.ltb_lt i 32) H) in C.
    assert (Z : cnt (remove_bit m (bit i)) 32 = O) by lia.
    pose proof (cnt_zero _ _ Z j J) as F; rewrite testbit_remove, (proj2 (Nat.eqb_neq i j)), Bool.andb_true_r in F by (trivial; lia).
    rewrite F; reflexivity.
  - rewrite !part_ok by lia; cbn [bind]; change (skipn 0 l) with l.
    replace (firstn (List.length l - 1 - cnt m i) (skipn (cnt m i + 1) l)) with (skipn (Datatypes.S (cnt m i)) l).
    2:{ rewrite Nat.add_1_r, firstn_all2; [reflexivity|rewrite skipn_length; lia]. }
    eexists _, _; split; [reflexivity|]; split.
    + split; [now apply remove_small|]; specialize (C 32%nat); rewrite (proj2 (Nat.ltb_lt i 32) H) in C.
      rewrite app_length, firstn_length_le, skipn_length by lia; lia.
    + intros j J; unfold bget; rewrite testbit_remove, nth_del by (trivial; lia).
      specialize (C j).
      destruct (Nat.eqb_spec j i) as [->|D]; [rewrite Nat.eqb_refl, Bool.andb_false_r; reflexivity|].
      rewrite (proj2 (Nat.eqb_neq i j)), Bool.andb_true_r by lia.
      destruct (N.testbit m (N.of_nat j)) eqn:Tj; [|reflexivity].
      destruct (Nat.ltb_spec i j) as [L|L].
      * pose proof (cnt_lt m i j L T); rewrite (proj2 (Nat.ltb_ge _ _)) by lia; f_equal; lia.
      * pose proof (cnt_lt m j i ltac:(lia) Tj); rewrite Nat.add_0_r in C; rewrite C, (proj2 (Nat.ltb_lt _ _)) by lia; reflexivity.
Qed.

Lemma bget_in m l i x : bget m l i = Some x -> In x l.
Proof. unfold bget; destruct (N.testbit _ _); [apply nth_error_In|discriminate]. Qed.
Lemma one_bucket m l i x : bok m l -> bget m l i = Some x -> (1 <= List.length l)%nat.
Proof. intros _ G; apply bget_in in G; destruct l; [contradiction G|cbn; lia]. Qed.
Lemma two_buckets m l i j x y : bok m l -> (i < 32)%nat -> (j < 32)%nat -> i <> j -> bget m l i = Some x -> bget m l j = Some y -> (2 <= List.length l)%nat.
Proof.
  intros B Hi Hj D Gi Gj; pose proof (bget_test _ _ _ B Hi) as Ti; pose proof (bget_test _ _ _ B Hj) as Tj; rewrite Gi in Ti; rewrite Gj in Tj.
  destruct B as [_ ->]; destruct (Nat.lt_ge_cases i j).
  - pose proof (cnt_lt m i j ltac:(lia) Ti); pose proof (cnt_lt m j 32 Hj Tj); lia.
  - pose proof (cnt_lt m j i ltac:(lia) Tj); pose proof (cnt_lt m i 32 Hi Ti); lia.
Qed.
Lemma cnt_onto m n p : (p < cnt m n)%nat -> exists j, (j < n)%nat /\ N.testbit m (N.of_nat j) = true /\ cnt m j = p.
Proof.
  induction n as [|n IH]; cbn [cnt]; [lia|]; intros H; destruct (Nat.lt_ge_cases p (cnt m n)) as [L|L].
  - destruct (IH L) as (j & ? & ?); exists j; split; [lia|assumption].
  - destruct (N.testbit m (N.of_nat n)) eqn:T; [|lia]; exists n; split; [lia|split; [exact T|lia]].
Qed.
Lemma bget_onto m l p x : bok m l -> nth_error l p = Some x -> exists j, (j < 32)%nat /\ cnt m j = p /\ bget m l j = Some x.
Proof.
  intros [S E] G; assert (Lp : (p < cnt m 32)%nat) by (rewrite <- E; apply nth_error_Some; congruence).
  destruct (cnt_onto _ _ _ Lp) as (j & Hj & T & Ec); exists j; split; [exact Hj|]; split; [exact Ec|]; unfold bget; rewrite T, Ec; exact G.
Qed.
Lemma two_indices m l : bok m l -> (2 <= List.length l)%nat ->
  exists i j x y, (i < 32)%nat /\ (j < 32)%nat /\ i <> j /\ bget m l i = Some x /\ bget m l j = Some y.
Proof.
  intros B H; destruct l as [|x [|y l]]; cbn in H; try lia.
  destruct (bget_onto m (x :: y :: l) 0 x B eq_refl) as (i & Hi & Ei & Gi); destruct (bget_onto m (x :: y :: l) 1 y B eq_refl) as (j & Hj & Ej & Gj).
  exists i, j, x, y; repeat split; trivial; intros ->; lia.
Qed.
Lemma bok_one (x : A) i : (i < 32)%nat -> bok (add 0 (bit i)) [x].
Proof.
  intros H; split; [apply add_small; [reflexivity|exact H]|].
  rewrite cnt_add, (proj2 (Nat.ltb_lt i 32)) by (trivial; apply N.bits_0); reflexivity.
Qed.
Lemma bget_one (x : A) i j : (j < 32)%nat -> bget (add 0 (bit i)) [x] j = if Nat.eqb j i then Some x else None.
Proof.
  intros H; unfold bget; rewrite testbit_add, N.bits_0, cnt_add by apply N.bits_0; cbn [orb].
  rewrite Nat.eqb_sym; destruct (Nat.eqb_spec j i) as [->|]; [|reflexivity].
  rewrite (proj2 (Nat.ltb_ge i i)) by lia.
  replace (cnt 0 i) with O; [reflexivity|]; clear; induction i; cbn [cnt]; rewrite <- ?IHi, ?N.bits_0; reflexivity.
Qed.
End Buckets.

Lemma merges_exact {A B} emap cmap (elems : list A) (children : list B) : bok emap elems -> bok cmap children -> merges emap cmap = true ->
  exists i e, (i < 32)%nat /\ emap = bit i /\ elems = [e] /\ (cmap = 0 /\ children = [] \/ exists c, cmap = bit i /\ children = [c]).
Proof.
  intros Be Bc M; unfold merges in M; apply andb_prop in M as [M1 M2].
  apply Nat.eqb_eq in M1; apply N.eqb_eq in M2; rewrite (buckets_length_ok _ _ Be) in M1.
  destruct elems as [|e [|]]; try discriminate M1; destruct Be as [Se Le]; cbn [List.length] in Le.
  assert (I : exists i, (i < 32)%nat /\ N.testbit emap (N.of_nat i) = true /\ forall j, (j < 32)%nat -> j <> i -> N.testbit emap (N.of_nat j) = false).
  { clear - Le; revert Le; generalize 32%nat as n; induction n as [|n IH]; cbn [cnt]; [discriminate|].
    destruct (N.testbit emap (N.of_nat n)) eqn:T; intros E.
    - exists n; split; [lia|]; split; [exact T|]; intros j J D; apply (cnt_zero emap n); lia.
    - destruct IH as (i & L & Ti & O); [lia|]; exists i; split; [lia|]; split; [exact Ti|].
      intros j J D; destruct (Nat.eq_dec j n) as [->|]; [exact T|apply O; lia]. }
  destruct I as (i & L & Ti & O); exists i, e; split; [exact L|].
  assert (Ee : emap = bit i).
  { apply bits_nat; intros j; rewrite testbit_bit; destruct (Nat.eqb_spec i j) as [<-|D]; [exact Ti|].
    destruct (Nat.lt_ge_cases j 32); [apply O; auto|apply (testbit_small _ 32); [exact Se|lia]]. }
  split; [exact Ee|]; split; [reflexivity|].
  assert (Oc : forall j, j <> i -> N.testbit cmap (N.of_nat j) = false).
  { intros j D; destruct Bc as [Sc _].
    destruct (Nat.lt_ge_cases j 32) as [J|J]; [|apply (testbit_small _ 32); [exact Sc|lia]].
    apply (f_equal (fun x => N.testbit x (N.of_nat j))) in M2; rewrite N.land_spec, N.lxor_spec, N.bits_0 in M2.
    rewrite O in M2 by assumption; change (w32 - 1) with (N.ones 32) in M2; rewrite N.ones_spec_low in M2 by lia.
    now rewrite Bool.andb_true_r in M2. }
  destruct (N.testbit cmap (N.of_nat i)) eqn:Tc.
  - right.
    assert (Ec : cmap = bit i).
    { apply bits_nat; intros j; rewrite testbit_bit; destruct (Nat.eqb_spec i j) as [<-|D]; [exact Tc|apply Oc; auto]. }
    destruct Bc as [_ Lc]; rewrite Ec, <- Ee, <- Le in Lc; destruct children as [|c [|]]; try discriminate Lc; eauto.
  - left.
    assert (Ec : cmap = 0).
    { apply bits_nat; intros j; rewrite N.bits_0; destruct (Nat.eq_dec j i) as [->|D]; [exact Tc|apply Oc; auto]. }
    split; [exact Ec|]; destruct Bc as [_ Lc]; rewrite Ec in Lc; destruct children; [reflexivity|discriminate Lc].
Qed.

Lemma merges_not {A B} emap cmap (elems : list A) (children : list B) : bok emap elems -> bok cmap children -> merges emap cmap = false ->
  List.length elems <> 1%nat \/ exists j c, (j < 32)%nat /\ bget emap elems j = None /\ bget cmap children j = Some c.
Proof.
  intros Be Bc M; unfold merges in M; rewrite (buckets_length_ok _ _ Be) in M.
  destruct (Nat.eqb_spec (List.length elems) 1) as [E|E]; [right|left; exact E]; cbn [andb] in M.
  apply N.eqb_neq in M; pose proof Bc as [Sc _].
  assert (X : exists j, (j < 32)%nat /\ N.testbit emap (N.of_nat j) = false /\ N.testbit cmap (N.of_nat j) = true).
  { assert (Lt : N.land cmap (N.lxor emap (w32 - 1)) < 2 ^ 32).
    { apply small_bits; intros j L; rewrite N.land_spec, (testbit_small cmap 32) by (trivial; lia); reflexivity. }
    set (z := N.land cmap (N.lxor emap (w32 - 1))) in *.
    assert (T : N.testbit z (N.log2 z) = true) by (apply N.bit_log2, M).
    assert (J : N.log2 z < 32) by (apply N.log2_lt_pow2; lia).
    exists (N.to_nat (N.log2 z)); split; [lia|]; rewrite N2Nat.id; unfold z in T; fold z in T.
    assert (T' : N.testbit cmap (N.log2 z) && N.testbit (N.lxor emap (w32 - 1)) (N.log2 z) = true) by (rewrite <- N.land_spec; exact T).
    apply andb_prop in T' as [Tc Te]; rewrite N.lxor_spec in Te; change (w32 - 1) with (N.ones 32) in Te; rewrite N.ones_spec_low in Te by exact J.
    split; [destruct (N.testbit emap (N.log2 z)); [discriminate Te|reflexivity]|exact Tc]. }
  destruct X as (j & Hj & Te & Tc); rewrite (bget_test _ _ _ Be Hj) in Te; rewrite (bget_test _ _ _ Bc Hj) in Tc.
  destruct (bget emap elems j) eqn:Ge; [discriminate Te|]; destruct (bget cmap children j) as [c|] eqn:Gc; [|discriminate Tc].
  exists j, c; auto.
Qed.

Lemma popcount_ones i : popcount (N.ones (N.of_nat i)) = i.
Proof.
  rewrite (popcount_cnt i) by (rewrite N.ones_equiv; pose proof (N.pow_nonzero 2 (N.of_nat i)); lia).
  assert (H : forall j, (j <= i)%nat -> cnt (N.ones (N.of_nat i)) j = j); [|now apply H].
  induction j as [|j IH]; intros L; [reflexivity|]; cbn [cnt]; rewrite IH, N.ones_spec_low by lia; lia.
Qed.
Lemma restore_ok i h : (i < 32)%nat -> h < 2 ^ 59 -> restore_hash (bit i) h = h * 32 + N.of_nat i.
Proof.
  intros H Hh; unfold restore_hash.
  replace ((bit i + w32 - 1) mod w32) with (N.ones (N.of_nat i)).
  2:{ pose proof (bit_pos i); pose proof (bit_small i H); rewrite N.ones_equiv; fold (bit i).
      replace (bit i + w32 - 1) with (bit i - 1 + 1 * w32) by lia.
      rewrite N.mod_add, N.mod_small by (try lia; unfold w32; lia); lia. }
  rewrite popcount_ones, N.shiftl_mul_pow2; change (2 ^ 5) with 32.
  rewrite N.mod_small by (unfold w64; lia).
  assert (Z : N.land (h * 32) (N.of_nat i) = 0).
  { apply N.bits_inj; intros j; rewrite N.land_spec, N.bits_0.
    destruct (N.lt_ge_cases j 5) as [L|L].
    - change 32 with (2 ^ 5); rewrite N.mul_pow2_bits_low by exact L; reflexivity.
    - rewrite (testbit_small (N.of_nat i) 5) by (trivial; lia); apply Bool.andb_false_r. }
  rewrite <- N.lxor_lor by exact Z; symmetry; apply N.add_nocarry_lxor, Z.
Qed.
Lemma consume_ok h : consume_hash h = (bit (N.to_nat (h mod 32)), h / 32).
Proof.
  unfold consume_hash; change 31 with (N.ones 5); rewrite N.land_ones; change (2 ^ 5) with 32.
  rewrite bit_index_bit by (apply N.mod_lt; lia); rewrite N.shiftr_div_pow2; reflexivity.
Qed.

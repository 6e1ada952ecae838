From Verif.Base Require Import Base Buf BaseFacts.
From Verif.Xxhash Require Import Model Spec ProofsBits.
Local Open Scope N_scope.
Local Open Scope list_scope.

Notation quad := (N * N * N * N)%type.

(** ** Stripes *)
Definition step (a : quad) (l : list N) : quad :=
  let '(a1, a2, a3, a4) := a in (round_ a1 (lane l 0), round_ a2 (lane l 1), round_ a3 (lane l 2), round_ a4 (lane l 3)).
Definition absorb (a : quad) (l : list N) : quad * list N := stripes (List.length l) a l.

Lemma stripes_fuel n m a l : (List.length l <= n)%nat -> (List.length l <= m)%nat -> stripes n a l = stripes m a l.
Proof.
  revert m a l; induction n as [|n IH]; intros m a l Hn Hm.
  - destruct l; [|cbn [List.length] in Hn; lia]. destruct m; reflexivity.
  - destruct m as [|m].
    + destruct l; [reflexivity|cbn [List.length] in Hm; lia].
    + cbn [stripes]. destruct (Nat.ltb (List.length l) 32) eqn:E; [reflexivity|].
      apply Nat.ltb_ge in E. destruct a as [[[a1 a2] a3] a4]. apply IH; rewrite skipn_length; lia.
Qed.
Lemma absorb_short a l : (List.length l < 32)%nat -> absorb a l = (a, l).
Proof.
  intro H. unfold absorb. destruct (List.length l) eqn:E; [reflexivity|]. cbn [stripes].
  rewrite E. apply Nat.ltb_lt in H. rewrite H. reflexivity.
Qed.
Lemma absorb_long a l : (32 <= List.length l)%nat -> absorb a l = absorb (step a l) (skipn 32 l).
Proof.
  intro H. unfold absorb. destruct (List.length l) as [|n] eqn:E; [lia|]. cbn [stripes].
  rewrite E. replace (Nat.ltb (S n) 32) with false by (symmetry; apply Nat.ltb_ge; lia).
  destruct a as [[[a1 a2] a3] a4]. apply stripes_fuel; rewrite skipn_length; lia.
Qed.
Lemma step_app a l l' : (32 <= List.length l)%nat -> step a (l ++ l') = step a l.
Proof.
  intro H. unfold step, lane. destruct a as [[[a1 a2] a3] a4].
  assert (Q : forall i, (i <= 24)%nat -> firstn 8 (skipn i (l ++ l')) = firstn 8 (skipn i l)).
  { intros i Hi. rewrite skipn_app, firstn_app, skipn_length.
    replace (8 - (List.length l - i))%nat with 0%nat by lia. rewrite firstn_O, app_nil_r. reflexivity. }
  rewrite !Q by (cbn; lia). reflexivity.
Qed.
Lemma absorb_app b : forall a c, absorb a (b ++ c) = (let (a', r) := absorb a b in absorb a' (r ++ c)).
Proof.
  remember (List.length b) as n eqn:E. revert b E. induction n as [n IH] using lt_wf_ind; intros b E a c.
  destruct (Nat.lt_ge_cases (List.length b) 32) as [H|H].
  - rewrite (absorb_short a b) by exact H. reflexivity.
  - rewrite (absorb_long a b) by exact H. rewrite absorb_long by (rewrite app_length; lia).
    rewrite step_app by exact H. rewrite skipn_app. replace (32 - List.length b)%nat with 0%nat by lia. cbn [skipn].
    apply (IH (List.length (skipn 32 b))); [rewrite skipn_length; lia|reflexivity].
Qed.
Lemma absorb_rest_short b : forall a, (List.length (snd (absorb a b)) < 32)%nat.
Proof.
  remember (List.length b) as n eqn:E. revert b E. induction n as [n IH] using lt_wf_ind; intros b E a.
  destruct (Nat.lt_ge_cases (List.length b) 32) as [H|H].
  - rewrite absorb_short by exact H. exact H.
  - rewrite absorb_long by exact H. apply (IH (List.length (skipn 32 b))); [rewrite skipn_length; lia|reflexivity].
Qed.
Definition words (a : quad) : Prop := let '(a1, a2, a3, a4) := a in a1 < 2 ^ 64 /\ a2 < 2 ^ 64 /\ a3 < 2 ^ 64 /\ a4 < 2 ^ 64.
Lemma step_words a l : words (step a l).
Proof. destruct a as [[[a1 a2] a3] a4]. cbn. repeat split; apply m64_lt. Qed.
Lemma absorb_words b : forall a, words a -> words (fst (absorb a b)).
Proof.
  remember (List.length b) as n eqn:E. revert b E. induction n as [n IH] using lt_wf_ind; intros b E a W.
  destruct (Nat.lt_ge_cases (List.length b) 32) as [H|H].
  - rewrite absorb_short by exact H. exact W.
  - rewrite absorb_long by exact H. apply (IH (List.length (skipn 32 b))); [rewrite skipn_length; lia|reflexivity|apply step_words].
Qed.
(** What is left is the end of what was there. *)
Lemma absorb_rest b : forall a, exists k, snd (absorb a b) = skipn (32 * k) b /\ (32 * k <= List.length b)%nat.
Proof.
  remember (List.length b) as n eqn:E. revert b E. induction n as [n IH] using lt_wf_ind; intros b E a.
  destruct (Nat.lt_ge_cases (List.length b) 32) as [H|H].
  - rewrite absorb_short by exact H. exists 0%nat. split; [reflexivity|lia].
  - rewrite absorb_long by exact H.
    destruct (IH (List.length (skipn 32 b)) ltac:(rewrite skipn_length; lia) (skipn 32 b) eq_refl (step a b)) as [k [Q1 Q2]].
    exists (S k). rewrite skipn_length in Q2. split; [|lia]. rewrite Q1.
    replace (32 * S k)%nat with (32 + 32 * k)%nat by lia.
    clear. generalize (32 * k)%nat as j. intro j. revert b. generalize 32%nat as i. induction i as [|i IHi]; intro b; [reflexivity|].
    destruct b as [|x b]; [rewrite !skipn_nil; reflexivity|]. cbn [Nat.add skipn]. apply IHi.
Qed.

(** ** The state after bytes *)
Definition holds (seed : N) (b : list N) (s : state) : Prop :=
  vs s = fst (absorb (initial_v seed) b) /\
  List.length (memory s) = 32%nat /\
  mem_size s = len (snd (absorb (initial_v seed) b)) /\
  firstn (N.to_nat (mem_size s)) (memory s) = snd (absorb (initial_v seed) b) /\
  total s = m64 (len b).

Lemma len_app a b : len (a ++ b) = len a + len b.
Proof. unfold len. rewrite app_length. lia. Qed.
Lemma skip_len n l : n <= len l -> skip n l = skipn (N.to_nat n) l.
Proof. intro H. unfold skip. rewrite N.min_l by exact H. reflexivity. Qed.
Lemma put_all l m : List.length m = 32%nat -> 32 <= len l -> put l 32 0 m = Ret (firstn 32 l).
Proof.
  intros Hm Hl. unfold put.
  replace (32 <=? len l) with true by (symmetry; apply N.leb_le; exact Hl).
  replace (0 + 32 <=? len m) with true by (symmetry; apply N.leb_le; unfold len; rewrite Hm; discriminate).
  cbn [andb]. change (N.to_nat 0) with 0%nat. change (N.to_nat (0 + 32)) with 32%nat. change (N.to_nat 32) with 32%nat.
  rewrite (skipn_all2 m) by lia. rewrite firstn_O, app_nil_r. reflexivity.
Qed.
Lemma rounds_step v l : rounds v l = step v l.
Proof. destruct v as [[[v1 v2] v3] v4]. unfold rounds, step. rewrite !round_eq. reflexivity. Qed.
Lemma step_firstn v l : (32 <= List.length l)%nat -> step v (firstn 32 l) = step v l.
Proof.
  intro H. rewrite <- (firstn_skipn 32 l) at 2. rewrite step_app; [reflexivity|]. rewrite firstn_length. lia.
Qed.
Lemma chunks_absorb fuel : forall input v m, (List.length input < fuel)%nat -> List.length m = 32%nat ->
  exists m', chunks fuel input v m = Ret (snd (absorb v input), fst (absorb v input), m') /\ List.length m' = 32%nat.
Proof.
  induction fuel as [|fuel IH]; intros input v m Hf Hm; [lia|]. cbn [chunks].
  unfold chunk_size. destruct (32 <=? len input) eqn:E.
  - apply N.leb_le in E. rewrite put_all by assumption. cbn [bind].
    assert (H : (32 <= List.length input)%nat) by (unfold len in E; lia).
    rewrite skip_len by exact E. change (N.to_nat 32) with 32%nat. rewrite rounds_step, step_firstn by exact H.
    destruct (IH (skipn 32 input) (step v input) (firstn 32 input)) as [m' [Q1 Q2]].
    { rewrite skipn_length. lia. } { rewrite firstn_length. lia. }
    exists m'. rewrite Q1, (absorb_long v input) by exact H. split; [reflexivity|exact Q2].
  - apply N.leb_gt in E. assert (H : (List.length input < 32)%nat) by (unfold len in E; lia).
    exists m. rewrite absorb_short by exact H. split; [reflexivity|exact Hm].
Qed.
Lemma put_at l n i m : n <= len l -> i + n <= len m ->
  exists m', put l n i m = Ret m' /\ List.length m' = List.length m /\
    firstn (N.to_nat (i + n)) m' = firstn (N.to_nat i) m ++ firstn (N.to_nat n) l.
Proof.
  intros Hn Hi. unfold put.
  replace (n <=? len l) with true by (symmetry; apply N.leb_le; exact Hn).
  replace (i + n <=? len m) with true by (symmetry; apply N.leb_le; exact Hi).
  cbn [andb]. unfold len in *. eexists. split; [reflexivity|]. split.
  - rewrite !app_length, !firstn_length, skipn_length. lia.
  - rewrite app_assoc, firstn_app, firstn_all2 by (rewrite app_length, !firstn_length; lia).
    replace (N.to_nat (i + n) - _)%nat with 0%nat by (rewrite app_length, !firstn_length; lia).
    rewrite firstn_O, app_nil_r. reflexivity.
Qed.

Lemma update_holds seed b s input : holds seed b s -> len input < 2 ^ 63 ->
  exists s', update input s = Ret s' /\ holds seed (b ++ input) s'.
Proof.
  intros [Hv [Hm [Hs [Hf Ht]]]] Hlen.
  pose proof (absorb_rest_short b (initial_v seed)) as Hr.
  pose proof (absorb_app b (initial_v seed) input) as Happ.
  destruct (absorb (initial_v seed) b) as [v rest] eqn:Eb. cbn [fst snd] in *.
  assert (Hlm : len (memory s) = 32) by (unfold len; rewrite Hm; reflexivity).
  assert (Hlr : len rest < 32) by (unfold len; lia).
  assert (Eadd : add64 (mem_size s) (len input) = mem_size s + len input).
  { rewrite add64_m. apply m64_small. lia. }
  assert (Etot : add64 (total s) (len input) = m64 (len (b ++ input))).
  { rewrite add64_m, Ht, m64_add_l, len_app. reflexivity. }
  unfold update. rewrite Eadd, Etot. unfold chunk_size.
  destruct (mem_size s + len input <? 32) eqn:E.
  - apply N.ltb_lt in E.
    destruct (put_at input (len input) (mem_size s) (memory s)) as [m' [Q1 [Q2 Q3]]]; [lia|lia|].
    rewrite Q1. cbn [bind]. eexists. split; [reflexivity|].
    unfold holds. cbn [vs memory mem_size total]. rewrite Happ.
    rewrite absorb_short by (rewrite app_length; unfold len in *; lia). cbn [fst snd].
    split; [exact Hv|]. split; [congruence|]. split; [rewrite len_app; lia|]. split; [|reflexivity].
    rewrite Q3, Hf. f_equal. apply firstn_all2. unfold len. lia.
  - apply N.ltb_ge in E.
    assert (D : exists i1 v1 m1, List.length m1 = 32%nat /\ absorb v (rest ++ input) = absorb v1 i1 /\
      (if 0 <? mem_size s then
        let* m := put input (sub64 32 (mem_size s)) (mem_size s) (memory s) in
        Ret (skip (sub64 32 (mem_size s)) input, rounds (vs s) m, m, 0)
       else Ret (input, vs s, memory s, mem_size s)) = Ret (i1, v1, m1, 0)).
    { destruct (0 <? mem_size s) eqn:E0.
      - apply N.ltb_lt in E0.
        assert (Es : sub64 32 (mem_size s) = 32 - mem_size s).
        { unfold sub64, w64. replace (32 + 2 ^ 64 - mem_size s) with ((32 - mem_size s) + 1 * 2 ^ 64) by lia.
          rewrite N.mod_add by discriminate. apply N.mod_small. lia. }
        rewrite Es.
        destruct (put_at input (32 - mem_size s) (mem_size s) (memory s)) as [m' [Q1 [Q2 Q3]]]; [lia|lia|].
        exists (skipn (N.to_nat (32 - mem_size s)) input), (step v (rest ++ input)), m'.
        split; [congruence|]. rewrite Q1. cbn [bind]. rewrite skip_len by lia. split.
        + rewrite absorb_long by (rewrite app_length; unfold len in *; lia). f_equal.
          rewrite skipn_app. rewrite (skipn_all2 rest) by lia. cbn [app]. f_equal. unfold len in *. lia.
        + replace (rounds (vs s) m') with (step v (rest ++ input)); [reflexivity|].
          replace (N.to_nat (mem_size s + (32 - mem_size s))) with 32%nat in Q3 by lia.
          rewrite firstn_all2 in Q3 by lia. rewrite Q3, Hf, Hv, rounds_step.
          rewrite <- (step_firstn v (rest ++ input)) by (rewrite app_length; unfold len in *; lia).
          f_equal. rewrite firstn_app. rewrite (firstn_all2 rest) by lia. f_equal. f_equal. unfold len in *. lia.
      - apply N.ltb_ge in E0. exists input, v, (memory s). split; [exact Hm|].
        assert (rest = []) as -> by (apply length_zero_iff_nil; unfold len in *; lia).
        split; [reflexivity|]. rewrite Hv. replace (mem_size s) with 0 by lia. reflexivity. }
    destruct D as [i1 [v1 [m1 [L1 [A1 D]]]]]. rewrite D. cbn [bind].
    destruct (chunks_absorb (S (List.length i1)) i1 v1 m1 (Nat.lt_succ_diag_r _) L1) as [m2 [Q1 Q2]].
    rewrite Q1. cbn [bind]. rewrite A1 in Happ. rewrite <- Happ.
    pose proof (absorb_rest_short (b ++ input) (initial_v seed)) as Hr2.
    destruct (0 <? len (snd (absorb (initial_v seed) (b ++ input)))) eqn:E2.
    + destruct (put_at (snd (absorb (initial_v seed) (b ++ input))) (len (snd (absorb (initial_v seed) (b ++ input)))) 0 m2) as [m3 [R1 [R2 R3]]].
      { lia. } { unfold len. lia. }
      rewrite R1. cbn [bind]. eexists. split; [reflexivity|]. unfold holds. cbn [vs memory mem_size total].
      split; [reflexivity|]. split; [congruence|]. split; [reflexivity|]. split; [|reflexivity].
      rewrite N.add_0_l in R3. rewrite R3. cbn [firstn N.to_nat app]. apply firstn_all2. unfold len. lia.
    + apply N.ltb_ge in E2. eexists. split; [reflexivity|]. unfold holds. cbn [vs memory mem_size total].
      assert (Z : snd (absorb (initial_v seed) (b ++ input)) = []) by (apply length_zero_iff_nil; unfold len in E2; lia).
      rewrite Z. split; [reflexivity|]. split; [exact Q2|]. repeat split.
Qed.

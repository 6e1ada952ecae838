From Verif.Base Require Import Base Buf BaseFacts.
From Verif.Xxhash Require Import Model Spec ProofsBits Proofs.
Local Open Scope N_scope.
Local Open Scope list_scope.

(** ** The last bytes *)
Lemma finalize8_eights fuel : forall x d n, x < 2 ^ 64 -> (List.length d < fuel)%nat -> (List.length d <= n)%nat ->
  finalize8 fuel x d = Ret (eights n x d).
Proof.
  induction fuel as [|fuel IH]; intros x d n Hx Hf Hn; [lia|]. cbn [finalize8].
  destruct (8 <=? len d) eqn:E.
  - apply N.leb_le in E. assert (H : (8 <= List.length d)%nat) by (unfold len in E; lia).
    destruct n as [|n]; [lia|]. cbn [eights].
    replace (Nat.ltb (List.length d) 8) with false by (symmetry; apply Nat.ltb_ge; lia).
    rewrite skip_len by exact E. change (N.to_nat 8) with 8%nat.
    rewrite (IH _ _ n); [|apply N.mod_lt; discriminate|rewrite skipn_length; lia|rewrite skipn_length; lia].
    f_equal. f_equal. rewrite add64_m, mul64_m, m64_add_l, round_eq.
    rewrite rotl_rol; [reflexivity| |reflexivity|reflexivity].
    apply lxor_lt; [exact Hx|apply round_lt].
  - apply N.leb_gt in E. destruct n as [|n].
    + destruct d; [reflexivity|cbn [List.length] in Hn; lia].
    + cbn [eights]. replace (Nat.ltb (List.length d) 8) with true; [reflexivity|].
      symmetry. apply Nat.ltb_lt. unfold len in E. lia.
Qed.
Lemma eights_lt n : forall x d, x < 2 ^ 64 -> fst (eights n x d) < 2 ^ 64.
Proof.
  induction n as [|n IH]; intros x d Hx; [exact Hx|]. cbn [eights].
  destruct (Nat.ltb (List.length d) 8); [exact Hx|]. apply IH. apply m64_lt.
Qed.
Lemma skipn_skipn_ {A} i j (l : list A) : skipn i (skipn j l) = skipn (j + i) l.
Proof.
  revert l. induction j as [|j IH]; intro l; [reflexivity|].
  destruct l as [|x l]; [rewrite !skipn_nil; reflexivity|]. cbn [Nat.add skipn]. apply IH.
Qed.
Lemma eights_rest n : forall x d, (List.length d <= n)%nat ->
  exists j, snd (eights n x d) = skipn (8 * j) d /\ (8 * j <= List.length d < 8 * j + 8)%nat.
Proof.
  induction n as [|n IH]; intros x d Hn.
  - destruct d; [|cbn [List.length] in Hn; lia]. exists 0%nat. split; [reflexivity|cbn; lia].
  - cbn [eights]. destruct (Nat.ltb (List.length d) 8) eqn:E.
    + apply Nat.ltb_lt in E. exists 0%nat. split; [reflexivity|lia].
    + apply Nat.ltb_ge in E.
      destruct (IH (m64 (rol (N.lxor x (round_ 0 (lane d 0))) 27 * PRIME64_1 + PRIME64_4)) (skipn 8 d)) as [j [Q1 Q2]].
      { rewrite skipn_length. lia. }
      rewrite skipn_length in Q2. exists (S j). split; [|lia]. rewrite Q1, skipn_skipn_. f_equal. lia.
Qed.

Definition four_signed (acc : N) (l : list N) : N * list N :=
  if Nat.ltb (List.length l) 4 then (acc, l)
  else (m64 (rol (N.lxor acc (m64 (sext32 (number (firstn 4 l)) * PRIME64_1))) 23 * PRIME64_2 + PRIME64_3), skipn 4 l).
Definition tail (acc : N) (rest : list N) : N :=
  let (acc, rest) := eights (List.length rest) acc rest in
  let (acc, rest) := four_signed acc rest in
  mix (ones acc rest).

Lemma ones_eq l : forall x, x < 2 ^ 64 ->
  fold_left (fun input byte => mul64 (rotl (N.lxor input (mul64 byte prime5)) 11) prime1) l x = ones x l /\ ones x l < 2 ^ 64.
Proof.
  induction l as [|y l IH]; intros x Hx; [split; [reflexivity|exact Hx]|].
  unfold ones. cbn [fold_left].
  assert (Q : mul64 (rotl (N.lxor x (mul64 y prime5)) 11) prime1 = m64 (rol (N.lxor x (m64 (y * PRIME64_5))) 11 * PRIME64_1)).
  { rewrite mul64_m, rotl_rol; [reflexivity| |reflexivity|reflexivity]. apply lxor_lt; [exact Hx|apply m64_lt]. }
  rewrite Q. apply IH. apply m64_lt.
Qed.
Lemma finalize_tail x d : x < 2 ^ 64 -> finalize x d = Ret (tail x d) /\ tail x d < 2 ^ 64.
Proof.
  intros Hx. unfold finalize, tail.
  rewrite (finalize8_eights _ _ _ (List.length d)) by (exact Hx || lia). cbn [bind].
  pose proof (eights_lt (List.length d) x d Hx) as H8.
  destruct (eights (List.length d) x d) as [y r]. cbn [fst] in H8. unfold four_signed.
  destruct (4 <=? len r) eqn:E.
  - apply N.leb_le in E. replace (Nat.ltb (List.length r) 4) with false by (symmetry; apply Nat.ltb_ge; unfold len in E; lia).
    rewrite skip_len by exact E. change (N.to_nat 4) with 4%nat.
    rewrite add64_m, !mul64_m, m64_add_l.
    rewrite rotl_rol; [|apply lxor_lt; [exact H8|apply m64_lt]|reflexivity|reflexivity].
    change prime1 with PRIME64_1. change prime2 with PRIME64_2. change prime3 with PRIME64_3.
    change (le (firstn 4 r)) with (number (firstn 4 r)).
    destruct (ones_eq (skipn 4 r) (m64 (rol (N.lxor y (m64 (sext32 (number (firstn 4 r)) * PRIME64_1))) 23 * PRIME64_2 + PRIME64_3)) (m64_lt _)) as [Q1 Q2].
    change prime1 with PRIME64_1 in Q1. rewrite Q1, avalanche_mix. split; [reflexivity|apply mix_lt; exact Q2].
  - apply N.leb_gt in E. replace (Nat.ltb (List.length r) 4) with true by (symmetry; apply Nat.ltb_lt; unfold len in E; lia).
    destruct (ones_eq r y H8) as [Q1 Q2]. rewrite Q1, avalanche_mix. split; [reflexivity|apply mix_lt; exact Q2].
Qed.

(** ** The digest *)
Definition converge (seed : N) (b : list N) : N :=
  let '(v1, v2, v3, v4) := fst (absorb (initial_v seed) b) in
  m64 ((if 32 <=? m64 (len b) then
          merge (merge (merge (merge (m64 (rol v1 1 + rol v2 7 + rol v3 12 + rol v4 18)) v1) v2) v3) v4
        else m64 (v3 + PRIME64_5)) + m64 (len b)).
Definition digest_of (seed : N) (b : list N) : N := tail (converge seed b) (snd (absorb (initial_v seed) b)).

Lemma initial_words seed : seed < 2 ^ 64 -> words (initial_v seed).
Proof. intro H. cbn. repeat split; try (apply m64_lt). exact H. Qed.
Lemma rol_sum a b c d : add64 (add64 (add64 a b) c) d = m64 (a + b + c + d).
Proof.
  rewrite (add64_m a b), (add64_m (m64 (a + b)) c), m64_add_l. rewrite (add64_m (m64 (a + b + c)) d), m64_add_l. reflexivity.
Qed.
Lemma m64_m64 x : m64 (m64 x) = m64 x.
Proof. apply N.mod_mod. discriminate. Qed.
Lemma digest_holds seed b s : seed < 2 ^ 64 -> holds seed b s -> digest s = Ret (digest_of seed b) /\ digest_of seed b < 2 ^ 64.
Proof.
  intros Hs [Hv [Hm [Hz [Hf Ht]]]]. unfold digest, digest_of, converge. rewrite Hv, Hf, Ht.
  pose proof (absorb_words b (initial_v seed) (initial_words seed Hs)) as W.
  destruct (absorb (initial_v seed) b) as [[[[v1 v2] v3] v4] rest]. cbn [fst snd words] in *.
  destruct W as [W1 [W2 [W3 W4]]]. unfold chunk_size. rewrite !merge_eq.
  rewrite !rotl_rol by (assumption || reflexivity).
  rewrite rol_sum, (add64_m v3), add64_m. change prime5 with PRIME64_5.
  destruct (32 <=? m64 (len b)); apply finalize_tail; apply m64_lt.
Qed.

(** ** XXH64 *)
Lemma sext_clear x : x < 2 ^ 31 -> sext32 x = x.
Proof. intro H. unfold sext32. apply N.ltb_lt in H. rewrite H. reflexivity. Qed.
Lemma four_clear acc l : Forall (fun x => x < 256) l -> (List.length l < 4)%nat \/ nth 3 l 0 < 128 -> four_signed acc l = four acc l.
Proof.
  intros F C. unfold four_signed, four. destruct (Nat.ltb (List.length l) 4) eqn:E; [reflexivity|].
  apply Nat.ltb_ge in E. destruct C as [C|C]; [lia|].
  destruct l as [|a [|b [|c [|d l]]]]; cbn [List.length] in E; try lia. cbn [nth] in C.
  inversion F as [|? ? Ha F1]; subst. inversion F1 as [|? ? Hb F2]; subst. inversion F2 as [|? ? Hc _]; subst.
  rewrite sext_clear; [reflexivity|]. cbn [firstn number fold_right]. change (2 ^ 31) with 2147483648. lia.
Qed.
Lemma nth_skipn_ i j (l : list N) : nth i (skipn j l) 0 = nth (j + i) l 0.
Proof.
  revert l. induction j as [|j IH]; intro l; [reflexivity|].
  destruct l as [|x l]; [rewrite skipn_nil; destruct i; reflexivity|]. cbn [Nat.add skipn nth]. apply IH.
Qed.
Lemma Forall_skipn_ {A} (P : A -> Prop) n : forall l, Forall P l -> Forall P (skipn n l).
Proof. induction n as [|n IH]; intros l H; [exact H|]. destruct H; [constructor|apply IH; assumption]. Qed.
Lemma digest_xxh64 seed b : seed < 2 ^ 64 -> Forall (fun x => x < 256) b -> len b < 2 ^ 64 -> clear4 b ->
  digest_of seed b = xxh64 seed b.
Proof.
  intros Hs Fb Hb C. unfold digest_of, xxh64, accumulate, converge. rewrite (m64_small (len b) Hb).
  change (N.of_nat (List.length b)) with (len b).
  assert (R : forall acc k, (32 * k <= List.length b)%nat ->
    tail acc (skipn (32 * k) b) = (let (acc0, rest0) := eights (List.length (skipn (32 * k) b)) acc (skipn (32 * k) b) in
      let (acc1, rest1) := four acc0 rest0 in mix (ones acc1 rest1))).
  { intros acc k Hk. unfold tail.
    destruct (eights_rest (List.length (skipn (32 * k) b)) acc (skipn (32 * k) b) (le_n _)) as [j [Q1 Q2]].
    destruct (eights _ acc _) as [y r]. cbn [snd] in Q1. rewrite skipn_skipn_ in Q1. rewrite skipn_length in Q2.
    rewrite four_clear; [reflexivity| |].
    - rewrite Q1. apply Forall_skipn_, Fb.
    - assert (Ej : (List.length b / 8 = 4 * k + j)%nat).
      { symmetry. apply (Nat.div_unique _ 8 _ (List.length b - 8 * (4 * k + j))); lia. }
      destruct C as [C|C].
      + left. rewrite Q1, skipn_length. rewrite (Nat.div_mod (List.length b) 8) by discriminate. rewrite Ej. lia.
      + right. rewrite Q1, nth_skipn_. rewrite Ej in C. replace (32 * k + 8 * j + 3)%nat with (8 * (4 * k + j) + 3)%nat by lia. exact C. }
  destruct (Nat.ltb (List.length b) 32) eqn:E.
  - apply Nat.ltb_lt in E. rewrite absorb_short by exact E. cbn [fst snd initial_v].
    replace (32 <=? len b) with false by (symmetry; apply N.leb_gt; unfold len; lia).
    rewrite <- (R _ 0%nat) by lia. reflexivity.
  - apply Nat.ltb_ge in E. replace (32 <=? len b) with true by (symmetry; apply N.leb_le; unfold len; lia).
    change (stripes (List.length b) ?v b) with (absorb v b).
    replace (m64 (seed + PRIME64_1 + PRIME64_2), m64 (seed + PRIME64_2), seed, m64 (seed + (2 ^ 64 - PRIME64_1))) with (initial_v seed).
    2:{ unfold initial_v. rewrite (add64_m seed prime1), add64_m, m64_add_l. rewrite (add64_m seed prime2).
        unfold sub64. replace (seed + w64 - prime1) with (seed + (2 ^ 64 - PRIME64_1)); [reflexivity|].
        rewrite N.add_sub_assoc by discriminate. reflexivity. }
    destruct (absorb_rest b (initial_v seed)) as [k [Q1 Q2]].
    destruct (absorb (initial_v seed) b) as [[[[v1 v2] v3] v4] rest]. cbn [fst snd] in *. subst rest.
    rewrite <- R by exact Q2. reflexivity.
Qed.

(** ** Programs *)
Lemma run_holds seed : seed < 2 ^ 64 -> forall cs, Forall proper cs -> forall b s, holds seed b s ->
  run (seed, s) cs = Ret (map (digest_of seed) (hashed b cs)).
Proof.
  intros Hs cs F. induction F as [|c cs Hc _ IH]; intros b s H; [reflexivity|].
  destruct c as [|input|]; cbn [run hashed].
  - apply IH. destruct H as [_ [Hm _]]. unfold reset, holds. cbn [fst snd vs memory mem_size total].
    rewrite absorb_short by (cbn; lia). repeat split. exact Hm.
  - destruct Hc as [_ Hc]. destruct (update_holds seed b s input H Hc) as [s' [Q1 Q2]].
    unfold write. cbn [snd fst]. rewrite Q1. cbn [bind]. apply IH. exact Q2.
  - unfold finish. cbn [snd]. destruct (digest_holds seed b s Hs H) as [Q _]. rewrite Q. cbn [bind].
    rewrite (IH b s H). reflexivity.
Qed.
Lemma start_holds seed : holds seed [] (snd (with_seed seed)).
Proof. unfold holds, with_seed. cbn [snd vs memory mem_size total]. rewrite absorb_short by (cbn; lia). repeat split. Qed.
Lemma run_start seed cs : seed < 2 ^ 64 -> Forall proper cs -> run (with_seed seed) cs = Ret (map (digest_of seed) (hashed [] cs)).
Proof. intros Hs F. apply (run_holds seed Hs cs F [] (snd (with_seed seed))). apply start_holds. Qed.

Lemma streams seed : seed < 2 ^ 64 ->
  exists hash : list N -> N, (forall l, hash l < 2 ^ 64) /\
    forall cs, Forall proper cs -> run (with_seed seed) cs = Ret (map hash (hashed [] cs)).
Proof.
  intro Hs. exists (digest_of seed). split; [|intros cs F; apply run_start; assumption].
  intro l. unfold digest_of. apply finalize_tail. unfold converge. destruct (fst _) as [[[v1 v2] v3] v4]. apply m64_lt.
Qed.
Lemma hashed_bytes cs : Forall proper cs -> forall b, Forall (fun x => x < 256) b -> Forall (Forall (fun x => x < 256)) (hashed b cs).
Proof.
  induction 1 as [|c cs Hc _ IH]; intros b Hb; [constructor|].
  destruct c as [|input|]; cbn [hashed].
  - apply IH. constructor.
  - apply IH. apply Forall_app. split; [exact Hb|apply Hc].
  - constructor; [exact Hb|apply IH; exact Hb].
Qed.
Lemma is_xxh64 seed cs : seed < 2 ^ 64 -> Forall proper cs ->
  Forall (fun l => N.of_nat (List.length l) < 2 ^ 64 /\ clear4 l) (hashed [] cs) ->
  run (with_seed seed) cs = Ret (map (xxh64 seed) (hashed [] cs)).
Proof.
  intros Hs F C. rewrite run_start by assumption. f_equal.
  pose proof (hashed_bytes cs F [] (Forall_nil _)) as B.
  induction C as [|l ls [C1 C2] _ IH]; [reflexivity|]. inversion B as [|? ? B1 B2]; subst.
  cbn [map]. rewrite IH by exact B2. rewrite digest_xxh64 by assumption. reflexivity.
Qed.
Lemma not_xxh64 : exists seed l, seed < 2 ^ 64 /\ bytes l /\
  run (with_seed seed) [Write l; Finish] <> Ret [xxh64 seed l].
Proof.
  exists 0, [0; 0; 0; 128]. split; [reflexivity|]. split; [split; [repeat constructor; reflexivity|reflexivity]|].
  vm_compute. discriminate.
Qed.

(** What the functions on arrays do. *)
From Coq Require Import Lia.
From Verif.Base Require Import Base Buf.
From Verif.Vector Require Import Model Spec ProofsMem ProofsArray.
Local Open Scope N_scope.
Local Open Scope list_scope.

Section Ops.
Context {A : Type}.
Implicit Types (m : mem A) (c d : list (option A)) (p q : ptr) (t : array) (v : vec) (l : list A).

Lemma ptr_add_0 p : ptr_add 0 p = p.
Proof. destruct p; unfold ptr_add; cbn; now rewrite N.add_0_r. Qed.
Lemma ptr_add_add i j p : ptr_add i (ptr_add j p) = ptr_add (j + i) p.
Proof. unfold ptr_add; cbn; now rewrite N.add_assoc. Qed.
Lemma map_set_nth {X Y} (f : X -> Y) k x (l : list X) : map f (set_nth k x l) = set_nth k (f x) (map f l).
Proof. unfold set_nth; rewrite map_app; cbn [map]; rewrite firstn_map, skipn_map; reflexivity. Qed.
Lemma len_set_nth k x l : k < len l -> len (set_nth (N.to_nat k) x l) = len l.
Proof. unfold len, set_nth; intros H; rewrite app_length; cbn [List.length]; rewrite firstn_length, skipn_length; lia. Qed.
Lemma len_nil l : len l = 0 -> l = [].
Proof. destruct l; [reflexivity|unfold len; cbn; lia]. Qed.
Lemma len_pos l : len l <> 0 -> l <> [].
Proof. intros H ->; apply H; reflexivity. Qed.
Lemma repeat_split {X} (x : X) n k : (k <= n)%nat -> repeat x n = repeat x k ++ repeat x (n - k).
Proof. intros H; rewrite <- repeat_app; f_equal; lia. Qed.
Lemma lenc_repeat (x : option A) n : lenc (repeat x (N.to_nat n)) = n.
Proof. unfold lenc; rewrite repeat_length; lia. Qed.

(** ** Views *)
Definition sub t (s n : N) : array := Array (ptr_add s (aptr t)) n.
Lemma cut s n l : s + n <= len l -> l = first s l ++ first n (after s l) ++ after (s + n) l.
Proof.
  intros H; rewrite <- (first_after s l) at 1; f_equal; rewrite <- (first_after n (after s l)) at 1; f_equal.
  unfold after, first, len in *; clear H; rewrite N2Nat.inj_add; generalize (N.to_nat s) as a; generalize (N.to_nat n) as b; intros b a.
  revert l; induction a as [|a IH]; intros l; [reflexivity|]; destruct l; [now rewrite !skipn_nil|exact (IH l)].
Qed.
Lemma sub_ok m t l s n : harray m t l -> s + n <= len l -> harray m (sub t s n) (first n (after s l)).
Proof.
  intros (E & G & L & W) H; pose proof (len_after s l) as La; assert (Lf : len (first n (after s l)) = n) by (rewrite len_first; lia).
  split; [cbn; auto|]; split; [|split; [cbn; lia|exact W]].
  rewrite (cut s n l H), !map_app in G; apply seg_app in G as [_ G]; apply seg_app in G as [G _].
  rewrite lenc_map in G; fold (len (first s l)) in G; rewrite len_first in G by lia; exact G.
Qed.
Lemma sub_part t s n : s + n <= alen t -> forall b k, inreg (area (sub t s n)) b k -> inreg (area t) b k.
Proof. intros H b k [E I]; split; [exact E|]; cbn in *; lia. Qed.
Lemma subarray_ok m t l s e : harray m t l -> s <= e -> e <= len l -> subarray s e t m = Done (sub t s (e - s), m).
Proof.
  intros (E & _ & L & _) H H'; unfold subarray; rewrite E, (proj2 (N.leb_le _ _) H), (proj2 (N.leb_le _ _) H'), assert_true by reflexivity.
  rewrite sub64_ok by lia; reflexivity.
Qed.
Lemma subarray_fails m t l s e : harray m t l -> (s <=? e) && (e <=? len l) = false -> subarray s e t m = Failed.
Proof. intros (E & _) H; unfold subarray; rewrite E; apply assert_false, H. Qed.
Lemma first_all l : first (len l) l = l.
Proof. unfold first, len; rewrite Nat2N.id; apply firstn_all. Qed.
Lemma after_0 l : after 0 l = l.
Proof. reflexivity. Qed.
Lemma first_more n l : len l <= n -> first n l = l.
Proof. intros H; unfold first, len in *; apply firstn_all2; lia. Qed.
Lemma after_more n l : len l <= n -> after n l = [].
Proof. intros H; unfold after, len in *; apply skipn_all2; lia. Qed.

(** ** Arrays made from others *)
Lemma harray_later m m' t l : same m m' nowhere -> harray m t l -> harray m' t l.
Proof. intros S; apply (harray_same _ _ _ _ _ S), nowhere_ok. Qed.

Lemma shallow_copy_ok m t l : harray m t l -> exists s m', shallow_copy t m = Done (s, m') /\ made m m' s l /\ new m (aptr s).
Proof.
  intros H; pose proof H as (E & _ & L & W); unfold shallow_copy.
  destruct (array_alloc_ok m (alen t) L) as (s & m1 & E1 & Es & N & W1 & S & G); rewrite (bind_done _ _ _ _ _ E1).
  pose proof (harray_later _ _ _ _ S H) as (_ & Gt & _).
  destruct (copy_seg m1 (aptr t) (alen t) (aptr s) [] (repeat None (N.to_nat (alen t))) [] (map Some l)) as (m2 & E2 & G2 & S2); trivial.
  - rewrite lenc_map; symmetry; exact E.
  - apply lenc_repeat.
  - cbn [app]; rewrite app_nil_r; exact G.
  - change (lenc []) with 0; rewrite ptr_add_0; apply (new_apart m); assumption.
  - change (lenc []) with 0 in E2, S2; rewrite ptr_add_0 in E2, S2; rewrite (bind_done _ _ _ _ _ E2); exists s, m2; split; [reflexivity|]; split; [|exact N].
    cbn [app] in G2; rewrite app_nil_r in G2; split; [|split].
    + apply (same_new _ _ _ _ S S2), (new_region _ _ _ N).
    + split; [congruence|]; split; [exact G2|]; split; [lia|exact (within_same _ _ _ _ S2 W1)].
    + now left.
Qed.

Lemma array_insert_ok m t l k x : harray m t l -> len l + 1 < 2 ^ 64 -> k <= len l ->
  exists s m', array_insert k x t m = Done (s, m') /\ made m m' s (first k l ++ x :: after k l).
Proof.
  intros H Hl Hk; pose proof H as (E & _ & L & W); unfold array_insert; rewrite E, assert_true by (apply N.leb_le, Hk).
  rewrite add64_ok by lia; destruct (array_alloc_ok m (len l + 1) Hl) as (s & m1 & E1 & Es & N & W1 & S & G); rewrite (bind_done _ _ _ _ _ E1).
  pose proof (harray_later _ _ _ _ S H) as (_ & Gt & _); rewrite <- (first_after k l), map_app in Gt; apply seg_app in Gt as [Gt1 _].
  pose proof (len_first k l Hk) as Lf; pose proof (len_after k l) as La.
  destruct (copy_when (negb (k =? 0)) m1 (aptr t) k (aptr s) [] (repeat None (N.to_nat k)) (repeat None (N.to_nat (len l + 1 - k))) (map Some (first k l))) as (m2 & E2 & G2 & S2); trivial.
  - rewrite lenc_map; exact Lf.
  - apply lenc_repeat.
  - cbn [app]; rewrite <- repeat_app; replace (N.to_nat k + N.to_nat (len l + 1 - k))%nat with (N.to_nat (len l + 1)) by lia; exact G.
  - change (lenc []) with 0; rewrite ptr_add_0; apply (new_apart m); assumption.
  - destruct (N.eqb_spec k 0); auto.
  - change (lenc []) with 0 in E2, S2; rewrite ptr_add_0 in E2, S2; rewrite (bind_done _ _ _ _ _ E2).
    pose proof (same_new _ _ _ _ S S2 (new_region _ _ _ N)) as S'.
    pose proof (harray_later _ _ _ _ S' H) as (_ & Gt & _); rewrite <- (first_after k l), map_app in Gt; apply seg_app in Gt as [_ Gt2].
    rewrite lenc_map in Gt2; fold (len (first k l)) in Gt2; rewrite Lf in Gt2.
    cbn [app] in G2; replace (N.to_nat (len l + 1 - k)) with (Datatypes.S (N.to_nat (len l - k))) in G2 by lia; cbn [repeat] in G2.
    change (None :: repeat None (N.to_nat (len l - k))) with ([None] ++ repeat (@None A) (N.to_nat (len l - k))) in G2; rewrite app_assoc in G2.
    destruct (copy_when (negb (k =? len l)) m2 (ptr_add k (aptr t)) (len l - k) (aptr s) (map Some (first k l) ++ [None]) (repeat None (N.to_nat (len l - k))) [] (map Some (after k l))) as (m3 & E3 & G3 & S3); trivial.
    + rewrite lenc_map; exact La.
    + apply lenc_repeat.
    + rewrite app_nil_r; exact G2.
    + apply (new_apart m); assumption.
    + destruct (N.eqb_spec k (len l)); [right; lia|now left].
    + assert (Ln : lenc (map Some (first k l) ++ [None]) = k + 1) by (rewrite lenc_app, lenc_map; fold (len (first k l)); rewrite Lf; reflexivity).
      rewrite Ln in E3; rewrite sub64_ok, add64_ok by lia; rewrite (bind_done _ _ _ _ _ E3).
      rewrite app_nil_r, <- app_assoc in G3; cbn [app] in G3.
      destruct (store_ok m3 (aptr s) x None _ _ G3) as (m4 & E4 & G4 & S4).
      assert (Lk : lenc (map Some (first k l)) = k) by (rewrite lenc_map; exact Lf).
      rewrite Lk in E4; unfold store_at; rewrite (bind_done _ _ _ _ _ E4); exists s, m4; split; [reflexivity|].
      pose proof (same_new _ _ _ _ S' S3 (new_region _ _ _ (N : new m (ptr_add _ (aptr s))))) as S''.
      split; [|split].
      * apply (same_new _ _ _ _ S'' S4), (new_region _ _ _ N).
      * split; [rewrite Es, len_app, Lf; unfold len at 2; cbn [List.length]; fold (len (after k l)); unfold len in *; lia|].
        split; [rewrite map_app; exact G4|]; split; [lia|]; eapply within_same; [exact S4|]; eapply within_same; [exact S3|]; eapply within_same; [exact S2|exact W1].
      * now left.
Qed.

Lemma array_update_ok m t l k x : harray m t l -> k < len l -> exists s m', array_update k x t m = Done (s, m') /\ made m m' s (set_nth (N.to_nat k) x l).
Proof.
  intros H Hk; pose proof H as (E & _ & L & W); unfold array_update; rewrite E, sub64_ok by lia; rewrite assert_true by (apply N.leb_le; lia).
  destruct (shallow_copy_ok m t l H) as (s & m1 & E1 & (S1 & (Es & G1 & L1 & W1) & _) & N); rewrite (bind_done _ _ _ _ _ E1).
  destruct (set_ok m1 s _ k x G1) as (m2 & E2 & G2 & S2); [rewrite lenc_map; exact Hk|].
  rewrite (bind_done _ _ _ _ _ E2); exists s, m2; split; [reflexivity|]; split; [|split].
  - apply (same_new _ _ _ _ S1 S2), (new_region _ _ _ N).
  - split; [rewrite len_set_nth; assumption|]; split; [rewrite map_set_nth; exact G2|]; split; [exact L1|exact (within_same _ _ _ _ S2 W1)].
  - now left.
Qed.

Lemma array_remove_ok m t l k : (0 < List.length (blocks m))%nat -> harray m t l -> k < len l ->
  exists s m', array_remove k t m = Done (s, m') /\ made m m' s (first k l ++ after (k + 1) l).
Proof.
  intros B H Hk; pose proof H as (E & _ & L & W); unfold array_remove, array_is_empty; rewrite E, sub64_ok by lia.
  rewrite (proj2 (N.eqb_neq (len l) 0)) by lia; cbn [negb andb]; rewrite assert_true by (apply N.leb_le; lia).
  pose proof (len_first k l ltac:(lia)) as Lf; pose proof (len_after (k + 1) l) as La.
  destruct (N.eqb_spec (len l) 1) as [E1|E1].
  { exists array_empty, m; split; [reflexivity|]; replace (first k l ++ after (k + 1) l) with (@nil A); [now apply made_empty|].
    symmetry; apply len_nil; rewrite len_app; lia. }
  destruct (array_alloc_ok m (len l - 1) ltac:(lia)) as (s & m1 & E1' & Es & N & W1 & S & G); rewrite (bind_done _ _ _ _ _ E1').
  pose proof (harray_later _ _ _ _ S H) as (_ & Gt & _); rewrite <- (first_after k l), map_app in Gt; apply seg_app in Gt as [Gt1 _].
  destruct (copy_when (negb (k =? 0)) m1 (aptr t) k (aptr s) [] (repeat None (N.to_nat k)) (repeat None (N.to_nat (len l - 1 - k))) (map Some (first k l))) as (m2 & E2 & G2 & S2); trivial.
  - rewrite lenc_map; exact Lf.
  - apply lenc_repeat.
  - cbn [app]; rewrite <- repeat_app; replace (N.to_nat k + N.to_nat (len l - 1 - k))%nat with (N.to_nat (len l - 1)) by lia; exact G.
  - change (lenc []) with 0; rewrite ptr_add_0; apply (new_apart m); assumption.
  - destruct (N.eqb_spec k 0); auto.
  - change (lenc []) with 0 in E2, S2; rewrite ptr_add_0 in E2, S2; rewrite (bind_done _ _ _ _ _ E2).
    pose proof (same_new _ _ _ _ S S2 (new_region _ _ _ N)) as S'.
    pose proof (harray_later _ _ _ _ S' H) as (_ & Gt & _); rewrite <- (first_after (k + 1) l), map_app in Gt; apply seg_app in Gt as [_ Gt2].
    rewrite lenc_map in Gt2; fold (len (first (k + 1) l)) in Gt2; rewrite len_first in Gt2 by lia.
    cbn [app] in G2.
    destruct (copy_when (negb (k =? len l - 1)) m2 (ptr_add (k + 1) (aptr t)) (len l - k - 1) (aptr s) (map Some (first k l)) (repeat None (N.to_nat (len l - 1 - k))) [] (map Some (after (k + 1) l))) as (m3 & E3 & G3 & S3); trivial.
    + rewrite lenc_map; fold (len (after (k + 1) l)); lia.
    + rewrite lenc_repeat; lia.
    + rewrite app_nil_r; exact G2.
    + apply (new_apart m); assumption.
    + destruct (N.eqb_spec k (len l - 1)); [right; lia|now left].
    + assert (Ln : lenc (map Some (first k l)) = k) by (rewrite lenc_map; exact Lf).
      rewrite Ln in E3; rewrite add64_ok by lia; rewrite (sub64_ok (len l) k), sub64_ok by lia; rewrite (bind_done _ _ _ _ _ E3).
      rewrite app_nil_r in G3; exists s, m3; split; [reflexivity|]; split; [|split].
      * apply (same_new _ _ _ _ S' S3), (new_region _ _ _ (N : new m (ptr_add _ (aptr s)))).
      * split; [rewrite Es, len_app; lia|]; split; [rewrite map_app; exact G3|]; split; [lia|].
        eapply within_same; [exact S3|]; eapply within_same; [exact S2|exact W1].
      * now left.
Qed.

Lemma array_concat_ok m a b la lb : harray m a la -> harray m b lb -> la <> [] -> lb <> [] -> len la + len lb < 2 ^ 64 ->
  exists s m', array_concat a b m = Done (s, m') /\ made m m' s (la ++ lb).
Proof.
  intros Ha Hb Na Nb Hl; pose proof Ha as (Ea & _ & La & Wa); pose proof Hb as (Eb & _ & Lb & Wb); unfold array_concat, array_is_empty; rewrite Ea, Eb.
  rewrite !(proj2 (N.eqb_neq _ 0)) by (intros X; apply len_nil in X; contradiction); rewrite add64_ok by lia.
  destruct (array_alloc_ok m (len la + len lb) Hl) as (s & m1 & E1 & Es & N & W1 & S & G); rewrite (bind_done _ _ _ _ _ E1).
  pose proof (harray_later _ _ _ _ S Ha) as (_ & Ga & _).
  unfold array_copy; rewrite Ea, Es.
  destruct (copy_seg m1 (aptr a) (len la) (aptr s) [] (repeat None (N.to_nat (len la))) (repeat None (N.to_nat (len lb))) (map Some la)) as (m2 & E2 & G2 & S2); trivial.
  - apply lenc_map.
  - apply lenc_repeat.
  - cbn [app]; rewrite <- repeat_app, <- N2Nat.inj_add; exact G.
  - change (lenc []) with 0; rewrite ptr_add_0; apply (new_apart m); assumption.
  - change (lenc []) with 0 in E2, S2; rewrite ptr_add_0 in E2, S2.
    assert (X : bind (assert (len la <=? len la + len lb)) (fun _ => copy (aptr a) (len la) (aptr s)) m1 = Done (tt, m2)) by (rewrite assert_true by (apply N.leb_le; lia); exact E2).
    rewrite (bind_done _ _ _ _ _ X); clear X.
    pose proof (same_new _ _ _ _ S S2 (new_region _ _ _ N)) as S'.
    pose proof (harray_later _ _ _ _ S' Hb) as (_ & Gb & _).
    assert (X : skip (len la) s m2 = Done (sub s (len la) (len lb), m2)).
    { unfold skip, subarray; rewrite Es, N.min_l by lia; rewrite assert_true by (rewrite !(proj2 (N.leb_le _ _)) by lia; reflexivity).
      rewrite sub64_ok by lia; replace (len la + len lb - len la) with (len lb) by lia; reflexivity. }
    rewrite (bind_done _ _ _ _ _ X); clear X; cbn [app] in G2.
    destruct (copy_seg m2 (aptr b) (len lb) (aptr s) (map Some la) (repeat None (N.to_nat (len lb))) [] (map Some lb)) as (m3 & E3 & G3 & S3); trivial.
    + apply lenc_map.
    + apply lenc_repeat.
    + rewrite app_nil_r; exact G2.
    + apply (new_apart m); assumption.
    + rewrite lenc_map in E3; fold (len la) in E3; cbn [sub aptr alen]; rewrite Eb.
      assert (X : bind (assert (len lb <=? len lb)) (fun _ => copy (aptr b) (len lb) (ptr_add (len la) (aptr s))) m2 = Done (tt, m3)) by (rewrite assert_true by (apply N.leb_le; lia); exact E3).
      rewrite (bind_done _ _ _ _ _ X); clear X; rewrite app_nil_r in G3; exists s, m3; split; [reflexivity|]; split; [|split].
      * apply (same_new _ _ _ _ S' S3), (new_region _ _ _ (N : new m (ptr_add _ (aptr s)))).
      * split; [rewrite Es, len_app; reflexivity|]; split; [rewrite map_app; exact G3|]; split; [lia|].
        eapply within_same; [exact S3|]; eapply within_same; [exact S2|exact W1].
      * now left.
Qed.

Lemma deep_copy_ok m t l f : harray m t l -> exists s m', deep_copy f t m = Done (s, m') /\ made m m' s (map f l).
Proof.
  intros H; pose proof H as (E & _ & L & W); unfold deep_copy.
  destruct (array_alloc_ok m (alen t) L) as (s & m1 & E1 & Es & N & W1 & S & G); rewrite (bind_done _ _ _ _ _ E1).
  destruct (loop_ok (fun i (_ : unit) m' => seg m' (aptr s) (map Some (map f (first i l)) ++ repeat None (N.to_nat (len l - i))) /\ same m m' nowhere /\ within m' (aptr s))
    (fun i _ => bind (unsafe_get t i) (fun x => unsafe_set s i (f x))) (alen t) tt m1 L) as ([] & m2 & E2 & G2 & S2 & W2).
  - intros i [] m2 Li (G2 & S2 & W2).
    assert (Nx : exists x, nth_ l i = Some x) by (destruct (nth_ l i) eqn:X; [eauto|apply nth_none in X; lia]); destruct Nx as [x Nx].
    rewrite (bind_done _ _ _ _ _ (get_ok _ _ _ _ _ (harray_later _ _ _ _ S2 H) Nx)).
    replace (N.to_nat (len l - i)) with (Datatypes.S (N.to_nat (len l - (i + 1)))) in G2 by lia; cbn [repeat] in G2.
    destruct (store_ok m2 (aptr s) (f x) None _ _ G2) as (m3 & E3 & G3 & S3); exists tt, m3.
    assert (Ln : lenc (map Some (map f (first i l))) = i) by (rewrite lenc_map, map_length; apply len_first; lia).
    rewrite Ln in E3; split; [exact E3|].
    destruct (nth_split _ _ _ Nx) as (l1 & l2 & El & Ei & Ef & _).
    assert (Fi : first (i + 1) l = first i l ++ [x]).
    { rewrite Ef; unfold first; rewrite El, Ei; replace (N.to_nat (len l1 + 1)) with (List.length (l1 ++ [x])) by (rewrite app_length; unfold len; cbn; lia).
      change (x :: l2) with ([x] ++ l2); rewrite app_assoc, firstn_app, Nat.sub_diag, firstn_all; cbn; apply app_nil_r. }
    split; [rewrite Fi, !map_app, <- app_assoc; exact G3|]; split; [|exact (within_same _ _ _ _ S3 W2)].
    apply (same_new _ _ _ _ S2 S3), (new_region _ _ _ N).
  - change (first 0 l) with (@nil A); cbn [map app]; rewrite N.sub_0_r, <- E; split; [exact G|auto].
  - rewrite (bind_done _ _ _ _ _ E2); exists s, m2; split; [reflexivity|]; split; [exact S2|]; split; [|now left].
    rewrite E, first_all, N.sub_diag in G2; cbn [N.to_nat repeat] in G2; rewrite app_nil_r in G2.
    split; [rewrite Es, E; unfold len; now rewrite map_length|]; split; [exact G2|]; split; [lia|exact W2].
Qed.

(** ** Writing in place *)
Definition written m m' t l : Prop := harray m' t l /\ same m m' (inreg (area t)).
Lemma set_written m t l k x : harray m t l -> k < len l -> exists m', unsafe_set t k x m = Done (tt, m') /\ written m m' t (set_nth (N.to_nat k) x l).
Proof.
  intros (E & G & L & W) H; destruct (set_ok m t _ k x G) as (m' & E' & G' & S'); [rewrite lenc_map; exact H|].
  exists m'; split; [exact E'|]; rewrite lenc_map in S'; fold (len l) in S'; rewrite <- E in S'; split; [|exact S'].
  split; [rewrite len_set_nth; assumption|]; split; [rewrite map_set_nth; exact G'|]; split; [exact L|exact (within_same _ _ _ _ S' W)].
Qed.
Lemma written_trans m1 m2 m3 t l l' : written m1 m2 t l -> written m2 m3 t l' -> written m1 m3 t l'.
Proof. intros [_ S] [H S']; split; [exact H|eapply same_trans; eauto]. Qed.
Lemma written_refl m t l : harray m t l -> written m m t l.
Proof. intros H; split; [exact H|apply same_any, same_refl]. Qed.
Lemma set_nth_same l k x : nth_ l k = Some x -> set_nth (N.to_nat k) x l = l.
Proof. intros H; apply nth_split in H as (l1 & l2 & -> & -> & _); unfold len; rewrite Nat2N.id, set_nth_mid; reflexivity. Qed.

Lemma swap_ok m t l a b x y : harray m t l -> nth_ l a = Some x -> nth_ l b = Some y -> exists m', swap a b t m = Done (tt, m') /\ written m m' t (swapped l a b x y).
Proof.
  intros H Na Nb; pose proof H as (E & _); unfold swap.
  assert (La : a < len l) by (destruct (N.lt_ge_cases a (len l)) as [?|X]; [assumption|apply nth_none in X; congruence]).
  assert (Lb : b < len l) by (destruct (N.lt_ge_cases b (len l)) as [?|X]; [assumption|apply nth_none in X; congruence]).
  rewrite E, assert_true, assert_true by (apply N.ltb_lt; assumption).
  unfold swapped; destruct (N.eqb_spec a b) as [->|D]; cbn [negb when].
  - exists m; split; [reflexivity|]; replace y with x by congruence; rewrite !set_nth_same; [now apply written_refl|exact Na|rewrite set_nth_same; exact Na].
  - rewrite (bind_done _ _ _ _ _ (get_ok _ _ _ _ _ H Na)), (bind_done _ _ _ _ _ (get_ok _ _ _ _ _ H Nb)).
    destruct (set_written m t l a y H La) as (m1 & E1 & W1); rewrite (bind_done _ _ _ _ _ E1).
    destruct (set_written m1 t _ b x (proj1 W1)) as (m2 & E2 & W2); [rewrite len_set_nth; assumption|].
    exists m2; split; [exact E2|eapply written_trans; eauto].
Qed.
Lemma swap_fails m t l a b : harray m t l -> nth_ l a = None \/ nth_ l b = None -> swap a b t m = Failed.
Proof.
  intros (E & _) H; unfold swap; rewrite E; destruct (N.ltb_spec a (len l)) as [L|L]; [|apply assert_false; reflexivity].
  rewrite assert_true by reflexivity; apply assert_false, N.ltb_ge, nth_none.
  destruct H as [H|H]; [apply nth_none in H; lia|exact H].
Qed.
Lemma nth_mid l1 x l2 : nth_ (l1 ++ x :: l2) (len l1) = Some x.
Proof. unfold nth_, len; rewrite Nat2N.id, nth_error_app2, Nat.sub_diag by lia; reflexivity. Qed.
Lemma len_rev l : len (rev l) = len l.
Proof. unfold len; now rewrite rev_length. Qed.
Lemma len_cons x l : len (x :: l) = len l + 1.
Proof. unfold len; cbn [List.length]; lia. Qed.

Lemma reverse_ok m t l : harray m t l -> exists m', reverse t m = Done (tt, m') /\ written m m' t (rev l).
Proof.
  intros H; pose proof H as (E & _ & L & _); unfold reverse.
  destruct (loop_ok (fun i (_ : unit) m' => exists l1 (c : list A) l3, l = l1 ++ c ++ l3 /\ len l1 = i /\ len l3 = i /\ written m m' t (rev l3 ++ c ++ rev l1))
    (fun i _ => swap i (sub64 (sub64 (alen t) 1) i) t) (alen t / 2) tt m) as ([] & m' & E' & l1 & c & l3 & El & L1 & L3 & Wr).
  - apply (N.le_lt_trans _ (alen t)); [apply N.div_le_upper_bound; lia|exact L].
  - intros i [] m1 Li (l1 & c & l3 & El & L1 & L3 & Wr).
    assert (Hn : 2 * i + 2 <= len l).
    { rewrite E in Li; pose proof (N.mul_div_le (len l) 2 ltac:(lia)); lia. }
    assert (Hc : 2 <= len c) by (rewrite El, !len_app in Hn; lia).
    destruct c as [|x c]; [unfold len in Hc; cbn in Hc; lia|].
    destruct (exists_last (l := c)) as (c' & y & ->); [intros ->; unfold len in Hc; cbn in Hc; lia|].
    rewrite E, (sub64_ok (len l) 1), sub64_ok by lia.
    assert (Eq : rev l3 ++ (x :: c' ++ [y]) ++ rev l1 = (rev l3 ++ x :: c') ++ y :: rev l1) by (rewrite <- !app_assoc; cbn [app]; rewrite <- !app_assoc; reflexivity).
    assert (Lb : len l - 1 - i = len (rev l3 ++ x :: c')).
    { rewrite El, !len_app, !len_cons, !len_app, len_rev, L1, L3; unfold len at 2; cbn [List.length]; lia. }
    destruct (swap_ok m1 t _ i (len l - 1 - i) x y (proj1 Wr)) as (m2 & E2 & W2).
    + rewrite <- L3, <- (len_rev l3); cbn [app]; apply nth_mid.
    + rewrite Eq, Lb; apply nth_mid.
    + exists tt, m2; split; [exact E2|]; exists (l1 ++ [x]), c', (y :: l3); split; [rewrite El, <- !app_assoc; cbn [app]; rewrite <- app_assoc; reflexivity|].
      rewrite len_app, !len_cons, L1, L3; split; [reflexivity|]; split; [reflexivity|].
      replace (rev (y :: l3) ++ c' ++ rev (l1 ++ [x])) with (swapped (rev l3 ++ (x :: c' ++ [y]) ++ rev l1) i (len l - 1 - i) x y); [eapply written_trans; eauto|].
      unfold swapped; cbn [app]; rewrite <- app_assoc; cbn [app].
      replace (N.to_nat i) with (List.length (rev l3)) by (rewrite rev_length; unfold len in L3; lia); rewrite set_nth_mid.
      replace (N.to_nat (len l - 1 - i)) with (List.length (rev l3 ++ y :: c')).
      2:{ rewrite Lb; unfold len; rewrite Nat2N.id, !app_length; reflexivity. }
      change (rev l3 ++ y :: c' ++ y :: rev l1) with (rev l3 ++ (y :: c') ++ y :: rev l1); rewrite app_assoc, set_nth_mid, rev_app_distr.
      cbn [rev app]; rewrite <- !app_assoc; reflexivity.
  - exists [], l, []; rewrite app_nil_r; cbn [rev app]; rewrite app_nil_r; split; [reflexivity|]; split; [reflexivity|]; split; [reflexivity|apply written_refl, H].
  - exists m'; split; [exact E'|].
    assert (Hc : len c <= 1).
    { pose proof (N.mul_succ_div_gt (len l) 2 ltac:(lia)) as X; rewrite <- E in X; rewrite <- L1 in X at 1; rewrite E in X; rewrite El, !len_app in X; lia. }
    replace (rev l) with (rev l3 ++ c ++ rev l1); [exact Wr|]; rewrite El, !rev_app_distr, <- app_assoc; f_equal; f_equal.
    destruct c as [|x [|y c]]; trivial; unfold len in Hc; cbn in Hc; lia.
Qed.

(** ** Comparing *)
Lemma eq_list_app (eqx : A -> A -> bool) (a b : list A) x y : List.length a = List.length b -> eq_list eqx (a ++ [x]) (b ++ [y]) = eq_list eqx a b && eqx x y.
Proof.
  revert b; induction a as [|u a IH]; intros [|w b] H; try discriminate; cbn [app eq_list]; [now rewrite andb_true_r|].
  rewrite IH by (cbn in H; lia); now rewrite andb_assoc.
Qed.
Lemma eq_list_len (eqx : A -> A -> bool) (a b : list A) : List.length a <> List.length b -> eq_list eqx a b = false.
Proof.
  revert b; induction a as [|u a IH]; intros [|w b] H; cbn in *; try congruence; rewrite IH by lia; apply andb_false_r.
Qed.
Lemma first_next l i x : nth_ l i = Some x -> first (i + 1) l = first i l ++ [x].
Proof.
  intros Nx; destruct (nth_split _ _ _ Nx) as (l1 & l2 & El & Ei & Ef & _).
  rewrite Ef; unfold first; rewrite El, Ei; replace (N.to_nat (len l1 + 1)) with (List.length (l1 ++ [x])) by (rewrite app_length; unfold len; cbn; lia).
  change (x :: l2) with ([x] ++ l2); rewrite app_assoc, firstn_app, Nat.sub_diag, firstn_all; cbn; apply app_nil_r.
Qed.
Lemma nth_some l i : i < len l -> exists x, nth_ l i = Some x.
Proof. intros H; destruct (nth_ l i) eqn:X; [eauto|apply nth_none in X; lia]. Qed.
Lemma first_length l i : i <= len l -> List.length (first i l) = N.to_nat i.
Proof. intros H; pose proof (len_first i l H) as E; unfold len in E; lia. Qed.

Lemma array_eq_ok eqx m a b la lb : harray m a la -> harray m b lb -> array_eq eqx a b m = Done (eq_list eqx la lb, m).
Proof.
  intros Ha Hb; pose proof Ha as (Ea & _ & La & _); pose proof Hb as (Eb & _); unfold array_eq; rewrite Ea, Eb.
  destruct (N.eqb_spec (len la) (len lb)) as [E|E]; [|rewrite eq_list_len; [reflexivity|intros X; apply E; unfold len; now rewrite X]].
  destruct (loop_ok (fun i r m' => r = eq_list eqx (first i la) (first i lb) /\ m' = m)
    (fun i (r : bool) => if r then bind (unsafe_get a i) (fun x => bind (unsafe_get b i) (fun y => ret (eqx x y))) else ret false) (len la) true m) as (r & m' & Er & -> & ->).
  - lia.
  - intros i r m1 Li [-> ->].
    destruct (nth_some la i Li) as [x Nx]; destruct (nth_some lb i ltac:(lia)) as [y Ny].
    rewrite (first_next _ _ _ Nx), (first_next _ _ _ Ny).
    pose proof (eq_list_app eqx (first i la) (first i lb) x y ltac:(rewrite !first_length by lia; reflexivity)) as X.
    destruct (eq_list eqx (first i la) (first i lb)).
    + rewrite (bind_done _ _ _ _ _ (get_ok _ _ _ _ _ Ha Nx)), (bind_done _ _ _ _ _ (get_ok _ _ _ _ _ Hb Ny)); eexists _, _; split; [reflexivity|]; auto.
    + eexists _, _; split; [reflexivity|]; auto.
  - split; reflexivity.
  - rewrite Er, first_all; rewrite E, first_all; reflexivity.
Qed.
Lemma compare_list_app (cmp : A -> A -> comparison) (a b : list A) x y : List.length a = List.length b -> compare_list cmp (a ++ [x]) (b ++ [y]) = match compare_list cmp a b with Eq => cmp x y | o => o end.
Proof.
  revert b; induction a as [|u a IH]; intros [|w b] H; try discriminate; cbn [app compare_list]; [destruct (cmp x y); reflexivity|].
  rewrite IH by (cbn in H; lia); destruct (cmp u w); reflexivity.
Qed.
Lemma compare_list_first (cmp : A -> A -> comparison) : forall a b, compare_list cmp a b =
  match compare_list cmp (first (N.min (len a) (len b)) a) (first (N.min (len a) (len b)) b) with Eq => len a ?= len b | o => o end.
Proof.
  unfold first, len; intros a b; rewrite N2Nat.inj_min, !Nat2N.id, <- Nat2N.inj_compare; revert b.
  induction a as [|x a IH]; intros [|y b]; try reflexivity; cbn [List.length Nat.min firstn compare_list].
  rewrite IH; destruct (cmp x y); reflexivity.
Qed.
Lemma array_compare_ok cmp m a b la lb : harray m a la -> harray m b lb -> array_compare cmp a b m = Done (compare_list cmp la lb, m).
Proof.
  intros Ha Hb; pose proof Ha as (Ea & _ & La & _); pose proof Hb as (Eb & _); unfold array_compare; rewrite Ea, Eb, compare_list_first.
  destruct (loop_ok (fun i r m' => r = compare_list cmp (first i la) (first i lb) /\ m' = m)
    (fun i r => match r with Eq => bind (unsafe_get a i) (fun x => bind (unsafe_get b i) (fun y => ret (cmp x y))) | o => ret o end) (N.min (len la) (len lb)) Eq m) as (r & m' & Er & -> & ->).
  - lia.
  - intros i r m1 Li [-> ->].
    destruct (nth_some la i ltac:(lia)) as [x Nx]; destruct (nth_some lb i ltac:(lia)) as [y Ny].
    rewrite (first_next _ _ _ Nx), (first_next _ _ _ Ny).
    pose proof (compare_list_app cmp (first i la) (first i lb) x y ltac:(rewrite !first_length by lia; reflexivity)) as X.
    destruct (compare_list cmp (first i la) (first i lb)).
    + rewrite (bind_done _ _ _ _ _ (get_ok _ _ _ _ _ Ha Nx)), (bind_done _ _ _ _ _ (get_ok _ _ _ _ _ Hb Ny)); eexists _, _; split; [reflexivity|]; auto.
    + eexists _, _; split; [reflexivity|]; auto.
    + eexists _, _; split; [reflexivity|]; auto.
  - split; reflexivity.
  - rewrite (bind_done _ _ _ _ _ Er); destruct (compare_list _ _ _); reflexivity.
Qed.
End Ops.

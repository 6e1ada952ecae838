(** What the functions on vectors and iterators do. *)
From Coq Require Import Lia.
From Verif.Base Require Import Base Buf.
From Verif.Vector Require Import Model Spec ProofsMem ProofsArray ProofsOps.
Local Open Scope N_scope.
Local Open Scope list_scope.

Section Vec.
Context {A : Type}.
Implicit Types (m : mem A) (c d : list (option A)) (p q : ptr) (t : array) (v : vec) (l : list A).

(** A vector changes: it writes in its own places only, and gets no others than these and new ones. *)
Definition changed m m' v v' l (room : N) : Prop :=
  same m m' (inreg (varea v)) /\ (forall b k, inreg (varea v') b k -> inreg (varea v) b k \/ (List.length (blocks m) <= b)%nat) /\
  hvec m' v' l /\ room <= vcap v'.

Lemma reserve_ok m v l n e : hvec m v l -> n < 2 ^ 63 -> exists v' m', reserve_capacity n e v m = Done (v', m') /\ same m m' nowhere /\
  (forall b k, inreg (varea v') b k -> inreg (varea v) b k \/ (List.length (blocks m) <= b)%nat) /\ hvec m' v' l /\ vcap v <= vcap v' /\ n <= vcap v' /\
  (v' = v \/ new m (vptr v')).
Proof.
  intros H Hn; pose proof H as (j & E & Ec & G & L & W); unfold reserve_capacity.
  destruct (N.ltb_spec (vcap v) n) as [X|X].
  2:{ exists v, m; split; [reflexivity|]; split; [apply same_refl|]; split; [auto|]; split; [exact H|]; split; [lia|]; split; [exact X|now left]. }
  set (N' := if e then n else _).
  assert (Bn : n <= N' /\ N' < 2 ^ 64).
  { assert (Y : mul64 2 (N.max 2 (vcap v)) = 2 * N.max 2 (vcap v)) by (unfold mul64, w64; apply N.mod_small; change (2 ^ 64) with (2 * 2 ^ 63); change (2 ^ 63) with 9223372036854775808 in *; lia).
    subst N'; destruct e; [change (2 ^ 64) with (2 * 2 ^ 63); change (2 ^ 63) with 9223372036854775808 in *; lia|]; rewrite Y.
    change (2 ^ 64) with (2 * 2 ^ 63); change (2 ^ 63) with 9223372036854775808 in *; lia. }
  destruct Bn as [B1 B2]; destruct (array_alloc_ok m N' B2) as (s & m1 & E1 & Es & Nw & W1 & S & Gs); rewrite (bind_done _ _ _ _ _ E1).
  assert (Gv : seg m1 (vptr v) (map Some l)).
  { pose proof (hvec_same _ _ _ _ _ S (nowhere_ok _) H) as (j' & _ & _ & G' & _); apply seg_app in G' as [G' _]; exact G'. }
  destruct (copy_seg m1 (vptr v) (vlen v) (aptr s) [] (repeat None (N.to_nat (vlen v))) (repeat None (N.to_nat (N' - vlen v))) (map Some l)) as (m2 & E2 & G2 & S2); trivial.
  - rewrite lenc_map; symmetry; exact E.
  - apply lenc_repeat.
  - cbn [app]; rewrite <- repeat_app; replace (N.to_nat (vlen v) + N.to_nat (N' - vlen v))%nat with (N.to_nat N') by lia; exact Gs.
  - change (lenc []) with 0; rewrite ptr_add_0; apply (new_apart m); assumption.
  - change (lenc []) with 0 in E2, S2; rewrite ptr_add_0 in E2, S2; rewrite (bind_done _ _ _ _ _ E2); cbn [app] in G2.
    exists (Vec (aptr s) (vlen v) N'), m2; split; [reflexivity|]; split; [apply (same_new _ _ _ _ S S2), (new_region _ _ _ Nw)|].
    split; [intros b k I; right; exact (new_region _ _ _ Nw _ _ I)|]; cbn [vcap vptr].
    split; [|split; [lia|]; split; [exact B1|now right]].
    exists (repeat None (N.to_nat (N' - vlen v))); cbn [vlen vcap vptr]; split; [exact E|]; rewrite lenc_repeat; split; [lia|]; split; [exact G2|]; split; [exact B2|exact (within_same _ _ _ _ S2 W1)].
Qed.

Lemma same_within m v m1 v' w m2 : same m m1 nowhere ->
  (forall b k, inreg (varea v') b k -> inreg (varea v) b k \/ (List.length (blocks m) <= b)%nat) ->
  same m1 m2 w -> (forall b k, w b k -> inreg (varea v') b k) -> same m m2 (inreg (varea v)).
Proof. intros S D S2 I; apply (same_in _ _ _ _ _ (same_any _ _ _ S) S2); intros b k X; apply D, I, X. Qed.
Lemma lenc_pos c : 1 <= lenc c -> exists y d, c = y :: d.
Proof. destruct c as [|y d]; [unfold lenc; cbn; lia|eauto]. Qed.
Lemma lenc_cons x c : lenc (x :: c) = lenc c + 1.
Proof. unfold lenc; cbn [List.length]; lia. Qed.
Lemma lenc_some l : lenc (map Some l) = len l.
Proof. apply lenc_map. Qed.

Lemma push_ok m v l x : hvec m v l -> len l + 1 < 2 ^ 63 -> exists v' m', push x v m = Done (v', m') /\ changed m m' v v' (l ++ [x]) (N.max (vcap v) (len l + 1)).
Proof.
  intros H Hn; pose proof H as (_ & E0 & _); unfold push, reserve_free.
  rewrite E0, add64_ok by (change (2 ^ 64) with (2 * 2 ^ 63); lia).
  destruct (reserve_ok m v l (len l + 1) false H Hn) as (v1 & m1 & E1 & S1 & D1 & (j & E & Ec & G & L & W) & C1 & C2 & _); rewrite (bind_done _ _ _ _ _ E1).
  destruct (lenc_pos j ltac:(lia)) as (y & j' & ->); rewrite lenc_cons in Ec.
  destruct (store_ok m1 (vptr v1) x y _ _ G) as (m2 & E2 & G2 & S2); rewrite lenc_some, <- E in E2; unfold store_at; rewrite (bind_done _ _ _ _ _ E2).
  exists (Vec (vptr v1) (add64 (vlen v1) 1) (vcap v1)), m2; split; [reflexivity|]; rewrite add64_ok by lia; split; [|split; [exact D1|split; [|cbn [vcap]; lia]]].
  - apply (same_within _ _ _ _ _ _ S1 D1 S2); intros b k [Eb I]; split; [exact Eb|]; rewrite lenc_app, lenc_some, lenc_cons in I; cbn in *; lia.
  - exists j'; cbn [vlen vcap vptr]; rewrite len_app; change (len [x]) with 1; split; [lia|]; split; [lia|]; split; [|split; [exact L|exact (within_same _ _ _ _ S2 W)]].
    rewrite map_app, <- app_assoc; exact G2.
Qed.

Lemma append_ok m v l t a : hvec m v l -> harray m t a -> apart (area t) (varea v) -> len l + len a < 2 ^ 63 ->
  exists v' m', append t v m = Done (v', m') /\ changed m m' v v' (l ++ a) (N.max (vcap v) (len l + len a)).
Proof.
  intros H Ha Ap Hn; pose proof H as (_ & E0 & _); pose proof Ha as (Ea & _ & _ & Wa); unfold append, reserve_free.
  rewrite E0, Ea, add64_ok by (change (2 ^ 64) with (2 * 2 ^ 63); lia).
  destruct (reserve_ok m v l (len l + len a) false H Hn) as (v1 & m1 & E1 & S1 & D1 & (j & E & Ec & G & L & W) & C1 & C2 & _); rewrite (bind_done _ _ _ _ _ E1).
  assert (Ej : exists j1 j2, j = j1 ++ j2 /\ lenc j1 = len a).
  { exists (firstn (N.to_nat (len a)) j), (skipn (N.to_nat (len a)) j); split; [now rewrite firstn_skipn|]; unfold lenc in *; rewrite firstn_length; lia. }
  destruct Ej as (j1 & j2 & -> & Lj); rewrite lenc_app in Ec.
  destruct (copy_seg m1 (aptr t) (len a) (vptr v1) (map Some l) j1 j2 (map Some a)) as (m2 & E2 & G2 & S2); trivial.
  - exact (proj1 (proj2 (harray_later _ _ _ _ S1 Ha))).
  - apply lenc_some.
  - intros b k I J; assert (I' : inreg (area t) b k) by (destruct I as [Eb I]; split; [exact Eb|]; cbn in *; lia).
    assert (J' : inreg (varea v1) b k) by (destruct J as [Eb J]; split; [exact Eb|]; rewrite lenc_some in J; cbn in *; lia).
    destruct (D1 b k J') as [J2|J2]; [exact (Ap b k I' J2)|]; destruct I' as [Eb _]; cbn in Eb; unfold within in Wa; lia.
  - rewrite lenc_some in E2, S2; rewrite E, (bind_done _ _ _ _ _ E2).
    eexists _, m2; split; [reflexivity|]; rewrite add64_ok by lia; split; [|split; [exact D1|split; [|cbn [vcap]; lia]]].
    + apply (same_within _ _ _ _ _ _ S1 D1 S2); intros b k [Eb I]; split; [exact Eb|]; cbn in *; lia.
    + exists j2; cbn [vlen vcap vptr]; rewrite len_app; split; [lia|]; split; [lia|]; split; [|split; [exact L|exact (within_same _ _ _ _ S2 W)]].
      rewrite map_app, <- app_assoc; exact G2.
Qed.

Lemma insert_ok m v l i x : hvec m v l -> len l + 1 < 2 ^ 63 -> i <= len l ->
  exists v' m', insert i x v m = Done (v', m') /\ changed m m' v v' (first i l ++ x :: after i l) (N.max (vcap v) (len l + 1)).
Proof.
  intros H Hn Hi; pose proof H as (_ & E0 & _); unfold insert, reserve_free.
  rewrite E0, add64_ok by (change (2 ^ 64) with (2 * 2 ^ 63); lia).
  destruct (reserve_ok m v l (len l + 1) false H Hn) as (v1 & m1 & E1 & S1 & D1 & (j & E & Ec & G & L & W) & C1 & C2 & _); rewrite (bind_done _ _ _ _ _ E1).
  destruct (lenc_pos j ltac:(lia)) as (y & j' & ->); rewrite lenc_cons in Ec.
  rewrite E, assert_true by (apply N.leb_le, Hi); pose proof (len_first i l Hi) as Lf; pose proof (len_after i l) as La.
  rewrite <- (first_after i l), map_app, <- app_assoc in G; pose proof G as G1; apply seg_app in G1 as [_ G1]; apply seg_app in G1 as [G1 _].
  rewrite lenc_some, Lf in G1.
  assert (Z : exists z r, map Some (after i l) ++ y :: j' = z :: r ++ j' /\ lenc r = len l - i).
  { destruct (map Some (after i l)) as [|z r] eqn:Er.
    - exists y, []; split; [reflexivity|]; apply (f_equal lenc) in Er; rewrite lenc_some in Er; rewrite <- La, Er; reflexivity.
    - exists z, (r ++ [y]); cbn [app]; rewrite <- app_assoc; split; [reflexivity|]; apply (f_equal lenc) in Er; rewrite lenc_some, lenc_cons in Er; rewrite lenc_app; change (lenc [y]) with 1; lia. }
  destruct Z as (z & r & Z & Lr); rewrite Z in G; change (z :: r ++ j') with ([z] ++ r ++ j') in G; rewrite app_assoc in G.
  destruct (move_seg m1 _ (len l - i) (vptr v1) _ _ _ _ G1 ltac:(rewrite lenc_some; exact La) Lr G) as (m2 & E2 & G2 & S2).
  assert (L0 : lenc (map Some (first i l) ++ [z]) = i + 1) by (rewrite lenc_app, lenc_some, Lf; reflexivity).
  rewrite L0 in E2, S2; rewrite sub64_ok, (add64_ok i) by lia; rewrite (bind_done _ _ _ _ _ E2).
  rewrite <- app_assoc in G2; cbn [app] in G2.
  destruct (store_ok m2 (vptr v1) x z _ _ G2) as (m3 & E3 & G3 & S3); rewrite lenc_some, Lf in E3; unfold store_at; rewrite (bind_done _ _ _ _ _ E3).
  eexists _, m3; split; [reflexivity|]; rewrite add64_ok by lia; split; [|split; [exact D1|split; [|cbn [vcap]; lia]]].
  - eapply same_in; [apply (same_within _ _ _ _ _ _ S1 D1 S2)|exact S3|].
    + intros b k [Eb I]; split; [exact Eb|]; cbn in *; lia.
    + intros b k [Eb I]; apply D1; split; [exact Eb|]; rewrite lenc_app, lenc_cons, lenc_app, !lenc_some in I; cbn in *; lia.
  - exists j'; cbn [vlen vcap vptr]; rewrite len_app, len_cons; split; [lia|]; split; [lia|]; split; [|split; [exact L|exact (within_same _ _ _ _ S3 (within_same _ _ _ _ S2 W))]].
    rewrite map_app, <- app_assoc; exact G3.
Qed.
Lemma insert_fails m v l i x : hvec m v l -> len l + 1 < 2 ^ 63 -> len l < i -> insert i x v m = Failed.
Proof.
  intros H Hn Hi; pose proof H as (_ & E0 & _); unfold insert, reserve_free.
  rewrite E0, add64_ok by (change (2 ^ 64) with (2 * 2 ^ 63); lia).
  destruct (reserve_ok m v l (len l + 1) false H Hn) as (v1 & m1 & E1 & _ & _ & (j & E & _) & _); rewrite (bind_done _ _ _ _ _ E1).
  apply assert_false; rewrite E; apply N.leb_gt, Hi.
Qed.

Lemma shrunk m v l x l' : hvec m v l -> l = l' ++ x -> hvec m (Vec (vptr v) (len l') (vcap v)) l'.
Proof.
  intros (j & E & Ec & G & L & W) ->; exists (map Some x ++ j); cbn [vlen vcap vptr]; split; [reflexivity|].
  rewrite lenc_app, lenc_some; rewrite len_app in Ec; split; [lia|]; split; [|auto]; rewrite map_app, <- app_assoc in G; exact G.
Qed.
Lemma pop_ok m v l x : hvec m v (l ++ [x]) -> pop v m = Done (Some x, Vec (vptr v) (len l) (vcap v), m).
Proof.
  intros H; pose proof H as (j & E & Ec & G & L & W); rewrite len_app in E, Ec; change (len [x]) with 1 in *.
  unfold pop; rewrite (proj2 (N.eqb_neq _ 0)) by lia; cbn [negb]; rewrite sub64_ok by lia; replace (vlen v - 1) with (len l) by lia.
  rewrite map_app, <- app_assoc in G; unfold load_at; rewrite <- (lenc_some l), (bind_done _ _ _ _ _ (load_ok _ _ _ _ _ G)); reflexivity.
Qed.
Lemma vstore_ok m v l k x : hvec m v l -> k < len l ->
  exists m', store_at k x (vptr v) m = Done (tt, m') /\ hvec m' v (set_nth (N.to_nat k) x l) /\ same m m' (inreg (varea v)).
Proof.
  intros H Hk; destruct (nth_some l k Hk) as [y Ny]; destruct (nth_split _ _ _ Ny) as (l1 & l2 & -> & -> & _).
  destruct H as (j & E & Ec & G & L & W); rewrite map_app, <- app_assoc in G; cbn [map app] in G.
  destruct (store_ok m (vptr v) x _ _ _ G) as (m' & E' & G' & S'); exists m'; rewrite lenc_some in E'; split; [exact E'|].
  split; [|apply (same_weaken _ _ _ _ S'); intros b k _ [Eb I]; split; [exact Eb|]; rewrite lenc_app, lenc_cons, lenc_app, !lenc_some in I; rewrite len_app, len_cons in Ec; cbn in *; lia].
  replace (N.to_nat (len l1)) with (List.length l1) by (unfold len; lia); exists j; rewrite set_nth_mid; rewrite !len_app, !len_cons in *.
  split; [exact E|]; split; [exact Ec|]; split; [rewrite map_app, <- app_assoc; exact G'|]; split; [exact L|exact (within_same _ _ _ _ S' W)].
Qed.
Lemma vload_ok m v l k x : hvec m v l -> nth_ l k = Some x -> load_at k (vptr v) m = Done (x, m).
Proof. intros H; exact (get_ok m (buffer v) l k x (harray_buffer _ _ _ H)). Qed.

Lemma set_nth_app {X} k (x : X) (l r : list X) : (k < List.length l)%nat -> set_nth k x (l ++ r) = set_nth k x l ++ r.
Proof.
  intros H; unfold set_nth; rewrite firstn_app, skipn_app; replace (k - List.length l)%nat with O by lia; replace (Datatypes.S k - List.length l)%nat with O by lia.
  cbn [firstn]; change (skipn 0 r) with r; rewrite app_nil_r, <- app_assoc; reflexivity.
Qed.
Lemma swap_remove_ok m v l k x y : hvec m v (l ++ [y]) -> nth_ (l ++ [y]) k = Some x ->
  exists v' m', swap_remove k v m = Done (x, v', m') /\ changed m m' v v' (if k =? len l then l else set_nth (N.to_nat k) y l) (vcap v).
Proof.
  intros H Nk; pose proof H as (j & E & Ec & _ & L & _); rewrite len_app in E, Ec; change (len [y]) with 1 in *.
  assert (Lk : k < vlen v) by (destruct (N.lt_ge_cases k (vlen v)) as [?|X]; [assumption|]; rewrite E in X; change 1 with (len [y]) in X; rewrite <- len_app in X; apply nth_none in X; congruence).
  unfold swap_remove; rewrite assert_true by (apply N.ltb_lt, Lk); rewrite (bind_done _ _ _ _ _ (vload_ok _ _ _ _ _ H Nk)).
  rewrite sub64_ok by lia; replace (vlen v - 1) with (len l) by lia; destruct (N.eqb_spec k (len l)) as [->|D]; cbn [negb when].
  - exists (Vec (vptr v) (len l) (vcap v)), m; split; [reflexivity|]; split; [apply same_any, same_refl|]; split; [auto|]; split; [|cbn; lia]; eapply shrunk; eauto.
  - assert (Ny : nth_ (l ++ [y]) (len l) = Some y) by apply nth_mid.
    destruct (vstore_ok m v _ k y H) as (m' & E' & H' & S'); [rewrite len_app; change (len [y]) with 1; lia|].
    assert (X : bind (load_at (len l) (vptr v)) (fun y => store_at k y (vptr v)) m = Done (tt, m')) by (rewrite (bind_done _ _ _ _ _ (vload_ok _ _ _ _ _ H Ny)); exact E').
    rewrite (bind_done _ _ _ _ _ X); rewrite set_nth_app in H' by (unfold len in *; lia).
    exists (Vec (vptr v) (len l) (vcap v)), m'; split; [reflexivity|]; split; [exact S'|]; split; [auto|]; split; [|cbn; lia].
    replace (len l) with (len (set_nth (N.to_nat k) y l)) at 1 by (apply len_set_nth; lia); eapply shrunk; eauto.
Qed.
Lemma remove_ok m v l k x : hvec m v l -> nth_ l k = Some x ->
  exists v' m', remove k v m = Done (x, v', m') /\ changed m m' v v' (first k l ++ after (k + 1) l) (vcap v).
Proof.
  intros H Nk; destruct (nth_split _ _ _ Nk) as (l1 & l2 & El & Ek & -> & ->).
  pose proof H as (j & E & Ec & G & L & W); rewrite El, len_app, len_cons in E, Ec.
  unfold remove; rewrite assert_true by (apply N.ltb_lt; lia); rewrite (bind_done _ _ _ _ _ (vload_ok _ _ _ _ _ H Nk)).
  rewrite add64_ok, (sub64_ok (vlen v) 1), sub64_ok by lia; replace (vlen v - 1 - k) with (len l2) by lia.
  rewrite El, map_app, <- app_assoc in G; cbn [map app] in G.
  pose proof G as G1; change (Some x :: map Some l2 ++ j) with ([Some x] ++ map Some l2 ++ j) in G1; rewrite app_assoc in G1; apply seg_app in G1 as [_ G1]; apply seg_app in G1 as [G1 _].
  rewrite lenc_app, lenc_some in G1; change (lenc [Some x]) with 1 in G1; rewrite <- Ek in G1.
  assert (Z : exists r z, Some x :: map Some l2 = r ++ [z] /\ lenc r = len l2).
  { destruct (exists_last (l := Some x :: map Some l2)) as (r & z & Z); [discriminate|]; exists r, z; split; [exact Z|].
    apply (f_equal lenc) in Z; rewrite lenc_app, lenc_cons, lenc_some in Z; change (lenc [z]) with 1 in Z; lia. }
  destruct Z as (r & z & Z & Lr); change (Some x :: map Some l2 ++ j) with ((Some x :: map Some l2) ++ j) in G; rewrite Z, <- app_assoc in G.
  destruct (move_seg m _ (len l2) (vptr v) _ _ _ _ G1 (lenc_some l2) Lr G) as (m' & E' & G' & S').
  rewrite lenc_some, <- Ek in E', S'; rewrite (bind_done _ _ _ _ _ E'); eexists _, m'; split; [reflexivity|].
  split; [|split; [auto|split; [|cbn; lia]]].
  - apply (same_weaken _ _ _ _ S'); intros b i _ [Eb I]; split; [exact Eb|]; cbn in *; lia.
  - exists (z :: j); cbn [vlen vcap vptr]; rewrite len_app, lenc_cons; split; [lia|]; split; [lia|]; split; [|split; [exact L|exact (within_same _ _ _ _ S' W)]].
    rewrite map_app, <- app_assoc; exact G'.
Qed.
Lemma truncate_ok m v l n : hvec m v l -> hvec m (truncate n v) (first n l).
Proof.
  intros H; pose proof H as (j & E & _); unfold truncate; destruct (N.ltb_spec n (vlen v)) as [X|X].
  - rewrite <- (len_first n l) at 1 by lia; eapply shrunk; [exact H|symmetry; apply first_after].
  - rewrite first_more by lia; exact H.
Qed.
Lemma truncate_same v n : vptr (truncate n v) = vptr v /\ vcap (truncate n v) = vcap v.
Proof. unfold truncate; destruct (_ <? _); auto. Qed.

Lemma consumed m v l n : hvec m v l -> n <= len l ->
  harray m (Array (vptr v) n) (first n l) /\ hvec m (Vec (ptr_add n (vptr v)) (len l - n) (vcap v - n)) (after n l).
Proof.
  intros (j & E & Ec & G & L & W) H; pose proof (len_first n l H) as Lf; pose proof (len_after n l) as La.
  rewrite <- (first_after n l), map_app, <- app_assoc in G; apply seg_app in G as [G1 G2]; rewrite lenc_some, Lf in G2; split.
  - split; [symmetry; exact Lf|]; split; [exact G1|]; split; [cbn [alen]; lia|exact W].
  - exists j; cbn [vlen vcap vptr]; split; [lia|]; split; [lia|]; split; [exact G2|]; split; [lia|exact W].
Qed.

(** ** Iterators *)
Definition hiter m (it : iter) l : Prop := exists a,
  match it with
  | Forward t i => harray m t a /\ i <= len a /\ l = after i a
  | Backward t i => harray m t a /\ i <= len a /\ l = rev (first i a)
  end.
Lemma next_ok m it l : hiter m it l -> exists it', iter_array it' = iter_array it /\
  match l with
  | [] => next it m = Done (None, it, m)
  | x :: r => next it m = Done (Some x, it', m) /\ hiter m it' r
  end.
Proof.
  intros [a H]; destruct it as [t i|t i]; destruct H as (Ha & Hi & ->); pose proof Ha as (E & _ & L & _).
  - exists (Forward t (add64 i 1)); split; [reflexivity|]; cbn [next]; rewrite E; destruct (N.ltb_spec i (len a)) as [X|X].
    + destruct (nth_some a i X) as [x Nx]; destruct (nth_split _ _ _ Nx) as (l1 & l2 & El & Ei & _ & Ef).
      assert (Es : after i a = x :: l2) by (rewrite El, Ei; unfold after, len; rewrite Nat2N.id, skipn_app, skipn_all, Nat.sub_diag; reflexivity).
      rewrite Es, (bind_done _ _ _ _ _ (get_ok _ _ _ _ _ Ha Nx)); split; [reflexivity|]; rewrite add64_ok by lia.
      exists a; split; [exact Ha|]; split; [lia|]; symmetry; exact Ef.
    + rewrite after_more by lia; reflexivity.
  - exists (Backward t (sub64 i 1)); split; [reflexivity|]; cbn [next]; destruct (N.ltb_spec 0 i) as [X|X].
    + destruct (nth_some a (i - 1) ltac:(lia)) as [x Nx]; pose proof (first_next _ _ _ Nx) as F; replace (i - 1 + 1) with i in F by lia.
      rewrite F, rev_app_distr; cbn [rev app]; rewrite sub64_ok by lia; rewrite (bind_done _ _ _ _ _ (get_ok _ _ _ _ _ Ha Nx)); split; [reflexivity|].
      exists a; split; [exact Ha|]; split; [lia|reflexivity].
    + replace i with 0 by lia; reflexivity.
Qed.
Lemma hiter_same m m' w it l : same m m' w -> (forall b k, inreg (area (iter_array it)) b k -> ~ w b k) -> hiter m it l -> hiter m' it l.
Proof. intros S D [a H]; exists a; destruct it; destruct H as (H & Hi & E); (split; [eapply harray_same; eauto|auto]). Qed.
Lemma hiter_within m it l : hiter m it l -> within m (aptr (iter_array it)).
Proof. intros [a H]; destruct it; apply H. Qed.
Lemma hiter_len m it l : hiter m it l -> len l <= alen (iter_array it).
Proof. intros [a H]; destruct it as [t i|t i]; destruct H as ((E & _) & Hi & ->); cbn [iter_array]; rewrite E; [rewrite len_after|rewrite len_rev, len_first]; lia. Qed.

Lemma collect_into_ok m0 : forall l (fuel : nat) it v (c : list A) m, hiter m it l -> hvec m v c -> (List.length l < fuel)%nat -> len c + len l < 2 ^ 63 -> same m0 m nowhere ->
  within m0 (aptr (iter_array it)) -> (forall b k, inreg (varea v) b k -> (List.length (blocks m0) <= b)%nat) -> len c <= vcap v ->
  exists it' v' m', collect_into fuel it v m = Done (it', v', m') /\ iter_array it' = iter_array it /\ hiter m' it' [] /\ hvec m' v' (c ++ l) /\ len (c ++ l) <= vcap v' /\
    same m0 m' nowhere /\ (forall b k, inreg (varea v') b k -> (List.length (blocks m0) <= b)%nat).
Proof.
  induction l as [|x l IH]; intros fuel it v c m Hi Hv Hf Hl S W N R; (destruct fuel as [|fuel]; [cbn in Hf; lia|]); cbn [collect_into];
    destruct (next_ok m it _ Hi) as (it' & Ea & E).
  - rewrite (bind_done _ _ _ _ _ E); exists it, v, m; rewrite app_nil_r; auto 10.
  - destruct E as [E Hi']; rewrite (bind_done _ _ _ _ _ E); cbn [fst snd]; rewrite len_cons in Hl.
    destruct (push_ok m v c x Hv ltac:(lia)) as (v1 & m1 & E1 & S1 & D1 & H1 & R1); rewrite (bind_done _ _ _ _ _ E1).
    assert (S' : same m0 m1 nowhere) by (apply (same_new _ _ _ _ S S1); exact N).
    destruct (IH fuel it' v1 (c ++ [x]) m1) as (it2 & v2 & m2 & E2 & Ea2 & Hi2 & H2 & R2 & S2 & N2); trivial.
    + apply (hiter_same _ _ _ _ _ S1); [|exact Hi']; rewrite Ea; intros b k [Eb _] J; apply N in J; cbn in Eb; unfold within in W; lia.
    + cbn in Hf; lia.
    + rewrite len_app; change (len [x]) with 1; lia.
    + rewrite Ea; exact W.
    + intros b k I; destruct (D1 b k I) as [J|J]; [exact (N b k J)|pose proof (same_length _ _ _ S); lia].
    + rewrite len_app; change (len [x]) with 1; lia.
    + exists it2, v2, m2; rewrite <- app_assoc in H2, R2; rewrite Ea2, Ea; auto 10.
Qed.
Lemma hvec_empty m : (0 < List.length (blocks m))%nat -> hvec m vector_empty [].
Proof.
  intros B; destruct (made_empty m B) as (_ & (E & G & L & W) & _); exists []; split; [reflexivity|]; split; [reflexivity|]; split; [exact G|]; split; [exact L|exact W].
Qed.
Lemma collect_ok m it l : (0 < List.length (blocks m))%nat -> hiter m it l -> len l < 2 ^ 63 ->
  exists it' v' m', collect it m = Done (it', v', m') /\ iter_array it' = iter_array it /\ hiter m' it' [] /\ hvec m' v' l /\ len l <= vcap v' /\ same m m' nowhere /\
    (forall b k, inreg (varea v') b k -> (List.length (blocks m) <= b)%nat).
Proof.
  intros B Hi Hl; unfold collect.
  destruct (collect_into_ok m l (Datatypes.S (N.to_nat (alen (iter_array it)))) it vector_empty [] m Hi (hvec_empty m B)) as (it' & v' & m' & H); trivial.
  - pose proof (hiter_len _ _ _ Hi); unfold len in *; lia.
  - apply same_refl.
  - exact (hiter_within _ _ _ Hi).
  - intros b k [_ I]; cbn in I; lia.
  - cbn; lia.
  - exists it', v', m'; exact H.
Qed.
End Vec.

(** Segments of memory. *)
From Coq Require Import Lia.
From Verif.Base Require Import Base Buf.
From Verif.Vector Require Import Model.
Local Open Scope N_scope.
Local Open Scope list_scope.

Section Mem.
Context {A : Type}.
Implicit Types (m : mem A) (c d : list (option A)) (p q : ptr).

Definition region := (ptr * N)%type.
Definition inreg (r : region) (b : nat) (k : N) : Prop := b = fst (fst r) /\ snd (fst r) <= k < snd (fst r) + snd r.
Definition lenc c : N := N.of_nat (List.length c).
(** From a position on, memory holds this. *)
Definition seg m p c : Prop :=
  snd p + lenc c <= size m (fst p) /\ forall k, (k < List.length c)%nat -> nth_error c k = Some (cells m (fst p) (snd p + N.of_nat k)).
(** Memory changes in some places only, and may have new blocks. *)
Definition same m m' (w : nat -> N -> Prop) : Prop :=
  (exists x, blocks m' = blocks m ++ x) /\
  forall b k, (b < List.length (blocks m))%nat -> ~ w b k -> cells m' b k = cells m b k.
Definition nowhere (b : nat) (k : N) : Prop := False.

Lemma same_refl m : same m m nowhere.
Proof. split; [exists []; now rewrite app_nil_r|auto]. Qed.
Lemma same_trans m1 m2 m3 w : same m1 m2 w -> same m2 m3 w -> same m1 m3 w.
Proof.
  intros [[x E] H] [[y F] G]; split; [exists (x ++ y); now rewrite F, E, app_assoc|].
  intros b k L N; rewrite G, H; trivial; rewrite E, app_length; lia.
Qed.
Lemma same_weaken m m' (w w' : nat -> N -> Prop) : same m m' w -> (forall b k, (b < List.length (blocks m))%nat -> w b k -> w' b k) -> same m m' w'.
Proof. intros [E H] I; split; [exact E|]; intros b k L N; apply H; auto. Qed.
Lemma same_size m m' w b : same m m' w -> (b < List.length (blocks m))%nat -> size m' b = size m b.
Proof. intros [[x E] _] L; unfold size; rewrite E, app_nth1; trivial. Qed.
Lemma same_length m m' w : same m m' w -> (List.length (blocks m) <= List.length (blocks m'))%nat.
Proof. intros [[x E] _]; rewrite E, app_length; lia. Qed.

Lemma in_block m b k : k < size m b -> (b < List.length (blocks m))%nat.
Proof. unfold size; intros H; destruct (Nat.lt_ge_cases b (List.length (blocks m))) as [L|L]; [exact L|]; rewrite nth_overflow in H by exact L; lia. Qed.
Lemma lenc_app c d : lenc (c ++ d) = lenc c + lenc d.
Proof. unfold lenc; rewrite app_length; lia. Qed.
Lemma lenc_map (l : list A) : lenc (map Some l) = N.of_nat (List.length l).
Proof. unfold lenc; now rewrite map_length. Qed.

Lemma seg_nil m p : snd p <= size m (fst p) -> seg m p [].
Proof. intros H; split; [unfold lenc; cbn; lia|]; cbn; intros k L; lia. Qed.
Lemma seg_app m p c d : seg m p (c ++ d) <-> seg m p c /\ seg m (ptr_add (lenc c) p) d.
Proof.
  unfold seg; rewrite lenc_app; cbn [ptr_add fst snd]; split.
  - intros [L H]; split; split; try lia.
    + intros k Lk; specialize (H k); rewrite app_length, nth_error_app1 in H by exact Lk; apply H; lia.
    + intros k Lk; specialize (H (List.length c + k)%nat); rewrite app_length, nth_error_app2, Nat.add_comm, Nat.add_sub in H by lia.
      rewrite H by lia; do 2 f_equal; unfold lenc; lia.
  - intros [[L H] [L' H']]; split; [lia|]; intros k Lk; destruct (Nat.lt_ge_cases k (List.length c)) as [X|X].
    + rewrite nth_error_app1 by exact X; now apply H.
    + rewrite nth_error_app2 by exact X; rewrite app_length in Lk; rewrite H' by lia; do 2 f_equal; unfold lenc; lia.
Qed.
Lemma seg_block m p c : seg m p c -> c <> [] -> (fst p < List.length (blocks m))%nat.
Proof. intros [L _] H; apply (in_block m _ (snd p)); destruct c; [congruence|]; unfold lenc in L; cbn in L; lia. Qed.
Lemma seg_same m m' w p c : same m m' w -> seg m p c -> (forall b k, inreg (p, lenc c) b k -> ~ w b k) -> (fst p < List.length (blocks m))%nat -> seg m' p c.
Proof.
  intros S [L H] D B; split; [rewrite (same_size _ _ _ _ S) by exact B; exact L|]; intros k Lk; rewrite H by exact Lk; f_equal; symmetry; apply (proj2 S); [exact B|].
  apply D; split; [reflexivity|]; cbn; unfold lenc; lia.
Qed.
Lemma seg_cell m p x : seg m p [x] -> snd p < size m (fst p) /\ cells m (fst p) (snd p) = x.
Proof.
  intros [L H]; unfold lenc in L; cbn in L; split; [lia|]; specialize (H O); cbn in H; rewrite N.add_0_r in H; assert (X : Some x = Some (cells m (fst p) (snd p))) by (apply H; lia); congruence.
Qed.

(** ** Primitives *)
Lemma alloc_ok m n : exists p m', alloc n m = Done (p, m') /\ fst p = List.length (blocks m) /\ snd p = 0 /\ same m m' nowhere /\
  seg m' p (repeat None (N.to_nat n)) /\ (fst p < List.length (blocks m'))%nat.
Proof.
  unfold alloc; eexists _, _; split; [reflexivity|]; cbn [fst snd blocks cells]; split; [reflexivity|]; split; [reflexivity|]; split; [|split].
  - split; [eexists; reflexivity|]; cbn [cells]; intros b k L _; rewrite (proj2 (Nat.eqb_neq _ _)) by lia; reflexivity.
  - split.
    + cbn [fst snd]; unfold size, lenc; cbn [blocks]; rewrite app_nth2, Nat.sub_diag, repeat_length by lia; cbn; lia.
    + intros k L; rewrite repeat_length in L; cbn [fst snd cells]; rewrite Nat.eqb_refl, nth_error_repeat by exact L; reflexivity.
  - rewrite app_length; cbn; lia.
Qed.
Lemma load_ok m p x d c : seg m p (c ++ Some x :: d) -> load (ptr_add (lenc c) p) m = Done (x, m).
Proof.
  intros H; apply seg_app in H as [_ H]; change (Some x :: d) with ([Some x] ++ d) in H; apply seg_app in H as [H _]; apply seg_cell in H as [L E].
  unfold load; rewrite (proj2 (N.ltb_lt _ _) L), E; reflexivity.
Qed.
Lemma store_ok m p x y c d : seg m p (c ++ y :: d) ->
  exists m', store x (ptr_add (lenc c) p) m = Done (tt, m') /\ seg m' p (c ++ Some x :: d) /\ same m m' (inreg (p, lenc (c ++ y :: d))).
Proof.
  intros H; pose proof H as [Lp Hp]; apply seg_app in H as [_ H]; change (y :: d) with ([y] ++ d) in H; apply seg_app in H as [H _]; apply seg_cell in H as [L _].
  unfold store; rewrite (proj2 (N.ltb_lt _ _) L); eexists; split; [reflexivity|]; cbn [ptr_add fst snd] in *; split.
  - split; [unfold lenc, size in *; rewrite app_length in *; cbn [blocks List.length] in *; exact Lp|].
    intros k Lk; cbn [cells]; rewrite Nat.eqb_refl; cbn [andb]; rewrite app_length in Lk; cbn [List.length] in Lk.
    specialize (Hp k); rewrite app_length in Hp; cbn [List.length] in Hp.
    destruct (N.eqb_spec (snd p + N.of_nat k) (snd p + lenc c)) as [E|E].
    + replace k with (List.length c) by (unfold lenc in E; lia); rewrite nth_error_app2, Nat.sub_diag by lia; reflexivity.
    + rewrite <- Hp by lia; unfold lenc in E; destruct (Nat.lt_ge_cases k (List.length c)); [rewrite !nth_error_app1 by lia; reflexivity|].
      rewrite !nth_error_app2 by lia; destruct (k - List.length c)%nat eqn:Ek; [lia|reflexivity].
  - split; [exists []; now rewrite app_nil_r|]; cbn [cells]; intros b k _ N; destruct (Nat.eqb_spec b (fst p)) as [->|]; [|reflexivity]; cbn [andb].
    destruct (N.eqb_spec k (snd p + lenc c)) as [->|]; [|reflexivity]; destruct N; split; [reflexivity|]; cbn [fst snd]; rewrite lenc_app; unfold lenc; cbn [List.length]; lia.
Qed.
Lemma move_seg m src n dst c0 c1 c2 s :
  seg m src s -> lenc s = n -> lenc c1 = n -> seg m dst (c0 ++ c1 ++ c2) ->
  exists m', move src n (ptr_add (lenc c0) dst) m = Done (tt, m') /\ seg m' dst (c0 ++ s ++ c2) /\ same m m' (inreg (ptr_add (lenc c0) dst, n)).
Proof.
  intros [Ls Hs] Es Ec [Ld Hd]; unfold move; cbn [ptr_add fst snd].
  rewrite (proj2 (N.leb_le _ _)) by lia; rewrite !lenc_app in Ld; rewrite (proj2 (N.leb_le _ _)) by lia; cbn [andb].
  eexists; split; [reflexivity|]; split.
  - split; [unfold size, moved; cbn [blocks]; fold (size m (fst dst)); rewrite !lenc_app; lia|].
    intros k Lk; unfold moved; cbn [cells ptr_add fst snd]; rewrite Nat.eqb_refl; cbn [andb]; rewrite !app_length in Lk.
    specialize (Hd k); rewrite !app_length in Hd; unfold lenc in *.
    destruct (Nat.lt_ge_cases k (List.length c0)) as [X|X].
    + rewrite (proj2 (N.leb_gt _ _)) by lia; cbn [andb]; rewrite nth_error_app1 in * by exact X; apply Hd; lia.
    + rewrite (proj2 (N.leb_le _ _)) by lia; cbn [andb]; rewrite nth_error_app2 in * by exact X.
      destruct (Nat.lt_ge_cases (k - List.length c0) (List.length s)) as [Y|Y].
      * rewrite (proj2 (N.ltb_lt _ _)) by lia; rewrite nth_error_app1, Hs by exact Y; do 2 f_equal; lia.
      * rewrite (proj2 (N.ltb_ge _ _)) by lia; rewrite nth_error_app2 in * by lia; rewrite <- Hd by lia; f_equal; lia.
  - split; [exists []; now rewrite app_nil_r|]; unfold moved; cbn [cells ptr_add fst snd]; intros b k _ N.
    destruct (Nat.eqb_spec b (fst dst)) as [->|]; [|reflexivity]; destruct (N.leb_spec (snd dst + lenc c0) k); [|reflexivity].
    destruct (N.ltb_spec k (snd dst + lenc c0 + n)); [|reflexivity]; destruct N; split; [reflexivity|]; cbn [ptr_add fst snd]; lia.
Qed.
(** Two regions have nothing in common. *)
Definition apart (r r' : region) : Prop := forall b k, inreg r b k -> ~ inreg r' b k.
Lemma apart_sym r r' : apart r r' -> apart r' r.
Proof. intros H b k I J; exact (H b k J I). Qed.
Lemma copy_seg m src n dst c0 c1 c2 s :
  seg m src s -> lenc s = n -> lenc c1 = n -> seg m dst (c0 ++ c1 ++ c2) -> apart (src, n) (ptr_add (lenc c0) dst, n) ->
  exists m', copy src n (ptr_add (lenc c0) dst) m = Done (tt, m') /\ seg m' dst (c0 ++ s ++ c2) /\ same m m' (inreg (ptr_add (lenc c0) dst, n)).
Proof.
  intros Hs Es Ec Hd Ap; unfold copy; cbn [ptr_add fst snd].
  replace (negb (Nat.eqb (fst src) (fst dst)) || (snd src + n <=? snd dst + lenc c0) || (snd dst + lenc c0 + n <=? snd src)) with true.
  { exact (move_seg m src n dst c0 c1 c2 s Hs Es Ec Hd). }
  symmetry; destruct (Nat.eqb_spec (fst src) (fst dst)) as [E|]; [cbn [negb orb]|reflexivity].
  destruct (N.leb_spec (snd src + n) (snd dst + lenc c0)); [reflexivity|]; destruct (N.leb_spec (snd dst + lenc c0 + n) (snd src)); [reflexivity|].
  exfalso; apply (Ap (fst src) (N.max (snd src) (snd dst + lenc c0))); split; cbn [ptr_add fst snd]; trivial; lia.
Qed.
End Mem.

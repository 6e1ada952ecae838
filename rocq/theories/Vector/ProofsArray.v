(** Arrays and vectors as segments of memory. *)
From Coq Require Import Lia.
From Verif.Base Require Import Base Buf.
From Verif.Vector Require Import Model Spec ProofsMem.
Local Open Scope N_scope.
Local Open Scope list_scope.

Section Arrays.
Context {A : Type}.
Implicit Types (m : mem A) (c d : list (option A)) (p q : ptr) (t : array) (v : vec) (l : list A).

Lemma bind_done {X Y} (a : M A X) (f : X -> M A Y) m x m' : a m = Done (x, m') -> bind a f m = f x m'.
Proof. unfold bind; intros ->; reflexivity. Qed.
Lemma assert_true b (X : Type) (f : M A X) m : b = true -> bind (assert b) (fun _ => f) m = f m.
Proof. intros ->; reflexivity. Qed.
Lemma assert_false b (X : Type) (f : M A X) m : b = false -> bind (assert b) (fun _ => f) m = Failed.
Proof. intros ->; reflexivity. Qed.

Lemma len_app l l' : len (l ++ l') = len l + len l'.
Proof. unfold len; rewrite app_length; lia. Qed.
Lemma len_first n l : n <= len l -> len (first n l) = n.
Proof. unfold len, first; intros H; rewrite firstn_length; lia. Qed.
Lemma len_after n l : len (after n l) = len l - n.
Proof. unfold len, after; rewrite skipn_length; lia. Qed.
Lemma first_after n l : first n l ++ after n l = l.
Proof. apply firstn_skipn. Qed.
Lemma nth_split l k x : nth_ l k = Some x -> exists l1 l2, l = l1 ++ x :: l2 /\ k = len l1 /\ first k l = l1 /\ after (k + 1) l = l2.
Proof.
  unfold nth_; intros H; apply nth_error_split in H as (l1 & l2 & -> & E); exists l1, l2; split; [reflexivity|].
  assert (Ek : k = len l1) by (unfold len; lia); split; [exact Ek|]; unfold first, after; split.
  - rewrite <- E, firstn_app, Nat.sub_diag, firstn_all; cbn; apply app_nil_r.
  - replace (N.to_nat (k + 1)) with (S (N.to_nat k)) by lia; rewrite <- E.
    change (l1 ++ x :: l2) with (l1 ++ [x] ++ l2); rewrite app_assoc, skipn_app, skipn_all2 by (rewrite app_length; cbn; lia).
    rewrite app_length; cbn [List.length app]; replace (S (List.length l1) - (List.length l1 + 1))%nat with O by lia; reflexivity.
Qed.
Lemma nth_none l k : nth_ l k = None <-> len l <= k.
Proof. unfold nth_, len; rewrite nth_error_None; lia. Qed.
Lemma set_nth_mid {X} (l1 : list X) (x y : X) (l2 : list X) : set_nth (List.length l1) y (l1 ++ x :: l2) = l1 ++ y :: l2.
Proof.
  unfold set_nth; rewrite firstn_app, Nat.sub_diag, firstn_all; cbn [firstn]; rewrite app_nil_r; f_equal; f_equal.
  rewrite skipn_app, skipn_all2 by lia; cbn [app]; replace (S (List.length l1) - List.length l1)%nat with 1%nat by lia; reflexivity.
Qed.
Lemma skipn_next {X} n : forall (c : list X) y r, skipn n c = y :: r -> skipn (S n) c = r.
Proof. induction n as [|n IH]; intros [|z c] y r E; try discriminate; [cbn in E; injection E as <- <-; reflexivity|]; exact (IH c y r E). Qed.
Lemma map_repeat {X Y} (f : X -> Y) x n : map f (repeat x n) = repeat (f x) n.
Proof. induction n as [|n IH]; [reflexivity|]; cbn; now rewrite IH. Qed.
Lemma add64_ok a b : a + b < 2 ^ 64 -> add64 a b = a + b.
Proof. intros H; apply N.mod_small; exact H. Qed.
Lemma sub64_ok a b : b <= a -> a < 2 ^ 64 -> sub64 a b = a - b.
Proof. intros H L; unfold sub64, w64; replace (a + 2 ^ 64 - b) with (a - b + 1 * 2 ^ 64) by lia; rewrite N.mod_add by lia; apply N.mod_small; lia. Qed.

(** ** What is held *)
Definition area t : region := (aptr t, alen t).
Definition varea v : region := (vptr v, vcap v).
Definition within m p : Prop := (fst p < List.length (blocks m))%nat.
Definition harray m t l : Prop := alen t = len l /\ seg m (aptr t) (map Some l) /\ alen t < 2 ^ 64 /\ within m (aptr t).
Definition hvec m v l : Prop := exists j,
  vlen v = len l /\ vcap v = len l + lenc j /\ seg m (vptr v) (map Some l ++ j) /\ vcap v < 2 ^ 64 /\ within m (vptr v).
Definition new m p : Prop := (List.length (blocks m) <= fst p)%nat.

Lemma within_same m m' w p : same m m' w -> within m p -> within m' p.
Proof. intros S W; pose proof (same_length _ _ _ S); unfold within in *; lia. Qed.
Lemma harray_same m m' w t l : same m m' w -> (forall b k, inreg (area t) b k -> ~ w b k) -> harray m t l -> harray m' t l.
Proof.
  intros S D (E & G & L & W); split; [exact E|]; split; [|split; [exact L|eapply within_same; eauto]].
  apply (seg_same _ _ _ _ _ S G); trivial; rewrite lenc_map; fold (len l); rewrite <- E; exact D.
Qed.
Lemma hvec_same m m' w v l : same m m' w -> (forall b k, inreg (varea v) b k -> ~ w b k) -> hvec m v l -> hvec m' v l.
Proof.
  intros S D (j & E & Ec & G & L & W); exists j; split; [exact E|]; split; [exact Ec|]; split; [|split; [exact L|eapply within_same; eauto]].
  apply (seg_same _ _ _ _ _ S G); trivial; rewrite lenc_app, lenc_map; fold (len l); rewrite <- Ec; exact D.
Qed.
Lemma harray_buffer m v l : hvec m v l -> harray m (buffer v) l.
Proof.
  intros (j & E & Ec & G & L & W); apply seg_app in G as [G _]; split; [exact E|]; split; [exact G|]; split; [cbn [buffer alen]; lia|exact W].
Qed.
(** What is written in new blocks does not count. *)
Lemma same_new m m1 m2 w : same m m1 nowhere -> same m1 m2 w -> (forall b k, w b k -> (List.length (blocks m) <= b)%nat) -> same m m2 nowhere.
Proof.
  intros [[x E] H] [[y F] G] N; split; [exists (x ++ y); now rewrite F, E, app_assoc|]; intros b k L _.
  rewrite G; [apply H; [exact L|intros []]|rewrite E, app_length; lia|intros W; specialize (N b k W); lia].
Qed.
Lemma same_in m m1 m2 (w w2 : nat -> N -> Prop) : same m m1 w -> same m1 m2 w2 -> (forall b k, w2 b k -> w b k \/ (List.length (blocks m) <= b)%nat) -> same m m2 w.
Proof.
  intros [[x E] H] [[y F] G] N; split; [exists (x ++ y); now rewrite F, E, app_assoc|]; intros b k L W.
  rewrite G; [apply H; trivial|rewrite E, app_length; lia|intros W2; destruct (N b k W2); [contradiction|lia]].
Qed.
Lemma same_any m m' w : same m m' nowhere -> same m m' w.
Proof. intros S; apply (same_weaken _ _ _ _ S); intros b k _ []. Qed.

(** ** Reading and writing *)
Lemma get_ok m t l k x : harray m t l -> nth_ l k = Some x -> unsafe_get t k m = Done (x, m).
Proof.
  intros (_ & G & _) N; apply nth_split in N as (l1 & l2 & -> & -> & _); rewrite map_app in G; cbn [map] in G.
  apply load_ok in G; rewrite lenc_map in G; exact G.
Qed.
Lemma set_ok m t c k x : seg m (aptr t) c -> k < lenc c ->
  exists m', unsafe_set t k x m = Done (tt, m') /\ seg m' (aptr t) (set_nth (N.to_nat k) (Some x) c) /\ same m m' (inreg (aptr t, lenc c)).
Proof.
  intros G L; assert (N : exists y, nth_error c (N.to_nat k) = Some y).
  { destruct (nth_error c (N.to_nat k)) eqn:E; [eauto|]; apply nth_error_None in E; unfold lenc in L; lia. }
  destruct N as [y N]; apply nth_error_split in N as (c1 & c2 & -> & E).
  destruct (store_ok m (aptr t) x y c1 c2 G) as (m' & Es & Gs & S); exists m'; rewrite <- E, set_nth_mid; split; [|auto].
  unfold unsafe_set, store_at; rewrite <- Es; do 2 f_equal; unfold lenc; lia.
Qed.

Lemma loop_ok {X} (P : N -> X -> mem A -> Prop) (body : N -> X -> M A X) n x m :
  n < 2 ^ 64 -> (forall i x m, i < n -> P i x m -> exists x' m', body i x m = Done (x', m') /\ P (i + 1) x' m') ->
  P 0 x m -> exists x' m', loop body n x m = Done (x', m') /\ P n x' m'.
Proof.
  intros Ln Step; unfold loop.
  enough (H : forall fuel i x m, i <= n -> (N.to_nat (n - i) < fuel)%nat -> P i x m -> exists x' m', upto fuel body i n x m = Done (x', m') /\ P n x' m') by (intros; apply H; trivial; lia).
  induction fuel as [|fuel IH]; intros i y m1 Hi Hf HP; [lia|]; cbn [upto]; destruct (N.ltb_spec i n) as [L|L].
  - destruct (Step i y m1 L HP) as (y' & m' & E & HP'); rewrite (bind_done _ _ _ _ _ E); rewrite add64_ok by lia; apply IH; trivial; lia.
  - replace i with n in HP by lia; exists y, m1; auto.
Qed.

Lemma fill_ok m t c x : seg m (aptr t) c -> alen t = lenc c -> alen t < 2 ^ 64 ->
  exists m', fill x t m = Done (tt, m') /\ seg m' (aptr t) (map Some (repeat x (List.length c))) /\ same m m' (inreg (area t)).
Proof.
  intros G E L; unfold fill.
  destruct (loop_ok (fun i (_ : unit) m' => seg m' (aptr t) (repeat (Some x) (N.to_nat i) ++ skipn (N.to_nat i) c) /\ same m m' (inreg (area t))) (fun i _ => unsafe_set t i x) (alen t) tt m L) as ([] & m' & Ef & Gf & S).
  - intros i [] m1 Li [G1 S1].
    assert (Len : lenc (repeat (Some x) (N.to_nat i) ++ skipn (N.to_nat i) c) = lenc c) by (rewrite lenc_app; unfold lenc in *; rewrite repeat_length, skipn_length; lia).
    destruct (set_ok m1 t _ i x G1) as (m2 & E2 & G2 & S2); [lia|]; exists tt, m2; split; [exact E2|]; split.
    + replace (repeat (Some x) (N.to_nat (i + 1)) ++ skipn (N.to_nat (i + 1)) c) with (set_nth (N.to_nat i) (Some x) (repeat (Some x) (N.to_nat i) ++ skipn (N.to_nat i) c)); [exact G2|].
      destruct (skipn (N.to_nat i) c) as [|y r] eqn:Es.
      { apply (f_equal (@List.length _)) in Es; rewrite skipn_length in Es; cbn in Es; unfold lenc in *; lia. }
      rewrite <- (repeat_length (Some x) (N.to_nat i)) at 1; rewrite set_nth_mid.
      replace (N.to_nat (i + 1)) with (S (N.to_nat i)) by lia; cbn [repeat]; rewrite repeat_cons, <- app_assoc; cbn [app]; f_equal; f_equal.
      symmetry; exact (skipn_next _ _ _ _ Es).
    + rewrite Len, <- E in S2; eapply same_trans; eauto.
  - split; [exact G|apply same_any, same_refl].
  - exists m'; split; [exact Ef|]; split; [|exact S]; rewrite E in Gf; unfold lenc in Gf; rewrite Nat2N.id, skipn_all, app_nil_r in Gf.
    rewrite map_repeat; exact Gf.
Qed.

(** ** New arrays *)
Definition made m m' t l : Prop := same m m' nowhere /\ harray m' t l /\ (new m (aptr t) \/ alen t = 0).

Lemma array_alloc_ok m n : n < 2 ^ 64 -> exists t m', array_alloc n m = Done (t, m') /\ alen t = n /\ new m (aptr t) /\ within m' (aptr t) /\
  same m m' nowhere /\ seg m' (aptr t) (repeat None (N.to_nat n)).
Proof.
  intros L; destruct (alloc_ok m n) as (p & m' & E & Ep & _ & S & G & W); unfold array_alloc; rewrite (bind_done _ _ _ _ _ E).
  eexists _, m'; split; [reflexivity|]; cbn [aptr alen]; split; [reflexivity|]; split; [unfold new; lia|]; auto.
Qed.
Lemma new_region m p n : new m p -> forall b k, inreg (p, n) b k -> (List.length (blocks m) <= b)%nat.
Proof. intros N b k [-> _]; exact N. Qed.
Lemma new_apart m p n q n' : within m p -> new m q -> apart (p, n) (q, n').
Proof. intros W N b k [E _] [E' _]; cbn in *; unfold within, new in *; lia. Qed.
Lemma nowhere_ok (r : region) : forall b k, inreg r b k -> ~ nowhere b k.
Proof. intros b k _ []. Qed.

Lemma array_new_ok m x n : n < 2 ^ 64 -> exists t m', array_new x n m = Done (t, m') /\ made m m' t (repeat x (N.to_nat n)).
Proof.
  intros L; destruct (array_alloc_ok m n L) as (t & m1 & E & Et & N & W & S & G); unfold array_new; rewrite (bind_done _ _ _ _ _ E).
  destruct (fill_ok m1 t _ x G) as (m2 & E2 & G2 & S2); [rewrite Et; unfold lenc; rewrite repeat_length; lia|lia|].
  rewrite (bind_done _ _ _ _ _ E2); exists t, m2; split; [reflexivity|]; split; [|split].
  - apply (same_new _ _ _ _ S S2), (new_region _ _ _ N).
  - rewrite repeat_length in G2; split; [unfold len; rewrite repeat_length; lia|]; split; [exact G2|]; split; [lia|exact (within_same _ _ _ _ S2 W)].
  - left; exact N.
Qed.
Lemma store_all_ok t l : forall m d (i : N) c, seg m (aptr t) (d ++ c) -> List.length c = List.length l -> i = lenc d ->
  exists m', store_all t i l m = Done (tt, m') /\ seg m' (aptr t) (d ++ map Some l) /\ same m m' (inreg (aptr t, lenc (d ++ c))).
Proof.
  induction l as [|x l IH]; intros m d i c G E Ei; cbn [store_all].
  - destruct c; [|discriminate]; exists m; split; [reflexivity|]; split; [exact G|apply same_any, same_refl].
  - destruct c as [|y c]; [discriminate|]; destruct (store_ok m (aptr t) x y d c G) as (m1 & E1 & G1 & S1).
    unfold unsafe_set, store_at; rewrite Ei, (bind_done _ _ _ _ _ E1).
    change (Some x :: c) with ([Some x] ++ c) in G1; rewrite app_assoc in G1.
    destruct (IH m1 (d ++ [Some x]) (lenc d + 1) c G1) as (m2 & E2 & G2 & S2); [cbn in E; lia|rewrite lenc_app; reflexivity|].
    exists m2; split; [exact E2|]; split; [rewrite <- app_assoc in G2; exact G2|].
    eapply same_trans; [exact S1|]; replace (lenc (d ++ y :: c)) with (lenc ((d ++ [Some x]) ++ c)); [exact S2|]; rewrite !lenc_app; unfold lenc; cbn [List.length]; lia.
Qed.
Lemma made_empty m : (0 < List.length (blocks m))%nat -> made m m array_empty [].
Proof.
  intros W; split; [apply same_refl|]; split; [|right; reflexivity]; split; [reflexivity|]; split; [apply seg_nil; cbn; lia|]; split; [reflexivity|exact W].
Qed.
Lemma array_literal_ok m l : (0 < List.length (blocks m))%nat -> len l < 2 ^ 64 -> exists t m', array_literal l m = Done (t, m') /\ made m m' t l.
Proof.
  intros W L; unfold array_literal; destruct l as [|x l]; [exists array_empty, m; split; [reflexivity|now apply made_empty]|].
  fold (len (x :: l)); destruct (array_alloc_ok m _ L) as (t & m1 & E & Et & N & W1 & S & G); rewrite (bind_done _ _ _ _ _ E).
  destruct (store_all_ok t (x :: l) m1 [] 0 _ G) as (m2 & E2 & G2 & S2); [rewrite repeat_length; unfold len; lia|reflexivity|].
  rewrite (bind_done _ _ _ _ _ E2); exists t, m2; split; [reflexivity|]; split; [|split].
  - apply (same_new _ _ _ _ S S2), (new_region _ _ _ N).
  - split; [exact Et|]; split; [exact G2|]; split; [lia|exact (within_same _ _ _ _ S2 W1)].
  - left; exact N.
Qed.
Lemma copy_when b m src n dst c0 c1 c2 s :
  seg m src s -> lenc s = n -> lenc c1 = n -> seg m dst (c0 ++ c1 ++ c2) -> apart (src, n) (ptr_add (lenc c0) dst, n) -> b = true \/ n = 0 ->
  exists m', when b (copy src n (ptr_add (lenc c0) dst)) m = Done (tt, m') /\ seg m' dst (c0 ++ s ++ c2) /\ same m m' (inreg (ptr_add (lenc c0) dst, n)).
Proof.
  intros Hs Es Ec Hd Ap [->| ->]; [exact (copy_seg m src n dst c0 c1 c2 s Hs Es Ec Hd Ap)|].
  destruct b; [exact (copy_seg m src 0 dst c0 c1 c2 s Hs Es Ec Hd Ap)|].
  exists m; split; [reflexivity|]; split; [|apply same_any, same_refl].
  destruct s; [|unfold lenc in Es; cbn in Es; lia]; destruct c1; [|unfold lenc in Ec; cbn in Ec; lia]; exact Hd.
Qed.
End Arrays.

(** Histories. *)
From Coq Require Import Lia.
From Verif.Base Require Import Base Buf.
From Verif.Vector Require Import Model Spec ProofsMem ProofsArray ProofsOps ProofsVec ProofsInv ProofsStep.
Local Open Scope N_scope.
Local Open Scope list_scope.

Section Run.
Context {A : Type}.
Implicit Types (m : mem A) (t : array) (v : vec) (l : list A).
Notation pair_ := (obj * sobj (A := A))%type.
Implicit Types (p q : pair_) (ps : list pair_).

Ltac misuse := now apply good_misuse.
Tactic Notation "array" hyp(I) ident(i) "as" simple_intropattern(t) simple_intropattern(w) simple_intropattern(l) simple_intropattern(N) simple_intropattern(H) :=
  match goal with |- context [spec_array _ i ?f] =>
    let E := fresh in let O := fresh in destruct (at_array _ _ i f I) as [E|(t & w & l & N & H & E & O)]; rewrite E; [exact Logic.I|rewrite O; clear O E] end.
Tactic Notation "vector" hyp(I) ident(i) "as" simple_intropattern(v) simple_intropattern(w) simple_intropattern(l) simple_intropattern(r) simple_intropattern(N) simple_intropattern(H) simple_intropattern(R) :=
  match goal with |- context [spec_vector _ i ?f] =>
    let E := fresh in let O := fresh in destruct (at_vector _ _ i f I) as [E|(v & w & l & r & N & H & R & E & O)]; rewrite E; [exact Logic.I|rewrite O; clear O E] end.
Tactic Notation "iterator" hyp(I) ident(i) "as" simple_intropattern(v) simple_intropattern(w) simple_intropattern(l) simple_intropattern(N) simple_intropattern(H) :=
  match goal with |- context [spec_iter _ i ?f] =>
    let E := fresh in let O := fresh in destruct (at_iter _ _ i f I) as [E|(v & w & l & N & H & E & O)]; rewrite E; [exact Logic.I|rewrite O; clear O E] end.
Tactic Notation "view" hyp(I) ident(i) "as" simple_intropattern(o) simple_intropattern(s) simple_intropattern(t) simple_intropattern(w) simple_intropattern(l) simple_intropattern(F)
    simple_intropattern(N) simple_intropattern(H) simple_intropattern(Mo) simple_intropattern(P) simple_intropattern(Mf) simple_intropattern(Hf) simple_intropattern(Hl) simple_intropattern(Lo) :=
  match goal with |- context [spec_view _ i ?f] =>
    let E := fresh in let O := fresh in destruct (at_view _ _ i f I) as [E|(o & s & t & w & l & F & N & H & Mo & E & O & P & Mf & Hf & Hl & Lo)]; rewrite E; [exact Logic.I|rewrite O; clear O E] end.

Lemma big n : n < 2 ^ 63 -> n < 2 ^ 64.
Proof. change (2 ^ 64) with (2 * 2 ^ 63); lia. Qed.

Lemma split_at_ok m t l k : harray m t l -> k <= len l -> split_at k t m = Done (sub t 0 k, sub t k (len l - k), m).
Proof.
  intros H L; pose proof H as (E & _ & _); unfold split_at; rewrite E, assert_true by (apply N.leb_le, L).
  rewrite (bind_done _ _ _ _ _ (subarray_ok _ _ _ 0 k H ltac:(lia) L)), N.sub_0_r, (bind_done _ _ _ _ _ (subarray_ok _ _ _ k (len l) H L ltac:(lia))); reflexivity.
Qed.
Lemma split_first_ok m t x l : harray m t (x :: l) -> split_first t m = Done (x, sub t 1 (len l), m).
Proof.
  intros H; pose proof H as (E & _ & _); rewrite len_cons in E; unfold split_first, array_is_empty; rewrite E, (proj2 (N.eqb_neq _ 0)) by lia; rewrite assert_true by reflexivity.
  rewrite (bind_done _ _ _ _ _ (get_ok _ _ _ 0 x H eq_refl)); rewrite <- len_cons with (x := x).
  rewrite (bind_done _ _ _ _ _ (subarray_ok _ _ _ 1 (len (x :: l)) H ltac:(rewrite len_cons; lia) (N.le_refl _))), len_cons; replace (len l + 1 - 1) with (len l) by lia; reflexivity.
Qed.
Lemma split_last_ok m t x l : harray m t (l ++ [x]) -> split_last t m = Done (x, sub t 0 (len l), m).
Proof.
  intros H; pose proof H as (E & _ & L & _); rewrite len_app in E; change (len [x]) with 1 in E; unfold split_last, array_is_empty; rewrite E, (proj2 (N.eqb_neq _ 0)) by lia; rewrite assert_true by reflexivity.
  rewrite sub64_ok by lia; replace (len l + 1 - 1) with (len l) by lia; rewrite (bind_done _ _ _ _ _ (get_ok _ _ _ _ x H (nth_mid _ _ _))).
  rewrite (bind_done _ _ _ _ _ (subarray_ok _ _ _ 0 (len l) H ltac:(lia) ltac:(rewrite len_app; lia))), N.sub_0_r; reflexivity.
Qed.
Lemma sub_first m t l k : harray m t l -> k <= len l -> harray m (sub t 0 k) (first k l).
Proof. intros H L; exact (sub_ok m t l 0 k H L). Qed.
Lemma sub_after m t l k : harray m t l -> k <= len l -> harray m (sub t k (len l - k)) (after k l).
Proof. intros H L; pose proof (sub_ok m t l k (len l - k) H ltac:(lia)) as X; rewrite <- len_after, first_all in X; rewrite len_after in X; exact X. Qed.
Lemma rev_nil l : rev l = [] -> l = [].
Proof. intros E; rewrite <- (rev_involutive l), E; reflexivity. Qed.
Lemma rev_cons l x r : rev l = x :: r -> l = rev r ++ [x].
Proof. intros E; rewrite <- (rev_involutive l), E; reflexivity. Qed.
Lemma nth_lt l k : match nth_ l k with Some _ => k < len l | None => len l <= k end.
Proof. destruct (nth_ l k) eqn:E; [|apply nth_none, E]; destruct (N.lt_ge_cases k (len l)) as [X|X]; [exact X|apply nth_none in X; congruence]. Qed.

(** Parts of an array *)
Lemma good_parts m ps i t w l keep a : inv m ps -> nth_error ps i = Some (OArray t, SArray w l) -> harray m t l -> (match a with AAtLeast _ => False | _ => True end) ->
  forall s n l', s + n <= len l -> harray m (sub t s n) l' ->
  good m ps (ret (a, map fst ps ++ [OArray (sub t s n)])) (SDone a (lend (map snd ps) i keep ++ [SArray (view_mode keep w) l'])).
Proof.
  intros I N H Ag s n l' L H'; eapply (good_view1 _ _ _ _ _ w); eauto; [exists (sub t s n); auto|].
  apply sub_part; rewrite (proj1 H); exact L.
Qed.
Lemma good_split m ps i t w l k keep a : inv m ps -> nth_error ps i = Some (OArray t, SArray w l) -> harray m t l -> k <= len l -> (match a with AAtLeast _ => False | _ => True end) ->
  good m ps (ret (a, map fst ps ++ [OArray (sub t 0 k); OArray (sub t k (len l - k))]))
    (SDone a (lend (map snd ps) i keep ++ [SArray (view_mode keep w) (first k l); SArray (view_mode keep w) (after k l)])).
Proof.
  intros I N H L Ag; pose proof (proj1 H) as E.
  apply (good_view m ps i (OArray t) (SArray w l) w keep a [(OArray (sub t 0 k), SArray (view_mode keep w) (first k l)); (OArray (sub t k (len l - k)), SArray (view_mode keep w) (after k l))]); trivial.
  - constructor; [exists (sub t 0 k); split; [reflexivity|apply sub_first; assumption]|]; constructor; [|constructor]; exists (sub t k (len l - k)); split; [reflexivity|apply sub_after; assumption].
  - constructor; [split; [reflexivity|apply sub_part; lia]|]; constructor; [split; [reflexivity|apply sub_part; lia]|constructor].
  - constructor; [|constructor; constructor]; constructor; [|constructor]; intros b j [_ X] [_ Y]; cbn in X, Y; lia.
Qed.

Lemma array_copy_ok m s t a b : harray m s a -> harray m t b -> apart (area s) (area t) -> len a <= len b ->
  exists m', array_copy s t m = Done (tt, m') /\ written m m' t (a ++ after (len a) b).
Proof.
  intros Ha Hb Ap L; pose proof Ha as (Ea & Ga & La & Wa); pose proof Hb as (Eb & Gb & Lb & Wb); unfold array_copy; rewrite Ea, Eb, assert_true by (apply N.leb_le, L).
  rewrite <- (first_after (len a) b), map_app in Gb.
  destruct (copy_seg m (aptr s) (len a) (aptr t) [] (map Some (first (len a) b)) (map Some (after (len a) b)) (map Some a)) as (m' & E' & G' & S'); trivial.
  - apply lenc_some.
  - rewrite lenc_some; apply len_first, L.
  - change (lenc []) with 0; rewrite ptr_add_0; intros x k [Ex I] [Ey J]; apply (Ap x k); split; trivial; cbn in *; lia.
  - change (lenc []) with 0 in E', S'; rewrite ptr_add_0 in E', S'; exists m'; split; [exact E'|]; split.
    + split; [rewrite len_app, len_after; lia|]; split; [rewrite map_app; exact G'|]; split; [exact Lb|exact (within_same _ _ _ _ S' Wb)].
    + apply (same_weaken _ _ _ _ S'); intros x k _ [Ex I]; split; [exact Ex|]; cbn in *; lia.
Qed.

Lemma unchanged m v l r : hvec m v l -> r <= vcap v -> changed m m v v l r.
Proof. intros H R; split; [apply same_any, same_refl|]; split; [auto|]; split; [exact H|exact R]. Qed.

Lemma step_ok m ps c : inv m ps -> asks (map snd ps) c < 2 ^ 63 -> ~ unchecked (map snd ps) c -> good m ps (step (map fst ps) c) (spec_step (map snd ps) c).
Proof.
  intros I As Un; pose proof (proj1 I) as B; destruct c; cbn [step spec_step asks unchecked] in *.
  - (* NewArray *) apply good_new; [exact I|]; apply array_new_ok, big, As.
  - (* Literal *) apply good_new; [exact I|]; apply array_literal_ok; [exact B|apply big, As].
  - (* EmptyArray *) apply good_new; [exact I|]; exists array_empty, m; split; [reflexivity|apply made_empty, B].
  - (* NewVector *) apply good_newv; [exact I|]; destruct (array_new_ok m x n (big _ As)) as (t & m' & E & S & H & N); exists (from_array t), m'.
    unfold vector_new; rewrite (bind_done _ _ _ _ _ E); split; [reflexivity|]; split; [exact S|]; split; [apply hvec_array, H|]; split; [|exact N].
    destruct H as (E' & _); cbn; unfold len in E'; rewrite repeat_length in E'; lia.
  - (* EmptyVector *) apply good_newv; [exact I|]; exists vector_empty, m; split; [reflexivity|]; split; [apply same_refl|]; split; [apply hvec_empty, B|]; split; [cbn; lia|now right].
  - (* WithCapacity *) apply good_newv; [exact I|]; destruct (array_alloc_ok m n (big _ As)) as (t & m' & E & En & N & W & S & G); exists (Vec (aptr t) 0 n), m'.
    unfold with_capacity; rewrite (bind_done _ _ _ _ _ E); split; [reflexivity|]; split; [exact S|]; split; [|split; [cbn; lia|now left]].
    exists (repeat None (N.to_nat n)); cbn [vlen vcap vptr]; rewrite lenc_repeat; split; [reflexivity|]; split; [reflexivity|]; split; [exact G|]; split; [apply big, As|exact W].
  - (* Length *) view I i as o s t w l F N H Mo P Mf Hf Hl Lo; apply (good_tell _ _ _ ANumber (alen t)); [exact I|reflexivity|]; cbn; f_equal; apply H.
  - (* IsEmpty *) view I i as o s t w l F N H Mo P Mf Hf Hl Lo; apply (good_tell _ _ _ ABool (array_is_empty t)); [exact I|reflexivity|]; cbn; unfold array_is_empty; rewrite (proj1 H); destruct l; reflexivity.
  - (* Get *) view I i as o s t w l F N H Mo P Mf Hf Hl Lo; pose proof (nth_lt l k) as L; unfold get; destruct (nth_ l k) as [x|] eqn:E.
    + apply (good_tell _ _ _ AValue x); [exact I| |reflexivity]; rewrite (proj1 H), assert_true by (apply N.ltb_lt, L); exact (get_ok _ _ _ _ _ H E).
    + apply bind_failed, assert_false; rewrite (proj1 H); apply N.ltb_ge, L.
  - (* GetOpt *) view I i as o s t w l F N H Mo P Mf Hf Hl Lo; pose proof (nth_lt l k) as L; apply (good_tell _ _ _ AOption (nth_ l k)); [exact I| |reflexivity].
    unfold get_opt; rewrite (proj1 H); destruct (nth_ l k) as [x|] eqn:E; [rewrite (proj2 (N.ltb_lt _ _) L), (bind_done _ _ _ _ _ (get_ok _ _ _ _ _ H E))|rewrite (proj2 (N.ltb_ge _ _) L)]; reflexivity.
  - (* Set_ *) view I i as o s t w l F N H Mo P Mf Hf Hl Lo; destruct w; [|exact Logic.I]; cbn [writes]; unfold set; destruct (N.ltb_spec k (len l)) as [L|L]; cbn [needs].
    + eapply good_write; eauto; [|apply len_set_nth, L]; rewrite (proj1 H), assert_true by (apply N.ltb_lt, L); apply set_written; assumption.
    + apply bind_failed, assert_false; rewrite (proj1 H); apply N.ltb_ge, L.
  - (* LoadRef *) view I i as o s t w l F N H Mo P Mf Hf Hl Lo; rewrite Lo in Un; pose proof (nth_lt l k) as L; unfold array_ref; destruct (nth_ l k) as [x|] eqn:E.
    + apply (good_tell _ _ _ AValue x); [exact I| |reflexivity]; unfold bind at 1; rewrite (proj1 H), assert_true by (apply N.leb_le; lia); exact (get_ok _ _ _ _ _ H E).
    + apply bind_failed, bind_failed, assert_false; rewrite (proj1 H); apply N.leb_gt; lia.
  - (* StoreRef *) view I i as o s t w l F N H Mo P Mf Hf Hl Lo; rewrite Lo in Un; destruct w; [|exact Logic.I]; cbn [writes]; unfold array_ref; destruct (N.ltb_spec k (len l)) as [L|L]; cbn [needs].
    + eapply good_write; eauto; [|apply len_set_nth, L]; unfold bind at 1; rewrite (proj1 H), assert_true by (apply N.leb_le; lia); exact (set_written _ _ _ _ _ H L).
    + apply bind_failed, bind_failed, assert_false; rewrite (proj1 H); apply N.leb_gt; lia.
  - (* Fill *) view I i as o s t w l F N H Mo P Mf Hf Hl Lo; destruct w; [|exact Logic.I]; cbn [writes].
    eapply good_write; eauto; [|unfold len; now rewrite map_length].
    pose proof H as (Ea & G & L & W); destruct (fill_ok m t (map Some l) x G) as (m' & E' & G' & S'); [rewrite lenc_some; exact Ea|exact L|].
    exists m'; split; [exact E'|]; split; [|exact S'].
    split; [unfold len; rewrite map_length; exact Ea|]; split; [|split; [exact L|exact (within_same _ _ _ _ S' W)]].
    replace (map (fun _ => x) l) with (repeat x (List.length (map Some l))); [exact G'|]; rewrite map_length; clear; induction l; cbn; congruence.
  - (* Swap *) view I i as o s t w l F N H Mo P Mf Hf Hl Lo; destruct w; [|exact Logic.I]; cbn [writes].
    pose proof (nth_lt l a) as La; pose proof (nth_lt l b) as Lb; destruct (nth_ l a) as [x|] eqn:Ea; [|apply bind_failed; eapply swap_fails; eauto].
    destruct (nth_ l b) as [y|] eqn:Eb; [|apply bind_failed; eapply swap_fails; eauto].
    eapply good_write; eauto; [apply swap_ok; assumption|]; unfold swapped; rewrite !len_set_nth; trivial; rewrite len_set_nth; trivial.
  - (* Reverse *) view I i as o s t w l F N H Mo P Mf Hf Hl Lo; destruct w; [|exact Logic.I]; cbn [writes].
    eapply good_write; eauto; [apply reverse_ok, H|apply len_rev].
  - (* ShallowCopy *) view I i as o s t w l F N H Mo P Mf Hf Hl Lo; destruct (shallow_copy_ok m t l H) as (t' & m' & E & D & _); destruct (Hl m' t' l (proj1 (proj2 D))) as [Hh Hr].
    eexists _, _, m', (ps ++ [(like (map fst ps) i t', copy_of (map snd ps) i l)]); rewrite (bind_done _ _ _ _ _ E), !map_app; split; [reflexivity|]; split; [reflexivity|]; split; [|split; reflexivity].
    apply (inv_new _ _ _ _ I (proj1 D)); [exact Hh|cbn [fst]; rewrite Hr; exact (made_region _ _ _ _ D)].
  - (* DeepCopy *) view I i as o s t w l F N H Mo P Mf Hf Hl Lo; destruct (deep_copy_ok m t l f H) as (t' & m' & E & D); destruct (Hl m' t' (map f l) (proj1 (proj2 D))) as [Hh Hr].
    eexists _, _, m', (ps ++ [(like (map fst ps) i t', copy_of (map snd ps) i (map f l))]); rewrite (bind_done _ _ _ _ _ E), !map_app; split; [reflexivity|]; split; [reflexivity|]; split; [|split; reflexivity].
    apply (inv_new _ _ _ _ I (proj1 D)); [exact Hh|cbn [fst]; rewrite Hr; exact (made_region _ _ _ _ D)].
  - (* Equal *) view I i as o s t w l F N H Mo P Mf Hf Hl Lo; view I j as o2 s2 t2 w2 l2 F2 N2 H2 Mo2 P2 Mf2 Hf2 Hl2 Lo2.
    eapply good_tell; [exact I|apply array_eq_ok; eassumption|reflexivity].
  - (* Compare *) view I i as o s t w l F N H Mo P Mf Hf Hl Lo; view I j as o2 s2 t2 w2 l2 F2 N2 H2 Mo2 P2 Mf2 Hf2 Hl2 Lo2.
    eapply good_tell; [exact I|apply array_compare_ok; eassumption|reflexivity].
  - (* Iterate *) view I i as o s t w l F N H Mo P Mf Hf Hl Lo; eapply good_view1; eauto.
    exists (iterate t); split; [reflexivity|]; exists l; split; [exact H|]; split; [lia|reflexivity].
  - (* RevIterate *) view I i as o s t w l F N H Mo P Mf Hf Hl Lo; eapply good_view1; eauto.
    exists (rev_iterate t); split; [reflexivity|]; exists l; split; [exact H|]; rewrite (proj1 H); split; [lia|now rewrite first_all].
  - (* Subarray *) array I i as t w l N H; destruct ((s <=? e) && (e <=? len l)) eqn:C; cbn [needs].
    + apply andb_true_iff in C as [C1 C2]; apply N.leb_le in C1, C2; unfold good; cbn beta; unfold bind at 1; rewrite (subarray_ok _ _ _ _ _ H C1 C2).
      apply (good_parts _ _ _ _ _ _ _ ADone I N H Logic.I); [lia|apply sub_ok; [exact H|lia]].
    + apply bind_failed; eapply subarray_fails; eauto.
  - (* Take *) array I i as t w l N H; unfold take; rewrite (proj1 H); unfold good; cbn beta; unfold bind at 1; rewrite (subarray_ok _ _ _ 0 _ H) by lia; rewrite N.sub_0_r.
    apply (good_parts _ _ _ _ _ _ _ ADone I N H Logic.I); [lia|].
    destruct (N.le_ge_cases n (len l)) as [L|L]; [rewrite N.min_l by exact L; apply sub_first; assumption|].
    rewrite N.min_r, (first_more n) by exact L; rewrite <- (first_all l) at 2; apply sub_first; [exact H|lia].
  - (* Skip *) array I i as t w l N H; unfold skip; rewrite (proj1 H); unfold good; cbn beta; unfold bind at 1; rewrite (subarray_ok _ _ _ _ (len l) H) by lia.
    apply (good_parts _ _ _ _ _ _ _ ADone I N H Logic.I); [lia|].
    destruct (N.le_ge_cases n (len l)) as [L|L]; [rewrite N.min_l by exact L; apply sub_after; assumption|].
    rewrite N.min_r, (after_more n) by exact L; rewrite <- (after_more (len l) l) by lia; apply sub_after; [exact H|lia].
  - (* SplitAt *) array I i as t w l N H; destruct (N.leb_spec k (len l)) as [L|L]; cbn [needs].
    + unfold good; cbn beta; unfold bind at 1; rewrite (split_at_ok _ _ _ _ H L); apply (good_split m ps i t w l k keep ADone I N H L Logic.I).
    + apply bind_failed, assert_false; rewrite (proj1 H); apply N.leb_gt, L.
  - (* SplitAtOpt *) array I i as t w l N H; unfold split_at_opt; rewrite (proj1 H); destruct (N.leb_spec k (len l)) as [L|L].
    + pose proof (good_split m ps i t w l k keep (ASome true) I N H L Logic.I) as G; unfold good in *; cbn beta; unfold bind; rewrite (split_at_ok _ _ _ _ H L); exact G.
    + exists (ASome false), (map fst ps), m, ps; repeat split; try apply I; reflexivity.
  - (* SplitFirst *) array I i as t w l N H; destruct l as [|x l].
    + apply bind_failed, assert_false; unfold array_is_empty; rewrite (proj1 H); reflexivity.
    + unfold good; cbn beta; unfold bind at 1; rewrite (split_first_ok _ _ _ _ H).
      apply (good_parts _ _ _ _ _ _ _ (AValue x) I N H Logic.I 1 (len l)); [rewrite len_cons; lia|].
      pose proof (sub_after _ _ _ 1 H ltac:(rewrite len_cons; lia)) as X; rewrite len_cons in X; replace (len l + 1 - 1) with (len l) in X by lia; exact X.
  - (* SplitFirstOpt *) array I i as t w l N H; unfold split_first_opt, array_is_empty; rewrite (proj1 H); destruct l as [|x l].
    + exists (AOption None), (map fst ps), m, ps; repeat split; try apply I; reflexivity.
    + assert (G : good m ps (ret (AOption (Some x), map fst ps ++ [OArray (sub t 1 (len l))])) (SDone (AOption (Some x)) (lend (map snd ps) i keep ++ [SArray (view_mode keep w) l]))).
      { apply (good_parts _ _ _ _ _ _ _ (AOption (Some x)) I N H Logic.I 1 (len l)); [rewrite len_cons; lia|].
        pose proof (sub_after _ _ _ 1 H ltac:(rewrite len_cons; lia)) as X; rewrite len_cons in X; replace (len l + 1 - 1) with (len l) in X by lia; exact X. }
      rewrite (proj2 (N.eqb_neq _ 0)) by (rewrite len_cons; lia); cbn [negb]; unfold good in *; cbn beta; unfold bind; rewrite (split_first_ok _ _ _ _ H); exact G.
  - (* SplitLast *) array I i as t w l N H; destruct (rev l) as [|x r] eqn:E.
    + apply rev_nil in E; subst l; apply bind_failed, assert_false; unfold array_is_empty; rewrite (proj1 H); reflexivity.
    + apply rev_cons in E; subst l; unfold good; cbn beta; unfold bind at 1; rewrite (split_last_ok _ _ _ _ H).
      apply (good_parts _ _ _ _ _ _ _ (AValue x) I N H Logic.I 0 (len (rev r))); [rewrite len_app; lia|].
      pose proof (sub_first _ _ _ (len (rev r)) H ltac:(rewrite len_app; lia)) as X; unfold first, len at 2 in X; rewrite Nat2N.id, firstn_app, Nat.sub_diag, firstn_all, app_nil_r in X; exact X.
  - (* SplitLastOpt *) array I i as t w l N H; unfold split_last_opt, array_is_empty; rewrite (proj1 H); destruct (rev l) as [|x r] eqn:E.
    + apply rev_nil in E; subst l; exists (AOption None), (map fst ps), m, ps; repeat split; try apply I; reflexivity.
    + apply rev_cons in E; subst l.
      assert (G : good m ps (ret (AOption (Some x), map fst ps ++ [OArray (sub t 0 (len (rev r)))])) (SDone (AOption (Some x)) (lend (map snd ps) i keep ++ [SArray (view_mode keep w) (rev r)]))).
      { apply (good_parts _ _ _ _ _ _ _ (AOption (Some x)) I N H Logic.I 0 (len (rev r))); [rewrite len_app; lia|].
        pose proof (sub_first _ _ _ (len (rev r)) H ltac:(rewrite len_app; lia)) as X; unfold first, len at 2 in X; rewrite Nat2N.id, firstn_app, Nat.sub_diag, firstn_all, app_nil_r in X; exact X. }
      rewrite (proj2 (N.eqb_neq _ 0)) by (rewrite len_app; change (len [x]) with 1; lia); cbn [negb]; unfold good in *; cbn beta; unfold bind; rewrite (split_last_ok _ _ _ _ H); exact G.
  - (* Insert *) array I i as t w l N H; unfold length_of in As; rewrite nth_map, N in As; cbn [snd] in As; destruct (N.leb_spec k (len l)) as [L|L]; cbn [needs].
    + apply good_new; [exact I|]; apply array_insert_ok; [exact H|apply big, As|exact L].
    + apply bind_failed, assert_false; rewrite (proj1 H); apply N.leb_gt, L.
  - (* Push *) array I i as t w l N H; unfold length_of in As; rewrite nth_map, N in As; cbn [snd] in As; apply good_new; [exact I|].
    destruct (array_insert_ok m t l (alen t) x H (big _ As)) as (t' & m' & E & D); [rewrite (proj1 H); lia|].
    exists t', m'; split; [exact E|]; rewrite (proj1 H), first_all, after_more in D by lia; exact D.
  - (* Unshift *) array I i as t w l N H; unfold length_of in As; rewrite nth_map, N in As; cbn [snd] in As; apply good_new; [exact I|].
    exact (array_insert_ok m t l 0 x H (big _ As) ltac:(lia)).
  - (* Update *) array I i as t w l N H; unfold length_of in Un; rewrite nth_map, N in Un; cbn [snd] in Un; destruct (N.ltb_spec k (len l)) as [L|L]; cbn [needs].
    + apply good_new; [exact I|]; apply array_update_ok; assumption.
    + apply bind_failed, assert_false; pose proof H as (E & _ & L' & _); rewrite E, sub64_ok by lia; apply N.leb_gt; lia.
  - (* Remove *) array I i as t w l N H; destruct (N.ltb_spec k (len l)) as [L|L]; cbn [needs].
    + apply good_new; [exact I|]; apply array_remove_ok; assumption.
    + apply bind_failed, assert_false; pose proof H as (E & _ & L' & _); unfold array_is_empty; rewrite E; destruct (N.eqb_spec (len l) 0); [reflexivity|]; rewrite sub64_ok by lia; apply N.leb_gt; lia.
  - (* Concat *) array I i as t w l N H; array I j as t2 w2 l2 N2 H2; unfold length_of in As; rewrite !nth_map, N, N2 in As; cbn [snd] in As.
    unfold array_concat, array_is_empty.
    destruct l as [|x l].
    { rewrite (proj1 H); change (len [] =? 0) with true; cbn [negb]; eapply (good_view1 _ _ _ _ _ w2 true ADone); eauto; [exists t2; auto]. }
    destruct l2 as [|y l2].
    { rewrite (proj1 H), (proj1 H2); rewrite (proj2 (N.eqb_neq _ 0)) by (rewrite len_cons; lia); change (len [] =? 0) with true; eapply (good_view1 _ _ _ _ _ w true ADone); eauto; [exists t; auto]. }
    fold (array_is_empty t); fold (array_is_empty t2).
    apply (good_new m ps (array_concat t t2)); [exact I|]; apply array_concat_ok; trivial; try discriminate; apply big, As.
  - (* CopyTo *) array I i as t w l N H; array I j as t2 w2 l2 N2 H2; destruct w2; [|exact Logic.I]; cbn [writes]; destruct (Nat.eqb_spec i j) as [E|D]; [exact Logic.I|].
    destruct (N.leb_spec (len l) (len l2)) as [L|L]; cbn [needs].
    + eapply (good_write m ps j (OArray t2) (SArray Own l2) t2 l2 (SArray Own)); eauto.
      * intros m' l' [H' _] _; exists t2; auto.
      * apply array_copy_ok; trivial; apply (apart_of _ _ _ _ _ _ _ _ I N N2 D); [discriminate|reflexivity].
      * rewrite len_app, len_after; lia.
    + apply bind_failed, assert_false; rewrite (proj1 H), (proj1 H2); apply N.leb_gt, L.
  - (* FromArray *) array I i as t w l N H; apply (good_view1 m ps i (OArray t) (SArray w l) w keep ADone (OVector (from_array t))); trivial.
    exists (from_array t); split; [reflexivity|]; split; [apply hvec_array, H|]; cbn; rewrite (proj1 H); lia.
  - (* Buffer *) vector I i as v w l r N H R; apply (good_view1 m ps i (OVector v) (SVector w l r) w keep ADone (OArray (buffer v))); trivial; [exists (buffer v); split; [reflexivity|apply harray_buffer, H]|].
    apply buffer_part, (hvec_le _ _ _ H).
  - (* Capacity *) vector I i as v w l r N H R; eapply good_tell; [exact I|reflexivity|]; exists (vcap v); auto.
  - (* Free *) vector I i as v w l r N H R; eapply good_tell; [exact I|reflexivity|]; exists (free v); split; [reflexivity|]; destruct (hvec_le _ _ _ H) as (E & L & L'); unfold free; rewrite sub64_ok by lia; lia.
  - (* Reserve *) vector I i as v w l r N H R; destruct w; [|exact Logic.I]; cbn [writes]; apply (good_change m ps i v Own l r l _ (reserve_capacity n exact) (fun _ => ADone) (fun v => v)); trivial.
    destruct (reserve_ok m v l n exact H As) as (v' & m' & E & S & D & H' & C1 & C2 & _); exists v', m'; split; [exact E|]; split; [|reflexivity]; split; [apply same_any, S|]; split; [exact D|]; split; [exact H'|lia].
  - (* ReserveFree *) vector I i as v w l r N H R; destruct w; [|exact Logic.I]; cbn [writes]; unfold length_of in As; rewrite nth_map, N in As; cbn [snd] in As.
    apply (good_change m ps i v Own l r l _ (reserve_free n exact) (fun _ => ADone) (fun v => v)); trivial; unfold reserve_free; destruct (hvec_le _ _ _ H) as (Ev & _); rewrite Ev, add64_ok by (apply big, As).
    destruct (reserve_ok m v l (len l + n) exact H As) as (v' & m' & E & S & D & H' & C1 & C2 & _); exists v', m'; split; [exact E|]; split; [|reflexivity]; split; [apply same_any, S|]; split; [exact D|]; split; [exact H'|lia].
  - (* Append *) array I j as t w l N H; vector I i as v w2 l2 r N2 H2 R; destruct w2; [|exact Logic.I]; cbn [writes]; unfold length_of in As; rewrite !nth_map, N, N2 in As; cbn [snd] in As.
    apply (good_change m ps i v Own l2 r (l2 ++ l) _ (append t) (fun _ => ADone) (fun v => v)); trivial.
    assert (D : j <> i) by (intros ->; congruence).
    destruct (append_ok m v l2 t l H2 H) as (v' & m' & E & S & Dd & H' & C); [apply (apart_of _ _ _ _ _ _ _ _ I N N2 D); [discriminate|reflexivity]|exact As|].
    exists v', m'; split; [exact E|]; split; [|reflexivity]; split; [exact S|]; split; [exact Dd|]; split; [exact H'|lia].
  - (* VPush *) vector I i as v w l r N H R; destruct w; [|exact Logic.I]; cbn [writes]; unfold length_of in As; rewrite nth_map, N in As; cbn [snd] in As.
    apply (good_change m ps i v Own l r _ _ (push x) (fun _ => ADone) (fun v => v)); trivial.
    destruct (push_ok m v l x H As) as (v' & m' & E & S & Dd & H' & C); exists v', m'; split; [exact E|]; split; [|reflexivity]; split; [exact S|]; split; [exact Dd|]; split; [exact H'|lia].
  - (* VInsert *) vector I i as v w l r N H R; destruct w; [|exact Logic.I]; cbn [writes]; unfold length_of in As; rewrite nth_map, N in As; cbn [snd] in As; destruct (N.leb_spec k (len l)) as [L|L]; cbn [needs].
    + apply (good_change m ps i v Own l r _ _ (insert k x) (fun _ => ADone) (fun v => v)); trivial.
      destruct (insert_ok m v l k x H As L) as (v' & m' & E & S & Dd & H' & C); exists v', m'; split; [exact E|]; split; [|reflexivity]; split; [exact S|]; split; [exact Dd|]; split; [exact H'|lia].
    + apply bind_failed; eapply insert_fails; eauto.
  - (* VPop *) vector I i as v w l r N H R; destruct w; [|exact Logic.I]; cbn [writes]; destruct (rev l) as [|x q] eqn:E.
    + apply rev_nil in E; subst l; destruct (hvec_le _ _ _ H) as (Ev & _); unfold pop; rewrite Ev; change (len [] =? 0) with true; cbn [negb].
      eexists _, _, m, ps; split; [reflexivity|]; split; [reflexivity|]; split; [exact I|]; split; [|reflexivity].
      cbn [fst snd]; rewrite <- (set_fst ps i (OVector v) (SVector Own [] r) (SVector Own [] r) N) at 2; rewrite map_set_nth; reflexivity.
    + apply rev_cons in E; subst l; apply (good_change m ps i v Own (rev q ++ [x]) r (rev q) r pop (fun x => AOption (fst x)) snd); trivial.
      exists (Some x, Vec (vptr v) (len (rev q)) (vcap v)), m; split; [apply pop_ok, H|]; split; [|reflexivity]; split; [apply same_any, same_refl|]; split; [auto|]; split; [eapply shrunk; eauto|exact R].
  - (* SwapRemove *) vector I i as v w l r N H R; destruct w; [|exact Logic.I]; cbn [writes]; pose proof (nth_lt l k) as L; destruct (nth_ l k) as [x|] eqn:E.
    + destruct (rev l) as [|y q] eqn:Er; [apply rev_nil in Er; subst l; change (len []) with 0 in L; lia|]; apply rev_cons in Er; subst l.
      apply (good_change m ps i v Own (rev q ++ [y]) r _ r (swap_remove k) (fun x => AValue (fst x)) snd); trivial.
      destruct (swap_remove_ok m v (rev q) k x y H E) as (v' & m' & E' & S & Dd & H' & C); exists (x, v'), m'; split; [exact E'|]; split; [|reflexivity]; split; [exact S|]; split; [exact Dd|]; split; [exact H'|cbn [snd]; lia].
    + apply bind_failed, assert_false; destruct (hvec_le _ _ _ H) as (Ev & _); rewrite Ev; apply N.ltb_ge, L.
  - (* VRemove *) vector I i as v w l r N H R; destruct w; [|exact Logic.I]; cbn [writes]; pose proof (nth_lt l k) as L; destruct (nth_ l k) as [x|] eqn:E.
    + apply (good_change m ps i v Own l r _ r (remove k) (fun x => AValue (fst x)) snd); trivial.
      destruct (remove_ok m v l k x H E) as (v' & m' & E' & S & Dd & H' & C); exists (x, v'), m'; split; [exact E'|]; split; [|reflexivity]; split; [exact S|]; split; [exact Dd|]; split; [exact H'|cbn [snd]; lia].
    + apply bind_failed, assert_false; destruct (hvec_le _ _ _ H) as (Ev & _); rewrite Ev; apply N.ltb_ge, L.
  - (* Truncate *) vector I i as v w l r N H R; destruct w; [|exact Logic.I]; cbn [writes]; apply (good_change m ps i v Own l r _ r (fun v => ret (truncate n v)) (fun _ => ADone) (fun v => v)); trivial.
    exists (truncate n v), m; split; [reflexivity|]; split; [|reflexivity]; split; [apply same_any, same_refl|]; destruct (truncate_same v n) as [E1 E2]; unfold varea; rewrite E1, E2; split; [auto|]; split; [apply truncate_ok, H|exact R].
  - (* Clear *) vector I i as v w l r N H R; destruct w; [|exact Logic.I]; cbn [writes]; apply (good_change m ps i v Own l r _ r (fun v => ret (clear v)) (fun _ => ADone) (fun v => v)); trivial.
    exists (clear v), m; split; [reflexivity|]; split; [|reflexivity]; split; [apply same_any, same_refl|]; unfold clear; destruct (truncate_same v 0) as [E1 E2]; unfold varea; rewrite E1, E2; split; [auto|]; split; [apply (truncate_ok m v l 0), H|exact R].
  - (* Consume *) vector I i as v w l r N H R; destruct w; [|exact Logic.I]; cbn [writes]; destruct (hvec_le _ _ _ H) as (Ev & Lv & Lc); unfold consume; destruct (N.leb_spec n (len l)) as [L|L]; cbn [needs].
    + destruct (consumed m v l n H L) as [H1 H2].
      assert (G : exists o1 v2, (if n =? 0 then ret (array_empty, v) else bind (assert (n <=? vlen v)) (fun _ => ret (Array (vptr v) n, Vec (ptr_add n (vptr v)) (sub64 (vlen v) n) (sub64 (vcap v) n)))) m = Done (o1, v2, m) /\
        harray m o1 (first n l) /\ hvec m v2 (after n l) /\ r - n <= vcap v2 /\ apart (varea v2) (area o1) /\
        (forall b k, inreg (area o1) b k -> inreg (varea v) b k) /\ (forall b k, inreg (varea v2) b k -> inreg (varea v) b k)).
      { destruct (N.eqb_spec n 0) as [->|D].
        - exists array_empty, v; split; [reflexivity|]; split; [apply (made_empty m B)|]; split; [exact H|]; split; [lia|]; split; [intros b k _ [_ Y]; cbn in Y; lia|]; split; [intros b k [_ Y]; cbn in Y; lia|auto].
        - rewrite Ev, assert_true by (apply N.leb_le, L); rewrite !sub64_ok by lia; eexists _, _; split; [reflexivity|]; split; [exact H1|]; split; [exact H2|]; split; [cbn; lia|].
          split; [intros b k [_ X] [_ Y]; cbn in X, Y; lia|]; split; (intros b k [E X]; split; [exact E|]; cbn in *; lia). }
      destruct G as (o1 & v2 & E & G1 & G2 & G3 & G4 & G5 & G6).
      eexists _, _, m, (set_nth i (OVector v2, SVector Own (after n l) (r - n)) ps ++ [(OArray o1, SArray Own (first n l))]); rewrite (bind_done _ _ _ _ _ E), !map_app, !map_set_nth.
      split; [reflexivity|]; split; [reflexivity|]; split; [|split; reflexivity].
      apply (inv_step m m nowhere ps i _ _ _ N I (same_refl m)).
      * intros b k [].
      * constructor; [exists v2; auto|]; constructor; [exists o1; auto|constructor].
      * constructor; [|constructor; constructor]; constructor; [|constructor]; intros b k [_ X] [_ Y]; destruct (G4 b k X Y).
      * constructor; [|constructor; [|constructor]]; intros b k [_ X]; right; (split; [split; [discriminate|]|discriminate]); [exact (G6 b k X)|exact (G5 b k X)].
    + apply bind_failed; rewrite (proj2 (N.eqb_neq n 0)) by lia; apply assert_false; rewrite Ev; apply N.leb_gt, L.
  - (* ConsumeAll *) vector I i as v w l r N H R; destruct w; [|exact Logic.I]; cbn [writes]; destruct (hvec_le _ _ _ H) as (Ev & Lv & Lc).
    destruct (consumed m v l (len l) H (N.le_refl _)) as [H1 H2]; rewrite first_all, <- Ev in H1; rewrite after_more, N.sub_diag, <- Ev in H2 by lia.
    eexists _, _, m, (set_nth i (OVector (snd (consume_all v)), SVector Own [] (r - len l)) ps ++ [(OArray (fst (consume_all v)), SArray Own l)]); rewrite !map_app, !map_set_nth.
    split; [reflexivity|]; split; [reflexivity|]; split; [|split; reflexivity].
    unfold consume_all; rewrite sub64_ok by lia; cbn [fst snd]; apply (inv_step m m nowhere ps i _ _ _ N I (same_refl m)).
    + intros b k [].
    + constructor; [eexists; split; [reflexivity|]; split; [exact H2|cbn; lia]|]; constructor; [eexists; split; [reflexivity|exact H1]|constructor].
    + constructor; [|constructor; constructor]; constructor; [|constructor]; intros b k [_ [_ X]] [_ [_ Y]]; cbn in X, Y; lia.
    + constructor; [|constructor; [|constructor]]; intros b k [_ [E X]]; right; (split; [split; [discriminate|split; [exact E|]]|discriminate]); cbn in *; lia.
  - (* MoveOut *) vector I i as v w l r N H R.
    eexists _, _, m, (set_nth i (OVector (Vec null 0 0), SVector w [] 0) ps ++ [(OVector v, SVector w l r)]); rewrite !map_app, !map_set_nth.
    split; [reflexivity|]; split; [reflexivity|]; split; [|split; reflexivity].
    apply (inv_step m m nowhere ps i _ _ _ N I (same_refl m)).
    + intros b k [].
    + constructor; [exists vector_empty; split; [reflexivity|]; split; [apply hvec_empty, B|cbn; lia]|]; constructor; [exists v; auto|constructor].
    + constructor; [|constructor; constructor]; constructor; [|constructor]; intros b k [_ [_ X]]; cbn in X; lia.
    + constructor; [intros b k [_ [_ X]]; cbn in X; lia|]; constructor; [|constructor]; intros b k X; right; auto.
  - (* Next *) iterator I i as it w l N H; destruct (next_ok m it l H) as (it' & Ea & E); destruct l as [|x l].
    + eexists _, _, m, ps; rewrite (bind_done _ _ _ _ _ E); split; [reflexivity|]; split; [reflexivity|]; split; [exact I|]; split; [|reflexivity].
      cbn [fst snd]; rewrite <- (set_fst ps i (OIter it) (SIter w []) (SIter w []) N) at 2; rewrite map_set_nth; reflexivity.
    + destruct E as [E H']; eexists _, _, m, (set_nth i (OIter it', SIter w l) ps); rewrite (bind_done _ _ _ _ _ E), !map_set_nth; split; [reflexivity|]; split; [reflexivity|]; split; [|split; reflexivity].
      apply (inv_same m m ps i _ _ nowhere N I (same_refl m)); [intros b k []|exists it'; auto|].
      intros b k [_ X]; right; cbn [fst snd reg] in *; rewrite Ea in X; split; [split; [discriminate|exact X]|auto].
  - (* Collect *) iterator I i as it w l N H; unfold length_of in As; rewrite nth_map, N in As; cbn [snd] in As; destruct (collect_ok m it l B H As) as (it' & v' & m' & E & Ea & H' & Hv & R & S & Nw).
    eexists _, _, m', (set_nth i (OIter it', SIter w []) ps ++ [(OVector v', SVector Own l (len l))]); rewrite (bind_done _ _ _ _ _ E), !map_app, !map_set_nth.
    split; [reflexivity|]; split; [reflexivity|]; split; [|split; reflexivity].
    apply (inv_step m m' nowhere ps i _ _ _ N I S).
    + intros b k [].
    + constructor; [exists it'; auto|]; constructor; [exists v'; auto|constructor].
    + constructor; [|constructor; constructor]; constructor; [|constructor]; intros b k [_ X] [_ Y]; apply Nw in Y; cbn [fst reg] in X; rewrite Ea in X; destruct X as [X _]; cbn in X; pose proof (hiter_within _ _ _ H) as W; unfold within in W; lia.
    + constructor; [|constructor; [|constructor]]; intros b k [_ X]; cbn [fst snd reg] in *; [right; rewrite Ea in X; split; [split; [discriminate|exact X]|auto]|left; exact (Nw b k X)].
Qed.

Lemma run_ok : forall cs m ps, inv m ps -> proper (map snd ps) cs -> checked (map snd ps) cs ->
  exists r, run m (map fst ps) cs = (r, if snd (spec_run (map snd ps) cs) then Failed else Done tt) /\ Forall2 agree r (fst (spec_run (map snd ps) cs)).
Proof.
  induction cs as [|c cs IH]; intros m ps I P C; [exists []; split; [reflexivity|constructor]|].
  destruct P as [As P], C as [Un C]; pose proof (step_ok m ps c I As Un) as G; cbn [run spec_run].
  destruct (spec_step (map snd ps) c) as [a ss| |]; cbn [good] in G; [|exists []; rewrite G; split; [reflexivity|constructor]|contradiction].
  destruct G as (a' & os & m' & ps' & E & Ag & I' & -> & ->); rewrite E.
  destruct (IH m' ps' I' P C) as (r & Er & F); rewrite Er; destruct (spec_run (map snd ps') cs) as [r' e]; cbn [fst snd] in *.
  exists (a' :: r); split; [reflexivity|constructor; assumption].
Qed.
Lemma inv_start : inv (A := A) start [].
Proof. split; [cbn; lia|]; split; constructor. Qed.
Lemma plain_checked : forall cs (ss : list (sobj (A := A))), Forall plain cs -> checked ss cs.
Proof.
  induction cs as [|c cs IH]; intros ss P; [exact Logic.I|]; inversion P as [|? ? Pc Pr]; subst; split; [destruct c; cbn in *; auto|].
  destruct (spec_step ss c); auto.
Qed.
End Run.
Lemma run_all (A : Type) (cs : list (call (A := A))) : proper [] cs -> checked [] cs ->
  exists answers, run start [] cs = (answers, if snd (spec_run [] cs) then Failed else Done tt) /\ Forall2 agree answers (fst (spec_run [] cs)).
Proof. exact (run_ok cs start [] inv_start). Qed.
Lemma run_plain (A : Type) (cs : list (call (A := A))) : Forall plain cs -> proper [] cs ->
  exists answers, run start [] cs = (answers, if snd (spec_run [] cs) then Failed else Done tt) /\ Forall2 agree answers (fst (spec_run [] cs)).
Proof. intros P Pr; apply run_all; [exact Pr|apply plain_checked, P]. Qed.
Lemma update_empty : exists cs : list (call (A := N)), proper [] cs /\ spec_run [] cs = ([ADone], true) /\ run start [] cs = ([ADone], Wrong).
Proof. exists [EmptyArray; Update 0 0 5]; vm_compute; auto. Qed.
Lemma ref_past : exists cs : list (call (A := N)), proper [] cs /\ spec_run [] cs = ([ADone], true) /\ run start [] cs = ([ADone], Wrong).
Proof. exists [Literal [7; 8]; LoadRef 0 2]; vm_compute; auto. Qed.

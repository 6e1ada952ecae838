(** * Segments *)
From Coq Require Import NArith ZArith Permutation.
From Verif.Base Require Import Base.
From Verif.Obj Require Import Model Spec.
From Verif.Jit Require Import Model Spec.
Local Open Scope Z_scope.

(** ** Areas *)

Definition area (m : mmap) : Z * Z := (m_ptr m, m_size m).
Definition apart_a (a b : Z * Z) : Prop := fst a + snd a <= fst b \/ fst b + snd b <= fst a.
Definition good_area (a : Z * Z) : Prop := 0 < fst a /\ 0 <= snd a /\ fst a mod 16 = 0.

Lemma apart_a_sym a b : apart_a a b -> apart_a b a.
Proof. unfold apart_a. tauto. Qed.

Lemma fop_perm {A} (R : A -> A -> Prop) l l' : (forall a b, R a b -> R b a) -> Permutation l l' -> ForallOrdPairs R l -> ForallOrdPairs R l'.
Proof.
  intros Sy P. induction P as [|x l l' P IH|x y l|l1 l2 l3 P1 IH1 P2 IH2]; intro F; auto.
  - inversion F as [|? ? H F']; subst. constructor; [|auto]. now rewrite <- P.
  - inversion F as [|? ? H F']; subst. inversion F' as [|? ? H' F'']; subst. inversion H as [|? ? Ryx H2]; subst. constructor; [constructor; [now apply Sy|exact H']|]. now constructor.
Qed.

Definition shaped (ms : list mmap) : Prop := ForallOrdPairs apart_a (map area ms) /\ Forall good_area (map area ms).

Lemma shaped_perm ms ms' : Permutation ms ms' -> shaped ms -> shaped ms'.
Proof.
  intros P [F G]. apply (Permutation_map area) in P. split.
  - exact (fop_perm apart_a _ _ apart_a_sym P F).
  - now rewrite <- P.
Qed.

Lemma shaped_same ms ms' : map area ms = map area ms' -> shaped ms -> shaped ms'.
Proof. unfold shaped. now intros ->. Qed.

Lemma shaped_apart ms1 ms2 m1 m2 x : shaped (ms1 ++ ms2) -> In m1 ms1 -> In m2 ms2 -> within m1 x -> within m2 x -> False.
Proof.
  intros [F _] I1 I2 [A1 B1] [A2 B2]. rewrite map_app in F. revert F I1. induction ms1 as [|m ms1 IH]; cbn; intros F I1; [destruct I1|].
  inversion F as [|? ? H F']; subst. destruct I1 as [->|I1]; [|now apply IH].
  rewrite Forall_forall in H. specialize (H (area m2)). cbv beta in H. rewrite in_app_iff in H.
  assert (apart_a (area m1) (area m2)) as [Q|Q] by (apply H; right; now apply in_map); unfold area in Q; cbn in Q; lia.
Qed.

Lemma within_area m m' x : area m = area m' -> within m x -> within m' x.
Proof. unfold area, within. intros E. injection E as -> ->. auto. Qed.

(** ** One segment *)

Definition seg_ok (s : segment) : Prop :=
  match s_chunks s with [] => s_offset s = 0 | m :: _ => 0 <= s_offset s <= m_size m end.

Lemma new_segment_ok p : seg_ok (new_segment p).
Proof. reflexivity. Qed.

Lemma pages_enough size : 0 < size -> size <= (size + page_size - 1) / page_size * page_size.
Proof.
  intro H. unfold page_size. pose proof (Z.div_mod (size + 4096 - 1) 4096 ltac:(lia)). pose proof (Z.mod_pos_bound (size + 4096 - 1) 4096 ltac:(lia)). lia.
Qed.

(** What an allocation gives. *)
Record allocated (ms : list mmap) (s s' : segment) (p : part) (size : Z) : Prop := {
  al_protect : s_protect s' = s_protect s;
  al_ok : seg_ok s';
  al_size : p_size p = size;
  al_chunks : s_chunks s' = s_chunks s \/ exists m, s_chunks s' = m :: s_chunks s /\ m_protect m = s_protect s /\
    good_area (area m) /\ Forall (fun m' => apart_a (area m) (area m')) ms;
  al_used : forall x, used_seg s x -> used_seg s' x;
  al_part : 0 < size -> exists m ms', s_chunks s' = m :: ms' /\ as_ptr p = m_ptr m + (s_offset s' - size) /\ 0 <= s_offset s' - size;
  al_new : forall x, as_ptr p <= x < as_ptr p + size -> used_seg s' x;
  al_fresh : forall x, as_ptr p <= x < as_ptr p + size -> ~ used_seg s x;
  al_offset : forall a, 0 < a -> (a | page_size) -> (a | s_offset s) -> (a | size) -> (a | s_offset s') ;
  al_align : forall a, 0 < a -> (a | page_size) -> (a | s_offset s) -> (forall m, In m (s_chunks s') -> (a | m_ptr m)) -> (a | as_ptr p) }.


Lemma allocate_ok os ms s s' p size : honest os -> seg_ok s -> 0 <= size -> incl (s_chunks s) ms -> shaped (s_chunks s) ->
  allocate os ms size s = Some (s', p) -> allocated ms s s' p size.
Proof.
  intros Ho Ok Sz Inc Shs A. unfold allocate in A.
  destruct (Z.ltb_spec (last_mmap_capacity s) size) as [L|L].
  - set (pages := (size + page_size - 1) / page_size) in *. assert (Ps : 0 < size).
    { unfold last_mmap_capacity in L. unfold seg_ok in Ok. destruct (s_chunks s); lia. }
    pose proof (pages_enough size Ps) as Pe. fold pages in Pe. assert (0 < pages) as Pp by (unfold page_size in *; lia).
    destruct (os ms pages) as [ptr|] eqn:O; [|discriminate A]. injection A as <- <-. destruct (Ho ms pages ptr Pp O) as (Hp & Hm & Hd).
    cbn [s_chunks s_offset s_protect last_chunk].
    set (m := Mmap ptr pages (s_protect s)). assert (Msz : m_size m = pages * page_size) by reflexivity.
    assert (Fr : forall m', In m' (s_chunks s) -> forall x, within m' x -> ~ within m x).
    { intros m' I x Wx Wm. destruct (Hd m' (Inc _ I)) as [H|H]; unfold within in *; rewrite Msz in Wm; change (m_ptr m) with ptr in Wm; lia. }
    constructor; cbn [s_chunks s_offset s_protect p_size as_ptr p_mmap p_offset].
    + reflexivity.
    + unfold seg_ok. cbn [s_chunks s_offset]. change (m_size _) with (pages * page_size). lia.
    + reflexivity.
    + right. exists m. repeat split.
      * cbn. exact Hp.
      * cbn [area snd]. rewrite Msz. unfold page_size. lia.
      * cbn. unfold page_size in Hm. apply Z.mod_divide in Hm; [|lia]. apply Z.mod_divide; [lia|]. destruct Hm as [q ->]. exists (q * 256). lia.
      * apply Forall_forall. intros m' I. unfold apart_a, area. cbn [fst snd]. rewrite Msz. apply Hd, I.
    + intros x U. unfold used_seg in U |- *. cbn [s_chunks s_offset]. right. destruct (s_chunks s) as [|m0 ms0] eqn:E; [destruct U|].
      destruct U as [U|(m' & I & W)]; [|exists m'; split; [now right|exact W]]. exists m0. split; [now left|].
      unfold seg_ok in Ok. rewrite E in Ok. unfold within. lia.
    + intros _. exists m, (s_chunks s). repeat split; cbn; lia.
    + intros x B. unfold used_seg. cbn [s_chunks s_offset]. left. cbn in B |- *. lia.
    + intros x B U. assert (Wm : within m x) by (unfold within; rewrite Msz; cbn in B |- *; lia).
      unfold used_seg in U. destruct (s_chunks s) as [|m0 ms0] eqn:E; [exact U|]. destruct U as [U|(m' & I & W)].
      * apply (Fr m0 (or_introl eq_refl) x); [|exact Wm]. unfold seg_ok in Ok. rewrite E in Ok. unfold within. lia.
      * exact (Fr m' (or_intror I) x W Wm).
    + intros a _ _ _ D. exact D.
    + intros a _ _ _ D. rewrite Z.add_0_r. apply (D m). now left.
  - injection A as <- <-. unfold last_mmap_capacity in L. constructor; cbn [s_chunks s_offset s_protect p_size as_ptr p_mmap p_offset].
    + reflexivity.
    + unfold seg_ok in *. cbn [s_chunks s_offset]. destruct (s_chunks s); lia.
    + reflexivity.
    + now left.
    + intros x U. unfold used_seg in *. cbn [s_chunks s_offset]. destruct (s_chunks s) as [|m0 ms0]; [exact U|]. destruct U as [U|U]; [left; lia|now right].
    + intro Ps. unfold seg_ok in Ok. unfold last_chunk. destruct (s_chunks s) as [|m0 ms0]; [lia|]. exists m0, ms0. split; [reflexivity|]. cbn; lia.
    + intros x B. unfold used_seg. cbn [s_chunks s_offset]. unfold last_chunk in B. unfold seg_ok in Ok. destruct (s_chunks s) as [|m0 ms0]; cbn in B; [lia|]. left. lia.
    + intros x B U. unfold used_seg in U. unfold last_chunk in B. unfold seg_ok in Ok. destruct (s_chunks s) as [|m0 ms0] eqn:E; cbn in B; [exact U|].
      destruct U as [U|(m' & I & W)]; [lia|]. apply (shaped_apart [m0] ms0 m0 m' x Shs (or_introl eq_refl) I); [|exact W]. unfold within. lia.
    + intros a _ _ D1 D2. now apply Z.divide_add_r.
    + intros a _ _ D1 D. unfold last_chunk. destruct (s_chunks s) as [|m0 ms0]; [apply Z.divide_0_r|]. apply Z.divide_add_r; [apply (D m0); now left|exact D1].
Qed.

Lemma shaped_app_l ms1 ms2 : shaped (ms1 ++ ms2) -> shaped ms1.
Proof.
  unfold shaped. rewrite map_app. intros [F G]. apply Forall_app in G. split; [|tauto]. revert F. generalize (map area ms2). clear.
  induction (map area ms1) as [|a l IH]; cbn; intros l2 F; [constructor|]. inversion F as [|? ? H F']; subst. constructor; [|eauto].
  apply Forall_app in H. tauto.
Qed.

Lemma shaped_incl_part ms1 ms2 ms3 : shaped (ms1 ++ ms2 ++ ms3) -> shaped ms2.
Proof.
  intro Sh. apply (shaped_perm _ (ms2 ++ ms1 ++ ms3)) in Sh; [now apply shaped_app_l in Sh|].
  rewrite !app_assoc. apply Permutation_app_tail, Permutation_app_comm.
Qed.

Lemma shaped_cons m ms : good_area (area m) -> Forall (fun m' => apart_a (area m) (area m')) ms -> shaped ms -> shaped (m :: ms).
Proof.
  intros G A [F Gs]. split; cbn; [|now constructor]. constructor; [|exact F]. rewrite Forall_forall in *. intros a I. apply in_map_iff in I.
  destruct I as (m' & <- & I). now apply A.
Qed.

(** ** Sequences of requests *)

Lemma allocated_shaped ms1 ms2 s s' p size : allocated (ms1 ++ s_chunks s ++ ms2) s s' p size -> shaped (ms1 ++ s_chunks s ++ ms2) ->
  shaped (ms1 ++ s_chunks s' ++ ms2).
Proof.
  intros A Sh. destruct (al_chunks _ _ _ _ _ A) as [->|(m & -> & _ & G & Ap)]; [exact Sh|].
  apply (shaped_perm (m :: ms1 ++ s_chunks s ++ ms2)); [|now apply shaped_cons]. apply Permutation_middle.
Qed.

Lemma part_inside_mono s s' p : (s_chunks s' = s_chunks s \/ exists m, s_chunks s' = m :: s_chunks s) -> s_protect s' = s_protect s ->
  part_inside s p -> part_inside s' p.
Proof.
  intros C P [Z|(m & I & M & B)]; [now left|]. right. exists m. split; [|split; [congruence|exact B]].
  destruct C as [->|(m' & ->)]; [exact I|now right].
Qed.

Lemma requests_ok os ms sizes : honest os -> Forall (fun n => 0 <= n) sizes -> forall s,
  seg_ok s -> shaped (s_chunks s) -> (forall m, In m (s_chunks s) -> m_protect m = s_protect s) ->
  (forall m m', In m (s_chunks s) -> In m' ms -> apart_a (area m) (area m')) ->
  let (s', ps) := requests os ms sizes s in
  s_protect s' = s_protect s /\ (forall p, part_inside s p -> part_inside s' p) /\
  Forall (part_inside s') ps /\ ForallOrdPairs parts_apart ps /\ Forall (foreign ms) ps /\
  (forall p x, In p ps -> in_part p x -> ~ used_seg s x) /\
  (forall p, In p ps -> In (p_size p) sizes) /\
  (forall a, 0 < a -> (a | 16) -> (a | s_offset s) -> Forall (fun n => (a | n)) sizes -> Forall (fun p => (a | as_ptr p)) ps) /\
  ((forall ms n, os ms n <> None) -> map p_size ps = sizes).
Proof.
  intros Ho Fs. induction Fs as [|n sizes Hn Fs IH]; intros s Ok Sh Pr Ap; cbn [requests].
  - refine (conj eq_refl (conj (fun _ H => H) (conj (Forall_nil _) (conj (FOP_nil _) (conj (Forall_nil _) (conj _ (conj _ (conj _ _)))))))); auto; intros ? ? [].
  - destruct (allocate os (s_chunks s ++ ms) n s) as [[s1 p]|] eqn:A.
    + apply allocate_ok in A; auto; [|intros m I; apply in_app_iff; now left].
      pose proof (al_protect _ _ _ _ _ A) as P1. pose proof (al_size _ _ _ _ _ A) as Sz.
      assert (Ch : s_chunks s1 = s_chunks s \/ exists m, s_chunks s1 = m :: s_chunks s /\ m_protect m = s_protect s /\ good_area (area m) /\
        Forall (fun m' => apart_a (area m) (area m')) (s_chunks s) /\ Forall (fun m' => apart_a (area m) (area m')) ms).
      { destruct (al_chunks _ _ _ _ _ A) as [E|(m & E & Pm & G & F)]; [now left|]. right. exists m. apply Forall_app in F. tauto. }
      assert (Sh1 : shaped (s_chunks s1)).
      { destruct Ch as [->|(m & -> & Pm & G & F & _)]; [exact Sh|]. now apply shaped_cons. }
      assert (Pr1 : forall m, In m (s_chunks s1) -> m_protect m = s_protect s1).
      { intros m I. rewrite P1. destruct Ch as [E|(m' & E & M & _)]; rewrite E in I; [now apply Pr|]. destruct I as [<-|I]; [exact M|now apply Pr]. }
      assert (Ap1 : forall m m', In m (s_chunks s1) -> In m' ms -> apart_a (area m) (area m')).
      { intros m m' I I'. destruct Ch as [E|(m0 & E & M & _ & _ & F)]; rewrite E in I; [now apply Ap|]. destruct I as [<-|I]; [|now apply Ap].
        rewrite Forall_forall in F. now apply F. }
      specialize (IH s1 (al_ok _ _ _ _ _ A) Sh1 Pr1 Ap1). destruct (requests os ms sizes s1) as [s2 ps].
      destruct IH as (K2 & K5 & K7 & K8 & Kf & K9 & K11 & Ka & Kt). rewrite P1 in *.
      assert (C1 : s_chunks s1 = s_chunks s \/ exists m, s_chunks s1 = m :: s_chunks s).
      { destruct Ch as [E|(m & E & _)]; eauto. }
      assert (In1 : part_inside s1 p).
      { unfold part_inside. rewrite Sz. destruct (Z.eq_dec n 0) as [->|Nz]; [now left|]. right.
        destruct (al_part _ _ _ _ _ A ltac:(lia)) as (m & ms' & E & Ep & O). exists m. rewrite E. split; [now left|]. split; [rewrite P1; apply Pr1; rewrite E; now left|].
        pose proof (al_ok _ _ _ _ _ A) as Ok1. unfold seg_ok in Ok1. rewrite E in Ok1. lia. }
      refine (conj K2 (conj _ (conj (Forall_cons _ (K5 _ In1) K7) (conj _ (conj _ (conj _ (conj _ (conj _ _)))))))).
      * intros q I. apply K5. exact (part_inside_mono s s1 q C1 P1 I).
      * constructor; [|exact K8]. apply Forall_forall. intros q I x Bp Bq. unfold in_part in Bp. rewrite Sz in Bp.
        exact (K9 q x I Bq (al_new _ _ _ _ _ A x Bp)).
      * constructor; [|exact Kf]. intros m x I Bp W. unfold in_part in Bp. destruct In1 as [Z0|(m1 & I1 & _ & L1 & L2)]; [lia|].
        destruct (Ap1 m1 m I1 I) as [Q|Q]; unfold area, within in *; cbn in Q; lia.
      * intros q x [<-|I] B U; [apply (al_fresh _ _ _ _ _ A x); [unfold in_part in B; now rewrite Sz in B|exact U]|].
        apply (K9 q x I B), (al_used _ _ _ _ _ A), U.
      * intros q [<-|I]; [left; now symmetry|right; auto].
      * intros a Pa D16 Do F. inversion F as [|? ? F1 F2]; subst. assert (D4 : (a | page_size)) by (apply (Z.divide_trans _ 16); [exact D16|now exists 256]). constructor.
        { apply (al_align _ _ _ _ _ A); auto. intros m I. destruct Sh1 as [_ G]. rewrite Forall_forall in G. specialize (G (area m) (in_map area _ _ I)).
          destruct G as (_ & _ & G). cbn in G. apply Z.mod_divide in G; [|lia]. exact (Z.divide_trans _ _ _ D16 G). }
        apply Ka; auto. apply (al_offset _ _ _ _ _ A); auto.
      * intro T. cbn. rewrite Sz, Kt by exact T. reflexivity.
    + specialize (IH s Ok Sh Pr Ap). destruct (requests os ms sizes s) as [s2 ps]. destruct IH as (K2 & K5 & K7 & K8 & Kf & K9 & K11 & Ka & Kt).
      refine (conj K2 (conj K5 (conj K7 (conj K8 (conj Kf (conj K9 (conj _ (conj _ _)))))))).
      * intros q I. right. auto.
      * intros a Pa D16 Do F. inversion F as [|? ? F1 F2]; subst. now apply Ka.
      * intro T. exfalso. unfold allocate in A. destruct (_ <? _) in A; [|discriminate A]. specialize (T (s_chunks s ++ ms) ((n + page_size - 1) / page_size)).
        destruct (os _ _); [discriminate A|congruence].
Qed.

Lemma requests_new os ms sizes p : honest os -> Forall (fun n => 0 <= n) sizes -> let (s, ps) := requests os ms sizes (new_segment p) in
  s_protect s = p /\ Forall (part_inside s) ps /\ ForallOrdPairs parts_apart ps /\ Forall (foreign ms) ps /\ (forall q, In q ps -> In (p_size q) sizes) /\
  (forall a, 0 < a -> (a | 16) -> Forall (fun n => (a | n)) sizes -> Forall (fun q => (a | as_ptr q)) ps) /\
  ((forall ms n, os ms n <> None) -> map p_size ps = sizes).
Proof.
  intros Ho Fs. pose proof (requests_ok os ms sizes Ho Fs (new_segment p) (new_segment_ok p) (conj (FOP_nil _) (Forall_nil _)) (fun _ H => match H with end) (fun _ _ H => match H with end)) as H. destruct (requests os ms sizes (new_segment p)) as [s ps].
  destruct H as (K2 & K5 & K7 & K8 & Kf & K9 & K11 & Ka & Kt).
  refine (conj K2 (conj K7 (conj K8 (conj Kf (conj K11 (conj _ Kt)))))). intros a Pa D F. apply Ka; auto. exists 0. reflexivity.
Qed.

(** * The engine: adding objects, the whole *)
From Coq Require Import NArith ZArith Permutation.
From Verif.Base Require Import Base.
From Verif.Asm Require Model.
From Verif.Obj Require Import Model Spec ProofsProduce.
From Verif.Jit Require Import Model Spec Proofs ProofsEngine ProofsLoad.
Import Asm.Model(le_bytes).
Local Open Scope Z_scope.

(** ** Copies *)

Fixpoint copies (l : list (Z * list N)) (e : engine) : outcome engine :=
  match l with
  | [] => Ret e
  | (a, bs) :: l => let* e := copy bs a e in copies l e
  end.

Lemma load_copies k o e : load k o e = copies [(at_text k, buffer Text (o_buffers o)); (at_data k, buffer Data (o_buffers o));
  (at_bss k, repeat 0%N (Z.to_nat (o_bss o))); (at_rodata k, buffer Rodata (o_buffers o))] e.
Proof.
  unfold load. cbn [copies]. destruct (copy (buffer Text (o_buffers o)) (at_text k) e) as [e1| |]; cbn [Base.bind]; auto.
  destruct (copy (buffer Data (o_buffers o)) (at_data k) e1) as [e2| |]; cbn [Base.bind]; auto.
  destruct (copy (repeat 0%N (Z.to_nat (o_bss o))) (at_bss k) e2) as [e3| |]; cbn [Base.bind]; auto.
  destruct (copy (buffer Rodata (o_buffers o)) (at_rodata k) e3) as [e4| |]; cbn [Base.bind]; auto.
Qed.

Definition in_bytes (c : Z * list N) (x : Z) : Prop := fst c <= x < fst c + len (snd c).

Lemma copies_ok : forall l e, (forall a bs, In (a, bs) l -> bs <> [] -> area_writable (mappings e) a (len bs)) ->
  ForallOrdPairs (fun c d => forall x, in_bytes c x -> ~ in_bytes d x) l ->
  exists mem, copies l e = Ret (with_mem mem e) /\
    (forall a bs i b, In (a, bs) l -> nth_error bs (Z.to_nat i) = Some b -> 0 <= i -> mem (a + i) = b) /\
    (forall x, (forall c, In c l -> ~ in_bytes c x) -> mem x = e_mem e x).
Proof.
  induction l as [|[a bs] l IH]; intros e Wr Ap; cbn [copies].
  { exists (e_mem e). split; [now destruct e|]. split; [intros ? ? ? ? []|auto]. }
  inversion Ap as [|? ? Ap1 Ap2]; subst.
  assert (C : exists mem, copy bs a e = Ret (with_mem mem e) /\ (forall i b, nth_error bs (Z.to_nat i) = Some b -> 0 <= i -> mem (a + i) = b) /\
    forall x, ~ in_bytes (a, bs) x -> mem x = e_mem e x).
  { unfold copy. destruct bs as [|b0 bs].
    - exists (e_mem e). split; [now destruct e|]. split; [|auto]. intros i b N. now destruct (Z.to_nat i).
    - rewrite store_ok by (apply (Wr a (b0 :: bs)); [now left|discriminate]). eexists. split; [reflexivity|]. split; [intros; now apply write_mem_in|].
      intros x X. now apply write_mem_out. }
  destruct C as (mem & -> & C1 & C2). cbn [Base.bind]. destruct (IH (with_mem mem e)) as (mem' & -> & K1 & K2); auto.
  { intros a' bs' I. apply Wr. now right. }
  exists mem'. split; [reflexivity|]. split.
  - intros a' bs' i b [E|I] N P; [|eauto]. injection E as -> ->. rewrite K2; [now apply C1|].
    intros d I D. rewrite Forall_forall in Ap1. apply (Ap1 d I (a' + i)); [|exact D]. unfold in_bytes, len. cbn.
    assert (Z.to_nat i < List.length bs')%nat by (apply nth_error_Some; congruence). lia.
  - intros x X. rewrite K2 by (intros c I; apply X; now right). cbn. apply C2, X. now left.
Qed.

(** ** Segments of engines are apart *)

Lemma shaped_app_r ms1 ms2 : shaped (ms1 ++ ms2) -> shaped ms2.
Proof. intro H. apply (shaped_app_l ms2 ms1). revert H. apply shaped_perm, Permutation_app_comm. Qed.

Lemma segs_apart e x : mid e -> (used_seg (e_table e) x -> ~ used_seg (e_ro e) x /\ ~ used_seg (e_rw e) x /\ ~ used_seg (e_rx e) x) /\
  (used_seg (e_ro e) x -> ~ used_seg (e_rw e) x /\ ~ used_seg (e_rx e) x) /\ (used_seg (e_rw e) x -> ~ used_seg (e_rx e) x).
Proof.
  intro M. pose proof (md_shaped _ M) as Sh. unfold mappings in Sh. pose proof (shaped_app_r _ _ Sh) as Sh1. pose proof (shaped_app_r _ _ Sh1) as Sh2.
  pose proof (used_within (e_table e) x (md_ok_t _ M)) as Wt. pose proof (used_within (e_ro e) x (md_ok_ro _ M)) as Wo.
  pose proof (used_within (e_rw e) x (md_ok_rw _ M)) as Ww. pose proof (used_within (e_rx e) x (md_ok_rx _ M)) as Wx.
  split; [|split].
  - intro U. destruct (Wt U) as (m & I & W). repeat split; intro U'; [destruct (Wo U') as (m' & I' & W')|destruct (Ww U') as (m' & I' & W')|destruct (Wx U') as (m' & I' & W')];
      refine (shaped_apart _ _ m m' x Sh I _ W W'); rewrite !in_app_iff; auto.
  - intro U. destruct (Wo U) as (m & I & W). split; intro U'; [destruct (Ww U') as (m' & I' & W')|destruct (Wx U') as (m' & I' & W')];
      refine (shaped_apart _ _ m m' x Sh1 I _ W W'); rewrite !in_app_iff; auto.
  - intros U U'. destruct (Ww U) as (m & I & W). destruct (Wx U') as (m' & I' & W'). exact (shaped_apart _ _ m m' x Sh2 I I' W W').
Qed.

(** ** Protections of engines *)

Lemma mid_prot_ro p e : mid e -> mid (with_ro (protect_last p (e_ro e)) e).
Proof.
  intro M. constructor; try apply M; cbn.
  - apply (shaped_same (mappings e)); [|apply M]. unfold mappings. cbn. now rewrite !map_app, protect_last_areas.
  - apply ok_protect, M.
  - rewrite protect_last_protect. apply M.
  - apply protect_last_tl, M.
  - rewrite protect_last_offset. apply M.
Qed.
Lemma mid_prot_rx p e : mid e -> mid (with_rx (protect_last p (e_rx e)) e).
Proof.
  intro M. constructor; try apply M; cbn.
  - apply (shaped_same (mappings e)); [|apply M]. unfold mappings. cbn. now rewrite !map_app, protect_last_areas.
  - apply ok_protect, M.
  - rewrite protect_last_protect. apply M.
  - apply protect_last_tl, M.
  - rewrite protect_last_offset. apply M.
Qed.
Lemma mid_restore_rw e : mid e -> mid (with_rw (restore (e_rw e)) e).
Proof.
  intro M. unfold restore. constructor; try apply M; cbn.
  - apply (shaped_same (mappings e)); [|apply M]. unfold mappings. cbn. now rewrite !map_app, protect_last_areas.
  - apply ok_protect, M.
  - rewrite protect_last_protect. apply M.
  - apply restore_prot, prot_tl, M.
  - rewrite protect_last_offset. apply M.
Qed.

Lemma drop_inv e : mid e -> inv (drop_parts e).
Proof.
  intro M. unfold drop_parts. pose proof (mid_prot_ro (s_protect (e_ro e)) e M) as M1. apply mid_restore_rw in M1. cbn in M1.
  pose proof (mid_prot_rx (s_protect (e_rx e)) _ M1) as M2. split; [exact M2|]. split; cbn; apply restore_prot; apply M.
Qed.

Lemma used_restore s x : used_seg (restore s) x <-> used_seg s x.
Proof. apply used_protect. Qed.

Lemma drop_used e x : used (drop_parts e) x <-> used e x.
Proof. unfold used, drop_parts. cbn. now rewrite !used_restore. Qed.

(** ** Allocation in engines *)

Section OS.
Variable os : list mmap -> Z -> option Z.
Hypothesis Honest : honest os.

Lemma alloc_gen ms1 ms2 s s' p size : shaped (ms1 ++ s_chunks s ++ ms2) -> seg_ok s -> seg_prot s -> 0 <= size -> (16 | size) -> (16 | s_offset s) ->
  allocate os (ms1 ++ s_chunks s ++ ms2) size s = Some (s', p) ->
  allocated (ms1 ++ s_chunks s ++ ms2) s s' p size /\ shaped (ms1 ++ s_chunks s' ++ ms2) /\ seg_prot s' /\ (16 | as_ptr p) /\ (16 | s_offset s').
Proof.
  intros Sh Ok Pr Sz D16 O16 A. apply allocate_ok in A; auto.
  2: { intros m I. rewrite !in_app_iff. auto. }
  2: { now apply shaped_incl_part in Sh. }
  assert (Sh' := allocated_shaped _ _ _ _ _ _ A Sh). split; [exact A|]. split; [exact Sh'|]. split; [|split].
  - intros m I. rewrite (al_protect _ _ _ _ _ A). destruct (al_chunks _ _ _ _ _ A) as [E|(m' & E & M & _)]; rewrite E in I; [now apply Pr|].
    destruct I as [<-|I]; [exact M|now apply Pr].
  - apply (al_align _ _ _ _ _ A); auto; [lia|exists 256; reflexivity|]. intros m I. apply (shaped_divides _ _ 16 (shaped_incl_part _ _ _ Sh') I). apply Z.divide_refl.
  - apply (al_offset _ _ _ _ _ A); auto; [lia|exists 256; reflexivity].
Qed.

Lemma alloc_rx e rx p size : mid e -> seg_prot (e_rx e) -> 0 <= size -> (16 | size) -> allocate os (mappings e) size (e_rx e) = Some (rx, p) ->
  allocated (mappings e) (e_rx e) rx p size /\ mid (with_rx rx e) /\ seg_prot rx /\ (16 | as_ptr p).
Proof.
  intros M Pr Sz D A.
  assert (Em : forall e, mappings e = (s_chunks (e_table e) ++ s_chunks (e_ro e) ++ s_chunks (e_rw e)) ++ s_chunks (e_rx e) ++ []).
  { intro e0. unfold mappings. now rewrite app_nil_r, <- !app_assoc. }
  pose proof (md_shaped _ M) as Sh. rewrite Em in A, Sh |- *. apply alloc_gen in A; auto; [|apply M..]. destruct A as (A & Sh' & Pr' & Al & Of).
  split; [exact A|]. split; [|auto]. constructor; try apply M; cbn; auto.
  - rewrite Em. exact Sh'.
  - apply A.
  - rewrite (al_protect _ _ _ _ _ A). apply M.
  - apply prot_tl, Pr'.
Qed.
Lemma alloc_rw e rw p size : mid e -> 0 <= size -> (16 | size) -> allocate os (mappings e) size (e_rw e) = Some (rw, p) ->
  allocated (mappings e) (e_rw e) rw p size /\ mid (with_rw rw e) /\ (16 | as_ptr p).
Proof.
  intros M Sz D A.
  assert (Em : forall e, mappings e = (s_chunks (e_table e) ++ s_chunks (e_ro e)) ++ s_chunks (e_rw e) ++ s_chunks (e_rx e)).
  { intro e0. unfold mappings. now rewrite <- !app_assoc. }
  pose proof (md_shaped _ M) as Sh. rewrite Em in A, Sh |- *. apply alloc_gen in A; auto; [|apply M..]. destruct A as (A & Sh' & Pr' & Al & Of).
  split; [exact A|]. split; [|auto]. constructor; try apply M; cbn; auto.
  - rewrite Em. exact Sh'.
  - apply A.
  - rewrite (al_protect _ _ _ _ _ A). apply M.
Qed.
Lemma alloc_ro e ro p size : mid e -> seg_prot (e_ro e) -> 0 <= size -> (16 | size) -> allocate os (mappings e) size (e_ro e) = Some (ro, p) ->
  allocated (mappings e) (e_ro e) ro p size /\ mid (with_ro ro e) /\ seg_prot ro /\ (16 | as_ptr p).
Proof.
  intros M Pr Sz D A.
  assert (Em : forall e, mappings e = s_chunks (e_table e) ++ s_chunks (e_ro e) ++ (s_chunks (e_rw e) ++ s_chunks (e_rx e))) by reflexivity.
  pose proof (md_shaped _ M) as Sh. rewrite Em in A, Sh |- *. apply alloc_gen in A; auto; [|apply M..]. destruct A as (A & Sh' & Pr' & Al & Of).
  split; [exact A|]. split; [|auto]. constructor; try apply M; cbn; auto.
  - apply A.
  - rewrite (al_protect _ _ _ _ _ A). apply M.
  - apply prot_tl, Pr'.
Qed.

Lemma align16_ok n : 0 <= n -> n <= align16 n /\ (16 | align16 n) /\ (0 < n -> 0 < align16 n).
Proof.
  intro H. unfold align16. pose proof (Z.div_mod (n + 15) 16 ltac:(lia)). pose proof (Z.mod_pos_bound (n + 15) 16 ltac:(lia)).
  split; [lia|]. split; [now exists ((n + 15) / 16)|lia].
Qed.

(** The area of a part can be written after its chunk is relaxed. *)
Lemma relaxed_writable ms s s' p size : allocated ms s s' p size -> 0 < size -> area_writable (s_chunks (relax s')) (as_ptr p) size.
Proof.
  intros A H. destruct (al_part _ _ _ _ _ A H) as (m & ms' & E & Ep & O). pose proof (al_ok _ _ _ _ _ A) as Ok. unfold seg_ok in Ok. rewrite E in Ok.
  unfold relax, protect_last. rewrite E. cbn. exists (set_protect ReadWrite m). split; [now left|]. split; [reflexivity|]. change (m_size (set_protect ReadWrite m)) with (m_size m).
  cbn. lia.
Qed.
Lemma rw_writable ms s s' p size : allocated ms s s' p size -> seg_prot s' -> s_protect s' = ReadWrite -> 0 < size -> area_writable (s_chunks s') (as_ptr p) size.
Proof.
  intros A Pr P H. destruct (al_part _ _ _ _ _ A H) as (m & ms' & E & Ep & O). pose proof (al_ok _ _ _ _ _ A) as Ok. unfold seg_ok in Ok. rewrite E in Ok.
  exists m. assert (I : In m (s_chunks s')) by (rewrite E; now left). split; [exact I|]. split; [rewrite Pr; auto|]. lia.
Qed.

Definition section_bytes (o : object) (s : section) : list N :=
  match s with In_ c => buffer c (o_buffers o) | Bss => repeat 0%N (Z.to_nat (o_bss o)) end.
Lemma section_size o s : 0 <= o_bss o -> len (section_bytes o s) = size_of o s.
Proof. destruct s as [c|]; cbn; auto. unfold len. rewrite repeat_length. lia. Qed.

Definition in_section (k : locator) (o : object) (s : section) (x : Z) : Prop := base k s <= x < base k s + size_of o s.

(** An engine whose sections have been given their places. *)
Record placed (k : locator) (o : object) (e e4 : engine) : Prop := {
  pl_mid : mid e4;
  pl_symbols : e_symbols e4 = e_symbols e;
  pl_entries : e_entries e4 = e_entries e;
  pl_mem : e_mem e4 = e_mem e;
  pl_used : forall x, used e x -> used e4 x;
  pl_table : e_table e4 = e_table e;
  pl_place : forall s x, in_section k o s x -> ~ used e x /\ used_seg (segment_of s e4) x;
  pl_apart : forall s t x, s <> t -> in_section k o s x -> ~ in_section k o t x;
  pl_align : forall s, (16 | base k s);
  pl_writable : forall s, 0 < size_of o s -> area_writable (others e4) (base k s) (size_of o s) }.

Lemma size_of_nonneg o s : 0 <= o_bss o -> 0 <= size_of o s.
Proof. destruct s; cbn; unfold len; lia. Qed.

Lemma place_ok o e rx text rw data ro rodata e3 : inv e -> 0 <= o_bss o ->
  let tsz := align16 (size_of o (In_ Text)) in let dsz := align16 (size_of o (In_ Data)) in let bsz := align16 (o_bss o) in let rsz := align16 (size_of o (In_ Rodata)) in
  let k := Locator (as_ptr text) (as_ptr data) (as_ptr rodata) (as_ptr data + dsz) in
  allocated (mappings e) (e_rx e) rx text tsz -> (16 | as_ptr text) ->
  allocated (mappings (with_rx rx e)) (e_rw e) rw data (dsz + bsz) -> (16 | as_ptr data) ->
  allocated (mappings (with_rw rw (with_rx rx e))) (e_ro e) ro rodata rsz -> (16 | as_ptr rodata) ->
  e3 = with_ro ro (with_rw rw (with_rx rx e)) -> mid e3 ->
  placed k o e (with_ro (relax ro) (with_rx (relax rx) e3)).
Proof.
  intros I Bn tsz dsz bsz rsz k At Dt Ad Dd Ar Dr E3 M3.
  assert (M4 : mid (with_ro (relax ro) (with_rx (relax rx) e3))).
  { pose proof (mid_prot_rx ReadWrite _ M3) as M. pose proof (mid_prot_ro ReadWrite _ M) as M'. subst e3. exact M'. }
  destruct (align16_ok (size_of o (In_ Text)) (size_of_nonneg o (In_ Text) Bn)) as (T1 & T2 & T3). destruct (align16_ok (size_of o (In_ Data)) (size_of_nonneg o (In_ Data) Bn)) as (D1 & D2 & D3).
  destruct (align16_ok (o_bss o) Bn) as (B1 & B2 & B3). destruct (align16_ok (size_of o (In_ Rodata)) (size_of_nonneg o (In_ Rodata) Bn)) as (R1 & R2 & R3). fold tsz in T1, T2, T3. fold dsz in D1, D2, D3. fold bsz in B1, B2, B3. fold rsz in R1, R2, R3.
  assert (Bt : forall x, in_section k o (In_ Text) x -> as_ptr text <= x < as_ptr text + tsz) by (unfold in_section; cbn [base k at_text]; intros; lia).
  assert (Bd : forall x, in_section k o (In_ Data) x -> as_ptr data <= x < as_ptr data + dsz) by (unfold in_section; cbn [base k at_data]; intros; lia).
  assert (Bb : forall x, in_section k o Bss x -> as_ptr data + dsz <= x < as_ptr data + dsz + bsz).
  { unfold in_section. cbn [base k at_bss size_of]. intros. lia. }
  assert (Br : forall x, in_section k o (In_ Rodata) x -> as_ptr rodata <= x < as_ptr rodata + rsz) by (unfold in_section; cbn [base k at_rodata]; intros; lia).
  assert (Dn : 0 <= dsz) by (pose proof (size_of_nonneg o (In_ Data) Bn); lia).
  assert (Sg : forall s x, in_section k o s x -> used_seg (segment_of s e3) x).
  { intros [[]|] x X; subst e3; cbn [segment_of e_rx e_rw e_ro with_rx with_rw with_ro].
    - apply (al_new _ _ _ _ _ At), Bt, X.
    - apply (al_new _ _ _ _ _ Ad). apply Bd in X. lia.
    - apply (al_new _ _ _ _ _ Ar), Br, X.
    - apply (al_new _ _ _ _ _ Ad). apply Bb in X. lia. }
  assert (Fr : forall s x, in_section k o s x -> ~ used_seg (segment_of s e) x).
  { intros [[]|] x X; cbn [segment_of].
    - apply (al_fresh _ _ _ _ _ At), Bt, X.
    - apply (al_fresh _ _ _ _ _ Ad). apply Bd in X. lia.
    - apply (al_fresh _ _ _ _ _ Ar), Br, X.
    - apply (al_fresh _ _ _ _ _ Ad). apply Bb in X. lia. }
  assert (Ut : forall x, used_seg (e_table e) x -> used_seg (e_table e3) x) by (now subst e3).
  assert (Uo : forall x, used_seg (e_ro e) x -> used_seg (e_ro e3) x) by (subst e3; apply (al_used _ _ _ _ _ Ar)).
  assert (Uw : forall x, used_seg (e_rw e) x -> used_seg (e_rw e3) x) by (subst e3; apply (al_used _ _ _ _ _ Ad)).
  assert (Ux : forall x, used_seg (e_rx e) x -> used_seg (e_rx e3) x) by (subst e3; apply (al_used _ _ _ _ _ At)).
  assert (S34 : forall s x, used_seg (segment_of s (with_ro (relax ro) (with_rx (relax rx) e3))) x <-> used_seg (segment_of s e3) x).
  { intros [[]|] x; subst e3; cbn; unfold relax; rewrite ?used_protect; tauto. }
  constructor; auto.
  - subst e3. reflexivity.
  - subst e3. reflexivity.
  - subst e3. reflexivity.
  - intros x U. assert (U3 : used e3 x) by (destruct U as [U|[U|[U|U]]]; unfold used; auto).
    subst e3. unfold used in *. cbn in *. unfold relax. rewrite !used_protect. exact U3.
  - subst e3. reflexivity.
  - intros s x X. split; [|apply S34, Sg, X]. intro U. pose proof (Sg s x X) as X3. pose proof (Fr s x X) as XF. pose proof (segs_apart e3 x M3) as (P1 & P2 & P3).
    destruct U as [U|[U|[U|U]]]; [pose proof (P1 (Ut _ U)) as (Q1 & Q2 & Q3)|pose proof (P2 (Uo _ U)) as (Q1 & Q2)|pose proof (Uw _ U) as Q1|pose proof (Ux _ U) as Q1]; destruct s as [[]|]; cbn in *; tauto.
  - intros s t x Ne X Y. pose proof (Sg s x X) as X3. pose proof (Sg t x Y) as Y3. pose proof (segs_apart e3 x M3) as (P1 & P2 & P3).
    destruct s as [[]|], t as [[]|]; cbn [segment_of] in *; try tauto.
    + apply Bd in X. apply Bb in Y. lia.
    + apply Bb in X. apply Bd in Y. lia.
  - intros [[]|]; cbn; auto. now apply Z.divide_add_r.
  - intros s P. subst e3. unfold others. cbn [e_ro e_rw e_rx with_ro with_rw with_rx]. destruct s as [[]|].
    + apply (area_writable_incl (s_chunks (relax rx))); [intros m Im; rewrite !in_app_iff; auto|].
      eapply area_writable_sub; [apply (relaxed_writable _ _ _ _ _ At), T3, P| |]; cbn [base k at_text]; lia.
    + apply (area_writable_incl (s_chunks rw)); [intros m Im; rewrite !in_app_iff; auto|].
      eapply area_writable_sub; [apply (rw_writable _ _ _ _ _ Ad); [apply (md_rw _ M3)|apply (md_p_rw _ M3)|specialize (D3 P); lia]| |]; cbn [base k at_data]; lia.
    + apply (area_writable_incl (s_chunks (relax ro))); [intros m Im; rewrite !in_app_iff; auto|].
      eapply area_writable_sub; [apply (relaxed_writable _ _ _ _ _ Ar), R3, P| |]; cbn [base k at_rodata]; lia.
    + apply (area_writable_incl (s_chunks rw)); [intros m Im; rewrite !in_app_iff; auto|]. cbn [size_of] in P |- *.
      eapply area_writable_sub; [apply (rw_writable _ _ _ _ _ Ad); [apply (md_rw _ M3)|apply (md_p_rw _ M3)|specialize (B3 P); lia]| |]; cbn [base k at_bss]; lia.
Qed.

Variable resolver : string -> Z.

Lemma used_others e s x : mid e -> used_seg (segment_of s e) x -> exists m, In m (others e) /\ within m x.
Proof.
  intros M U. assert (Ok : seg_ok (segment_of s e)) by (destruct s as [[]|]; apply M). destruct (used_within _ _ Ok U) as (m & I & W). exists m. split; [|exact W].
  unfold others. rewrite !in_app_iff. destruct s as [[]|]; auto.
Qed.

(** Loading and linking in a placed engine. *)
Lemma link_ok k o e e4 : placed k o e e4 -> sound o -> exists e5 x, (let* e := load k o e4 in link os resolver k o e) = Ret (e5, x) /\ mid e5 /\
  e_ro e5 = e_ro e4 /\ e_rw e5 = e_rw e4 /\ e_rx e5 = e_rx e4 /\
  (forall y, used e4 y -> used e5 y) /\ (forall y, used e y -> e_mem e5 y = e_mem e y) /\ (forall y, ~ mapped e5 y -> e_mem e5 y = e_mem e y) /\
  (forall n a, find_name n (e_symbols e) = Some a -> find_name n (e_symbols e5) = Some a) /\
  (forall n a, find_name n (e_symbols e5) = Some a -> find_name n (e_symbols e) = Some a \/ exists l, In (n, Global l) (o_symbols o)) /\
  (x = inl tt -> ForallOrdPairs relocs_apart (o_relocs o) -> exists lk, loaded_at lk o e e5 /\ symbols_after resolver lk o e e5).
Proof.
  intros P (Bn & Nd & Rs). pose proof (pl_mid _ _ _ _ P) as M4. rewrite load_copies.
  set (l := [(at_text k, _); _; _; _]).
  assert (Lin : forall c, In c l -> exists s, c = (base k s, section_bytes o s)).
  { intros c [<-|[<-|[<-|[<-|[]]]]]; [exists (In_ Text)|exists (In_ Data)|exists Bss|exists (In_ Rodata)]; reflexivity. }
  assert (Lall : forall s, In (base k s, section_bytes o s) l) by (intros [[]|]; cbn; auto).
  assert (Lx : forall s x, in_bytes (base k s, section_bytes o s) x <-> in_section k o s x).
  { intros s x. unfold in_bytes, in_section. cbn [fst snd]. now rewrite section_size. }
  destruct (copies_ok l e4) as (mem & -> & C1 & C2).
  { intros a bs I Ne. destruct (Lin _ I) as (s & E). injection E as -> ->. rewrite section_size by exact Bn.
    apply (area_writable_incl _ _ _ _ (others_incl e4)), (pl_writable _ _ _ _ P).
    rewrite <- section_size by exact Bn. unfold len. destruct (section_bytes o s); [contradiction|cbn; lia]. }
  { assert (D : forall s t, s <> t -> forall x, in_bytes (base k s, section_bytes o s) x -> ~ in_bytes (base k t, section_bytes o t) x).
    { intros s t Ne x. rewrite !Lx. now apply (pl_apart _ _ _ _ P). }
    assert (D1 := D (In_ Text) (In_ Data) ltac:(discriminate)). assert (D2 := D (In_ Text) Bss ltac:(discriminate)). assert (D3 := D (In_ Text) (In_ Rodata) ltac:(discriminate)).
    assert (D4 := D (In_ Data) Bss ltac:(discriminate)). assert (D5 := D (In_ Data) (In_ Rodata) ltac:(discriminate)). assert (D6 := D Bss (In_ Rodata) ltac:(discriminate)).
    unfold l. repeat constructor; assumption. }
  cbn [Base.bind]. unfold link.
  assert (Tab : forall s x, in_section k o s x -> ~ used_seg (e_table e4) x).
  { intros s x X U. rewrite (pl_table _ _ _ _ P) in U. apply (pl_place _ _ _ _ P s x X). now left. }
  assert (M5 : mid (with_mem mem e4)).
  { apply mid_mem; auto. intros x U. apply C2. intros c I X. destruct (Lin c I) as (s & ->). apply Lx in X. exact (Tab s x X U). }
  destruct (bind_all_ok resolver k (o_symbols o) [] (with_mem mem e4) Nd) as (e5 & y & -> & B & O & R). unfold and_then. cbn [Base.bind fst snd].
  pose proof (binds_mid _ _ B M5) as M6. pose proof (binds_grows _ _ nothing B) as G. destruct B as [Be Bs].
  assert (E5 : e_ro e5 = e_ro e4 /\ e_rw e5 = e_rw e4 /\ e_rx e5 = e_rx e4 /\ e_table e5 = e_table e4 /\ e_mem e5 = mem) by (rewrite Be; repeat split).
  destruct E5 as (Ero & Erw & Erx & Et & Emem).
  assert (Mem5 : forall x, ~ (exists s, in_section k o s x) -> mem x = e_mem e x).
  { intros x X. rewrite C2, (pl_mem _ _ _ _ P); [reflexivity|]. intros c I Y. destruct (Lin c I) as (s & ->). apply Lx in Y. apply X. eauto. }
  assert (Sy : e_symbols (with_mem mem e4) = e_symbols e) by apply (pl_symbols _ _ _ _ P). rewrite Sy in Bs, O, R.
  assert (Mp : forall e' s x, e_ro e' = e_ro e4 -> e_rw e' = e_rw e4 -> e_rx e' = e_rx e4 -> in_section k o s x -> mapped e' x).
  { intros e' s x E1 E2 E3 X. destruct (used_others e4 s x M4 (proj2 (pl_place _ _ _ _ P s x X))) as (m & I & W). exists m. split; [|exact W].
    apply others_incl. unfold others in *. now rewrite E1, E2, E3. }
  destruct y as [ls|err].
  2: { exists e5, (inr err). split; [reflexivity|]. split; [exact M6|]. split; [exact Ero|]. split; [exact Erw|]. split; [exact Erx|]. split; [|split; [|split; [|split; [|split]]]].
    - intros x. unfold used. now rewrite Ero, Erw, Erx, Et.
    - intros x U. rewrite Emem. apply Mem5. intros (s & X). exact (proj1 (pl_place _ _ _ _ P s x X) U).
    - intros x U. rewrite Emem. apply Mem5. intros (s & X). apply U. eapply Mp; eauto.
    - exact Bs.
    - exact O.
    - discriminate. }
  assert (Fok : Forall (field_ok k e5) (o_relocs o)).
  { apply Forall_forall. intros r I. destruct (Rs r I) as [P0 P1]. unfold field_ok. rewrite (grows_others _ _ _ G). cbn [others with_mem e_ro e_rw e_rx].
    change (others (with_mem mem e4)) with (others e4).
    assert (0 < width (r_type r)) by (destruct (r_type r); cbn; lia).
    eapply area_writable_sub; [apply (pl_writable _ _ _ _ P (l_section (r_location r))); lia| |]; unfold locate; lia. }
  destruct (relocate_all_ok os Honest k ls (o_relocs o) e5 M6 Fok) as (e6 & y & -> & M7 & G6 & S6 & R6).
  assert (FieldIn : forall r x, In r (o_relocs o) -> field k r x -> in_section k o (l_section (r_location r)) x).
  { intros r x I X. destruct (Rs r I) as [P0 P1]. unfold field, locate in X. unfold in_section. lia. }
  assert (Mem6 : forall x, ~ (exists s, in_section k o s x) -> ~ (used_seg (e_table e6) x /\ ~ used_seg (e_table e) x) -> e_mem e6 x = e_mem e x).
  { intros x X Y. destruct (gr_mem _ _ _ G6 x) as [E|[(r & I & F)|Z]].
    - rewrite E, Emem. now apply Mem5.
    - exfalso. apply X. exists (l_section (r_location r)). now apply FieldIn.
    - rewrite Et, (pl_table _ _ _ _ P) in Z. contradiction. }
  exists e6, y. split; [reflexivity|]. split; [exact M7|].
  assert (Q1 : e_ro e6 = e_ro e4) by (rewrite (gr_ro _ _ _ G6); exact Ero).
  assert (Q2 : e_rw e6 = e_rw e4) by (rewrite (gr_rw _ _ _ G6); exact Erw).
  assert (Q3 : e_rx e6 = e_rx e4) by (rewrite (gr_rx _ _ _ G6); exact Erx).
  assert (Q4 : forall x, used_seg (e_table e4) x -> used_seg (e_table e6) x) by (intros x U; apply (gr_used _ _ _ G6); now rewrite Et).
  assert (Use : forall x, used e4 x -> used e6 x).
  { intros x. unfold used. rewrite Q1, Q2, Q3. intros [U|U]; [left; auto|right; exact U]. }
  assert (Segs : forall s, segment_of s e6 = segment_of s e4) by (intros [[]|]; cbn; assumption).
  split; [exact Q1|]. split; [exact Q2|]. split; [exact Q3|]. split; [exact Use|]. split; [|split; [|split; [|split]]].
  - intros x U. apply Mem6.
    + intros (s & X). exact (proj1 (pl_place _ _ _ _ P s x X) U).
    + intros [U1 U2]. pose proof (segs_apart e6 x M7) as (A1 & A2 & A3). specialize (A1 U1). rewrite Q1, Q2, Q3 in A1.
      pose proof (pl_used _ _ _ _ P x U) as U4. unfold used in U4. rewrite (pl_table _ _ _ _ P) in U4. tauto.
  - intros x U. apply Mem6.
    + intros (s & X). apply U. eapply Mp; eauto.
    + intros [U1 _]. destruct (used_within _ _ (md_ok_t _ M7) U1) as (m & I & W). apply U. exists m. split; [now apply in_mappings_t|exact W].
  - intros n a F. rewrite S6. now apply Bs.
  - rewrite S6. exact O.
  - intros -> Ap. destruct (R ls eq_refl) as (K1 & K2 & K3 & K4 & K5).
    assert (Fap : ForallOrdPairs (fun r q => forall a, field k r a -> ~ field k q a) (o_relocs o)).
    { assert (Ap' : ForallOrdPairs (fun r q => In r (o_relocs o) /\ In q (o_relocs o) /\ relocs_apart r q) (o_relocs o)).
      { clear -Ap. set (rs := o_relocs o) in *. assert (H : forall q, In q rs -> In q rs) by auto. revert H. generalize rs at 2 3 4. clearbody rs. intros all H.
        induction Ap as [|r rs Ap1 Ap2 IH]; constructor.
        - rewrite Forall_forall in *. intros q I. split; [apply H; now left|]. split; [apply H; now right|auto].
        - apply IH. intros q I. apply H. now right. }
      revert Ap'. clear -FieldIn P. induction 1 as [|r rs A1 A2 IH]; constructor; [|exact IH]. rewrite Forall_forall in *. intros q I.
      destruct (A1 q I) as (I1 & I2 & Q). intros a Fr Fq. destruct Q as [Q|Q].
      - apply (pl_apart _ _ _ _ P _ _ a Q (FieldIn r a I1 Fr)). exact (FieldIn q a I2 Fq).
      - unfold field, locate in Fr, Fq.
        destruct (section_dec (l_section (r_location r)) (l_section (r_location q))) as [E|Ne].
        + rewrite E in Fr. lia.
        + exact (pl_apart _ _ _ _ P _ _ a Ne (FieldIn r a I1 Fr) (FieldIn q a I2 Fq)). }
    specialize (R6 eq_refl Fap). exists (lk_of k ls e6).
    assert (Adr : forall n l, In (n, Local l) (o_symbols o) \/ In (n, Global (Some l)) (o_symbols o) -> address (lk_of k ls e6) n = Some (locate k l)).
    { intros n lo [I|I]; cbn; [now rewrite (K2 n lo I)|]. rewrite (K3 n _ I). cbn. rewrite S6. apply (K4 n lo I). }
    split.
    + constructor.
      * split; [|split].
        -- intros n lo I. cbn. exact (Adr n lo I).
        -- intros r I. exact (R6 r I).
        -- intros c i b N Pi Cov. change (place (lk_of k ls e6) c) with (base k (In_ c)). assert (Lt : (Z.to_nat i < List.length (buffer c (o_buffers o)))%nat) by (apply nth_error_Some; congruence).
           assert (Xs : in_section k o (In_ c) (base k (In_ c) + i)) by (unfold in_section; cbn [size_of]; unfold len; lia).
           destruct (gr_mem _ _ _ G6 (base k (In_ c) + i)) as [E|[(r & I & F)|[Z Z']]].
           ++ rewrite E, Emem. apply (C1 (base k (In_ c)) (section_bytes o (In_ c))); auto.
           ++ exfalso. apply (Cov r I). split.
              ** pose proof (FieldIn r _ I F) as Y. destruct (section_dec (l_section (r_location r)) (In_ c)) as [E|Ne]; [exact E|].
                 exfalso. exact (pl_apart _ _ _ _ P _ _ _ Ne Y Xs).
              ** pose proof (FieldIn r _ I F) as Y. destruct (section_dec (l_section (r_location r)) (In_ c)) as [E|Ne].
                 --- unfold field, locate in F. rewrite E in F. lia.
                 --- exfalso. exact (pl_apart _ _ _ _ P _ _ _ Ne Y Xs).
           ++ exfalso. pose proof (segs_apart e6 (base k (In_ c) + i) M7) as (A1 & A2 & A3). specialize (A1 Z). pose proof (proj2 (pl_place _ _ _ _ P _ _ Xs)) as V.
              rewrite <- Segs in V. destruct c; cbn in V; tauto.
      * intro n. cbn. unfold get. destruct (in_dec string_dec n (map fst (o_symbols o))) as [I|Ni].
        -- apply in_map_iff in I. destruct I as ((n' & b) & <- & I). cbn [fst]. destruct b as [lo|g]; [left; eauto|]. right. now rewrite (K3 n' g I).
        -- right. now rewrite (K1 n Ni).
      * intros n g F. cbn in F. destruct (md_entries _ M7 n g F) as (a & A1 & A2 & A3 & A4). exists a. split; [exact A1|]. split; [exact A2|].
        split; [|exact A4]. apply Z.mod_divide; [lia|exact A3].
      * intros s x X. cbn in X. rewrite Segs. exact (pl_place _ _ _ _ P s x X).
      * intro s. cbn. apply Z.mod_divide; [lia|]. apply (pl_align _ _ _ _ P).
      * intros i Bi Cov. change (place (lk_of k ls e6) Bss) with (base k Bss). assert (Xs : in_section k o Bss (base k Bss + i)) by (unfold in_section; cbn [size_of]; lia).
        destruct (gr_mem _ _ _ G6 (base k Bss + i)) as [E|[(r & I & F)|[Z Z']]].
        -- rewrite E, Emem. apply (C1 (base k Bss) (section_bytes o Bss)); auto; [|lia]. cbn. apply nth_error_repeat. lia.
        -- exfalso. pose proof (FieldIn r _ I F) as Y. destruct (section_dec (l_section (r_location r)) Bss) as [E|Ne].
           ++ apply (Cov r I E). unfold field, locate in F. rewrite E in F. lia.
           ++ exact (pl_apart _ _ _ _ P _ _ _ Ne Y Xs).
        -- exfalso. pose proof (segs_apart e6 (base k Bss + i) M7) as (A1 & A2 & A3). specialize (A1 Z). pose proof (proj2 (pl_place _ _ _ _ P _ _ Xs)) as V.
           rewrite <- Segs in V. cbn in V. tauto.
    + unfold symbols_after, get. rewrite S6. split; [exact Bs|]. split; [|split; [exact K5|exact O]].
      intros n lo I. exact (K4 n lo I).
Qed.

Lemma drop_loaded lk o e e5 : loaded_at lk o e e5 -> loaded_at lk o e (drop_parts e5).
Proof.
  intro L. constructor; try apply L. intros s x X. destruct (la_place _ _ _ _ L s x X) as [A B]. split; [exact A|].
  destruct s as [[]|]; cbn in *; now apply used_restore.
Qed.

Lemma drop_mapped e x : mapped (drop_parts e) x <-> mapped e x.
Proof.
  assert (E : map area (mappings (drop_parts e)) = map area (mappings e)) by (unfold mappings, drop_parts, restore; cbn; now rewrite !map_app, !protect_last_areas).
  split; intros (m & I & W); apply (in_map area) in I; [rewrite E in I|rewrite <- E in I]; apply in_map_iff in I; destruct I as (m' & Em & I); exists m'; (split; [exact I|]);
    exact (within_area m m' x (eq_sym Em) W).
Qed.

Lemma kept_restore e e' : mid e' -> (forall x, used e x -> used e' x) -> e_mem e' = e_mem e -> e_symbols e' = e_symbols e ->
  inv (drop_parts e') /\ (forall x, used e x -> used (drop_parts e') x).
Proof. intros M U _ _. split; [now apply drop_inv|]. intros x X. now apply drop_used, U. Qed.

(** Adding an object. *)
Lemma add_object_ok o e : inv e -> sound o -> exists e' x, add_object os resolver o e = Ret (e', x) /\ inv e' /\
  (forall y, used e y -> used e' y /\ e_mem e' y = e_mem e y) /\ (forall y, ~ mapped e' y -> e_mem e' y = e_mem e y) /\
  (forall n a, find_name n (e_symbols e) = Some a -> find_name n (e_symbols e') = Some a) /\
  (forall n a, find_name n (e_symbols e') = Some a -> find_name n (e_symbols e) = Some a \/ exists l, In (n, Global l) (o_symbols o)) /\
  (x = inl tt -> ForallOrdPairs relocs_apart (o_relocs o) -> exists lk, loaded_at lk o e e' /\ symbols_after resolver lk o e e').
Proof.
  intros I So. pose proof (proj1 So) as Bn. unfold add_object.
  change (len (buffer Text (o_buffers o))) with (size_of o (In_ Text)). change (len (buffer Data (o_buffers o))) with (size_of o (In_ Data)).
  change (len (buffer Rodata (o_buffers o))) with (size_of o (In_ Rodata)).
  set (tsz := align16 (size_of o (In_ Text))). set (dsz := align16 (size_of o (In_ Data))). set (bsz := align16 (o_bss o)). set (rsz := align16 (size_of o (In_ Rodata))).
  pose proof (align16_ok (size_of o (In_ Text)) (size_of_nonneg o (In_ Text) Bn)) as (T1 & T2 & _). pose proof (align16_ok (size_of o (In_ Data)) (size_of_nonneg o (In_ Data) Bn)) as (D1 & D2 & _).
  pose proof (align16_ok (o_bss o) Bn) as (B1 & B2 & _). pose proof (align16_ok (size_of o (In_ Rodata)) (size_of_nonneg o (In_ Rodata) Bn)) as (R1 & R2 & _).
  fold tsz in T1, T2. fold dsz in D1, D2. fold bsz in B1, B2. fold rsz in R1, R2.
  pose proof (size_of_nonneg o (In_ Text) Bn). pose proof (size_of_nonneg o (In_ Data) Bn). pose proof (size_of_nonneg o (In_ Rodata) Bn).
  destruct I as (M & Pro & Prx).
  destruct (allocate os (mappings e) tsz (e_rx e)) as [[rx text]|] eqn:A1.
  2: { exists e, (inr EMmap). repeat (split; [first [reflexivity|exact (conj M (conj Pro Prx))|auto]|]). discriminate. }
  destruct (alloc_rx e rx text tsz M Prx ltac:(lia) T2 A1) as (At & M1 & Prx1 & Dt).
  assert (U1 : forall x, used e x -> used (with_rx rx e) x) by (intros x [U|[U|[U|U]]]; unfold used; cbn; auto; right; right; right; exact (al_used _ _ _ _ _ At x U)).
  change (e_rw (with_rx rx e)) with (e_rw e).
  destruct (allocate os (mappings (with_rx rx e)) (dsz + bsz) (e_rw e)) as [[rw data]|] eqn:A2.
  2: { exists (drop_parts (with_rx rx e)), (inr EMmap). destruct (kept_restore e (with_rx rx e) M1 U1 eq_refl eq_refl) as [K1 K2].
       split; [reflexivity|]. split; [exact K1|]. repeat (split; [auto|]). discriminate. }
  destruct (alloc_rw (with_rx rx e) rw data (dsz + bsz) M1 ltac:(lia) (Z.divide_add_r _ _ _ D2 B2) A2) as (Ad & M2 & Dd).
  assert (U2 : forall x, used e x -> used (with_rw rw (with_rx rx e)) x).
  { intros x U. apply U1 in U. destruct U as [U|[U|[U|U]]]; unfold used; cbn in *; auto. right; right; left. exact (al_used _ _ _ _ _ Ad x U). }
  change (e_ro (with_rw rw (with_rx rx e))) with (e_ro e).
  destruct (allocate os (mappings (with_rw rw (with_rx rx e))) rsz (e_ro e)) as [[ro rodata]|] eqn:A3.
  2: { exists (drop_parts (with_rw rw (with_rx rx e))), (inr EMmap). destruct (kept_restore e _ M2 U2 eq_refl eq_refl) as [K1 K2].
       split; [reflexivity|]. split; [exact K1|]. repeat (split; [auto|]). discriminate. }
  destruct (alloc_ro (with_rw rw (with_rx rx e)) ro rodata rsz M2 Pro ltac:(lia) R2 A3) as (Ar & M3 & _ & Dr).
  pose proof (place_ok o e rx text rw data ro rodata _ (conj M (conj Pro Prx)) Bn At Dt Ad Dd Ar Dr eq_refl M3) as P. cbv zeta in P. fold dsz in P.
  destruct (link_ok _ o e _ P So) as (e5 & x & L & M5 & E1 & E2 & E3 & K1 & K2 & K3 & K4 & K5 & K6).
  set (k := Locator _ _ _ _) in *. set (e4 := with_ro (relax ro) (with_rx (relax rx) (with_ro ro (with_rw rw (with_rx rx e))))) in *.
  change (with_ro (relax (e_ro (with_ro ro (with_rw rw (with_rx rx e))))) (with_rx (relax (e_rx (with_ro ro (with_rw rw (with_rx rx e))))) (with_ro ro (with_rw rw (with_rx rx e))))) with e4.
  exists (drop_parts e5), x. split; [|split; [|split; [|split; [|split; [|split]]]]].
  - destruct (load k o e4) as [e6| |]; cbn [Base.bind] in L |- *; try discriminate L. rewrite L. reflexivity.
  - now apply drop_inv.
  - intros y U. split; [now apply drop_used, K1, (pl_used _ _ _ _ P)|]. exact (K2 y U).
  - intros y U. apply K3. now rewrite <- drop_mapped.
  - exact K4.
  - exact K5.
  - intros Ex Ap. destruct (K6 Ex Ap) as (lk & La & Sy). exists lk. split; [now apply drop_loaded|exact Sy].
Qed.

Lemma register_ok n p e : inv e -> exists e' x, register resolver n p e = Ret (e', x) /\ inv e' /\ binds e e'.
Proof.
  intros I. destruct (bind_symbol_ok resolver n (Some p) e) as (e' & x & E & B & _). exists e', x. split; [exact E|]. split; [|exact B].
  destruct I as (M & P1 & P2). split; [exact (binds_mid _ _ B M)|]. destruct B as [B _]. rewrite B. auto.
Qed.

Lemma reachable_inv mem e : reachable os resolver mem e -> inv e.
Proof.
  induction 1 as [|e c e' r R IH So St]; [apply inv_new|]. destruct c as [n p|o]; cbn in St, So.
  - destruct (register_ok n p e IH) as (e1 & x & E & I & _). rewrite E in St. now injection St as <- <-.
  - destruct (add_object_ok o e IH So) as (e1 & x & E & I & _). rewrite E in St. now injection St as <- <-.
Qed.

End OS.

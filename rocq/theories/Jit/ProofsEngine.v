(** * The engine: what relocations and symbols do *)
From Coq Require Import NArith ZArith Permutation.
From Verif.Base Require Import Base.
From Verif.Asm Require Model.
From Verif.Obj Require Import Model Spec ProofsProduce.
From Verif.Jit Require Import Model Spec Proofs.
Import Asm.Model(le_bytes).
Local Open Scope Z_scope.

(** ** Protections *)

Definition seg_prot (s : segment) : Prop := forall m, In m (s_chunks s) -> m_protect m = s_protect s.
Definition seg_prot_tl (s : segment) : Prop := forall m, In m (tl (s_chunks s)) -> m_protect m = s_protect s.

Lemma prot_tl s : seg_prot s -> seg_prot_tl s.
Proof. unfold seg_prot, seg_prot_tl. destruct (s_chunks s); [auto|]. intros H m' I. apply H. now right. Qed.

Lemma protect_last_protect p s : s_protect (protect_last p s) = s_protect s.
Proof. unfold protect_last. now destruct (s_chunks s). Qed.
Lemma protect_last_offset p s : s_offset (protect_last p s) = s_offset s.
Proof. unfold protect_last. now destruct (s_chunks s). Qed.
Lemma protect_last_areas p s : map area (s_chunks (protect_last p s)) = map area (s_chunks s).
Proof. unfold protect_last. destruct (s_chunks s) eqn:E; cbn; [now rewrite E|reflexivity]. Qed.
Lemma protect_last_tl p s : seg_prot_tl s -> seg_prot_tl (protect_last p s).
Proof. unfold protect_last, seg_prot_tl. destruct (s_chunks s) eqn:E; cbn; rewrite ?E; auto. Qed.
Lemma restore_prot s : seg_prot_tl s -> seg_prot (restore s).
Proof.
  unfold restore, protect_last, seg_prot, seg_prot_tl. destruct (s_chunks s) eqn:E; cbn; rewrite ?E; [intros _ m []|]. intros H m' [<-|I]; [reflexivity|auto].
Qed.

Lemma used_areas s s' x : map area (s_chunks s) = map area (s_chunks s') -> s_offset s = s_offset s' -> used_seg s x -> used_seg s' x.
Proof.
  unfold used_seg. intros E O. rewrite O. destruct (s_chunks s) as [|m ms]; [intros []|]. destruct (s_chunks s') as [|m' ms']; [discriminate E|].
  cbn in E. injection E as E1 E2 E3. intros [U|(m0 & I & W)]; [left; lia|]. right. apply (in_map area) in I. rewrite E3 in I. apply in_map_iff in I.
  destruct I as (m1 & E & I). exists m1. split; [exact I|]. exact (within_area m0 m1 x (eq_sym E) W).
Qed.
Lemma ok_areas s s' : map area (s_chunks s) = map area (s_chunks s') -> s_offset s = s_offset s' -> seg_ok s -> seg_ok s'.
Proof.
  unfold seg_ok. intros E <-. destruct (s_chunks s) as [|m ms], (s_chunks s') as [|m' ms']; try discriminate E; auto. cbn in E. injection E as _ -> _. auto.
Qed.
Lemma used_protect p s x : used_seg (protect_last p s) x <-> used_seg s x.
Proof. split; apply used_areas; auto using protect_last_areas, protect_last_offset; symmetry; auto using protect_last_areas, protect_last_offset. Qed.
Lemma ok_protect p s : seg_ok s -> seg_ok (protect_last p s).
Proof. apply ok_areas; symmetry; auto using protect_last_areas, protect_last_offset. Qed.

Lemma used_within s x : seg_ok s -> used_seg s x -> exists m, In m (s_chunks s) /\ within m x.
Proof.
  unfold seg_ok, used_seg. destruct (s_chunks s) as [|m ms]; [intros _ []|]. intros O [U|(m' & I & W)].
  - exists m. split; [now left|]. unfold within. lia.
  - exists m'. split; [now right|exact W].
Qed.

(** ** Engines inside a call *)

Definition ent_ok (e : engine) : Prop := forall n g, find_name n (e_entries e) = Some g -> exists a, find_name n (e_symbols e) = Some a /\
  holds (e_mem e) g 8 a /\ (8 | g) /\ forall x, g <= x < g + 8 -> used_seg (e_table e) x.

Record mid (e : engine) : Prop := {
  md_shaped : shaped (mappings e);
  md_ok_t : seg_ok (e_table e); md_ok_ro : seg_ok (e_ro e); md_ok_rw : seg_ok (e_rw e); md_ok_rx : seg_ok (e_rx e);
  md_p_t : s_protect (e_table e) = ReadOnly; md_p_ro : s_protect (e_ro e) = ReadOnly;
  md_p_rw : s_protect (e_rw e) = ReadWrite; md_p_rx : s_protect (e_rx e) = ReadExec;
  md_table : seg_prot (e_table e); md_rw : seg_prot (e_rw e); md_ro : seg_prot_tl (e_ro e); md_rx : seg_prot_tl (e_rx e);
  md_off_t : (8 | s_offset (e_table e));
  md_off_ro : (16 | s_offset (e_ro e)); md_off_rw : (16 | s_offset (e_rw e)); md_off_rx : (16 | s_offset (e_rx e));
  md_entries : ent_ok e }.

Definition inv (e : engine) : Prop := mid e /\ seg_prot (e_ro e) /\ seg_prot (e_rx e).

Lemma inv_new mem : inv (new_engine mem).
Proof.
  split; [|split; intros m []]. constructor; try reflexivity; try (now exists 0); try (intros m []); try (intros n g; discriminate).
  split; constructor.
Qed.

Lemma inv_protected e : inv e -> protected e.
Proof. intros [M [R X]]. destruct M. unfold protected, seg_prot in *. rewrite md_p_t0, md_p_ro0, md_p_rw0, md_p_rx0 in *. tauto. Qed.

Lemma shaped_divides ms m a : shaped ms -> In m ms -> (a | 16) -> (a | m_ptr m).
Proof.
  intros [_ G] I D. rewrite Forall_forall in G. specialize (G (area m) (in_map area _ _ I)). destruct G as (_ & _ & G). cbn in G.
  apply Z.mod_divide in G; [|lia]. eapply Z.divide_trans; eauto.
Qed.

Lemma in_mappings_t e m : In m (s_chunks (e_table e)) -> In m (mappings e).
Proof. unfold mappings. rewrite !in_app_iff. tauto. Qed.
Lemma in_mappings_ro e m : In m (s_chunks (e_ro e)) -> In m (mappings e).
Proof. unfold mappings. rewrite !in_app_iff. tauto. Qed.
Lemma in_mappings_rw e m : In m (s_chunks (e_rw e)) -> In m (mappings e).
Proof. unfold mappings. rewrite !in_app_iff. tauto. Qed.
Lemma in_mappings_rx e m : In m (s_chunks (e_rx e)) -> In m (mappings e).
Proof. unfold mappings. rewrite !in_app_iff. tauto. Qed.

Definition others (e : engine) : list mmap := s_chunks (e_ro e) ++ s_chunks (e_rw e) ++ s_chunks (e_rx e).

Lemma table_apart e m x : mid e -> In m (others e) -> within m x -> used_seg (e_table e) x -> False.
Proof.
  intros M I W U. apply used_within in U; [|apply (md_ok_t _ M)]. destruct U as (m' & I' & W').
  exact (shaped_apart (s_chunks (e_table e)) (others e) m' m x (md_shaped _ M) I' I W' W).
Qed.

(** ** Memory *)

Lemma write_mem_in mem a bs i b : nth_error bs (Z.to_nat i) = Some b -> 0 <= i -> write_mem mem a bs (a + i) = b.
Proof.
  intros N P. unfold write_mem. assert (Z.to_nat i < List.length bs)%nat by (apply nth_error_Some; congruence).
  assert ((a <=? a + i) && (a + i <? a + Z.of_nat (List.length bs)) = true) as ->.
  { apply andb_true_intro. split; [apply Z.leb_le|apply Z.ltb_lt]; lia. }
  replace (a + i - a) with i by lia. now apply nth_error_nth.
Qed.

Lemma write_mem_out mem a bs x : ~ a <= x < a + Z.of_nat (List.length bs) -> write_mem mem a bs x = mem x.
Proof.
  intro H. unfold write_mem. destruct (Z.leb_spec a x); [|reflexivity]. destruct (Z.ltb_spec x (a + Z.of_nat (List.length bs))); [lia|reflexivity].
Qed.

Lemma holds_bytes mem a n v : holds (write_mem mem a (le_bytes n v)) a (Z.of_nat n) v.
Proof.
  intros i I. apply write_mem_in; [|lia]. rewrite le_bytes_nth by lia. now rewrite Z2Nat.id by lia.
Qed.

Lemma holds_frame mem mem' a n v : (forall x, a <= x < a + n -> mem' x = mem x) -> holds mem a n v -> holds mem' a n v.
Proof. intros F H i I. rewrite F by lia. now apply H. Qed.

Definition area_writable (ms : list mmap) (a n : Z) : Prop :=
  exists m, In m ms /\ m_protect m = ReadWrite /\ m_ptr m <= a /\ a + n <= m_ptr m + m_size m.

Lemma area_writable_true ms a n : area_writable ms a n -> writable ms a n = true.
Proof.
  intros (m & I & P & A & B). unfold writable. apply existsb_exists. exists m. split; [exact I|]. rewrite P. destruct (protect_dec ReadWrite ReadWrite); [|congruence].
  unfold contains. cbn. apply andb_true_intro. split; apply Z.leb_le; lia.
Qed.

Lemma area_writable_sub ms a n a' n' : area_writable ms a n -> a <= a' -> a' + n' <= a + n -> area_writable ms a' n'.
Proof. intros (m & I & P & A & B) L1 L2. exists m. repeat split; auto; lia. Qed.

Lemma area_writable_incl ms ms' a n : incl ms ms' -> area_writable ms a n -> area_writable ms' a n.
Proof. intros H (m & I & R). exists m. split; [now apply H|exact R]. Qed.

Definition with_mem (mem : Z -> N) (e : engine) : engine :=
  Engine (e_symbols e) (e_entries e) (e_table e) (e_ro e) (e_rw e) (e_rx e) mem.

Lemma store_ok e a bs : area_writable (mappings e) a (Z.of_nat (List.length bs)) -> store e a bs = Ret (with_mem (write_mem (e_mem e) a bs) e).
Proof. intro H. unfold store. now rewrite (area_writable_true _ _ _ H). Qed.

(** Memory written outside the table keeps the invariant. *)
Lemma mid_mem e mem : mid e -> (forall x, used_seg (e_table e) x -> mem x = e_mem e x) -> mid (with_mem mem e).
Proof.
  intros M F. destruct M. constructor; auto. intros n g E. destruct (md_entries0 n g E) as (a & A & H & D & U). exists a. repeat split; auto.
  cbn. refine (holds_frame _ _ _ _ _ _ H). intros x X. now apply F, U.
Qed.

(** ** How engines grow while linking *)

Record grows (e e' : engine) (W : Z -> Prop) : Prop := {
  gr_ro : e_ro e' = e_ro e; gr_rw : e_rw e' = e_rw e; gr_rx : e_rx e' = e_rx e;
  gr_used : forall x, used_seg (e_table e) x -> used_seg (e_table e') x;
  gr_symbols : forall n a, find_name n (e_symbols e) = Some a -> find_name n (e_symbols e') = Some a;
  gr_entries : forall n g, find_name n (e_entries e) = Some g -> find_name n (e_entries e') = Some g;
  gr_mem : forall x, e_mem e' x = e_mem e x \/ W x \/ (used_seg (e_table e') x /\ ~ used_seg (e_table e) x) }.

Lemma grows_refl e W : grows e e W.
Proof. constructor; auto. Qed.

Lemma grows_trans e1 e2 e3 W : grows e1 e2 W -> grows e2 e3 W -> grows e1 e3 W.
Proof.
  intros [] []. constructor; try congruence; auto.
  intro x. destruct (gr_mem1 x) as [E|[E|[E1 E2]]]; [|now right; left|].
  - destruct (gr_mem0 x) as [E'|[E'|[E1 E2]]]; [left; congruence|now right; left|]. right; right. split; auto.
  - right; right. split; auto.
Qed.

Lemma grows_weaken e e' (W W' : Z -> Prop) : (forall x, W x -> W' x) -> grows e e' W -> grows e e' W'.
Proof. intros H []. constructor; auto. intro x. destruct (gr_mem0 x) as [E|[E|E]]; auto. Qed.

Lemma grows_others e e' W : grows e e' W -> others e' = others e.
Proof. intros []. unfold others. congruence. Qed.

Ltac same := split; [reflexivity|]; split; [assumption|]; split; [apply grows_refl|]; auto.

Definition nothing (x : Z) : Prop := False.

Section OS.
Variable os : list mmap -> Z -> option Z.
Hypothesis Honest : honest os.

(** ** The table of addresses *)

Lemma put_ok p e : mid e -> exists e' r, put os p e = Ret (e', r) /\ mid e' /\ grows e e' nothing /\ e_symbols e' = e_symbols e /\ e_entries e' = e_entries e /\
  match r with
  | inl g => holds (e_mem e') g 8 p /\ (8 | g) /\ forall x, g <= x < g + 8 -> used_seg (e_table e') x
  | inr _ => True
  end.
Proof.
  intro M. unfold put. destruct (allocate os (mappings e) 8 (e_table e)) as [[s part]|] eqn:A.
  2: { exists e, (inr EMmap). same. }
  assert (ShT : shaped (s_chunks (e_table e))) by exact (shaped_app_l _ _ (md_shaped _ M)).
  apply allocate_ok in A; auto; [|apply M|lia|intros m; apply in_mappings_t].
  pose proof (al_protect _ _ _ _ _ A) as Pp. rewrite (md_p_t _ M) in Pp.
  destruct (al_part _ _ _ _ _ A ltac:(lia)) as (m & ms' & Em & Ep & Of). pose proof (al_ok _ _ _ _ _ A) as Oks. unfold seg_ok in Oks. rewrite Em in Oks.
  set (e1 := with_table (relax s) e).
  assert (Hr : relax s = Segment (s_protect s) (set_protect ReadWrite m :: ms') (s_offset s)) by (unfold relax, protect_last; now rewrite Em).
  assert (Wr : area_writable (mappings e1) (as_ptr part) (Z.of_nat (List.length (le_bytes 8 p)))).
  { rewrite le_bytes_length. exists (set_protect ReadWrite m). split; [|split; [reflexivity|]].
    - apply in_mappings_t. cbn. rewrite Hr. now left.
    - cbn [m_ptr set_protect]. change (m_size (set_protect ReadWrite m)) with (m_size m). cbn [Z.of_nat Pos.of_succ_nat Pos.succ]. lia. }
  rewrite (store_ok _ _ _ Wr). cbn [Base.bind].
  set (e2 := with_table (restore (relax s)) (with_mem (write_mem (e_mem e) (as_ptr part) (le_bytes 8 p)) e)).
  assert (As : map area (s_chunks (restore (relax s))) = map area (s_chunks s)) by (unfold restore, relax; now rewrite !protect_last_areas).
  assert (Os : s_offset (restore (relax s)) = s_offset s) by (unfold restore, relax; now rewrite !protect_last_offset).
  assert (Us : forall x, used_seg (restore (relax s)) x <-> used_seg s x) by (intro x; unfold restore, relax; now rewrite !used_protect).
  assert (Prs : seg_prot s).
  { intros m' I'. destruct (al_chunks _ _ _ _ _ A) as [E|(m0 & E & Pm & _)]; rewrite E in I'; rewrite Pp; [rewrite <- (md_p_t _ M); now apply (md_table _ M)|].
    destruct I' as [<-|I']; [rewrite Pm; apply (md_p_t _ M)|rewrite <- (md_p_t _ M); now apply (md_table _ M)]. }
  assert (Mem : forall x, used_seg (e_table e) x -> e_mem e2 x = e_mem e x).
  { intros x U. unfold e2. cbn [e_mem with_table with_mem]. apply write_mem_out. rewrite le_bytes_length. intro B. apply (al_fresh _ _ _ _ _ A x B U). }
  assert (Sh2 : shaped (mappings e2)).
  { apply (shaped_same (mappings (with_table s e))); [unfold mappings; cbn; rewrite !map_app; now rewrite As|].
    exact (allocated_shaped [] (others e) (e_table e) s part 8 A (md_shaped _ M)). }
  assert (Uall : forall x, used_seg (e_table e) x -> used_seg (e_table e2) x) by (intros x U; cbn; apply Us, (al_used _ _ _ _ _ A), U).
  exists e2, (inl (as_ptr part)). split; [reflexivity|]. split; [|split; [|split; [reflexivity|split; [reflexivity|]]]].
  - destruct M. constructor; auto; try exact Sh2.
    + cbn. unfold restore, relax. apply ok_protect, ok_protect, A.
    + cbn. unfold restore, relax. now rewrite !protect_last_protect.
    + cbn. apply restore_prot. unfold relax. apply protect_last_tl, prot_tl, Prs.
    + cbn. rewrite Os. apply (al_offset _ _ _ _ _ A); try lia; auto; [exists 512; reflexivity|exists 1; reflexivity].
    + intros n g E. destruct (md_entries0 n g E) as (a & Ea & H & D & U). exists a. repeat split; auto.
      refine (holds_frame _ _ _ _ _ _ H). intros x X. now apply Mem, U.
  - constructor; auto. intro x. destruct (Z_le_dec (as_ptr part) x) as [L1|L1]; [destruct (Z_lt_dec x (as_ptr part + 8)) as [L2|L2]|].
    + right; right. split; [cbn; apply Us, (al_new _ _ _ _ _ A); lia|]. apply (al_fresh _ _ _ _ _ A). lia.
    + left. unfold e2. cbn [e_mem with_table with_mem]. apply write_mem_out. rewrite le_bytes_length. lia.
    + left. unfold e2. cbn [e_mem with_table with_mem]. apply write_mem_out. rewrite le_bytes_length. lia.
  - split; [exact (holds_bytes (e_mem e) (as_ptr part) 8 p)|]. split.
    + apply (al_align _ _ _ _ _ A); try lia; [exists 512; reflexivity|apply M|].
      intros m' I'. assert (ShS : shaped (s_chunks s)) by exact (shaped_app_l (s_chunks s) (others e) (allocated_shaped [] (others e) (e_table e) s part 8 A (md_shaped _ M))).
      apply (shaped_divides (s_chunks s)); auto. exists 2. reflexivity.
    + intros x X. cbn. apply Us, (al_new _ _ _ _ _ A). exact X.
Qed.

Lemma prepare_ok n e : mid e -> exists e' r, prepare os n e = Ret (e', r) /\ mid e' /\ grows e e' nothing /\ e_symbols e' = e_symbols e /\
  match r with inl (Some g) => find_name n (e_entries e') = Some g | inl None => find_name n (e_symbols e) = None | inr _ => True end.
Proof.
  intro M. unfold prepare. destruct (find_name n (e_entries e)) as [g|] eqn:En.
  { exists e, (inl (Some g)). same. }
  destruct (find_name n (e_symbols e)) as [p|] eqn:Es.
  2: { exists e, (inl None). same. }
  destruct (put_ok p e M) as (e1 & r & -> & M1 & G1 & S1 & E1 & R1). unfold and_then. cbn [Base.bind fst snd].
  destruct r as [g|x]; [|exists e1, (inr x); auto].
  destruct R1 as (H & D & U). exists (with_entries ((n, g) :: e_entries e1) e1), (inl (Some g)). split; [reflexivity|].
  assert (Key : forall n' g', find_name n' (e_entries e1) = Some g' -> find_name n' ((n, g) :: e_entries e1) = Some g').
  { intros n' g' F. cbn. destruct (String.eqb_spec n' n) as [->|]; [rewrite E1 in F; congruence|exact F]. }
  split; [|split; [|split]].
  - destruct M1. constructor; auto. intros n' g' F. cbn in F |- *. destruct (String.eqb_spec n' n) as [->|Ne]; [|now apply md_entries0].
    injection F as <-. exists p. rewrite S1. auto.
  - destruct G1. constructor; auto; cbn; auto.
  - exact S1.
  - cbn. now rewrite String.eqb_refl.
Qed.

(** ** Relocations *)

Definition lk_of (k : locator) (ls : list (string * Z)) (e : engine) : linking :=
  Linking (base k) (fun n => match find_name n ls with Some p => Some p | None => find_name n (e_symbols e) end) (fun n => find_name n (e_entries e)).

Lemma reloc_value_grows k ls e e' W r v : grows e e' W -> reloc_value (lk_of k ls e) r = Some v -> reloc_value (lk_of k ls e') r = Some v.
Proof.
  intros G. unfold reloc_value. destruct (r_type r), (r_target r) as [n|s]; cbn; auto; try discriminate.
  all: try (destruct (find_name n ls); [solve [auto]|]).
  all: try (destruct (find_name n (e_symbols e)) as [a|] eqn:E; [rewrite (gr_symbols _ _ _ G n a E); auto|discriminate]).
  destruct (find_name n (e_entries e)) as [a|] eqn:E; [rewrite (gr_entries _ _ _ G n a E); auto|discriminate].
Qed.

Definition field (k : locator) (r : reloc) (x : Z) : Prop := locate k (r_location r) <= x < locate k (r_location r) + width (r_type r).
Definition field_ok (k : locator) (e : engine) (r : reloc) : Prop := area_writable (others e) (locate k (r_location r)) (width (r_type r)).

Lemma others_incl e : incl (others e) (mappings e).
Proof. intros m I. unfold others, mappings in *. rewrite in_app_iff. now right. Qed.

Lemma store_field k e r n v : mid e -> field_ok k e r -> Z.of_nat n = width (r_type r) ->
  exists e', store e (locate k (r_location r)) (le_bytes n v) = Ret e' /\ mid e' /\ grows e e' (field k r) /\
    e_symbols e' = e_symbols e /\ e_entries e' = e_entries e /\ holds (e_mem e') (locate k (r_location r)) (width (r_type r)) v.
Proof.
  intros M F N. rewrite store_ok.
  2: { rewrite le_bytes_length, N. exact (area_writable_incl _ _ _ _ (others_incl e) F). }
  eexists. split; [reflexivity|]. split; [|split; [|split; [reflexivity|split; [reflexivity|]]]].
  - apply mid_mem; auto. intros x U. apply write_mem_out. rewrite le_bytes_length, N. intro B. destruct F as (m & I & _ & A1 & A2).
    apply (table_apart e m x M I); [unfold within; lia|exact U].
  - constructor; auto. intro x. cbn [e_mem with_mem]. destruct (Z_le_dec (locate k (r_location r)) x) as [L1|L1]; [destruct (Z_lt_dec x (locate k (r_location r) + width (r_type r))) as [L2|L2]|].
    + right; left. split; lia.
    + left. apply write_mem_out. rewrite le_bytes_length, N. lia.
    + left. apply write_mem_out. rewrite le_bytes_length, N. lia.
  - rewrite <- N. apply holds_bytes.
Qed.

Lemma target_direct_ok k ls r e : exists y, target_direct k ls r e = Ret (e, y) /\
  forall s, y = inl s -> match r_target r with Symbol n => address (lk_of k ls e) n | Section s => Some (base k s) end = Some s.
Proof.
  unfold target_direct, locate. destruct (r_target r) as [n|s].
  - cbn. destruct (find_name n ls) as [p|]; [|destruct (find_name n (e_symbols e)) as [p|]]; eexists; (split; [reflexivity|]); intros s [=<-]; reflexivity.
  - eexists; split; [reflexivity|]. intros s' [=<-]. cbn. now rewrite Z.add_0_r.
Qed.

Lemma relocate_ok k ls r e : mid e -> field_ok k e r -> exists e' x, relocate os k ls r e = Ret (e', x) /\ mid e' /\ grows e e' (field k r) /\ e_symbols e' = e_symbols e /\
  match x with inl _ => exists v, reloc_value (lk_of k ls e') r = Some v /\ holds (e_mem e') (locate k (r_location r)) (width (r_type r)) v | inr _ => True end.
Proof.
  intros M F. unfold relocate. destruct (r_type r) eqn:Ty.
  1,2,4: destruct (target_direct_ok k ls r e) as (y & -> & Hy); unfold and_then; cbn [Base.bind fst snd]; destruct y as [s|err];
      [|exists e, (inr err); same].
  - destruct (_ && _); [exists e, (inr EOffsetOutOfRange); same|].
    destruct (store_field k e r 1 (s + r_addend r - locate k (r_location r)) M F ltac:(now rewrite Ty)) as (e' & -> & M' & G & Sy & En & H). cbn [Base.bind].
    exists e', (inl tt). split; [reflexivity|]; split; [exact M'|]; split; [exact G|]; split; [exact Sy|]. exists (s + r_addend r - locate k (r_location r)). split; [|now rewrite Ty in H].
    apply (reloc_value_grows _ _ _ _ _ _ _ G). unfold reloc_value. rewrite Ty. cbn [place lk_of]. rewrite (Hy s eq_refl). reflexivity.
  - destruct (_ && _); [exists e, (inr EOffsetOutOfRange); same|].
    destruct (store_field k e r 4 (s + r_addend r - locate k (r_location r)) M F ltac:(now rewrite Ty)) as (e' & -> & M' & G & Sy & En & H). cbn [Base.bind].
    exists e', (inl tt). split; [reflexivity|]; split; [exact M'|]; split; [exact G|]; split; [exact Sy|]. exists (s + r_addend r - locate k (r_location r)). split; [|now rewrite Ty in H].
    apply (reloc_value_grows _ _ _ _ _ _ _ G). unfold reloc_value. rewrite Ty. cbn [place lk_of]. rewrite (Hy s eq_refl). reflexivity.
  - destruct (store_field k e r 8 (s + r_addend r) M F ltac:(now rewrite Ty)) as (e' & -> & M' & G & Sy & En & H). cbn [Base.bind].
    exists e', (inl tt). split; [reflexivity|]; split; [exact M'|]; split; [exact G|]; split; [exact Sy|]. exists (s + r_addend r). split; [|now rewrite Ty in H].
    apply (reloc_value_grows _ _ _ _ _ _ _ G). unfold reloc_value. rewrite Ty. cbn [place lk_of]. rewrite (Hy s eq_refl). reflexivity.
  - unfold target_entry. destruct (r_target r) as [n|s] eqn:Tg.
    2: { exists e, (inr EUnsupportedSectionRelocation). unfold and_then. cbn. same. }
    destruct (prepare_ok n e M) as (e1 & y & -> & M1 & G1 & S1 & R1). unfold and_then. cbn [Base.bind fst snd].
    assert (G1' : grows e e1 (field k r)) by (revert G1; apply grows_weaken; intros x []).
    destruct y as [[g|]|err].
    2: { exists e1, (inr (EUndefinedSymbol n)). cbn. auto. }
    2: { exists e1, (inr err). cbn. auto. }
    unfold ok. cbn [Base.bind fst snd]. destruct (_ && _); [exists e1, (inr EOffsetOutOfRange); cbn; auto|].
    assert (F1 : field_ok k e1 r) by (unfold field_ok; rewrite (grows_others _ _ _ G1); exact F).
    destruct (store_field k e1 r 4 (g + r_addend r - locate k (r_location r)) M1 F1 ltac:(now rewrite Ty)) as (e' & Es & M' & G & Sy & En & H).
    rewrite Es. cbn [Base.bind]. exists e', (inl tt). split; [reflexivity|]. split; [exact M'|]. split; [exact (grows_trans _ _ _ _ G1' G)|]. split; [congruence|].
    exists (g + r_addend r - locate k (r_location r)). split; [|now rewrite Ty in H].
    unfold reloc_value. rewrite Ty, Tg. cbn. rewrite En, R1. reflexivity.
Qed.

Lemma relocate_all_ok k ls : forall rs e, mid e -> Forall (field_ok k e) rs ->
  exists e' x, relocate_all os k ls rs e = Ret (e', x) /\ mid e' /\ grows e e' (fun a => exists r, In r rs /\ field k r a) /\ e_symbols e' = e_symbols e /\
  (x = inl tt -> ForallOrdPairs (fun r q => forall a, field k r a -> ~ field k q a) rs ->
    forall r, In r rs -> exists v, reloc_value (lk_of k ls e') r = Some v /\ holds (e_mem e') (locate k (r_location r)) (width (r_type r)) v).
Proof.
  induction rs as [|r rs IH]; intros e M F; cbn [relocate_all].
  { exists e, (inl tt). split; [reflexivity|]. split; [exact M|]. split; [apply grows_refl|]. split; [reflexivity|]. intros _ _ r []. }
  inversion F as [|? ? F1 F2]; subst. destruct (relocate_ok k ls r e M F1) as (e1 & y & -> & M1 & G1 & S1 & R1). unfold and_then. cbn [Base.bind fst snd].
  assert (G1' : grows e e1 (fun a => exists r', In r' (r :: rs) /\ field k r' a)) by (revert G1; apply grows_weaken; intros x X; exists r; split; [now left|exact X]).
  destruct y as [[]|err]; [|exists e1, (inr err); split; [reflexivity|]; split; [exact M1|]; split; [exact G1'|]; split; [exact S1|discriminate]].
  assert (F2' : Forall (field_ok k e1) rs) by (revert F2; apply Forall_impl; intros q; unfold field_ok; now rewrite (grows_others _ _ _ G1)).
  destruct (IH e1 M1 F2') as (e2 & y & -> & M2 & G2 & S2 & R2). exists e2, y. split; [reflexivity|]. split; [exact M2|].
  assert (G2' : grows e1 e2 (fun a => exists r', In r' (r :: rs) /\ field k r' a)) by (revert G2; apply grows_weaken; intros x (q & I & X); exists q; split; [now right|exact X]).
  split; [exact (grows_trans _ _ _ _ G1' G2')|]. split; [congruence|]. intros -> P. inversion P as [|? ? P1 P2]; subst. intros q [<-|I]; [|now apply R2].
  destruct R1 as (v & V & H). exists v. split; [exact (reloc_value_grows _ _ _ _ _ _ _ G2 V)|]. refine (holds_frame _ _ _ _ _ _ H).
  intros x X. destruct (gr_mem _ _ _ G2 x) as [E|[(q & I & Xq)|[U _]]]; [exact E| |].
  - rewrite Forall_forall in P1. exfalso. exact (P1 q I x X Xq).
  - exfalso. assert (F1' : field_ok k e2 r) by (unfold field_ok; rewrite (grows_others _ _ _ G2), (grows_others _ _ _ G1); exact F1).
    destruct F1' as (m & Im & _ & A1 & A2). apply (table_apart e2 m x M2 Im); [unfold within; lia|exact U].
Qed.

End OS.

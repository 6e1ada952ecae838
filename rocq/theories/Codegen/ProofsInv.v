(** What holds between the parts of generated code. *)
From Coq Require Import ZArith Lia.
From Verif.Base Require Import Base.
From Verif.Ir Require Import Model RtInd.
From Verif.Layout Require Import Model Spec Proofs ProofsResolve.
From Verif.Frame Require Model.
From Verif.Frame Require Spec Proofs.
From Verif.Stack Require Import Machine Model Spec Facts Proofs ProofsValue ProofsMove.
From Verif.Codegen Require Import Model Machine Spec Facts ProofsGen ProofsFrame ProofsRun.
Local Open Scope Z_scope.

(** ** Values in general registers *)
Lemma leaf_small l : composite l = None -> cls l = Integer -> (1 <= size l <= 8)%N -> eightbytes l = [Eightbyte 0 (size l) Integer].
Proof.
  intros C E S. unfold eightbytes, num_eightbytes, eightbyte_class. rewrite C, E.
  replace ((size l + 7) / 8)%N with 1%N by (apply N.div_unique with (size l - 1)%N; lia).
  change (N.to_nat 1) with 1%nat. cbn [List.seq map]. change (N.of_nat 0 * 8)%N with 0%N. f_equal. f_equal. lia.
Qed.
Lemma leaf_two l : composite l = None -> cls l = Integer -> size l = 16%N -> eightbytes l = [Eightbyte 0 8 Integer; Eightbyte 8 8 Integer].
Proof. intros C E S. unfold eightbytes, num_eightbytes, eightbyte_class. now rewrite C, E, S. Qed.

Lemma has_small l v s : composite l = None -> cls l = Integer -> (1 <= size l <= 8)%N ->
  (has l v s <-> List.length v = length_of l /\ forall i z, nth_error v i = Some (Some z) -> byte (gp s Rax) i = z).
Proof.
  intros C E S. unfold has, value. rewrite E, (leaf_small l C E S). cbn [in_regs e_class e_offset e_size]. split.
  - intros (bs & [Lm V] & Lb & R & _). split; [lia|]. intros i z H. apply R. rewrite part_all by (unfold length_of in *; lia). apply V, H.
  - intros [Lv V]. exists (le (length_of l) (gp s Rax)).
    rewrite part_all by (rewrite le_length; unfold length_of in *; lia).
    split; [|split; [apply le_length | split; [apply in_reg_le | exact Logic.I]]].
    split; [rewrite le_length; lia|]. intros i z H. pose proof (nth_bound _ _ _ H). rewrite nth_le by lia. f_equal. apply V, H.
Qed.
Lemma has_two l v s : composite l = None -> cls l = Integer -> size l = 16%N ->
  (has l v s <-> List.length v = 16%nat /\
     (forall i z, nth_error (firstn 8 v) i = Some (Some z) -> byte (gp s Rax) i = z) /\
     (forall i z, nth_error (skipn 8 v) i = Some (Some z) -> byte (gp s Rdx) i = z)).
Proof.
  intros C E S. unfold has, value. rewrite E, (leaf_two l C E S). unfold length_of. rewrite S. change (N.to_nat 16) with 16%nat. cbn [in_regs e_class e_offset e_size]. split.
  - intros (bs & [Lm V] & Lb & R & R' & _). split; [lia|]. split; intros i z H; pose proof (nth_bound _ _ _ H) as Bd.
    + apply R. rewrite nth_firstn in H. destruct (Nat.ltb_spec i 8); [|discriminate]. rewrite nth_part. change (N.to_nat 8) with 8%nat. destruct (Nat.ltb_spec i 8); [|lia]. apply V, H.
    + apply R'. rewrite skipn_length in Bd. rewrite nth_skipn in H. rewrite nth_part. change (N.to_nat 8) with 8%nat. destruct (Nat.ltb_spec i 8); [|lia].
      apply V, H.
  - intros (Lv & V & V'). exists (le 8 (gp s Rax) ++ le 8 (gp s Rdx)).
    assert (P : part (le 8 (gp s Rax) ++ le 8 (gp s Rdx)) 0 8 = le 8 (gp s Rax)) by reflexivity.
    assert (P' : part (le 8 (gp s Rax) ++ le 8 (gp s Rdx)) 8 8 = le 8 (gp s Rdx)) by reflexivity.
    rewrite P, P'. split; [|split; [reflexivity | split; [apply in_reg_le | split; [apply in_reg_le | exact Logic.I]]]].
    rewrite <- (firstn_skipn 8 v). apply vmatch_app; (split; [rewrite le_length, ?firstn_length, ?skipn_length; lia|]); intros i z H;
      pose proof (nth_bound _ _ _ H) as Bd; rewrite ?firstn_length, ?skipn_length in Bd; rewrite nth_le by lia; f_equal; auto.
Qed.
Lemma has_unit s : has l_unit [] s.
Proof. exists []. split; [split; [reflexivity | intros i z H; destruct i; discriminate]|]. split; [reflexivity | exact Logic.I]. Qed.

Lemma nth_number n z i b : nth_error (number n z) i = Some (Some b) <-> (i < n)%nat /\ b = byte z i.
Proof.
  unfold number. rewrite nth_error_map. split.
  - destruct (nth_error (le n z) i) eqn:E; [|discriminate]. pose proof (nth_bound _ _ _ E) as Bd. rewrite le_length in Bd. rewrite nth_le in E by assumption.
    injection E as <-. cbn. intros H. injection H as <-. auto.
  - intros [Bd ->]. now rewrite nth_le.
Qed.
Lemma bytes_number z x : 0 <= z < 2 ^ 64 -> 0 <= x < 2 ^ 64 -> (forall i b, nth_error (number 8 z) i = Some (Some b) -> byte x i = b) -> x = z.
Proof.
  intros Hz Hx H. apply le_inj; [exact Hx | exact Hz|]. apply in_reg_unique with x; [apply in_reg_le | | now rewrite !le_length].
  intros i b Hi. apply H. unfold number. rewrite nth_error_map, Hi. reflexivity.
Qed.
Lemma has_pointer p s : norm s -> 0 <= p < 2 ^ 64 -> has l_pointer (pointer p) s -> gp s Rax = p.
Proof.
  intros N P H. apply has_small in H; [|reflexivity | reflexivity | cbn; lia]. apply bytes_number; [exact P | apply N; reflexivity | apply H].
Qed.
Lemma pointer_has p s : gp s Rax = p -> has l_pointer (pointer p) s.
Proof.
  intros <-. apply has_small; [reflexivity | reflexivity | cbn; lia|]. split; [apply number_length|]. intros i z H. apply nth_number in H. symmetry. apply H.
Qed.

(** ** The heap *)
Section Heap.
Variable start : Z.
Definition heap_ok (h : heap) (s : state) : Prop :=
  forall a, (h a <> None -> start <= a) /\ forall z, h a = Some (Some z) -> cell (mem s) a = z.

Lemma heap_same h s s' : (forall a, start <= a -> mem s' a = mem s a) -> heap_ok h s -> heap_ok h s'.
Proof.
  intros E H a. destruct (H a) as [A B]. split; [exact A|]. intros z Hz. unfold cell. rewrite E; [apply B, Hz|]. apply A. congruence.
Qed.
Lemma heap_reads h s p v : heap_ok h s -> reads h p v -> holds (mem s) p v.
Proof. intros H R i z Hi. apply (proj2 (H (p + Z.of_nat i))). apply R, Hi. Qed.
Lemma reads_start h s p v : heap_ok h s -> reads h p v -> v <> [] -> start <= p.
Proof.
  intros H R D. destruct v as [|o v]; [contradiction|]. pose proof (R 0%nat o eq_refl) as E. cbn in E. rewrite Z.add_0_r in E.
  apply (proj1 (H p)). congruence.
Qed.
Lemma available_start h s p n : heap_ok h s -> available h p n -> (0 < n)%nat -> start <= p.
Proof.
  intros H A L. specialize (A 0%nat L). cbn in A. rewrite Z.add_0_r in A. now apply (proj1 (H p)).
Qed.
Lemma heap_put h s s' p v : heap_ok h s -> (v <> [] -> start <= p) ->
  (forall a, start <= a -> ~ (p <= a < p + Z.of_nat (List.length v)) -> mem s' a = mem s a) ->
  holds (mem s') p v -> heap_ok (put p v h) s'.
Proof.
  intros H S E V a. unfold put. destruct (Z.leb_spec p a) as [L|L], (Z.ltb_spec a (p + Z.of_nat (List.length v))) as [L'|L']; cbn [andb].
  - assert (v <> []) by (intros ->; cbn in L'; lia). split; [intros _; specialize (S H0); lia|]. intros z Hz. injection Hz as Hz.
    replace a with (p + Z.of_nat (Z.to_nat (a - p))) by lia. apply V. rewrite nth_error_nth' with (d := None) by lia. now rewrite Hz.
  - destruct (H a) as [A B]. split; [exact A|]. intros z Hz. unfold cell. rewrite E; [apply B, Hz | apply A; congruence | lia].
  - destruct (H a) as [A B]. split; [exact A|]. intros z Hz. unfold cell. rewrite E; [apply B, Hz | apply A; congruence | lia].
  - destruct (H a) as [A B]. split; [exact A|]. intros z Hz. unfold cell. rewrite E; [apply B, Hz | apply A; congruence | lia].
Qed.
End Heap.

(** The registers a function keeps, except for the stack pointer. *)
Definition rest (s s' : state) : Prop := forall r, saved r = true -> r <> Rsp -> gp s' r = gp s r.
Lemma rest_refl s : rest s s. Proof. intros r _ _. reflexivity. Qed.
Lemma rest_trans a b c : rest a b -> rest b c -> rest a c.
Proof. intros H K r S D. rewrite (K r S D). apply H; assumption. Qed.
Lemma rest_same s s' : same_regs s s' -> rest s s'.
Proof. intros H r S D. apply H. destruct r; try discriminate S; try reflexivity. contradiction. Qed.
Lemma rest_set s r v : saved r = false -> rest s (set_gp r v s).
Proof. intros H r' S D. rewrite gp_set, gpr_eqb_neq; [reflexivity|]. intros ->. congruence. Qed.
Lemma rest_gp s s' : (forall g, g <> Rsp -> gp s' g = gp s g) -> rest s s'.
Proof. intros H r _ D. auto. Qed.

(** ** The body of a function *)
Section Body.
Variable M : machine.
Variable r : resolver.
Variable start : Z.
Variable F : nat.
Variable b : Z.
Variable offs : list (nat * Z).
Notation heap_ok := (heap_ok start).
Notation leads := (leads M).
Notation chain := (chain (type_words r) offs).
Notation placed := (placed (type_words r) offs).

Definition lev (n : nat) : Z := b - 8 * Z.of_nat n.
Definition kept (lo : nat) (d : Z) (hi : nat) (s s' : state) : Prop :=
  forall a, b - 8 * d <= a < start -> ~ (lev hi <= a < lev lo) -> mem s' a = mem s a.

Definition vars_ok (G : env) (n : nat) (s : state) : Prop :=
  forall id v, find G id = Some v ->
  exists o, find offs id = Some o /\ lev n <= b + o /\ b + o + Z.of_nat (List.length v) <= start /\ holds (mem s) (b + o) v.

(** What is known of a continuation: its parameters are between the levels [k_j] and [k_hi], and all
    that is done from where it is introduced is between [k_lo] and [k_hi]. *)
Record kont := Kont { k_cont : local_cont; k_params : list param; k_lo : nat; k_j : nat; k_hi : nat }.
Definition konts := list (nat * kont).
Definition kont_ok (n m : nat) (d : Z) (k : kont) : Prop :=
  c_params (k_cont k) = map fst (k_params k) /\ (k_lo k <= n)%nat /\ (m <= k_j k)%nat /\
  (exists i, chain (k_j k) (k_params k) i /\ (i <= k_hi k)%nat) /\
  Z.of_nat (k_hi k) <= c_depth (k_cont k) <= d /\
  exists q, find_label (c_label (k_cont k)) (code_of M F) = Some q.
Definition konts_ok (K : konts) (ks : Frame.Spec.conts) (n m : nat) (g : gstate) : Prop :=
  (forall k c, find K k = Some c -> find (conts g) k = Some (k_cont c) /\ kont_ok n m (depth g) c) /\
  (forall k ps, find ks k = Some ps -> exists c, find K k = Some c /\ k_params c = ps).

Record Inv {W} (K : konts) (G : env) (ks : Frame.Spec.conts) (n m : nat) (g : gstate) (w : W * heap) (s : state) : Prop := {
  i_rbp : gp s Rbp = b;
  i_rsp : gp s Rsp = b - 8 * depth g;
  i_levels : (n <= m)%nat;
  i_depth : Z.of_nat m <= depth g;
  i_norm : norm s;
  i_heap : heap_ok (snd w) s;
  i_vars : vars_ok G n s;
  i_konts : konts_ok K ks n m g }.

(** Between [s0], with [g0], and [s], with [g]. *)
Record At {W} (K : konts) (G : env) (ks : Frame.Spec.conts) (n m : nat) (g0 : gstate) (s0 : state)
    (g : gstate) (w : W * heap) (s : state) : Prop := {
  a_inv : Inv K G ks n m g w s;
  a_from : konts_ok K ks n m g0;
  a_levels : Z.of_nat m <= depth g0;
  a_kept : kept n (depth g0) m s0 s;
  a_rest : rest s0 s;
  a_depth : depth g0 <= depth g;
  a_conts : conts g = conts g0 }.

Lemma kept_refl lo d hi s : kept lo d hi s s. Proof. intros a _ _. reflexivity. Qed.
Lemma kept_trans lo d hi s s' s'' d' : kept lo d hi s s' -> kept lo d' hi s' s'' -> d <= d' -> kept lo d hi s s''.
Proof. intros H K L a A N. rewrite K by (lia || exact N). now apply H. Qed.
Lemma kept_mono lo d hi lo' d' hi' s s' : kept lo d hi s s' -> (lo' <= lo)%nat -> (hi <= hi')%nat -> d' <= d -> kept lo' d' hi' s s'.
Proof. intros H L U D a A N. apply H; unfold lev in *; lia. Qed.

Section World.
Variable W : Type.
Implicit Types w : W * heap.

Lemma at_refl K G ks n m g w s : Inv K G ks n m g w s -> At K G ks n m g s g w s.
Proof.
  intros H. split; [exact H | apply H | apply H | apply kept_refl | apply rest_refl | lia | reflexivity].
Qed.
Lemma vars_kept G n m d s s' : kept n d m s s' -> Z.of_nat n <= d -> vars_ok G n s -> vars_ok G n s'.
Proof.
  intros H L V id v Hf. destruct (V id v Hf) as (o & E & A & B & C). exists o. split; [exact E|]. split; [exact A|]. split; [exact B|].
  eapply holds_ext; [exact C|]. intros i Hi. apply H; unfold lev in *; lia.
Qed.
Lemma konts_later K ks n m g g' : konts_ok K ks n m g -> depth g <= depth g' -> conts g' = conts g -> konts_ok K ks n m g'.
Proof.
  intros [A B] D E. split; [|exact B]. intros k c H. destruct (A k c H) as (Hf & H1 & H2 & H3 & H4 & H5 & H6). split; [congruence|].
  unfold kont_ok. repeat (split; [assumption|]). split; [lia | assumption].
Qed.

(** A later point. *)
Lemma at_later K G ks n m g0 s0 g w s g' w' s' : At K G ks n m g0 s0 g w s ->
  kept n (depth g0) m s s' -> rest s s' -> norm s' -> heap_ok (snd w') s' -> gp s' Rsp = b - 8 * depth g' ->
  depth g0 <= depth g' -> conts g' = conts g -> At K G ks n m g0 s0 g' w' s'.
Proof.
  intros [I Fr Lv Kp Re De Co] Kp' Re' No He Rs De' Co'. split.
  - destruct I. split; try assumption.
    + rewrite Re' by (reflexivity || discriminate). assumption.
    + lia.
    + eapply vars_kept; [exact Kp' | lia | assumption].
    + eapply konts_later; [exact Fr | exact De' | congruence].
  - exact Fr.
  - exact Lv.
  - eapply kept_trans; [exact Kp | exact Kp' | lia].
  - eapply rest_trans; eassumption.
  - exact De'.
  - congruence.
Qed.
Lemma at_top K G ks n m g0 s0 g w s : At K G ks n m g0 s0 g w s -> b <= start -> gp s Rsp <= b - 8 * depth g0 <= start.
Proof. intros [I Fr Lv Kp Re De Co] B. rewrite (i_rsp _ _ _ _ _ _ _ _ I). lia. Qed.

(** Instructions that write to the free part of the stack only. *)
Lemma at_stack K G ks n m g0 s0 g w s g' lo hi s' : b <= start -> At K G ks n m g0 s0 g w s ->
  same_outside lo hi s s' -> hi <= b - 8 * depth g0 -> rest s s' -> norm s' ->
  gp s' Rsp = b - 8 * depth g' -> depth g0 <= depth g' -> conts g' = conts g -> At K G ks n m g0 s0 g' w s'.
Proof.
  intros B A So Hi Re No Rs De Co. eapply at_later; try eassumption.
  - intros a Ha _. apply So. lia.
  - apply heap_same with s; [|apply A]. intros a Ha. apply So. pose proof (a_levels _ _ _ _ _ _ _ _ _ _ A). lia.
Qed.
Lemma at_regs K G ks n m g0 s0 g w s s' : b <= start -> At K G ks n m g0 s0 g w s ->
  mem s' = mem s -> gp s' Rsp = gp s Rsp -> rest s s' -> norm s' -> At K G ks n m g0 s0 g w s'.
Proof.
  intros B A E Rs Re No. eapply at_later; try eassumption.
  - intros a _ _. now rewrite E.
  - apply heap_same with s; [|apply A]. intros a _. now rewrite E.
  - rewrite Rs. apply A.
  - apply A.
  - reflexivity.
Qed.

(** ** How evaluation ends *)
Definition param_at (mm : Z -> Z) (j hi : nat) (p : param) (v : val) : Prop :=
  exists o, find offs (fst p) = Some o /\ lev hi <= b + o /\ b + o + Z.of_nat (List.length v) <= lev j /\ holds mm (b + o) v.
Definition jumped (K : konts) (k : nat) (vs : list val) (w' : memo M * heap) (s : state) (cf : config (memo M)) : Prop :=
  exists s' c q, find K k = Some c /\ find_label (c_label (k_cont c)) (code_of M F) = Some q /\
  cf = Config F q s' (fst w') /\ gp s' Rsp = b - 8 * c_depth (k_cont c) /\ norm s' /\ heap_ok (snd w') s' /\
  kept (k_lo c) (c_depth (k_cont c)) (k_hi c) s s' /\ rest s s' /\
  Forall2 (param_at (mem s') (k_j c) (k_hi c)) (k_params c) vs.
Definition returned (n : nat) (l : layout) (v : val) (w' : memo M * heap) (s : state) (cf : config (memo M)) : Prop :=
  exists s' q, find_label 0 (code_of M F) = Some q /\ cf = Config F q s' (fst w') /\ good l /\ has l v s' /\
  norm s' /\ heap_ok (snd w') s' /\ rest s s' /\ gp s' Rsp + taken l <= lev n /\
  forall a, lev n <= a < start -> mem s' a = mem s a.
Definition leaves (K : konts) (n : nat) (o : result) (w' : memo M * heap) (s : state) (cf : config (memo M)) : Prop :=
  match o with
  | OVal _ _ => False
  | OJump k vs => jumped K k vs w' s cf
  | ORet l v => returned n l v w' s cf
  end.
End World.

Lemma leaves_back K ks n m g0 s0 s o w' cf : konts_ok K ks n m g0 -> (n <= m)%nat -> Z.of_nat m <= depth g0 ->
  kept n (depth g0) m s0 s -> rest s0 s -> leaves K n o w' s cf -> leaves K n o w' s0 cf.
Proof.
  intros [Fr _] Le Lv Kp Re H. destruct o as [|k vs|l v]; cbn in *; [exact H | |].
  - destruct H as (s' & c & q & Ek & El & E & Rs & No & He & Ke & Rt & Ps).
    destruct (Fr k c Ek) as (_ & _ & Hlo & Hj & (i & Hc & Hi) & Hd & _). apply chain_le in Hc.
    exists s', c, q. repeat (split; [assumption|]). split; [|split; [eapply rest_trans; eassumption | exact Ps]].
    intros a Ha Hn. rewrite Ke by assumption. apply Kp; [lia|]. unfold lev in *. lia.
  - destruct H as (s' & q & El & E & Gl & Hv & No & He & Rt & Rs & Ke).
    exists s', q. repeat (split; [assumption|]). split; [eapply rest_trans; eassumption|]. split; [exact Rs|].
    intros a Ha. rewrite Ke by exact Ha. apply Kp; unfold lev in *; lia.
Qed.
Lemma leaves_from K G ks n m g0 s0 g (w : memo M * heap) s o w' cf : At K G ks n m g0 s0 g w s -> leaves K n o w' s cf -> leaves K n o w' s0 cf.
Proof.
  intros [I Fr Lv Kp Re De Co]. eapply leaves_back; try eassumption. apply I.
Qed.
(** The same from within other levels. *)
Lemma leaves_level K n n' o w' s cf : (n <= n')%nat -> leaves K n' o w' s cf -> leaves K n o w' s cf.
Proof.
  intros L H. destruct o as [|k vs|l v]; cbn in *; try exact H.
  destruct H as (s' & q & El & E & Gl & Hv & No & He & Rt & Rs & Ke).
  exists s', q. repeat (split; [assumption|]). unfold lev in *. split; [lia|]. intros a Ha. apply Ke. lia.
Qed.
End Body.

Arguments i_rbp {M r start F b offs W K G ks n m g w s}. Arguments i_rsp {M r start F b offs W K G ks n m g w s}.
Arguments i_levels {M r start F b offs W K G ks n m g w s}. Arguments i_depth {M r start F b offs W K G ks n m g w s}.
Arguments i_norm {M r start F b offs W K G ks n m g w s}. Arguments i_heap {M r start F b offs W K G ks n m g w s}.
Arguments i_vars {M r start F b offs W K G ks n m g w s}. Arguments i_konts {M r start F b offs W K G ks n m g w s}.
Arguments a_inv {M r start F b offs W K G ks n m g0 s0 g w s}. Arguments a_from {M r start F b offs W K G ks n m g0 s0 g w s}.
Arguments a_levels {M r start F b offs W K G ks n m g0 s0 g w s}. Arguments a_kept {M r start F b offs W K G ks n m g0 s0 g w s}.
Arguments a_rest {M r start F b offs W K G ks n m g0 s0 g w s}. Arguments a_depth {M r start F b offs W K G ks n m g0 s0 g w s}.
Arguments a_conts {M r start F b offs W K G ks n m g0 s0 g w s}.
Arguments at_refl {M r start F b offs W K G ks n m g w s}.

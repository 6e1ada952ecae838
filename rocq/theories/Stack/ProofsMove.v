(** Moving values inside the stack: parts of structures, reinterpretation. *)
From Coq Require Import ZArith Lia.
From Verif.Base Require Import Base.
From Verif.Ir Require Import Model.
From Verif.Layout Require Import Model Spec Proofs ProofsResolve.
From Verif.Stack Require Import Machine Model Spec Facts Proofs ProofsValue.
Local Open Scope Z_scope.

Lemma slide_one_ok l src dst bs i s : List.length bs = length_of l -> (8 * N.of_nat i < size l)%N ->
  in_mem (mem s) (gp s Rsp + Z.of_N src + 8 * Z.of_nat i) (part bs (8 * N.of_nat i) 8) ->
  let s' := run (fst (slide_one src dst l i)) s in
  in_mem (mem s') (gp s Rsp + Z.of_N dst + 8 * Z.of_nat i) (part bs (8 * N.of_nat i) 8) /\
  same_outside (gp s Rsp + Z.of_N dst + 8 * Z.of_nat i)
    (gp s Rsp + Z.of_N dst + Z.min (Z.of_N (size l)) (8 * Z.of_nat i + 8)) s s' /\
  (forall g, g <> R10 -> g <> R11 -> gp s' g = gp s g) /\ xm s' = xm s.
Proof.
  intros Ll Hi H. unfold slide_one. cbn [fst andthen load_eightbyte store_eightbyte keep]. cbv zeta.
  change tmp2 with R11. rewrite run_app.
  set (n := N.min (size l - N.of_nat i * 8) 8). assert (Hn : (1 <= n <= 8)%N) by (subst n; lia).
  unfold length_of in Ll.
  assert (P : part bs (8 * N.of_nat i) 8 = part bs (8 * N.of_nat i) n).
  { rewrite <- (part_trim bs _ 8). f_equal. subst n. lia. }
  rewrite P in *.
  assert (Av : forall k r, r <> Rsp -> avoids (rsp_plus k) r) by (intros k r Hr; split; [cbn; congruence | exact Logic.I]).
  set (a := rsp_plus (src + N.of_nat i * 8)). set (b := rsp_plus (dst + N.of_nat i * 8)).
  destruct (load_gpr_ok R11 a n s Hn ltac:(discriminate) (Av _ R11 ltac:(discriminate)) (Av _ R10 ltac:(discriminate))) as (Hb & Hg & Hx & Hm).
  set (t := run (load_gpr R11 a n) s) in *.
  destruct (store_gpr_ok R11 b n t Hn (Av _ R11 ltac:(discriminate))) as (Hb2 & Hm2 & Hg2 & Hx2).
  set (u := run (store_gpr b R11 n) t) in *.
  assert (Ea : ea a s = gp s Rsp + Z.of_N src + 8 * Z.of_nat i) by (subst a; unfold ea; cbn [base index disp rsp_plus]; lia).
  assert (Eb : ea b t = gp s Rsp + Z.of_N dst + 8 * Z.of_nat i).
  { subst b. unfold ea. cbn [base index disp rsp_plus]. rewrite (Hg Rsp) by discriminate. lia. }
  rewrite Ea, Eb in *. split; [|split; [|split]].
  - apply in_mem_of with (gp t R11) (N.to_nat n); [exact Hb2 | | apply part_short].
    eapply in_reg_of; [exact Hb | exact H | apply part_short].
  - intros x Hx'. rewrite Hm2, Hm by (subst n; lia). reflexivity.
  - intros g N1 N2. rewrite Hg2, Hg by assumption. reflexivity.
  - congruence.
Qed.
Lemma slide_depth src dst l is : snd (all (map (slide_one src dst l) is)) = 0.
Proof. induction is; [reflexivity|]. cbn [map]. rewrite snd_all_cons, IHis. reflexivity. Qed.

Lemma slide_right l src dst bs : List.length bs = length_of l -> (src < dst)%N -> forall n s,
  (N.of_nat n <= num_eightbytes l)%N -> in_mem (mem s) (gp s Rsp + Z.of_N src) bs ->
  let s' := run (fst (all (map (slide_one src dst l) (rev (List.seq 0 n))))) s in
  in_mem (mem s') (gp s Rsp + Z.of_N dst) (part bs 0 (8 * N.of_nat n)) /\
  same_outside (gp s Rsp + Z.of_N dst) (gp s Rsp + Z.of_N dst + Z.min (Z.of_N (size l)) (8 * Z.of_nat n)) s s' /\
  (forall g, g <> R10 -> g <> R11 -> gp s' g = gp s g) /\ xm s' = xm s.
Proof.
  intros Ll Hd n s Hn H. pose proof (words_bounds l) as Wd. unfold length_of in Ll. cbv zeta.
  assert (Hp : in_mem (mem s) (gp s Rsp + Z.of_N src) (part bs 0 (8 * N.of_nat n))).
  { rewrite <- (Z.add_0_r (gp s Rsp + Z.of_N src)). change 0 with (Z.of_N 0) at 1. now apply in_mem_part. }
  clear H. revert s Hn Hp. induction n as [|n IH]; intros s Hn H.
  - cbn. split; [apply in_mem_short; cbn; lia|]. repeat split.
  - rewrite seq_S, rev_app_distr. cbn [rev app map Nat.add]. rewrite fst_all_cons.
    assert (H0 : in_mem (mem s) (gp s Rsp + Z.of_N src + 8 * Z.of_nat n) (part bs (8 * N.of_nat n) 8)).
    { intros i b Hi. replace (gp s Rsp + Z.of_N src + 8 * Z.of_nat n + Z.of_nat i) with (gp s Rsp + Z.of_N src + Z.of_nat (8 * n + i)) by lia.
      apply H. rewrite nth_part in *. destruct (Nat.ltb_spec i (N.to_nat 8)); [|discriminate].
      destruct (Nat.ltb_spec (8 * n + i) (N.to_nat (8 * N.of_nat (S n)))); [|lia]. rewrite <- Hi. f_equal. lia. }
    destruct (slide_one_ok l src dst bs n s Ll ltac:(lia) H0) as (B & O & G & X).
    set (t := run (fst (slide_one src dst l n)) s) in *.
    assert (Ht : in_mem (mem t) (gp t Rsp + Z.of_N src) (part bs 0 (8 * N.of_nat n))).
    { rewrite G by discriminate. intros i b Hi. pose proof (nth_bound _ _ _ Hi) as Hb.
      pose proof (part_short bs 0 (8 * N.of_nat n)). unfold cell. rewrite O by lia. apply H.
      rewrite nth_part in *. destruct (Nat.ltb_spec i (N.to_nat (8 * N.of_nat n))); [|discriminate].
      destruct (Nat.ltb_spec i (N.to_nat (8 * N.of_nat (S n)))); [exact Hi | lia]. }
    destruct (IH t ltac:(lia) Ht) as (B' & O' & G' & X'). rewrite (G Rsp) in * by discriminate.
    set (u := run _ t) in *. split; [|split; [|split]].
    + replace (8 * N.of_nat (S n))%N with (8 * N.of_nat n + 8)%N by lia.
      replace (gp s Rsp + Z.of_N dst) with (gp s Rsp + Z.of_N dst + Z.of_N 0) in B' |- * by lia.
      apply in_mem_parts; [exact B'|]. rewrite N.add_0_l.
      replace (gp s Rsp + Z.of_N dst + Z.of_N (8 * N.of_nat n)) with (gp s Rsp + Z.of_N dst + 8 * Z.of_nat n) by lia.
      apply in_mem_ext with (mem t); [exact B|]. intros i Hi. apply O'. lia.
    + intros x Hx. rewrite O' by lia. apply O. lia.
    + intros g N1 N2. rewrite G', G by assumption. reflexivity.
    + congruence.
Qed.

Lemma slide_left l src dst bs : List.length bs = length_of l -> (dst < src)%N -> forall n k s,
  (N.of_nat k + N.of_nat n <= num_eightbytes l)%N ->
  in_mem (mem s) (gp s Rsp + Z.of_N src + 8 * Z.of_nat k) (part bs (8 * N.of_nat k) (8 * N.of_nat n)) ->
  let s' := run (fst (all (map (slide_one src dst l) (List.seq k n)))) s in
  in_mem (mem s') (gp s Rsp + Z.of_N dst + 8 * Z.of_nat k) (part bs (8 * N.of_nat k) (8 * N.of_nat n)) /\
  same_outside (gp s Rsp + Z.of_N dst + 8 * Z.of_nat k) (gp s Rsp + Z.of_N dst + Z.of_N (size l)) s s' /\
  (forall g, g <> R10 -> g <> R11 -> gp s' g = gp s g) /\ xm s' = xm s.
Proof.
  intros Ll Hd. pose proof (words_bounds l) as Wd. unfold length_of in Ll. cbv zeta.
  induction n as [|n IH]; intros k s Hn H.
  - cbn. split; [apply in_mem_short; cbn; lia|]. repeat split.
  - cbn [List.seq map]. rewrite fst_all_cons.
    replace (8 * N.of_nat (S n))%N with (8 + 8 * N.of_nat n)%N in * by lia.
    assert (H0 : in_mem (mem s) (gp s Rsp + Z.of_N src + 8 * Z.of_nat k) (part bs (8 * N.of_nat k) 8)).
    { intros i b Hi. apply H. rewrite nth_part in *. destruct (Nat.ltb_spec i (N.to_nat 8)); [|discriminate].
      destruct (Nat.ltb_spec i (N.to_nat (8 + 8 * N.of_nat n))); [assumption | lia]. }
    assert (H1 : in_mem (mem s) (gp s Rsp + Z.of_N src + 8 * Z.of_nat (S k)) (part bs (8 * N.of_nat (S k)) (8 * N.of_nat n))).
    { intros i b Hi. replace (gp s Rsp + Z.of_N src + 8 * Z.of_nat (S k) + Z.of_nat i) with (gp s Rsp + Z.of_N src + 8 * Z.of_nat k + Z.of_nat (8 + i)) by lia.
      apply H. rewrite nth_part in *. destruct (Nat.ltb_spec i (N.to_nat (8 * N.of_nat n))); [|discriminate].
      destruct (Nat.ltb_spec (8 + i) (N.to_nat (8 + 8 * N.of_nat n))); [|lia]. rewrite <- Hi. f_equal. lia. }
    destruct (slide_one_ok l src dst bs k s Ll ltac:(lia) H0) as (B & O & G & X).
    set (t := run (fst (slide_one src dst l k)) s) in *.
    assert (Ht : in_mem (mem t) (gp t Rsp + Z.of_N src + 8 * Z.of_nat (S k)) (part bs (8 * N.of_nat (S k)) (8 * N.of_nat n))).
    { rewrite G by discriminate. apply in_mem_ext with (mem s); [exact H1|]. intros i Hi. apply O. lia. }
    destruct (IH (S k) t ltac:(lia) Ht) as (B' & O' & G' & X'). rewrite (G Rsp) in * by discriminate.
    set (u := run _ t) in *. split; [|split; [|split]].
    + replace (gp s Rsp + Z.of_N dst + 8 * Z.of_nat k) with (gp s Rsp + Z.of_N dst + Z.of_N (8 * N.of_nat k)) in * by lia.
      apply in_mem_parts.
      * apply in_mem_ext with (mem t); [exact B|]. intros i Hi. pose proof (part_short bs (8 * N.of_nat k) 8). apply O'. lia.
      * replace (8 * N.of_nat k + 8)%N with (8 * N.of_nat (S k))%N by lia.
        replace (gp s Rsp + Z.of_N dst + Z.of_N (8 * N.of_nat (S k))) with (gp s Rsp + Z.of_N dst + 8 * Z.of_nat (S k)) by lia.
        exact B'.
    + intros x Hx. rewrite O' by lia. apply O. lia.
    + intros g N1 N2. rewrite G', G by assumption. reflexivity.
    + congruence.
Qed.

Lemma part_more {A} (bs : list A) n : (List.length bs <= N.to_nat n)%nat -> part bs 0 n = bs.
Proof. intros H. unfold part. change (N.to_nat 0) with 0%nat. cbn [skipn]. now apply firstn_all2. Qed.

Lemma slide_ok l src dst bs s : List.length bs = length_of l -> in_mem (mem s) (gp s Rsp + Z.of_N src) bs ->
  let s' := run (fst (slide_in_stack src dst l)) s in
  in_mem (mem s') (gp s Rsp + Z.of_N dst) bs /\ snd (slide_in_stack src dst l) = 0 /\
  same_outside (gp s Rsp + Z.of_N dst) (gp s Rsp + Z.of_N dst + Z.of_N (size l)) s s' /\
  (forall g, g <> R10 -> g <> R11 -> gp s' g = gp s g) /\ xm s' = xm s.
Proof.
  intros Ll H. pose proof (words_bounds l) as Wd. unfold slide_in_stack. unfold length_of in Ll.
  destruct (N.compare_spec src dst) as [-> | Hd | Hd].
  - cbn. repeat split. exact H.
  - destruct (slide_right l src dst bs Ll Hd (N.to_nat (num_eightbytes l)) s ltac:(lia) H) as (B & O & G & X).
    cbv zeta. rewrite part_more in B by lia. rewrite slide_depth. split; [exact B|]. split; [reflexivity|].
    split; [|split; [exact G | exact X]]. intros x Hx. apply O. lia.
  - destruct (slide_left l src dst bs Ll Hd (N.to_nat (num_eightbytes l)) 0 s ltac:(lia)) as (B & O & G & X).
    { change (8 * N.of_nat 0)%N with 0%N. rewrite part_more by lia. now rewrite Z.add_0_r. }
    cbv zeta. change (8 * N.of_nat 0)%N with 0%N in B. rewrite part_more in B by lia. rewrite Z.add_0_r in *.
    rewrite slide_depth. split; [exact B|]. split; [reflexivity|]. split; [exact O | split; [exact G | exact X]].
Qed.

Lemma extend_ok l s : let s' := run (fst (extend_stack l)) s in
  gp s' Rsp = gp s Rsp - room l /\ snd (extend_stack l) * 8 = room l /\ mem s' = mem s /\ xm s' = xm s /\
  (forall g, g <> Rsp -> gp s' g = gp s g).
Proof.
  rewrite room_words. unfold extend_stack. destruct (N.eqb_spec (size l) 0) as [E|E].
  - unfold words, num_eightbytes. rewrite E. cbn. repeat split; lia.
  - cbn [fst snd run step]. cbv zeta. regs. repeat split; try lia. intros g Hg. regs. reflexivity.
Qed.
Lemma shrink_ok l s : let s' := run (fst (shrink_stack l)) s in
  gp s' Rsp = gp s Rsp + room l /\ snd (shrink_stack l) * 8 = - room l /\ mem s' = mem s /\ xm s' = xm s /\
  (forall g, g <> Rsp -> gp s' g = gp s g).
Proof.
  rewrite room_words. unfold shrink_stack. destruct (N.eqb_spec (size l) 0) as [E|E].
  - unfold words, num_eightbytes. rewrite E. cbn. repeat split; lia.
  - cbn [fst snd run step]. cbv zeta. regs. repeat split; try lia. intros g Hg. regs. reflexivity.
Qed.
Lemma room_memory n : room (l_memory (n * 8) 8) = Z.of_N n * 8.
Proof.
  rewrite room_words. unfold words. f_equal. f_equal.
  assert (E : size (l_memory (n * 8) 8) = (n * 8)%N).
  { unfold l_memory, new. cbn [size]. change (8 =? 0)%N with false. cbn iota. unfold pad.
    rewrite N.mod_mul by discriminate. change ((8 - 0) mod 8)%N with 0%N. lia. }
  pose proof (words_bounds (l_memory (n * 8) 8)) as Wd. rewrite E in Wd. lia.
Qed.

Lemma taken_bounds l : 0 <= taken l <= room l.
Proof. unfold taken. rewrite room_words. unfold words. destruct (cls l); lia. Qed.

(** ** Parts of structures *)
Lemma good_elem l es cs o e : good l -> composite l = Some (es, cs) -> In (o, e) es ->
  good e /\ (o + size e <= size l)%N.
Proof.
  intros G C I. destruct G as [l _ _ N | ls F]; [congruence|].
  rewrite product_composite in C. injection C as <- _.
  assert (In e ls).
  { assert (M : In (snd (o, e)) (map snd (iter_with_offset 0 ls))) by (now apply in_map).
    rewrite iter_snd in M. exact M. }
  split; [rewrite Forall_forall in F; auto|].
  assert (Ok : Forall ok ls) by (eapply Forall_impl; [|exact F]; apply good_ok).
  destruct (product_placed ls Ok) as (_ & _ & P). rewrite Forall_forall in P. apply (P (o, e)) in I. apply I.
Qed.
Lemma type_layout_elem l es cs o e : type_layout l -> composite l = Some (es, cs) -> In (o, e) es ->
  usable e /\ (o + size e <= size l)%N.
Proof.
  induction 1 as [r t l R G | l T IH]; intros C I.
  - destruct (good_elem l es cs o e (reached_good r R t l G) C I). split; [now apply good_usable | assumption].
  - destruct (IH C I) as [U B]. split; [exact U|]. pose proof (words_bounds l).
    change (size (in_stack l)) with (num_eightbytes l * 8)%N. lia.
Qed.

Lemma prefix_part {A} (bs : list A) o n m : part (part bs 0 m) o n = part bs o (N.min n (m - o)).
Proof.
  unfold part. change (N.to_nat 0) with 0%nat. cbn [skipn]. rewrite skipn_firstn_comm, firstn_firstn. f_equal. lia.
Qed.
Lemma in_reg_prefix v bs o n m : (m <= n)%N -> in_reg v (part bs o n) -> in_reg v (part bs o m).
Proof.
  intros H R i b Hi. apply R. rewrite nth_part in *. destruct (Nat.ltb_spec i (N.to_nat m)); [|discriminate].
  destruct (Nat.ltb_spec i (N.to_nat n)); [exact Hi | lia].
Qed.

(** The first element in the same registers. *)
Lemma value_first l e bs s : usable l -> usable e -> value l bs s -> (size e <= size l)%N ->
  num_eightbytes e = num_eightbytes l -> map e_class (eightbytes e) = map e_class (eightbytes l) ->
  value e (part bs 0 (size e)) s.
Proof.
  intros U Ue H Hs Wd C. pose proof (words_bounds l). pose proof (words_bounds e). destruct H as [Ll H].
  unfold length_of in Ll. split; [rewrite part_length by lia; reflexivity|].
  destruct U as [[Ml Vl] Fl]. destruct Ue as [[Me Ve] Fe].
  destruct (class_cases e) as [E | [E | [N1 N2]]].
  - now rewrite E.
  - rewrite E. assert (El : cls l = Memory) by (apply Ml; apply Me in E; lia). rewrite El in H.
    pose proof (in_mem_part _ _ _ 0 (size e) H) as P. now rewrite Z.add_0_r in P.
  - assert (C1 : cls l <> Memory) by (rewrite Ml; intros K; apply N1; apply Me; lia).
    assert (C2 : cls l <> Void) by (rewrite Vl; intros K; apply N2; apply Ve; lia).
    assert (Il : in_regs (eightbytes l) [Rax; Rdx] [0; 1]%nat bs s) by (destruct (cls l); tauto).
    cut (in_regs (eightbytes e) [Rax; Rdx] [0; 1]%nat (part bs 0 (size e)) s); [destruct (cls e); tauto|].
    destruct (small_eightbytes l (conj (conj Ml Vl) Fl) C1 C2) as [(c & El & Sl & _) | (c & c' & El & Sl & _)];
    destruct (small_eightbytes e (conj (conj Me Ve) Fe) N1 N2) as [(d & Ee & Se & _) | (d & d' & Ee & Se & _)];
    rewrite El, Ee in *; try discriminate.
    + injection C as ->. cbn [in_regs e_class e_offset e_size] in *. rewrite prefix_part.
      replace (N.min (size e) (size e - 0)) with (size e) by lia.
      destruct c; try contradiction; (split; [|exact Logic.I]); eapply in_reg_prefix; try exact (proj1 Il); lia.
    + injection C as -> ->. cbn [in_regs e_class e_offset e_size] in *. rewrite !prefix_part.
      replace (N.min 8 (size e - 0)) with 8%N by lia. rewrite (N.min_l (size e - 8)) by lia.
      destruct c; try contradiction; destruct Il as [I1 I2]; (split; [exact I1|]);
      destruct c'; try contradiction; (split; [|exact Logic.I]); eapply in_reg_prefix; try exact (proj1 I2); lia.
Qed.

Lemma struct_elem_at l i es cs o e bs s c :
  usable l -> usable e -> (o + size e <= size l)%N -> composite l = Some (es, cs) -> nth_error es i = Some (o, e) -> value l bs s ->
  (o <> 0%N \/ num_eightbytes e <> num_eightbytes l \/ map e_class (eightbytes e) = map e_class (eightbytes l)) ->
  struct_elem l i = Ret (c, e) ->
  let s' := run (fst c) s in
  value e (part bs o (size e)) s' /\ gp s' Rsp = gp s Rsp + taken l - taken e /\
  snd c * 8 = taken e - taken l /\
  same_outside (gp s Rsp + taken l - room l) (gp s Rsp + taken l) s s' /\ same_regs s s'.
Proof.
  intros U Ue Fit C I H Cond S.
  pose proof (words_bounds l) as Wl. pose proof (words_bounds e) as We. pose proof (proj1 H) as Ll. unfold length_of in Ll.
  unfold struct_elem in S. rewrite C, I in S.
  destruct (negb (o =? 0)%N || (num_eightbytes e <? num_eightbytes l)%N) eqn:B; injection S as <-; cbv zeta.
  - cbn [fst snd andthen]. rewrite !run_app.
    set (diff := (num_eightbytes l - num_eightbytes e)%N).
    destruct (push_ok l bs s U H) as ((_ & P1) & P2 & P3 & P4 & P5). set (s1 := run (fst (push l)) s) in *.
    assert (L1 : List.length (part bs o (size e)) = length_of e) by (rewrite part_length by lia; reflexivity).
    destruct (slide_ok e o (diff * 8) (part bs o (size e)) s1 L1 (in_mem_part _ _ _ _ _ P1)) as (Q1 & Q2 & Q3 & Q4 & Q5).
    set (s2 := run (fst (slide_in_stack o (diff * 8) e)) s1) in *.
    destruct (shrink_ok (l_memory (diff * 8) 8) s2) as (R1 & R2 & R3 & R4 & R5).
    set (s3 := run (fst (shrink_stack (l_memory (diff * 8) 8))) s2) in *. rewrite room_memory in *.
    assert (Q0 : gp s2 Rsp = gp s1 Rsp) by (apply Q4; discriminate).
    assert (Pu : pushed e (part bs o (size e)) s3).
    { split; [exact L1|]. rewrite R3, R1, Q0. replace (Z.of_N diff * 8) with (Z.of_N (diff * 8)) by lia. exact Q1. }
    destruct (pop_ok e _ s3 Ue Pu) as (V1 & V2 & V3 & V4 & V5). set (s4 := run (fst (pop e)) s3) in *.
    pose proof (room_words l) as Rl. pose proof (room_words e) as Re. pose proof (taken_bounds l). unfold words in *.
    split; [exact V1|]. split; [lia|]. split; [lia|]. split.
    + intros a Ha. rewrite V4, R3, Q3, P4 by lia. reflexivity.
    + intros g Hg. rewrite V5, R5, Q4, P5 by (assumption || (apply scratch_not with (1 := Hg); reflexivity)). reflexivity.
  - apply orb_false_iff in B. destruct B as [B1 B2]. apply negb_false_iff, N.eqb_eq in B1. apply N.ltb_ge in B2. subst o.
    assert (W : num_eightbytes e = num_eightbytes l) by lia.
    assert (Cl : map e_class (eightbytes e) = map e_class (eightbytes l)) by (destruct Cond as [? | [? | ?]]; [lia | lia | assumption]).
    cbn. split; [now apply value_first with l|].
    assert (Tk : taken e = taken l).
    { unfold taken. rewrite !room_words. unfold words. rewrite W.
      destruct U as [[Ml Vl] _]. destruct Ue as [[Me Ve] _].
      destruct (cls e) eqn:Ce, (cls l) eqn:Cl'; try reflexivity; exfalso;
        (try (assert (16 < size e)%N by (apply Me; reflexivity))); (try (assert (16 < size l)%N by (apply Ml; reflexivity)));
        try (assert (~ (16 < size e)%N) by (rewrite <- Me; discriminate)); try (assert (~ (16 < size l)%N) by (rewrite <- Ml; discriminate)); lia. }
    rewrite Tk. split; [lia|]. split; [lia|]. split; intros ? ?; reflexivity.
Qed.

Lemma struct_elem_ok l i es cs o e bs s c :
  type_layout l -> composite l = Some (es, cs) -> nth_error es i = Some (o, e) -> value l bs s ->
  (o <> 0%N \/ num_eightbytes e <> num_eightbytes l \/ map e_class (eightbytes e) = map e_class (eightbytes l)) ->
  struct_elem l i = Ret (c, e) ->
  let s' := run (fst c) s in
  value e (part bs o (size e)) s' /\ gp s' Rsp = gp s Rsp + taken l - taken e /\
  snd c * 8 = taken e - taken l /\
  same_outside (gp s Rsp + taken l - room l) (gp s Rsp + taken l) s s' /\ same_regs s s'.
Proof.
  intros T C I. destruct (type_layout_elem l es cs o e T C (nth_error_In _ _ I)) as [Ue Fit].
  exact (struct_elem_at l i es cs o e bs s c (type_layout_usable l T) Ue Fit C I).
Qed.

(** ** Reinterpretation *)
Definition bytes_of (m : Z -> Z) (a : Z) (n : nat) : list Z := map (fun i => cell m (a + Z.of_nat i)) (List.seq 0 n).
Lemma bytes_of_length m a n : List.length (bytes_of m a n) = n.
Proof. unfold bytes_of. now rewrite map_length, seq_length. Qed.
Lemma nth_bytes_of m a n i : (i < n)%nat -> nth_error (bytes_of m a n) i = Some (cell m (a + Z.of_nat i)).
Proof.
  intros H. unfold bytes_of. apply (map_nth_error (fun i : nat => cell m (a + Z.of_nat i))). rewrite nth_error_nth' with (d := 0%nat) by (rewrite seq_length; lia).
  now rewrite seq_nth by lia.
Qed.
Lemma in_bytes_of m a n : in_mem m a (bytes_of m a n).
Proof.
  intros i b H. pose proof (nth_bound _ _ _ H) as B. rewrite bytes_of_length in B.
  rewrite nth_bytes_of in H by assumption. congruence.
Qed.
Lemma in_mem_eq m a bs cs k : (k <= List.length bs)%nat -> (k <= List.length cs)%nat ->
  in_mem m a bs -> in_mem m a cs -> firstn k bs = firstn k cs.
Proof.
  revert m a bs cs. induction k as [|k IH]; intros m a bs cs H H' B C; [reflexivity|].
  destruct bs as [|b bs]; [cbn in H; lia|]. destruct cs as [|c cs]; [cbn in H'; lia|]. cbn. f_equal.
  - rewrite <- (B 0%nat b eq_refl), <- (C 0%nat c eq_refl). reflexivity.
  - apply (IH m (a + 1)); [cbn in *; lia | cbn in *; lia | |]; intros i x Hi;
      [rewrite <- (B (S i) x Hi) | rewrite <- (C (S i) x Hi)]; f_equal; lia.
Qed.

Lemma reinterpret_ok from to bs s : usable from -> usable to -> value from bs s ->
  let s' := run (fst (reinterpret from to)) s in
  exists bs', value to bs' s' /\
  firstn (Nat.min (length_of from) (length_of to)) bs' = firstn (Nat.min (length_of from) (length_of to)) bs /\
  gp s' Rsp = gp s Rsp + taken from - taken to /\ snd (reinterpret from to) * 8 = taken to - taken from /\
  same_outside (gp s Rsp + taken from - Z.max (room from) (room to)) (gp s Rsp + taken from) s s' /\ same_regs s s'.
Proof.
  intros U Ut H. unfold reinterpret. cbn [fst snd andthen]. rewrite !run_app. cbv zeta.
  pose proof (words_bounds from) as Wf. pose proof (words_bounds to) as Wt. pose proof (proj1 H) as Ll. unfold length_of in *.
  pose proof (taken_bounds from). pose proof (room_words from) as Rf. pose proof (room_words to) as Rt. unfold words in *.
  destruct (push_ok from bs s U H) as ((_ & P1) & P2 & P3 & P4 & P5). set (s1 := run (fst (push from)) s) in *.
  destruct (N.ltb_spec (num_eightbytes from) (num_eightbytes to)) as [Lt | Ge].
  - cbn [fst snd andthen]. rewrite !run_app.
    set (diff := (num_eightbytes to - num_eightbytes from)%N).
    destruct (extend_ok (l_memory (diff * 8) 8) s1) as (R1 & R2 & R3 & R4 & R5).
    set (s2 := run (fst (extend_stack (l_memory (diff * 8) 8))) s1) in *. rewrite room_memory in *.
    destruct (slide_ok from (diff * 8) 0 bs s2 Ll) as (Q1 & Q2 & Q3 & Q4 & Q5).
    { rewrite R3, R1. replace (gp s1 Rsp - Z.of_N diff * 8 + Z.of_N (diff * 8)) with (gp s1 Rsp) by lia. exact P1. }
    set (s3 := run (fst (slide_in_stack (diff * 8) 0 from)) s2) in *.
    assert (Q0 : gp s3 Rsp = gp s2 Rsp) by (apply Q4; discriminate).
    set (bs' := bytes_of (mem s3) (gp s3 Rsp) (N.to_nat (size to))).
    assert (Pu : pushed to bs' s3) by (split; [apply bytes_of_length | apply in_bytes_of]).
    destruct (pop_ok to _ s3 Ut Pu) as (V1 & V2 & V3 & V4 & V5). set (s4 := run (fst (pop to)) s3) in *.
    exists bs'. split; [exact V1|]. split; [|split; [lia | split; [lia | split]]].
    + apply in_mem_eq with (mem s3) (gp s3 Rsp).
      * subst bs'. rewrite bytes_of_length. lia.
      * lia.
      * apply in_bytes_of.
      * rewrite Q0. change (Z.of_N 0) with 0 in Q1. rewrite Z.add_0_r in Q1. exact Q1.
    + intros a Ha. rewrite V4, Q3, R3, P4 by lia. reflexivity.
    + intros g Hg. rewrite V5, Q4, R5, P5 by (assumption || (apply scratch_not with (1 := Hg); reflexivity)). reflexivity.
  - cbn [fst snd andthen]. rewrite !run_app.
    set (diff := (num_eightbytes from - num_eightbytes to)%N).
    set (bs' := bytes_of (mem s1) (gp s1 Rsp) (N.to_nat (size to))).
    assert (Lb : List.length bs' = N.to_nat (size to)) by apply bytes_of_length.
    destruct (slide_ok to 0 (diff * 8) bs' s1 Lb) as (Q1 & Q2 & Q3 & Q4 & Q5).
    { change (Z.of_N 0) with 0. rewrite Z.add_0_r. apply in_bytes_of. }
    set (s2 := run (fst (slide_in_stack 0 (diff * 8) to)) s1) in *.
    destruct (shrink_ok (l_memory (diff * 8) 8) s2) as (R1 & R2 & R3 & R4 & R5).
    set (s3 := run (fst (shrink_stack (l_memory (diff * 8) 8))) s2) in *. rewrite room_memory in *.
    assert (Q0 : gp s2 Rsp = gp s1 Rsp) by (apply Q4; discriminate).
    assert (Pu : pushed to bs' s3).
    { split; [exact Lb|]. rewrite R3, R1, Q0. replace (Z.of_N diff * 8) with (Z.of_N (diff * 8)) by lia. exact Q1. }
    destruct (pop_ok to _ s3 Ut Pu) as (V1 & V2 & V3 & V4 & V5). set (s4 := run (fst (pop to)) s3) in *.
    exists bs'. split; [exact V1|]. split; [|split; [lia | split; [lia | split]]].
    + apply in_mem_eq with (mem s1) (gp s1 Rsp); [lia | lia | apply in_bytes_of | exact P1].
    + intros a Ha. rewrite V4, R3, Q3, P4 by lia. reflexivity.
    + intros g Hg. rewrite V5, R5, Q4, P5 by (assumption || (apply scratch_not with (1 := Hg); reflexivity)). reflexivity.
Qed.

Lemma discard_ok l s : usable l -> let s' := run (fst (discard l)) s in
  gp s' Rsp = gp s Rsp + taken l /\ snd (discard l) * 8 = - taken l /\ mem s' = mem s /\
  (forall g, g <> Rsp -> gp s' g = gp s g).
Proof.
  intros U. unfold discard, is_memory. destruct (cls l) eqn:E; cbn [class_eqb]; unfold taken; rewrite E;
    try (cbn; repeat split; lia).
  destruct (shrink_ok l s) as (A & B & C & D & G). auto.
Qed.

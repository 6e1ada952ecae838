(** The value just computed: push, pop, load and store. *)
From Coq Require Import ZArith Lia.
From Verif.Base Require Import Base.
From Verif.Ir Require Import Model.
From Verif.Layout Require Import Model Spec.
From Verif.Stack Require Import Machine Model Spec Facts Proofs.
Local Open Scope Z_scope.

Definition last_reg (r : reg) : Prop := r = Gpr Rax \/ r = Gpr Rdx \/ r = Xmm 0 \/ r = Xmm 1.
Lemma last_value_reg r : last_reg r -> value_reg r.
Proof. intros [-> | [-> | [-> | ->]]]; cbn; repeat split; discriminate. Qed.

Inductive shape (l : layout) : Prop :=
| shape_void : cls l = Void -> size l = 0%N -> last_value l = None -> shape l
| shape_one r : cls l <> Memory -> (1 <= size l <= 8)%N -> num_eightbytes l = 1%N ->
    last_value l = Some [Assign 0 (size l) r] -> last_reg r ->
    (forall bs s, value l bs s <-> List.length bs = length_of l /\ reg_holds r bs s) -> shape l
| shape_two r r' : cls l <> Memory -> (9 <= size l <= 16)%N -> num_eightbytes l = 2%N ->
    last_value l = Some [Assign 0 8 r; Assign 8 (size l - 8) r'] ->
    last_reg r -> last_reg r' -> r <> r' ->
    (forall bs s, value l bs s <-> List.length bs = length_of l /\
       reg_holds r (part bs 0 8) s /\ reg_holds r' (part bs 8 (size l - 8)) s) -> shape l
| shape_memory : cls l = Memory -> (17 <= size l)%N -> last_value l = None -> shape l.

Lemma shape_of l : usable l -> shape l.
Proof.
  intros U. pose proof U as [[M V] _]. pose proof (words_bounds l) as Wd.
  destruct (class_cases l) as [E | [E | [N1 N2]]].
  - apply shape_void; [exact E | now apply V | unfold last_value, build; now rewrite E].
  - apply shape_memory; [exact E | apply M in E; lia | unfold last_value, build; now rewrite E].
  - assert (C : cls l = Integer \/ cls l = FloatingPoint) by (destruct (cls l); tauto).
    assert (B : last_value l = match assign_all (eightbytes l) last_gps last_fps with Some (rs, _, _) => Some rs | None => None end)
      by (unfold last_value, build; destruct C as [-> | ->]; reflexivity).
    assert (Va : forall bs s, value l bs s <-> List.length bs = length_of l /\ in_regs (eightbytes l) [Rax; Rdx] [0; 1]%nat bs s)
      by (intros; unfold value; destruct C as [-> | ->]; tauto).
    destruct (small_eightbytes l U N1 N2) as [(c & E & S & Hc) | (c & c' & E & S & Hc & Hc')]; rewrite E in *.
    + apply (shape_one l (match c with Integer => Gpr Rax | _ => Xmm 0 end)); auto; [lia| | |].
      * rewrite B. destruct Hc as [-> | ->]; reflexivity.
      * destruct Hc as [-> | ->]; unfold last_reg; auto.
      * intros bs s. rewrite Va. split; intros [L H]; (split; [exact L|]);
          assert (P : part bs 0 (size l) = bs) by (apply part_all; unfold length_of in L; lia);
          destruct Hc as [-> | ->]; cbn in *; rewrite P in *; tauto.
    + apply (shape_two l (match c with Integer => Gpr Rax | _ => Xmm 0 end)
          (match c, c' with Integer, Integer => Gpr Rdx | _, Integer => Gpr Rax
                          | Integer, _ => Xmm 0 | _, _ => Xmm 1 end)); auto; [lia| | | | |].
      * rewrite B. destruct Hc as [-> | ->], Hc' as [-> | ->]; reflexivity.
      * destruct Hc as [-> | ->]; unfold last_reg; auto.
      * destruct Hc as [-> | ->], Hc' as [-> | ->]; unfold last_reg; auto.
      * destruct Hc as [-> | ->], Hc' as [-> | ->]; discriminate.
      * intros bs s. rewrite Va. destruct Hc as [-> | ->], Hc' as [-> | ->]; cbn; tauto.
Qed.

Lemma value_memory l bs s : cls l = Memory -> (value l bs s <-> pushed l bs s).
Proof. intros E. unfold value, pushed. rewrite E. tauto. Qed.
Lemma in_mem_short m a bs : (List.length bs <= 0)%nat -> in_mem m a bs.
Proof. intros H i b Hi. apply nth_bound in Hi. lia. Qed.
Lemma value_void l bs s : cls l = Void -> size l = 0%N -> (value l bs s <-> pushed l bs s).
Proof.
  intros E Z0. unfold value, pushed. rewrite E. split; [|tauto].
  intros [L _]. split; [exact L|]. apply in_mem_short. unfold length_of in L. lia.
Qed.
Lemma taken_other l : cls l <> Memory -> taken l = 0.
Proof. unfold taken. destruct (cls l); tauto. Qed.
Lemma scratch_not r r' : scratch r = false -> scratch r' = true -> r <> r'.
Proof. intros H H' ->. congruence. Qed.
Lemma same_regs_trans a b c : same_regs a b -> same_regs b c -> same_regs a c.
Proof. intros H H' r Hr. rewrite H' by assumption. now apply H. Qed.

Lemma in_mem_two m a bs n : (8 <= n)%N -> List.length bs = N.to_nat n ->
  in_mem m a (part bs 0 8) -> in_mem m (a + 8) (part bs 8 (n - 8)) -> in_mem m a bs.
Proof.
  intros Hn Hl H H'. rewrite <- (part_all bs n) by lia.
  replace n with (8 + (n - 8))%N by lia. replace a with (a + Z.of_N 0) in * by lia.
  apply in_mem_parts; [exact H|]. replace (a + Z.of_N (0 + 8)) with (a + Z.of_N 0 + 8) by lia. exact H'.
Qed.

Lemma push_ok l bs s : usable l -> value l bs s ->
  let s' := run (fst (push l)) s in
  pushed l bs s' /\ gp s' Rsp = gp s Rsp + taken l - room l /\
  snd (push l) * 8 = room l - taken l /\ same_outside (gp s' Rsp) (gp s Rsp) s s' /\ same_regs s s'.
Proof.
  intros U H. unfold push. rewrite room_words. unfold words. destruct (shape_of l U) as [E S L | r M S Wd L R Va | r r' M S Wd L R R' D Va | E S L]; rewrite L.
  - apply value_void in H; [|assumption..]. cbn. unfold taken. rewrite E. unfold num_eightbytes. rewrite S.
    repeat split; try apply H; cbn; try lia. 
  - rewrite (taken_other l M), Wd. apply Va in H. destruct H as [Ll H].
    cbn [rev app map all andthen nothing fst snd a_reg]. rewrite app_nil_r.
    destruct (push_reg_ok r bs s (last_value_reg r R) H ltac:(unfold length_of in Ll; lia)) as (A & B & C & G & X & De).
    cbv zeta. rewrite B in *. repeat split; auto; try lia; [now rewrite B|].
    intros g Hg. apply G; apply scratch_not with (1 := Hg); reflexivity.
  - rewrite (taken_other l M), Wd. apply Va in H. destruct H as (Ll & H & H').
    cbn [rev app map all andthen nothing fst snd a_reg]. rewrite app_nil_r, run_app. unfold length_of in Ll.
    destruct (push_reg_ok r' _ s (last_value_reg r' R') H' ltac:(rewrite part_length; lia)) as (A & B & C & G & X & De).
    set (t := run (fst (push_eightbyte r')) s) in *.
    assert (Ht : reg_holds r (part bs 0 8) t).
    { destruct R as [-> | [-> | [-> | ->]]]; cbn in *; rewrite ?X, ?G by discriminate; exact H. }
    destruct (push_reg_ok r _ t (last_value_reg r R) Ht ltac:(rewrite part_length; lia)) as (A2 & B2 & C2 & G2 & X2 & De2).
    cbv zeta. set (u := run (fst (push_eightbyte r)) t) in *.
    split; [split; [exact Ll|]|].
    + apply in_mem_two with (size l); [lia|lia|exact A2|].
      apply in_mem_ext with (mem t); [replace (gp u Rsp + 8) with (gp t Rsp) by lia; exact A|].
      intros i Hi. apply C2. lia.
    + repeat split; try lia.
      * intros a Ha. rewrite C2 by lia. apply C. lia.
      * intros g Hg. rewrite G2 by (apply scratch_not with (1 := Hg); reflexivity).
        apply G; apply scratch_not with (1 := Hg); reflexivity.
  - apply value_memory in H; [|assumption]. cbn. unfold taken. rewrite E, room_words. unfold words.
    repeat split; try apply H; cbn; try lia. 
Qed.

Lemma pop_ok l bs s : usable l -> pushed l bs s ->
  let s' := run (fst (pop l)) s in
  value l bs s' /\ gp s' Rsp = gp s Rsp + room l - taken l /\
  snd (pop l) * 8 = taken l - room l /\ mem s' = mem s /\ same_regs s s'.
Proof.
  intros U H. unfold pop. rewrite room_words. unfold words. destruct (shape_of l U) as [E S L | r M S Wd L R Va | r r' M S Wd L R R' D Va | E S L]; rewrite L.
  - apply value_void in H; [|assumption..]. cbn. unfold taken. rewrite E. unfold num_eightbytes. rewrite S.
    split; [exact H|]. repeat split; cbn; lia.
  - rewrite (taken_other l M), Wd. destruct H as [Ll H].
    cbn [rev app map all andthen nothing fst snd a_reg]. rewrite app_nil_r.
    destruct (pop_reg_ok r bs s (last_value_reg r R) H ltac:(unfold length_of in Ll; lia)) as (A & B & C & G & X & De).
    cbv zeta. split; [apply Va; auto|]. repeat split; auto; try lia.
    intros g Hg. apply G; try (apply scratch_not with (1 := Hg); reflexivity).
    destruct R as [-> | [-> | [-> | ->]]]; try discriminate; intros [= ->]; discriminate.
  - rewrite (taken_other l M), Wd. destruct H as (Ll & H).
    cbn [rev app map all andthen nothing fst snd a_reg]. rewrite app_nil_r, run_app. unfold length_of in Ll.
    pose proof (in_mem_part _ _ _ 0 8 H) as H1. rewrite Z.add_0_r in H1.
    pose proof (in_mem_part _ _ _ 8 (size l - 8) H) as H2.
    destruct (pop_reg_ok r _ s (last_value_reg r R) H1 ltac:(rewrite part_length; lia)) as (A & B & C & G & X & De).
    set (t := run (fst (pop_eightbyte r)) s) in *.
    rewrite <- C in H2. change (Z.of_N 8) with 8 in H2. rewrite <- B in H2.
    destruct (pop_reg_ok r' _ t (last_value_reg r' R') H2 ltac:(rewrite part_length; lia)) as (A2 & B2 & C2 & G2 & X2 & De2).
    cbv zeta. set (u := run (fst (pop_eightbyte r')) t) in *.
    split; [apply Va; split; [exact Ll | split; [|exact A2]]|].
    + destruct R as [-> | [-> | [-> | ->]]]; cbn in *; rewrite ?X2, ?G2 by (congruence || discriminate); exact A.
    + repeat split; try lia; try congruence.
      intros g Hg. rewrite G2, G; try reflexivity; try (apply scratch_not with (1 := Hg); reflexivity).
      * destruct R as [-> | [-> | [-> | ->]]]; try discriminate; intros [= ->]; discriminate.
      * destruct R' as [-> | [-> | [-> | ->]]]; try discriminate; intros [= ->]; discriminate.
  - apply value_memory in H; [|assumption]. cbn. unfold taken. rewrite E, room_words. unfold words.
    split; [exact H|]. repeat split; cbn; lia.
Qed.

(** ** Loading and storing *)
Lemma ea_eq a s s' : (forall g, g <> Rax -> g <> Rdx -> g <> R10 -> g <> R11 -> g <> Rsp -> gp s' g = gp s g) ->
  address_ok a -> ea a s' = ea a s.
Proof.
  intros G ((A1 & A2) & (B1 & B2) & (C1 & C2) & (D1 & D2) & (E1 & E2)). unfold ea. rewrite G by assumption.
  destruct (index a); [|reflexivity]. rewrite G by assumption. reflexivity.
Qed.
Lemma last_avoids a r g : address_ok a -> last_reg r -> r = Gpr g -> avoids a g.
Proof. intros (A & B & _) [-> | [-> | [-> | ->]]] [= <-]; assumption. Qed.
Lemma last_not_scratch r g : last_reg r -> scratch g = false -> Gpr g <> r.
Proof. intros [-> | [-> | [-> | ->]]] Hg; try discriminate; intros [= ->]; discriminate. Qed.
Lemma part_trim {A} (bs : list A) o n : part bs o (N.min (N.of_nat (List.length bs) - o) n) = part bs o n.
Proof.
  unfold part. destruct (N.le_gt_cases n (N.of_nat (List.length bs) - o)).
  - now rewrite N.min_r by lia.
  - rewrite N.min_l by lia. rewrite !firstn_all2; [reflexivity | rewrite skipn_length; lia..].
Qed.
Lemma part_short {A} (bs : list A) o n : (List.length (part bs o n) <= N.to_nat n)%nat.
Proof. unfold part. rewrite firstn_length. lia. Qed.

Definition load_word (a : addr) (e : eightbyte) : code :=
  andthen (load_eightbyte (Gpr tmp2) (plus a (Z.of_N (e_offset e))) (e_size e)) (push_eightbyte (Gpr tmp2)).
Definition store_word (a : addr) (e : eightbyte) : code :=
  andthen (pop_eightbyte (Gpr tmp2)) (store_eightbyte (plus a (Z.of_N (e_offset e))) (Gpr tmp2) (e_size e)).
Definition nth_word (l : layout) (i : nat) : eightbyte :=
  let offset := (N.of_nat i * 8)%N in Eightbyte offset (N.min (size l - offset) 8) (eightbyte_class l offset).
Lemma eightbytes_words l : eightbytes l = map (nth_word l) (List.seq 0 (N.to_nat (num_eightbytes l))).
Proof. reflexivity. Qed.
Lemma fst_all_cons c cs s : run (fst (all (c :: cs))) s = run (fst (all cs)) (run (fst c) s).
Proof. cbn. apply run_app. Qed.
Lemma snd_all_cons c cs : snd (all (c :: cs)) = snd c + snd (all cs).
Proof. reflexivity. Qed.

Lemma load_word_ok l a bs s i : address_ok a -> List.length bs = length_of l -> (8 * N.of_nat i < size l)%N ->
  in_mem (mem s) (ea a s + 8 * Z.of_nat i) (part bs (8 * N.of_nat i) 8) ->
  let s' := run (fst (load_word a (nth_word l i))) s in
  in_mem (mem s') (gp s Rsp - 8) (part bs (8 * N.of_nat i) 8) /\ gp s' Rsp = gp s Rsp - 8 /\
  same_outside (gp s Rsp - 8) (gp s Rsp) s s' /\
  (forall g, g <> R10 -> g <> R11 -> g <> Rsp -> gp s' g = gp s g) /\ xm s' = xm s.
Proof.
  intros A Ll Hi H. unfold load_word, nth_word. cbn [fst andthen e_offset e_size]. cbv zeta. rewrite run_app.
  set (n := N.min (size l - N.of_nat i * 8) 8). assert (Hn : (1 <= n <= 8)%N) by (subst n; lia).
  set (a' := plus a (Z.of_N (N.of_nat i * 8))).
  pose proof A as (_ & _ & A10 & A11 & Asp).
  assert (E : ea a' s = ea a s + 8 * Z.of_nat i) by (subst a'; rewrite ea_plus; lia).
  destruct (load_gpr_ok R11 a' n s Hn ltac:(discriminate) A11 A10) as (Hb & Hg & Hx & Hm).
  cbn [load_eightbyte keep fst]. change tmp2 with R11. set (t := run (load_gpr R11 a' n) s) in *.
  assert (R : in_reg (gp t R11) (part bs (8 * N.of_nat i) 8)).
  { rewrite <- part_trim. unfold length_of in Ll. replace (N.min (N.of_nat (List.length bs) - 8 * N.of_nat i) 8) with n by (subst n; lia).
    apply in_reg_of with (mem s) (ea a' s) (N.to_nat n); [exact Hb | | apply part_short].
    rewrite E. rewrite <- part_trim in H. replace (N.min (N.of_nat (List.length bs) - 8 * N.of_nat i) 8) with n in H by (subst n; lia). exact H. }
  cbn [push_eightbyte fst run step]. rewrite !(Hg Rsp) by discriminate.
  assert (D1 : R11 <> Rsp) by discriminate. rewrite gp_write. regs.
  split; [|split; [reflexivity | split; [|split]]].
  - apply in_mem_of with (gp t R11) 8%nat; [|exact R | apply part_short].
    intros j Hj. now rewrite cell_write_in.
  - intros b Hb'. rewrite mem_write_out by (cbn; lia). rewrite mem_set, Hm. reflexivity.
  - intros g N1 N2 N3. regs. now apply Hg.
  - exact Hx.
Qed.

Definition separate (a la b lb : Z) : Prop := a + la <= b \/ b + lb <= a.
Lemma apart_cases a la b lb : apart a la b lb -> 0 < la -> 0 < lb -> separate a la b lb.
Proof. intros H A B. unfold separate. destruct (Z.le_gt_cases a b); [specialize (H b) | specialize (H a)]; lia. Qed.

Lemma load_words_ok l a bs : address_ok a -> List.length bs = length_of l -> forall n s,
  (N.of_nat n <= num_eightbytes l)%N -> in_mem (mem s) (ea a s) bs ->
  separate (ea a s) (Z.of_N (size l)) (gp s Rsp - 8 * Z.of_nat n) (8 * Z.of_nat n) ->
  let c := all (map (load_word a) (rev (map (nth_word l) (List.seq 0 n)))) in
  let s' := run (fst c) s in
  in_mem (mem s') (gp s' Rsp) (part bs 0 (8 * N.of_nat n)) /\ gp s' Rsp = gp s Rsp - 8 * Z.of_nat n /\
  snd c = Z.of_nat n /\ same_outside (gp s Rsp - 8 * Z.of_nat n) (gp s Rsp) s s' /\
  (forall g, g <> R10 -> g <> R11 -> g <> Rsp -> gp s' g = gp s g).
Proof.
  intros A Ll. pose proof (words_bounds l) as Wd. unfold length_of in Ll. induction n as [|n IH]; intros s Hn H Ap c s'; subst c s'.
  - cbn. repeat split; try lia; try reflexivity. apply in_mem_short. unfold part. cbn. lia.
  - rewrite seq_S, map_app, rev_app_distr. cbn [map app rev Nat.add]. rewrite fst_all_cons, snd_all_cons.
    destruct (load_word_ok l a bs s n A Ll ltac:(lia)) as (B & Sp & O & G & X).
    { rewrite (Z.add_comm (ea a s)), Z.add_comm. replace (8 * Z.of_nat n) with (Z.of_N (8 * N.of_nat n)) by lia. now apply in_mem_part. }
    set (t := run (fst (load_word a (nth_word l n))) s) in *.
    assert (E : ea a t = ea a s) by (apply ea_eq; [intros; apply G; assumption | exact A]).
    assert (Ht : in_mem (mem t) (ea a t) bs).
    { rewrite E. apply in_mem_ext with (mem s); [exact H|]. intros i Hi. apply O. unfold separate in Ap. lia. }
    assert (Ap' : separate (ea a t) (Z.of_N (size l)) (gp t Rsp - 8 * Z.of_nat n) (8 * Z.of_nat n)) by (unfold separate in *; lia).
    destruct (IH t ltac:(lia) Ht Ap') as (B' & Sp' & De & O' & G').
    set (u := run (fst (all (map (load_word a) (rev (map (nth_word l) (List.seq 0 n)))))) t) in *.
    split; [|split; [lia | split; [|split]]].
    + replace (8 * N.of_nat (S n))%N with (8 * N.of_nat n + 8)%N by lia.
      replace (gp u Rsp) with (gp u Rsp + Z.of_N 0) in B' |- * by lia.
      apply in_mem_parts; [exact B'|]. rewrite N.add_0_l.
      apply in_mem_ext with (mem t).
      * replace (gp u Rsp + Z.of_N (8 * N.of_nat n)) with (gp s Rsp - 8) by lia. exact B.
      * intros i Hi. apply O'. lia.
    + rewrite De. change (snd (load_word a (nth_word l n))) with 1. lia.
    + intros b Hb. rewrite O' by lia. apply O. lia.
    + intros g N1 N2 N3. rewrite G', G by assumption. reflexivity.
Qed.

Lemma load_ok a l bs s : usable l -> address_ok a -> List.length bs = length_of l -> in_mem (mem s) (ea a s) bs ->
  apart (ea a s) (Z.of_N (size l)) (gp s Rsp - taken l) (taken l) ->
  let s' := run (fst (load a l)) s in
  value l bs s' /\ gp s' Rsp = gp s Rsp - taken l /\ snd (load a l) * 8 = taken l /\
  same_outside (gp s Rsp - taken l) (gp s Rsp) s s' /\ same_regs s s'.
Proof.
  intros U A Ll H Ap. unfold load. destruct (shape_of l U) as [E S L | r M S Wd L R Va | r r' M S Wd L R R' D Va | E S L]; rewrite L.
  - unfold is_memory, taken in *. rewrite E in *. unfold value. rewrite E. cbn. repeat split; try lia; try exact Ll.
  - rewrite (taken_other l M) in *. cbn [map all fst snd andthen a_reg a_offset a_size nothing]. rewrite app_nil_r.
    pose proof A as (A1 & A2 & A10 & A11 & Asp).
    destruct (load_reg_ok r (plus a (Z.of_N 0)) (size l) bs s (last_value_reg r R) ltac:(lia) ltac:(unfold length_of in Ll; lia)) as (B & Mm & G & X & De).
    { rewrite ea_plus. cbn. now rewrite Z.add_0_r. } { exact A10. } { exact A11. }
    { intros g Hg. exact (last_avoids a r g A R Hg). }
    cbv zeta. set (t := run _ s) in *. split; [apply Va; auto|]. split; [|split; [lia | split]].
    + rewrite G; try discriminate; [lia|]. destruct R as [-> | [-> | [-> | ->]]]; discriminate.
    + intros b Hb. now rewrite Mm.
    + intros g Hg. apply G; try (apply scratch_not with (1 := Hg); reflexivity). now apply last_not_scratch.
  - rewrite (taken_other l M) in *. cbn [map all fst snd andthen a_reg a_offset a_size nothing]. rewrite app_nil_r, run_app.
    pose proof A as (A1 & A2 & A10 & A11 & Asp). unfold length_of in Ll.
    pose proof (in_mem_part _ _ _ 0 8 H) as H1. pose proof (in_mem_part _ _ _ 8 (size l - 8) H) as H2.
    destruct (load_reg_ok r (plus a (Z.of_N 0)) 8 (part bs 0 8) s (last_value_reg r R) ltac:(lia) ltac:(apply part_short)) as (B & Mm & G & X & De).
    { rewrite ea_plus. exact H1. } { exact A10. } { exact A11. }
    { intros g Hg. exact (last_avoids a r g A R Hg). }
    set (t := run _ s) in *.
    assert (Ea : ea a t = ea a s).
    { apply ea_eq; [|exact A]. intros g N1 N2 N3 N4 N5. apply G; try assumption.
      destruct R as [-> | [-> | [-> | ->]]]; congruence. }
    destruct (load_reg_ok r' (plus a (Z.of_N 8)) (size l - 8) (part bs 8 (size l - 8)) t (last_value_reg r' R') ltac:(lia) ltac:(apply part_short)) as (B2 & Mm2 & G2 & X2 & De2).
    { rewrite ea_plus, Ea, Mm. exact H2. } { exact A10. } { exact A11. }
    { intros g Hg. exact (last_avoids a r' g A R' Hg). }
    cbv zeta. set (u := run _ t) in *. split; [apply Va; split; [exact Ll | split; [|exact B2]]|]. 
    { destruct R as [-> | [-> | [-> | ->]]]; cbn in *; rewrite ?X2, ?G2 by (congruence || discriminate); exact B. }
    split; [|split; [lia | split]].
    + rewrite G2, G; try discriminate; [lia | |]; [destruct R as [-> | [-> | [-> | ->]]] | destruct R' as [-> | [-> | [-> | ->]]]]; discriminate.
    + intros b Hb. now rewrite Mm2, Mm.
    + intros g Hg. rewrite G2, G; try reflexivity; try (apply scratch_not with (1 := Hg); reflexivity); now apply last_not_scratch.
  - unfold is_memory. rewrite E. cbn [class_eqb]. rewrite eightbytes_words.
    assert (T : taken l = 8 * Z.of_nat (N.to_nat (num_eightbytes l))) by (unfold taken; rewrite E, room_words; unfold words; lia).
    rewrite T in *. pose proof (words_bounds l). assert (Hsz : (16 < size l)%N) by (now apply (proj1 (proj1 U))).
    pose proof (apart_cases _ _ _ _ Ap ltac:(lia) ltac:(lia)) as Ap'.
    destruct (load_words_ok l a bs A Ll (N.to_nat (num_eightbytes l)) s ltac:(lia) H Ap') as (B & Sp & De & O & G).
    change (fun e : eightbyte => andthen _ _) with (load_word a). cbv zeta. cbv zeta in B, Sp, De, O, G. set (c := all _) in *.
    split; [|split; [exact Sp | split; [lia | split; [exact O|]]]].
    + apply value_memory; [exact E|]. split; [exact Ll|]. unfold part in B. cbn [N.to_nat skipn] in B.
      rewrite firstn_all2 in B by (unfold length_of in Ll; lia). exact B.
    + intros g Hg. apply G; apply scratch_not with (1 := Hg); reflexivity.
Qed.

Lemma store_word_ok l a bs s i : avoids a R11 -> avoids a Rsp -> List.length bs = length_of l -> (8 * N.of_nat i < size l)%N ->
  in_mem (mem s) (gp s Rsp) (part bs (8 * N.of_nat i) 8) ->
  let s' := run (fst (store_word a (nth_word l i))) s in
  in_mem (mem s') (ea a s + 8 * Z.of_nat i) (part bs (8 * N.of_nat i) 8) /\ gp s' Rsp = gp s Rsp + 8 /\
  same_outside (ea a s + 8 * Z.of_nat i) (ea a s + Z.min (Z.of_N (size l)) (8 * Z.of_nat i + 8)) s s' /\
  (forall g, g <> R11 -> g <> Rsp -> gp s' g = gp s g) /\ xm s' = xm s.
Proof.
  intros A11 Asp Ll Hi H. unfold store_word, nth_word. cbn [fst andthen e_offset e_size]. cbv zeta. rewrite run_app.
  set (n := N.min (size l - N.of_nat i * 8) 8). assert (Hn : (1 <= n <= 8)%N) by (subst n; lia).
  set (a' := plus a (Z.of_N (N.of_nat i * 8))).
  cbn [pop_eightbyte fst run step]. change tmp2 with R11.
  set (t := set_gp R11 _ _) in *.
  assert (E : ea a' t = ea a s + 8 * Z.of_nat i) by (subst a' t; rewrite ea_plus, !ea_set by assumption; lia).
  assert (D1 : Rsp <> R11) by discriminate.
  destruct (store_gpr_ok R11 a' n t Hn A11) as (Hb & Hm & Hg & Hx).
  cbn [store_eightbyte keep fst]. set (u := run (store_gpr a' R11 n) t) in *. rewrite E in *.
  split; [|split; [|split; [|split]]].
  - rewrite <- part_trim. unfold length_of in Ll. replace (N.min (N.of_nat (List.length bs) - 8 * N.of_nat i) 8) with n by (subst n; lia).
    apply in_mem_of with (gp t R11) (N.to_nat n); [exact Hb | | apply part_short].
    subst t. regs. apply in_reg_of with (mem s) (gp s Rsp) 8%nat.
    + intros j Hj. rewrite byte_read. destruct (Nat.ltb_spec j 8); [reflexivity | lia].
    + rewrite <- part_trim in H. replace (N.min (N.of_nat (List.length bs) - 8 * N.of_nat i) 8) with n in H by (subst n; lia). exact H.
    + pose proof (part_short bs (8 * N.of_nat i) n). lia.
  - rewrite Hg by discriminate. subst t. regs. reflexivity.
  - intros b Hb'. rewrite Hm by (subst n; lia). reflexivity.
  - intros g N1 N2. rewrite Hg by assumption. subst t. regs. reflexivity.
  - exact Hx.
Qed.

Lemma ea_same a s s' : avoids a R11 -> avoids a Rsp -> (forall g, g <> R11 -> g <> Rsp -> gp s' g = gp s g) -> ea a s' = ea a s.
Proof.
  intros A B H. unfold ea, avoids in *. destruct a as [b i d]; cbn in *. rewrite H by tauto.
  destruct i as [i|]; [rewrite H by tauto|]; reflexivity.
Qed.
Lemma store_words_ok l a bs : avoids a R11 -> avoids a Rsp -> List.length bs = length_of l -> forall n k s,
  (N.of_nat k + N.of_nat n <= num_eightbytes l)%N ->
  in_mem (mem s) (gp s Rsp) (part bs (8 * N.of_nat k) (8 * N.of_nat n)) ->
  separate (ea a s + 8 * Z.of_nat k) (Z.of_N (size l) - 8 * Z.of_nat k) (gp s Rsp) (8 * Z.of_nat n) ->
  let c := all (map (store_word a) (map (nth_word l) (List.seq k n))) in
  let s' := run (fst c) s in
  in_mem (mem s') (ea a s + 8 * Z.of_nat k) (part bs (8 * N.of_nat k) (8 * N.of_nat n)) /\
  gp s' Rsp = gp s Rsp + 8 * Z.of_nat n /\ snd c = - Z.of_nat n /\
  (forall b, b < ea a s + 8 * Z.of_nat k \/ ea a s + Z.of_N (size l) <= b -> mem s' b = mem s b) /\
  (forall g, g <> R11 -> g <> Rsp -> gp s' g = gp s g).
Proof.
  intros A B0 Ll. pose proof (words_bounds l) as Wd. unfold length_of in Ll. induction n as [|n IH]; intros k s Hn H Ap c s'; subst c s'.
  - cbn. repeat split; try lia; try reflexivity. apply in_mem_short. unfold part. cbn. lia.
  - cbn [List.seq map]. rewrite fst_all_cons, snd_all_cons.
    replace (8 * N.of_nat (S n))%N with (8 + 8 * N.of_nat n)%N in * by lia.
    assert (H0 : in_mem (mem s) (gp s Rsp) (part bs (8 * N.of_nat k) 8)).
    { intros i b Hi. apply H. rewrite nth_part in *. destruct (Nat.ltb_spec i (N.to_nat 8)); [|discriminate].
      destruct (Nat.ltb_spec i (N.to_nat (8 + 8 * N.of_nat n))); [assumption | lia]. }
    assert (H1 : in_mem (mem s) (gp s Rsp + 8) (part bs (8 * N.of_nat (S k)) (8 * N.of_nat n))).
    { intros i b Hi. replace (gp s Rsp + 8 + Z.of_nat i) with (gp s Rsp + Z.of_nat (8 + i)) by lia.
      apply H. rewrite nth_part in *. destruct (Nat.ltb_spec i (N.to_nat (8 * N.of_nat n))); [|discriminate].
      destruct (Nat.ltb_spec (8 + i) (N.to_nat (8 + 8 * N.of_nat n))); [|lia]. rewrite <- Hi. f_equal. lia. }
    destruct (store_word_ok l a bs s k A B0 Ll ltac:(lia) H0) as (B & Sp & O & G & X).
    set (t := run (fst (store_word a (nth_word l k))) s) in *.
    assert (E : ea a t = ea a s) by (apply ea_same; assumption).
    assert (Ht : in_mem (mem t) (gp t Rsp) (part bs (8 * N.of_nat (S k)) (8 * N.of_nat n))).
    { rewrite Sp. apply in_mem_ext with (mem s); [exact H1|]. intros i Hi.
      pose proof (part_short bs (8 * N.of_nat (S k)) (8 * N.of_nat n)). apply O. unfold separate in Ap. lia. }
    assert (Ap' : separate (ea a t + 8 * Z.of_nat (S k)) (Z.of_N (size l) - 8 * Z.of_nat (S k)) (gp t Rsp) (8 * Z.of_nat n)) by (unfold separate in *; lia).
    destruct (IH (S k) t ltac:(lia) Ht Ap') as (B' & Sp' & De & O' & G').
    set (c := all (map (store_word a) (map (nth_word l) (List.seq (S k) n)))) in *. set (u := run (fst c) t) in *.
    rewrite E in *.
    split; [|split; [lia | split; [|split]]].
    + replace (ea a s + 8 * Z.of_nat k) with (ea a s + Z.of_N (8 * N.of_nat k)) in * by lia.
      apply in_mem_parts.
      * apply in_mem_ext with (mem t); [exact B|]. intros i Hi.
        pose proof (part_short bs (8 * N.of_nat k) 8). apply O'. lia.
      * replace (8 * N.of_nat k + 8)%N with (8 * N.of_nat (S k))%N by lia.
        replace (ea a s + Z.of_N (8 * N.of_nat (S k))) with (ea a s + 8 * Z.of_nat (S k)) by lia. exact B'.
    + rewrite De. change (snd (store_word a (nth_word l k))) with (-1). lia.
    + intros b Hb. rewrite O' by lia. apply O. lia.
    + intros g N1 N2. rewrite G', G by assumption. reflexivity.
Qed.

Lemma store_memory_ok a l bs s : usable l -> cls l = Memory -> avoids a R11 -> avoids a Rsp -> value l bs s ->
  apart (ea a s) (Z.of_N (size l)) (gp s Rsp) (taken l) ->
  let s' := run (fst (store a l)) s in
  in_mem (mem s') (ea a s) bs /\ gp s' Rsp = gp s Rsp + taken l /\ snd (store a l) * 8 = - taken l /\
  same_outside (ea a s) (ea a s + Z.of_N (size l)) s s' /\ (forall g, g <> R11 -> g <> Rsp -> gp s' g = gp s g).
Proof.
  intros U E A11 Asp H Ap. pose proof (proj1 H) as Ll. unfold store.
  destruct (shape_of l U) as [E' S L | r M S Wd L R Va | r r' M S Wd L R R' D Va | E' S L]; rewrite L; try congruence.
  unfold is_memory. rewrite E. cbn [class_eqb]. rewrite eightbytes_words.
    assert (T : taken l = 8 * Z.of_nat (N.to_nat (num_eightbytes l))) by (unfold taken; rewrite E, room_words; unfold words; lia).
    rewrite T in *. pose proof (words_bounds l). apply value_memory in H; [|exact E]. destruct H as [_ H].
    assert (P : part bs (8 * N.of_nat 0) (8 * N.of_nat (N.to_nat (num_eightbytes l))) = bs).
    { unfold part. change (N.to_nat (8 * N.of_nat 0)) with 0%nat. cbn [skipn]. apply firstn_all2. unfold length_of in Ll. lia. }
    destruct (store_words_ok l a bs A11 Asp Ll (N.to_nat (num_eightbytes l)) 0 s ltac:(lia)) as (B & Sp & De & O & G).
    { now rewrite P. }
    { assert (Hsz : (16 < size l)%N) by (now apply (proj1 (proj1 U))).
      pose proof (apart_cases _ _ _ _ Ap ltac:(lia) ltac:(lia)) as Ap'. unfold separate in *. lia. }
    change (fun e : eightbyte => andthen _ _) with (store_word a). cbv zeta. cbv zeta in B, Sp, De, O, G. set (c := all _) in *.
    rewrite P in B. rewrite Z.mul_0_r, Z.add_0_r in *.
    split; [exact B|]. split; [exact Sp|]. split; [lia|]. split; [exact O|]. exact G.
Qed.

Lemma store_ok a l bs s : usable l -> address_ok a -> value l bs s ->
  apart (ea a s) (Z.of_N (size l)) (gp s Rsp) (taken l) ->
  let s' := run (fst (store a l)) s in
  in_mem (mem s') (ea a s) bs /\ gp s' Rsp = gp s Rsp + taken l /\ snd (store a l) * 8 = - taken l /\
  same_outside (ea a s) (ea a s + Z.of_N (size l)) s s' /\ same_regs s s'.
Proof.
  intros U A H Ap. pose proof (proj1 H) as Ll. unfold store.
  destruct (shape_of l U) as [E S L | r M S Wd L R Va | r r' M S Wd L R R' D Va | E S L]; rewrite L.
  - unfold is_memory, taken in *. rewrite E in *. cbn. repeat split; try lia.
    apply in_mem_short. unfold length_of in Ll. lia.
  - rewrite (taken_other l M) in *. cbn [map all fst snd andthen a_reg a_offset a_size nothing]. rewrite app_nil_r.
    pose proof A as (A1 & A2 & A10 & A11 & Asp). apply Va in H. destruct H as [_ H].
    destruct (store_reg_ok r (plus a (Z.of_N 0)) (size l) bs s (last_value_reg r R) ltac:(lia) ltac:(unfold length_of in Ll; lia) H A11
      (fun g Hg => last_avoids a r g A R Hg)) as (B & O & G & X & De).
    rewrite ea_plus, Z.add_0_r in *.
    cbv zeta. set (t := run _ s) in *. split; [exact B|]. split; [|split; [lia | split; [exact O|]]].
    + rewrite G; try discriminate; [lia|]. destruct R as [-> | [-> | [-> | ->]]]; discriminate.
    + intros g Hg. apply G; try (apply scratch_not with (1 := Hg); reflexivity). now apply last_not_scratch.
  - rewrite (taken_other l M) in *. cbn [map all fst snd andthen a_reg a_offset a_size nothing]. rewrite app_nil_r, run_app.
    pose proof A as (A1 & A2 & A10 & A11 & Asp). unfold length_of in Ll. apply Va in H. destruct H as (_ & H & H').
    destruct (store_reg_ok r (plus a (Z.of_N 0)) 8 (part bs 0 8) s (last_value_reg r R) ltac:(lia) ltac:(apply part_short) H A11
      (fun g Hg => last_avoids a r g A R Hg)) as (B & O & G & X & De).
    rewrite ea_plus, Z.add_0_r in *. set (t := run _ s) in *.
    assert (Ea : ea a t = ea a s).
    { apply ea_eq; [|exact A]. intros g N1 N2 N3 N4 N5. apply G; try assumption.
      destruct R as [-> | [-> | [-> | ->]]]; congruence. }
    assert (Ht : reg_holds r' (part bs 8 (size l - 8)) t).
    { destruct R' as [-> | [-> | [-> | ->]]]; cbn in *; rewrite ?X, ?G by (congruence || discriminate); exact H'. }
    destruct (store_reg_ok r' (plus a (Z.of_N 8)) (size l - 8) (part bs 8 (size l - 8)) t (last_value_reg r' R') ltac:(lia) ltac:(apply part_short) Ht A11
      (fun g Hg => last_avoids a r' g A R' Hg)) as (B2 & O2 & G2 & X2 & De2).
    rewrite ea_plus, Ea in *. change (Z.of_N 8) with 8 in *.
    cbv zeta. set (u := run _ t) in *. split; [|split; [|split; [lia | split]]].
    + apply in_mem_two with (size l); [lia | lia | | exact B2].
      apply in_mem_ext with (mem t); [exact B|]. intros i Hi. apply O2. pose proof (part_short bs 0 8). lia.
    + rewrite G2, G; try discriminate; [lia | |]; [destruct R as [-> | [-> | [-> | ->]]] | destruct R' as [-> | [-> | [-> | ->]]]]; discriminate.
    + intros b Hb. rewrite O2 by lia. apply O. lia.
    + intros g Hg. rewrite G2, G; try reflexivity; try (apply scratch_not with (1 := Hg); reflexivity); now apply last_not_scratch.
  - pose proof A as (_ & _ & _ & A11 & Asp).
    destruct (store_memory_ok a l bs s U E A11 Asp H Ap) as (B & Sp & De & O & G). unfold store in B, Sp, De, O, G. rewrite L in B, Sp, De, O, G.
    split; [exact B|]. split; [exact Sp|]. split; [exact De|]. split; [exact O|].
    intros g Hg. apply G; apply scratch_not with (1 := Hg); reflexivity.
Qed.

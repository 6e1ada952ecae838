(** Values in registers and in memory: pushing, popping, loading and storing. *)
From Coq Require Import ZArith Lia.
From Verif.Base Require Import Base.
From Verif.Ir Require Import Model.
From Verif.Layout Require Import Model Spec Proofs ProofsClass ProofsResolve.
From Verif.Stack Require Import Machine Model Spec Facts.
Local Open Scope Z_scope.

(** ** Bytes *)
Lemma nth_skipn {A} (l : list A) n i : nth_error (skipn n l) i = nth_error l (n + i).
Proof. revert l. induction n; intros l; [reflexivity|]. destruct l; [now destruct i | apply IHn]. Qed.
Lemma nth_firstn {A} (l : list A) n i : nth_error (firstn n l) i = if (i <? n)%nat then nth_error l i else None.
Proof.
  revert l i. induction n; intros l i; [now destruct i|].
  destruct l; [destruct (i <? S n)%nat; now destruct i|]. destruct i; [reflexivity | exact (IHn l i)].
Qed.
Lemma part_length {A} (bs : list A) o n : (o + n <= N.of_nat (List.length bs))%N ->
  List.length (part bs o n) = N.to_nat n.
Proof. intros. unfold part. rewrite firstn_length, skipn_length. lia. Qed.
Lemma nth_part {A} (bs : list A) o n i : nth_error (part bs o n) i =
  if (i <? N.to_nat n)%nat then nth_error bs (N.to_nat o + i) else None.
Proof. unfold part. rewrite nth_firstn, nth_skipn. reflexivity. Qed.
Lemma nth_bound {A} (l : list A) i b : nth_error l i = Some b -> (i < List.length l)%nat.
Proof. intros H. apply nth_error_Some. congruence. Qed.

Lemma in_mem_part m a bs o n : in_mem m a bs -> in_mem m (a + Z.of_N o) (part bs o n).
Proof.
  intros H i b Hi. rewrite nth_part in Hi. destruct (i <? N.to_nat n)%nat; [|discriminate].
  rewrite <- (H _ _ Hi). f_equal. lia.
Qed.
Lemma in_reg_of m a v bs n : (forall i, (i < n)%nat -> byte v i = cell m (a + Z.of_nat i)) ->
  in_mem m a bs -> (List.length bs <= n)%nat -> in_reg v bs.
Proof. intros Hv Hm Hl i b Hi. rewrite Hv by (apply nth_bound in Hi; lia). now apply Hm. Qed.
Lemma in_mem_of m a v bs n : (forall i, (i < n)%nat -> cell m (a + Z.of_nat i) = byte v i) ->
  in_reg v bs -> (List.length bs <= n)%nat -> in_mem m a bs.
Proof. intros Hv Hm Hl i b Hi. rewrite Hv by (apply nth_bound in Hi; lia). now apply Hm. Qed.
Lemma in_mem_ext m m' a bs : in_mem m a bs ->
  (forall i, (i < List.length bs)%nat -> m' (a + Z.of_nat i) = m (a + Z.of_nat i)) -> in_mem m' a bs.
Proof. intros H E i b Hi. unfold cell. rewrite E by (now apply nth_bound in Hi). now apply H. Qed.
(** Two parts that follow each other. *)
Lemma in_mem_parts m a bs o n n' : in_mem m (a + Z.of_N o) (part bs o n) ->
  in_mem m (a + Z.of_N (o + n)) (part bs (o + n) n') ->
  in_mem m (a + Z.of_N o) (part bs o (n + n')).
Proof.
  intros H H' i b Hi. rewrite nth_part in Hi. destruct (Nat.ltb_spec i (N.to_nat (n + n'))); [|discriminate].
  destruct (Nat.ltb_spec i (N.to_nat n)).
  - apply H. rewrite nth_part. destruct (Nat.ltb_spec i (N.to_nat n)); [assumption | lia].
  - replace (a + Z.of_N o + Z.of_nat i) with (a + Z.of_N (o + n) + Z.of_nat (i - N.to_nat n)) by lia.
    apply H'. rewrite nth_part. destruct (Nat.ltb_spec (i - N.to_nat n) (N.to_nat n')); [|lia].
    rewrite <- Hi. f_equal. lia.
Qed.
Lemma part_all {A} (bs : list A) n : N.of_nat (List.length bs) = n -> part bs 0 n = bs.
Proof. intros <-. unfold part. cbn. rewrite Nnat.Nat2N.id. apply firstn_all. Qed.

(** ** Layouts *)
Definition in_register (c : class) : Prop := c = Integer \/ c = FloatingPoint.
Definition usable (l : layout) : Prop :=
  class_ok l /\ (cls l <> Memory -> Forall in_register (map e_class (eightbytes l))).

Lemma good_usable l : good l -> usable l.
Proof.
  intros G. pose proof (good_class l G) as C. split; [exact C|]. intros M.
  destruct (N.eq_dec (size l) 0) as [E|E].
  { unfold eightbytes, num_eightbytes. rewrite E. constructor. }
  destruct (N.lt_ge_cases 16 (size l)) as [K|K]; [elim M; now apply (proj1 C)|].
  pose proof (eightbytes_have_class l G ltac:(lia)) as H. apply Forall_map.
  revert H. apply Forall_impl. intros e H. unfold in_register. destruct (e_class e); cbn in H; tauto.
Qed.
Lemma words_bounds l : (size l <= num_eightbytes l * 8 < size l + 8)%N.
Proof. unfold num_eightbytes. pose proof (N.div_mod (size l + 7) 8). pose proof (N.mod_lt (size l + 7) 8). lia. Qed.
Lemma words_in_stack l : num_eightbytes (in_stack l) = num_eightbytes l.
Proof.
  pose proof (words_bounds l). pose proof (words_bounds (in_stack l)).
  change (size (in_stack l)) with (num_eightbytes l * 8)%N in *. lia.
Qed.
Lemma classes_in_stack l : map e_class (eightbytes (in_stack l)) = map e_class (eightbytes l).
Proof. unfold eightbytes. rewrite words_in_stack, !map_map. apply map_ext. intros i. reflexivity. Qed.
Lemma usable_in_stack l : usable l -> usable (in_stack l).
Proof.
  intros [[M V] F]. pose proof (words_bounds l).
  split; [split|]; change (cls (in_stack l)) with (cls l).
  - rewrite M. change (size (in_stack l)) with (num_eightbytes l * 8)%N. lia.
  - rewrite V. change (size (in_stack l)) with (num_eightbytes l * 8)%N. lia.
  - rewrite classes_in_stack. exact F.
Qed.
Lemma type_layout_usable l : type_layout l -> usable l.
Proof.
  induction 1 as [r t l R G | l _ IH]; [|now apply usable_in_stack].
  apply good_usable. exact (reached_good r R t l G).
Qed.

Lemma room_words l : room l = words l * 8.
Proof. unfold room, words, num_eightbytes. rewrite N2Z.inj_div, N2Z.inj_add. lia. Qed.

(** The layouts of values in registers have one or two eightbytes. *)
Lemma small_eightbytes l : usable l -> cls l <> Memory -> cls l <> Void ->
  (exists c, eightbytes l = [Eightbyte 0 (size l) c] /\ (1 <= size l <= 8)%N /\ in_register c) \/
  (exists c c', eightbytes l = [Eightbyte 0 8 c; Eightbyte 8 (size l - 8) c'] /\ (9 <= size l <= 16)%N /\
     in_register c /\ in_register c').
Proof.
  intros [[M V] F] H H'. specialize (F H).
  assert (S0 : size l <> 0%N) by (intros E; apply H'; now apply V).
  assert (S16 : (size l <= 16)%N) by (destruct (N.lt_ge_cases 16 (size l)); [elim H; now apply M | assumption]).
  pose proof (words_bounds l) as Wd. unfold eightbytes in *.
  destruct (N.le_gt_cases (size l) 8).
  - left. replace (num_eightbytes l) with 1%N in * by lia. change (N.to_nat 1) with 1%nat in *.
    cbn [List.seq map] in *. change (N.of_nat 0 * 8)%N with 0%N in *.
    inversion F as [|? ? Hc _]; subst. exists (eightbyte_class l 0). split; [|split; [lia | exact Hc]].
    replace (N.min (size l - 0) 8) with (size l) by lia. reflexivity.
  - right. replace (num_eightbytes l) with 2%N in * by lia. change (N.to_nat 2) with 2%nat in *.
    cbn [List.seq map] in *. change (N.of_nat 0 * 8)%N with 0%N in *. change (N.of_nat 1 * 8)%N with 8%N in *.
    inversion F as [|? ? Hc F']; subst. inversion F' as [|? ? Hc' _]; subst.
    exists (eightbyte_class l 0), (eightbyte_class l 8). split; [|split; [lia | split; [exact Hc | exact Hc']]].
    replace (N.min (size l - 0) 8) with 8%N by lia. replace (N.min (size l - 8) 8) with (size l - 8)%N by lia.
    reflexivity.
Qed.
Lemma class_cases l : cls l = Void \/ cls l = Memory \/ (cls l <> Memory /\ cls l <> Void).
Proof. destruct (cls l); auto; right; right; split; discriminate. Qed.

(** ** One eightbyte *)

(** What the register [r] holds. *)
Definition reg_holds (r : reg) (bs : list Z) (s : state) : Prop :=
  match r with Gpr g => in_reg (gp s g) bs | Xmm x => in_reg (xm s x) bs | NoReg => False end.
(** Registers of values are none of the temporaries and not the stack pointer. *)
Definition value_reg (r : reg) : Prop :=
  match r with Gpr g => g <> R10 /\ g <> R11 /\ g <> Rsp | Xmm _ => True | NoReg => False end.

Lemma push_reg_ok r bs s : value_reg r -> reg_holds r bs s -> (List.length bs <= 8)%nat ->
  let s' := run (fst (push_eightbyte r)) s in
  in_mem (mem s') (gp s' Rsp) bs /\ gp s' Rsp = gp s Rsp - 8 /\
  same_outside (gp s Rsp - 8) (gp s Rsp) s s' /\
  (forall g, g <> R11 -> g <> Rsp -> gp s' g = gp s g) /\ xm s' = xm s /\ snd (push_eightbyte r) = 1.
Proof.
  intros Hr H Hl. assert (Hd : Rsp <> R11) by discriminate. assert (Hd' : R11 <> Rsp) by discriminate.
  destruct r as [g|x|]; [destruct Hr as (G1 & G2 & G3) | |contradiction]; cbn in H; cbv zeta;
    cbn [push_eightbyte fst snd run step]; change tmp2 with R11; regs.
  - split; [|split; [reflexivity | split; [|split; [intros g' N1 N2; regs; reflexivity | split; reflexivity]]]].
    + apply in_mem_of with (gp s g) 8%nat; [|assumption|assumption].
      intros i Hi. now rewrite cell_write_in.
    + intros a Ha. rewrite mem_write_out by (cbn; lia). reflexivity.
  - split; [|split; [reflexivity | split; [|split; [intros g' N1 N2; regs; reflexivity | split; reflexivity]]]].
    + apply in_mem_of with (xm s x) 8%nat; [|assumption|assumption].
      intros i Hi. now rewrite cell_write_in.
    + intros a Ha. rewrite mem_write_out by (cbn; lia). reflexivity.
Qed.

Lemma pop_reg_ok r bs s : value_reg r -> in_mem (mem s) (gp s Rsp) bs -> (List.length bs <= 8)%nat ->
  let s' := run (fst (pop_eightbyte r)) s in
  reg_holds r bs s' /\ gp s' Rsp = gp s Rsp + 8 /\ mem s' = mem s /\
  (forall g, g <> R11 -> g <> Rsp -> Gpr g <> r -> gp s' g = gp s g) /\
  (forall x, Xmm x <> r -> xm s' x = xm s x) /\ snd (pop_eightbyte r) = -1.
Proof.
  intros Hr H Hl. assert (Hd : Rsp <> R11) by discriminate.
  assert (R : in_reg (read 8 (mem s) (gp s Rsp)) bs).
  { apply in_reg_of with (mem s) (gp s Rsp) 8%nat; [|assumption|assumption].
    intros i Hi. rewrite byte_read. destruct (Nat.ltb_spec i 8); [reflexivity | lia]. }
  destruct r as [g|x|]; [destruct Hr as (G1 & G2 & G3) | |contradiction]; cbv zeta;
    cbn [pop_eightbyte fst snd run step reg_holds]; change tmp2 with R11.
  - regs. split; [exact R|]. split; [reflexivity|]. split; [reflexivity|].
    split; [|split; reflexivity]. intros g' N1 N2 N3. assert (g' <> g) by congruence. regs. reflexivity.
  - cbn [set_xm gp xm mem]. regs. rewrite Nat.eqb_refl. split; [exact R|]. split; [reflexivity|]. split; [reflexivity|].
    split; [intros g' N1 N2 _; regs; reflexivity|]. split; [|reflexivity].
    intros y Hy. destruct (Nat.eqb_spec y x); [congruence | reflexivity].
Qed.

Definition address_ok (a : addr) : Prop := avoids a Rax /\ avoids a Rdx /\ avoids a R10 /\ avoids a R11 /\ avoids a Rsp.
Lemma usable_address_ok a : usable_address a -> address_ok a.
Proof.
  intros [Hb Hi]. unfold address_ok, avoids. destruct (index a) as [x|]; repeat split;
    try (intros E; rewrite E in *; discriminate); auto.
Qed.

Lemma load_reg_ok r a n bs s : value_reg r -> (1 <= n <= 8)%N -> (List.length bs <= N.to_nat n)%nat ->
  in_mem (mem s) (ea a s) bs -> avoids a R10 -> avoids a R11 -> (forall g, r = Gpr g -> avoids a g) ->
  let s' := run (fst (load_eightbyte r a n)) s in
  reg_holds r bs s' /\ mem s' = mem s /\
  (forall g, g <> R10 -> g <> R11 -> Gpr g <> r -> gp s' g = gp s g) /\
  (forall x, Xmm x <> r -> xm s' x = xm s x) /\ snd (load_eightbyte r a n) = 0.
Proof.
  intros Hr Hn Hl H A10 A11 Ag. destruct r as [g|x|]; [| |contradiction]; cbv zeta; cbn [load_eightbyte keep fst snd].
  - destruct Hr as (G1 & G2 & G3).
    destruct (load_gpr_ok g a n s Hn G1 (Ag g eq_refl) A10) as (Hb & Hg & Hx & Hm).
    split; [cbn; now apply in_reg_of with (mem s) (ea a s) (N.to_nat n)|]. split; [exact Hm|].
    split; [intros g' N1 N2 N3; apply Hg; congruence|]. split; [intros; now rewrite Hx | reflexivity].
  - destruct (load_gpr_ok R11 a n s Hn ltac:(discriminate) A11 A10) as (Hb & Hg & Hx & Hm).
    rewrite run_app. cbn [run step]. change tmp2 with R11.
    set (t := run (load_gpr R11 a n) s) in *. cbn [set_xm gp xm mem reg_holds]. rewrite Nat.eqb_refl.
    split; [now apply in_reg_of with (mem s) (ea a s) (N.to_nat n)|]. split; [exact Hm|].
    split; [intros g' N1 N2 _; now apply Hg|]. split; [|reflexivity].
    intros y Hy. destruct (Nat.eqb_spec y x); [congruence | now rewrite Hx].
Qed.

Lemma store_reg_ok r a n bs s : value_reg r -> (1 <= n <= 8)%N -> (List.length bs <= N.to_nat n)%nat ->
  reg_holds r bs s -> avoids a R11 -> (forall g, r = Gpr g -> avoids a g) ->
  let s' := run (fst (store_eightbyte a r n)) s in
  in_mem (mem s') (ea a s) bs /\ same_outside (ea a s) (ea a s + Z.of_N n) s s' /\
  (forall g, g <> R11 -> Gpr g <> r -> gp s' g = gp s g) /\ xm s' = xm s /\
  snd (store_eightbyte a r n) = 0.
Proof.
  intros Hr Hn Hl H A11 Ag. destruct r as [g|x|]; [| |contradiction]; cbv zeta; cbn [store_eightbyte keep fst snd].
  - destruct (store_gpr_ok g a n s Hn (Ag g eq_refl)) as (Hb & Hm & Hg & Hx).
    split; [now apply in_mem_of with (gp s g) (N.to_nat n)|]. split; [exact Hm|].
    split; [intros g' N1 N2; apply Hg; congruence|]. split; [exact Hx | reflexivity].
  - cbn [run step]. change tmp2 with R11.
    destruct (store_gpr_ok R11 a n (set_gp R11 (xm s x) s) Hn A11) as (Hb & Hm & Hg & Hx).
    rewrite ea_set in * by assumption. rewrite gp_set, gpr_eqb_refl in Hb.
    split; [now apply in_mem_of with (xm s x) (N.to_nat n)|]. split; [exact Hm|].
    split; [intros g' N1 _; rewrite Hg by assumption; regs; reflexivity|]. split; [exact Hx | reflexivity].
Qed.

(** The arithmetic instructions do what the operators mean. *)
From Coq Require Import ZArith Lia SpecFloat.
From Verif.Base Require Import Base.
From Verif.Ir Require Import Model.
From Verif.Layout Require Import Model.
From Verif.Stack Require Import Machine Model Spec Facts Proofs ProofsValue.
From Verif.Codegen Require Import Float Alu Operators Model Machine Spec Facts ProofsGen ProofsFrame ProofsRun ProofsInv ProofsNum.
Local Open Scope Z_scope.

Ltac block_is := unfold block; cbn [alu_run alu_step]; reflexivity.
Ltac safe := repeat constructor.
Ltac done_with := match goal with |- exists s', block ?is _ = _ /\ _ => eexists; split; [block_is|]; split; [apply (block_safe is); [safe | block_is]|] end.

Lemma shift_count w c y : low w c = y -> 0 <= y < bits w -> low B c mod match w with Q => 64 | _ => 32 end = y.
Proof.
  intros E Y. pose proof (bits_pos w). assert (low B c = y) as ->.
  { rewrite <- (low_id B y); [|unfold in_bits; change (2 ^ bits B) with 256; lia]. apply low_less with w; [change (bits B) with 8; lia|]. rewrite <- E. symmetry. apply low_low. }
  apply Z.mod_small. destruct w; cbn in *; lia.
Qed.
Lemma quot_between h x y : 0 < h -> - h <= x < h -> y <> 0 -> ~ (x = - h /\ y = -1) -> - h <= Z.quot x y < h.
Proof.
  intros P X Y N. destruct (Z.eq_dec y 1) as [-> |N1]; [now rewrite Z.quot_1_r|]. destruct (Z.eq_dec y (-1)) as [-> |N2].
  { change (-1) with (Z.opp 1). rewrite Z.quot_opp_r, Z.quot_1_r by discriminate. clear Y. assert (x <> -h) by (intros ->; apply N; auto). lia. }
  assert (Y1 : 0 < Z.abs y) by lia. assert (Y2 : 2 <= Z.abs y) by lia. assert (X1 : 0 <= Z.abs x) by lia. assert (X2 : Z.abs x < 2 * h) by lia.
  assert (B : Z.abs (Z.quot x y) < h); [|apply Z.abs_lt in B; split; [apply Z.lt_le_incl|]; apply B].
  rewrite <- (Z.quot_abs x y Y), Z.quot_div_nonneg by assumption.
  apply Z.le_lt_trans with (Z.abs x / 2); [apply Z.div_le_compat_l; [assumption | split; [reflexivity | assumption]]|]. now apply Z.div_lt_upper_bound.
Qed.
Lemma quot_fits w sx sy : - 2 ^ (bits w - 1) <= sx < 2 ^ (bits w - 1) -> sy <> 0 -> ~ (sx = - 2 ^ (bits w - 1) /\ sy = -1) ->
  - 2 ^ (bits w - 1) <= Z.quot sx sy < 2 ^ (bits w - 1).
Proof. apply quot_between, half_pos. Qed.

Lemma ok_divisor w x y : negb (signed w y =? 0) && negb ((signed w x =? - 2 ^ (bits w - 1)) && (signed w y =? -1)) = true ->
  signed w y <> 0 /\ ~ (signed w x = - 2 ^ (bits w - 1) /\ signed w y = -1).
Proof.
  intros H. apply andb_prop in H. destruct H as [H1 H2]. apply negb_true_iff in H1, H2. apply Z.eqb_neq in H1. split; [exact H1|].
  intros [E1 E2]. rewrite E1, E2, !Z.eqb_refl in H2. discriminate.
Qed.
Lemma divided_signed w d x y v : d = signed w x -> signed w v = signed w y -> signed w y <> 0 -> ~ (signed w x = - 2 ^ (bits w - 1) /\ signed w y = -1) ->
  divided true w d v = Some (Z.quot (signed w x) (signed w y), Z.rem (signed w x) (signed w y)).
Proof.
  intros -> E N O. unfold divided. rewrite E. pose proof (quot_fits w _ _ (signed_bound w x) N O) as B.
  rewrite (proj2 (Z.eqb_neq _ _) N), (proj2 (Z.leb_le _ _) (proj1 B)), (proj2 (Z.ltb_lt _ _) (proj2 B)). reflexivity.
Qed.
Lemma divided_unsigned w x y v : in_bits w x -> low w v = y -> 0 <= y -> y <> 0 -> divided false w x v = Some (x / y, x mod y).
Proof.
  intros X E P N. unfold divided. rewrite E. unfold in_bits in X. assert (x / y <= x) by (apply Z.div_le_upper_bound; nia).
  rewrite (proj2 (Z.eqb_neq _ _) N), (proj2 (Z.ltb_lt _ _)) by lia. reflexivity.
Qed.
Lemma low_w_b q m : low B (low B q + 256 * low B m) = low B q.
Proof. rewrite <- (low_low B q) at 2. apply low_eq. exists (low B m). change (2 ^ bits B) with 256. lia. Qed.
Lemma high_b q m v : low W v = low W (low B q + 256 * low B m) -> low B (Z.shiftr v 8) = low B m.
Proof.
  intros E. pose proof (low_bound B q) as Bq. change (2 ^ bits B) with 256 in Bq.
  assert (Em : low B m = Z.shiftr (low B q + 256 * low B m) 8).
  { rewrite Z.shiftr_div_pow2 by lia. change (2 ^ 8) with 256. rewrite (Z.mul_comm 256), Z.div_add, Z.div_small by lia. reflexivity. }
  rewrite <- (low_low B m), Em. apply low_ext. change (bits B) with 8. intros k K. rewrite !Z.shiftr_spec by lia.
  apply (low_bits W _ _ _ E). change (bits W) with 16. lia.
Qed.
(** The dividend in [rdx] and [rax]. *)
Lemma dividend w x a d : low w a = low w x -> signed w d = (if signed w x <? 0 then -1 else 0) -> signed w d * 2 ^ bits w + low w a = signed w x.
Proof.
  intros E D. rewrite D, E. unfold signed. pose proof (low_bound w x). pose proof (pow_half w). pose proof (half_pos w).
  destruct (Z.ltb_spec (low w x) (2 ^ (bits w - 1))).
  - rewrite (proj2 (Z.ltb_ge _ _)) by lia. lia.
  - rewrite (proj2 (Z.ltb_lt _ _)) by lia. lia.
Qed.
Lemma signed_small w z : z = -1 \/ z = 0 -> forall v, low w v = low w z -> signed w v = z.
Proof.
  intros H v E. rewrite (signed_low _ _ _ E). apply signed_id. pose proof (half_pos w). lia.
Qed.

Lemma signed_division (rem : bool) w x y s is : low w (gp s Rax) = x -> low w (gp s Rcx) = y ->
  negb (signed w y =? 0) && negb ((signed w x =? - 2 ^ (bits w - 1)) && (signed w y =? -1)) = true ->
  is = match w with B => [Ext true B W Rax Rax; Div true B Rcx] | _ => [SignRdx w; Div true w Rcx] end ++
       (if rem then match w with B => [MovAlAh] | _ => [Mov w Rax Rdx] end else []) ->
  exists s', block is s = Some s' /\ undisturbed s s' /\
    low w (gp s' Rax) = low w (if rem then Z.rem (signed w x) (signed w y) else Z.quot (signed w x) (signed w y)).
Proof.
  intros Ex Ey Ok ->. destruct (ok_divisor w x y Ok) as [N O].
  assert (Sy : forall v, low w v = low w y -> signed w v = signed w y) by (intros v; apply signed_low).
  assert (Ey' : low w (gp s Rcx) = low w y) by (rewrite <- Ey; symmetry; apply low_low).
  assert (Ex' : low w (gp s Rax) = low w x) by (rewrite <- Ex; symmetry; apply low_low).
  destruct w.
  { set (s1 := set_low W Rax (signed B (gp s Rax)) s).
    assert (D : divided true B (signed W (gp s1 Rax)) (gp s1 Rcx) = Some (Z.quot (signed B x) (signed B y), Z.rem (signed B x) (signed B y))).
    { apply divided_signed; [|apply Sy; exact Ey' | exact N | exact O]. rewrite (signed_low W _ (signed B (gp s Rax))) by apply gp_low.
      rewrite (signed_low B _ _ Ex'). apply signed_id. pose proof (signed_bound B x). change (2 ^ (bits B - 1)) with 128 in *. change (2 ^ (bits W - 1)) with 32768. lia. }
    set (s2 := set_low W Rax (low B (Z.quot (signed B x) (signed B y)) + 256 * low B (Z.rem (signed B x) (signed B y))) s1).
    assert (L2 : low W (gp s2 Rax) = low W (low B (Z.quot (signed B x) (signed B y)) + 256 * low B (Z.rem (signed B x) (signed B y)))) by apply gp_low.
    destruct rem; cbn [app].
    - assert (R : block [Ext true B W Rax Rax; Div true B Rcx; MovAlAh] s = Some (set_low B Rax (Z.shiftr (gp s2 Rax) 8) s2)).
      { unfold block. cbn [alu_run alu_step]. fold s1. rewrite D. reflexivity. }
      exists (set_low B Rax (Z.shiftr (gp s2 Rax) 8) s2). split; [exact R|]. split; [eapply block_safe; [|exact R]; safe|].
      rewrite gp_low. eapply high_b. exact L2.
    - assert (R : block [Ext true B W Rax Rax; Div true B Rcx] s = Some s2).
      { unfold block. cbn [alu_run alu_step]. fold s1. rewrite D. reflexivity. }
      exists s2. split; [exact R|]. split; [eapply block_safe; [|exact R]; safe|].
      rewrite (low_less B W _ _ ltac:(cbn; lia) L2). apply low_w_b. }
  all: match goal with |- context [SignRdx ?w] =>
    set (s1 := set_low w Rdx (if signed w (gp s Rax) <? 0 then -1 else 0) s);
    assert (D : divided true w (signed w (gp s1 Rdx) * 2 ^ bits w + low w (gp s1 Rax)) (gp s1 Rcx) = Some (Z.quot (signed w x) (signed w y), Z.rem (signed w x) (signed w y)));
    [ apply divided_signed; [|apply Sy; exact Ey' | exact N | exact O]; apply dividend; [exact Ex'|];
      unfold s1; rewrite (signed_low w (gp s Rax) x Ex'); apply signed_small; [clear; destruct (signed w x <? 0); auto | apply gp_low]
    | set (s2 := set_low w Rdx (Z.rem (signed w x) (signed w y)) (set_low w Rax (Z.quot (signed w x) (signed w y)) s1));
      destruct rem; cbn [app];
      [ assert (R : block [SignRdx w; Div true w Rcx; Mov w Rax Rdx] s = Some (set_low w Rax (gp s2 Rdx) s2)) by (unfold block; cbn [alu_run alu_step]; fold s1; rewrite D; reflexivity);
        exists (set_low w Rax (gp s2 Rdx) s2); split; [exact R|]; split; [eapply block_safe; [|exact R]; safe|]; rewrite gp_low; apply gp_low
      | assert (R : block [SignRdx w; Div true w Rcx] s = Some s2) by (unfold block; cbn [alu_run alu_step]; fold s1; rewrite D; reflexivity);
        exists s2; split; [exact R|]; split; [eapply block_safe; [|exact R]; safe|]; unfold s2; rewrite gp_low_other by discriminate; apply gp_low ] ] end.
Qed.

Lemma unsigned_division (rem : bool) w x y s is : in_bits w x -> low w (gp s Rax) = x -> low w (gp s Rcx) = y -> y <> 0 ->
  is = match w with B => [Ext false B W Rax Rax; Div false B Rcx] | _ => [Arith Xor L Rdx Rdx; Div false w Rcx] end ++
       (if rem then match w with B => [MovAlAh] | _ => [Mov w Rax Rdx] end else []) ->
  exists s', block is s = Some s' /\ undisturbed s s' /\ low w (gp s' Rax) = low w (if rem then x mod y else x / y).
Proof.
  intros X Ex Ey N ->. assert (P : 0 <= y) by (rewrite <- Ey; apply low_bound).
  destruct w.
  { set (s1 := set_low W Rax (low B (gp s Rax)) s).
    assert (D : divided false B (low W (gp s1 Rax)) (gp s1 Rcx) = Some (x / y, x mod y)).
    { assert (low W (gp s1 Rax) = x) as ->.
      { unfold s1. rewrite gp_low, Ex. apply low_id. unfold in_bits in *. change (2 ^ bits B) with 256 in X. change (2 ^ bits W) with 65536. lia. }
      apply divided_unsigned; [exact X | exact Ey | exact P | exact N]. }
    set (s2 := set_low W Rax (low B (x / y) + 256 * low B (x mod y)) s1).
    assert (L2 : low W (gp s2 Rax) = low W (low B (x / y) + 256 * low B (x mod y))) by apply gp_low.
    destruct rem; cbn [app].
    - assert (R : block [Ext false B W Rax Rax; Div false B Rcx; MovAlAh] s = Some (set_low B Rax (Z.shiftr (gp s2 Rax) 8) s2)).
      { unfold block. cbn [alu_run alu_step]. fold s1. rewrite D. reflexivity. }
      exists (set_low B Rax (Z.shiftr (gp s2 Rax) 8) s2). split; [exact R|]. split; [eapply block_safe; [|exact R]; safe|].
      rewrite gp_low. eapply high_b. exact L2.
    - assert (R : block [Ext false B W Rax Rax; Div false B Rcx] s = Some s2).
      { unfold block. cbn [alu_run alu_step]. fold s1. rewrite D. reflexivity. }
      exists s2. split; [exact R|]. split; [eapply block_safe; [|exact R]; safe|].
      rewrite (low_less B W _ _ ltac:(cbn; lia) L2). apply low_w_b. }
  all: match goal with |- context [Div false ?w _] =>
    set (s1 := set_low L Rdx (Z.lxor (gp s Rdx) (gp s Rdx)) s);
    assert (D : divided false w (low w (gp s1 Rdx) * 2 ^ bits w + low w (gp s1 Rax)) (gp s1 Rcx) = Some (x / y, x mod y));
    [ assert (gp s1 Rdx = 0) as -> by (unfold s1; rewrite gp_low_l, Z.lxor_nilpotent; reflexivity);
      change (low w 0) with 0; change (gp s1 Rax) with (gp s Rax); rewrite Ex; apply divided_unsigned; [exact X | exact Ey | exact P | exact N]
    | set (s2 := set_low w Rdx (x mod y) (set_low w Rax (x / y) s1));
      destruct rem; cbn [app];
      [ assert (R : block [Arith Xor L Rdx Rdx; Div false w Rcx; Mov w Rax Rdx] s = Some (set_low w Rax (gp s2 Rdx) s2)) by (unfold block; cbn [alu_run alu_step arith_result]; fold s1; rewrite D; reflexivity);
        exists (set_low w Rax (gp s2 Rdx) s2); split; [exact R|]; split; [eapply block_safe; [|exact R]; safe|]; rewrite gp_low; apply gp_low
      | assert (R : block [Arith Xor L Rdx Rdx; Div false w Rcx] s = Some s2) by (unfold block; cbn [alu_run alu_step arith_result]; fold s1; rewrite D; reflexivity);
        exists s2; split; [exact R|]; split; [eapply block_safe; [|exact R]; safe|]; unfold s2; rewrite gp_low_other by discriminate; apply gp_low ] ] end.
Qed.

Theorem int_block o w x y z is s : in_bits w x -> in_bits w y -> low w (gp s Rax) = x -> low w (gp s Rcx) = y ->
  int_result o w x y = Some z -> arithmetic o w = Some is ->
  exists s', block is s = Some s' /\ undisturbed s s' /\ low w (gp s' Rax) = low w z.
Proof.
  intros X Y Ex Ey R A.
  assert (Ey' : low w (gp s Rcx) = low w y) by (rewrite <- Ey; symmetry; apply low_low).
  assert (Ex' : low w (gp s Rax) = low w x) by (rewrite <- Ex; symmetry; apply low_low).
  assert (IF : forall b v, if_ b v = Some z -> b = true /\ z = v) by (intros [|] v; [intros [= ->]; auto | discriminate]).
  destruct o; try discriminate R; cbn [int_result arithmetic] in R, A.
  - apply IF in R. destruct R as [Ok ->]. apply Z.ltb_lt in Ok. injection A as <-. done_with. rewrite gp_low. unfold shifted. unfold in_bits in Y.
    rewrite (shift_count w _ y Ey) by lia. rewrite Z.shiftl_mul_pow2 by lia. now rewrite Ex.
  - apply IF in R. destruct R as [Ok ->]. apply Z.ltb_lt in Ok. injection A as <-. done_with. rewrite gp_low. unfold shifted. unfold in_bits in Y.
    rewrite (shift_count w _ y Ey) by lia. rewrite Z.shiftr_div_pow2 by lia. now rewrite (signed_low _ _ _ Ex').
  - apply IF in R. destruct R as [Ok ->]. apply Z.ltb_lt in Ok. injection A as <-. done_with. rewrite gp_low. unfold shifted. unfold in_bits in Y.
    rewrite (shift_count w _ y Ey) by lia. rewrite Z.shiftr_div_pow2 by lia. now rewrite Ex.
  - injection R as <-. injection A as <-. done_with. rewrite gp_low. now apply low_land.
  - injection R as <-. injection A as <-. done_with. rewrite gp_low. now apply low_lor.
  - injection R as <-. injection A as <-. done_with. rewrite gp_low. now apply low_lxor.
  - injection R as <-. injection A as <-. done_with. rewrite gp_low. apply low_add; rewrite low_signed; assumption.
  - injection R as <-. injection A as <-. done_with. rewrite gp_low. apply low_sub; rewrite low_signed; assumption.
  - injection R as <-. injection A as <-. destruct w; done_with.
    1: rewrite (low_less B W _ (signed B (gp s Rax) * signed B (gp s Rcx))) by first [apply gp_low | cbn; lia].
    2-4: rewrite gp_low_other by discriminate; rewrite gp_low.
    all: apply low_mul; rewrite !low_signed; assumption.
  - apply IF in R. destruct R as [Ok ->]. eapply (signed_division false); try eassumption. injection A as <-. destruct w; reflexivity.
  - apply IF in R. destruct R as [Ok ->]. eapply (signed_division true); try eassumption. injection A as <-. destruct w; reflexivity.
  - injection R as <-. injection A as <-. done_with. rewrite gp_low. now apply low_add.
  - injection R as <-. injection A as <-. done_with. rewrite gp_low. now apply low_sub.
  - injection R as <-. injection A as <-. destruct w; done_with.
    1: rewrite (low_less B W _ (signed B (gp s Rax) * signed B (gp s Rcx))) by first [apply gp_low | cbn; lia].
    2-4: rewrite gp_low_other by discriminate; rewrite gp_low.
    all: apply low_mul; rewrite !low_signed; assumption.
  - apply IF in R. destruct R as [Ok ->]. apply negb_true_iff, Z.eqb_neq in Ok. eapply (unsigned_division false); try eassumption. injection A as <-. destruct w; reflexivity.
  - apply IF in R. destruct R as [Ok ->]. apply negb_true_iff, Z.eqb_neq in Ok. eapply (unsigned_division true); try eassumption. injection A as <-. destruct w; reflexivity.
Qed.

(** ** Comparisons *)
Lemma al_is c f (t : bool) s : cond_holds c f = t -> low B (gp (set_low B Rax (if cond_holds c f then 1 else 0) s) Rax) = low B (if t then 1 else 0).
Proof. intros ->. apply gp_low. Qed.
Lemma cmp_block w c x y t s : low w (gp s Rcx) = low w x -> low w (gp s Rax) = low w y -> cond_holds c (subtracted w x y) = t ->
  exists s', block [Cmp w Rcx Rax; SetAl c] s = Some s' /\ undisturbed s s' /\ low B (gp s' Rax) = low B (if t then 1 else 0).
Proof.
  intros Ex Ey Ht. done_with. apply al_is. rewrite <- Ht. unfold subtracted.
  rewrite (signed_low _ _ _ Ex), (signed_low _ _ _ Ey), Ex, Ey, (low_sub _ _ _ _ _ Ex Ey). reflexivity.
Qed.
Lemma signed_eqb w x y : in_bits w x -> in_bits w y -> (signed w x =? signed w y) = (x =? y).
Proof.
  intros X Y. destruct (Z.eqb_spec x y) as [-> |N]; [apply Z.eqb_refl|]. apply Z.eqb_neq. intros E. apply N.
  rewrite <- (low_id w x X), <- (low_id w y Y), <- (low_signed w x), <- (low_signed w y). now rewrite E.
Qed.
Lemma int_condition o w x y t c : in_bits w x -> in_bits w y -> int_test o w x y = Some t -> condition o = Some c -> cond_holds c (subtracted w x y) = t.
Proof.
  intros X Y H C. destruct o; try discriminate H; injection H as <-; injection C as <-; cbn [cond_holds]; rewrite ?less_signed; unfold subtracted; cbn [zf cf]; rewrite ?low_id by assumption.
  3,4: rewrite <- (signed_eqb w x y X Y).
  all: clear X Y; try generalize (signed w x) as sx; try generalize (signed w y) as sy; intros; try reflexivity.
  all: repeat match goal with |- context [?a =? ?b] => destruct (Z.eqb_spec a b) | |- context [?a <? ?b] => destruct (Z.ltb_spec a b) | |- context [?a <=? ?b] => destruct (Z.leb_spec a b) end; cbn; reflexivity || lia.
Qed.
Lemma ptr_condition o x y t c : in_bits Q x -> in_bits Q y -> ptr_test o x y = Some t -> condition o = Some c -> cond_holds c (subtracted Q x y) = t.
Proof.
  intros X Y H C. destruct o; try discriminate H; injection H as <-; injection C as <-.
  - now apply (int_condition BIEq).
  - now apply (int_condition BULt).
  - now apply (int_condition BULe).
  - now apply (int_condition BUGt).
  - now apply (int_condition BUGe).
Qed.

(** ** Floating-point numbers *)
Lemma decode_low w a b : low w a = low w b -> decode w a = decode w b.
Proof. intros E. unfold decode. now rewrite E. Qed.
Lemma arith_low o w a b c d : low w a = low w b -> low w c = low w d -> float_arith o w a c = float_arith o w b d.
Proof. intros E E'. unfold float_arith, is_nan, make_quiet. now rewrite (decode_low _ _ _ E), (decode_low _ _ _ E'), E, E'. Qed.
Lemma convert_low w w' a b : low w a = low w b -> float_convert w w' a = float_convert w w' b.
Proof. intros E. unfold float_convert. now rewrite (decode_low _ _ _ E), E. Qed.
Theorem float_block o f w x y z s : low w (xm s 0%nat) = low w x -> low w (xm s 1%nat) = low w y -> float_arithmetic o = Some f -> float_result o w x y = Some z ->
  exists s', block [FloatArith f w 0 1] s = Some s' /\ undisturbed s s' /\ low w (xm s' 0%nat) = low w z.
Proof.
  intros Ex Ey F R. done_with. rewrite xm_float. f_equal.
  destruct o; try discriminate F; injection F as <-; injection R as <-; now apply arith_low.
Qed.
Theorem float_cmp_block o c w x y t s : low w (xm s 1%nat) = low w x -> low w (xm s 0%nat) = low w y -> float_condition o = Some c -> float_test o w x y = Some t ->
  exists s', block [FloatCmp w 1 0; SetAl c] s = Some s' /\ undisturbed s s' /\ low B (gp s' Rax) = low B (if t then 1 else 0).
Proof.
  intros Ex Ey C H. done_with. apply al_is. unfold float_compare, float_test, float_compare in *.
  rewrite (decode_low _ _ _ Ex), (decode_low _ _ _ Ey). destruct o; try discriminate C; injection C as <-; destruct (SFcompare _ _) as [[| |]|]; try discriminate H; injection H as <-; reflexivity.
Qed.

(** ** Operators of one operand *)
Lemma complement_block w x z s : in_bits w x -> low w (gp s Rax) = x -> int_unary UIComplement w x = Some z ->
  exists s', block [XorImm w Rax (-1)] s = Some s' /\ undisturbed s s' /\ low w (gp s' Rax) = low w z.
Proof.
  intros X E H. injection H as <-. done_with. rewrite gp_low, Z.lxor_m1_r. unfold Z.lnot.
  assert (E' : low w (gp s Rax) = low w x) by (rewrite <- E; symmetry; apply low_low).
  apply low_eq in E'. destruct E' as [k ->]. apply low_eq. exists (- k - 1). lia.
Qed.
Lemma ones_seq n : forall x k, 0 <= k -> ones n (Z.shiftr x k) = Z.of_nat (List.length (List.filter (fun i => Z.testbit x (k + Z.of_nat i)) (List.seq 0 n))).
Proof.
  induction n as [|n IH]; intros x k K; [reflexivity|]. cbn [ones List.seq List.filter]. rewrite <- Z.bit0_odd, Z.shiftr_spec by lia. change (Z.of_nat 0) with 0. rewrite Z.add_0_l, Z.add_0_r.
  rewrite Z.div2_spec, Z.shiftr_shiftr by lia. rewrite IH by lia. rewrite <- seq_shift.
  assert (E : forall l, List.length (filter (fun i => Z.testbit x (k + 1 + Z.of_nat i)) l) = List.length (filter (fun i => Z.testbit x (k + Z.of_nat i)) (map S l))).
  { induction l as [|i l IHl]; [reflexivity|]. cbn [map filter]. replace (k + 1 + Z.of_nat i) with (k + Z.of_nat (S i)) by lia. destruct (Z.testbit _ _); cbn [List.length]; now rewrite IHl. }
  rewrite E. destruct (Z.testbit x k); cbn [List.length]; lia.
Qed.
Lemma ones_count w x : ones (8 * bytes w) x = count_ones w x.
Proof. unfold count_ones. rewrite <- (Z.shiftr_0_r x) at 1. now rewrite ones_seq by lia. Qed.
Lemma popcount_block w x z s : in_bits w x -> low w (gp s Rax) = x -> int_unary UIPopCount w x = Some z ->
  exists s', block match w with B => [Ext false B W Rax Rax; Popcnt W Rax Rax] | _ => [Popcnt w Rax Rax] end s = Some s' /\
    undisturbed s s' /\ low w (gp s' Rax) = low w z.
Proof.
  intros X E H. injection H as <-. destruct w; done_with.
  2-4: rewrite gp_low, E; f_equal; apply ones_count.
  set (s1 := set_low W Rax (low B (gp s Rax)) s).
  apply (low_less B W); [cbn; lia|]. rewrite gp_low. f_equal.
  assert (low W (gp s1 Rax) = x) as ->.
  { unfold s1. rewrite gp_low, E. apply low_id. unfold in_bits in *. change (2 ^ bits B) with 256 in X. change (2 ^ bits W) with 65536. lia. }
  rewrite (ones_count W). unfold count_ones. change (8 * bytes W)%nat with (8 + 8)%nat. change (8 * bytes B)%nat with 8%nat. rewrite seq_app, filter_app, app_length.
  assert (List.length (filter (fun i => Z.testbit x (Z.of_nat i)) (List.seq (0 + 8) 8)) = 0%nat) as ->; [|f_equal; lia].
  assert (F : forall i, In i (List.seq (0 + 8) 8) -> Z.testbit x (Z.of_nat i) = false).
  { intros i Hi. apply in_seq in Hi. rewrite <- (low_id B x X), low_bit by lia. change (bits B) with 8. destruct (Z.ltb_spec (Z.of_nat i) 8); [lia | apply andb_false_r]. }
  revert F. generalize (List.seq (0 + 8) 8). induction l as [|i l IH]; intros F; [reflexivity|]. cbn [filter]. rewrite F by now left. apply IH. intros j Hj. apply F. now right.
Qed.

(** ** Conversions *)
Lemma width_size w l : integral w l \/ floating w l -> size l = N.of_nat (bytes w).
Proof. unfold integral, floating. tauto. Qed.
Lemma if_inv b v z : if_ b v = Some z -> b = true /\ v = z.
Proof. destruct b; [intros [= ->]; auto | discriminate]. Qed.
Theorem extend_block o w w' x z is s : in_bits w x -> low w (gp s Rax) = x -> extend o w w' x = Some z ->
  conversion o (N.of_nat (bytes w)) (N.of_nat (bytes w')) = Ret is ->
  exists s', block is s = Some s' /\ undisturbed s s' /\ low w' (gp s' Rax) = low w' z.
Proof.
  intros X E H C. assert (E' : low w (gp s Rax) = low w x) by (rewrite <- E; symmetry; apply low_low).
  destruct o; try discriminate H; apply if_inv in H; destruct H as [_ <-]; destruct w, w'; try discriminate C; injection C as <-; done_with.
  all: try (rewrite gp_low, (signed_low _ _ _ E'); reflexivity).
  all: try (rewrite gp_low, E; reflexivity).
  rewrite gp_low_l, E. reflexivity.
Qed.
Theorem to_float_block o w w' x z is s : in_bits w x -> low w (gp s Rax) = x -> int_to_float o w w' x = Some z -> w' = L \/ w' = Q ->
  conversion o (N.of_nat (bytes w)) (N.of_nat (bytes w')) = Ret is ->
  exists s', block is s = Some s' /\ undisturbed s s' /\ low w' (xm s' 0%nat) = low w' z.
Proof.
  intros X E H W' C. assert (E' : low w (gp s Rax) = low w x) by (rewrite <- E; symmetry; apply low_low).
  pose proof (signed_bound w x) as Sb.
  destruct o; try discriminate H; cbn [int_to_float] in H.
  - injection H as <-. destruct w, w'; try discriminate C; injection C as <-; done_with.
    all: rewrite xm_float; f_equal; f_equal.
    all: try (apply signed_low, E').
    all: rewrite (signed_low L _ (signed _ x)) by (rewrite gp_low; f_equal; apply signed_low, E').
    all: apply signed_id; change (2 ^ (bits L - 1)) with 2147483648.
    1,2: change (2 ^ (bits B - 1)) with 128 in Sb; lia.
    1,2: change (2 ^ (bits W - 1)) with 32768 in Sb; lia.
  - apply if_inv in H. destruct H as [Lt <-]. unfold in_bits in X. destruct w, w'; try discriminate C; try discriminate Lt; injection C as <-; done_with.
    all: rewrite xm_float; f_equal; f_equal.
    1-4: rewrite (signed_low L _ x) by (rewrite gp_low; f_equal; exact E).
    5,6: rewrite (signed_low Q _ x) by (rewrite gp_low_l, E; reflexivity).
    1,2: change (2 ^ bits B) with 256 in X; apply signed_id; change (2 ^ (bits L - 1)) with 2147483648; lia.
    1,2: change (2 ^ bits W) with 65536 in X; apply signed_id; change (2 ^ (bits L - 1)) with 2147483648; lia.
    all: change (2 ^ bits L) with 4294967296 in X; apply signed_id; change (2 ^ (bits Q - 1)) with 9223372036854775808; lia.
Qed.
Lemma to_integer_low w a b : low w a = low w b -> to_integer w a = to_integer w b.
Proof. intros E. unfold to_integer. now rewrite (decode_low _ _ _ E). Qed.
Theorem to_int_block o w w' x z is s : low w (xm s 0%nat) = low w x -> float_to_int o w w' x = Some z -> w = L \/ w = Q ->
  conversion o (N.of_nat (bytes w)) (N.of_nat (bytes w')) = Ret is ->
  exists s', block is s = Some s' /\ undisturbed s s' /\ low w' (gp s' Rax) = low w' z.
Proof.
  intros E H Hw C.
  assert (R : exists i, is = [ToInt w i Rax 0] /\ bits w' <= bits i /\ to_integer w x = Some z /\ - 2 ^ (bits i - 1) <= z < 2 ^ (bits i - 1)).
  { destruct o; try discriminate H; cbn [float_to_int] in H; destruct (to_integer w x) as [v|]; try discriminate; apply if_inv in H; destruct H as [Ok ->];
      repeat rewrite andb_true_iff in Ok; repeat rewrite Z.leb_le in Ok; repeat rewrite Z.ltb_lt in Ok.
    - exists (match w' with Q => Q | _ => L end). destruct Hw as [-> | ->]; destruct w'; injection C as <-; (split; [reflexivity|]); (split; [cbn; lia|]); (split; [reflexivity|]); cbn in Ok |- *; lia.
    - exists (match w' with Q | L => Q | _ => L end). destruct Hw as [-> | ->]; destruct w'; injection C as <-; (split; [reflexivity|]); (split; [cbn; lia|]); (split; [reflexivity|]); cbn in Ok |- *; lia. }
  destruct R as (i & -> & Le & Hz & B). done_with. apply (low_less w' i); [exact Le|]. rewrite gp_low. f_equal.
  rewrite (to_integer_low _ _ _ E), Hz, (proj2 (Z.leb_le _ _) (proj1 B)), (proj2 (Z.ltb_lt _ _) (proj2 B)). reflexivity.
Qed.
Theorem convert_block o w w' x z is s : low w (xm s 0%nat) = low w x -> float_to_float o w w' x = Some z ->
  conversion o (N.of_nat (bytes w)) (N.of_nat (bytes w')) = Ret is ->
  exists s', block is s = Some s' /\ undisturbed s s' /\ low w' (xm s' 0%nat) = low w' z.
Proof.
  intros E H C. destruct o; try discriminate H; destruct w, w'; try discriminate H; injection H as <-; injection C as <-; done_with; rewrite xm_float; f_equal; now apply convert_low.
Qed.

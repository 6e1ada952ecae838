From Coq Require Import NArith ZArith Lia.
From Verif.Base Require Import Base.
From Verif.Utf8 Require Import Model Spec Proofs.
Local Open Scope N_scope.
Local Open Scope list_scope.

Ltac Zify.zify_post_hook ::= Z.to_euclidean_division_equations.

Ltac leb := repeat match goal with
  | |- context[N.leb ?a ?b] => destruct (N.leb_spec a b); cbn [andb negb]
  | |- context[N.ltb ?a ?b] => destruct (N.ltb_spec a b)
  end.

(** ** Encoding *)

Lemma encode_known x : known x -> exists c, encode x = Some c /\ complete_bytes c = utf8 x.
Proof.
  intros [[A B] C]. unfold encode, utf8. rewrite !cont_byte. leb; try lia; eexists; (split; [reflexivity|]); cbn [complete_bytes].
  - rewrite N.mod_small by lia. reflexivity.
  - rewrite head2 by lia. change (2 ^ 0) with 1. now rewrite N.div_1_r.
  - rewrite head3 by lia. change (2 ^ 0) with 1. change (2 ^ 6) with 64. now rewrite N.div_1_r.
  - rewrite head3 by lia. change (2 ^ 0) with 1. change (2 ^ 6) with 64. now rewrite N.div_1_r.
  - rewrite head4 by lia. change (2 ^ 0) with 1. change (2 ^ 6) with 64. change (2 ^ 12) with 4096. now rewrite N.div_1_r.
Qed.

Lemma encode_some x c : encode x = Some c -> known x.
Proof. unfold encode, known, scalar. leb; try discriminate; intros _; lia. Qed.

Lemma encode_exact x : (forall c, encode x = Some c -> known x /\ complete_bytes c = utf8 x) /\ (encode x = None <-> ~ known x).
Proof.
  split; [|split].
  - intros c E. pose proof (encode_some _ _ E) as K. split; auto. destruct (encode_known x K) as (c' & E' & Q). congruence.
  - intros E K. destruct (encode_known x K) as (c' & E' & Q). congruence.
  - intro K. destruct (encode x) eqn:E; auto. destruct K. eapply encode_some; eauto.
Qed.

Lemma utf8_bytes c : known c -> Forall byte (utf8 c).
Proof. intros [[A B] C]. unfold utf8, byte. leb; repeat constructor; lia. Qed.

(** ** One character *)

Lemma step_latin n : n < 128 -> decode_step None n = Produce n.
Proof. intro L. assert (B : byte n) by (unfold byte; lia). unfold decode_step. class n B. cbn [decode]. leb; auto; lia. Qed.
Lemma step_h2 n : 192 <= n < 224 -> decode_step None n = Continue (I2a n).
Proof. intro L. assert (B : byte n) by (unfold byte; lia). unfold decode_step. class n B. reflexivity. Qed.
Lemma step_h3 n : 224 <= n < 240 -> decode_step None n = Continue (I3a n).
Proof. intro L. assert (B : byte n) by (unfold byte; lia). unfold decode_step. class n B. reflexivity. Qed.
Lemma step_h4 n : 240 <= n < 248 -> decode_step None n = Continue (I4a n).
Proof. intro L. assert (B : byte n) by (unfold byte; lia). unfold decode_step. class n B. reflexivity. Qed.

Lemma progress n : 128 <= n < 192 -> input_class n = InProgress.
Proof. intro L. assert (B : byte n) by (unfold byte; lia). class n B. reflexivity. Qed.

(** The steps through the bytes of one character. *)
Inductive stepped : option incomplete -> list N -> N -> Prop :=
| Step_last s b c : decode_step s b = Produce c -> stepped s [b] c
| Step_more s b i bs c : decode_step s b = Continue i -> stepped (Some i) bs c -> stepped s (b :: bs) c.

Lemma stepped_utf8 c : known c -> stepped None (utf8 c) c.
Proof.
  intros [[A B] C]. unfold utf8. leb.
  - constructor. apply step_latin. auto.
  - econstructor; [apply step_h2; lia|]. constructor. unfold decode_step. rewrite progress, decode2 by lia.
    replace (value2 (192 + c / 64) (128 + c mod 64)) with c by (unfold value2; lia). leb; auto; lia.
  - econstructor; [apply step_h3; lia|]. econstructor; [unfold decode_step; rewrite progress by lia; reflexivity|].
    constructor. unfold decode_step. rewrite progress, decode3 by lia.
    replace (value3 (224 + c / 4096) (128 + c / 64 mod 64) (128 + c mod 64)) with c by (unfold value3; lia).
    leb; auto; lia.
  - econstructor; [apply step_h4; lia|]. econstructor; [unfold decode_step; rewrite progress by lia; reflexivity|].
    econstructor; [unfold decode_step; rewrite progress by lia; reflexivity|].
    constructor. unfold decode_step. rewrite progress, decode4 by lia.
    replace (value4 (240 + c / 262144) (128 + c / 4096 mod 64) (128 + c / 64 mod 64) (128 + c mod 64)) with c
      by (unfold value4; lia).
    leb; auto; lia.
Qed.

Lemma stepped_valid s bs c rest : stepped s bs c -> valid_from s (bs ++ rest) = valid_from None rest.
Proof. induction 1 as [s b c E|s b i bs c E _ IH]; cbn [app valid_from]; rewrite E; cbn [is_valid negb continue_]; auto. Qed.

Lemma stepped_chars s bs c rest : stepped s bs c -> chars_from s (bs ++ rest) = let* cs := chars_from None rest in Ret (c :: cs).
Proof. induction 1 as [s b c E|s b i bs c E _ IH]; cbn [app chars_from]; rewrite E; auto. Qed.

Lemma stepped_indices s bs c rest : stepped s bs c -> forall i index,
  char_indices_from i index s (bs ++ rest) =
  let* cs := char_indices_from (i + N.of_nat (List.length bs)) (2 ^ 64 - 1) None rest in Ret ((N.min i index, c) :: cs).
Proof.
  induction 1 as [s b c E|s b i0 bs c E _ IH]; intros i index; cbn [app char_indices_from]; rewrite E.
  - reflexivity.
  - rewrite IH. replace (i + 1 + N.of_nat (List.length bs)) with (i + N.of_nat (List.length (b :: bs))) by (cbn [List.length]; lia).
    replace (N.min (i + 1) (N.min i index)) with (N.min i index) by lia. reflexivity.
Qed.

(** ** Whole strings *)

Lemma valid_utf8 cs : Forall known cs -> valid_sequence (flat_map utf8 cs) = true.
Proof.
  unfold valid_sequence. induction 1 as [|c cs K _ IH]; cbn [flat_map]; auto.
  rewrite (stepped_valid None _ c) by (apply stepped_utf8; auto). auto.
Qed.

Lemma chars_utf8 cs : Forall known cs -> chars (flat_map utf8 cs) = Ret cs.
Proof.
  unfold chars. induction 1 as [|c cs K _ IH]; cbn [flat_map]; auto.
  rewrite (stepped_chars None _ c), IH by (apply stepped_utf8; auto). reflexivity.
Qed.

Lemma indices_from cs : Forall known cs -> forall i, i + N.of_nat (List.length (flat_map utf8 cs)) < 2 ^ 64 ->
  char_indices_from i (2 ^ 64 - 1) None (flat_map utf8 cs) = Ret (positions i cs).
Proof.
  induction 1 as [|c cs K _ IH]; intros i L; cbn [flat_map positions] in *; auto.
  rewrite List.app_length in L. rewrite (stepped_indices None _ c), IH by (try apply stepped_utf8; auto; lia). cbn [Base.bind].
  replace (N.min i (2 ^ 64 - 1)) with i by lia. reflexivity.
Qed.

Lemma indices_utf8 cs : Forall known cs -> N.of_nat (List.length (flat_map utf8 cs)) < 2 ^ 64 ->
  char_indices (flat_map utf8 cs) = Ret (positions 0 cs).
Proof. intros K L. apply indices_from; auto. Qed.

(** The first character of a valid string. *)
Lemma in_class a cl : byte a -> input_class a = cl ->
  match cl with
  | InLatin => a < 128 | InProgress => 128 <= a < 192 | In2 => 192 <= a < 224 | In3 => 224 <= a < 240
  | In4 => 240 <= a < 248 | InInvalid => 248 <= a
  end.
Proof. intros B <-. class a B; lia. Qed.

Lemma utf8_2 a b : 192 <= a < 224 -> 128 <= b < 192 -> 128 <= value2 a b -> utf8 (value2 a b) = [a; b].
Proof. intros A B. unfold value2, utf8. intro. leb; try lia. repeat f_equal; lia. Qed.

Lemma utf8_3 a b c : 224 <= a < 240 -> 128 <= b < 192 -> 128 <= c < 192 -> 2048 <= value3 a b c -> utf8 (value3 a b c) = [a; b; c].
Proof. intros A B C. unfold value3, utf8. intro. leb; try lia. repeat f_equal; lia. Qed.

Lemma utf8_4 a b c d : 240 <= a < 248 -> 128 <= b < 192 -> 128 <= c < 192 -> 128 <= d < 192 -> 65536 <= value4 a b c d ->
  utf8 (value4 a b c d) = [a; b; c; d].
Proof. intros A B C D. unfold value4, utf8. intro. leb; try lia. repeat f_equal; lia. Qed.

Ltac next H B :=
  match type of H with
  | context[valid_from (Some ?s) ?bs] =>
      let b := fresh "b" in let E := fresh "E" in let R := fresh "R" in
      destruct bs as [|b bs]; [discriminate H|]; apply Forall_cons_iff in B as [R B];
      cbn [valid_from] in H; unfold decode_step in H; destruct (input_class b) eqn:E;
      try (cbn in H; discriminate H);
      try (cbn [decode] in H; destruct (b <=? 127); cbn in H; discriminate H);
      apply (in_class b) in E; auto
  end.

Lemma valid_first b bs : Forall byte (b :: bs) -> valid_from None (b :: bs) = true ->
  exists c rest, b :: bs = utf8 c ++ rest /\ known c /\ valid_from None rest = true.
Proof.
  intros B H. apply Forall_cons_iff in B as [R B]. cbn [valid_from] in H. unfold decode_step in H. destruct (input_class b) eqn:E;
    try discriminate H; apply (in_class b) in E; auto.
  - exists b, bs. cbn [decode] in H. destruct (N.leb_spec b 127); [|discriminate].
    refine (conj _ (conj _ H)); [unfold utf8; leb; try lia; auto|unfold known, scalar; lia].
  - cbn [is_valid negb continue_] in H. next H B. rewrite decode2 in H.
    destruct (N.leb_spec 128 (value2 b b0)) as [L1|]; [|discriminate]. destruct (N.leb_spec (value2 b b0) 2047) as [L2|]; [|discriminate].
    cbn [andb is_valid negb continue_] in H. exists (value2 b b0), bs. rewrite utf8_2 by auto. refine (conj eq_refl (conj _ H)).
    unfold known, scalar. lia.
  - cbn [is_valid negb continue_] in H. next H B. cbn [is_valid negb continue_] in H. next H B. rewrite decode3 in H.
    destruct (N.leb_spec 2048 (value3 b b0 b1)) as [L1|]; [|discriminate]. destruct (N.leb_spec (value3 b b0 b1) 65535) as [L2|]; [|discriminate].
    cbn [andb] in H. destruct (N.leb_spec 55296 (value3 b b0 b1)), (N.leb_spec (value3 b b0 b1) 57343);
      cbn [andb negb is_valid continue_] in H; try discriminate H;
      (exists (value3 b b0 b1), bs; rewrite utf8_3 by auto; refine (conj eq_refl (conj _ H)); unfold known, scalar; lia).
  - cbn [is_valid negb continue_] in H. next H B. cbn [is_valid negb continue_] in H. next H B.
    cbn [is_valid negb continue_] in H. next H B. rewrite decode4 in H.
    destruct (N.leb_spec 65536 (value4 b b0 b1 b2)) as [L1|]; [|discriminate].
    destruct (N.leb_spec (value4 b b0 b1 b2) 111411) as [L2|]; [|discriminate].
    cbn [andb is_valid negb continue_] in H. exists (value4 b b0 b1 b2), bs. rewrite utf8_4 by auto. refine (conj eq_refl (conj _ H)).
    unfold known, scalar. lia.
Qed.

Lemma utf8_nonempty c : utf8 c <> [].
Proof. unfold utf8. leb; discriminate. Qed.

Lemma valid_split n : forall bs, (List.length bs <= n)%nat -> Forall byte bs -> valid_from None bs = true ->
  exists cs, Forall known cs /\ bs = flat_map utf8 cs.
Proof.
  induction n as [|n IH]; intros bs L B V.
  - destruct bs; [|cbn in L; lia]. now exists [].
  - destruct bs as [|b bs]; [now exists []|]. destruct (valid_first b bs B V) as (c & rest & E & K & V').
    destruct (IH rest) as (cs & KS & ->); auto.
    + apply (f_equal (@List.length N)) in E. rewrite List.app_length in E. pose proof (utf8_nonempty c). destruct (utf8 c); [congruence|]. cbn in E, L. lia.
    + rewrite E in B. apply Forall_app in B as [_ B]. auto.
    + exists (c :: cs). split; auto.
Qed.

Lemma valid_exact bs : Forall byte bs -> (valid_sequence bs = true <-> exists cs, Forall known cs /\ bs = flat_map utf8 cs).
Proof.
  intro B. split.
  - intro V. eapply valid_split; eauto.
  - intros (cs & K & ->). apply valid_utf8; auto.
Qed.

(** ** Boundaries *)

Lemma first_valid c : known c -> exists b bs, utf8 c = b :: bs /\ is_valid (decode_step None b) = true /\
  Forall (fun b => 128 <= b < 192) bs.
Proof.
  intros [[A B] C]. unfold utf8. leb; eexists _, _; (split; [reflexivity|]).
  - rewrite step_latin by lia. split; constructor.
  - rewrite step_h2 by lia. split; auto. repeat constructor; lia.
  - rewrite step_h3 by lia. split; auto. repeat constructor; lia.
  - rewrite step_h4 by lia. split; auto. repeat constructor; lia.
Qed.

Lemma inner_invalid b : 128 <= b < 192 -> is_valid (decode_step None b) = false.
Proof. intro L. unfold decode_step. now rewrite progress by auto. Qed.

Lemma boundary_byte cs : Forall known cs -> forall i b, nth_error (flat_map utf8 cs) i = Some b ->
  (is_valid (decode_step None b) = true <-> between cs i).
Proof.
  induction 1 as [|c cs K KS IH]; intros i b E; cbn [flat_map] in E.
  - destruct i; discriminate.
  - destruct (first_valid c K) as (b0 & bs & U & V & F). destruct (Nat.lt_ge_cases i (List.length (utf8 c))) as [L|L].
    + rewrite nth_error_app1 in E by auto. rewrite U in E, L. destruct i as [|i].
      * cbn in E. injection E as <-. split; auto. intros _. now exists [], (c :: cs).
      * cbn in E. rewrite (inner_invalid b) by (eapply Forall_forall in F; [|eapply nth_error_In; eauto]; auto).
        split; [discriminate|]. intros (cs1 & cs2 & Q & Z). destruct cs1 as [|c1 cs1]; [discriminate Z|].
        injection Q as <- ->. cbn [flat_map] in Z. rewrite List.app_length, U in Z. cbn in Z, L. lia.
    + rewrite nth_error_app2 in E by auto. rewrite (IH _ _ E). split.
      * intros (cs1 & cs2 & -> & Z). exists (c :: cs1), cs2. split; auto. cbn [flat_map]. rewrite List.app_length. lia.
      * intros (cs1 & cs2 & Q & Z). destruct cs1 as [|c1 cs1]; [cbn in Z; rewrite U in L; cbn in L; lia|].
        injection Q as <- ->. exists cs1, cs2. split; auto. cbn [flat_map] in Z. rewrite List.app_length in Z. lia.
Qed.

Lemma boundary_exact cs i : Forall known cs ->
  exists r, char_boundary i (flat_map utf8 cs) = Ret r /\ (r = true <-> between cs i).
Proof.
  intro K. unfold char_boundary. destruct (Nat.ltb_spec 0 i); cbn [andb].
  - destruct (Nat.ltb_spec i (List.length (flat_map utf8 cs))).
    + destruct (nth_error _ i) as [b|] eqn:E; [|apply nth_error_None in E; lia].
      eexists; split; [reflexivity|]. apply boundary_byte; auto.
    + eexists; split; [reflexivity|]. destruct i; [lia|]. cbn [Nat.eqb orb]. rewrite Nat.eqb_eq. split.
      * intro Q. exists cs, []. rewrite app_nil_r. auto.
      * intros (cs1 & cs2 & -> & Z). rewrite flat_map_app, List.app_length in *. lia.
  - assert (i = 0%nat) as -> by lia. eexists; split; [reflexivity|]. cbn [Nat.eqb orb]. split; auto. intros _. now exists [], cs.
Qed.

(** ** Smaller functions *)

Lemma length_exact x : known x -> utf8_length x = Ret (N.of_nat (List.length (utf8 x))).
Proof.
  intro K. destruct (encode_known x K) as (c & E & Q). unfold utf8_length. rewrite E, <- Q. destruct c; reflexivity.
Qed.

Lemma from_scalar_exact n : from_unicode_scalar n = Some n /\ known n \/ from_unicode_scalar n = None /\ ~ known n.
Proof. unfold from_unicode_scalar, known, scalar. leb; auto; ((left; split; [reflexivity|]; lia) || (right; split; [reflexivity|]; lia)). Qed.

Lemma decode_encode x c : encode x = Some c -> decode c = Produce x.
Proof.
  intro E. pose proof (encode_some _ _ E) as K. destruct (encode_exact x) as [X _]. destruct (X c E) as [_ Q].
  pose proof (stepped_utf8 x K) as S0. rewrite <- Q in S0. clear - S0 K Q.
  destruct c; cbn [complete_bytes] in *; repeat match goal with
  | H : stepped _ (_ :: _) _ |- _ => inversion H; subst; clear H
  | H : stepped _ [] _ |- _ => inversion H
  end.
  all: unfold decode_step in *; repeat match goal with
  | H : match input_class ?a with _ => _ end = _ |- _ => destruct (input_class a) eqn:?; try discriminate H
  | H : Continue _ = Continue _ |- _ => injection H as <-
  end; auto.
  all: cbn [decode mark_invalid] in *; repeat match goal with H : context[if ?x then _ else _] |- _ => destruct x; try discriminate end; auto.
Qed.

(** Encodings tell characters apart. *)
Lemma utf8_unambiguous cs1 cs2 : Forall known cs1 -> Forall known cs2 -> flat_map utf8 cs1 = flat_map utf8 cs2 -> cs1 = cs2.
Proof. intros K1 K2 E. pose proof (chars_utf8 cs1 K1) as A. rewrite E, chars_utf8 in A by auto. congruence. Qed.

Lemma chars_display cs s : chars s = Ret cs -> Forall byte s -> valid_sequence s = true ->
  s = flat_map utf8 cs /\ Forall known cs /\ Forall (fun c => put_char c = Ret (utf8 c)) cs.
Proof.
  intros C B V. apply valid_exact in V as (cs' & K & ->); auto. rewrite chars_utf8 in C by auto. injection C as ->.
  refine (conj eq_refl (conj K _)). revert K. apply Forall_impl. intros c K. destruct (encode_known c K) as (x & E & Q).
  unfold put_char. now rewrite E, Q.
Qed.

(** ** What is wrong *)

Lemma encode_refuted : exists x, scalar x /\ encode x = None /\ from_unicode_scalar x = None /\ put_char x = Panic.
Proof. exists 128512. repeat split; vm_compute; try congruence. intros [_ H]. apply H. reflexivity. Qed.

Lemma valid_refuted : exists s, well_formed s /\ valid_sequence s = false /\ chars s = Panic.
Proof.
  exists (utf8 128512). refine (conj _ (conj _ _)); [|reflexivity|reflexivity]. exists [128512]. split; [|reflexivity].
  constructor; [|constructor]. split; vm_compute; [congruence|]. intros [_ H]. apply H. reflexivity.
Qed.

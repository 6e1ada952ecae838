From Coq Require Import NArith ZArith Lia.
From Verif.Base Require Import Base.
From Verif.Utf8 Require Import Model Spec Proofs ProofsMain ProofsPrefix.
From Verif.Strings Require Import Model Spec Proofs ProofsSplit.
Local Open Scope list_scope.

Ltac Zify.zify_post_hook ::= Z.to_euclidean_division_equations.

(** ** Comparing *)

Lemma compare_lex_loop a : forall b,
  (if negb (Z.eqb (memcmp a b (Nat.min (List.length a) (List.length b))) 0)
   then (if Z.ltb (memcmp a b (Nat.min (List.length a) (List.length b))) 0 then -1 else 1)%Z
   else if negb (Nat.eqb (List.length a) (List.length b)) then (if Nat.ltb (List.length a) (List.length b) then -1 else 1)%Z else 0%Z) =
  match lexicographic a b with Lt => (-1)%Z | Eq => 0%Z | Gt => 1%Z end.
Proof.
  induction a as [|x a IH]; intros [|y b]; auto. cbn [List.length Nat.min memcmp lexicographic].
  destruct (N.eqb_spec x y) as [->|NE].
  - rewrite N.compare_refl. rewrite <- IH. reflexivity.
  - destruct (N.compare_spec x y) as [?|H|H]; [congruence| |].
    + now rewrite (proj2 (N.ltb_lt x y) H).
    + now replace (N.ltb x y) with false by (symmetry; apply N.ltb_ge; lia).
Qed.

Lemma string_cmp_lex a b : string_cmp a b = match lexicographic a b with Lt => (-1)%Z | Eq => 0%Z | Gt => 1%Z end.
Proof.
  rewrite <- compare_lex_loop. unfold string_cmp.
  replace (if Nat.ltb (List.length a) (List.length b) then List.length a else List.length b) with (Nat.min (List.length a) (List.length b))
    by (destruct (Nat.ltb_spec (List.length a) (List.length b)); lia).
  set (m := Nat.min _ _). destruct (Nat.ltb_spec 0 m); auto. assert (m = 0) as -> by lia. now destruct a.
Qed.

Lemma lex_lt c1 c2 r1 r2 : known c1 -> known c2 -> (c1 < c2)%N -> lexicographic (utf8 c1 ++ r1) (utf8 c2 ++ r2) = Lt.
Proof.
  intros [[A1 B1] C1] [[A2 B2] C2] L. unfold utf8.
  repeat match goal with |- context[N.ltb ?a ?b] => destruct (N.ltb_spec a b); try lia end; cbn [app lexicographic];
  repeat match goal with |- context[N.compare ?a ?b] => destruct (N.compare_spec a b); auto; try lia end.
Qed.

Lemma lex_antisym a : forall b, lexicographic b a = CompOpp (lexicographic a b).
Proof.
  induction a as [|x a IH]; intros [|y b]; auto. cbn [lexicographic]. rewrite (N.compare_antisym x y), IH. now destruct (N.compare x y).
Qed.

Lemma lex_text a : Forall known a -> forall b, Forall known b -> lexicographic (flat_map utf8 a) (flat_map utf8 b) = lexicographic a b.
Proof.
  induction 1 as [|x a K _ IH]; intros b KB.
  - destruct b as [|y b]; auto. cbn [flat_map lexicographic]. pose proof (utf8_nonempty y). destruct (utf8 y); [congruence|reflexivity].
  - destruct KB as [|y b KY KB].
    + cbn [flat_map lexicographic]. pose proof (utf8_nonempty x). destruct (utf8 x); [congruence|reflexivity].
    + cbn [flat_map lexicographic]. destruct (N.compare_spec x y) as [->|L|L].
      * rewrite <- (IH b KB). clear. induction (utf8 y) as [|z l IH2]; auto. cbn [app lexicographic]. now rewrite N.compare_refl.
      * now apply lex_lt.
      * rewrite lex_antisym. now rewrite lex_lt.
Qed.

Lemma compare_text a b : Forall known a -> Forall known b ->
  compare (flat_map utf8 a) (flat_map utf8 b) = Ret (lexicographic a b).
Proof. intros KA KB. unfold compare. rewrite string_cmp_lex, lex_text by auto. now destruct (lexicographic a b). Qed.

Lemma memcmp_eq a : forall b, List.length a = List.length b -> (memcmp a b (List.length a) = 0%Z <-> a = b).
Proof.
  induction a as [|x a IH]; intros [|y b] L; try discriminate; [tauto|]. cbn [List.length memcmp]. injection L as L.
  destruct (N.eqb_spec x y) as [->|NE].
  - rewrite IH by auto. split; congruence.
  - split; [destruct (N.ltb x y); discriminate|congruence].
Qed.

Lemma string_eq_spec a b : string_eq a b = true <-> a = b.
Proof.
  unfold string_eq. destruct (Nat.eqb_spec (List.length a) (List.length b)) as [L|NE]; cbn [andb].
  - rewrite <- (memcmp_eq a b L). destruct (Nat.eqb_spec (List.length a) 0) as [Z0|NZ]; cbn [orb].
    + rewrite Z0. now destruct a.
    + apply Z.eqb_eq.
  - split; [discriminate|congruence].
Qed.

(** ** Characters and bytes *)

Lemma from_chars_loop_spec cs : Forall known cs -> forall buf, from_chars_loop cs buf = Ret (buf ++ flat_map utf8 cs).
Proof.
  induction 1 as [|c cs K _ IH]; intro buf; cbn [from_chars_loop flat_map]; [now rewrite app_nil_r|].
  destruct (encode_known c K) as (x & E & Q). unfold put_char. rewrite E, Q. cbn [Base.bind]. rewrite IH. now rewrite <- List.app_assoc.
Qed.

Lemma from_chars_spec cs : Forall known cs -> from_chars cs = Ret (flat_map utf8 cs).
Proof. intro K. unfold from_chars. now rewrite from_chars_loop_spec. Qed.

Lemma from_bytes_spec s : Forall byte s ->
  (is_string s -> from_bytes s = Ret s /\ from_bytes_opt s = Some s) /\ (~ is_string s -> from_bytes s = Panic /\ from_bytes_opt s = None).
Proof.
  intro B. unfold from_bytes, from_bytes_opt, is_string. pose proof (valid_exact s B) as V. destruct (valid_sequence s); split; intro H; auto.
  - destruct H. now apply V.
  - apply V in H. discriminate.
Qed.

Lemma consume_spec n cs : Forall known cs ->
  (between cs n -> consume n (flat_map utf8 cs) = Ret (firstn n (flat_map utf8 cs), skipn n (flat_map utf8 cs)) /\
     is_string (firstn n (flat_map utf8 cs)) /\ is_string (skipn n (flat_map utf8 cs))) /\
  (~ between cs n -> consume n (flat_map utf8 cs) = Panic).
Proof.
  intro K. unfold consume. split; intro B.
  - rewrite (proj1 (assert_boundary cs n _ K) B). split; auto. now apply string_between.
  - now rewrite (proj2 (assert_boundary cs n _ K) B).
Qed.

(** ** Turning around *)

Lemma text_latin cs : Forall (fun c => c < 128)%N cs -> flat_map utf8 cs = cs.
Proof.
  induction 1 as [|c cs L _ IH]; auto. cbn [flat_map]. rewrite IH. unfold utf8. destruct (N.ltb_spec c 128); [reflexivity|lia].
Qed.

Lemma reverse_latin cs : Forall (fun c => c < 128)%N cs -> reverse (flat_map utf8 cs) = flat_map utf8 (rev cs).
Proof.
  intro L. rewrite !text_latin by (auto using Forall_rev). unfold reverse. destruct (Nat.leb_spec (List.length cs) 1) as [H|H]; auto.
  destruct cs as [|c [|d cs]]; auto. cbn in H. lia.
Qed.

Lemma reverse_wrong : exists s, is_string s /\ ~ is_string (reverse s) /\ chars (reverse s) = Panic.
Proof.
  exists (flat_map utf8 [233%N]). refine (conj _ (conj _ eq_refl)).
  - exists [233%N]. split; [|reflexivity]. constructor; [|constructor]. unfold known, scalar. lia.
  - intros (cs & K & E). pose proof (valid_utf8 cs K) as V. rewrite <- E in V. vm_compute in V. discriminate.
Qed.

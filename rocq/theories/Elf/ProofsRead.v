(** Reading back bytes that were written. *)
From Coq Require Import NArith ZArith Lia.
From Verif.Base Require Import Base.
From Verif.Asm Require Model.
From Verif.Obj Require Import Model.
From Verif.Obj Require ProofsProduce.
From Verif.Elf Require Import Model Spec.
Import Asm.Model(le_bytes).
Local Open Scope Z_scope.
Local Open Scope list_scope.

Lemma le_bytes_length n z : List.length (le_bytes n z) = n.
Proof. apply Obj.ProofsProduce.le_bytes_length. Qed.

Lemma len_app a b : len (a ++ b) = len a + len b.
Proof. unfold len. rewrite app_length. lia. Qed.

Lemma len_nonneg a : 0 <= len a.
Proof. unfold len. lia. Qed.

Lemma len_le_bytes n z : len (le_bytes n z) = Z.of_nat n.
Proof. unfold len. now rewrite le_bytes_length. Qed.

Lemma number_le_bytes n z : number (le_bytes n z) = z mod 256 ^ Z.of_nat n.
Proof.
  revert z. induction n as [|n IH]; intro z; cbn [le_bytes number].
  - now rewrite Z.pow_0_r, Z.mod_1_r.
  - rewrite IH. rewrite Z2N.id by (apply Z.mod_pos_bound; lia).
    replace (Z.of_nat (S n)) with (Z.succ (Z.of_nat n)) by lia. rewrite Z.pow_succ_r by lia.
    assert (P : 0 < 256 ^ Z.of_nat n) by (apply Z.pow_pos_nonneg; lia).
    rewrite Z.rem_mul_r by lia. reflexivity.
Qed.

Lemma slice_skip a f k n : len a <= k -> slice (a ++ f) k n = slice f (k - len a) n.
Proof.
  intro L. pose proof (len_nonneg a) as Na. unfold slice. rewrite len_app.
  replace (0 <=? k - len a) with (0 <=? k) by (rewrite (proj2 (Z.leb_le 0 k)), (proj2 (Z.leb_le 0 _)) by lia; auto).
  replace (k - len a + n <=? len f) with (k + n <=? len a + len f)
    by (apply Bool.eq_iff_eq_true; rewrite !Z.leb_le; lia).
  destruct ((0 <=? k) && (0 <=? n) && (k + n <=? len a + len f)); auto. f_equal. f_equal.
  unfold len in *. rewrite skipn_app. rewrite skipn_all2 by lia. cbn [app]. f_equal. lia.
Qed.

Lemma slice_here a f n : n = len a -> slice (a ++ f) 0 n = Some a.
Proof.
  intros ->. unfold slice. rewrite len_app. pose proof (len_nonneg a). pose proof (len_nonneg f).
  rewrite (proj2 (Z.leb_le _ _)) by lia. rewrite (proj2 (Z.leb_le _ _)) by lia. rewrite (proj2 (Z.leb_le _ _)) by lia.
  cbn [andb]. cbn [Z.to_nat skipn]. unfold len. rewrite Nat2Z.id, firstn_app, Nat.sub_diag, firstn_all. cbn. now rewrite app_nil_r.
Qed.

Lemma get_skip m a f k : len a <= k -> get m (a ++ f) k = get m f (k - len a).
Proof. intro L. unfold get. now rewrite slice_skip. Qed.

Lemma get_here m n z f k : m = Z.of_nat n -> k = 0 -> 0 <= z < 256 ^ m -> get m (le_bytes n z ++ f) k = Some z.
Proof.
  intros -> -> R. unfold get. rewrite slice_here by now rewrite len_le_bytes. cbn [option_map].
  rewrite number_le_bytes, Z.mod_small; auto.
Qed.

(** Fields that follow one another. *)
Ltac field := repeat (rewrite <- ?app_assoc; rewrite get_skip by (rewrite ?len_le_bytes; cbn; lia); rewrite ?len_le_bytes).

Lemma all_places {B} (g : Z -> option B) w xs : (forall i x, nth_error xs i = Some x -> g (Z.of_nat i * w) = Some x) ->
  all g (places (Z.of_nat (List.length xs)) w) = Some xs.
Proof.
  intro H. unfold places. rewrite Nat2Z.id.
  assert (G : forall ys k, (forall i x, nth_error ys i = Some x -> g (Z.of_nat (k + i) * w) = Some x) ->
    all g (map (fun i => Z.of_nat i * w) (seq k (List.length ys))) = Some ys).
  { induction ys as [|y ys IH]; intros k K; cbn [List.length seq map all]; auto.
    rewrite <- (Nat.add_0_r k) at 1. rewrite (K 0%nat y eq_refl). cbn [opt_bind].
    rewrite (IH (S k)); auto. intros i x E. replace (S k + i)%nat with (k + S i)%nat by lia. now apply K. }
  apply G. intros i x E. now apply H.
Qed.

Lemma nth_flat {A} (f : A -> list N) w (l : list A) : (forall x, In x l -> len (f x) = w) ->
  forall i x, nth_error l i = Some x -> exists a b, flat_map f l = a ++ f x ++ b /\ len a = Z.of_nat i * w.
Proof.
  induction l as [|y l IH]; intros W i x E; [now destruct i|].
  destruct i as [|i]; cbn [nth_error] in E.
  - injection E as ->. exists [], (flat_map f l). split; [reflexivity | cbn; lia].
  - destruct (IH (fun z I => W z (or_intror I)) i x E) as (a & b & F & L).
    exists (f y ++ a), b. split; [cbn [flat_map]; rewrite F; now rewrite <- app_assoc|].
    rewrite len_app, L, W by now left. lia.
Qed.

Lemma len_flat {A} (f : A -> list N) w (l : list A) : (forall x, In x l -> len (f x) = w) ->
  len (flat_map f l) = Z.of_nat (List.length l) * w.
Proof.
  induction l as [|y l IH]; intro W; cbn [flat_map List.length]; [now cbn|].
  rewrite len_app, W by now left. rewrite IH by (intros; apply W; now right). lia.
Qed.

(** ** Strings *)

Lemma cstring_app l s q : cstring l = Some s -> cstring (l ++ q) = Some s.
Proof.
  revert s. induction l as [|b l IH]; intros s E; cbn in *; [discriminate|].
  destruct (N.eqb b 0); auto. destruct (cstring l) as [s'|]; [|discriminate].
  now rewrite (IH s' eq_refl).
Qed.

Lemma get_string_app t i s q : get_string t i = Some s -> get_string (t ++ q) i = Some s.
Proof.
  unfold get_string. destruct ((0 <=? i) && (i <? len t)) eqn:B; [|discriminate]. intro E.
  apply andb_prop in B as [B1 B2]. apply Z.leb_le in B1. apply Z.ltb_lt in B2. pose proof (len_nonneg q).
  rewrite len_app. rewrite (proj2 (Z.leb_le _ _)) by lia. rewrite (proj2 (Z.ltb_lt _ _)) by lia. cbn [andb].
  rewrite skipn_app. now apply cstring_app.
Qed.

Lemma cstring_bytes s : existsb (N.eqb 0) (bytes s) = false -> cstring (bytes s ++ [0%N]) = Some s.
Proof.
  induction s as [|c s IH]; intro E; [reflexivity|]. cbn [bytes existsb app cstring] in *.
  apply Bool.orb_false_iff in E as [E1 E2]. rewrite N.eqb_sym, E1, (IH E2). cbn. now rewrite ascii_N_embedding.
Qed.

Lemma get_string_last t s : existsb (N.eqb 0) (bytes s) = false -> get_string (t ++ bytes s ++ [0%N]) (len t) = Some s.
Proof.
  intro E. unfold get_string. pose proof (len_nonneg t). pose proof (len_nonneg (bytes s)).
  rewrite !len_app. replace (len [0%N]) with 1 by reflexivity.
  rewrite (proj2 (Z.leb_le _ _)) by lia. rewrite (proj2 (Z.ltb_lt _ _)) by lia. cbn [andb].
  unfold len. rewrite Nat2Z.id, skipn_app, skipn_all, Nat.sub_diag. cbn [skipn app]. now apply cstring_bytes.
Qed.

Lemma bytes_length s : len (bytes s) = Z.of_nat (String.length s).
Proof. unfold len. induction s as [|c s IH]; auto. cbn [bytes List.length String.length]. lia. Qed.

Lemma nul_free_bytes s : nul_free s -> existsb (N.eqb 0) (bytes s) = false.
Proof.
  unfold nul_free. induction s as [|c s IH]; intro F; [reflexivity|]. cbn [bytes existsb list_ascii_of_string In] in *.
  rewrite IH by tauto. rewrite Bool.orb_false_r. apply N.eqb_neq. intro E. apply F. left.
  rewrite <- (ascii_N_embedding c), <- E. reflexivity.
Qed.

From Coq Require Import NArith ZArith Lia.
From Verif.Base Require Import Base.
From Verif.Utf8 Require Import Model Spec Proofs ProofsMain ProofsPrefix.
From Verif.Strings Require Import Model Spec.
Local Open Scope list_scope.

Notation text := (flat_map utf8).

(** ** Prefixes and suffixes *)

Lemma all_equal_prefix p s : List.length p <= List.length s -> (all_equal p s = true <-> exists b, s = p ++ b).
Proof.
  revert s. induction p as [|x p IH]; intros s L; cbn [all_equal].
  - split; auto. now exists s.
  - destruct s as [|y s]; [cbn in L; lia|]. cbn in L. destruct (N.eqb_spec x y) as [->|NE].
    + rewrite IH by lia. split; intros [b E]; exists b; [now rewrite E|]. now injection E.
    + split; [discriminate|]. intros [b E]. injection E as E _. congruence.
Qed.

Lemma starts_with_iff p s : starts_with p s = true <-> exists b, s = p ++ b.
Proof.
  unfold starts_with, is_empty. destruct (Nat.eqb_spec (List.length p) 0) as [E|NE].
  - destruct p; [|discriminate]. split; auto. now exists s.
  - destruct (Nat.leb_spec (List.length p) (List.length s)) as [L|L]; cbn [andb].
    + now apply all_equal_prefix.
    + split; [discriminate|]. intros [b ->]. rewrite List.app_length in L. lia.
Qed.

Lemma ends_with_iff p s : ends_with p s = true <-> exists a, s = a ++ p.
Proof.
  unfold ends_with, is_empty. destruct (Nat.eqb_spec (List.length p) 0) as [E|NE].
  - destruct p; [|discriminate]. split; auto. exists s. now rewrite app_nil_r.
  - destruct (Nat.leb_spec (List.length p) (List.length s)) as [L|L]; cbn [andb].
    + rewrite all_equal_prefix by (rewrite !rev_length; auto). split; intros [b E].
      * exists (rev b). apply (f_equal (@rev N)) in E. now rewrite rev_involutive, rev_app_distr, rev_involutive in E.
      * subst s. exists (rev b). now rewrite rev_app_distr.
    + split; [discriminate|]. intros [b ->]. rewrite List.app_length in L. lia.
Qed.

Lemma unsafe_skip i s : unsafe_substring i (List.length s) s = skipn i s.
Proof. unfold unsafe_substring. apply firstn_all2. rewrite skipn_length. lia. Qed.

Lemma unsafe_take i s : unsafe_substring 0 i s = firstn i s.
Proof. unfold unsafe_substring. now rewrite Nat.sub_0_r. Qed.

Lemma skipn_app_at (a b : list N) i : List.length a = i -> skipn i (a ++ b) = b.
Proof. intros <-. now rewrite skipn_app, Nat.sub_diag, skipn_all. Qed.

Lemma firstn_app_at (a b : list N) i : List.length a = i -> firstn i (a ++ b) = a.
Proof. intros <-. now rewrite firstn_app, Nat.sub_diag, firstn_all, firstn_O, app_nil_r. Qed.

(** ** Finding *)

Lemma occurs_prefix part s i : i <= List.length s -> (occurs_at part s i <-> exists b, skipn i s = part ++ b).
Proof.
  intro L. split.
  - intros (a & b & -> & E). exists b. now apply skipn_app_at.
  - intros [b E]. exists (firstn i s), b. rewrite <- E, firstn_skipn. split; auto. apply firstn_length_le. auto.
Qed.

Lemma occurs_length part s i : occurs_at part s i -> i + List.length part <= List.length s.
Proof. intros (a & b & -> & E). rewrite !List.app_length. lia. Qed.

Lemma prefix_length (cs1 cs2 ds1 ds2 : list N) : cs1 ++ cs2 = ds1 ++ ds2 -> List.length cs1 <= List.length ds1 ->
  List.length (text cs1) <= List.length (text ds1).
Proof.
  revert ds1. induction cs1 as [|c cs1 IH]; intros ds1 E L; cbn [flat_map].
  - cbn. lia.
  - destruct ds1 as [|d ds1]; [cbn in L; lia|]. injection E as -> E. cbn [flat_map]. rewrite !List.app_length. cbn in L.
    specialize (IH ds1 E). lia.
Qed.

(** No string occurs inside a character. *)
Lemma not_inside pre c cs ps j : Forall known (pre ++ c :: cs) -> Forall known ps -> ps <> [] ->
  occurs_at (text ps) (text (pre ++ c :: cs)) j ->
  j <= List.length (text pre) \/ List.length (text (pre ++ [c])) <= j.
Proof.
  intros K KP NE (a & b & E & <-). destruct (occurrence_chars _ _ _ _ K KP NE E) as (ca & cb & Q & -> & _).
  destruct (Nat.le_gt_cases (List.length ca) (List.length pre)) as [L|L].
  - left. eapply prefix_length; eauto.
  - right. apply (prefix_length (pre ++ [c]) cs ca (ps ++ cb)).
    + rewrite <- Q, <- List.app_assoc. reflexivity.
    + rewrite List.app_length. cbn. lia.
Qed.

Definition found (part s : list N) (r : option nat) : Prop :=
  match r with
  | Some i => occurs_at part s i /\ forall j, occurs_at part s j -> i <= j
  | None => forall j, ~ occurs_at part s j
  end.

Lemma text_app a b : text (a ++ b) = text a ++ text b.
Proof. apply flat_map_app. Qed.

Lemma find_loop_spec ps cs : Forall known ps -> ps <> [] -> forall pre, Forall known (pre ++ cs) ->
  (forall j, occurs_at (text ps) (text (pre ++ cs)) j -> List.length (text pre) <= j) ->
  found (text ps) (text (pre ++ cs)) (find_loop (text ps) (text (pre ++ cs)) (positions (N.of_nat (List.length (text pre))) cs)).
Proof.
  intros KP NE. assert (PL : 0 < List.length (text ps)).
  { destruct ps as [|p ps]; [congruence|]. cbn [flat_map]. pose proof (utf8_nonempty p). destruct (utf8 p); [congruence|]. cbn. lia. }
  induction cs as [|c cs IH]; intros pre K H; cbn [positions find_loop].
  - intros j O. pose proof (H j O). apply occurs_length in O. rewrite app_nil_r in O. lia.
  - rewrite Nat2N.id. set (i := List.length (text pre)) in *. set (s := text (pre ++ c :: cs)) in *.
    assert (IL : i <= List.length s) by (unfold s, i; rewrite text_app, List.app_length; lia).
    destruct (Nat.ltb_spec (List.length s - i) (List.length (text ps))) as [L|L].
    + intros j O. pose proof (H j O). apply occurs_length in O. lia.
    + rewrite unsafe_skip. destruct (starts_with (text ps) (skipn i s)) eqn:SW.
      * split; auto. apply occurs_prefix; auto. now apply starts_with_iff.
      * replace (N.of_nat i + N.of_nat (List.length (utf8 c)))%N with (N.of_nat (List.length (text (pre ++ [c])))) by
          (rewrite text_app, List.app_length; cbn [flat_map]; rewrite app_nil_r; fold i; lia).
        assert (Q : pre ++ c :: cs = (pre ++ [c]) ++ cs) by (rewrite <- List.app_assoc; reflexivity).
        specialize (IH (pre ++ [c])). rewrite <- Q in IH. apply IH; auto. intros j O.
        destruct (not_inside pre c cs ps j K KP NE O) as [J|J]; auto. exfalso. specialize (H j O). fold i in J. assert (j = i) as -> by lia.
        apply occurs_prefix in O; auto. apply starts_with_iff in O. change (starts_with (text ps) (skipn i s) = true) in O. congruence.
Qed.

Lemma is_empty_text ps : ps <> [] -> is_empty (text ps) = false.
Proof.
  intro NE. destruct ps as [|p ps]; [congruence|]. unfold is_empty. apply Nat.eqb_neq. cbn [flat_map]. pose proof (utf8_nonempty p). destruct (utf8 p); [congruence|].
  discriminate.
Qed.

Lemma find_text ps cs : Forall known ps -> ps <> [] -> Forall known cs -> fits (text cs) ->
  exists r, find (text ps) (text cs) = Ret r /\ found (text ps) (text cs) r.
Proof.
  intros KP NE K F. unfold find. rewrite is_empty_text, indices_utf8 by auto. eexists; split; [reflexivity|].
  apply (find_loop_spec ps cs KP NE []); auto. intros. cbn. lia.
Qed.

Lemma is_string_ne p : is_string p -> p <> [] -> exists ps, Forall known ps /\ ps <> [] /\ p = text ps.
Proof. intros (ps & K & ->) NE. exists ps. refine (conj K (conj _ eq_refl)). intros ->. now apply NE. Qed.

Lemma find_spec part s : is_string part -> is_string s -> fits s ->
  exists r, find part s = Ret r /\ found part s r.
Proof.
  intros P (cs & K & ->) F. destruct part as [|b part].
  - exists (Some O). split; auto. split; [|intros; lia]. now exists [], (text cs).
  - destruct (is_string_ne _ P) as (ps & KP & NE & ->); [discriminate|]. apply find_text; auto.
Qed.

Lemma contains_find_loop part s l : contains_loop part s l = match find_loop part s l with Some _ => true | None => false end.
Proof. induction l as [|[i c] l IH]; cbn [contains_loop find_loop]; auto. destruct (Nat.ltb _ _); auto. destruct (starts_with _ _); auto. Qed.

Lemma contains_spec part s : is_string part -> is_string s -> fits s ->
  exists r, contains part s = Ret r /\ (r = true <-> exists i, occurs_at part s i).
Proof.
  intros P S F. destruct (find_spec part s P S F) as (r & E & H). exists (match r with Some _ => true | None => false end).
  split.
  - unfold contains, find in *. destruct (is_empty part); [injection E as <-; reflexivity|].
    destruct (char_indices s); cbn in *; try discriminate. injection E as <-. now rewrite contains_find_loop.
  - destruct r as [i|]; cbn in H.
    + split; auto. intros _. exists i. tauto.
    + split; [discriminate|]. intros [i O]. destruct (H i O).
Qed.

(** ** Substrings *)

Lemma string_between cs i : Forall known cs -> between cs i ->
  is_string (firstn i (text cs)) /\ is_string (skipn i (text cs)).
Proof.
  intros K (ca & cb & -> & ->). rewrite text_app, firstn_app_at, skipn_app_at by auto. apply Forall_app in K as [KA KB].
  split; [now exists ca|now exists cb].
Qed.

Lemma between_le cs i : between cs i -> i <= List.length (text cs).
Proof. intros (ca & cb & -> & ->). rewrite text_app, List.app_length. lia. Qed.

Lemma assert_boundary cs i {A} (k : outcome A) : Forall known cs ->
  (between cs i -> (let* _ := assert_ (char_boundary i (text cs)) in k) = k) /\
  (~ between cs i -> (let* _ := assert_ (char_boundary i (text cs)) in k) = Panic).
Proof.
  intro K. destruct (boundary_exact cs i K) as (r & E & H). rewrite E. split; intro B; cbn.
  - apply H in B as ->. reflexivity.
  - destruct r; auto. destruct B. now apply H.
Qed.

Lemma between_skip cs st e : Forall known cs -> st <= e -> between cs st -> between cs e ->
  is_string (firstn (e - st) (skipn st (text cs))).
Proof.
  intros K L (ca & cb & -> & ->) (da & db & Q & ->). rewrite text_app, skipn_app_at by auto. apply Forall_app in K as [KA KB].
  assert (exists x, da = ca ++ x /\ cb = x ++ db) as (x & -> & ->).
  { clear KA KB. revert da Q L. induction ca as [|c ca IH]; intros da Q L.
    - now exists da.
    - destruct da as [|d da].
      + cbn [flat_map] in L. rewrite List.app_length in L. pose proof (utf8_nonempty c). destruct (utf8 c); [congruence|]. cbn in L. lia.
      + injection Q as -> Q. cbn [flat_map] in L. rewrite !List.app_length in L. destruct (IH da Q) as (x & -> & ->); [lia|]. now exists x. }
  rewrite !text_app, List.app_length. replace (_ + _ - _) with (List.length (text x)) by lia. rewrite firstn_app_at by auto.
  apply Forall_app in KB as [KX _]. now exists x.
Qed.

Lemma substring_text st e cs : Forall known cs ->
  (st <= e /\ between cs st /\ between cs e ->
   substring st e (text cs) = Ret (firstn (e - st) (skipn st (text cs))) /\ is_string (firstn (e - st) (skipn st (text cs)))) /\
  (~ (st <= e /\ between cs st /\ between cs e) -> substring st e (text cs) = Panic).
Proof.
  intro K. unfold substring. split.
  - intros (L & B1 & B2). pose proof (between_le _ _ B2) as L2. rewrite (proj2 (Nat.leb_le _ _) L), (proj2 (Nat.leb_le _ _) L2).
    cbn [andb assert_ Base.bind]. rewrite (proj1 (assert_boundary cs st _ K) B1), (proj1 (assert_boundary cs e _ K) B2).
    split; auto. apply between_skip; auto.
  - intro N. destruct (Nat.leb_spec st e) as [L|L]; cbn [andb assert_ Base.bind]; auto.
    destruct (Nat.leb_spec e (List.length (text cs))) as [L2|L2]; cbn [assert_ Base.bind]; auto.
    destruct (boundary_exact cs st K) as (r & E & H). rewrite E. destruct r; auto. cbn [assert_ Base.bind].
    destruct (boundary_exact cs e K) as (r2 & E2 & H2). rewrite E2. destruct r2; auto.
    destruct N. refine (conj L (conj _ _)); [now apply H|now apply H2].
Qed.

Lemma between_0 cs : between cs 0.
Proof. now exists [], cs. Qed.
Lemma between_all cs : between cs (List.length (text cs)).
Proof. exists cs, []. now rewrite app_nil_r. Qed.

Lemma take_text n cs : Forall known cs ->
  (between cs n \/ List.length (text cs) <= n -> take n (text cs) = Ret (firstn n (text cs)) /\ is_string (firstn n (text cs))) /\
  (~ (between cs n \/ List.length (text cs) <= n) -> take n (text cs) = Panic).
Proof.
  intro K. unfold take. destruct (substring_text 0 (Nat.min n (List.length (text cs))) cs K) as [A B]. split.
  - intro H. assert (Q : firstn (Nat.min n (List.length (text cs)) - 0) (skipn 0 (text cs)) = firstn n (text cs)).
    { rewrite Nat.sub_0_r. cbn [skipn]. destruct (Nat.le_gt_cases n (List.length (text cs))) as [L|L].
      - now rewrite Nat.min_l.
      - rewrite Nat.min_r, firstn_all, firstn_all2 by lia. reflexivity. }
    rewrite Q in A. apply A. refine (conj _ (conj (between_0 _) _)); [lia|]. destruct H as [H|H].
    + pose proof (between_le _ _ H). now rewrite Nat.min_l.
    + rewrite Nat.min_r by auto. apply between_all.
  - intro H. apply B. intros (_ & _ & B2). apply H. destruct (Nat.le_gt_cases (List.length (text cs)) n); auto. rewrite Nat.min_l in B2 by lia. auto.
Qed.

Lemma skip_text n cs : Forall known cs ->
  (between cs n \/ List.length (text cs) <= n -> skip n (text cs) = Ret (skipn n (text cs)) /\ is_string (skipn n (text cs))) /\
  (~ (between cs n \/ List.length (text cs) <= n) -> skip n (text cs) = Panic).
Proof.
  intro K. unfold skip. destruct (substring_text (Nat.min n (List.length (text cs))) (List.length (text cs)) cs K) as [A B]. split.
  - intro H. assert (Q : firstn (List.length (text cs) - Nat.min n (List.length (text cs))) (skipn (Nat.min n (List.length (text cs))) (text cs)) = skipn n (text cs)).
    { destruct (Nat.le_gt_cases n (List.length (text cs))) as [L|L].
      - rewrite Nat.min_l by lia. apply firstn_all2. rewrite skipn_length. lia.
      - rewrite Nat.min_r, Nat.sub_diag, firstn_O, skipn_all2 by lia. reflexivity. }
    rewrite Q in A. apply A. refine (conj _ (conj _ (between_all _))); [lia|]. destruct H as [H|H].
    + pose proof (between_le _ _ H). now rewrite Nat.min_l.
    + rewrite Nat.min_r by auto. apply between_all.
  - intro H. apply B. intros (_ & B1 & _). apply H. destruct (Nat.le_gt_cases (List.length (text cs)) n); auto. rewrite Nat.min_l in B1 by lia. auto.
Qed.

From Coq Require Import NArith.
From Verif.Base Require Import Base.
From Verif.Utf8 Require Import Model Spec.
From Verif.Strings Require Import Model Spec Proofs ProofsSplit ProofsOrder.
Local Open Scope list_scope.

(** C33. A search gives the position of the first occurrence, or nothing if there is none. *)
Theorem find_first : forall part s, is_string part -> is_string s -> fits s ->
  exists r, find part s = Ret r /\
    match r with
    | Some i => occurs_at part s i /\ forall j, occurs_at part s j -> i <= j
    | None => forall j, ~ occurs_at part s j
    end.
Proof. exact find_spec. Qed.
Print Assumptions find_first.

Theorem contains_exact : forall part s, is_string part -> is_string s -> fits s ->
  exists r, contains part s = Ret r /\ (r = true <-> exists i, occurs_at part s i).
Proof. exact contains_spec. Qed.
Print Assumptions contains_exact.

Theorem starts_with_exact : forall p s, starts_with p s = true <-> exists b, s = p ++ b.
Proof. exact starts_with_iff. Qed.
Print Assumptions starts_with_exact.

Theorem ends_with_exact : forall p s, ends_with p s = true <-> exists a, s = a ++ p.
Proof. exact ends_with_iff. Qed.
Print Assumptions ends_with_exact.

(** Substrings are taken between characters, and only there. *)
Theorem substring_exact : forall start end_ cs, Forall known cs ->
  (start <= end_ /\ between cs start /\ between cs end_ ->
   substring start end_ (flat_map utf8 cs) = Ret (firstn (end_ - start) (skipn start (flat_map utf8 cs))) /\
   is_string (firstn (end_ - start) (skipn start (flat_map utf8 cs)))) /\
  (~ (start <= end_ /\ between cs start /\ between cs end_) -> substring start end_ (flat_map utf8 cs) = Panic).
Proof. exact substring_text. Qed.
Print Assumptions substring_exact.

Theorem take_exact : forall n cs, Forall known cs ->
  (between cs n \/ List.length (flat_map utf8 cs) <= n ->
   take n (flat_map utf8 cs) = Ret (firstn n (flat_map utf8 cs)) /\ is_string (firstn n (flat_map utf8 cs))) /\
  (~ (between cs n \/ List.length (flat_map utf8 cs) <= n) -> take n (flat_map utf8 cs) = Panic).
Proof. exact take_text. Qed.
Print Assumptions take_exact.

Theorem skip_exact : forall n cs, Forall known cs ->
  (between cs n \/ List.length (flat_map utf8 cs) <= n ->
   skip n (flat_map utf8 cs) = Ret (skipn n (flat_map utf8 cs)) /\ is_string (skipn n (flat_map utf8 cs))) /\
  (~ (between cs n \/ List.length (flat_map utf8 cs) <= n) -> skip n (flat_map utf8 cs) = Panic).
Proof. exact skip_text. Qed.
Print Assumptions skip_exact.

(** Splitting gives the pieces between the separators, found from the left; there is one way to do so. *)
Theorem split_exact : forall sep s, is_string sep -> sep <> [] -> is_string s -> fits s ->
  exists l, split sep s = Ret l /\ pieces sep s l /\ Forall is_string l.
Proof. exact split_spec. Qed.
Print Assumptions split_exact.

Theorem pieces_unique : forall sep s l1, pieces sep s l1 -> forall l2, pieces sep s l2 -> l1 = l2.
Proof. exact pieces_det. Qed.
Print Assumptions pieces_unique.

Theorem split_by_nothing : forall cs, Forall known cs -> split [] (flat_map utf8 cs) = Ret (map utf8 cs).
Proof. exact split_empty. Qed.
Print Assumptions split_by_nothing.

(** Joining puts the separator between strings: it undoes splitting. *)
Theorem join_exact : forall (sep : list N) (l : list (list N)), join sep l = with_between sep l.
Proof. exact join_spec. Qed.
Print Assumptions join_exact.

Theorem split_then_join : forall sep s, is_string sep -> sep <> [] -> is_string s -> fits s ->
  exists l, split sep s = Ret l /\ join sep l = s.
Proof. exact split_join. Qed.
Print Assumptions split_then_join.

(** Splitting by a character undoes joining strings that do not have it. *)
Theorem join_then_split : forall c l, known c -> l <> [] -> Forall (fun x => Forall known x /\ ~ In c x) l ->
  fits (join (utf8 c) (map (flat_map utf8) l)) ->
  split (utf8 c) (join (utf8 c) (map (flat_map utf8) l)) = Ret (map (flat_map utf8) l).
Proof. exact join_split. Qed.
Print Assumptions join_then_split.

(** Replacing puts the new string in place of the separators of the pieces. *)
Theorem replace_exact : forall from to s, is_string from -> from <> [] -> is_string s -> fits s ->
  exists l, pieces from s l /\ replace from to s = Ret (with_between to l) /\ Forall is_string l.
Proof. exact replace_spec. Qed.
Print Assumptions replace_exact.

Theorem with_between_valid : forall sep l, is_string sep -> Forall is_string l -> is_string (with_between sep l).
Proof. exact with_between_string. Qed.
Print Assumptions with_between_valid.

Theorem replace_nothing_exact : forall to cs, Forall known cs ->
  replace [] to (flat_map utf8 cs) = Ret (to ++ flat_map (fun c => utf8 c ++ to) cs).
Proof. exact replace_nothing. Qed.
Print Assumptions replace_nothing_exact.

(** The lines of a string. *)
Theorem split_lines_exact : forall s, is_string s -> fits s ->
  exists l, pieces [10%N] s l /\ split_lines s = Ret (lines_of l) /\ Forall is_string (lines_of l).
Proof. exact split_lines_spec. Qed.
Print Assumptions split_lines_exact.

(** Removing a string from an end removes it as often as it is there; not if it is the empty string, when there is no
    end: [remove_nothing_refuted]. *)
Theorem remove_start_exact_partial : forall fuel p, is_string p -> p <> [] -> forall s, is_string s -> List.length s < fuel ->
  exists k r, remove_start fuel p s = Ret r /\ s = times k p ++ r /\ (~ exists b, r = p ++ b) /\ is_string r.
Proof. exact remove_start_spec. Qed.
Print Assumptions remove_start_exact_partial.

Theorem remove_end_exact_partial : forall fuel p, is_string p -> p <> [] -> forall s, is_string s -> List.length s < fuel ->
  exists k r, remove_end fuel p s = Ret r /\ s = r ++ times k p /\ (~ exists a, r = a ++ p) /\ is_string r.
Proof. exact remove_end_spec. Qed.
Print Assumptions remove_end_exact_partial.

Theorem remove_nothing_refuted : forall cs, Forall known cs -> forall fuel,
  remove_start fuel [] (flat_map utf8 cs) = OutOfFuel /\ remove_end fuel [] (flat_map utf8 cs) = OutOfFuel.
Proof. exact remove_nothing. Qed.
Print Assumptions remove_nothing_refuted.

(** A string of ASCII characters is reversed; with others the result may be no string. *)
Theorem reverse_exact_partial : forall cs, Forall (fun c => c < 128)%N cs -> reverse (flat_map utf8 cs) = flat_map utf8 (rev cs).
Proof. exact reverse_latin. Qed.
Print Assumptions reverse_exact_partial.

Theorem reverse_refuted : exists s, is_string s /\ ~ is_string (reverse s) /\ chars (reverse s) = Panic.
Proof. exact reverse_wrong. Qed.
Print Assumptions reverse_refuted.

(** Strings are ordered as their characters are, and equal if their bytes are. *)
Theorem compare_exact : forall a b, Forall known a -> Forall known b ->
  compare (flat_map utf8 a) (flat_map utf8 b) = Ret (lexicographic a b).
Proof. exact compare_text. Qed.
Print Assumptions compare_exact.

Theorem string_eq_exact : forall a b, string_eq a b = true <-> a = b.
Proof. exact string_eq_spec. Qed.
Print Assumptions string_eq_exact.

(** Strings from characters and from bytes. *)
Theorem from_chars_exact : forall cs, Forall known cs -> from_chars cs = Ret (flat_map utf8 cs).
Proof. exact from_chars_spec. Qed.
Print Assumptions from_chars_exact.

Theorem from_bytes_exact : forall s, Forall byte s ->
  (is_string s -> from_bytes s = Ret s /\ from_bytes_opt s = Some s) /\
  (~ is_string s -> from_bytes s = Panic /\ from_bytes_opt s = None).
Proof. exact from_bytes_spec. Qed.
Print Assumptions from_bytes_exact.

Theorem consume_exact : forall n cs, Forall known cs ->
  (between cs n -> consume n (flat_map utf8 cs) = Ret (firstn n (flat_map utf8 cs), skipn n (flat_map utf8 cs)) /\
     is_string (firstn n (flat_map utf8 cs)) /\ is_string (skipn n (flat_map utf8 cs))) /\
  (~ between cs n -> consume n (flat_map utf8 cs) = Panic).
Proof. exact consume_spec. Qed.
Print Assumptions consume_exact.

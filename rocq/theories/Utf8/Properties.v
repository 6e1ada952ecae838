From Coq Require Import NArith.
From Verif.Base Require Import Base.
From Verif.Utf8 Require Import Model Spec Proofs ProofsMain.
Local Open Scope N_scope.
Local Open Scope list_scope.

(** C26. The library encodes exactly the scalar values up to 111411, and as UTF-8 does. The full property is about
    all scalar values, up to 1114111: [encode_scalar_refuted]. *)
Theorem encode_utf8_partial : forall x,
  (forall c, encode x = Some c -> known x /\ complete_bytes c = utf8 x) /\ (encode x = None <-> ~ known x).
Proof. exact encode_exact. Qed.
Print Assumptions encode_utf8_partial.

(** There is a scalar value that cannot be encoded, made a character or put in a text. *)
Theorem encode_scalar_refuted : exists x, scalar x /\ encode x = None /\ from_unicode_scalar x = None /\ put_char x = Panic.
Proof. exact encode_refuted. Qed.
Print Assumptions encode_scalar_refuted.

(** Decoding what was encoded gives back the value. *)
Theorem decode_encoded : forall x c, encode x = Some c -> decode c = Produce x.
Proof. exact decode_encode. Qed.
Print Assumptions decode_encoded.

(** A sequence of bytes is accepted exactly if it is the encoding of scalar values, here again up to 111411. *)
Theorem valid_sequence_exact_partial : forall bytes, Forall byte bytes ->
  (valid_sequence bytes = true <-> exists cs, Forall known cs /\ bytes = flat_map utf8 cs).
Proof. exact valid_exact. Qed.
Print Assumptions valid_sequence_exact_partial.

(** There is well-formed UTF-8 that is refused, and going through its characters stops the program. *)
Theorem valid_sequence_refuted : exists s, well_formed s /\ valid_sequence s = false /\ chars s = Panic.
Proof. exact valid_refuted. Qed.
Print Assumptions valid_sequence_refuted.

(** The characters of a string are those it is made of, each with the position of its first byte. *)
Theorem chars_exact : forall cs, Forall known cs -> chars (flat_map utf8 cs) = Ret cs.
Proof. exact chars_utf8. Qed.
Print Assumptions chars_exact.

Theorem char_indices_exact : forall cs, Forall known cs -> N.of_nat (List.length (flat_map utf8 cs)) < 2 ^ 64 ->
  char_indices (flat_map utf8 cs) = Ret (positions 0 cs).
Proof. exact indices_utf8. Qed.
Print Assumptions char_indices_exact.

(** Putting the characters of a valid string one after the other gives back the string. *)
Theorem chars_put : forall cs s, chars s = Ret cs -> Forall byte s -> valid_sequence s = true ->
  s = flat_map utf8 cs /\ Forall known cs /\ Forall (fun c => put_char c = Ret (utf8 c)) cs.
Proof. exact chars_display. Qed.
Print Assumptions chars_put.

(** Different strings of characters are different strings of bytes. *)
Theorem encoding_unambiguous : forall cs1 cs2, Forall known cs1 -> Forall known cs2 ->
  flat_map utf8 cs1 = flat_map utf8 cs2 -> cs1 = cs2.
Proof. exact utf8_unambiguous. Qed.
Print Assumptions encoding_unambiguous.

(** A position is a boundary exactly if it is between two characters, or at an end. *)
Theorem char_boundary_exact : forall cs i, Forall known cs ->
  exists r, char_boundary i (flat_map utf8 cs) = Ret r /\ (r = true <-> between cs i).
Proof. exact boundary_exact. Qed.
Print Assumptions char_boundary_exact.

(** Numbers become characters exactly if they are known, and the length of a character is that of its encoding. *)
Theorem from_unicode_scalar_exact_partial : forall n,
  from_unicode_scalar n = Some n /\ known n \/ from_unicode_scalar n = None /\ ~ known n.
Proof. exact from_scalar_exact. Qed.
Print Assumptions from_unicode_scalar_exact_partial.

Theorem utf8_length_exact : forall x, known x -> utf8_length x = Ret (N.of_nat (List.length (utf8 x))).
Proof. exact length_exact. Qed.
Print Assumptions utf8_length_exact.

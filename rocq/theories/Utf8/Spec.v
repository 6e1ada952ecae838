(** * UTF-8, from chapter 3 of the Unicode standard *)
From Coq Require Import NArith.
From Verif.Base Require Import Base.
Local Open Scope N_scope.
Local Open Scope list_scope.

(** D76: a Unicode scalar value is a code point, up to 10FFFF, that is not a surrogate, D800 to DFFF. *)
Definition scalar (c : N) : Prop := c <= 1114111 /\ ~ (55296 <= c <= 57343).

(** Table 3-6: the bits of a scalar value, six at a time. *)
Definition utf8 (c : N) : list N :=
  if c <? 128 then [c]
  else if c <? 2048 then [192 + c / 64; 128 + c mod 64]
  else if c <? 65536 then [224 + c / 4096; 128 + c / 64 mod 64; 128 + c mod 64]
  else [240 + c / 262144; 128 + c / 4096 mod 64; 128 + c / 64 mod 64; 128 + c mod 64].

(** A well-formed sequence is made of scalar values. *)
Definition well_formed (bytes : list N) : Prop := exists cs, Forall scalar cs /\ bytes = flat_map utf8 cs.

(** The values the library knows: it stops at 111411, 1B333, instead of 1114111, 10FFFF. *)
Definition known (c : N) : Prop := scalar c /\ c <= 111411.

Definition byte (b : N) : Prop := b < 256.

(** Positions of characters in a sequence. *)
Fixpoint positions (i : N) (cs : list N) : list (N * N) :=
  match cs with [] => [] | c :: cs => (i, c) :: positions (i + N.of_nat (List.length (utf8 c))) cs end.

(** A position in a string: the characters before it end there. *)
Definition between (cs : list N) (i : nat) : Prop :=
  exists before after, cs = before ++ after /\ i = List.length (flat_map utf8 before).

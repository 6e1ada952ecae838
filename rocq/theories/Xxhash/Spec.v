(** * XXH64, from its description (https://github.com/Cyan4973/xxHash, doc/xxhash_spec.md) *)
From Verif.Base Require Import Base.
From Verif.Xxhash Require Import Model.
Local Open Scope N_scope.
Local Open Scope list_scope.

Definition PRIME64_1 : N := 0x9E3779B185EBCA87.
Definition PRIME64_2 : N := 0xC2B2AE3D27D4EB4F.
Definition PRIME64_3 : N := 0x165667B19E3779F9.
Definition PRIME64_4 : N := 0x85EBCA77C2B2AE63.
Definition PRIME64_5 : N := 0x27D4EB2F165667C5.

(** Arithmetic modulo 2^64 *)
Definition m64 (x : N) : N := x mod 2 ^ 64.
Definition rol (x k : N) : N := m64 (x * 2 ^ k) + x / 2 ^ (64 - k).
Definition number (l : list N) : N := fold_right (fun x n => x + 256 * n) 0 l.   (* little endian *)
Definition lane (l : list N) (i : nat) : N := number (firstn 8 (skipn (8 * i) l)).

Definition round_ (acc l : N) : N := m64 (rol (m64 (acc + l * PRIME64_2)) 31 * PRIME64_1).
Definition merge (acc accN : N) : N := m64 (N.lxor acc (round_ 0 accN) * PRIME64_1 + PRIME64_4).

(** Step 2: stripes of 32 bytes; gives the accumulators and the remaining input *)
Fixpoint stripes (fuel : nat) (a : N * N * N * N) (l : list N) : (N * N * N * N) * list N :=
  match fuel with
  | O => (a, l)
  | S fuel =>
      if Nat.ltb (List.length l) 32 then (a, l)
      else
        let '(a1, a2, a3, a4) := a in
        stripes fuel (round_ a1 (lane l 0), round_ a2 (lane l 1), round_ a3 (lane l 2), round_ a4 (lane l 3)) (skipn 32 l)
  end.
(** Steps 1, 3 and 4 *)
Definition accumulate (seed : N) (l : list N) : N * list N :=
  let r :=
    if Nat.ltb (List.length l) 32 then (m64 (seed + PRIME64_5), l)
    else
      let '((a1, a2, a3, a4), rest) :=
        stripes (List.length l)
          (m64 (seed + PRIME64_1 + PRIME64_2), m64 (seed + PRIME64_2), seed, m64 (seed + (2 ^ 64 - PRIME64_1))) l in
      (merge (merge (merge (merge (m64 (rol a1 1 + rol a2 7 + rol a3 12 + rol a4 18)) a1) a2) a3) a4, rest) in
  (m64 (fst r + N.of_nat (List.length l)), snd r).
(** Step 5: the remaining input, eight bytes, four bytes and single bytes at a time *)
Fixpoint eights (fuel : nat) (acc : N) (l : list N) : N * list N :=
  match fuel with
  | O => (acc, l)
  | S fuel =>
      if Nat.ltb (List.length l) 8 then (acc, l)
      else eights fuel (m64 (rol (N.lxor acc (round_ 0 (lane l 0))) 27 * PRIME64_1 + PRIME64_4)) (skipn 8 l)
  end.
Definition four (acc : N) (l : list N) : N * list N :=
  if Nat.ltb (List.length l) 4 then (acc, l)
  else (m64 (rol (N.lxor acc (m64 (number (firstn 4 l) * PRIME64_1))) 23 * PRIME64_2 + PRIME64_3), skipn 4 l).
Definition ones (acc : N) (l : list N) : N :=
  fold_left (fun acc x => m64 (rol (N.lxor acc (m64 (x * PRIME64_5))) 11 * PRIME64_1)) l acc.
(** Step 6 *)
Definition mix (acc : N) : N :=
  let acc := N.lxor acc (acc / 2 ^ 33) in
  let acc := m64 (acc * PRIME64_2) in
  let acc := N.lxor acc (acc / 2 ^ 29) in
  let acc := m64 (acc * PRIME64_3) in
  N.lxor acc (acc / 2 ^ 32).
Definition xxh64 (seed : N) (l : list N) : N :=
  let (acc, rest) := accumulate seed l in
  let (acc, rest) := eights (List.length rest) acc rest in
  let (acc, rest) := four acc rest in
  mix (ones acc rest).

(** The digests a program asks for are of the bytes written since the last reset: these. *)
Fixpoint hashed (written : list N) (cs : list call) : list (list N) :=
  match cs with
  | [] => []
  | Reset :: cs => hashed [] cs
  | Write bytes :: cs => hashed (written ++ bytes) cs
  | Finish :: cs => written :: hashed written cs
  end.
(** What is written are bytes, and no more at once than an address space has. *)
Definition bytes (l : list N) : Prop := Forall (fun x => x < 256) l /\ N.of_nat (List.length l) < 2 ^ 63.
Definition proper (c : call) : Prop := match c with Write l => bytes l | _ => True end.

(** The four bytes that step 5 takes at once, if there are, have their highest bit clear. *)
Definition clear4 (l : list N) : Prop :=
  (List.length l mod 8 < 4)%nat \/ nth (8 * (List.length l / 8) + 3) l 0 < 128.

(** Values without floats, of bytes *)
Fixpoint plain (v : value) : Prop :=
  match v with
  | VBytes l => bytes l
  | VFloat _ _ => False
  | VSeq l | VAlt _ l | VCon _ _ l => (fix all (l : list value) : Prop := match l with [] => True | v :: l => plain v /\ all l end) l
  end.
Definition key := { v | plain v }.
Definition eq_key (a b : key) : bool := eqv (proj1_sig a) (proj1_sig b).

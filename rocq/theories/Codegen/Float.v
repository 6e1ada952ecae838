(** * Arithmetic on floating-point numbers given by their bits

    This is IEEE 754 as the processor does it, in its default mode (round to nearest, ties to even),
    not code of the repository; the arithmetic itself is that of [SpecFloat] in the standard library.
    The formats are those of 4 and of 8 bytes. *)
From Coq Require Import ZArith Bool SpecFloat.
From Verif.Stack Require Import Machine.
Local Open Scope Z_scope.

Definition bits (w : width) : Z := 8 * Z.of_nat (bytes w).
(** The number in the low bytes, without and with a sign. *)
Definition low (w : width) (v : Z) : Z := v mod 2 ^ bits w.
Definition signed (w : width) (v : Z) : Z := if low w v <? 2 ^ (bits w - 1) then low w v else low w v - 2 ^ bits w.

Definition precision (w : width) : Z := match w with Q => 53 | _ => 24 end.
Definition max_exponent (w : width) : Z := match w with Q => 1024 | _ => 128 end.
Definition least_exponent (w : width) : Z := 3 - max_exponent w - precision w.
(** The bits of the fraction and of the exponent. *)
Definition fraction (w : width) : Z := precision w - 1.
Definition exponent (w : width) : Z := bits w - precision w.

Definition decode (w : width) (v : Z) : spec_float :=
  let v := low w v in
  let s := Z.testbit v (bits w - 1) in
  let e := (v / 2 ^ fraction w) mod 2 ^ exponent w in
  let m := v mod 2 ^ fraction w in
  if e =? 0 then match m with Zpos m => S754_finite s m (least_exponent w) | _ => S754_zero s end
  else if e =? 2 ^ exponent w - 1 then if m =? 0 then S754_infinity s else S754_nan
  else match m + 2 ^ fraction w with Zpos m => S754_finite s m (e - 1 + least_exponent w) | _ => S754_nan end.

Definition with_sign (w : width) (s : bool) (v : Z) : Z := (if s then 2 ^ (bits w - 1) else 0) + v.
Definition infinity (w : width) : Z := (2 ^ exponent w - 1) * 2 ^ fraction w.
Definition quiet (w : width) : Z := 2 ^ (fraction w - 1).
(** A result that is not a number is the negative quiet one with no other bit set. *)
Definition encode (w : width) (f : spec_float) : Z :=
  match f with
  | S754_zero s => with_sign w s 0
  | S754_infinity s => with_sign w s (infinity w)
  | S754_nan => with_sign w true (infinity w + quiet w)
  | S754_finite s m e =>
      with_sign w s (if Zpos m <? 2 ^ fraction w then Zpos m
                     else (e - least_exponent w + 1) * 2 ^ fraction w + (Zpos m - 2 ^ fraction w))
  end.

Definition is_nan (w : width) (v : Z) : bool := match decode w v with S754_nan => true | _ => false end.
Definition make_quiet (w : width) (v : Z) : Z := Z.lor (low w v) (quiet w).

Inductive float_op := FAdd | FSub | FMul | FDiv.
(** An operand that is not a number is the result, the first one if both are. *)
Definition float_arith (o : float_op) (w : width) (x y : Z) : Z :=
  if is_nan w x then make_quiet w x
  else if is_nan w y then make_quiet w y
  else
    let op := match o with FAdd => SFadd | FSub => SFsub | FMul => SFmul | FDiv => SFdiv end in
    encode w (op (precision w) (max_exponent w) (decode w x) (decode w y)).

(** [None] if one of them is not a number. *)
Definition float_compare (w : width) (x y : Z) : option comparison := SFcompare (decode w x) (decode w y).

Definition of_integer (w : width) (z : Z) : Z :=
  encode w (binary_normalize (precision w) (max_exponent w) z 0 false).
(** The integral part. *)
Definition to_integer (w : width) (v : Z) : option Z :=
  match decode w v with
  | S754_zero _ => Some 0
  | S754_finite s m e =>
      let n := if 0 <=? e then Zpos m * 2 ^ e else Zpos m / 2 ^ (- e) in
      Some (if s then - n else n)
  | _ => None
  end.

(** From one format to the other. *)
Definition float_convert (from to : width) (v : Z) : Z :=
  match decode from v with
  | S754_finite s m e =>
      encode to (binary_normalize (precision to) (max_exponent to) (if s then Zneg m else Zpos m) e s)
  | S754_nan =>
      let m := low from v mod 2 ^ fraction from in
      with_sign to (Z.testbit (low from v) (bits from - 1))
        (infinity to + Z.lor (quiet to) (Z.shiftl m (fraction to - fraction from)))
  | f => encode to f
  end.

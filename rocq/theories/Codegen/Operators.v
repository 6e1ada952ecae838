(** * What the operators on numbers mean

    Integers are given by their bits, as numbers from 0 to [2 ^ bits w - 1]; [signed] gives the number
    that such bits stand for if there is a sign.  Results are taken modulo [2 ^ bits w].  [None]: the
    operator is not one of these, or the operands are not allowed. *)
From Coq Require Import ZArith List Bool.
From Verif.Base Require Import Base.
From Verif.Ir Require Import Model.
From Verif.Layout Require Import Model.
From Verif.Stack Require Import Machine.
From Verif.Codegen Require Import Float.
Local Open Scope Z_scope.

Definition in_bits (w : width) (x : Z) : Prop := 0 <= x < 2 ^ bits w.
(** Layouts of integers, characters and pointers, and of floating-point numbers. *)
Definition integral (w : width) (l : layout) : Prop :=
  composite l = None /\ cls l = Integer /\ size l = N.of_nat (bytes w).
Definition floating (w : width) (l : layout) : Prop :=
  composite l = None /\ cls l = FloatingPoint /\ size l = N.of_nat (bytes w) /\ (w = L \/ w = Q).

Definition if_ (b : bool) (z : Z) : option Z := if b then Some z else None.
(** Shifts by less than the number of bits; divisors are not zero, and quotients not too large. *)
Definition int_result (o : binary) (w : width) (x y : Z) : option Z :=
  let sx := signed w x in
  let sy := signed w y in
  let ok := negb (sy =? 0) && negb ((sx =? - 2 ^ (bits w - 1)) && (sy =? -1)) in
  match o with
  | BIShl => if_ (y <? bits w) (x * 2 ^ y)
  | BIAShr => if_ (y <? bits w) (sx / 2 ^ y)
  | BILShr => if_ (y <? bits w) (x / 2 ^ y)
  | BIAnd => Some (Z.land x y)
  | BIOr => Some (Z.lor x y)
  | BIXor => Some (Z.lxor x y)
  | BSAdd => Some (sx + sy) | BUAdd => Some (x + y)
  | BSSub => Some (sx - sy) | BUSub => Some (x - y)
  | BSMul => Some (sx * sy) | BUMul => Some (x * y)
  | BSDiv => if_ ok (Z.quot sx sy) | BSRem => if_ ok (Z.rem sx sy)
  | BUDiv => if_ (negb (y =? 0)) (x / y) | BURem => if_ (negb (y =? 0)) (x mod y)
  | _ => None
  end.
Definition int_test (o : binary) (w : width) (x y : Z) : option bool :=
  let sx := signed w x in
  let sy := signed w y in
  match o with
  | BIEq => Some (x =? y)
  | BSLt => Some (sx <? sy) | BSLe => Some (sx <=? sy) | BSGt => Some (sy <? sx) | BSGe => Some (sy <=? sx)
  | BULt => Some (x <? y) | BULe => Some (x <=? y) | BUGt => Some (y <? x) | BUGe => Some (y <=? x)
  | _ => None
  end.
Definition ptr_test (o : binary) (x y : Z) : option bool :=
  match o with
  | BPtrEq => Some (x =? y)
  | BPtrLt => Some (x <? y) | BPtrLe => Some (x <=? y) | BPtrGt => Some (y <? x) | BPtrGe => Some (y <=? x)
  | _ => None
  end.

Definition float_result (o : binary) (w : width) (x y : Z) : option Z :=
  match o with
  | BFAdd => Some (float_arith FAdd w x y)
  | BFSub => Some (float_arith FSub w x y)
  | BFMul => Some (float_arith FMul w x y)
  | BFDiv => Some (float_arith FDiv w x y)
  | _ => None
  end.
(** If an operand is not a number three of the comparisons are wrong, see [float_comparison_refuted]. *)
Definition float_test (o : binary) (w : width) (x y : Z) : option bool :=
  match o, float_compare w x y with
  | BFEq, Some c => Some match c with Eq => true | _ => false end
  | BFLt, Some c => Some match c with Lt => true | _ => false end
  | BFLe, Some c => Some match c with Gt => false | _ => true end
  | BFGt, Some c => Some match c with Gt => true | _ => false end
  | BFGe, Some c => Some match c with Lt => false | _ => true end
  | (BFGt | BFGe), None => Some false
  | _, _ => None
  end.

(** The number of bits that are set. *)
Definition count_ones (w : width) (x : Z) : Z :=
  Z.of_nat (List.length (List.filter (fun i => Z.testbit x (Z.of_nat i)) (List.seq 0 (8 * bytes w)))).

Definition int_unary (o : unary) (w : width) (x : Z) : option Z :=
  match o with
  | UIComplement => Some (2 ^ bits w - 1 - x)
  | UIPopCount => Some (count_ones w x)
  | _ => None
  end.
(** From an integer to a larger one, or to a floating-point number; not from 8 bytes without sign. *)
Definition extend (o : unary) (w w' : width) (x : Z) : option Z :=
  match o with
  | USExt _ => if_ (bits w <? bits w') (signed w x)
  | UUExt _ => if_ (bits w <? bits w') x
  | _ => None
  end.
Definition int_to_float (o : unary) (w w' : width) (x : Z) : option Z :=
  match o with
  | USToF _ => Some (of_integer w' (signed w x))
  | UUToF _ => if_ (bits w <? 64) (of_integer w' x)
  | _ => None
  end.
(** The integral part has to be representable; see [float_to_unsigned_refuted] for those from [2 ^ 63] on. *)
Definition float_to_int (o : unary) (w w' : width) (x : Z) : option Z :=
  match o, to_integer w x with
  | UFToS _, Some z => if_ ((- 2 ^ (bits w' - 1) <=? z) && (z <? 2 ^ (bits w' - 1))) z
  | UFToU _, Some z => if_ ((0 <=? z) && (z <? 2 ^ bits w') && (z <? 2 ^ 63)) z
  | _, _ => None
  end.
Definition float_to_float (o : unary) (w w' : width) (x : Z) : option Z :=
  match o, w, w' with
  | UFTrunc _, Q, L | UFExt _, L, Q => Some (float_convert w w' x)
  | _, _, _ => None
  end.

(** The functions of the C library; those on numbers of 4 bytes have an [f] at the end. *)
Definition c_name (s : string) (w : width) : text := t_ s ++ match w with L => t_ "f" | _ => [] end.
Definition unary_function (o : unary) (w : width) : option text :=
  match o with
  | URealCeil => Some (c_name "ceil" w)
  | URealFloor => Some (c_name "floor" w)
  | URealTrunc => Some (c_name "trunc" w)
  | URealRound => Some (c_name "round" w)
  | UMathSqrt => Some (c_name "sqrt" w)
  | UMathSin => Some (c_name "sin" w)
  | UMathCos => Some (c_name "cos" w)
  | UMathExp => Some (c_name "exp" w)
  | UMathLog => Some (c_name "log" w)
  | _ => None
  end.
Definition binary_function (o : binary) (w : width) : option text :=
  match o with
  | BFRem => Some (c_name "fmod" w)
  | BMathPow => Some (c_name "pow" w)
  | _ => None
  end.
(** Those of the run-time library on strings, with the layouts of the results. *)
Definition string_function (o : binary) : option (text * layout) :=
  match o with
  | BStringEq => Some (t_ "llrt_string_eq", l_integer 1)
  | BStringCmp => Some (t_ "llrt_string_cmp", l_integer 4)
  | BStringConcat => Some (t_ "llrt_string_concat", l_string)
  | _ => None
  end.

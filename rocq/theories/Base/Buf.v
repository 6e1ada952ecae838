(** Memory of the language's standard library: 64-bit unsigned arithmetic and arrays with elements that may not be
    initialised. *)
From Verif.Base Require Import Base.
Local Open Scope N_scope.

(** std/integer.llrl: unsigned 64-bit integers, which wrap around; dividing by zero traps *)
Definition w64 : N := 2 ^ 64.
Definition add64 (a b : N) : N := (a + b) mod w64.
Definition sub64 (a b : N) : N := (a + w64 - b) mod w64.
Definition mul64 (a b : N) : N := (a * b) mod w64.
Definition rem64 (a b : N) : outcome N := if b =? 0 then Panic else Ret (a mod b).
Definition div64 (a b : N) : outcome N := if b =? 0 then Panic else Ret (a / b).

(** std/assert.llrl *)
Definition assert_ (b : bool) : outcome unit := if b then Ret tt else Panic.

(** An array of so many elements, each initialised or not. Reading an element that is not initialised, and touching one
    outside, which in the code is undefined, is [Panic]. *)
Definition buf (A : Type) := list (option A).

Section Buf.
Context {A : Type}.
Implicit Types b d : buf A.

Definition size b : N := N.of_nat (List.length b).

(** std/internal/array-vector.llrl:53 [array/unsafe-alloc-uninitialized], 39-42 [array/new] *)
Definition alloc (n : N) : buf A := repeat None (N.to_nat n).
Definition filled (x : A) (n : N) : buf A := repeat (Some x) (N.to_nat n).

(** std/memory.llrl:30-34 [ptr/load-at], [ptr/store-at!] *)
Definition load (i : N) b : outcome A :=
  match nth_error b (N.to_nat i) with Some (Some x) => Ret x | _ => Panic end.
Definition store (i : N) (x : A) b : outcome (buf A) :=
  if i <? size b then Ret (firstn (N.to_nat i) b ++ Some x :: skipn (S (N.to_nat i)) b) else Panic.

(** std/memory.llrl:36-39 [ptr/replace-at!] *)
Definition replace (i : N) (x : A) b : outcome (A * buf A) :=
  let* y := load i b in
  let* b := store i x b in
  Ret (y, b).

(** std/memory.llrl:18 [ptr/move!] inside one array: [n] elements from [src] on to [dst]; the two parts may overlap *)
Definition move (src n dst : N) b : outcome (buf A) :=
  if (src + n <=? size b) && (dst + n <=? size b) then
    Ret (firstn (N.to_nat dst) b ++ firstn (N.to_nat n) (skipn (N.to_nat src) b) ++ skipn (N.to_nat (dst + n)) b)
  else Panic.

(** std/memory.llrl:17 [ptr/copy!] from the array [b] to another one *)
Definition copy b (src n : N) d (dst : N) : outcome (buf A) :=
  if (src + n <=? size b) && (dst + n <=? size d) then
    Ret (firstn (N.to_nat dst) d ++ firstn (N.to_nat n) (skipn (N.to_nat src) b) ++ skipn (N.to_nat (dst + n)) d)
  else Panic.

End Buf.

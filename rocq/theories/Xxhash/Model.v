(** * std/xxhash.llrl, std/hash.llrl: hashing

    Bytes are numbers below 256. The four words of a hasher's memory are kept as their 32 bytes, which is what the code
    copies; words are read from them in little endian, as the target does. *)
From Verif.Base Require Import Base Buf.
Local Open Scope N_scope.
Local Open Scope list_scope.

(** std/xxhash.llrl:153-158 *)
Definition chunk_size : N := 32.
Definition prime1 : N := 11400714785074694791.
Definition prime2 : N := 14029467366897019727.
Definition prime3 : N := 1609587929392839161.
Definition prime4 : N := 9650029242287828579.
Definition prime5 : N := 2870177450012600261.

(** std/bits.llrl: [bw<<], [bw>>], [bw|], [bw^] of 64-bit integers *)
Definition shl64 (x b : N) : N := N.shiftl x b mod w64.
Definition shr64 (x b : N) : N := N.shiftr x b.
(** std/xxhash.llrl:160-161 *)
Definition rotl (x b : N) : N := N.lor (shl64 x b) (shr64 x (sub64 64 b)).
(** std/xxhash.llrl:163-164 *)
Definition round (acc input : N) : N := mul64 (rotl (add64 acc (mul64 input prime2)) 31) prime1.
(** std/xxhash.llrl:166-167 *)
Definition merge_round (acc val : N) : N := add64 (mul64 (N.lxor acc (round 0 val)) prime1) prime4.
(** std/xxhash.llrl:169-175 *)
Definition avalanche (input : N) : N :=
  let input := N.lxor input (shr64 input 33) in
  let input := mul64 input prime2 in
  let input := N.lxor input (shr64 input 29) in
  let input := mul64 input prime3 in
  N.lxor input (shr64 input 32).

(** A little endian load *)
Fixpoint le (l : list N) : N := match l with [] => 0 | x :: l => x + 256 * le l end.
(** std/conv.llrl:63: a 32-bit integer, extended by its sign *)
Definition sext32 (x : N) : N := if x <? 2 ^ 31 then x else w64 - 2 ^ 32 + x.

(** std/xxhash.llrl:72-73 *)
Record state := State { total : N; vs : N * N * N * N; memory : list N; mem_size : N }.

Definition len (l : list N) : N := N.of_nat (List.length l).
(** std/internal/array-vector.llrl:79-80 *)
Definition skip (n : N) (l : list N) : list N := skipn (N.to_nat (N.min n (len l))) l.
(** std/memory.llrl:17: [n] bytes from [src] are copied to position [at_] of the memory; going outside is [Panic] *)
Definition put (src : list N) (n at_ : N) (m : list N) : outcome (list N) :=
  if (n <=? len src) && (at_ + n <=? len m) then
    Ret (firstn (N.to_nat at_) m ++ firstn (N.to_nat n) src ++ skipn (N.to_nat (at_ + n)) m)
  else Panic.
(** [(unsafe-get mem[i])] *)
Definition word (m : list N) (i : N) : N := le (firstn 8 (skipn (N.to_nat (8 * i)) m)).
Definition rounds (v : N * N * N * N) (m : list N) : N * N * N * N :=
  let '(v1, v2, v3, v4) := v in
  (round v1 (word m 0), round v2 (word m 1), round v3 (word m 2), round v4 (word m 3)).

(** std/xxhash.llrl:131-135 *)
Definition initial_v (seed : N) : N * N * N * N :=
  (add64 (add64 seed prime1) prime2, add64 seed prime2, seed, sub64 seed prime1).

(** The loop of std/xxhash.llrl:118-125 *)
Fixpoint chunks (fuel : nat) (input : list N) (v : N * N * N * N) (m : list N) : outcome (list N * (N * N * N * N) * list N) :=
  match fuel with
  | O => OutOfFuel
  | S fuel =>
      if chunk_size <=? len input then
        let* m := put input chunk_size 0 m in
        chunks fuel (skip chunk_size input) (rounds v m) m
      else Ret (input, v, m)
  end.
(** std/xxhash.llrl:95-129 *)
Definition update (input : list N) (s : state) : outcome state :=
  let total := add64 (total s) (len input) in
  if add64 (mem_size s) (len input) <? chunk_size then
    let* m := put input (len input) (mem_size s) (memory s) in
    Ret (State total (vs s) m (add64 (mem_size s) (len input)))
  else
    let* r :=
      (if 0 <? mem_size s then
        let fill_len := sub64 chunk_size (mem_size s) in
        let* m := put input fill_len (mem_size s) (memory s) in
        Ret (skip fill_len input, rounds (vs s) m, m, 0)
      else Ret (input, vs s, memory s, mem_size s)) in
    let '(input, v, m, size) := r in
    let* r := chunks (S (List.length input)) input v m in
    let '(input, v, m) := r in
    if 0 <? len input then
      let* m := put input (len input) 0 m in
      Ret (State total v m (len input))
    else Ret (State total v m size).

(** The loop of std/xxhash.llrl:140-143 *)
Fixpoint finalize8 (fuel : nat) (input : N) (d : list N) : outcome (N * list N) :=
  match fuel with
  | O => OutOfFuel
  | S fuel =>
      if 8 <=? len d then
        finalize8 fuel (add64 (mul64 (rotl (N.lxor input (round 0 (le (firstn 8 d)))) 27) prime1) prime4) (skip 8 d)
      else Ret (input, d)
  end.
(** std/xxhash.llrl:137-151 *)
Definition finalize (input : N) (d : list N) : outcome N :=
  let* r := finalize8 (S (List.length d)) input d in
  let (input, d) := r in
  let (input, d) :=
    if 4 <=? len d then
      (add64 (mul64 (rotl (N.lxor input (mul64 (sext32 (le (firstn 4 d))) prime1)) 23) prime2) prime3, skip 4 d)
    else (input, d) in
  let input := fold_left (fun input byte => mul64 (rotl (N.lxor input (mul64 byte prime5)) 11) prime1) d input in
  Ret (avalanche input).

(** std/xxhash.llrl:80-93 *)
Definition digest (s : state) : outcome N :=
  let '(v1, v2, v3, v4) := vs s in
  finalize
    (add64
      (if chunk_size <=? total s then
        let result := add64 (add64 (add64 (rotl v1 1) (rotl v2 7)) (rotl v3 12)) (rotl v4 18) in
        let result := merge_round result v1 in
        let result := merge_round result v2 in
        let result := merge_round result v3 in
        merge_round result v4
      else add64 v3 prime5)
      (total s))
    (firstn (N.to_nat (mem_size s)) (memory s)).

(** ** Hashers: a seed and a state (std/xxhash.llrl:42-66) *)
Definition with_seed (seed : N) : N * state := (seed, State 0 (initial_v seed) (repeat 0 32) 0).
Definition reset (h : N * state) : N * state := (fst h, State 0 (initial_v (fst h)) (memory (snd h)) 0).
Definition write (bytes : list N) (h : N * state) : outcome (N * state) := let* s := update bytes (snd h) in Ret (fst h, s).
Definition finish (h : N * state) : outcome N := digest (snd h).

(** What a program does with a hasher. *)
Inductive call := Reset | Write (bytes : list N) | Finish.
Fixpoint run (h : N * state) (cs : list call) : outcome (list N) :=
  match cs with
  | [] => Ret []
  | Reset :: cs => run (reset h) cs
  | Write bytes :: cs => let* h := write bytes h in run h cs
  | Finish :: cs => let* d := finish h in let* ds := run h cs in Ret (d :: ds)
  end.

(** ** Values (std/hash.llrl)

    Values are what their [Hash] and [Eq] instances see of them: the bytes of an integer, a character or a pointer
    (hash.llrl:52-70, char.llrl:106), the bits of a float of 4 or 8 bytes, the elements of an array, vector, string or
    ordered map one after another (hash.llrl:107-113, ord-map.llrl:570, string-text.llrl:398), an alternative of [Bool],
    [Ordering], [Option], [Result] or [Either] with one byte for the alternative (hash.llrl:42-49, 80-105), and a
    constructor of a type with a derived instance or a tuple, with two bytes for the constructor if there are several
    (hash.llrl:115-157, tuple.llrl:86-96). *)
Inductive value :=
| VBytes (l : list N)
| VFloat (size : nat) (bits : N)
| VSeq (l : list value)
| VAlt (tag : N) (l : list value)
| VCon (several : bool) (index : N) (l : list value).

Fixpoint le_bytes (n : nat) (x : N) : list N := match n with O => [] | S n => x mod 256 :: le_bytes n (x / 256) end.

(** The bytes written to the hasher, call by call. *)
Fixpoint writes (v : value) : list (list N) :=
  match v with
  | VBytes l => [l]
  | VFloat n bits => [le_bytes n bits]
  | VSeq l => flat_map writes l
  | VAlt tag l => [le_bytes 1 tag] ++ flat_map writes l
  | VCon several index l => (if several then [le_bytes 2 index] else []) ++ flat_map writes l
  end.
(** hash.llrl:16-19 *)
Definition hash_value (v : value) : list call := Reset :: map Write (writes v) ++ [Finish].

(** Equality of floats, given by their bits: IEEE 754 *)
Definition is_nan (n : nat) (bits : N) : bool :=
  match n with
  | 4%nat => 2139095040 <? bits mod 2 ^ 31
  | _ => 9218868437227405312 <? bits mod 2 ^ 63
  end.
Definition float_eq (n : nat) (a b : N) : bool :=
  negb (is_nan n a) && negb (is_nan n b) && ((a =? b) || ((a mod 2 ^ (8 * N.of_nat n - 1) =? 0) && (b mod 2 ^ (8 * N.of_nat n - 1) =? 0))).
(** The [Eq] instances: eq.llrl:40-68, option.llrl:98, tuple.llrl:62-68, array-vector.llrl:421-432 *)
Fixpoint eqv (a b : value) {struct a} : bool :=
  let eqs := fix eqs (l l' : list value) : bool :=
    match l, l' with [], [] => true | x :: l, y :: l' => eqv x y && eqs l l' | _, _ => false end in
  match a, b with
  | VBytes l, VBytes l' => if list_eq_dec N.eq_dec l l' then true else false
  | VFloat n x, VFloat n' y => Nat.eqb n n' && float_eq n x y
  | VSeq l, VSeq l' => eqs l l'
  | VAlt t l, VAlt t' l' => (t =? t') && eqs l l'
  | VCon s i l, VCon s' i' l' => Bool.eqb s s' && (i =? i') && eqs l l'
  | _, _ => false
  end.

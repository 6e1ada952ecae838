(** * std/internal/utf-8.llrl, and the parts of std/char.llrl and std/internal/string-text.llrl about encoding

    Numbers are natural numbers: bytes are below 2^8 and [U32] below 2^32. *)
From Coq Require Import NArith.
From Verif.Base Require Import Base.
Local Open Scope N_scope.
Local Open Scope list_scope.

(** utf-8.llrl:11-17 *)
Inductive incomplete := I2a (a : N) | I3a (a : N) | I3b (a b : N) | I4a (a : N) | I4b (a b : N) | I4c (a b c : N).

(** utf-8.llrl:19-23 *)
Inductive complete := Latin (a : N) | C2 (a b : N) | C3 (a b c : N) | C4 (a b c d : N).

(** utf-8.llrl:25-29 *)
Inductive decoded := Invalid | InvalidProduce (n : N) | Continue (i : incomplete) | Produce (n : N).

(** utf-8.llrl:116-117 [&<<] *)
Definition and_shl (x range shift : N) : N := N.shiftl (N.land x range) shift mod 2 ^ 32.

(** utf-8.llrl:119-120; the conversion to [U8] keeps the lowest byte *)
Definition shr_and_or (x shift range header : N) : N := N.lor (N.land (N.shiftr x shift mod 2 ^ 8) range) header.

(** utf-8.llrl:31-44 [decode] *)
Definition decode (c : complete) : decoded :=
  match c with
  | Latin a => if a <=? 127 then Produce a else Invalid
  | C2 a b =>
      let x := N.lor (and_shl a 31 6) (and_shl b 63 0) in
      if (128 <=? x) && (x <=? 2047) then Produce x else Invalid
  | C3 a b c =>
      let x := N.lor (and_shl a 15 12) (N.lor (and_shl b 63 6) (and_shl c 63 0)) in
      if ((2048 <=? x) && (x <=? 65535)) && negb ((55296 <=? x) && (x <=? 57343)) then Produce x else Invalid
  | C4 a b c d =>
      let x := N.lor (and_shl a 7 18) (N.lor (and_shl b 63 12) (N.lor (and_shl c 63 6) (and_shl d 63 0))) in
      if (65536 <=? x) && (x <=? 111411) then Produce x else Invalid
  end.

(** utf-8.llrl:99-105 *)
Inductive input_class_ := InInvalid | InLatin | InProgress | In2 | In3 | In4.

(** utf-8.llrl:107-114 [input-class] *)
Definition input_class (i : N) : input_class_ :=
  if N.land 128 i =? 0 then InLatin
  else if N.land 64 i =? 0 then InProgress
  else if N.land 32 i =? 0 then In2
  else if N.land 16 i =? 0 then In3
  else if N.land 8 i =? 0 then In4
  else InInvalid.

(** utf-8.llrl:61-64 *)
Definition mark_invalid (d : decoded) : decoded := match d with Produce n => InvalidProduce n | _ => d end.

(** utf-8.llrl:46-59 [decode-step] *)
Definition decode_step (s : option incomplete) (n : N) : decoded :=
  match s, input_class n with
  | None, InLatin => decode (Latin n)
  | Some _, InLatin => mark_invalid (decode (Latin n))
  | None, In2 => Continue (I2a n)
  | Some (I2a a), InProgress => decode (C2 a n)
  | None, In3 => Continue (I3a n)
  | Some (I3a a), InProgress => Continue (I3b a n)
  | Some (I3b a b), InProgress => decode (C3 a b n)
  | None, In4 => Continue (I4a n)
  | Some (I4a a), InProgress => Continue (I4b a n)
  | Some (I4b a b), InProgress => Continue (I4c a b n)
  | Some (I4c a b c), InProgress => decode (C4 a b c n)
  | _, _ => Invalid
  end.

(** utf-8.llrl:66-75 *)
Definition is_valid (d : decoded) : bool := match d with Invalid | InvalidProduce _ => false | _ => true end.
Definition continue_ (d : decoded) : option incomplete := match d with Continue i => Some i | _ => None end.

(** utf-8.llrl:77-92 [encode]; [None] is [encode:invalid] *)
Definition encode (x : N) : option complete :=
  if x <=? 127 then Some (Latin (x mod 2 ^ 8))
  else if (128 <=? x) && (x <=? 2047) then Some (C2 (shr_and_or x 6 31 192) (shr_and_or x 0 63 128))
  else if ((2048 <=? x) && (x <=? 65535)) && negb ((55296 <=? x) && (x <=? 57343)) then
    Some (C3 (shr_and_or x 12 15 224) (shr_and_or x 6 63 128) (shr_and_or x 0 63 128))
  else if (65536 <=? x) && (x <=? 111411) then
    Some (C4 (shr_and_or x 18 7 240) (shr_and_or x 12 63 128) (shr_and_or x 6 63 128) (shr_and_or x 0 63 128))
  else None.

(** The bytes of a complete sequence, in the order in which char.llrl:58-79 [display!] puts them. *)
Definition complete_bytes (c : complete) : list N :=
  match c with Latin a => [a] | C2 a b => [a; b] | C3 a b c => [a; b; c] | C4 a b c d => [a; b; c; d] end.

(** utf-8.llrl:94-97 [encode/force-success], then char.llrl:58-79: what displaying a character puts in a text *)
Definition put_char (x : N) : outcome (list N) := match encode x with Some c => Ret (complete_bytes c) | None => Panic end.

(** char.llrl:45-50 [char/utf-8-length] *)
Definition utf8_length (x : N) : outcome N :=
  match encode x with
  | Some (Latin _) => Ret 1
  | Some (C2 _ _) => Ret 2
  | Some (C3 _ _ _) => Ret 3
  | Some (C4 _ _ _ _) => Ret 4
  | None => Panic
  end.

(** char.llrl:16-19 [char/from-unicode-scalar] *)
Definition from_unicode_scalar (n : N) : option N :=
  if (n <=? 111411) && negb ((55296 <=? n) && (n <=? 57343)) then Some n else None.

(** string-text.llrl:51-57 [string/valid-sequence?] *)
Fixpoint valid_from (state : option incomplete) (bytes : list N) : bool :=
  match bytes with
  | [] => match state with None => true | Some _ => false end
  | c :: bytes => let r := decode_step state c in if negb (is_valid r) then false else valid_from (continue_ r) bytes
  end.
Definition valid_sequence (bytes : list N) : bool := valid_from None bytes.

(** string-text.llrl:104-114 [string/chars]: everything its iterator gives, one call after the other *)
Fixpoint chars_from (state : option incomplete) (bytes : list N) : outcome (list N) :=
  match bytes with
  | [] => Ret []
  | b :: bytes =>
      match decode_step state b with
      | Continue s => chars_from (Some s) bytes
      | Produce c => let* cs := chars_from None bytes in Ret (c :: cs)
      | _ => Panic
      end
  end.
Definition chars (s : list N) : outcome (list N) := chars_from None s.

(** string-text.llrl:116-127 [string/char-indices], likewise; [index] starts as the largest [U64] *)
Fixpoint char_indices_from (i index : N) (state : option incomplete) (bytes : list N) : outcome (list (N * N)) :=
  match bytes with
  | [] => Ret []
  | b :: bytes =>
      match decode_step state b with
      | Continue s => char_indices_from (i + 1) (N.min i index) (Some s) bytes
      | Produce c => let* cs := char_indices_from (i + 1) (2 ^ 64 - 1) None bytes in Ret ((N.min i index, c) :: cs)
      | _ => Panic
      end
  end.
Definition char_indices (s : list N) : outcome (list (N * N)) := char_indices_from 0 (2 ^ 64 - 1) None s.

(** string-text.llrl:99-102 [string/char-boundary?] *)
Definition char_boundary (index : nat) (s : list N) : outcome bool :=
  if (Nat.ltb 0 index && Nat.ltb index (List.length s))%bool then
    match nth_error s index with Some b => Ret (is_valid (decode_step None b)) | None => Panic end
  else Ret (Nat.eqb 0 index || Nat.eqb (List.length s) index)%bool.

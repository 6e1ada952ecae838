(** * std/internal/string-text.llrl

    A string, and the contents of a text, is the list of its bytes; positions and lengths are natural numbers. The
    sharing of memory between a string and its substrings is not modelled: strings are never written to. *)
From Coq Require Import NArith.
From Verif.Base Require Import Base.
From Verif.Utf8 Require Import Model.
Local Open Scope list_scope.

Definition str := list N.

(** string-text.llrl:77-78 *)
Definition is_empty (s : str) : bool := Nat.eqb (List.length s) 0.

(** string-text.llrl:92-94 [string/unsafe-substring] *)
Definition unsafe_substring (start end_ : nat) (s : str) : str := firstn (end_ - start) (skipn start s).

(** std/assert.llrl *)
Definition assert_ (b : outcome bool) : outcome unit := let* b := b in if b then Ret tt else Panic.

(** string-text.llrl:80-84 [string/substring] *)
Definition substring (start end_ : nat) (s : str) : outcome str :=
  let* _ := assert_ (Ret (Nat.leb start end_ && Nat.leb end_ (List.length s))%bool) in
  let* _ := assert_ (char_boundary start s) in
  let* _ := assert_ (char_boundary end_ s) in
  Ret (unsafe_substring start end_ s).

(** string-text.llrl:86-90 *)
Definition take (n : nat) (s : str) : outcome str := substring 0 (Nat.min n (List.length s)) s.
Definition skip (n : nat) (s : str) : outcome str := substring (Nat.min n (List.length s)) (List.length s) s.

(** std/it.llrl:189 [it/all?] of it.llrl:63 [it/zip* eq?]: the pairs up to the end of the shorter one *)
Fixpoint all_equal (a b : str) : bool :=
  match a, b with x :: a, y :: b => if N.eqb x y then all_equal a b else false | _, _ => true end.

(** string-text.llrl:134-138 *)
Definition starts_with (prefix s : str) : bool :=
  if is_empty prefix then true else Nat.leb (List.length prefix) (List.length s) && all_equal prefix s.

(** string-text.llrl:140-145; [rev-iterate] goes through an array from its end *)
Definition ends_with (suffix s : str) : bool :=
  if is_empty suffix then true else Nat.leb (List.length suffix) (List.length s) && all_equal (rev suffix) (rev s).

(** string-text.llrl:154-159: the loop of [string/find?] *)
Fixpoint find_loop (part s : str) (l : list (N * N)) : option nat :=
  match l with
  | [] => None
  | (i, _) :: l =>
      let i := N.to_nat i in
      if Nat.ltb (List.length s - i) (List.length part) then None
      else if starts_with part (unsafe_substring i (List.length s) s) then Some i
      else find_loop part s l
  end.

(** string-text.llrl:154-159 [string/find?]. All the characters are decoded before the loop, while the code decodes
    them as it goes: the difference shows only for strings that are not valid. *)
Definition find (part s : str) : outcome (option nat) :=
  if is_empty part then Ret (Some O) else let* l := char_indices s in Ret (find_loop part s l).

(** string-text.llrl:147-152 [string/contains?], a loop of its own *)
Fixpoint contains_loop (part s : str) (l : list (N * N)) : bool :=
  match l with
  | [] => false
  | (i, _) :: l =>
      let i := N.to_nat i in
      if Nat.ltb (List.length s - i) (List.length part) then false
      else if starts_with part (unsafe_substring i (List.length s) s) then true
      else contains_loop part s l
  end.
Definition contains (part s : str) : outcome bool :=
  if is_empty part then Ret true else let* l := char_indices s in Ret (contains_loop part s l).

(** string-text.llrl:161-167: the loop for an empty [from]; [text/put!] and [text/push!] append *)
Fixpoint replace_empty (to : str) (cs : list N) (buf : str) : outcome str :=
  match cs with
  | [] => Ret buf
  | c :: cs => let* b := put_char c in replace_empty to cs ((buf ++ b) ++ to)
  end.

(** string-text.llrl:174-177: the loop of [string/replace]; [fuel] bounds its rounds *)
Fixpoint replace_loop (fuel : nat) (from to s buf : str) : outcome str :=
  match fuel with
  | O => OutOfFuel
  | S fuel =>
      let* r := find from s in
      match r with
      | Some i =>
          replace_loop fuel from to (unsafe_substring (i + List.length from) (List.length s) s)
            ((buf ++ unsafe_substring 0 i s) ++ to)
      | None => Ret (buf ++ s)
      end
  end.

(** string-text.llrl:161-181 [string/replace] *)
Definition replace (from to s : str) : outcome str :=
  if is_empty from then let* cs := chars s in replace_empty to cs to
  else
    let* r := find from s in
    match r with
    | Some i =>
        let buf := unsafe_substring 0 i s in
        let rest := unsafe_substring (i + List.length from) (List.length s) s in
        replace_loop (S (List.length s)) from to rest (buf ++ to)
    | None => Ret s
    end.

(** string-text.llrl:183-188 [string/remove-start]; [fuel] bounds the rounds of the loop *)
Fixpoint remove_start (fuel : nat) (prefix s : str) : outcome str :=
  match fuel with
  | O => OutOfFuel
  | S fuel => if starts_with prefix s then let* s := skip (List.length prefix) s in remove_start fuel prefix s else Ret s
  end.

(** string-text.llrl:190-195 [string/remove-end] *)
Fixpoint remove_end (fuel : nat) (suffix s : str) : outcome str :=
  match fuel with
  | O => OutOfFuel
  | S fuel =>
      if ends_with suffix s then let* s := take (List.length s - List.length suffix) s in remove_end fuel suffix s else Ret s
  end.

(** string-text.llrl:200-212: everything the iterator of [string/split] gives; [fuel] bounds its calls *)
Fixpoint split_loop (fuel : nat) (sep s : str) : outcome (list str) :=
  match fuel with
  | O => OutOfFuel
  | S fuel =>
      let* r := find sep s in
      match r with
      | Some i =>
          let l := unsafe_substring 0 i s in
          let r := unsafe_substring (i + List.length sep) (List.length s) s in
          let* ls := split_loop fuel sep r in Ret (l :: ls)
      | None => Ret [s]
      end
  end.

(** string-text.llrl:198-199: [string/from-chars] of one character, for each character *)
Fixpoint each_char (cs : list N) : outcome (list str) :=
  match cs with [] => Ret [] | c :: cs => let* b := put_char c in let* bs := each_char cs in Ret (b :: bs) end.

(** string-text.llrl:197-212 [string/split] *)
Definition split (sep s : str) : outcome (list str) :=
  if is_empty sep then let* cs := chars s in each_char cs else split_loop (S (List.length s)) sep s.

(** string-text.llrl:214-231: everything the iterator of [string/split-lines] gives; reading before the string panics *)
Fixpoint lines_loop (fuel : nat) (s : str) : outcome (list str) :=
  match fuel with
  | O => OutOfFuel
  | S fuel =>
      let* r := find [10%N] s in
      match r with
      | Some i =>
          let* cr := if Nat.leb 1 i then match nth_error s (i - 1) with Some b => Ret (N.eqb 13 b) | None => Panic end else Ret false in
          let a := if cr then (i - 1)%nat else i in
          let b := (i + 1)%nat in
          let l := unsafe_substring 0 a s in
          let r := unsafe_substring b (List.length s) s in
          if is_empty r then Ret [l] else let* ls := lines_loop fuel r in Ret (l :: ls)
      | None => Ret [s]
      end
  end.
Definition split_lines (s : str) : outcome (list str) := if is_empty s then Ret [] else lines_loop (S (List.length s)) s.

(** string-text.llrl:233-237 [string/reverse]: [array/reverse!] turns the bytes around *)
Definition reverse (s : str) : str := if Nat.leb (List.length s) 1 then s else rev s.

(** string-text.llrl:239-244 [string/join]; [i] counts the strings *)
Fixpoint join_loop (sep : str) (i : nat) (l : list str) (buf : str) : str :=
  match l with
  | [] => buf
  | s :: l => let buf := if Nat.ltb 0 i then buf ++ sep else buf in join_loop sep (S i) l (buf ++ s)
  end.
Definition join (sep : str) (l : list str) : str := join_loop sep 0 l [].

(** string-text.llrl:129-130, :323-326 [string/from-chars] *)
Fixpoint from_chars_loop (cs : list N) (buf : str) : outcome str :=
  match cs with [] => Ret buf | c :: cs => let* b := put_char c in from_chars_loop cs (buf ++ b) end.
Definition from_chars (cs : list N) : outcome str := from_chars_loop cs [].

(** string-text.llrl:39-48 *)
Definition from_bytes (bytes : list N) : outcome str := if valid_sequence bytes then Ret bytes else Panic.
Definition from_bytes_opt (bytes : list N) : option str := if valid_sequence bytes then Some bytes else None.

(** string-text.llrl:328-330 [text/consume!]: the string taken, and what is left in the text. [vector/consume!]
    asserts that [n] is at most the length (array-vector.llrl:236-239), which a boundary is. *)
Definition consume (n : nat) (t : str) : outcome (str * str) :=
  let* _ := assert_ (char_boundary n t) in Ret (firstn n t, skipn n t).

(** [memcmp]: the sign of the first difference *)
Fixpoint memcmp (a b : str) (n : nat) : Z :=
  match n, a, b with
  | S n, x :: a, y :: b => if N.eqb x y then memcmp a b n else if N.ltb x y then (-1)%Z else 1%Z
  | _, _, _ => 0%Z
  end.

(** rt/rt.c:266-268 [llrt_string_eq] *)
Definition string_eq (a b : str) : bool :=
  (Nat.eqb (List.length a) (List.length b) && (Nat.eqb (List.length a) 0 || Z.eqb (memcmp a b (List.length a)) 0))%bool.

(** rt/rt.c:270-278 [llrt_string_cmp] *)
Definition string_cmp (a b : str) : Z :=
  let len := if Nat.ltb (List.length a) (List.length b) then List.length a else List.length b in
  let cmp := if Nat.ltb 0 len then memcmp a b len else 0%Z in
  if negb (Z.eqb cmp 0) then (if Z.ltb cmp 0 then -1 else 1)%Z
  else if negb (Nat.eqb (List.length a) (List.length b)) then
    (if Nat.ltb (List.length a) (List.length b) then -1 else 1)%Z
  else 0%Z.

(** std/ordering.llrl:26-31 [ordering/from-order-value], as string-text.llrl:385-386 [compare] uses it *)
Definition compare (a b : str) : outcome comparison :=
  match string_cmp a b with (-1)%Z => Ret Lt | 0%Z => Ret Eq | 1%Z => Ret Gt | _ => Panic end.

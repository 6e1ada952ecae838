(** * std/hash-map.llrl: the mutable hash map, Robin Hood hashing with removal by shifting back

    A map owns its three arrays, so a map is a value here: a function that changes a map gives the new one. Keys, values,
    equality of keys and hashing are parameters; the hasher is reset for each hash (std/hash.llrl:16-19), so hashing is a
    function of the key. *)
From Verif.Base Require Import Base Buf.
Local Open Scope N_scope.
Local Open Scope list_scope.

Section HashMap.
Context {K V : Type} (eqk : K -> K -> bool) (hash : K -> N).

(** hash-map.llrl:20-27 *)
Record body := Body { len : N; cap : N; hashes : buf N; keys : buf K; values : buf V }.

(** hash-map.llrl:250-256 *)
Definition flag : N := 9223372036854775808.
Definition exists_ (h : N) : bool := negb (N.land h flag =? 0).
Definition put_flag (h : N) : N := N.lor h flag.

(** hash-map.llrl:238-248 [next-power-of-two] *)
Definition smear (w n : N) : N := N.lor n (N.shiftr n w).
Definition next_power_of_two (n : N) : outcome N :=
  let* _ := assert_ (n <=? 4611686018427387904) in
  Ret (add64 (smear 32 (smear 16 (smear 8 (smear 4 (smear 2 (smear 1 (sub64 n 1))))))) 1).

(** hash-map.llrl:235-236 *)
Definition appropriate_capacity (n : N) : N := mul64 (add64 n 8 / 9) 10.

(** hash-map.llrl:229-233 *)
Definition ideal_index (h cap : N) : N := N.land h (sub64 cap 1).
Definition distance (i h cap : N) : outcome N := rem64 (sub64 (add64 i cap) (ideal_index h cap)) cap.

(** hash-map.llrl:44-52 *)
Definition with_capacity (c : N) : outcome body :=
  let* c := next_power_of_two c in
  Ret (Body 0 c (filled 0 c) (alloc c) (alloc c)).

(** hash-map.llrl:141-155 [lookup?]: the loop from an index on *)
Fixpoint lookup_loop (fuel : nat) (h : N) (key : K) (m : body) (i : N) : outcome (option N) :=
  match fuel with
  | O => OutOfFuel
  | S fuel =>
      let* h' := load i (hashes m) in
      let* same := (if h =? h' then let* k := load i (keys m) in Ret (eqk key k) else Ret false) in
      if same then Ret (Some i)
      else if negb (exists_ h') then Ret None
      else
        let* d := distance i h (cap m) in
        let* d' := distance i h' (cap m) in
        if d' <? d then Ret None
        else let* i := rem64 (add64 i 1) (cap m) in lookup_loop fuel h key m i
  end.
Definition lookup (h : N) (key : K) (m : body) : outcome (option N) :=
  lookup_loop (S (N.to_nat (cap m))) h key m (ideal_index h (cap m)).

(** hash-map.llrl:157-186 [insert!]: the loop from an index on, with what is to be stored *)
Fixpoint insert_loop (fuel : nat) (stolen : bool) (h : N) (key : K) (value : V) (m : body) (i : N) : outcome (option V * body) :=
  match fuel with
  | O => OutOfFuel
  | S fuel =>
      let* h' := load i (hashes m) in
      if exists_ h' then
        let* same := (if negb stolen && (h =? h') then let* k := load i (keys m) in Ret (eqk key k) else Ret false) in
        if (same : bool) then
          let* (v, vs) := replace i value (values m) in
          Ret (Some v, Body (len m) (cap m) (hashes m) (keys m) vs)
        else
          let* d := distance i h (cap m) in
          let* d' := distance i h' (cap m) in
          let* j := rem64 (add64 i 1) (cap m) in
          if d' <? d then
            let* (h', hs) := replace i h (hashes m) in
            let* (key', ks) := replace i key (keys m) in
            let* (value', vs) := replace i value (values m) in
            insert_loop fuel true h' key' value' (Body (len m) (cap m) hs ks vs) j
          else insert_loop fuel stolen h key value m j
      else
        let* hs := store i h (hashes m) in
        let* ks := store i key (keys m) in
        let* vs := store i value (values m) in
        Ret (None, Body (add64 (len m) 1) (cap m) hs ks vs)
  end.
Definition insert_hashed (h : N) (key : K) (value : V) (m : body) : outcome (option V * body) :=
  insert_loop (S (N.to_nat (cap m))) false h key value m (ideal_index h (cap m)).

(** hash-map.llrl:193-198, the last of the entries that are not at their ideal index after an index *)
Fixpoint back_loop (fuel : nat) (m : body) (j : N) : outcome N :=
  match fuel with
  | O => OutOfFuel
  | S fuel =>
      let* j1 := rem64 (add64 j 1) (cap m) in
      let* h := load j1 (hashes m) in
      if exists_ h then
        let* d := distance j1 h (cap m) in
        if d =? 0 then Ret j else back_loop fuel m j1
      else Ret j
  end.

(** hash-map.llrl:199-217, what is done to each of the three arrays: the elements after [i] up to [j] move one back,
    around the end of the array if [j] is less than [i]. In the code the moves of the arrays alternate. *)
Definition backshift {A} (i j cap : N) (b : buf A) : outcome (buf A) :=
  if j <? i then
    let* b := (if negb (i =? sub64 cap 1) then move (add64 i 1) (sub64 (sub64 cap 1) i) i b else Ret b) in
    let* x := load 0 b in
    let* b := store (sub64 cap 1) x b in
    if negb (j =? 0) then move 1 j 0 b else Ret b
  else if negb (i =? j) then move (add64 i 1) (sub64 j i) i b
  else Ret b.

(** hash-map.llrl:188-220 [remove!] *)
Definition remove_hashed (h : N) (key : K) (m : body) : outcome (option V * body) :=
  let* found := lookup h key m in
  match found with
  | None => Ret (None, m)
  | Some i =>
      let* v := load i (values m) in
      let* j := back_loop (S (N.to_nat (cap m))) m i in
      let* hs := backshift i j (cap m) (hashes m) in
      let* ks := backshift i j (cap m) (keys m) in
      let* vs := backshift i j (cap m) (values m) in
      let* hs := store j 0 hs in
      Ret (Some v, Body (sub64 (len m) 1) (cap m) hs ks vs)
  end.

(** hash-map.llrl:61-79 [hash-map/reserve-capacity!] *)
Fixpoint reinsert (n : nat) (old : body) (i : N) (m : body) : outcome body :=
  match n with
  | O => Ret m
  | S n =>
      let* h := load i (hashes old) in
      let* m :=
        (if exists_ h then
           let* k := load i (keys old) in
           let* v := load i (values old) in
           let* (_, m) := insert_hashed h k v m in
           Ret m
         else Ret m) in
      reinsert n old (add64 i 1) m
  end.
Definition reserve (required : N) (m : body) : outcome body :=
  let* c := next_power_of_two required in
  if c <=? cap m then Ret m
  else reinsert (N.to_nat (cap m)) m 0 (Body 0 c (filled 0 c) (alloc c) (alloc c)).

(** hash-map.llrl:81-88 *)
Definition get (key : K) (m : body) : outcome (option V) :=
  let* found := lookup (put_flag (hash key)) key m in
  match found with None => Ret None | Some i => let* v := load i (values m) in Ret (Some v) end.
Definition has (key : K) (m : body) : outcome bool :=
  let* found := lookup (put_flag (hash key)) key m in
  Ret (match found with None => false | Some _ => true end).

(** hash-map.llrl:90-93 *)
Definition insert (key : K) (value : V) (m : body) : outcome (option V * body) :=
  let* m := reserve (appropriate_capacity (add64 (len m) 1)) m in
  insert_hashed (put_flag (hash key)) key value m.

(** hash-map.llrl:99-101 *)
Definition remove (key : K) (m : body) : outcome (option V * body) := remove_hashed (put_flag (hash key)) key m.

(** hash-map.llrl:103-110 *)
Fixpoint zero (n : nat) (i : N) (hs : buf N) : outcome (buf N) :=
  match n with O => Ret hs | S n => let* hs := store i 0 hs in zero n (add64 i 1) hs end.
Definition clear (m : body) : outcome body :=
  let* hs := zero (N.to_nat (cap m)) 0 (hashes m) in
  Ret (Body 0 (cap m) hs (keys m) (values m)).

(** hash-map.llrl:120-131 [hash-map/elems], all the iterator gives *)
Fixpoint elems_from (n : nat) (i : N) (m : body) : outcome (list (K * V)) :=
  match n with
  | O => Ret []
  | S n =>
      let* h := load i (hashes m) in
      if exists_ h then
        let* k := load i (keys m) in
        let* v := load i (values m) in
        let* l := elems_from n (add64 i 1) m in
        Ret ((k, v) :: l)
      else elems_from n (add64 i 1) m
  end.
Definition elems (m : body) : outcome (list (K * V)) := elems_from (N.to_nat (cap m)) 0 m.

(** hash-map.llrl:262-272 [shallow-copy] *)
Definition shallow_copy (m : body) : outcome body :=
  let* hs := copy (hashes m) 0 (cap m) (alloc (cap m)) 0 in
  let* ks := copy (keys m) 0 (cap m) (alloc (cap m)) 0 in
  let* vs := copy (values m) 0 (cap m) (alloc (cap m)) 0 in
  Ret (Body (len m) (cap m) hs ks vs).

(** hash-map.llrl:274-288 [deep-copy] *)
Fixpoint deep_from (dk : K -> K) (dv : V -> V) (n : nat) (i : N) (m : body) (ks : buf K) (vs : buf V) : outcome (buf K * buf V) :=
  match n with
  | O => Ret (ks, vs)
  | S n =>
      let* h := load i (hashes m) in
      if exists_ h then
        let* k := load i (keys m) in
        let* ks := store i (dk k) ks in
        let* v := load i (values m) in
        let* vs := store i (dv v) vs in
        deep_from dk dv n (add64 i 1) m ks vs
      else deep_from dk dv n (add64 i 1) m ks vs
  end.
Definition deep_copy (dk : K -> K) (dv : V -> V) (m : body) : outcome body :=
  let* hs := copy (hashes m) 0 (cap m) (alloc (cap m)) 0 in
  let* (ks, vs) := deep_from dk dv (N.to_nat (cap m)) 0 m (alloc (cap m)) (alloc (cap m)) in
  Ret (Body (len m) (cap m) hs ks vs).

(** hash-map.llrl:300-305 *)
Fixpoint all_in (eqv : V -> V -> bool) (l : list (K * V)) (b : body) : outcome bool :=
  match l with
  | [] => Ret true
  | (k, v) :: l =>
      let* w := get k b in
      match w with
      | Some w => if eqv v w then all_in eqv l b else Ret false
      | None => Ret false
      end
  end.
Definition map_eq (eqv : V -> V -> bool) (a b : body) : outcome bool :=
  if negb (len a =? len b) then Ret false
  else let* l := elems a in all_in eqv l b.

(** ** Calls on maps. A map is named by the order in which they were made. *)
Inductive call :=
| New (c : N) | Get (i : nat) (k : K) | Has (i : nat) (k : K) | Insert (i : nat) (k : K) (v : V) | Remove (i : nat) (k : K)
| Clear (i : nat) | Reserve (i : nat) (c : N) | Length (i : nat) | IsEmpty (i : nat) | Elems (i : nat)
| ShallowCopy (i : nat) | DeepCopy (dk : K -> K) (dv : V -> V) (i : nat) | Equal (eqv : V -> V -> bool) (i j : nat).
Inductive answer :=
| ADone | AValue (v : option V) | ABool (b : bool) | ALength (n : N) | AElems (l : list (K * V)) | ANoMap.

Definition update {A} (ms : list A) (i : nat) (m : A) : list A := firstn i ms ++ m :: skipn (S i) ms.
Definition on {A} (ms : list A) (i : nat) (f : A -> outcome (answer * list A)) : outcome (answer * list A) :=
  match nth_error ms i with None => Ret (ANoMap, ms) | Some m => f m end.

Definition step (ms : list body) (c : call) : outcome (answer * list body) :=
  match c with
  | New c => let* m := with_capacity c in Ret (ADone, ms ++ [m])
  | Get i k => on ms i (fun m => let* v := get k m in Ret (AValue v, ms))
  | Has i k => on ms i (fun m => let* b := has k m in Ret (ABool b, ms))
  | Insert i k v => on ms i (fun m => let* (o, m) := insert k v m in Ret (AValue o, update ms i m))
  | Remove i k => on ms i (fun m => let* (o, m) := remove k m in Ret (AValue o, update ms i m))
  | Clear i => on ms i (fun m => let* m := clear m in Ret (ADone, update ms i m))
  | Reserve i c => on ms i (fun m => let* m := reserve c m in Ret (ADone, update ms i m))
  | Length i => on ms i (fun m => Ret (ALength (len m), ms))                     (* hash-map.llrl:54-56 *)
  | IsEmpty i => on ms i (fun m => Ret (ABool (0 =? len m), ms))                 (* hash-map.llrl:58-59 *)
  | Elems i => on ms i (fun m => let* l := elems m in Ret (AElems l, ms))
  | ShallowCopy i => on ms i (fun m => let* m := shallow_copy m in Ret (ADone, ms ++ [m]))
  | DeepCopy dk dv i => on ms i (fun m => let* m := deep_copy dk dv m in Ret (ADone, ms ++ [m]))
  | Equal eqv i j => on ms i (fun a => on ms j (fun b => let* r := map_eq eqv a b in Ret (ABool r, ms)))
  end.

Fixpoint run (ms : list body) (cs : list call) : outcome (list answer * list body) :=
  match cs with
  | [] => Ret ([], ms)
  | c :: cs =>
      let* (a, ms) := step ms c in
      let* (l, ms) := run ms cs in
      Ret (a :: l, ms)
  end.

End HashMap.
Arguments body : clear implicits.
Arguments call : clear implicits.
Arguments answer : clear implicits.

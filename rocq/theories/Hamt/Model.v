(** * std/persistent/hash-map.llrl: the persistent hash map, a hash array mapped trie

    Nothing is changed in place once it is made, so trees and arrays are values here; an array is the list of its elements,
    and reading past its end is [Panic]. Keys, values, equality of keys and hashing are parameters; the hasher is reset for
    each hash (std/hash.llrl:16-19), so hashing is a function of the key. *)
From Verif.Base Require Import Base Buf.
Local Open Scope N_scope.
Local Open Scope list_scope.

(** std/bits.llrl [popcount] *)
Fixpoint popcount_pos (p : positive) : nat :=
  match p with xH => 1 | xO p => popcount_pos p | xI p => S (popcount_pos p) end.
Definition popcount (n : N) : nat := match n with N0 => 0 | Npos p => popcount_pos p end.

Definition w32 : N := 2 ^ 32.

(** hash-map.llrl:300-332; a [BitIndex] is its bit *)
Definition bit_index (i : N) : N := N.shiftl 1 i mod w32.
Definition consume_hash (h : N) : N * N := (bit_index (N.land h 31), N.shiftr h 5).
Definition restore_hash (bit h : N) : N := N.lor (N.shiftl h 5 mod w64) (N.of_nat (popcount ((bit + w32 - 1) mod w32))).
Definition exists_ (bitmap bit : N) : bool := negb (N.land bitmap bit =? 0).
Definition add (bitmap bit : N) : N := N.lor bitmap bit.
Definition remove_bit (bitmap bit : N) : N := N.land bitmap (N.lxor bit (w32 - 1)).
Definition bucket_index (bitmap bit : N) : nat := popcount (N.land bitmap ((bit + w32 - 1) mod w32)).
Definition buckets_length (bitmap : N) : nat := popcount bitmap.

Section Buckets.
Context {A : Type}.
Implicit Types l : list A.

(** Copying so many elements from a position on. *)
Definition part (src n : nat) l : outcome (list A) :=
  if Nat.leb (src + n) (List.length l) then Ret (firstn n (skipn src l)) else Panic.

(** hash-map.llrl:255-257 *)
Definition buckets_get (bitmap bit : N) l : outcome A :=
  match nth_error l (bucket_index bitmap bit) with Some x => Ret x | None => Panic end.
(** hash-map.llrl:263-274 *)
Definition buckets_add (bitmap bit : N) (x : A) l : outcome (N * list A) :=
  let i := bucket_index bitmap bit in
  let* a := part 0 i l in
  let* b := part i (buckets_length bitmap - i) l in
  Ret (add bitmap bit, a ++ x :: b).
(** hash-map.llrl:276-284 *)
Definition buckets_update (bitmap bit : N) (x : A) l : outcome (list A) :=
  let i := bucket_index bitmap bit in
  let* a := part 0 (buckets_length bitmap) l in
  if Nat.ltb i (List.length a) then Ret (firstn i a ++ x :: skipn (S i) a) else Panic.
(** hash-map.llrl:286-298 *)
Definition buckets_remove (bitmap bit : N) l : outcome (N * list A) :=
  let i := bucket_index bitmap bit in
  let n := buckets_length bitmap in
  if Nat.eqb n 1 then Ret (0, [])
  else
    let* a := part 0 i l in
    let* b := part (i + 1) (n - 1 - i) l in
    Ret (remove_bit bitmap bit, a ++ b).

(** std/internal/array-vector.llrl:122-126, 128-142 [array/update], [array/remove] *)
Definition array_update (i : nat) (x : A) l : outcome (list A) :=
  if Nat.ltb i (List.length l) then Ret (firstn i l ++ x :: skipn (S i) l) else Panic.
Definition array_remove (i : nat) l : outcome (list A) :=
  if Nat.ltb i (List.length l) then Ret (firstn i l ++ skipn (S i) l) else Panic.

End Buckets.

Section Hamt.
Context {K V : Type} (eqk : K -> K -> bool) (hash : K -> N).

(** hash-map.llrl:86-95: a tree with its two bitmaps, its elements and its children; and, kept in the place of a child, the
    further elements with the hash of an element, with their number. In the code both have the same representation; taking
    one for the other is [Panic] here. *)
Inductive tree :=
| Tree (emap cmap : N) (elems : list (N * K * V)) (children : list tree)
| Collision (num : N) (elems : list (K * V)).

(** hash-map.llrl:97-98 *)
Definition empty : tree := Tree 0 0 [] [].

(** hash-map.llrl:251-253, 247-249 *)
Definition from_collision (l : list (K * V)) : tree := Collision (N.of_nat (List.length l) mod w32) l.
Definition as_collision (t : tree) : outcome (list (K * V)) :=
  match t with
  | Tree _ _ _ _ => Panic
  | Collision num l => if num <=? N.of_nat (List.length l) then Ret (firstn (N.to_nat num) l) else Panic
  end.

(** hash-map.llrl:232-240 *)
Inductive found := FoundElem (e : N * K * V) | FoundChild (t : tree).
Definition search (bit : N) (t : tree) : outcome (option found) :=
  match t with
  | Collision _ _ => Panic
  | Tree emap cmap elems children =>
      if exists_ emap bit then let* e := buckets_get emap bit elems in Ret (Some (FoundElem e))
      else if exists_ cmap bit then let* c := buckets_get cmap bit children in Ret (Some (FoundChild c))
      else Ret None
  end.

(** hash-map.llrl:242-245 *)
Definition collision_elems (bit cmap : N) (children : list tree) : outcome (option (list (K * V))) :=
  if exists_ cmap bit then
    let* c := buckets_get cmap bit children in
    let* l := as_collision c in
    Ret (Some l)
  else Ret None.

(** hash-map.llrl:100-107 *)
Definition new_child (h : N) (k : K) (v : V) (c : option (list (K * V))) : tree :=
  let (bit, h) := consume_hash h in
  match c with
  | None => Tree (add 0 bit) 0 [(h, k, v)] []
  | Some l => Tree (add 0 bit) (add 0 bit) [(h, k, v)] [from_collision l]
  end.

(** hash-map.llrl:127-135, 185-197, 222-227, the loops over the further elements: the first with a key, and where *)
Fixpoint find_from (i : nat) (key : K) (l : list (K * V)) : option (nat * K * V) :=
  match l with
  | [] => None
  | (k, v) :: l => if eqk k key then Some (i, k, v) else find_from (S i) key l
  end.

(** hash-map.llrl:109-155 [tree/insert] *)
Fixpoint insert (fuel : nat) (h : N) (key : K) (value : V) (t : tree) : outcome (option V * tree) :=
  match fuel, t with
  | O, _ => OutOfFuel
  | _, Collision _ _ => Panic
  | S fuel, Tree emap cmap elems children =>
      let (bit, h) := consume_hash h in
      let* r := search bit t in
      match r with
      | Some (FoundElem (eh, ek, ev)) =>
          if eh =? h then
            if eqk ek key then
              let* elems := buckets_update emap bit (eh, ek, value) elems in
              Ret (Some ev, Tree emap cmap elems children)
            else
              let* c := collision_elems bit cmap children in
              match c with
              | None =>
                  let* (cmap, children) := buckets_add cmap bit (from_collision [(key, value)]) children in
                  Ret (None, Tree emap cmap elems children)
              | Some l =>
                  match find_from 0 key l with
                  | Some (i, ek, ev) =>
                      let* l := array_update i (ek, value) l in
                      let* children := buckets_update cmap bit (from_collision l) children in
                      Ret (Some ev, Tree emap cmap elems children)
                  | None =>
                      let* children := buckets_update cmap bit (from_collision (l ++ [(key, value)])) children in
                      Ret (None, Tree emap cmap elems children)
                  end
              end
          else
            let* c := collision_elems bit cmap children in
            let* (_, child) := insert fuel h key value (new_child eh ek ev c) in
            let* (emap, elems) := buckets_remove emap bit elems in
            let* (cmap, children) :=
              match c with
              | None => buckets_add cmap bit child children
              | Some _ => let* children := buckets_update cmap bit child children in Ret (cmap, children)
              end in
            Ret (None, Tree emap cmap elems children)
      | Some (FoundChild c) =>
          let* (o, c) := insert fuel h key value c in
          let* children := buckets_update cmap bit c children in
          Ret (o, Tree emap cmap elems children)
      | None =>
          let* (emap, elems) := buckets_add emap bit (h, key, value) elems in
          Ret (None, Tree emap cmap elems children)
      end
  end.

(** hash-map.llrl:180, 211: whether a tree is left with one element, or one and more with the same hash *)
Definition merges (emap cmap : N) : bool :=
  Nat.eqb (buckets_length emap) 1 && (N.land cmap (N.lxor emap (w32 - 1)) =? 0).

(** The further elements of an element, in the place of the child they are in; the place is freed when there are none
    (hash-map.llrl:172-175, 192-195). *)
Definition put_collision (bit cmap : N) (l : list (K * V)) (children : list tree) : outcome (N * list tree) :=
  match l with
  | [] => buckets_remove cmap bit children
  | _ => let* children := buckets_update cmap bit (from_collision l) children in Ret (cmap, children)
  end.

(** hash-map.llrl:157-214 [tree/remove] *)
Fixpoint remove (fuel : nat) (h : N) (key : K) (t : tree) : outcome (option (V * bool * tree)) :=
  match fuel, t with
  | O, _ => OutOfFuel
  | _, Collision _ _ => Panic
  | S fuel, Tree emap cmap elems children =>
      let (bit, h) := consume_hash h in
      let* r := search bit t in
      match r with
      | None => Ret None
      | Some (FoundElem (eh, ek, ev)) =>
          if negb (eh =? h) then Ret None
          else if eqk ek key then
            let* c := collision_elems bit cmap children in
            match c with
            | Some [] => Panic
            | Some ((nk, nv) :: l) =>
                let* elems := buckets_update emap bit (eh, nk, nv) elems in
                let* (cmap, children) := put_collision bit cmap l children in
                Ret (Some (ev, false, Tree emap cmap elems children))
            | None =>
                let* (emap, elems) := buckets_remove emap bit elems in
                Ret (Some (ev, merges emap cmap, Tree emap cmap elems children))
            end
          else
            let* c := collision_elems bit cmap children in
            match c with
            | None => Ret None
            | Some l =>
                match find_from 0 key l with
                | None => Ret None
                | Some (i, _, ev) =>
                    let* l := array_remove i l in
                    let* (cmap, children) := put_collision bit cmap l children in
                    Ret (Some (ev, false, Tree emap cmap elems children))
                end
            end
      | Some (FoundChild c) =>
          let* r := remove fuel h key c in
          match r with
          | None => Ret None
          | Some (v, true, Tree emap' cmap' elems' children') =>
              match elems' with
              | [] => Panic
              | (ch, ck, cv) :: _ =>
                  let* (emap, elems) := buckets_add emap bit (restore_hash emap' ch, ck, cv) elems in
                  let* (cmap, children) :=
                    (if cmap' =? 0 then buckets_remove cmap bit children
                     else
                       match children' with
                       | [] => Panic
                       | c :: _ => let* children := buckets_update cmap bit c children in Ret (cmap, children)
                       end) in
                  Ret (Some (v, merges emap cmap, Tree emap cmap elems children))
              end
          | Some (_, true, Collision _ _) => Panic
          | Some (v, false, c) =>
              let* children := buckets_update cmap bit c children in
              Ret (Some (v, false, Tree emap cmap elems children))
          end
      end
  end.

(** hash-map.llrl:216-230 [tree/get?] *)
Fixpoint get (fuel : nat) (h : N) (key : K) (t : tree) : outcome (option V) :=
  match fuel, t with
  | O, _ => OutOfFuel
  | _, Collision _ _ => Panic
  | S fuel, Tree emap cmap elems children =>
      let (bit, h) := consume_hash h in
      let* r := search bit t in
      match r with
      | None => Ret None
      | Some (FoundElem (eh, ek, ev)) =>
          if negb (eh =? h) then Ret None
          else if eqk ek key then Ret (Some ev)
          else
            let* c := collision_elems bit cmap children in
            match c with
            | None => Ret None
            | Some l => Ret (match find_from 0 key l with Some (_, _, ev) => Some ev | None => None end)
            end
      | Some (FoundChild c) => get fuel h key c
      end
  end.

(** ** Iterating (hash-map.llrl:334-369). The stack of a cursor has its top first. *)
Definition frame := (tree * N * nat)%type.

Fixpoint push (fuel : nat) (t : tree) (i : N) (stack : list frame) : outcome (list frame) :=
  match fuel with
  | O => OutOfFuel
  | S fuel =>
      let* r := search (bit_index i) t in
      match r with
      | Some (FoundChild c) => push fuel c 0 ((t, i, O) :: stack)
      | _ => Ret ((t, i, O) :: stack)
      end
  end.
Definition cursor_push (fuel : nat) (t : tree) (i : N) (stack : list frame) : outcome (list frame) :=
  if 32 <=? i then Ret stack else push fuel t i stack.

Fixpoint next (fuel : nat) (stack : list frame) : outcome (option (K * V) * list frame) :=
  match fuel with
  | O => OutOfFuel
  | S fuel =>
      match stack with
      | [] => Ret (None, [])
      | (t, i, j) :: stack =>
          let* e :=
            match j with
            | O =>
                let* r := search (bit_index i) t in
                Ret (match r with Some (FoundElem (_, k, v)) => Some (k, v) | _ => None end)
            | S j =>
                match t with
                | Collision _ _ => Panic
                | Tree _ cmap _ children =>
                    let* c := collision_elems (bit_index i) cmap children in
                    Ret (match c with Some l => nth_error l j | None => None end)
                end
            end in
          match e with
          | Some e => Ret (Some e, (t, i, S j) :: stack)
          | None => let* stack := cursor_push fuel t (i + 1) stack in next fuel stack
          end
      end
  end.

Fixpoint drain (fuel : nat) (stack : list frame) : outcome (list (K * V)) :=
  match fuel with
  | O => OutOfFuel
  | S fuel =>
      let* (e, stack) := next fuel stack in
      match e with
      | None => Ret []
      | Some e => let* l := drain fuel stack in Ret (e :: l)
      end
  end.

(** ** Maps: the number of entries and the tree *)
Definition hmap := (N * tree)%type.

(** hash-map.llrl:32-33 *)
Definition map_empty : hmap := (0, empty).
(** hash-map.llrl:42-47. Searches go through at most thirteen trees, as a hash has 64 bits and a tree takes five. *)
Definition depth : nat := 13.
Definition map_get (key : K) (m : hmap) : outcome (option V) := get depth (hash key) key (snd m).
(** hash-map.llrl:49-53 *)
Definition map_insert (key : K) (value : V) (m : hmap) : outcome hmap :=
  let* (o, t) := insert depth (hash key) key value (snd m) in
  Ret (match o with None => add64 (fst m) 1 | Some _ => fst m end, t).
(** hash-map.llrl:59-63 *)
Definition map_remove (key : K) (m : hmap) : outcome hmap :=
  let* r := remove depth (hash key) key (snd m) in
  Ret (match r with Some (_, _, t) => (sub64 (fst m) 1, t) | None => m end).
(** hash-map.llrl:73-76, 337-340 *)
Definition map_elems (fuel : nat) (m : hmap) : outcome (list (K * V)) :=
  let* stack := cursor_push fuel (snd m) 0 [] in drain fuel stack.

(** hash-map.llrl:414-419 *)
Fixpoint all_in (eqv : V -> V -> bool) (l : list (K * V)) (b : hmap) : outcome bool :=
  match l with
  | [] => Ret true
  | (k, v) :: l =>
      let* w := map_get k b in
      match w with
      | Some w => if eqv v w then all_in eqv l b else Ret false
      | None => Ret false
      end
  end.
Definition map_eq (fuel : nat) (eqv : V -> V -> bool) (a b : hmap) : outcome bool :=
  if negb (fst a =? fst b) then Ret false
  else let* l := map_elems fuel a in all_in eqv l b.

(** ** Deep copies (hash-map.llrl:376-402). The arrays of the copy are filled from the front, which is checked here: a
    bucket set anywhere but next is [Panic]. *)
Definition set_next {A} (bitmap bit : N) (x : A) (l : list A) : outcome (list A) :=
  if Nat.eqb (bucket_index bitmap bit) (List.length l) then Ret (l ++ [x]) else Panic.

Section DeepCopy.
Context (dk : K -> K) (dv : V -> V).
Definition copy_elem (e : N * K * V) : N * K * V := let '(h, k, v) := e in (h, dk k, dv v).
Definition copy_entry (e : K * V) : K * V := (dk (fst e), dv (snd e)).

Fixpoint copy_slots (rec : tree -> outcome tree) (emap cmap : N) (elems : list (N * K * V)) (children : list tree)
    (n : nat) (i : N) (es : list (N * K * V)) (cs : list tree) {struct n} : outcome (list (N * K * V) * list tree) :=
  match n with
  | O => Ret (es, cs)
  | S n =>
      let bit := bit_index i in
      let* es :=
        (if exists_ emap bit then let* e := buckets_get emap bit elems in set_next emap bit (copy_elem e) es
         else Ret es) in
      let* cs :=
        (if exists_ cmap bit then
           let* c := buckets_get cmap bit children in
           if exists_ emap bit then let* l := as_collision c in set_next cmap bit (from_collision (map copy_entry l)) cs
           else let* c := rec c in set_next cmap bit c cs
         else Ret cs) in
      copy_slots rec emap cmap elems children n (i + 1) es cs
  end.

Fixpoint deep_copy (fuel : nat) (t : tree) : outcome tree :=
  match fuel, t with
  | O, _ => OutOfFuel
  | _, Collision _ _ => Panic
  | S fuel, Tree emap cmap elems children =>
      let* (es, cs) := copy_slots (deep_copy fuel) emap cmap elems children 32 0 [] [] in
      if Nat.eqb (List.length es) (buckets_length emap) && Nat.eqb (List.length cs) (buckets_length cmap)
      then Ret (Tree emap cmap es cs) else Panic
  end.
End DeepCopy.

(** ** Calls on the versions of a map. A version is named by the order in which they were made; the first is the empty map. *)
Inductive call :=
| Insert (i : nat) (k : K) (v : V) | Remove (i : nat) (k : K)
| DeepCopy (dk : K -> K) (dv : V -> V) (i : nat)
| Get (i : nat) (k : K) | Has (i : nat) (k : K) | Length (i : nat) | IsEmpty (i : nat) | Elems (i : nat)
| Equal (eqv : V -> V -> bool) (i j : nat).
Inductive answer :=
| ADone | AValue (v : option V) | ABool (b : bool) | ALength (n : N) | AElems (l : list (K * V)) | ANoVersion.

Definition on {A} (ms : list A) (i : nat) (f : A -> outcome (answer * list A)) : outcome (answer * list A) :=
  match nth_error ms i with None => Ret (ANoVersion, ms) | Some m => f m end.

Definition step (fuel : nat) (ms : list hmap) (c : call) : outcome (answer * list hmap) :=
  match c with
  | Insert i k v => on ms i (fun m => let* m := map_insert k v m in Ret (ADone, ms ++ [m]))
  | Remove i k => on ms i (fun m => let* m := map_remove k m in Ret (ADone, ms ++ [m]))
  | DeepCopy dk dv i => on ms i (fun m => let* t := deep_copy dk dv depth (snd m) in Ret (ADone, ms ++ [(fst m, t)]))
  | Get i k => on ms i (fun m => let* v := map_get k m in Ret (AValue v, ms))
  | Has i k => on ms i (fun m => let* v := map_get k m in Ret (ABool (match v with Some _ => true | None => false end), ms))
  | Length i => on ms i (fun m => Ret (ALength (fst m), ms))                     (* hash-map.llrl:35-37 *)
  | IsEmpty i => on ms i (fun m => Ret (ABool (0 =? fst m), ms))                 (* hash-map.llrl:39-40 *)
  | Elems i => on ms i (fun m => let* l := map_elems fuel m in Ret (AElems l, ms))
  | Equal eqv i j => on ms i (fun a => on ms j (fun b => let* r := map_eq fuel eqv a b in Ret (ABool r, ms)))
  end.

Fixpoint run (fuel : nat) (ms : list hmap) (cs : list call) : outcome (list answer * list hmap) :=
  match cs with
  | [] => Ret ([], ms)
  | c :: cs =>
      let* (a, ms) := step fuel ms c in
      let* (l, ms) := run fuel ms cs in
      Ret (a :: l, ms)
  end.

End Hamt.
Arguments tree : clear implicits.
Arguments hmap : clear implicits.
Arguments call : clear implicits.
Arguments answer : clear implicits.

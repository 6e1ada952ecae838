(** * std/internal/array-vector.llrl: arrays and vectors

    Arrays and vectors are views of memory that may be shared: a part of an array, the buffer of a vector and a vector made
    from an array all look at the same elements. So memory is explicit here. It is made of blocks, each with a number of
    elements; a pointer is a block and a position in it. Allocating always succeeds (running out of memory is not modelled),
    and nothing is ever freed, as memory is garbage collected. *)
From Verif.Base Require Import Base Buf.
Local Open Scope N_scope.
Local Open Scope list_scope.

(** How a computation ends: with a value, because an assertion failed (std/assert.llrl), or by touching memory in a way
    that is not defined: outside a block, reading what was never written, or copying between parts that overlap. *)
Inductive res (X : Type) := Done (x : X) | Failed | Wrong.
Arguments Done {X}. Arguments Failed {X}. Arguments Wrong {X}.

Section Memory.
Context {A : Type}.

Record mem := Mem { blocks : list N; cells : nat -> N -> option A }.
Definition ptr := (nat * N)%type.
Definition size m (b : nat) : N := nth b (blocks m) 0.

(** Computations that use memory. *)
Definition M (X : Type) := mem -> res (X * mem).
Definition ret {X} (x : X) : M X := fun m => Done (x, m).
Definition bind {X Y} (a : M X) (f : X -> M Y) : M Y := fun m =>
  match a m with Done (x, m) => f x m | Failed => Failed | Wrong => Wrong end.
Definition assert (b : bool) : M unit := fun m => if b then Done (tt, m) else Failed.
Definition wrong {X} : M X := fun _ => Wrong.

(** Block 0 is where the null pointer points to: there is nothing. *)
Definition start : mem := Mem [0] (fun _ _ => None).
Definition null : ptr := (O, 0).

(** std/internal/array-vector.llrl:53 *)
Definition alloc (n : N) : M ptr := fun m =>
  let b := List.length (blocks m) in
  Done ((b, 0), Mem (blocks m ++ [n]) (fun b' p => if Nat.eqb b' b then None else cells m b' p)).
(** std/memory.llrl:25-34 *)
Definition ptr_add (n : N) (p : ptr) : ptr := (fst p, snd p + n).
Definition load (p : ptr) : M A := fun m =>
  if snd p <? size m (fst p) then match cells m (fst p) (snd p) with Some x => Done (x, m) | None => Wrong end else Wrong.
Definition store (x : A) (p : ptr) : M unit := fun m =>
  if snd p <? size m (fst p) then
    Done (tt, Mem (blocks m) (fun b q => if Nat.eqb b (fst p) && (q =? snd p) then Some x else cells m b q))
  else Wrong.
Definition load_at (i : N) (p : ptr) : M A := load (ptr_add i p).
Definition store_at (i : N) (x : A) (p : ptr) : M unit := store x (ptr_add i p).
(** std/memory.llrl:18 [ptr/move!]: [n] elements from [src] on to [dst]; elements that were never written may be moved *)
Definition moved (src : ptr) (n : N) (dst : ptr) m : mem :=
  Mem (blocks m) (fun b q =>
    if Nat.eqb b (fst dst) && (snd dst <=? q) && (q <? snd dst + n) then cells m (fst src) (snd src + (q - snd dst)) else cells m b q).
Definition move (src : ptr) (n : N) (dst : ptr) : M unit := fun m =>
  if (snd src + n <=? size m (fst src)) && (snd dst + n <=? size m (fst dst)) then Done (tt, moved src n dst m) else Wrong.
(** std/memory.llrl:17 [ptr/copy!], which is memcpy *)
Definition copy (src : ptr) (n : N) (dst : ptr) : M unit := fun m =>
  if negb (Nat.eqb (fst src) (fst dst)) || (snd src + n <=? snd dst) || (snd dst + n <=? snd src) then move src n dst m else Wrong.
End Memory.
Arguments mem : clear implicits.
Arguments M : clear implicits.

Declare Scope m_scope.
Delimit Scope m_scope with m.
Notation "'do' x <- a ; b" := (bind a (fun x => b)) (at level 200, x name, a at level 100, b at level 200) : m_scope.
Notation "a ;; b" := (bind a (fun _ => b)) (at level 199, right associativity) : m_scope.
Open Scope m_scope.

Section Arrays.
Context {A : Type}.
Notation M := (M A).

(** ** Arrays: a pointer and a number of elements *)
Record array := Array { aptr : ptr; alen : N }.

(** array-vector.llrl:49-50 *)
Definition array_empty : array := Array null 0.
Definition array_alloc (n : N) : M array := do p <- alloc n; ret (Array p n).
(** array-vector.llrl:463, 471 *)
Definition unsafe_get (t : array) (i : N) : M A := load_at i (aptr t).
Definition unsafe_set (t : array) (i : N) (x : A) : M unit := store_at i x (aptr t).
(** std/access.llrl:123-141 *)
Definition get (t : array) (i : N) : M A := assert (i <? alen t);; unsafe_get t i.
Definition get_opt (t : array) (i : N) : M (option A) := if i <? alen t then do x <- unsafe_get t i; ret (Some x) else ret None.
Definition set (t : array) (i : N) (x : A) : M unit := assert (i <? alen t);; unsafe_set t i x.
(** array-vector.llrl:65-70 *)
Definition array_is_empty (t : array) : bool := alen t =? 0.
Definition array_ref (i : N) (t : array) : M ptr := assert (i <=? alen t);; ret (ptr_add i (aptr t)).

(** A loop [(while (< ~i l) ... (set! i (+ ~i 1)))]; it takes one step more than there are elements. *)
Fixpoint upto {X} (fuel : nat) (body : N -> X -> M X) (i l : N) (x : X) : M X :=
  match fuel with
  | O => wrong
  | S fuel => if i <? l then do x <- body i x; upto fuel body (add64 i 1) l x else ret x
  end.
Definition loop {X} (body : N -> X -> M X) (l : N) (x : X) : M X := upto (S (N.to_nat l)) body 0 l x.

(** array-vector.llrl:152-158 *)
Definition fill (x : A) (t : array) : M unit := loop (fun i _ => unsafe_set t i x) (alen t) tt.
(** array-vector.llrl:39-42 *)
Definition array_new (x : A) (n : N) : M array := do t <- array_alloc n; fill x t;; ret t.
(** array-vector.llrl:17-37: the macro stores the elements one by one; without elements it is the empty array *)
Fixpoint store_all (t : array) (i : N) (l : list A) : M unit :=
  match l with
  | [] => ret tt
  | x :: l => unsafe_set t i x;; store_all t (i + 1) l
  end.
Definition array_literal (l : list A) : M array :=
  match l with
  | [] => ret array_empty
  | _ => do t <- array_alloc (N.of_nat (List.length l)); store_all t 0 l;; ret t
  end.

(** array-vector.llrl:72-74 *)
Definition subarray (s e : N) (t : array) : M array :=
  assert ((s <=? e) && (e <=? alen t));; ret (Array (ptr_add s (aptr t)) (sub64 e s)).
(** array-vector.llrl:76-80 *)
Definition take (n : N) (t : array) : M array := subarray 0 (N.min n (alen t)) t.
Definition skip (n : N) (t : array) : M array := subarray (N.min n (alen t)) (alen t) t.
(** array-vector.llrl:82-84, 95-96 *)
Definition split_at (i : N) (t : array) : M (array * array) :=
  assert (i <=? alen t);; do a <- subarray 0 i t; do b <- subarray i (alen t) t; ret (a, b).
Definition split_at_opt (i : N) (t : array) : M (option (array * array)) :=
  if i <=? alen t then do r <- split_at i t; ret (Some r) else ret None.
(** array-vector.llrl:86-88, 98-99 *)
Definition split_first (t : array) : M (A * array) :=
  assert (negb (array_is_empty t));; do x <- unsafe_get t 0; do r <- subarray 1 (alen t) t; ret (x, r).
Definition split_first_opt (t : array) : M (option (A * array)) :=
  if negb (array_is_empty t) then do r <- split_first t; ret (Some r) else ret None.
(** array-vector.llrl:90-93, 101-102 *)
Definition split_last (t : array) : M (A * array) :=
  assert (negb (array_is_empty t));;
  do x <- unsafe_get t (sub64 (alen t) 1); do r <- subarray 0 (sub64 (alen t) 1) t; ret (x, r).
Definition split_last_opt (t : array) : M (option (A * array)) :=
  if negb (array_is_empty t) then do r <- split_last t; ret (Some r) else ret None.

Definition when (b : bool) (c : M unit) : M unit := if b then c else ret tt.

(** array-vector.llrl:104-114 *)
Definition array_insert (i : N) (x : A) (t : array) : M array :=
  assert (i <=? alen t);;
  do s <- array_alloc (add64 (alen t) 1);
  when (negb (i =? 0)) (copy (aptr t) i (aptr s));;
  when (negb (i =? alen t)) (copy (ptr_add i (aptr t)) (sub64 (alen t) i) (ptr_add (add64 i 1) (aptr s)));;
  store_at i x (aptr s);;
  ret s.
(** array-vector.llrl:116-120 *)
Definition array_push (x : A) (t : array) : M array := array_insert (alen t) x t.
Definition array_unshift (x : A) (t : array) : M array := array_insert 0 x t.
(** array-vector.llrl:379-384 *)
Definition shallow_copy (t : array) : M array :=
  do s <- array_alloc (alen t); copy (aptr t) (alen t) (aptr s);; ret s.
(** array-vector.llrl:122-126 *)
Definition array_update (i : N) (x : A) (t : array) : M array :=
  assert (i <=? sub64 (alen t) 1);; do s <- shallow_copy t; unsafe_set s i x;; ret s.
(** array-vector.llrl:128-142 *)
Definition array_remove (i : N) (t : array) : M array :=
  assert (negb (array_is_empty t) && (i <=? sub64 (alen t) 1));;
  if alen t =? 1 then ret array_empty
  else
    do s <- array_alloc (sub64 (alen t) 1);
    when (negb (i =? 0)) (copy (aptr t) i (aptr s));;
    when (negb (i =? sub64 (alen t) 1))
      (copy (ptr_add (add64 i 1) (aptr t)) (sub64 (sub64 (alen t) i) 1) (ptr_add i (aptr s)));;
    ret s.
(** array-vector.llrl:168-170 *)
Definition array_copy (src dest : array) : M unit :=
  assert (alen src <=? alen dest);; copy (aptr src) (alen src) (aptr dest).
(** array-vector.llrl:144-150 *)
Definition array_concat (a b : array) : M array :=
  if array_is_empty a then ret b
  else if array_is_empty b then ret a
  else
    do s <- array_alloc (add64 (alen a) (alen b));
    array_copy a s;;
    do r <- skip (alen a) s;
    array_copy b r;;
    ret s.
(** array-vector.llrl:172-180 *)
Definition swap (a b : N) (t : array) : M unit :=
  assert (a <? alen t);; assert (b <? alen t);;
  when (negb (a =? b))
    (do ta <- unsafe_get t a; do tb <- unsafe_get t b; unsafe_set t a tb;; unsafe_set t b ta).
(** array-vector.llrl:182-189 *)
Definition reverse (t : array) : M unit :=
  loop (fun i _ => swap i (sub64 (sub64 (alen t) 1) i) t) (alen t / 2) tt.
(** array-vector.llrl:386-395 *)
Definition deep_copy (f : A -> A) (t : array) : M array :=
  do s <- array_alloc (alen t);
  loop (fun i _ => do x <- unsafe_get t i; unsafe_set s i (f x)) (alen t) tt;;
  ret s.
(** array-vector.llrl:421-432; a [return] from the loop makes the remaining steps do nothing *)
Definition array_eq (eqx : A -> A -> bool) (a b : array) : M bool :=
  if alen a =? alen b then
    loop (fun i (r : bool) => if r then do x <- unsafe_get a i; do y <- unsafe_get b i; ret (eqx x y) else ret false) (alen a) true
  else ret false.
(** array-vector.llrl:438-449 *)
Definition array_compare (cmp : A -> A -> comparison) (a b : array) : M comparison :=
  do r <- loop (fun i r =>
      match r with
      | Eq => do x <- unsafe_get a i; do y <- unsafe_get b i; ret (cmp x y)
      | o => ret o
      end) (N.min (alen a) (alen b)) Eq;
  match r with Eq => ret (alen a ?= alen b) | o => ret o end.

(** ** Vectors: a pointer, a number of elements and a number of places (array-vector.llrl:202-206) *)
Record vec := Vec { vptr : ptr; vlen : N; vcap : N }.

(** array-vector.llrl:221-231 *)
Definition from_array (a : array) : vec := Vec (aptr a) (alen a) (alen a).
Definition vector_empty : vec := from_array array_empty.
Definition with_capacity (n : N) : M vec := do a <- array_alloc n; ret (Vec (aptr a) 0 n).
(** array-vector.llrl:215-216 *)
Definition vector_new (x : A) (n : N) : M vec := do a <- array_new x n; ret (from_array a).
(** array-vector.llrl:254-261 *)
Definition free (v : vec) : N := sub64 (vcap v) (vlen v).
Definition buffer (v : vec) : array := Array (vptr v) (vlen v).

(** array-vector.llrl:291-300 *)
Definition reserve_capacity (required : N) (exact : bool) (v : vec) : M vec :=
  if vcap v <? required then
    let n := if exact then required else N.max required (mul64 2 (N.max 2 (vcap v))) in
    do a <- array_alloc n;
    copy (vptr v) (vlen v) (aptr a);;
    ret (Vec (aptr a) (vlen v) n)
  else ret v.
Definition reserve_free (n : N) (exact : bool) (v : vec) : M vec := reserve_capacity (add64 (vlen v) n) exact v.
(** array-vector.llrl:302-306 *)
Definition append (a : array) (v : vec) : M vec :=
  do v <- reserve_free (alen a) false v;
  copy (aptr a) (alen a) (ptr_add (vlen v) (vptr v));;
  ret (Vec (vptr v) (add64 (vlen v) (alen a)) (vcap v)).
(** array-vector.llrl:308-312 *)
Definition push (x : A) (v : vec) : M vec :=
  do v <- reserve_free 1 false v;
  store_at (vlen v) x (vptr v);;
  ret (Vec (vptr v) (add64 (vlen v) 1) (vcap v)).
(** array-vector.llrl:314-320 *)
Definition insert (i : N) (x : A) (v : vec) : M vec :=
  do v <- reserve_free 1 false v;
  assert (i <=? vlen v);;
  move (ptr_add i (vptr v)) (sub64 (vlen v) i) (ptr_add (add64 i 1) (vptr v));;
  store_at i x (vptr v);;
  ret (Vec (vptr v) (add64 (vlen v) 1) (vcap v)).
(** array-vector.llrl:324-328 *)
Definition pop (v : vec) : M (option A * vec) :=
  if negb (vlen v =? 0) then
    do x <- load_at (sub64 (vlen v) 1) (vptr v);
    ret (Some x, Vec (vptr v) (sub64 (vlen v) 1) (vcap v))
  else ret (None, v).
(** array-vector.llrl:330-338 *)
Definition swap_remove (i : N) (v : vec) : M (A * vec) :=
  assert (i <? vlen v);;
  do x <- load_at i (vptr v);
  when (negb (i =? sub64 (vlen v) 1)) (do y <- load_at (sub64 (vlen v) 1) (vptr v); store_at i y (vptr v));;
  ret (x, Vec (vptr v) (sub64 (vlen v) 1) (vcap v)).
(** array-vector.llrl:340-347 *)
Definition remove (i : N) (v : vec) : M (A * vec) :=
  assert (i <? vlen v);;
  do x <- load_at i (vptr v);
  move (ptr_add (add64 i 1) (vptr v)) (sub64 (sub64 (vlen v) 1) i) (ptr_add i (vptr v));;
  ret (x, Vec (vptr v) (sub64 (vlen v) 1) (vcap v)).
(** array-vector.llrl:349-355 *)
Definition truncate (n : N) (v : vec) : vec := if n <? vlen v then Vec (vptr v) n (vcap v) else v.
Definition clear (v : vec) : vec := truncate 0 v.
(** array-vector.llrl:359-369 *)
Definition consume (n : N) (v : vec) : M (array * vec) :=
  if n =? 0 then ret (array_empty, v)
  else
    assert (n <=? vlen v);;
    ret (Array (vptr v) n, Vec (ptr_add n (vptr v)) (sub64 (vlen v) n) (sub64 (vcap v) n)).
Definition consume_all (v : vec) : array * vec :=
  (Array (vptr v) (vlen v), Vec (ptr_add (vlen v) (vptr v)) 0 (sub64 (vcap v) (vlen v))).

(** ** Iterators (array-vector.llrl:473-498): an array, and the position [i] of the loop *)
Inductive iter := Forward (t : array) (i : N) | Backward (t : array) (i : N).
Definition iterate (t : array) : iter := Forward t 0.
Definition rev_iterate (t : array) : iter := Backward t (alen t).
Definition next (it : iter) : M (option A * iter) :=
  match it with
  | Forward t i =>
      if i <? alen t then do x <- unsafe_get t i; ret (Some x, Forward t (add64 i 1)) else ret (None, it)
  | Backward t i =>
      if 0 <? i then do x <- unsafe_get t (sub64 i 1); ret (Some x, Backward t (sub64 i 1)) else ret (None, it)
  end.
(** array-vector.llrl:504-508. The elements that are left are at most as many as the array has. *)
Fixpoint collect_into (fuel : nat) (it : iter) (v : vec) : M (iter * vec) :=
  match fuel with
  | O => wrong
  | S fuel =>
      do r <- next it;
      match fst r with
      | None => ret (snd r, v)
      | Some x => do v <- push x v; collect_into fuel (snd r) v
      end
  end.
Definition iter_array (it : iter) : array := match it with Forward t _ | Backward t _ => t end.
Definition collect (it : iter) : M (iter * vec) := collect_into (S (N.to_nat (alen (iter_array it)))) it vector_empty.

(** ** Calls. A program holds objects, which are named by the order in which it got them. The flag of a call that gives a
    view of an object tells whether the program goes on using the object; the code does not know. *)
Inductive call :=
| NewArray (x : A) (n : N) | Literal (l : list A) | EmptyArray
| NewVector (x : A) (n : N) | EmptyVector | WithCapacity (n : N)
(* arrays and vectors; vectors do as their buffers: array-vector.llrl:269-289, 397-401, 434-436, 451-461, 468-469, 492-498 *)
| Length (i : nat) | IsEmpty (i : nat) | Get (i : nat) (k : N) | GetOpt (i : nat) (k : N) | Set_ (i : nat) (k : N) (x : A)
| LoadRef (i : nat) (k : N) | StoreRef (i : nat) (k : N) (x : A)
| Fill (i : nat) (x : A) | Swap (i : nat) (a b : N) | Reverse (i : nat)
| ShallowCopy (i : nat) | DeepCopy (f : A -> A) (i : nat)
| Equal (eqx : A -> A -> bool) (i j : nat) | Compare (cmp : A -> A -> comparison) (i j : nat)
| Iterate (keep : bool) (i : nat) | RevIterate (keep : bool) (i : nat)
(* arrays *)
| Subarray (keep : bool) (i : nat) (s e : N) | Take (keep : bool) (i : nat) (n : N) | Skip (keep : bool) (i : nat) (n : N)
| SplitAt (keep : bool) (i : nat) (k : N) | SplitAtOpt (keep : bool) (i : nat) (k : N)
| SplitFirst (keep : bool) (i : nat) | SplitFirstOpt (keep : bool) (i : nat)
| SplitLast (keep : bool) (i : nat) | SplitLastOpt (keep : bool) (i : nat)
| Insert (i : nat) (k : N) (x : A) | Push (i : nat) (x : A) | Unshift (i : nat) (x : A)
| Update (i : nat) (k : N) (x : A) | Remove (i : nat) (k : N) | Concat (i j : nat) | CopyTo (i j : nat)
| FromArray (keep : bool) (i : nat)
(* vectors *)
| Buffer (keep : bool) (i : nat) | Capacity (i : nat) | Free (i : nat)
| Reserve (i : nat) (n : N) (exact : bool) | ReserveFree (i : nat) (n : N) (exact : bool)
| Append (i j : nat) | VPush (i : nat) (x : A) | VInsert (i : nat) (k : N) (x : A)
| VPop (i : nat) | SwapRemove (i : nat) (k : N) | VRemove (i : nat) (k : N)
| Truncate (i : nat) (n : N) | Clear (i : nat) | Consume (i : nat) (n : N) | ConsumeAll (i : nat) | MoveOut (i : nat)
(* iterators *)
| Next (i : nat) | Collect (i : nat).

Inductive answer :=
| ADone | AValue (x : A) | AOption (x : option A) | ASome (b : bool) | ANumber (n : N) | AAtLeast (n : N) | ABool (b : bool) | AOrder (o : comparison).

Inductive obj := OArray (t : array) | OVector (v : vec) | OIter (it : iter).

Definition set_nth {X} (i : nat) (x : X) (l : list X) : list X := firstn i l ++ x :: skipn (S i) l.

Definition on_array {X} (os : list obj) (i : nat) (f : array -> M X) : M X :=
  match nth_error os i with Some (OArray t) => f t | _ => wrong end.
Definition on_vector {X} (os : list obj) (i : nat) (f : vec -> M X) : M X :=
  match nth_error os i with Some (OVector v) => f v | _ => wrong end.
Definition on_iter {X} (os : list obj) (i : nat) (f : iter -> M X) : M X :=
  match nth_error os i with Some (OIter it) => f it | _ => wrong end.
Definition on_view {X} (os : list obj) (i : nat) (f : array -> M X) : M X :=
  match nth_error os i with Some (OArray t) => f t | Some (OVector v) => f (buffer v) | _ => wrong end.
(** A copy of a vector is a vector. *)
Definition like (os : list obj) (i : nat) (t : array) : obj :=
  match nth_error os i with Some (OVector _) => OVector (from_array t) | _ => OArray t end.

Definition step (os : list obj) (c : call) : M (answer * list obj) :=
  let tell {X} (a : X -> answer) (c : M X) := do x <- c; ret (a x, os) in
  let unit_ := tell (fun _ : unit => ADone) in
  let new (c : M array) := do t <- c; ret (ADone, os ++ [OArray t]) in
  let newv (c : M vec) := do v <- c; ret (ADone, os ++ [OVector v]) in
  let change i (c : vec -> M vec) := on_vector os i (fun v => do v <- c v; ret (ADone, set_nth i (OVector v) os)) in
  match c with
  | NewArray x n => new (array_new x n)
  | Literal l => new (array_literal l)
  | EmptyArray => new (ret array_empty)
  | NewVector x n => newv (vector_new x n)
  | EmptyVector => newv (ret vector_empty)
  | WithCapacity n => newv (with_capacity n)
  | Length i => on_view os i (fun t => tell ANumber (ret (alen t)))
  | IsEmpty i => on_view os i (fun t => tell ABool (ret (array_is_empty t)))
  | Get i k => on_view os i (fun t => tell AValue (get t k))
  | GetOpt i k => on_view os i (fun t => tell AOption (get_opt t k))
  | Set_ i k x => on_view os i (fun t => unit_ (set t k x))
  | LoadRef i k => on_view os i (fun t => tell AValue (do p <- array_ref k t; load p))
  | StoreRef i k x => on_view os i (fun t => unit_ (do p <- array_ref k t; store x p))
  | Fill i x => on_view os i (fun t => unit_ (fill x t))
  | Swap i a b => on_view os i (fun t => unit_ (swap a b t))
  | Reverse i => on_view os i (fun t => unit_ (reverse t))
  | ShallowCopy i => on_view os i (fun t => do s <- shallow_copy t; ret (ADone, os ++ [like os i s]))
  | DeepCopy f i => on_view os i (fun t => do s <- deep_copy f t; ret (ADone, os ++ [like os i s]))
  | Equal eqx i j => on_view os i (fun a => on_view os j (fun b => tell ABool (array_eq eqx a b)))
  | Compare cmp i j => on_view os i (fun a => on_view os j (fun b => tell AOrder (array_compare cmp a b)))
  | Iterate _ i => on_view os i (fun t => ret (ADone, os ++ [OIter (iterate t)]))
  | RevIterate _ i => on_view os i (fun t => ret (ADone, os ++ [OIter (rev_iterate t)]))
  | Subarray _ i s e => on_array os i (fun t => new (subarray s e t))
  | Take _ i n => on_array os i (fun t => new (take n t))
  | Skip _ i n => on_array os i (fun t => new (skip n t))
  | SplitAt _ i k => on_array os i (fun t => do r <- split_at k t; ret (ADone, os ++ [OArray (fst r); OArray (snd r)]))
  | SplitAtOpt _ i k => on_array os i (fun t => do r <- split_at_opt k t;
      match r with Some r => ret (ASome true, os ++ [OArray (fst r); OArray (snd r)]) | None => ret (ASome false, os) end)
  | SplitFirst _ i => on_array os i (fun t => do r <- split_first t; ret (AValue (fst r), os ++ [OArray (snd r)]))
  | SplitFirstOpt _ i => on_array os i (fun t => do r <- split_first_opt t;
      match r with Some r => ret (AOption (Some (fst r)), os ++ [OArray (snd r)]) | None => ret (AOption None, os) end)
  | SplitLast _ i => on_array os i (fun t => do r <- split_last t; ret (AValue (fst r), os ++ [OArray (snd r)]))
  | SplitLastOpt _ i => on_array os i (fun t => do r <- split_last_opt t;
      match r with Some r => ret (AOption (Some (fst r)), os ++ [OArray (snd r)]) | None => ret (AOption None, os) end)
  | Insert i k x => on_array os i (fun t => new (array_insert k x t))
  | Push i x => on_array os i (fun t => new (array_push x t))
  | Unshift i x => on_array os i (fun t => new (array_unshift x t))
  | Update i k x => on_array os i (fun t => new (array_update k x t))
  | Remove i k => on_array os i (fun t => new (array_remove k t))
  | Concat i j => on_array os i (fun a => on_array os j (fun b => new (array_concat a b)))
  | CopyTo i j => on_array os i (fun a => on_array os j (fun b => unit_ (array_copy a b)))
  | FromArray _ i => on_array os i (fun t => newv (ret (from_array t)))
  | Buffer _ i => on_vector os i (fun v => new (ret (buffer v)))
  | Capacity i => on_vector os i (fun v => tell ANumber (ret (vcap v)))
  | Free i => on_vector os i (fun v => tell ANumber (ret (free v)))
  | Reserve i n e => change i (reserve_capacity n e)
  | ReserveFree i n e => change i (reserve_free n e)
  | Append i j => on_array os j (fun a => change i (append a))
  | VPush i x => change i (push x)
  | VInsert i k x => change i (insert k x)
  | VPop i => on_vector os i (fun v => do r <- pop v; ret (AOption (fst r), set_nth i (OVector (snd r)) os))
  | SwapRemove i k => on_vector os i (fun v => do r <- swap_remove k v; ret (AValue (fst r), set_nth i (OVector (snd r)) os))
  | VRemove i k => on_vector os i (fun v => do r <- remove k v; ret (AValue (fst r), set_nth i (OVector (snd r)) os))
  | Truncate i n => change i (fun v => ret (truncate n v))
  | Clear i => change i (fun v => ret (clear v))
  | Consume i n => on_vector os i (fun v => do r <- consume n v; ret (ADone, set_nth i (OVector (snd r)) os ++ [OArray (fst r)]))
  | ConsumeAll i => on_vector os i (fun v => ret (ADone, set_nth i (OVector (snd (consume_all v))) os ++ [OArray (fst (consume_all v))]))
  | MoveOut i => (* array-vector.llrl:371-375 *)
      on_vector os i (fun v => ret (ADone, set_nth i (OVector (Vec null 0 0)) os ++ [OVector v]))
  | Next i => on_iter os i (fun it => do r <- next it; ret (AOption (fst r), set_nth i (OIter (snd r)) os))
  | Collect i => on_iter os i (fun it => do r <- collect it; ret (ADone, set_nth i (OIter (fst r)) os ++ [OVector (snd r)]))
  end.

(** The answers of the calls, up to the first that does not end with a value, and how that one ends. *)
Fixpoint run (m : mem A) (os : list obj) (cs : list call) : list answer * res unit :=
  match cs with
  | [] => ([], Done tt)
  | c :: cs =>
      match step os c m with
      | Done (a, os, m) => let (r, e) := run m os cs in (a :: r, e)
      | Failed => ([], Failed)
      | Wrong => ([], Wrong)
      end
  end.
End Arrays.

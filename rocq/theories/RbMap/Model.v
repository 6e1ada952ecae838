(** * std/persistent/ord-map.llrl: the persistent ordered map, a red-black tree

    A node that is in a box and one that is not hold the same, so both are one type here, and [adjust] (lines 168-184) is
    nothing. A failed assertion is [Panic]. *)
From Verif.Base Require Import Base.
Local Open Scope nat_scope.
Local Open Scope list_scope.

Section RbMap.
Context {K V : Type} (cmp : K -> K -> comparison).

(** ord-map.llrl:141-150 *)
Inductive color := Red | Black.
Inductive tree := Leaf | Tree (c : color) (k : K) (v : V) (l r : tree).

(** ord-map.llrl:186-192 *)
Definition blacken (n : tree) : tree * bool :=
  match n with
  | Tree Red k v l r => (Tree Black k v l r, false)
  | _ => (n, true)
  end.

(** ord-map.llrl:194-202 *)
Definition balance_left (k : K) (v : V) (l r : tree) : tree :=
  match l with
  | Tree Red ky vy (Tree Red kx vx a b) c => Tree Red ky vy (Tree Black kx vx a b) (Tree Black k v c r)
  | Tree Red kx vx a (Tree Red ky vy b c) => Tree Red ky vy (Tree Black kx vx a b) (Tree Black k v c r)
  | _ => Tree Black k v l r
  end.

(** ord-map.llrl:204-212 *)
Definition balance_right (k : K) (v : V) (l r : tree) : tree :=
  match r with
  | Tree Red kz vz (Tree Red ky vy b c) d => Tree Red ky vy (Tree Black k v l b) (Tree Black kz vz c d)
  | Tree Red ky vy b (Tree Red kz vz c d) => Tree Red ky vy (Tree Black k v l b) (Tree Black kz vz c d)
  | _ => Tree Black k v l r
  end.

(** ord-map.llrl:214-226 *)
Definition bubble_left (c : color) (k : K) (v : V) (l r : tree) (d : bool) : outcome (tree * bool) :=
  if d then
    match c, l with
    | Red, Tree Black kx vx a b => Ret (balance_left k v (Tree Red kx vx a b) r, false)
    | Black, Tree Black kx vx a b => Ret (balance_left k v (Tree Red kx vx a b) r, true)
    | Black, Tree Red kx vx a (Tree Black ky vy b c) => Ret (Tree Black kx vx a (balance_left k v (Tree Red ky vy b c) r), false)
    | _, _ => Panic
    end
  else Ret (Tree c k v l r, false).

(** ord-map.llrl:228-240 *)
Definition bubble_right (c : color) (k : K) (v : V) (l r : tree) (d : bool) : outcome (tree * bool) :=
  if d then
    match c, r with
    | Red, Tree Black ky vy b c => Ret (balance_right k v l (Tree Red ky vy b c), false)
    | Black, Tree Black ky vy b c => Ret (balance_right k v l (Tree Red ky vy b c), true)
    | Black, Tree Red kz vz (Tree Black ky vy b c) d => Ret (Tree Black kz vz (balance_right k v l (Tree Red ky vy b c)) d, false)
    | _, _ => Panic
    end
  else Ret (Tree c k v l r, false).

(** ord-map.llrl:242-256 *)
Fixpoint insert (k : K) (v : V) (n : tree) : tree :=
  match n with
  | Leaf => Tree Red k v Leaf Leaf
  | Tree Black ky vy l r =>
      match cmp k ky with
      | Lt => balance_left ky vy (insert k v l) r
      | Gt => balance_right ky vy l (insert k v r)
      | Eq => Tree Black k v l r
      end
  | Tree Red ky vy l r =>
      match cmp k ky with
      | Lt => Tree Red ky vy (insert k v l) r
      | Gt => Tree Red ky vy l (insert k v r)
      | Eq => Tree Red k v l r
      end
  end.

(** ord-map.llrl:258-267 *)
Fixpoint get (k : K) (n : tree) : option V :=
  match n with
  | Leaf => None
  | Tree _ kx vx l r => match cmp k kx with Lt => get k l | Gt => get k r | Eq => Some vx end
  end.

(** ord-map.llrl:269-281 *)
Fixpoint get_min (n : tree) : option (K * V) :=
  match n with
  | Leaf => None
  | Tree _ k v Leaf _ => Some (k, v)
  | Tree _ _ _ l _ => get_min l
  end.
Fixpoint get_max (n : tree) : option (K * V) :=
  match n with
  | Leaf => None
  | Tree _ k v _ Leaf => Some (k, v)
  | Tree _ _ _ _ r => get_max r
  end.

(** ord-map.llrl:310-325 *)
Fixpoint remove_min (n : tree) : outcome (tree * K * V * bool) :=
  match n with
  | Tree Black k v Leaf Leaf => Ret (Leaf, k, v, true)
  | Tree Black k v Leaf (Tree Red kx vx l r) => Ret (Tree Black kx vx l r, k, v, false)
  | Tree Red k v Leaf r => Ret (r, k, v, false)
  | Tree c kx vx l r =>
      let* (l, k, v, d) := remove_min l in
      let* (m, d) := bubble_right c kx vx l r d in
      Ret (m, k, v, d)
  | Leaf => Panic
  end.

(** ord-map.llrl:327-342 *)
Fixpoint remove_max (n : tree) : outcome (tree * K * V * bool) :=
  match n with
  | Tree Black k v Leaf Leaf => Ret (Leaf, k, v, true)
  | Tree Black k v (Tree Red kx vx l r) Leaf => Ret (Tree Black kx vx l r, k, v, false)
  | Tree Red k v l Leaf => Ret (l, k, v, false)
  | Tree c kx vx l r =>
      let* (r, k, v, d) := remove_max r in
      let* (m, d) := bubble_left c kx vx l r d in
      Ret (m, k, v, d)
  | Leaf => Panic
  end.

(** ord-map.llrl:283-308; nothing if the key is not there *)
Fixpoint remove (k : K) (n : tree) : outcome (option (tree * V * bool)) :=
  match n with
  | Leaf => Ret None
  | Tree c kx vx l r =>
      match cmp k kx with
      | Lt =>
          let* o := remove k l in
          match o with
          | None => Ret None
          | Some (l, v, d) => let* (m, d) := bubble_right c kx vx l r d in Ret (Some (m, v, d))
          end
      | Gt =>
          let* o := remove k r in
          match o with
          | None => Ret None
          | Some (r, v, d) => let* (m, d) := bubble_left c kx vx l r d in Ret (Some (m, v, d))
          end
      | Eq =>
          let* (m, d) :=
            match r with
            | Leaf => match c with Black => Ret (blacken l) | Red => Ret (l, false) end
            | _ => let* (r, ky, vy, d) := remove_min r in bubble_left c ky vy l r d
            end in
          Ret (Some (m, vx, d))
      end
  end.

(** ** The map *)

(** ord-map.llrl:47-50 *)
Definition map_insert (k : K) (v : V) (m : tree) : tree := fst (blacken (insert k v m)).

(** ord-map.llrl:56-63 *)
Definition map_remove (k : K) (m : tree) : outcome tree :=
  let* o := remove k m in
  match o with
  | Some (n, _, _) => Ret (fst (blacken n))
  | None => Ret m
  end.

(** ord-map.llrl:65-81 *)
Definition map_remove_min (m : tree) : outcome tree :=
  match m with
  | Leaf => Ret m
  | _ => let* (n, _, _, _) := remove_min m in Ret (fst (blacken n))
  end.
Definition map_remove_max (m : tree) : outcome tree :=
  match m with
  | Leaf => Ret m
  | _ => let* (n, _, _, _) := remove_max m in Ret (fst (blacken n))
  end.

(** ord-map.llrl:344-366: a cursor is a stack of entries and what is right of them, here with its top first *)
Definition cursor := list (K * V * tree).
Fixpoint push (n : tree) (stack : cursor) : cursor :=
  match n with
  | Leaf => stack
  | Tree _ k v l r => push l ((k, v, r) :: stack)
  end.
Definition next (stack : cursor) : option (K * V) * cursor :=
  match stack with
  | [] => (None, [])
  | (k, v, r) :: stack => (Some (k, v), push r stack)
  end.

(** What the iterator of a map gives until it gives nothing; [fuel] bounds the calls. *)
Fixpoint drain (fuel : nat) (stack : cursor) : outcome (list (K * V)) :=
  match fuel with
  | O => OutOfFuel
  | S fuel =>
      match next stack with
      | (None, _) => Ret []
      | (Some e, stack) => let* l := drain fuel stack in Ret (e :: l)
      end
  end.
Fixpoint count (n : tree) : nat := match n with Leaf => 0 | Tree _ _ _ l r => S (count l + count r) end.

(** ord-map.llrl:129-131 *)
Definition map_elems (m : tree) : outcome (list (K * V)) := drain (S (count m)) (push m []).

(** ord-map.llrl:86-94: [for] over the elements of [b] *)
Definition union_with (f : K -> V -> V -> V) (a b : tree) : outcome tree :=
  let* l := map_elems b in
  Ret (fold_left (fun a e =>
    match get (fst e) a with
    | None => map_insert (fst e) (snd e) a
    | Some av => map_insert (fst e) (f (fst e) av (snd e)) a
    end) l a).
(** ord-map.llrl:83-84 *)
Definition union : tree -> tree -> outcome tree := union_with (fun _ av _ => av).

(** ord-map.llrl:99-104 *)
Definition intersection_with (f : K -> V -> V -> V) (a b : tree) : outcome tree :=
  let* l := map_elems a in
  Ret (fold_left (fun m e =>
    match get (fst e) b with
    | None => m
    | Some bv => map_insert (fst e) (f (fst e) (snd e) bv) m
    end) l Leaf).
(** ord-map.llrl:96-97 *)
Definition intersection : tree -> tree -> outcome tree := intersection_with (fun _ av _ => av).

(** ord-map.llrl:109-119 *)
Definition difference_with (f : K -> V -> V -> option V) (a b : tree) : outcome tree :=
  let* l := map_elems b in
  fold_left (fun a e =>
    let* a := a in
    match get (fst e) a with
    | None => Ret (map_insert (fst e) (snd e) a)
    | Some av =>
        match f (fst e) av (snd e) with
        | None => map_remove (fst e) a
        | Some v => Ret (map_insert (fst e) v a)
        end
    end) l (Ret a).
(** ord-map.llrl:106-107 *)
Definition difference : tree -> tree -> outcome tree := difference_with (fun _ _ _ => None).

(** ord-map.llrl:403-409: the entries of both compared one by one *)
Definition map_eq (eqk : K -> K -> bool) (eqv : V -> V -> bool) (a b : tree) : outcome bool :=
  let* la := map_elems a in
  let* lb := map_elems b in
  Ret ((fix all (la lb : list (K * V)) : bool :=
    match la, lb with
    | [], [] => true
    | (k, v) :: la, (k', v') :: lb => if (eqk k k' && eqv v v')%bool then all la lb else false
    | _, _ => false
    end) la lb).

(** ** Calls on the versions of a map. A version is named by the order in which they were made; the first is the empty map. *)
Inductive call :=
| Insert (i : nat) (k : K) (v : V) | Remove (i : nat) (k : K) | RemoveMin (i : nat) | RemoveMax (i : nat)
| Union (f : K -> V -> V -> V) (i j : nat) | Intersection (f : K -> V -> V -> V) (i j : nat)
| Difference (f : K -> V -> V -> option V) (i j : nat)
| Get (i : nat) (k : K) | GetMin (i : nat) | GetMax (i : nat) | IsEmpty (i : nat) | Elems (i : nat).
Inductive answer :=
| ADone | AValue (v : option V) | AEntry (e : option (K * V)) | ABool (b : bool) | AElems (l : list (K * V)) | ANoVersion.

Definition version {A} (ms : list A) (i : nat) (f : A -> outcome (answer * list A)) : outcome (answer * list A) :=
  match nth_error ms i with None => Ret (ANoVersion, ms) | Some m => f m end.

Definition step (ms : list tree) (c : call) : outcome (answer * list tree) :=
  match c with
  | Insert i k v => version ms i (fun m => Ret (ADone, ms ++ [map_insert k v m]))
  | Remove i k => version ms i (fun m => let* m := map_remove k m in Ret (ADone, ms ++ [m]))
  | RemoveMin i => version ms i (fun m => let* m := map_remove_min m in Ret (ADone, ms ++ [m]))
  | RemoveMax i => version ms i (fun m => let* m := map_remove_max m in Ret (ADone, ms ++ [m]))
  | Union f i j => version ms i (fun a => version ms j (fun b => let* m := union_with f a b in Ret (ADone, ms ++ [m])))
  | Intersection f i j => version ms i (fun a => version ms j (fun b => let* m := intersection_with f a b in Ret (ADone, ms ++ [m])))
  | Difference f i j => version ms i (fun a => version ms j (fun b => let* m := difference_with f a b in Ret (ADone, ms ++ [m])))
  | Get i k => version ms i (fun m => Ret (AValue (get k m), ms))
  | GetMin i => version ms i (fun m => Ret (AEntry (get_min m), ms))
  | GetMax i => version ms i (fun m => Ret (AEntry (get_max m), ms))
  | IsEmpty i => version ms i (fun m => Ret (ABool (match m with Leaf => true | _ => false end), ms))   (* ord-map.llrl:29-30 *)
  | Elems i => version ms i (fun m => let* l := map_elems m in Ret (AElems l, ms))
  end.

Fixpoint run (ms : list tree) (cs : list call) : outcome (list answer * list tree) :=
  match cs with
  | [] => Ret ([], ms)
  | c :: cs =>
      let* (a, ms) := step ms c in
      let* (l, ms) := run ms cs in
      Ret (a :: l, ms)
  end.

End RbMap.
Arguments tree : clear implicits.
Arguments call : clear implicits.
Arguments answer : clear implicits.

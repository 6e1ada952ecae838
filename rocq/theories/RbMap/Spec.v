(** * What is asked of the versions of a map, and of the shape of the tree that holds one *)
From Verif.Base Require Import Base.
From Verif.OrdMap Require Import Spec.
From Verif.RbMap Require Import Model.
Local Open Scope nat_scope.
Local Open Scope list_scope.

Section Spec.
Context {K V : Type} (cmp : K -> K -> comparison).
Notation entries := (list (K * V)).

(** The entry of a key. *)
Definition entry (k : K) (l : entries) : option (K * V) := find (fun e => match cmp k (fst e) with Eq => true | _ => false end) l.

(** Union: the entries of [b] are put into [a], with both values combined where both have one. Intersection: the entries
    of [a] that [b] has too. Difference: as union, but combining may drop the entry. *)
Definition unite (f : K -> V -> V -> V) (a b : entries) : entries :=
  fold_left (fun a e => put cmp false (fst e) (match lookup cmp (fst e) a with None => snd e | Some av => f (fst e) av (snd e) end) a) b a.
Definition intersect (f : K -> V -> V -> V) (a b : entries) : entries :=
  flat_map (fun e => match lookup cmp (fst e) b with None => [] | Some bv => [(fst e, f (fst e) (snd e) bv)] end) a.
Definition differ (f : K -> V -> V -> option V) (a b : entries) : entries :=
  fold_left (fun a e =>
    match lookup cmp (fst e) a with
    | None => put cmp false (fst e) (snd e) a
    | Some av => match f (fst e) av (snd e) with None => del cmp (fst e) a | Some v => put cmp false (fst e) v a end
    end) b a.

(** What a call answers when each version is the list of its entries, and the versions after it. *)
Definition with_version (ms : list entries) (i : nat) (f : entries -> answer K V * list entries) : answer K V * list entries :=
  match nth_error ms i with None => (ANoVersion, ms) | Some m => f m end.
Definition spec_step (ms : list entries) (c : call K V) : answer K V * list entries :=
  match c with
  | Insert i k v => with_version ms i (fun m => (ADone, ms ++ [put cmp false k v m]))
  | Remove i k => with_version ms i (fun m => (ADone, ms ++ [del cmp k m]))
  | RemoveMin i => with_version ms i (fun m => (ADone, ms ++ [tl m]))
  | RemoveMax i => with_version ms i (fun m => (ADone, ms ++ [removelast m]))
  | Union f i j => with_version ms i (fun a => with_version ms j (fun b => (ADone, ms ++ [unite f a b])))
  | Intersection f i j => with_version ms i (fun a => with_version ms j (fun b => (ADone, ms ++ [intersect f a b])))
  | Difference f i j => with_version ms i (fun a => with_version ms j (fun b => (ADone, ms ++ [differ f a b])))
  | Get i k => with_version ms i (fun m => (AValue (lookup cmp k m), ms))
  | GetMin i => with_version ms i (fun m => (AEntry (first m), ms))
  | GetMax i => with_version ms i (fun m => (AEntry (final m), ms))
  | IsEmpty i => with_version ms i (fun m => (ABool (match m with [] => true | _ => false end), ms))
  | Elems i => with_version ms i (fun m => (AElems m, ms))
  end.
Fixpoint spec_run (ms : list entries) (cs : list (call K V)) : list (answer K V) * list entries :=
  match cs with
  | [] => ([], ms)
  | c :: cs => let (a, ms) := spec_step ms c in let (r, ms) := spec_run ms cs in (a :: r, ms)
  end.

(** A red-black tree: as many black nodes, [n], on every way down, and no red node below a red one; the top node may be red
    only if [red] says so. *)
Fixpoint ok (red : bool) (n : nat) (t : tree K V) : Prop :=
  match t, n with
  | Leaf, n => n = 0
  | Tree Red _ _ l r, n => red = true /\ ok false n l /\ ok false n r
  | Tree Black _ _ l r, S n => ok true n l /\ ok true n r
  | Tree Black _ _ _ _, O => False
  end.

(** The longest way down, and the number of entries. *)
Fixpoint height (t : tree K V) : nat := match t with Leaf => 0 | Tree _ _ _ l r => S (Nat.max (height l) (height r)) end.

End Spec.

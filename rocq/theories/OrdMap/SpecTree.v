(** * What is asked of a map, and of the shape of the tree that holds it *)
From Verif.Base Require Import Base.
From Verif.OrdMap Require Import Model Spec.
Local Open Scope nat_scope.
Local Open Scope list_scope.

Section Tree.
Context {K V : Type} (cmp : K -> K -> comparison).

(** What a call answers when the map is the list of its entries, and the entries after it. *)
Definition spec_step (l : list (K * V)) (c : call K V) : answer K V * list (K * V) :=
  match c with
  | Insert k v => (AValue (lookup cmp k l), put cmp true k v l)
  | Remove k => (AValue (lookup cmp k l), del cmp k l)
  | RemoveMin => (AEntry (first l), tl l)
  | RemoveMax => (AEntry (final l), removelast l)
  | Clear => (ANone, [])
  | Get k => (AValue (lookup cmp k l), l)
  | GetMin => (AEntry (first l), l)
  | GetMax => (AEntry (final l), l)
  | Length => (ALength (List.length l), l)
  | Elems => (AElems l, l)
  end.

Fixpoint spec_run (l : list (K * V)) (cs : list (call K V)) : list (answer K V) * list (K * V) :=
  match cs with
  | [] => ([], l)
  | c :: cs => let (a, l) := spec_step l c in let (r, l) := spec_run l cs in (a :: r, l)
  end.

(** A tree with all its leaves [h] levels down. Every node holds at most eleven elements, the nodes below the top one at
    least five and the top one at least [lo], and there is one edge more than there are elements. *)
Fixpoint ok (lo h : nat) (n : node K V) : Prop :=
  match n, h with
  | Node xs None, O => lo <= List.length xs <= 11
  | Node xs (Some es), S h => lo <= List.length xs <= 11 /\ List.length es = S (List.length xs) /\ Forall (ok 5 h) es
  | _, _ => False
  end.

(** A balanced tree: the top node has an element unless it is a leaf. *)
Definition balanced (h : nat) (n : node K V) : Prop := ok (match h with O => 0 | S _ => 1 end) h n.

End Tree.

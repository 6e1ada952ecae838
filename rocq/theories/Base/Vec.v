(** Vectors with panicking access, and fuelled computations that converge. *)
From Verif.Base Require Import Base.

(** Indexing a [Vec]; out of range is a panic. *)
Definition vget {A} (l : list A) (i : nat) : outcome A :=
  match nth_error l i with Some x => Ret x | None => Panic end.
Fixpoint vset {A} (l : list A) (i : nat) (x : A) : outcome (list A) :=
  match l, i with
  | [], _ => Panic
  | _ :: l, O => Ret (x :: l)
  | y :: l, S i => let* l := vset l i x in Ret (y :: l)
  end.

(** [conv f r]: the fuelled computation [f] returns [r], for every sufficient amount of fuel. *)
Definition conv {A} (f : nat -> outcome A) (r : A) : Prop :=
  exists n, forall m, (n <= m)%nat -> f m = Ret r.

(** * What the operations on strings mean *)
From Coq Require Import NArith.
From Verif.Base Require Import Base.
From Verif.Utf8 Require Import Spec.
Local Open Scope list_scope.

(** A string: the bytes of characters; no longer than memory. *)
Definition is_string (s : list N) : Prop := exists cs, Forall known cs /\ s = flat_map utf8 cs.
Definition fits (s : list N) : Prop := (N.of_nat (List.length s) < 2 ^ 64)%N.

(** [part] is found in [s] after [i] bytes. *)
Definition occurs_at (part s : list N) (i : nat) : Prop := exists a b, s = a ++ part ++ b /\ List.length a = i.

(** Strings with another one between them. *)
Fixpoint with_between (sep : list N) (l : list (list N)) : list N :=
  match l with [] => [] | [s] => s | s :: l => s ++ sep ++ with_between sep l end.

(** The pieces of a string between the separators found from the left, each search starting after the separator
    found before. *)
Inductive pieces (sep : list N) : list N -> list (list N) -> Prop :=
| Pieces_last s : (forall i, ~ occurs_at sep s i) -> pieces sep s [s]
| Pieces_more s a b l : s = a ++ sep ++ b -> (forall i, occurs_at sep s i -> List.length a <= i) -> pieces sep b l -> pieces sep s (a :: l).

(** [k] times the same string *)
Definition times (k : nat) (s : list N) : list N := List.concat (repeat s k).

(** A line without the carriage return before its end. *)
Definition chomp (l : list N) : list N :=
  match rev l with 13%N :: r => rev r | _ => l end.

(** The lines of a string cut at every line feed: all but the last are ended by a line feed, and lose a carriage return
    before it; the last is not, and is no line if it is empty. *)
Definition lines_of (l : list (list N)) : list (list N) :=
  map chomp (removelast l) ++ match last l [] with [] => [] | s => [s] end.

(** The order of dictionaries. *)
Fixpoint lexicographic (a b : list N) : comparison :=
  match a, b with
  | [], [] => Eq
  | [], _ => Lt
  | _, [] => Gt
  | x :: a, y :: b => match N.compare x y with Eq => lexicographic a b | c => c end
  end.
